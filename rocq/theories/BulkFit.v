(** When a sequence of entries fits in one leaf, and what Bulkload does then. *)
From Coq Require Import List Arith ZArith Bool Lia Sorted.
From Verif Require Import Params Mem Common Spec NodeAbs FixModel FixProofs VarModel VarProofs TreeState
  Levels TreeHeap BulkModel BulkProofs BulkFix BulkVar.
Import ListNotations.

(** What a leaf built by Bulkload takes: header, entries, two fence keys. *)
Definition leaf_bytes_fix {P : Params} (l : list (K * V)) : nat :=
  hdr + (ks + plen) * length l + 2 * ks.
Definition leaf_bytes_var {P : Params} (l : list (K * V)) : nat :=
  hdr + fold_right (fun e n => klen (fst e) + plen + metalen + n) 0 l + 2 * maxkey.

Section Small.
Context {P : Params} {ND : Type} {B : BulkOps P ND}.

(** Everything fits in one leaf: RemoveLeftmostKeys takes the leaf's first payload for a
    child pointer. *)
Lemma bulkload_one_leaf fu entries t s k d d' : entries <> [] ->
  t <= 1 \/ length entries < t -> bk_fill false (pvs entries) = Some (k, d, []) ->
  bk_inner d = false -> bk_strip d = Some d' -> bk_child d' 0 = None -> 1 <= bk_cap -> 0 < fu ->
  bulkload fu entries t s = Undef.
Proof.
  intros Hne Ht Hf Hi Hs Hc Hcap Hfu. destruct fu as [|fu]; [lia|].
  unfold bulkload. fold (pvs entries). destruct entries as [|e entries]; [congruence|].
  assert (Hl : length (pvs (e :: entries)) = length (e :: entries)) by apply map_length. rewrite Hl.
  replace ((t <=? 1) || (length (e :: entries) <? t)) with true.
  2:{ symmetry. apply orb_true_iff. rewrite Nat.leb_le, Nat.ltb_lt. exact Ht. }
  destruct (pvs (e :: entries)) as [|e0 es] eqn:Ee; [discriminate|].
  destruct s as [h r f lks g].
  set (s1 := St (upd h f (Some d)) r (S f) lks g).
  assert (Hly : bk_layer (S fu) false None (e0 :: es) (St h r f lks g) = Ok [(k, PP f)] s1).
  { cbn [bk_layer]. rewrite (mb_lift _ _ _ _ Hf). unfold mbind, alloc, mret. cbn [fr hp rt lk gb fst snd].
    destruct fu; reflexivity. }
  assert (Hx : forall cap x, 1 <= cap -> bk_index (S fu) cap x [(k, PP f)] s1 = Ok (x, [(k, PP f)]) s1).
  { intros cap x H. cbn [bk_index length]. destruct (1 <=? cap) eqn:E; [reflexivity|]. apply Nat.leb_gt in E. lia. }
  assert (H1 : (r0 <- bk_single (S fu) (e0 :: es) ;; mret (snd r0)) (St h r f lks g) = Ok [(k, PP f)] s1).
  { unfold bk_single. rewrite (mb_ok _ _ _ _ _ (eq_trans (mb_ok _ _ _ _ _ Hly) (Hx _ _ Hcap))). reflexivity. }
  rewrite (mb_ok _ _ _ _ _ H1), (mb_ok _ _ _ _ _ (Hx 1 0 (le_n 1))). cbn [snd front pay_addr].
  rewrite (mb_lift _ f _ _ eq_refl). unfold s1. rewrite mb_setroot.
  assert (Hu : upd h f (Some d) f = Some d) by (unfold upd; now rewrite Nat.eqb_refl).
  cbn [bk_leftmost]. rewrite (mb_getn _ _ _ _ _ _ _ _ Hu). rewrite Hi, (mb_lift _ _ _ _ Hs).
  rewrite mb_setn by congruence. rewrite Hc. reflexivity.
Qed.
End Small.

Section Fix.
Context {P : Params} {O : OrdLaws P} {F : FixSizes P} {G : FixBulkGood P}.

Lemma fx_loop_rest pl : forall es m off size rc m' off' rc' rest,
  fx_bulk_loop m pl off size rc es = Some (m', off', rc', rest) ->
  (rest = [] -> es <> [] -> size + (ks + pl) * length es + 2 * ks <= bulkcap) /\
  (rest <> [] -> bulkcap < size + (ks + pl) * length es + 2 * ks).
Proof.
  induction es as [|[k p] es IH]; intros m off size rc m' off' rc' rest E; cbn [fx_bulk_loop] in E.
  - injection E as <- <- <- <-. split; congruence.
  - cbn [length]. rewrite Nat.mul_succ_r.
    destruct (bulkcap <? size + (ks + pl) + 2 * ks) eqn:Ec.
    + injection E as <- <- <- <-. apply Nat.ltb_lt in Ec. split; [congruence|]. intros _.
      pose proof (Nat.le_0_l ((ks + pl) * length es)). lia.
    + apply Nat.ltb_ge in Ec.
      destruct (fx_setpayload m pl off p) as [[m1 off1]|]; [|discriminate].
      destruct (fx_setkey m1 rc k) as [m2|]; [|discriminate].
      destruct (IH _ _ _ _ _ _ _ _ E) as [A B]. split.
      * intros Hr _. destruct es as [|x es]; [cbn [length]; rewrite Nat.mul_0_r; lia|].
        specialize (A Hr ltac:(discriminate)). lia.
      * intros Hr. specialize (B Hr). lia.
Qed.

Lemma fx_fill_rest entries : entries <> [] -> exists k d l2, fx_bulk false (pvs entries) = Some (k, d, l2) /\
  (l2 = [] <-> leaf_bytes_fix entries <= bulkcap) /\ fn_inner d = false /\
  exists v0 l1, frep d (ANode false false None (Some k) None (Slot (Some k) (PV v0) false :: l1)).
Proof.
  intros Hne. destruct entries as [|[k0 v0] entries]; [congruence|].
  destruct (fx_bulk_ok false (k0, PV v0) (pvs entries)) as (d & l1 & l2 & E & Ees & Hl1 & _ & Hr & _).
  { constructor; [now eexists|]. apply Forall_forall. intros x Hx. apply in_map_iff in Hx as (y & <- & _). now eexists. }
  change (pvs ((k0, v0) :: entries)) with ((k0, PV v0) :: pvs entries).
  exists k0, d, l2. split; [exact E|]. split; [|split].
  - unfold fx_bulk in E.
    destruct (fx_bulk_loop mem_undef plen page hdr 0 ((k0, PV v0) :: pvs entries)) as [[[[m off] rc] rest]|] eqn:El; [|discriminate].
    destruct (fx_loop_rest _ _ _ _ _ _ _ _ _ _ El) as [A B].
    destruct (fx_cpkey m rc m 0) as [m1|]; [|discriminate].
    destruct (fx_key _ 0) as [kk|]; [|discriminate]. injection E as _ _ <-.
    unfold leaf_bytes_fix. cbn [length] in *. unfold pvs in A, B. rewrite map_length in A, B. split.
    + intros Hr'. apply A; [exact Hr'|discriminate].
    + intros Hle. destruct rest; [reflexivity|]. specialize (B ltac:(discriminate)). lia.
  - destruct Hr as [Hr _]. exact (fr_inner _ _ Hr).
  - destruct l1 as [|e1 l1]; [congruence|]. injection Ees as <- Ees. exists v0, (map slot_of l1). exact (proj1 Hr).
Qed.

Lemma fx_wide sl entries t : entries <> [] -> bulkcap < leaf_bytes_fix entries -> wide (B := fix_bulk sl) (pvs entries) t.
Proof.
  intros Hne Hb. destruct (fx_fill_rest entries Hne) as (k & d & l2 & E & Hl & _).
  right. destruct l2 as [|e2 l2]; [assert (leaf_bytes_fix entries <= bulkcap) by (now apply Hl); lia|].
  exists k, d, e2, l2. exact E.
Qed.

Lemma fx_strip_child d k v l : frep d (ANode false false None (Some k) None (Slot (Some k) (PV v) false :: l)) ->
  exists d', fx_strip d = Some d' /\ fx_child d' 0 = None.
Proof.
  intros H. pose proof (fr_fits _ _ H) as Hf. unfold fx_used in Hf.
  rewrite (fr_rc _ _ H), (fr_block _ _ H) in Hf. cbn [a_inner a_slots length plof] in Hf.
  rewrite !Nat.mul_succ_r in Hf.
  pose proof (Nat.le_0_l (plen * length l)).
  unfold fx_strip. rewrite mwr_ok; [|unfold fk_off; lia|rewrite repeat_length; unfold fk_off; cbn; nia].
  eexists. split; [reflexivity|]. unfold fx_child. cbn [fn_mem fn_pl].
  destruct (mrd _ _ ptrlen) as [b|] eqn:E; [|reflexivity]. rewrite (fr_pl _ _ H) in E. cbn [a_inner plof] in E.
  unfold mrd in E. destruct (inpage _ _) in E; [|discriminate]. injection E as <-.
  pose proof (fs_pays _ _ _ (fr_slots _ _ H) 0 _ eq_refl) as Hp. cbn [a_inner plof s_pay] in Hp.
  rewrite <- (payb_wr_far (fn_mem d) (fk_off 0) (repeat CUndef ks)) in Hp.
  2:{ rewrite repeat_length. unfold fk_off, fp_off. cbn. nia. }
  unfold payb, rd, enc_pay in Hp. cbn [paylen] in Hp. unfold rd.
  pose proof fx_plen_pos. pose proof fx_ptrlen_pos. destruct plen as [|n]; [lia|]. destruct ptrlen as [|n']; [lia|].
  cbn [seq map] in *. injection Hp as Hp _. rewrite Hp. unfold dec_pay. destruct (cells_eqb _ _); reflexivity.
Qed.

Lemma fx_small sl fu entries t s : entries <> [] -> t <= 1 \/ length entries < t ->
  leaf_bytes_fix entries <= bulkcap -> 0 < fu -> bulkload (B := fix_bulk sl) fu entries t s = Undef.
Proof.
  intros Hne Ht Hb Hfu. destruct (fx_fill_rest entries Hne) as (k & d & l2 & E & Hl & Hi & v0 & l1 & Hr).
  apply Hl in Hb as ->. destruct (fx_strip_child _ _ _ _ Hr) as (d' & E1 & E2).
  eapply bulkload_one_leaf; eauto. exact fb_inner.
Qed.
End Fix.

Section Var.
Context {P : Params} {O : OrdLaws P} {F : VarSizes P} {G : VarBulkGood P}.

Lemma vx_loop_rest : forall es m off size rc m' off' rc' rest,
  vx_bulk_loop m off size rc es = Some (m', off', rc', rest) ->
  let w := fold_right (fun e n => klen (fst e) + paylen (snd e) + metalen + n) 0 es in
  (rest = [] -> es <> [] -> size + w + maxkey <= bulkcap) /\
  (rest <> [] -> bulkcap < size + w + maxkey).
Proof.
  induction es as [|[k p] es IH]; intros m off size rc m' off' rc' rest E; cbn [vx_bulk_loop] in E.
  - injection E as <- <- <- <-. split; congruence.
  - cbn [fold_right fst snd]. cbv zeta in *.
    destruct (bulkcap <? size + (klen k + paylen p + metalen) + maxkey) eqn:Ec.
    + injection E as <- <- <- <-. apply Nat.ltb_lt in Ec. split; [congruence|]. intros _. lia.
    + apply Nat.ltb_ge in Ec.
      destruct (vx_setpay m off p) as [[m1 off1]|]; [|discriminate].
      destruct (vx_setkey m1 off1 k) as [[m2 off2]|]; [|discriminate].
      destruct (vx_setmeta _ _ _) as [m3|]; [|discriminate].
      destruct (IH _ _ _ _ _ _ _ _ E) as [A B]. split.
      * intros Hr _. destruct es as [|x es]; [cbn [fold_right]; lia|].
        specialize (A Hr ltac:(discriminate)). lia.
      * intros Hr. specialize (B Hr). lia.
Qed.

Lemma leaf_bytes_pvs entries : fold_right (fun e n => klen (fst e) + paylen (snd e) + metalen + n) 0 (pvs entries) =
  fold_right (fun e n => klen (fst e) + plen + metalen + n) 0 entries.
Proof. induction entries as [|e l IH]; [reflexivity|]. cbn. unfold pvs in IH. cbn in IH. now rewrite IH. Qed.

Lemma vx_fill_rest entries : entries <> [] -> (forall e, In e entries -> vkey (fst e)) ->
  exists k d l2, vx_bulk false (pvs entries) = Some (k, d, l2) /\
  (l2 = [] <-> leaf_bytes_var entries <= bulkcap) /\ vn_inner d = false /\
  exists v0 l1, vrep d (ANode false false None (Some k) None (Slot (Some k) (PV v0) false :: l1)).
Proof.
  intros Hne Hv. destruct entries as [|[k0 v0] entries]; [congruence|].
  destruct (vx_bulk_ok false (k0, PV v0) (pvs entries)) as (d & l1 & l2 & E & Ees & Hl1 & _ & Hr & _).
  { constructor; [now eexists|]. apply Forall_forall. intros x Hx. apply in_map_iff in Hx as (y & <- & _). now eexists. }
  { intros x [<-|Hx]; [apply (Hv (k0, v0)); now left|]. apply in_map_iff in Hx as (y & <- & Hy). apply (Hv y). now right. }
  change (pvs ((k0, v0) :: entries)) with ((k0, PV v0) :: pvs entries).
  exists k0, d, l2. split; [exact E|]. split; [|split].
  - unfold vx_bulk in E. change ((k0, PV v0) :: pvs entries) with (pvs ((k0, v0) :: entries)) in E.
    destruct (vx_bulk_loop mem_undef (page - maxkey) (hdr + maxkey) 0 (pvs ((k0, v0) :: entries))) as [[[[m off] rc] rest]|] eqn:El;
      [|discriminate].
    destruct (vx_loop_rest _ _ _ _ _ _ _ _ _ El) as [A B].
    cbn [pvs map fst] in E.
    destruct (vx_setkey m page k0) as [[m1 lo]|]; [|discriminate]. injection E as _ <-.
    unfold leaf_bytes_var. rewrite leaf_bytes_pvs in A, B. split.
    + intros Hr'. specialize (A Hr' ltac:(discriminate)). lia.
    + intros Hle. destruct rest; [reflexivity|]. specialize (B ltac:(discriminate)). lia.
  - destruct Hr as (L & dead & Hr). exact (v_inner _ _ _ _ Hr).
  - destruct l1 as [|e1 l1]; [congruence|]. injection Ees as <- Ees. exists v0, (map slot_of l1). exact Hr.
Qed.

Lemma vx_wide sl entries t : entries <> [] -> (forall e, In e entries -> vkey (fst e)) ->
  bulkcap < leaf_bytes_var entries -> wide (B := var_bulk sl) (pvs entries) t.
Proof.
  intros Hne Hv Hb. destruct (vx_fill_rest entries Hne Hv) as (k & d & l2 & E & Hl & _).
  right. destruct l2 as [|e2 l2]; [assert (leaf_bytes_var entries <= bulkcap) by (now apply Hl); lia|].
  exists k, d, e2, l2. exact E.
Qed.

Lemma vx_strip_child d k v l : vrep d (ANode false false None (Some k) None (Slot (Some k) (PV v) false :: l)) ->
  exists d', vx_strip d = Some d' /\ vx_child d' 0 = None.
Proof.
  intros (L & dead & H). destruct (v_slot _ _ _ _ H 0 _ eq_refl) as [off Ho].
  unfold vx_strip. rewrite (v_meta _ _ _ _ H 0 _ _ Ho). unfold vmt. cbn [md_off md_klen md_rlen s_key klen_o s_del].
  destruct (v_data _ _ _ _ H 0 _ _ Ho) as [_ [_ B]]. cbn [s_key klen_o s_pay] in B.
  destruct (v_chunk _ _ _ _ H 0 _ _ Ho) as [C D].
  pose proof (nth_error_lt _ _ _ Ho) as Hlt. pose proof vs_meta_pos. pose proof vs_plen_pos. pose proof vs_ptrlen_pos.
  assert (Hm : vm_off 1 <= off).
  { etransitivity; [|exact C]. unfold vm_off. apply Nat.add_le_mono_l, Nat.mul_le_mono_r. lia. }
  rewrite vx_setmeta_ok by lia. eexists. split; [reflexivity|]. unfold vx_child. cbn [vn_mem].
  set (mt := Meta _ _ _ _). unfold vx_meta. rewrite mrd_ok; [|unfold vm_off; lia|unfold vm_off in *; cbn in *; lia].
  assert (E0 : forall m o, rd (wr m o (enc_meta mt)) o metalen = enc_meta mt).
  { intros m o. rewrite <- (length_enc_meta mt) at 1. apply rd_wr_same. }
  rewrite E0, dec_enc_meta by auto. unfold mt at 2 3. cbn [md_off md_klen]. rewrite Nat.add_0_r.
  destruct (mrd _ _ ptrlen) as [b|] eqn:E; [|reflexivity].
  unfold mrd in E. destruct (inpage _ _) in E; [|discriminate]. injection E as <-.
  rewrite <- (rd_wr_other (vn_mem d) (vm_off 0) (enc_meta mt)) in B.
  2:{ rewrite length_enc_meta. unfold vm_off in *. cbn in *. lia. }
  unfold rd, enc_pay in B. cbn [paylen] in B. unfold rd.
  destruct plen as [|n]; [lia|]. destruct ptrlen as [|n']; [lia|].
  cbn [seq map] in *. injection B as B _. rewrite B. unfold dec_pay. destruct (cells_eqb _ _); reflexivity.
Qed.

Lemma vx_small sl fu entries t s : entries <> [] -> (forall e, In e entries -> vkey (fst e)) ->
  t <= 1 \/ length entries < t ->
  leaf_bytes_var entries <= bulkcap -> 0 < fu -> bulkload (B := var_bulk sl) fu entries t s = Undef.
Proof.
  intros Hne Hv Ht Hb Hfu. destruct (vx_fill_rest entries Hne Hv) as (k & d & l2 & E & Hl & Hi & v0 & l1 & Hr).
  apply Hl in Hb as ->. destruct (vx_strip_child _ _ _ _ Hr) as (d' & E1 & E2).
  eapply bulkload_one_leaf; eauto. exact vb_inner.
Qed.
End Var.
