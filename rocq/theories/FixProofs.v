(** The fixed-length node refines the abstract slot list. *)
From Coq Require Import List Arith ZArith Bool Lia Sorted.
From Verif Require Import Params Mem Common Spec NodeAbs FixModel.
Import ListNotations.

(** Size facts about fixed-length keys: every key has sizeof(Key) bytes and objects are
    not empty. *)
Class FixSizes (P : Params) : Prop := {
  fx_klen : forall k, klen k = ks;
  fx_ks_pos : 0 < ks;
  fx_plen_pos : 0 < plen;
  fx_ptrlen_pos : 0 < ptrlen;
  fx_hdr_page : hdr <= page;
}.

Section FixProofs.
Context {P : Params} {O : OrdLaws P} {F : FixSizes P}.

Definition keyb (m : mem) (i : nat) : list cell := rd m (fk_off i) ks.
Definition payb (m : mem) (pl i : nat) : list cell := rd m (fp_off pl i) pl.

Definition plof (inner : bool) : nat := if inner then ptrlen else plen.
Definition pay_kind (inner : bool) (p : pay) : Prop :=
  match p with PV _ => inner = false | PP _ => inner = true end.

Lemma plof_pos b : 0 < plof b.
Proof. destruct b; cbn; [apply fx_ptrlen_pos | apply fx_plen_pos]. Qed.
Lemma pay_kind_len b p : pay_kind b p -> paylen p = plof b.
Proof. destruct p; cbn; intros ->; auto. Qed.

Definition isSome {A} (o : option A) : bool := match o with Some _ => true | None => false end.

(** The page of [n] holds exactly the slots [sl]. *)
Record fslots (m : mem) (inner : bool) (sl : list slot) : Prop := {
  fs_keys : forall i s k, nth_error sl i = Some s -> s_key s = Some k -> keyb m i = enc_key k;
  fs_pays : forall i s, nth_error sl i = Some s -> payb m (plof inner) i = enc_pay (s_pay s);
}.

Record frep (n : fnode) (a : anode) : Prop := {
  fr_inner : fn_inner n = a_inner a;
  fr_removed : fn_removed n = a_removed a;
  fr_next : fn_next n = a_next a;
  fr_rc : fn_rc n = length (a_slots a);
  fr_pl : fn_pl n = plof (a_inner a);
  fr_block : fn_block n = plof (a_inner a) * length (a_slots a);
  fr_fits : hdr + fx_used n <= page;
  fr_slots : fslots (fn_mem n) (a_inner a) (a_slots a);
  fr_kind : Forall (fun s => pay_kind (a_inner a) (s_pay s) /\ s_del s = false) (a_slots a);
  fr_highb : fn_high n = isSome (a_high a);
  fr_high : forall h, a_high a = Some h -> keyb (fn_mem n) (length (a_slots a)) = enc_key h;
  fr_low : forall k, a_low a = Some k -> fn_low n = true /\
     keyb (fn_mem n) (length (a_slots a) + b2n (isSome (a_high a))) = enc_key k;
}.

(** ** Index-level memory lemmas *)

Lemma fk_off_S i : fk_off (S i) = fk_off i + ks.
Proof. unfold fk_off. cbn. lia. Qed.
Lemma fk_off_add i j : fk_off (i + j) = fk_off i + j * ks.
Proof. unfold fk_off. rewrite Nat.mul_add_distr_r. lia. Qed.
Lemma fk_off_mono i j : i <= j -> fk_off i <= fk_off j.
Proof. intros H. unfold fk_off. pose proof (Nat.mul_le_mono_r _ _ ks H). lia. Qed.
Lemma fk_off_lt i j : i < j -> fk_off i + ks <= fk_off j.
Proof. intros H. rewrite <- fk_off_S. apply fk_off_mono. lia. Qed.
Lemma fk_off_hdr i : hdr <= fk_off i.
Proof. unfold fk_off. lia. Qed.

Lemma keyb_mv m d sm s cnt i :
  keyb (mv m (fk_off d) sm (fk_off s) (ks * cnt)) i =
  if (d <=? i) && (i <? d + cnt) then keyb sm (s + (i - d)) else keyb m i.
Proof.
  unfold keyb. destruct (d <=? i) eqn:E1; cbn.
  - apply Nat.leb_le in E1. destruct (i <? d + cnt) eqn:E2; cbn.
    + apply Nat.ltb_lt in E2.
      assert (exists j, i = d + j) as [j ->] by (exists (i - d); lia).
      replace (d + j - d) with j by lia.
      assert (j * ks + ks <= ks * cnt).
      { replace (j*ks + ks) with (ks * (S j)) by lia. apply Nat.mul_le_mono_l. lia. }
      rewrite rd_mv_in by (rewrite fk_off_add; lia).
      f_equal. rewrite !fk_off_add. lia.
    + apply Nat.ltb_ge in E2. apply rd_mv_other. right.
      assert (exists j, i = d + cnt + j) as [j ->] by (exists (i - d - cnt); lia).
      rewrite !fk_off_add. lia.
  - apply Nat.leb_gt in E1. apply rd_mv_other. left. apply fk_off_lt. auto.
Qed.

Lemma keyb_cp m d sm s i :
  keyb (mv m (fk_off d) sm (fk_off s) ks) i = if i =? d then keyb sm s else keyb m i.
Proof.
  replace ks with (ks * 1) at 1 by lia. rewrite keyb_mv.
  destruct (i =? d) eqn:E.
  - apply Nat.eqb_eq in E. subst.
    replace (d <=? d) with true by (symmetry; apply Nat.leb_le; lia).
    replace (d <? d + 1) with true by (symmetry; apply Nat.ltb_lt; lia).
    cbn. f_equal. lia.
  - apply Nat.eqb_neq in E. destruct (d <=? i) eqn:E1; cbn; auto.
    apply Nat.leb_le in E1.
    replace (i <? d + 1) with false by (symmetry; apply Nat.ltb_ge; lia). auto.
Qed.

Lemma keyb_wr m j l i : length l = ks ->
  keyb (wr m (fk_off j) l) i = if i =? j then l else keyb m i.
Proof.
  intros Hl. unfold keyb. destruct (i =? j) eqn:E.
  - apply Nat.eqb_eq in E. subst. rewrite <- Hl. apply rd_wr_same.
  - apply Nat.eqb_neq in E. apply rd_wr_other.
    destruct (Nat.lt_ge_cases i j).
    + left. now apply fk_off_lt.
    + right. rewrite Hl. apply fk_off_lt. lia.
Qed.

Lemma keyb_mv_far m o sm s n i :
  fk_off (S i) <= o \/ n = 0 -> keyb (mv m o sm s n) i = keyb m i.
Proof.
  intros [H|H]; unfold keyb.
  - apply rd_mv_other. left. rewrite fk_off_S in H. lia.
  - subst. apply rd_ext. intros j Hj. unfold mv.
    destruct (o <=? fk_off i + j) eqn:E; cbn; auto.
    destruct (fk_off i + j <? o + 0) eqn:E2; auto.
    apply Nat.leb_le in E. apply Nat.ltb_lt in E2. lia.
Qed.

Lemma keyb_wr_far m o l i :
  fk_off (S i) <= o -> keyb (wr m o l) i = keyb m i.
Proof.
  intros H; unfold keyb. apply rd_wr_other. left. rewrite fk_off_S in H. lia.
Qed.

Lemma payb_mv_far m o sm s n pl i :
  o + n <= fp_off pl i \/ n = 0 -> payb (mv m o sm s n) pl i = payb m pl i.
Proof.
  intros [H|H]; unfold payb.
  - apply rd_mv_other. auto.
  - subst. apply rd_ext. intros j Hj. unfold mv.
    destruct (o <=? fp_off pl i + j) eqn:E; cbn; auto.
    destruct (fp_off pl i + j <? o + 0) eqn:E2; auto.
    apply Nat.leb_le in E. apply Nat.ltb_lt in E2. lia.
Qed.

Lemma payb_wr_far m o l pl i :
  o + length l <= fp_off pl i -> payb (wr m o l) pl i = payb m pl i.
Proof. intros H; unfold payb. apply rd_wr_other. auto. Qed.

Lemma fp_off_lt pl i j : i < j -> j * pl + pl <= page -> fp_off pl j + pl <= fp_off pl i.
Proof.
  unfold fp_off. intros H1 H2.
  assert (i * pl + pl <= j * pl). { replace (i*pl+pl) with (S i * pl) by lia. apply Nat.mul_le_mono_r. lia. }
  lia.
Qed.

(** Payload moves between blocks ending at indices [de] and [se]. *)
Lemma payb_mv m sm pl de se cnt i :
  cnt <= de -> cnt <= se -> de * pl <= page -> se * pl <= page -> (i + 1) * pl <= page ->
  payb (mv m (page - de * pl) sm (page - se * pl) (pl * cnt)) pl i =
  if (de - cnt <=? i) && (i <? de) then payb sm pl (i - (de - cnt) + (se - cnt))
  else payb m pl i.
Proof.
  intros H1 H2 H3 H4 H5. unfold payb, fp_off.
  destruct (de - cnt <=? i) eqn:E1; cbn.
  - apply Nat.leb_le in E1. destruct (i <? de) eqn:E2; cbn.
    + apply Nat.ltb_lt in E2.
      set (j := i - (de - cnt)).
      assert (Hj : i = de - cnt + j) by lia.
      assert (Hj2 : (j + 1) <= cnt) by lia.
      assert (A1 : (i + 1) * pl <= de * pl) by (apply Nat.mul_le_mono_r; lia).
      assert (A2 : (j + (se - cnt) + 1) * pl <= se * pl) by (apply Nat.mul_le_mono_r; lia).
      assert (A3 : de * pl = (i + 1) * pl + (cnt - (j + 1)) * pl).
      { rewrite <- Nat.mul_add_distr_r. f_equal. lia. }
      assert (A4 : se * pl = (j + (se - cnt) + 1) * pl + (cnt - (j + 1)) * pl).
      { rewrite <- Nat.mul_add_distr_r. f_equal. lia. }
      assert (A5 : (cnt - (j + 1)) * pl + pl <= pl * cnt).
      { replace ((cnt - (j + 1)) * pl + pl) with (pl * (S (cnt - (j + 1)))) by lia.
        apply Nat.mul_le_mono_l. lia. }
      rewrite rd_mv_in by lia. f_equal. lia.
    + apply Nat.ltb_ge in E2. apply rd_mv_other. left.
      assert ((S de) * pl <= (i + 1) * pl) by (apply Nat.mul_le_mono_r; lia). lia.
  - apply Nat.leb_gt in E1. apply rd_mv_other. right.
    assert (A1 : (i + 1) * pl <= (de - cnt) * pl) by (apply Nat.mul_le_mono_r; lia).
    assert (A2 : de * pl = (de - cnt) * pl + pl * cnt).
    { rewrite (Nat.mul_comm pl cnt), <- Nat.mul_add_distr_r. f_equal. lia. }
    lia.
Qed.

Lemma payb_wr m pl j l i : length l = pl -> (j + 1) * pl <= page -> (i + 1) * pl <= page ->
  payb (wr m (fp_off pl j) l) pl i = if i =? j then l else payb m pl i.
Proof.
  intros Hl Hj Hi. unfold payb. destruct (i =? j) eqn:E.
  - apply Nat.eqb_eq in E. subst. apply rd_wr_same.
  - apply Nat.eqb_neq in E. apply rd_wr_other.
    destruct (Nat.lt_ge_cases i j).
    + right. rewrite Hl. apply fp_off_lt; lia.
    + left. apply fp_off_lt; lia.
Qed.

(** ** Derived reads *)

Lemma frep_fits n a : frep n a ->
  hdr + ks * (length (a_slots a) + b2n (fn_low n) + b2n (isSome (a_high a)))
   + plof (a_inner a) * length (a_slots a) <= page.
Proof.
  intros H. pose proof (fr_fits _ _ H) as Hf. unfold fx_used in Hf.
  rewrite (fr_rc _ _ H), (fr_block _ _ H), (fr_highb _ _ H) in Hf. lia.
Qed.

Lemma fx_key_ok n i k :
  fk_off (S i) <= page -> keyb (fn_mem n) i = enc_key k -> fx_key n i = Some k.
Proof.
  intros H1 H2. unfold fx_key. rewrite mrd_ok.
  - unfold keyb in H2. rewrite H2. apply dec_enc_key. rewrite fx_klen. apply fx_ks_pos.
  - apply fk_off_hdr.
  - rewrite fk_off_S in H1. lia.
Qed.

Lemma frep_key_inpage n a i : frep n a ->
  i < length (a_slots a) + b2n (fn_low n) + b2n (isSome (a_high a)) -> fk_off (S i) <= page.
Proof.
  intros H Hi. pose proof (frep_fits _ _ H) as Hf.
  unfold fk_off.
  assert (S i * ks <= ks * (length (a_slots a) + b2n (fn_low n) + b2n (isSome (a_high a)))).
  { rewrite (Nat.mul_comm ks). apply Nat.mul_le_mono_r. lia. }
  lia.
Qed.

Lemma frep_key n a i k : frep n a -> kat (a_slots a) i = Some k -> fx_key n i = Some k.
Proof.
  intros H Hk. unfold kat in Hk. destruct (nth_error (a_slots a) i) as [s|] eqn:E; [|discriminate].
  apply fx_key_ok.
  - eapply frep_key_inpage; eauto. pose proof (nth_error_lt _ _ _ E). lia.
  - eapply fs_keys; eauto. apply (fr_slots _ _ H).
Qed.

Lemma frep_highkey n a h : frep n a -> a_high a = Some h -> fx_highkey n = Some h.
Proof.
  intros H Hh. unfold fx_highkey. rewrite (fr_rc _ _ H). apply fx_key_ok.
  - eapply frep_key_inpage; eauto. rewrite Hh. cbn. lia.
  - eapply fr_high; eauto.
Qed.

Lemma frep_lowkey n a k : frep n a -> a_low a = Some k -> fx_sepkey n false = Some k.
Proof.
  intros H Hl. destruct (fr_low _ _ H _ Hl) as (H1 & H2).
  unfold fx_sepkey. rewrite (fr_rc _ _ H), (fr_highb _ _ H). apply fx_key_ok; auto.
  eapply frep_key_inpage; eauto. rewrite H1. cbn. lia.
Qed.

Lemma frep_comphigh n a key : frep n a ->
  fx_comphigh n key = Some (match a_high a with Some h => ltb key h | None => true end).
Proof.
  intros H. unfold fx_comphigh. rewrite (fr_highb _ _ H).
  destruct (a_high a) as [h|] eqn:E; cbn; auto.
  pose proof (frep_highkey _ _ _ H E) as Hh. unfold fx_highkey in Hh. now rewrite Hh.
Qed.

Lemma frep_pay_inpage n a i : frep n a -> i < length (a_slots a) ->
  (i + 1) * plof (a_inner a) <= page /\ hdr <= fp_off (plof (a_inner a)) i /\
  fp_off (plof (a_inner a)) i + plof (a_inner a) <= page.
Proof.
  intros H Hi. pose proof (frep_fits _ _ H) as Hf.
  assert ((i + 1) * plof (a_inner a) <= plof (a_inner a) * length (a_slots a)).
  { rewrite (Nat.mul_comm (plof _)). apply Nat.mul_le_mono_r. lia. }
  unfold fp_off. lia.
Qed.

Lemma frep_payload n a i s v : frep n a -> nth_error (a_slots a) i = Some s ->
  s_pay s = PV v -> fx_payload n i = Some v.
Proof.
  intros H Hi Hp. pose proof (nth_error_lt _ _ _ Hi) as Hlt.
  destruct (frep_pay_inpage _ _ _ H Hlt) as (A & B & C).
  pose proof (fr_kind _ _ H) as Hk. rewrite Forall_forall in Hk.
  specialize (Hk s (nth_error_In _ _ Hi)). rewrite Hp in Hk. cbn in Hk. destruct Hk as [Hk _].
  unfold fx_payload. rewrite (fr_pl _ _ H). rewrite Hk in *. cbn [plof] in *.
  rewrite mrd_ok by lia.
  pose proof (fs_pays _ _ _ (fr_slots _ _ H) _ _ Hi) as Hpay. rewrite Hk in Hpay.
  unfold payb in Hpay. cbn [plof] in Hpay. rewrite Hpay.
  rewrite dec_enc_pay.
  - now rewrite Hp.
  - rewrite Hp. cbn. apply fx_plen_pos.
Qed.

Lemma frep_child n a i s c : frep n a -> nth_error (a_slots a) i = Some s ->
  s_pay s = PP c -> fx_child n i = Some c.
Proof.
  intros H Hi Hp. pose proof (nth_error_lt _ _ _ Hi) as Hlt.
  destruct (frep_pay_inpage _ _ _ H Hlt) as (A & B & C).
  pose proof (fr_kind _ _ H) as Hk. rewrite Forall_forall in Hk.
  specialize (Hk s (nth_error_In _ _ Hi)). rewrite Hp in Hk. cbn in Hk. destruct Hk as [Hk _].
  unfold fx_child. rewrite (fr_pl _ _ H). rewrite Hk in *. cbn [plof] in *.
  rewrite mrd_ok by lia.
  pose proof (fs_pays _ _ _ (fr_slots _ _ H) _ _ Hi) as Hpay. rewrite Hk in Hpay.
  unfold payb in Hpay. cbn [plof] in Hpay. rewrite Hpay.
  rewrite dec_enc_pay.
  - now rewrite Hp.
  - rewrite Hp. cbn. apply fx_ptrlen_pos.
Qed.

(** ** Search *)

Lemma frep_leaf_search n a key : frep n a -> a_inner a = false -> leaf_ok (a_slots a) ->
  exists rc pos, fx_search n key = Some (rc, pos) /\
    (rc = kKeyAlreadyInserted \/ rc = kKeyNotInserted) /\
    leaf_search_spec (a_slots a) key rc pos.
Proof.
  intros H Hin Hok. unfold fx_search. rewrite (fr_inner _ _ H), Hin, (fr_rc _ _ H). cbn [b2n].
  destruct (leaf_bsearch_spec (a_slots a) key (fx_key n) Hok) as (r & Hr & Hs).
  - intros i Hi. destruct (body_ok_key false _ i Hok ltac:(cbn; lia) Hi) as [k Hk].
    rewrite Hk. eapply frep_key; eauto.
  - rewrite Hr. destruct r as [[] p].
    + destruct Hs as (H1 & H2 & l1 & s & l2 & H3 & H4 & H5).
      exists kKeyAlreadyInserted, (Z.to_nat p). repeat split; auto.
      exists l1, s, l2. repeat split; auto.
      pose proof (fr_kind _ _ H) as Hk. rewrite Forall_forall in Hk. apply Hk.
      rewrite H3. apply in_or_app. right. now left.
    + exists kKeyNotInserted, (Z.to_nat (p - 0)). repeat split; auto.
Qed.

Lemma frep_inner_search n a key : frep n a -> a_inner a = true -> inner_ok (a_slots a) ->
  exists rc pos, fx_search n key = Some (rc, pos) /\
    (rc = kKeyAlreadyInserted \/ rc = kKeyNotInserted) /\
    inner_search_spec (a_slots a) key rc pos.
Proof.
  intros H Hin Hok. unfold fx_search. rewrite (fr_inner _ _ H), Hin, (fr_rc _ _ H). cbn [b2n].
  destruct (inner_bsearch_spec (a_slots a) key (fx_key n) Hok) as (r & Hr & Hs).
  - intros i Hi. destruct (body_ok_key true _ i Hok ltac:(cbn; lia) ltac:(lia)) as [k Hk].
    rewrite Hk. eapply frep_key; eauto.
  - rewrite Hr. destruct r as [[] p].
    + exists kKeyAlreadyInserted, (Z.to_nat p). repeat split; auto; apply Hs.
    + exists kKeyNotInserted, (Z.to_nat (p - 1)). repeat split; auto; apply Hs.
Qed.

(** ** Record insertion *)

Lemma isSome_b2n {A} (o : option A) : b2n (isSome o) <= 1.
Proof. destruct o; cbn; lia. Qed.
Lemma b2n_le b : b2n b <= 1.
Proof. destruct b; cbn; lia. Qed.

Lemma fx_setkey_ok m i k : fk_off (S i) <= page ->
  fx_setkey m i k = Some (wr m (fk_off i) (enc_key k)).
Proof.
  intros H. unfold fx_setkey. rewrite fx_klen, Nat.eqb_refl. apply mwr_ok.
  - apply fk_off_hdr.
  - rewrite length_enc_key, fx_klen. rewrite fk_off_S in H. lia.
Qed.

Lemma fx_mvkeys_ok m d s cnt : fk_off (d + cnt) <= page -> fk_off (s + cnt) <= page ->
  fx_mvkeys m d s cnt = Some (mv m (fk_off d) m (fk_off s) (ks * cnt)).
Proof.
  intros H1 H2. unfold fx_mvkeys. rewrite !fk_off_add in *. apply mmv_ok. right.
  pose proof (fk_off_hdr d). pose proof (fk_off_hdr s). lia.
Qed.

Lemma fx_cpkey_ok m d sm s : fk_off (S d) <= page -> fk_off (S s) <= page ->
  fx_cpkey m d sm s = Some (mv m (fk_off d) sm (fk_off s) ks).
Proof.
  intros H1 H2. unfold fx_cpkey. rewrite !fk_off_S in *. apply mmv_ok. right.
  pose proof (fk_off_hdr d). pose proof (fk_off_hdr s). lia.
Qed.

Definition aslots (a : anode) (l : list slot) : anode :=
  ANode (a_inner a) (a_removed a) (a_next a) (a_low a) (a_high a) l.

(** Keys around an insertion of one slot at index [p]. *)
Lemma fx_insert_record_ok n a l1 l2 key p :
  frep n a -> a_slots a = l1 ++ l2 -> pay_kind (a_inner a) p ->
  hdr + fx_used n + ks + plof (a_inner a) <= page ->
  exists n', fx_insert_record n key p (length l1) = Some n' /\
    frep n' (aslots a (l1 ++ Slot (Some key) p false :: l2)) /\
    fn_low n' = fn_low n /\
    fx_used n' = fx_used n + ks + plof (a_inner a).
Proof.
  intros H Hsl Hkind Hroom.
  pose proof (frep_fits _ _ H) as Hfit.
  pose proof (fr_rc _ _ H) as Hrc. pose proof (fr_pl _ _ H) as Hpl.
  pose proof (fr_block _ _ H) as Hblk. pose proof (fr_highb _ _ H) as Hhb.
  assert (Hlen : length (a_slots a) = length l1 + length l2) by (rewrite Hsl, app_length; auto).
  unfold fx_used in Hroom. rewrite Hrc, Hblk, Hhb in Hroom.
  set (N := length (a_slots a)) in *. set (pl := plof (a_inner a)) in *.
  set (lo := b2n (fn_low n)) in *. set (hi := b2n (isSome (a_high a))) in *.
  assert (Htot : hdr + ks * (N + lo + hi + 1) + pl * (N + 1) <= page) by lia.
  assert (Hk_end : fk_off (S (N + lo + hi)) <= page - pl * (N + 1)).
  { unfold fk_off. replace (S (N+lo+hi) * ks) with (ks * (N+lo+hi+1)) by lia. lia. }
  unfold fx_insert_record. rewrite Hrc, Hpl, Hblk, Hhb. fold N pl lo hi.
  replace (N - length l1) with (length l2) by lia.
  rewrite fx_mvkeys_ok.
  2:{ eapply Nat.le_trans; [apply (fk_off_mono _ (S (N+lo+hi))); lia | lia]. }
  2:{ eapply Nat.le_trans; [apply (fk_off_mono _ (S (N+lo+hi))); lia | lia]. }
  rewrite fx_setkey_ok.
  2:{ eapply Nat.le_trans; [apply (fk_off_mono _ (S (N+lo+hi))); lia | lia]. }
  set (m1 := mv (fn_mem n) (fk_off (length l1 + 1)) (fn_mem n) (fk_off (length l1)) (ks * (length l2 + lo + hi))).
  set (m2 := wr m1 (fk_off (length l1)) (enc_key key)).
  assert (Hpl2 : pl * length l2 <= pl * N) by (apply Nat.mul_le_mono_l; lia).
  rewrite mmv_ok.
  2:{ destruct (Nat.eq_dec (length l2) 0) as [E|E].
      - left. rewrite E. lia.
      - right. pose proof fx_hdr_page. lia. }
  set (m3 := mv m2 (page - pl * N - pl) m2 (page - pl * N) (pl * length l2)).
  unfold fx_setpayload, fx_wrpay. rewrite (pay_kind_len _ _ Hkind). fold pl. rewrite Nat.eqb_refl.
  assert (Hoff : page - pl * N + pl * length l2 - pl = fp_off pl (length l1)).
  { unfold fp_off. assert (pl * N = pl * length l1 + pl * length l2) by (rewrite Hlen; lia).
    assert ((length l1 + 1) * pl = pl * length l1 + pl) by lia. lia. }
  rewrite Hoff.
  assert (Hofs : (length l1 + 1) * pl <= pl * (N + 1)).
  { rewrite (Nat.mul_comm pl). apply Nat.mul_le_mono_r. lia. }
  assert (Hpo : hdr <= fp_off pl (length l1) /\ fp_off pl (length l1) + pl <= page).
  { unfold fp_off. lia. }
  rewrite mwr_ok; [| lia | rewrite length_enc_pay, (pay_kind_len _ _ Hkind); fold pl; lia].
  set (m4 := wr m3 (fp_off pl (length l1)) (enc_pay p)).
  assert (Hlen' : length (l1 ++ Slot (Some key) p false :: l2) = N + 1).
  { rewrite app_length. cbn. lia. }
  (* key view of the final memory *)
  assert (Hkv : forall i, i <= N + lo + hi ->
     keyb m4 i = if i <? length l1 then keyb (fn_mem n) i
                 else if i =? length l1 then enc_key key
                 else keyb (fn_mem n) (i - 1)).
  { intros i Hi. unfold m4.
    assert (Hfar : fk_off (S i) <= page - pl * (N + 1)).
    { eapply Nat.le_trans; [apply (fk_off_mono _ (S (N+lo+hi))); lia | lia]. }
    rewrite keyb_wr_far by (unfold fp_off; lia).
    unfold m3. rewrite keyb_mv_far by lia.
    unfold m2. rewrite keyb_wr by (rewrite length_enc_key; apply fx_klen).
    unfold m1. rewrite keyb_mv.
    destruct (i <? length l1) eqn:E1.
    - apply Nat.ltb_lt in E1. replace (i =? length l1) with false by (symmetry; apply Nat.eqb_neq; lia).
      replace (length l1 + 1 <=? i) with false by (symmetry; apply Nat.leb_gt; lia). auto.
    - apply Nat.ltb_ge in E1. destruct (i =? length l1) eqn:E2; auto.
      apply Nat.eqb_neq in E2.
      replace (length l1 + 1 <=? i) with true by (symmetry; apply Nat.leb_le; lia).
      replace (i <? length l1 + 1 + (length l2 + lo + hi)) with true by (symmetry; apply Nat.ltb_lt; lia).
      cbn. f_equal. lia. }
  assert (Hpv : forall i, i <= N ->
     payb m4 pl i = if i <? length l1 then payb (fn_mem n) pl i
                 else if i =? length l1 then enc_pay p
                 else payb (fn_mem n) pl (i - 1)).
  { intros i Hi. unfold m4.
    assert (Hi2 : (i + 1) * pl <= page).
    { assert ((i + 1) * pl <= pl * (N + 1)) by (rewrite (Nat.mul_comm pl); apply Nat.mul_le_mono_r; lia). lia. }
    rewrite payb_wr; [| rewrite length_enc_pay; apply pay_kind_len; auto | lia | lia].
    assert (E12 : forall j, j <= N -> payb m2 pl j = payb (fn_mem n) pl j).
    { intros j Hj. unfold m2.
      assert (Hfj : page - pl * (N+1) <= fp_off pl j).
      { unfold fp_off. assert ((j + 1) * pl <= pl * (N + 1)) by (rewrite (Nat.mul_comm pl); apply Nat.mul_le_mono_r; lia). lia. }
      rewrite payb_wr_far.
      2:{ rewrite length_enc_key, fx_klen, <- fk_off_S.
          assert (fk_off (S (length l1)) <= fk_off (S (N + lo + hi))) by (apply fk_off_mono; lia). lia. }
      unfold m1. rewrite payb_mv_far; auto. left.
      replace (fk_off (length l1 + 1) + ks * (length l2 + lo + hi)) with (fk_off (S (N + lo + hi))).
      2:{ unfold fk_off. rewrite Hlen.
          replace (S (length l1 + length l2 + lo + hi)) with (length l1 + 1 + (length l2 + lo + hi)) by lia.
          rewrite Nat.mul_add_distr_r. lia. }
      lia. }
    unfold m3.
    replace (page - pl * N - pl) with (page - (N + 1) * pl) by lia.
    replace (page - pl * N) with (page - N * pl) by lia.
    rewrite payb_mv by lia.
    destruct (i <? length l1) eqn:E1.
    - apply Nat.ltb_lt in E1. replace (i =? length l1) with false by (symmetry; apply Nat.eqb_neq; lia).
      replace (N + 1 - length l2 <=? i) with false by (symmetry; apply Nat.leb_gt; lia).
      cbn. apply E12. lia.
    - apply Nat.ltb_ge in E1. destruct (i =? length l1) eqn:E2; auto.
      apply Nat.eqb_neq in E2.
      replace (N + 1 - length l2 <=? i) with true by (symmetry; apply Nat.leb_le; lia).
      replace (i <? N + 1) with true by (symmetry; apply Nat.ltb_lt; lia).
      cbn. replace (i - (N + 1 - length l2) + (N - length l2)) with (i - 1) by lia. apply E12. lia. }
  eexists. split; [reflexivity|].
  assert (Hused' : fx_used
    (FNode (fn_inner n) (fn_removed n) (pl * N + pl) (N + 1) pl (fn_next n)
           (fn_low n) (isSome (a_high a)) m4) = fx_used n + ks + pl).
  { unfold fx_used. cbn. rewrite Hrc, Hblk, Hhb. fold N pl lo hi. lia. }
  rewrite <- Hhb in Hused' |- *.
  split; [|split; auto].
  constructor; cbn [fn_inner fn_removed fn_next fn_rc fn_pl fn_block fn_low fn_high fn_mem
                    a_inner a_removed a_next a_slots a_high a_low aslots].
  - apply (fr_inner _ _ H).
  - apply (fr_removed _ _ H).
  - apply (fr_next _ _ H).
  - lia.
  - auto.
  - rewrite Hlen'. fold pl. lia.
  - rewrite Hused'. unfold fx_used. rewrite Hrc, Hblk, Hhb. fold N pl lo hi. lia.
  - pose proof (fr_slots _ _ H) as Hs. constructor.
    + intros i s k Hi Hk.
      pose proof (nth_error_lt _ _ _ Hi) as Hil. rewrite Hlen' in Hil.
      rewrite Hkv by lia. rewrite nth_error_insert in Hi. rewrite <- Hsl in Hi.
      destruct (i <? length l1).
      * eapply fs_keys; eauto.
      * destruct (i =? length l1).
        -- inv Hi. cbn in Hk. inv Hk. auto.
        -- eapply fs_keys; eauto.
    + intros i s Hi.
      pose proof (nth_error_lt _ _ _ Hi) as Hil. rewrite Hlen' in Hil. fold pl.
      rewrite Hpv by lia. rewrite nth_error_insert in Hi. rewrite <- Hsl in Hi.
      destruct (i <? length l1).
      * eapply (fs_pays _ _ _ Hs); eauto.
      * destruct (i =? length l1).
        -- inv Hi. auto.
        -- eapply (fs_pays _ _ _ Hs); eauto.
  - pose proof (fr_kind _ _ H) as Hk. rewrite Hsl in Hk. apply Forall_app in Hk as [A B].
    apply Forall_app. split; auto.
  - auto.
  - intros h Hh. rewrite Hlen'. rewrite Hkv.
    2:{ unfold hi. rewrite Hh. cbn. lia. }
    replace (N + 1 <? length l1) with false by (symmetry; apply Nat.ltb_ge; lia).
    replace (N + 1 =? length l1) with false by (symmetry; apply Nat.eqb_neq; lia).
    replace (N + 1 - 1) with N by lia. eapply fr_high; eauto.
  - intros k Hk. destruct (fr_low _ _ H _ Hk) as (A & B). split; auto.
    rewrite Hlen'. rewrite Hkv.
    2:{ fold hi. unfold lo. rewrite A. cbn. lia. }
    replace (N + 1 + b2n (isSome (a_high a)) <? length l1) with false by (symmetry; apply Nat.ltb_ge; lia).
    replace (N + 1 + b2n (isSome (a_high a)) =? length l1) with false by (symmetry; apply Nat.eqb_neq; lia).
    replace (N + 1 + b2n (isSome (a_high a)) - 1) with (N + b2n (isSome (a_high a))) by lia. auto.
Qed.

(** ** Overwriting a payload *)

Lemma fx_overwrite_ok n a l1 s l2 p :
  frep n a -> a_slots a = l1 ++ s :: l2 -> pay_kind (a_inner a) p ->
  exists n', fx_overwrite n (length l1) p = Some n' /\
    frep n' (aslots a (l1 ++ Slot (s_key s) p false :: l2)) /\
    fn_low n' = fn_low n /\ fx_used n' = fx_used n.
Proof.
  intros H Hsl Hkind.
  assert (Hlt : length l1 < length (a_slots a)) by (rewrite Hsl, app_length; cbn; lia).
  destruct (frep_pay_inpage _ _ _ H Hlt) as (A & B & C).
  unfold fx_overwrite, fx_wrpay. rewrite (fr_pl _ _ H), (pay_kind_len _ _ Hkind), Nat.eqb_refl.
  rewrite mwr_ok; [| lia | rewrite length_enc_pay, (pay_kind_len _ _ Hkind); lia].
  set (pl := plof (a_inner a)) in *.
  set (m' := wr (fn_mem n) (fp_off pl (length l1)) (enc_pay p)).
  assert (Hlen' : length (l1 ++ Slot (s_key s) p false :: l2) = length (a_slots a)).
  { rewrite Hsl, !app_length. auto. }
  pose proof (frep_fits _ _ H) as Hfit. fold pl in Hfit.
  assert (Hkv : forall i, i < length (a_slots a) + b2n (fn_low n) + b2n (isSome (a_high a)) ->
            keyb m' i = keyb (fn_mem n) i).
  { intros i Hi. apply keyb_wr_far. unfold fk_off, fp_off.
    assert (S i * ks <= ks * (length (a_slots a) + b2n (fn_low n) + b2n (isSome (a_high a)))).
    { rewrite (Nat.mul_comm ks). apply Nat.mul_le_mono_r. lia. }
    assert ((length l1 + 1) * pl <= pl * length (a_slots a)).
    { rewrite (Nat.mul_comm pl). apply Nat.mul_le_mono_r. lia. }
    lia. }
  eexists. split; [reflexivity|]. split; [|split; reflexivity].
  pose proof (fr_slots _ _ H) as Hs.
  constructor; cbn [fn_inner fn_removed fn_next fn_rc fn_pl fn_block fn_low fn_high fn_mem
                    a_inner a_removed a_next a_slots a_high a_low aslots];
    rewrite ?Hlen'; try apply H.
  - reflexivity.
  - constructor.
    + intros i s' k Hi Hk. pose proof (nth_error_lt _ _ _ Hi) as Hil. rewrite Hlen' in Hil.
      rewrite Hkv by lia. rewrite nth_error_insert in Hi.
      rewrite (nth_error_removed _ _ s), <- Hsl in Hi.
      destruct (i <? length l1) eqn:E1; [eapply fs_keys; eauto|].
      destruct (i =? length l1) eqn:E2.
      * inv Hi. cbn in Hk. apply Nat.eqb_eq in E2. subst i.
        eapply fs_keys; eauto. rewrite Hsl. apply nth_error_mid.
      * apply Nat.ltb_ge in E1. apply Nat.eqb_neq in E2.
        rewrite (nth_error_removed l1 l2 s), <- Hsl in Hi.
        replace (i - 1 <? length l1) with false in Hi by (symmetry; apply Nat.ltb_ge; lia).
        replace (i - 1 + 1) with i in Hi by lia. eapply fs_keys; eauto.
    + intros i s' Hi. pose proof (nth_error_lt _ _ _ Hi) as Hil. rewrite Hlen' in Hil.
      destruct (frep_pay_inpage _ _ _ H Hil) as (A' & B' & C'). fold pl in A', B', C'. fold pl.
      unfold m'. rewrite payb_wr; [| rewrite length_enc_pay; apply pay_kind_len; auto | lia | lia].
      rewrite nth_error_insert in Hi.
      destruct (i <? length l1) eqn:E1.
      * apply Nat.ltb_lt in E1.
        replace (i =? length l1) with false by (symmetry; apply Nat.eqb_neq; lia).
        apply (fs_pays _ _ _ Hs). rewrite Hsl. rewrite nth_error_app1 by lia.
        now rewrite nth_error_app1 in Hi by lia.
      * destruct (i =? length l1) eqn:E2.
        -- inv Hi. auto.
        -- apply Nat.ltb_ge in E1. apply Nat.eqb_neq in E2.
           apply (fs_pays _ _ _ Hs). rewrite Hsl.
           rewrite (nth_error_removed l1 l2 s) in Hi.
           replace (i - 1 <? length l1) with false in Hi by (symmetry; apply Nat.ltb_ge; lia).
           replace (i - 1 + 1) with i in Hi by lia. auto.
  - pose proof (fr_kind _ _ H) as Hk. rewrite Hsl in Hk. apply Forall_app in Hk as [A1 B1].
    inv B1. apply Forall_app. split; auto.
  - intros h Hh. rewrite Hkv.
    + eapply fr_high; eauto.
    + rewrite Hh. cbn. lia.
  - intros k Hk. destruct (fr_low _ _ H _ Hk) as (A1 & B1). split; auto.
    rewrite Hkv; auto. rewrite A1. cbn. lia.
Qed.

(** ** Removing a record *)

Lemma fx_remove_ok n a l1 s l2 :
  frep n a -> a_slots a = l1 ++ s :: l2 ->
  exists n', fx_remove n (length l1) = Some n' /\
    frep n' (aslots a (l1 ++ l2)) /\
    fn_low n' = fn_low n /\ fx_used n' + ks + plof (a_inner a) = fx_used n.
Proof.
  intros H Hsl.
  pose proof (frep_fits _ _ H) as Hfit.
  pose proof (fr_rc _ _ H) as Hrc. pose proof (fr_pl _ _ H) as Hpl.
  pose proof (fr_block _ _ H) as Hblk. pose proof (fr_highb _ _ H) as Hhb.
  assert (Hlen : length (a_slots a) = length l1 + length l2 + 1).
  { rewrite Hsl, app_length. cbn. lia. }
  set (N := length (a_slots a)) in *. set (pl := plof (a_inner a)) in *.
  set (lo := b2n (fn_low n)) in *. set (hi := b2n (isSome (a_high a))) in *.
  assert (Hk_end : fk_off (N + lo + hi) <= page - pl * N).
  { unfold fk_off. replace ((N+lo+hi) * ks) with (ks * (N+lo+hi)) by lia. lia. }
  unfold fx_remove. rewrite Hrc, Hpl, Hblk, Hhb. fold N pl lo hi.
  replace (N - 1 - length l1) with (length l2) by lia.
  rewrite fx_mvkeys_ok.
  2:{ eapply Nat.le_trans; [apply (fk_off_mono _ (N+lo+hi)); lia | lia]. }
  2:{ eapply Nat.le_trans; [apply (fk_off_mono _ (N+lo+hi)); lia | lia]. }
  set (m1 := mv (fn_mem n) (fk_off (length l1)) (fn_mem n) (fk_off (length l1 + 1)) (ks * (length l2 + lo + hi))).
  assert (HplN : pl * N = pl * length l1 + pl * length l2 + pl) by (rewrite Hlen; lia).
  rewrite mmv_ok by (right; lia).
  set (m2 := mv m1 (page - pl * N + pl) m1 (page - pl * N) (pl * length l2)).
  assert (Hlen' : length (l1 ++ l2) = N - 1) by (rewrite app_length; lia).
  assert (Hkv : forall i, i < N - 1 + lo + hi ->
     keyb m2 i = if i <? length l1 then keyb (fn_mem n) i else keyb (fn_mem n) (i + 1)).
  { intros i Hi. unfold m2.
    assert (Hfar : fk_off (S i) <= page - pl * N).
    { eapply Nat.le_trans; [apply (fk_off_mono _ (N+lo+hi)); lia | lia]. }
    rewrite keyb_mv_far by lia. unfold m1. rewrite keyb_mv.
    destruct (i <? length l1) eqn:E1.
    - apply Nat.ltb_lt in E1.
      replace (length l1 <=? i) with false by (symmetry; apply Nat.leb_gt; lia). auto.
    - apply Nat.ltb_ge in E1.
      replace (length l1 <=? i) with true by (symmetry; apply Nat.leb_le; lia).
      replace (i <? length l1 + (length l2 + lo + hi)) with true by (symmetry; apply Nat.ltb_lt; lia).
      cbn [andb]. f_equal. lia. }
  assert (Hpv : forall i, i < N - 1 ->
     payb m2 pl i = if i <? length l1 then payb (fn_mem n) pl i else payb (fn_mem n) pl (i + 1)).
  { intros i Hi.
    assert (Hi2 : (i + 1) * pl <= pl * N) by (rewrite (Nat.mul_comm pl); apply Nat.mul_le_mono_r; lia).
    assert (E12 : forall j, j < N -> payb m1 pl j = payb (fn_mem n) pl j).
    { intros j Hj. unfold m1. apply payb_mv_far. left.
      assert ((j + 1) * pl <= pl * N) by (rewrite (Nat.mul_comm pl); apply Nat.mul_le_mono_r; lia).
      replace (fk_off (length l1) + ks * (length l2 + lo + hi)) with (fk_off (N + lo + hi - 1)).
      2:{ unfold fk_off. replace (N + lo + hi - 1) with (length l1 + (length l2 + lo + hi)) by lia.
          rewrite Nat.mul_add_distr_r. lia. }
      pose proof (fk_off_mono (N+lo+hi-1) (N+lo+hi) ltac:(lia)). unfold fp_off. lia. }
    unfold m2.
    replace (page - pl * N + pl) with (page - (N - 1) * pl).
    2:{ assert (N * pl = (N - 1) * pl + pl).
        { replace N with (S (N - 1)) at 1 by lia. lia. } lia. }
    replace (page - pl * N) with (page - N * pl) by lia.
    assert ((N - 1) * pl <= N * pl) by (apply Nat.mul_le_mono_r; lia).
    rewrite payb_mv by lia.
    destruct (i <? length l1) eqn:E1.
    - apply Nat.ltb_lt in E1.
      replace (N - 1 - length l2 <=? i) with false by (symmetry; apply Nat.leb_gt; lia).
      cbn [andb]. apply E12. lia.
    - apply Nat.ltb_ge in E1.
      replace (N - 1 - length l2 <=? i) with true by (symmetry; apply Nat.leb_le; lia).
      replace (i <? N - 1) with true by (symmetry; apply Nat.ltb_lt; lia).
      cbn [andb]. replace (i - (N - 1 - length l2) + (N - length l2)) with (i + 1) by lia. apply E12. lia. }
  eexists. split; [reflexivity|].
  assert (Hused' : fx_used
    (FNode (fn_inner n) (fn_removed n) (pl * N - pl) (N - 1) pl (fn_next n)
           (fn_low n) (isSome (a_high a)) m2) + ks + pl = fx_used n).
  { unfold fx_used. cbn [fn_rc fn_low fn_high fn_block]. rewrite Hrc, Hblk, Hhb. fold N pl lo hi.
    assert (ks * (N + lo + hi) = ks * (N - 1 + lo + hi) + ks).
    { replace (N + lo + hi) with (S (N - 1 + lo + hi)) by lia. lia. } lia. }
  rewrite <- Hhb in Hused' |- *.
  split; [|split; auto].
  pose proof (fr_slots _ _ H) as Hs.
  constructor; cbn [fn_inner fn_removed fn_next fn_rc fn_pl fn_block fn_low fn_high fn_mem
                    a_inner a_removed a_next a_slots a_high a_low aslots];
    rewrite ?Hlen'; try apply H; auto.
  - fold pl. rewrite Nat.mul_sub_distr_l. lia.
  - pose proof (fr_fits _ _ H). lia.
  - constructor.
    + intros i s' k Hi Hk. pose proof (nth_error_lt _ _ _ Hi) as Hil. rewrite Hlen' in Hil.
      rewrite Hkv by lia. rewrite (nth_error_removed _ _ s), <- Hsl in Hi.
      destruct (i <? length l1); eapply fs_keys; eauto.
    + intros i s' Hi. pose proof (nth_error_lt _ _ _ Hi) as Hil. rewrite Hlen' in Hil. fold pl.
      rewrite Hpv by lia. rewrite (nth_error_removed _ _ s), <- Hsl in Hi.
      destruct (i <? length l1); eapply (fs_pays _ _ _ Hs); eauto.
  - pose proof (fr_kind _ _ H) as Hk. rewrite Hsl in Hk. apply Forall_app in Hk as [A1 B1].
    inv B1. apply Forall_app. split; auto.
  - intros h Hh. rewrite Hkv.
    2:{ unfold hi. rewrite Hh. cbn. lia. }
    replace (N - 1 <? length l1) with false by (symmetry; apply Nat.ltb_ge; lia).
    replace (N - 1 + 1) with N by lia. eapply fr_high; eauto.
  - intros k Hk. destruct (fr_low _ _ H _ Hk) as (A1 & B1). split; auto.
    fold hi. fold hi in B1. fold N in B1. rewrite Hkv.
    2:{ unfold lo. rewrite A1. cbn. lia. }
    replace (N - 1 + hi <? length l1) with false by (symmetry; apply Nat.ltb_ge; lia).
    replace (N - 1 + hi + 1) with (N + hi) by lia. auto.
Qed.

(** ** Inserting a child *)

Lemma fx_insert_child_at_ok n a l1 s l2 sep r :
  frep n a -> a_inner a = true -> a_slots a = l1 ++ s :: l2 ->
  hdr + fx_used n + ks + ptrlen <= page ->
  exists n', fx_insert_child_at n r sep (length l1) = Some n' /\
    frep n' (aslots a (l1 ++ s :: Slot (Some sep) (PP r) false :: l2)) /\
    fn_low n' = fn_low n /\
    fx_used n' = fx_used n + ks + ptrlen.
Proof.
  intros H Hin Hsl0 Hroom.
  assert (Hsl : a_slots a = (l1 ++ [s]) ++ l2) by (rewrite Hsl0, <- app_assoc; auto).
  set (q := l1 ++ [s]) in *.
  assert (Hq : length q = length l1 + 1) by (unfold q; rewrite app_length; cbn; lia).
  pose proof (frep_fits _ _ H) as Hfit.
  pose proof (fr_rc _ _ H) as Hrc. pose proof (fr_pl _ _ H) as Hpl.
  pose proof (fr_block _ _ H) as Hblk. pose proof (fr_highb _ _ H) as Hhb.
  rewrite Hin in *. cbn [plof] in *.
  assert (Hlen : length (a_slots a) = length q + length l2) by (rewrite Hsl, app_length; auto).
  unfold fx_used in Hroom. rewrite Hrc, Hblk, Hhb in Hroom.
  set (N := length (a_slots a)) in *. set (pl := ptrlen) in *.
  set (lo := b2n (fn_low n)) in *. set (hi := b2n (isSome (a_high a))) in *.
  assert (Htot : hdr + ks * (N + lo + hi + 1) + pl * (N + 1) <= page) by lia.
  assert (Hk_end : fk_off (S (N + lo + hi)) <= page - pl * (N + 1)).
  { unfold fk_off. replace (S (N+lo+hi) * ks) with (ks * (N+lo+hi+1)) by lia. lia. }
  unfold fx_insert_child_at. rewrite Hrc, Hpl, Hblk, Hhb. fold N pl lo hi.
  replace (N - 1 - length l1) with (length l2) by lia.
  assert (Hpl2 : pl * length l2 <= pl * N) by (apply Nat.mul_le_mono_l; lia).
  rewrite mmv_ok.
  2:{ destruct (Nat.eq_dec (length l2) 0) as [E|E].
      - left. rewrite E. lia.
      - right. lia. }
  set (m1 := mv (fn_mem n) (page - pl * N - pl) (fn_mem n) (page - pl * N) (pl * length l2)).
  unfold fx_setpayload, fx_wrpay. cbn [paylen]. fold pl. rewrite Nat.eqb_refl.
  assert (Hoff : page - pl * N + pl * length l2 - pl = fp_off pl (length q)).
  { unfold fp_off. assert (pl * N = pl * length q + pl * length l2) by (rewrite Hlen; lia).
    assert ((length q + 1) * pl = pl * length q + pl) by lia. lia. }
  rewrite Hoff.
  assert (Hofs : (length q + 1) * pl <= pl * (N + 1)).
  { rewrite (Nat.mul_comm pl). apply Nat.mul_le_mono_r. lia. }
  assert (Hpo : hdr <= fp_off pl (length q) /\ fp_off pl (length q) + pl <= page).
  { unfold fp_off. lia. }
  rewrite mwr_ok; [| lia | rewrite length_enc_pay; cbn [paylen]; fold pl; lia].
  set (m2 := wr m1 (fp_off pl (length q)) (enc_pay (PP r))).
  replace (length l1 + 2) with (length q + 1) by lia.
  replace (length l1 + 1) with (length q) by lia.
  rewrite fx_mvkeys_ok.
  2:{ eapply Nat.le_trans; [apply (fk_off_mono _ (S (N+lo+hi))); lia | lia]. }
  2:{ eapply Nat.le_trans; [apply (fk_off_mono _ (S (N+lo+hi))); lia | lia]. }
  rewrite fx_setkey_ok.
  2:{ eapply Nat.le_trans; [apply (fk_off_mono _ (S (N+lo+hi))); lia | lia]. }
  set (m3 := mv m2 (fk_off (length q + 1)) m2 (fk_off (length q)) (ks * (length l2 + lo + hi))).
  set (m4 := wr m3 (fk_off (length q)) (enc_key sep)).
  replace (l1 ++ s :: Slot (Some sep) (PP r) false :: l2) with (q ++ Slot (Some sep) (PP r) false :: l2).
  2:{ unfold q. now rewrite <- app_assoc. }
  assert (Hlen' : length (q ++ Slot (Some sep) (PP r) false :: l2) = N + 1).
  { rewrite app_length. cbn. lia. }
  assert (Hkv : forall i, i <= N + lo + hi ->
     keyb m4 i = if i <? length q then keyb (fn_mem n) i
                 else if i =? length q then enc_key sep
                 else keyb (fn_mem n) (i - 1)).
  { intros i Hi.
    assert (E12 : forall j, j <= N + lo + hi -> keyb m2 j = keyb (fn_mem n) j).
    { intros j Hj. assert (Hfar : fk_off (S j) <= page - pl * (N + 1)).
      { eapply Nat.le_trans; [apply (fk_off_mono _ (S (N+lo+hi))); lia | lia]. }
      unfold m2. rewrite keyb_wr_far by (unfold fp_off; lia).
      unfold m1. rewrite keyb_mv_far by lia. auto. }
    unfold m4. rewrite keyb_wr by (rewrite length_enc_key; apply fx_klen).
    unfold m3. rewrite keyb_mv.
    destruct (i <? length q) eqn:E1.
    - apply Nat.ltb_lt in E1. replace (i =? length q) with false by (symmetry; apply Nat.eqb_neq; lia).
      replace (length q + 1 <=? i) with false by (symmetry; apply Nat.leb_gt; lia). apply E12. lia.
    - apply Nat.ltb_ge in E1. destruct (i =? length q) eqn:E2; auto.
      apply Nat.eqb_neq in E2.
      replace (length q + 1 <=? i) with true by (symmetry; apply Nat.leb_le; lia).
      replace (i <? length q + 1 + (length l2 + lo + hi)) with true by (symmetry; apply Nat.ltb_lt; lia).
      cbn [andb]. rewrite E12 by lia. f_equal. lia. }
  assert (Hpv : forall i, i <= N ->
     payb m4 pl i = if i <? length q then payb (fn_mem n) pl i
                 else if i =? length q then enc_pay (PP r)
                 else payb (fn_mem n) pl (i - 1)).
  { intros i Hi.
    assert (Hi1 : (i + 1) * pl <= pl * (N + 1)) by (rewrite (Nat.mul_comm pl); apply Nat.mul_le_mono_r; lia).
    assert (Hi2 : (i + 1) * pl <= page) by lia.
    unfold m4.
    assert (Hfj : page - pl * (N+1) <= fp_off pl i) by (unfold fp_off; lia).
    rewrite payb_wr_far.
    2:{ rewrite length_enc_key, fx_klen, <- fk_off_S.
        assert (fk_off (S (length q)) <= fk_off (S (N + lo + hi))) by (apply fk_off_mono; lia). lia. }
    unfold m3. rewrite payb_mv_far.
    2:{ left. replace (fk_off (length q + 1) + ks * (length l2 + lo + hi)) with (fk_off (S (N + lo + hi))).
        2:{ unfold fk_off. rewrite Hlen.
            replace (S (length q + length l2 + lo + hi)) with (length q + 1 + (length l2 + lo + hi)) by lia.
            rewrite Nat.mul_add_distr_r. lia. }
        lia. }
    unfold m2. rewrite payb_wr; [| rewrite length_enc_pay; reflexivity | lia | lia].
    unfold m1.
    replace (page - pl * N - pl) with (page - (N + 1) * pl) by lia.
    replace (page - pl * N) with (page - N * pl) by lia.
    rewrite payb_mv by lia.
    destruct (i <? length q) eqn:E1.
    - apply Nat.ltb_lt in E1. replace (i =? length q) with false by (symmetry; apply Nat.eqb_neq; lia).
      replace (N + 1 - length l2 <=? i) with false by (symmetry; apply Nat.leb_gt; lia). auto.
    - apply Nat.ltb_ge in E1. destruct (i =? length q) eqn:E2; auto.
      apply Nat.eqb_neq in E2.
      replace (N + 1 - length l2 <=? i) with true by (symmetry; apply Nat.leb_le; lia).
      replace (i <? N + 1) with true by (symmetry; apply Nat.ltb_lt; lia).
      cbn [andb]. f_equal. lia. }
  eexists. split; [reflexivity|].
  assert (Hused' : fx_used
    (FNode (fn_inner n) (fn_removed n) (pl * N + pl) (N + 1) pl (fn_next n)
           (fn_low n) (isSome (a_high a)) m4) = fx_used n + ks + pl).
  { unfold fx_used. cbn. rewrite Hrc, Hblk, Hhb. fold N pl lo hi. lia. }
  rewrite <- Hhb in Hused' |- *.
  split; [|split; auto].
  pose proof (fr_slots _ _ H) as Hs.
  constructor; cbn [fn_inner fn_removed fn_next fn_rc fn_pl fn_block fn_low fn_high fn_mem
                    a_inner a_removed a_next a_slots a_high a_low aslots];
    rewrite ?Hin, ?Hlen'; try apply H; auto.
  - rewrite <- Hin. apply H.
  - cbn [plof]. fold pl. lia.
  - rewrite Hused'. unfold fx_used. rewrite Hrc, Hblk, Hhb. fold N pl lo hi. lia.
  - rewrite Hin in Hs. constructor.
    + intros i s' k Hi Hk.
      pose proof (nth_error_lt _ _ _ Hi) as Hil. rewrite Hlen' in Hil.
      rewrite Hkv by lia. rewrite nth_error_insert in Hi. rewrite <- Hsl in Hi.
      destruct (i <? length q).
      * eapply fs_keys; eauto.
      * destruct (i =? length q).
        -- inv Hi. cbn in Hk. inv Hk. auto.
        -- eapply fs_keys; eauto.
    + intros i s' Hi.
      pose proof (nth_error_lt _ _ _ Hi) as Hil. rewrite Hlen' in Hil. cbn [plof]. fold pl.
      rewrite Hpv by lia. rewrite nth_error_insert in Hi. rewrite <- Hsl in Hi.
      destruct (i <? length q).
      * eapply (fs_pays _ _ _ Hs); eauto.
      * destruct (i =? length q).
        -- inv Hi. auto.
        -- eapply (fs_pays _ _ _ Hs); eauto.
  - pose proof (fr_kind _ _ H) as Hk. rewrite Hsl, Hin in Hk. apply Forall_app in Hk as [A B].
    apply Forall_app. split; auto. constructor; auto. split; reflexivity.
  - intros h Hh. rewrite Hkv.
    2:{ unfold hi. rewrite Hh. cbn. lia. }
    replace (N + 1 <? length q) with false by (symmetry; apply Nat.ltb_ge; lia).
    replace (N + 1 =? length q) with false by (symmetry; apply Nat.eqb_neq; lia).
    replace (N + 1 - 1) with N by lia. eapply fr_high; eauto.
  - intros k Hk. destruct (fr_low _ _ H _ Hk) as (A & B). split; auto.
    fold hi. fold hi in B. fold N in B. rewrite Hkv.
    2:{ unfold lo. rewrite A. cbn. lia. }
    replace (N + 1 + hi <? length q) with false by (symmetry; apply Nat.ltb_ge; lia).
    replace (N + 1 + hi =? length q) with false by (symmetry; apply Nat.eqb_neq; lia).
    replace (N + 1 + hi - 1) with (N + hi) by lia. auto.
Qed.

(** ** Copying records between pages *)

Lemma fslots_ext m m' inner l :
  (forall i, i < length l -> keyb m' i = keyb m i) ->
  (forall i, i < length l -> payb m' (plof inner) i = payb m (plof inner) i) ->
  fslots m inner l -> fslots m' inner l.
Proof.
  intros H1 H2 H. constructor.
  - intros i s k Hi Hk. rewrite H1 by (eapply nth_error_lt; eauto). eapply fs_keys; eauto.
  - intros i s Hi. rewrite H2 by (eapply nth_error_lt; eauto). eapply fs_pays; eauto.
Qed.

Lemma fslots_app m inner l1 l2 : fslots m inner (l1 ++ l2) -> fslots m inner l1.
Proof.
  intros H. constructor.
  - intros i s k Hi Hk. eapply fs_keys; eauto. rewrite nth_error_app1; auto.
    eapply nth_error_lt; eauto.
  - intros i s Hi. eapply fs_pays; eauto. rewrite nth_error_app1; auto.
    eapply nth_error_lt; eauto.
Qed.

Definition same_hdr (d d' : fnode) : Prop :=
  fn_inner d' = fn_inner d /\ fn_removed d' = fn_removed d /\ fn_block d' = fn_block d /\
  fn_pl d' = fn_pl d /\ fn_next d' = fn_next d /\ fn_low d' = fn_low d /\ fn_high d' = fn_high d.

Lemma fx_copy_records_ok inner ls s :
  fslots (fn_mem s) inner ls -> fn_pl s = plof inner ->
  hdr + ks * length ls + plof inner * length ls <= page ->
  forall cnt d i off ld,
  fslots (fn_mem d) inner ld -> fn_rc d = length ld -> fn_pl d = plof inner ->
  off = page - plof inner * length ld ->
  i + cnt <= length ls ->
  hdr + ks * (length ld + cnt) + plof inner * (length ld + cnt) <= page ->
  exists d', fx_copy_records cnt d s i off = Some (d', page - plof inner * (length ld + cnt)) /\
    fslots (fn_mem d') inner (ld ++ firstn cnt (skipn i ls)) /\
    fn_rc d' = length ld + cnt /\ same_hdr d d'.
Proof.
  intros Hs Hpls Hsfit. set (pl := plof inner) in *.
  induction cnt as [|cnt IH]; intros d i off ld Hd Hrc Hpl Hoff Hi Hfit.
  - exists d. cbn. rewrite app_nil_r, !Nat.add_0_r in *. subst off.
    repeat split; auto; apply Hd.
  - cbn [fx_copy_records]. unfold fx_copy_record.
    destruct (nth_error_ex ls i ltac:(lia)) as [x Hx].
    assert (E1 : S i * ks <= ks * length ls) by (rewrite (Nat.mul_comm ks); apply Nat.mul_le_mono_r; lia).
    assert (E2 : S (length ld) * ks <= ks * (length ld + S cnt)) by (rewrite (Nat.mul_comm ks); apply Nat.mul_le_mono_r; lia).
    assert (E3 : (i + 1) * pl <= pl * length ls) by (rewrite (Nat.mul_comm pl); apply Nat.mul_le_mono_r; lia).
    assert (E4 : (length ld + 1) * pl <= pl * (length ld + S cnt)) by (rewrite (Nat.mul_comm pl); apply Nat.mul_le_mono_r; lia).
    rewrite Hrc, Hpl, Hpls. fold pl.
    rewrite fx_cpkey_ok by (unfold fk_off; lia).
    set (m1 := mv (fn_mem d) (fk_off (length ld)) (fn_mem s) (fk_off i) ks).
    assert (Ho : off - pl = fp_off pl (length ld)) by (unfold fp_off; lia).
    rewrite Ho. rewrite mmv_ok by (right; unfold fp_off; lia).
    set (m2 := mv m1 (fp_off pl (length ld)) (fn_mem s) (fp_off pl i) pl).
    assert (Hkv : forall j, j <= length ld -> keyb m2 j = if j =? length ld then keyb (fn_mem s) i else keyb (fn_mem d) j).
    { intros j Hj. unfold m2. rewrite keyb_mv_far.
      - unfold m1. apply keyb_cp.
      - left. unfold fk_off, fp_off.
        assert (S j * ks <= S (length ld) * ks) by (apply Nat.mul_le_mono_r; lia). lia. }
    assert (Hpv : forall j, j <= length ld -> payb m2 pl j = if j =? length ld then payb (fn_mem s) pl i else payb (fn_mem d) pl j).
    { intros j Hj.
      assert (E5 : (j + 1) * pl <= (length ld + 1) * pl) by (apply Nat.mul_le_mono_r; lia).
      pose proof (payb_mv m1 (fn_mem s) pl (length ld + 1) (i + 1) 1 j
                    ltac:(lia) ltac:(lia) ltac:(lia) ltac:(lia) ltac:(lia)) as E6.
      rewrite Nat.mul_1_r in E6. unfold m2, fp_off. rewrite E6.
      destruct (j =? length ld) eqn:E.
      - apply Nat.eqb_eq in E. subst j.
        replace (length ld + 1 - 1 <=? length ld) with true by (symmetry; apply Nat.leb_le; lia).
        replace (length ld <? length ld + 1) with true by (symmetry; apply Nat.ltb_lt; lia).
        cbn [andb]. f_equal. lia.
      - apply Nat.eqb_neq in E.
        replace (length ld + 1 - 1 <=? j) with false by (symmetry; apply Nat.leb_gt; lia).
        cbn [andb]. unfold m1. apply payb_mv_far. left. rewrite <- fk_off_S.
        unfold fk_off, fp_off. lia. }
    set (d1 := FNode (fn_inner d) (fn_removed d) (fn_block d) (length ld + 1) pl (fn_next d)
              (fn_low d) (fn_high d) m2).
    assert (Hd1 : fslots (fn_mem d1) inner (ld ++ [x])).
    { constructor.
      - intros j y k Hj Hk. cbn [fn_mem d1].
        pose proof (nth_error_lt _ _ _ Hj) as Hjl. rewrite app_length in Hjl. cbn in Hjl.
        rewrite Hkv by lia. destruct (j =? length ld) eqn:E.
        + apply Nat.eqb_eq in E. subst j. rewrite nth_error_mid in Hj. inv Hj.
          eapply fs_keys; eauto.
        + apply Nat.eqb_neq in E. rewrite nth_error_app1 in Hj by lia.
          eapply fs_keys; eauto.
      - intros j y Hj. cbn [fn_mem d1]. fold pl.
        pose proof (nth_error_lt _ _ _ Hj) as Hjl. rewrite app_length in Hjl. cbn in Hjl.
        rewrite Hpv by lia. destruct (j =? length ld) eqn:E.
        + apply Nat.eqb_eq in E. subst j. rewrite nth_error_mid in Hj. inv Hj.
          eapply (fs_pays _ _ _ Hs); eauto.
        + apply Nat.eqb_neq in E. rewrite nth_error_app1 in Hj by lia.
          eapply (fs_pays _ _ _ Hd); eauto. }
    destruct (IH d1 (i + 1) (fp_off pl (length ld)) (ld ++ [x])) as (d' & A & B & C & D); auto.
    + rewrite app_length. reflexivity.
    + rewrite app_length. cbn [length]. unfold fp_off. fold pl. lia.
    + lia.
    + rewrite app_length. cbn [length]. fold pl. replace (length ld + 1 + cnt) with (length ld + S cnt) by lia. lia.
    + exists d'. rewrite A. rewrite app_length. cbn [length]. fold pl.
      replace (length ld + 1 + cnt) with (length ld + S cnt) by lia.
      split; [reflexivity|].
      assert (E : (ld ++ [x]) ++ firstn cnt (skipn (i + 1) ls) = ld ++ firstn (S cnt) (skipn i ls)).
      { rewrite <- app_assoc. f_equal.
        assert (Hsk : skipn i ls = x :: skipn (i + 1) ls).
        { rewrite (nth_error_split_eq _ _ _ Hx) at 1.
          rewrite skipn_app, firstn_length. rewrite skipn_all2 by (rewrite firstn_length; lia).
          replace (i - Nat.min i (length ls)) with 0 by lia. cbn. now rewrite Nat.add_1_r. }
        rewrite Hsk. reflexivity. }
      rewrite <- E. repeat split; auto; try apply B; try apply D.
      * rewrite C, app_length. cbn. lia.
      * destruct D as (_ & _ & _ & D & _). cbn in D. rewrite D. auto.
Qed.

(** ** Split *)

Lemma nth_error_firstn' {A} (l : list A) n i : i < n -> nth_error (firstn n l) i = nth_error l i.
Proof.
  revert n i. induction l as [|a l IH]; intros [|n] [|i] H; cbn; auto; try lia.
  apply IH. lia.
Qed.

Lemma frep_slots_fit n a : frep n a ->
  hdr + ks * length (a_slots a) + plof (a_inner a) * length (a_slots a) <= page.
Proof.
  intros H. pose proof (frep_fits _ _ H).
  assert (ks * length (a_slots a) <= ks * (length (a_slots a) + b2n (fn_low n) + b2n (isSome (a_high a)))).
  { apply Nat.mul_le_mono_l. lia. }
  lia.
Qed.

(** What a split needs: two records, and the page must extend over the key slot just
    behind the stored keys, which Split reads even when it holds nothing. *)
Definition split_readable (n : fnode) : Prop :=
  fk_off (S (fn_rc n + b2n (fn_high n))) <= page.

Lemma fx_split_right_ok l a r sn s0 tl sep :
  let lc := Nat.div (length (a_slots a)) 2 in
  frep l a -> 2 <= length (a_slots a) -> split_readable l ->
  fn_rc r = 0 -> fn_inner r = a_inner a -> fn_removed r = false ->
  skipn lc (a_slots a) = s0 :: tl -> s_key s0 = Some sep ->
  exists r', fx_split_right l r sn = Some r' /\
    frep r' (ANode (a_inner a) false (if sn then a_next a else fn_next r) (Some sep) (a_high a)
                   (skipn lc (a_slots a))) /\
    fn_low r' = true /\ keyb (fn_mem r') 0 = enc_key sep /\
    fn_block r' = plof (a_inner a) * (length (a_slots a) - lc).
Proof.
  intros lc H Hn Hrd Hrrc Hrin Hrrem Hsk Hsep.
  pose proof (frep_fits _ _ H) as Hfit. pose proof (frep_slots_fit _ _ H) as Hsfit.
  pose proof (fr_rc _ _ H) as Hrc. pose proof (fr_pl _ _ H) as Hpl.
  pose proof (fr_highb _ _ H) as Hhb.
  set (N := length (a_slots a)) in *. set (pl := plof (a_inner a)) in *.
  set (lo := b2n (fn_low l)) in *. set (hi := b2n (isSome (a_high a))) in *.
  assert (Hlc : 1 <= lc /\ lc < N).
  { unfold lc. split.
    - apply (Nat.div_le_lower_bound N 2 1); lia.
    - apply Nat.div_lt; lia. }
  assert (Hrlen : length (skipn lc (a_slots a)) = N - lc) by (rewrite skipn_length; auto).
  assert (Hhi : hi <= 1) by apply b2n_le.
  assert (A1 : ks * (N - lc + 1 + hi) <= ks * (N + lo + hi)) by (apply Nat.mul_le_mono_l; lia).
  assert (A2 : pl * (N - lc) <= pl * N) by (apply Nat.mul_le_mono_l; lia).
  assert (A3 : ks * (N - lc) <= ks * N) by (apply Nat.mul_le_mono_l; lia).
  unfold fx_split_right. rewrite Hrc, Hpl, Hhb. fold N pl lc hi.
  set (r0 := fx_set_paylen r pl).
  destruct (fx_copy_records_ok (a_inner a) (a_slots a) l (fr_slots _ _ H) Hpl Hsfit
              (N - lc) r0 lc page []) as (r1 & B1 & B2 & B3 & B4).
  { constructor; intros [|i] s; cbn; discriminate. }
  { cbn. auto. }
  { reflexivity. }
  { cbn. lia. }
  { fold N. lia. }
  { cbn. fold pl. lia. }
  rewrite B1. cbn [app length] in *.
  assert (Hrd' : fk_off (S (N + hi)) <= page).
  { unfold split_readable in Hrd. rewrite Hrc, Hhb in Hrd. exact Hrd. }
  assert (Hmem1 : fk_off (S (N - lc + hi)) <= page - pl * (N - lc)).
  { unfold fk_off. replace (S (N - lc + hi) * ks) with (ks * (N - lc + 1 + hi)) by lia. lia. }
  rewrite fx_cpkey_ok.
  2:{ eapply Nat.le_trans; [apply (fk_off_mono _ (S (N - lc + hi))); lia | lia]. }
  2:{ eapply Nat.le_trans; [apply (fk_off_mono _ (S (N + hi))); lia | lia]. }
  set (m1 := mv (fn_mem r1) (fk_off (N - lc)) (fn_mem l) (fk_off N) ks).
  rewrite fx_cpkey_ok.
  2:{ lia. }
  2:{ eapply Nat.le_trans; [apply (fk_off_mono _ (S (N - lc + hi))); lia | lia]. }
  set (m2 := mv m1 (fk_off (N - lc + hi)) m1 (fk_off 0) ks).
  rewrite (firstn_all2 (skipn lc (a_slots a))) in B2 by lia.
  assert (Hkv : forall i, i < N - lc -> keyb m2 i = keyb (fn_mem r1) i).
  { intros i Hi. unfold m2. rewrite keyb_cp.
    replace (i =? N - lc + hi) with false by (symmetry; apply Nat.eqb_neq; lia).
    unfold m1. rewrite keyb_cp.
    replace (i =? N - lc) with false by (symmetry; apply Nat.eqb_neq; lia). auto. }
  assert (Hpv : forall i, i < N - lc -> payb m2 pl i = payb (fn_mem r1) pl i).
  { intros i Hi.
    assert (A4 : (i + 1) * pl <= pl * (N - lc)) by (rewrite (Nat.mul_comm pl); apply Nat.mul_le_mono_r; lia).
    assert (fk_off (S (N - lc)) <= fk_off (S (N - lc + hi))) by (apply fk_off_mono; lia).
    unfold m2. rewrite payb_mv_far by (left; rewrite <- fk_off_S; unfold fp_off; lia).
    unfold m1. rewrite payb_mv_far by (left; rewrite <- fk_off_S; unfold fp_off; lia). auto. }
  assert (Hk0 : keyb (fn_mem r1) 0 = enc_key sep).
  { eapply (fs_keys _ _ _ B2 0 s0); auto. rewrite Hsk. reflexivity. }
  destruct B4 as (C1 & C2 & C3 & C4 & C5 & C6 & C7).
  eexists. split; [reflexivity|].
  assert (Hblk : page - (page - pl * (N - lc)) = pl * (N - lc)) by lia.
  split; [|split; [reflexivity|split; [cbn [fn_mem]; rewrite Hkv by lia; auto | cbn; lia]]].
  constructor; cbn [fn_inner fn_removed fn_next fn_rc fn_pl fn_block fn_low fn_high fn_mem
                    a_inner a_removed a_next a_slots a_high a_low aslots]; rewrite ?Hrlen.
  - rewrite C1. auto.
  - rewrite C2. auto.
  - destruct sn; [apply (fr_next _ _ H) | rewrite C5; auto].
  - auto.
  - rewrite C4. auto.
  - fold pl. lia.
  - unfold fx_used. cbn [fn_rc fn_low fn_high fn_block b2n]. rewrite B3. cbn [Nat.add]. fold pl hi. lia.
  - apply fslots_ext with (m := fn_mem r1); rewrite ?Hrlen; auto.
  - pose proof (fr_kind _ _ H) as Hk. rewrite <- (firstn_skipn lc (a_slots a)) in Hk.
    apply Forall_app in Hk. apply Hk.
  - auto.
  - intros h Hh. unfold m2. rewrite keyb_cp.
    replace (N - lc =? N - lc + hi) with false.
    2:{ symmetry. apply Nat.eqb_neq. unfold hi. rewrite Hh. cbn. lia. }
    unfold m1. rewrite keyb_cp, Nat.eqb_refl. eapply fr_high; eauto.
  - intros k Hk. inv Hk. split; auto. fold hi. unfold m2. rewrite keyb_cp, Nat.eqb_refl.
    unfold m1. rewrite keyb_cp.
    replace (0 =? N - lc) with false by (symmetry; apply Nat.eqb_neq; lia). auto.
Qed.

(** Left half, for both variants.  [src] is the key index copied into the slot of the
    lowest key. *)
Lemma fx_split_left_ok l a r' sep (src : nat) (nx : option addr) (keep_low : bool) :
  let lc := Nat.div (length (a_slots a)) 2 in
  frep l a -> 2 <= length (a_slots a) ->
  fk_off (S src) <= page ->
  keyb (fn_mem r') 0 = enc_key sep ->
  fn_block r' = plof (a_inner a) * (length (a_slots a) - lc) ->
  (keep_low = true -> src = length (a_slots a) + b2n (isSome (a_high a))) ->
  exists m1 m2, fx_cpkey (fn_mem l) (lc + b2n (fn_low l)) (fn_mem l) src = Some m1 /\
    fx_cpkey m1 lc (fn_mem r') 0 = Some m2 /\
    frep (FNode (fn_inner l) (fn_removed l) (fn_block l - fn_block r') lc (fn_pl l) nx (fn_low l) true m2)
         (ANode (a_inner a) (a_removed a) nx (if keep_low then a_low a else None) (Some sep)
                (firstn lc (a_slots a))).
Proof.
  intros lc H Hn Hsrc Hk0 Hblk Hkl.
  pose proof (frep_fits _ _ H) as Hfit. pose proof (frep_slots_fit _ _ H) as Hsfit.
  pose proof (fr_rc _ _ H) as Hrc. pose proof (fr_pl _ _ H) as Hpl.
  pose proof (fr_highb _ _ H) as Hhb. pose proof (fr_block _ _ H) as Hb.
  set (N := length (a_slots a)) in *. set (pl := plof (a_inner a)) in *.
  set (lo := b2n (fn_low l)) in *. set (hi := b2n (isSome (a_high a))) in *.
  assert (Hlc : 1 <= lc /\ lc < N).
  { unfold lc. split.
    - apply (Nat.div_le_lower_bound N 2 1); lia.
    - apply Nat.div_lt; lia. }
  assert (Hlo : lo <= 1) by apply b2n_le.
  assert (A1 : ks * (lc + lo + 1) <= ks * (N + lo + hi)) by (apply Nat.mul_le_mono_l; lia).
  assert (A2 : pl * (N - lc) + pl * lc = pl * N) by (rewrite <- Nat.mul_add_distr_l; f_equal; lia).
  assert (Hend : fk_off (S (lc + lo)) <= page - pl * N).
  { unfold fk_off. replace (S (lc + lo) * ks) with (ks * (lc + lo + 1)) by lia. lia. }
  eexists. eexists. split; [apply fx_cpkey_ok; lia|].
  split.
  { apply fx_cpkey_ok.
    - eapply Nat.le_trans; [apply (fk_off_mono _ (S (lc+lo))); lia | lia].
    - eapply Nat.le_trans; [apply (fk_off_mono _ (S (lc+lo))); lia | lia]. }
  set (m1 := mv (fn_mem l) (fk_off (lc + lo)) (fn_mem l) (fk_off src) ks).
  set (m2 := mv m1 (fk_off lc) (fn_mem r') (fk_off 0) ks).
  assert (Hlen : length (firstn lc (a_slots a)) = lc) by (rewrite firstn_length; fold N; lia).
  constructor; cbn [fn_inner fn_removed fn_next fn_rc fn_pl fn_block fn_low fn_high fn_mem
                    a_inner a_removed a_next a_slots a_high a_low aslots]; rewrite ?Hlen.
  - apply (fr_inner _ _ H).
  - apply (fr_removed _ _ H).
  - auto.
  - auto.
  - auto.
  - rewrite Hb, Hblk. fold pl. lia.
  - unfold fx_used. cbn [fn_rc fn_low fn_high fn_block b2n]. fold lo. rewrite Hb, Hblk. lia.
  - apply fslots_ext with (m := fn_mem l); rewrite ?Hlen.
    + intros i Hi. unfold m2. rewrite keyb_cp.
      replace (i =? lc) with false by (symmetry; apply Nat.eqb_neq; lia).
      unfold m1. rewrite keyb_cp.
      replace (i =? lc + lo) with false by (symmetry; apply Nat.eqb_neq; lia). auto.
    + intros i Hi. fold pl.
      assert (A4 : (i + 1) * pl <= pl * N) by (rewrite (Nat.mul_comm pl); apply Nat.mul_le_mono_r; lia).
      assert (fk_off (S lc) <= fk_off (S (lc + lo))) by (apply fk_off_mono; lia).
      unfold m2. rewrite payb_mv_far by (left; rewrite <- fk_off_S; unfold fp_off; lia).
      unfold m1. rewrite payb_mv_far by (left; rewrite <- fk_off_S; unfold fp_off; lia). auto.
    + apply (fslots_app _ _ _ (skipn lc (a_slots a))). rewrite firstn_skipn. apply (fr_slots _ _ H).
  - pose proof (fr_kind _ _ H) as Hk. rewrite <- (firstn_skipn lc (a_slots a)) in Hk.
    apply Forall_app in Hk. apply Hk.
  - auto.
  - intros h Hh. inv Hh. unfold m2. rewrite keyb_cp, Nat.eqb_refl. auto.
  - intros k Hk. destruct keep_low; [|discriminate].
    destruct (fr_low _ _ H _ Hk) as (B1 & B2). split; auto.
    cbn [isSome b2n]. unfold m2. rewrite keyb_cp.
    replace (lc + 1 =? lc) with false by (symmetry; apply Nat.eqb_neq; lia).
    unfold m1. rewrite keyb_cp. unfold lo. rewrite B1. cbn [b2n]. rewrite Nat.eqb_refl.
    rewrite Hkl by auto. auto.
Qed.

Lemma fx_split_sl_ok l a ra r s0 tl sep :
  let lc := Nat.div (length (a_slots a)) 2 in
  frep l a -> 2 <= length (a_slots a) -> split_readable l ->
  fn_rc r = 0 -> fn_inner r = a_inner a -> fn_removed r = false ->
  skipn lc (a_slots a) = s0 :: tl -> s_key s0 = Some sep ->
  exists l' r', fx_split_sl l ra r = Some (l', r') /\
    frep l' (ANode (a_inner a) (a_removed a) (Some ra) (a_low a) (Some sep) (firstn lc (a_slots a))) /\
    frep r' (ANode (a_inner a) false (a_next a) (Some sep) (a_high a) (skipn lc (a_slots a))) /\
    fn_low l' = fn_low l /\ fn_low r' = true.
Proof.
  intros lc H Hn Hrd H1 H2 H3 H4 H5.
  destruct (fx_split_right_ok l a r true s0 tl sep H Hn Hrd H1 H2 H3 H4 H5)
    as (r' & A1 & A2 & A3 & A4 & A5).
  destruct (fx_split_left_ok l a r' sep (fn_rc l + b2n (fn_high l)) (Some ra) true H Hn Hrd A4 A5)
    as (m1 & m2 & B1 & B2 & B3).
  { intros _. rewrite (fr_rc _ _ H), (fr_highb _ _ H). auto. }
  unfold fx_split_sl. rewrite A1. rewrite (fr_rc _ _ H) in *. fold lc in B1, B2, B3 |- *.
  rewrite B1, B2. do 2 eexists. split; [reflexivity|]. split; [exact B3|]. split; [exact A2|].
  split; auto.
Qed.

Lemma fx_split_ml_ok l a ra r s0 tl sep :
  let lc := Nat.div (length (a_slots a)) 2 in
  frep l a -> 2 <= length (a_slots a) -> split_readable l ->
  fn_rc r = 0 -> fn_inner r = a_inner a -> fn_removed r = false -> fn_next r = None ->
  skipn lc (a_slots a) = s0 :: tl -> s_key s0 = Some sep ->
  exists l' r', fx_split_ml l ra r = Some (l', r') /\
    frep l' (ANode (a_inner a) (a_removed a) (if a_inner a then a_next a else Some ra)
                   None (Some sep) (firstn lc (a_slots a))) /\
    frep r' (ANode (a_inner a) false (if a_inner a then None else a_next a) (Some sep) (a_high a)
                   (skipn lc (a_slots a))) /\
    fn_low l' = fn_low l /\ fn_low r' = true.
Proof.
  intros lc H Hn Hrd H1 H2 H3 Hnx H4 H5.
  destruct (fx_split_right_ok l a r (negb (fn_inner l)) s0 tl sep H Hn Hrd H1 H2 H3 H4 H5)
    as (r' & A1 & A2 & A3 & A4 & A5).
  assert (Hlc : lc + 1 <= length (a_slots a)).
  { unfold lc. pose proof (Nat.div_lt (length (a_slots a)) 2 ltac:(lia) ltac:(lia)). lia. }
  destruct (fx_split_left_ok l a r' sep (lc + 1) (if a_inner a then a_next a else Some ra) false H Hn)
    as (m1 & m2 & B1 & B2 & B3); auto.
  { unfold split_readable in Hrd. rewrite (fr_rc _ _ H) in Hrd.
    eapply Nat.le_trans; [apply fk_off_mono|exact Hrd]. lia. }
  { discriminate. }
  unfold fx_split_ml. rewrite A1. rewrite (fr_rc _ _ H) in *. fold lc in B1, B2, B3 |- *.
  rewrite B1, B2. rewrite (fr_next _ _ H). rewrite (fr_inner _ _ H) in *.
  do 2 eexists. split; [reflexivity|]. split; [exact B3|].
  split; [|split; auto]. rewrite Hnx in A2. destruct (a_inner a); exact A2.
Qed.

(** ** Merge *)

Lemma fx_merge_into_ok l al r ar low_pos sn (keep_low : bool) :
  frep l al -> frep r ar -> a_inner al = a_inner ar ->
  fk_off (S low_pos) <= page ->
  fx_used l + fx_used r <= page - hdr ->
  1 <= b2n (isSome (a_high al)) + b2n (fn_low r) ->
  (keep_low = true -> low_pos = length (a_slots al) + b2n (isSome (a_high al))) ->
  exists l', fx_merge_into l r low_pos sn = Some l' /\
    frep l' (ANode (a_inner al) (a_removed al) (if sn then a_next ar else a_next al)
                   (if keep_low then a_low al else None) (a_high ar) (a_slots al ++ a_slots ar)) /\
    fn_low l' = fn_low l /\
    fx_used l' + ks * (b2n (isSome (a_high al)) + b2n (fn_low r)) = fx_used l + fx_used r.
Proof.
  intros H Hr Hinn Hlp Hfit Hone Hkl.
  pose proof (frep_fits _ _ H) as Hfl. pose proof (frep_fits _ _ Hr) as Hfr.
  pose proof (frep_slots_fit _ _ Hr) as Hsfr.
  pose proof (fr_rc _ _ H) as Hrc. pose proof (fr_pl _ _ H) as Hpl.
  pose proof (fr_highb _ _ H) as Hhb. pose proof (fr_block _ _ H) as Hb.
  pose proof (fr_rc _ _ Hr) as Hrcr. pose proof (fr_pl _ _ Hr) as Hplr.
  pose proof (fr_highb _ _ Hr) as Hhbr. pose proof (fr_block _ _ Hr) as Hbr.
  rewrite <- Hinn in *.
  unfold fx_used in Hfit. rewrite Hrc, Hb, Hhb, Hrcr, Hbr, Hhbr in Hfit.
  set (pl := plof (a_inner al)) in *.
  set (L := length (a_slots al)) in *. set (R := length (a_slots ar)) in *.
  set (lo := b2n (fn_low l)) in *. set (hl := b2n (isSome (a_high al))) in *.
  set (lr := b2n (fn_low r)) in *. set (hr := b2n (isSome (a_high ar))) in *.
  assert (Htot : hdr + ks * (L + R + lo + hr) + ks * (hl + lr) + pl * (L + R) <= page).
  { pose proof fx_hdr_page. lia. }
  assert (A0 : ks * (L + R) <= ks * (L + R + lo + hr)) by (apply Nat.mul_le_mono_l; lia).
  unfold fx_merge_into. rewrite mrd_ok.
  2:{ apply fk_off_hdr. }
  2:{ rewrite fk_off_S in Hlp. lia. }
  set (lowb := rd (fn_mem l) (fk_off low_pos) ks).
  rewrite Hrcr, Hb. fold R pl L.
  destruct (fx_copy_records_ok (a_inner al) (a_slots ar) r) with
    (cnt := R) (d := l) (i := 0) (off := page - pl * L) (ld := a_slots al)
    as (l1 & B1 & B2 & B3 & B4); auto.
  { rewrite Hinn. apply (fr_slots _ _ Hr). }
  { apply (fr_slots _ _ H). }
  { fold L pl. lia. }
  fold L pl in B1, B2, B3. rewrite B1.
  rewrite skipn_O, (firstn_all2 (a_slots ar)) in B2 by (fold R; lia).
  assert (Hend : fk_off (S (L + R)) <= page - pl * (L + R)).
  { unfold fk_off. replace (S (L+R) * ks) with (ks * (L+R) + ks * 1) by lia.
    assert (ks * 1 <= ks * (hl + lr)) by (apply Nat.mul_le_mono_l; lia). lia. }
  assert (Hend2 : fn_low l = true -> fk_off (S (L + R + hr)) <= page - pl * (L + R)).
  { intros E. unfold fk_off. replace (S (L+R+hr) * ks) with (ks * (L+R+1+hr)) by lia.
    unfold lo in Htot. rewrite E in Htot. cbn [b2n] in Htot. lia. }
  set (m1 := mv (fn_mem l1) (fk_off (L + R)) (fn_mem r) (fk_off R) ks).
  assert (Hm1 : (if fn_high r then fx_cpkey (fn_mem l1) (fn_rc l1) (fn_mem r) R else Some (fn_mem l1))
                = Some (if fn_high r then m1 else fn_mem l1)).
  { rewrite B3. destruct (fn_high r) eqn:E; auto. apply fx_cpkey_ok; [lia|].
    apply (frep_key_inpage _ _ _ Hr). fold R. rewrite <- Hhbr. cbn. lia. }
  rewrite Hm1. set (m1' := if fn_high r then m1 else fn_mem l1) in *.
  assert (Hlowlen : length lowb = ks) by apply rd_length.
  set (m2 := wr m1' (fk_off (L + R + hr)) lowb).
  assert (Hm2 : (if fn_low l then mwr m1' (fk_off (fn_rc l1 + b2n (fn_high r))) lowb else Some m1')
                = Some (if fn_low l then m2 else m1')).
  { rewrite B3, Hhbr. fold hr. destruct (fn_low l) eqn:E; auto. apply mwr_ok.
    - apply fk_off_hdr.
    - rewrite Hlowlen, <- fk_off_S. specialize (Hend2 eq_refl). lia. }
  rewrite Hm2. set (m2' := if fn_low l then m2 else m1') in *.
  rewrite B3.
  assert (Hkv : forall i, i < L + R -> keyb m2' i = keyb (fn_mem l1) i).
  { intros i Hi.
    assert (E1 : keyb m1' i = keyb (fn_mem l1) i).
    { unfold m1'. destruct (fn_high r); auto. unfold m1. rewrite keyb_cp.
      replace (i =? L + R) with false by (symmetry; apply Nat.eqb_neq; lia). auto. }
    unfold m2'. destruct (fn_low l); auto. unfold m2. rewrite keyb_wr by auto.
    replace (i =? L + R + hr) with false by (symmetry; apply Nat.eqb_neq; lia). auto. }
  assert (Hpv : forall i, i < L + R -> payb m2' pl i = payb (fn_mem l1) pl i).
  { intros i Hi.
    assert (A4 : (i + 1) * pl <= pl * (L + R)) by (rewrite (Nat.mul_comm pl); apply Nat.mul_le_mono_r; lia).
    assert (E1 : payb m1' pl i = payb (fn_mem l1) pl i).
    { unfold m1'. destruct (fn_high r); auto. unfold m1.
      apply payb_mv_far. left. rewrite <- fk_off_S. unfold fp_off. lia. }
    unfold m2'. destruct (fn_low l) eqn:E; auto. unfold m2.
    rewrite payb_wr_far; auto. rewrite Hlowlen, <- fk_off_S. specialize (Hend2 eq_refl). unfold fp_off. lia. }
  destruct B4 as (C1 & C2 & C3 & C4 & C5 & C6 & C7).
  assert (Hlen : length (a_slots al ++ a_slots ar) = L + R) by (rewrite app_length; auto).
  assert (Hbk : page - (page - pl * (L + R)) = pl * (L + R)) by lia.
  rewrite Hbk.
  eexists. split; [reflexivity|].
  assert (Hused' : fx_used (FNode (fn_inner l) (fn_removed l) (pl * (L + R)) (L + R) (fn_pl l)
              (if sn then fn_next r else fn_next l) (fn_low l) (fn_high r) m2') + ks * (hl + lr) = fx_used l + fx_used r).
  { unfold fx_used. cbn [fn_rc fn_low fn_high fn_block]. rewrite Hrc, Hb, Hhb, Hrcr, Hbr, Hhbr.
    fold L R lo hl lr hr. lia. }
  split; [|split; auto].
  constructor; cbn [fn_inner fn_removed fn_next fn_rc fn_pl fn_block fn_low fn_high fn_mem
                    a_inner a_removed a_next a_slots a_high a_low aslots]; rewrite ?Hlen.
  - apply (fr_inner _ _ H).
  - apply (fr_removed _ _ H).
  - destruct sn; [apply (fr_next _ _ Hr) | apply (fr_next _ _ H)].
  - auto.
  - auto.
  - fold pl. auto.
  - unfold fx_used. cbn [fn_rc fn_low fn_high fn_block]. rewrite Hhbr. fold lo hr. lia.
  - apply fslots_ext with (m := fn_mem l1); rewrite ?Hlen; auto.
  - apply Forall_app. split; [apply (fr_kind _ _ H)|]. rewrite Hinn. apply (fr_kind _ _ Hr).
  - auto.
  - intros h Hh.
    assert (Ehr : fn_high r = true) by (rewrite Hhbr, Hh; auto).
    assert (E1 : keyb m1' (L + R) = enc_key h).
    { unfold m1'. rewrite Ehr. unfold m1. rewrite keyb_cp, Nat.eqb_refl.
      eapply fr_high; eauto. }
    unfold m2'. destruct (fn_low l); auto. unfold m2. rewrite keyb_wr by auto.
    replace (L + R =? L + R + hr) with false; auto. symmetry. apply Nat.eqb_neq.
    unfold hr. rewrite Hh. cbn. lia.
  - intros k Hk. destruct keep_low; [|discriminate].
    destruct (fr_low _ _ H _ Hk) as (D1 & D2). split; auto. fold hr.
    unfold m2'. rewrite D1. unfold m2. rewrite keyb_wr by auto. rewrite Nat.eqb_refl.
    unfold lowb. rewrite Hkl by auto. exact D2.
Qed.

(** ** Constructors *)

Lemma frep_new inner : frep (fx_set_paylen (fx_new inner) (plof inner))
                            (ANode inner false None None None []).
Proof.
  constructor; cbn; auto; try discriminate; try lia.
  - unfold fx_used. cbn. pose proof fx_hdr_page. lia.
  - constructor; intros [|i] s; cbn; discriminate.
Qed.

Lemma fx_root2_ok k l r :
  hdr + 2 * ks + 2 * ptrlen <= page ->
  exists n, fx_root2 k l r = Some n /\
    frep n (ANode true false None None None
              [Slot None (PP l) false; Slot (Some k) (PP r) false]) /\ fn_low n = false.
Proof.
  intros Hfit. pose proof fx_ks_pos. pose proof fx_ptrlen_pos.
  unfold fx_root2. rewrite fx_setkey_ok by (unfold fk_off; lia).
  unfold fx_setpayload, fx_wrpay. cbn [paylen]. rewrite Nat.eqb_refl.
  rewrite mwr_ok by (rewrite ?length_enc_pay; cbn [paylen]; lia).
  rewrite mwr_ok by (rewrite ?length_enc_pay; cbn [paylen]; lia).
  eexists. split; [reflexivity|]. split; [|reflexivity].
  replace (page - ptrlen) with (fp_off ptrlen 0) by (unfold fp_off; lia).
  replace (fp_off ptrlen 0 - ptrlen) with (fp_off ptrlen 1) by (unfold fp_off; lia).
  set (m1 := wr mem_undef (fk_off 1) (enc_key k)).
  set (m2 := wr m1 (fp_off ptrlen 0) (enc_pay (PP l))).
  set (m3 := wr m2 (fp_off ptrlen 1) (enc_pay (PP r))).
  constructor; cbn; auto; try discriminate; try lia.
  - unfold fx_used. cbn. lia.
  - constructor.
    + intros [|[|i]] s kk; cbn; intros E1 E2; inv E1; cbn in E2; [discriminate| |destruct i; discriminate].
      inv E2. unfold m3. rewrite keyb_wr_far by (unfold fk_off, fp_off; lia).
      unfold m2. rewrite keyb_wr_far by (unfold fk_off, fp_off; lia).
      unfold m1. rewrite keyb_wr by (rewrite length_enc_key; apply fx_klen). reflexivity.
    + intros [|[|i]] s; cbn [nth_error]; intros E1; inv E1; cbn [plof s_pay]; [| |destruct i; discriminate].
      * unfold m3. rewrite payb_wr by (rewrite ?length_enc_pay; cbn [paylen]; lia).
        cbn [Nat.eqb]. unfold m2. rewrite payb_wr by (rewrite ?length_enc_pay; cbn [paylen]; lia). reflexivity.
      * unfold m3. rewrite payb_wr by (rewrite ?length_enc_pay; cbn [paylen]; lia). reflexivity.
  - repeat constructor.
Qed.

End FixProofs.
