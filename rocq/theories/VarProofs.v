(** The variable-length node operations, related to abstract slots. *)
From Coq Require Import List Arith ZArith Bool Lia Sorted Permutation.
From Verif Require Import Params Mem Common NodeAbs FixProofs VarModel.
Import ListNotations.

Class VarSizes (P : Params) : Prop := {
  vs_meta_pos : 0 < metalen;
  vs_plen_pos : 0 < plen;
  vs_ptrlen_pos : 0 < ptrlen;
  vs_hdr_page : hdr <= page;
}.

Section VarProofs.
Context {P : Params} {O : OrdLaws P} {F : VarSizes P}.

(** Keys a caller may use: non-empty and at most kMaxKeyLen bytes. *)
Definition vkey (k : K) : Prop := 0 < klen k <= maxkey.

Definition klen_o (o : option K) : nat := match o with Some k => klen k | None => 0 end.
Definition slen (s : slot) : nat := klen_o (s_key s) + paylen (s_pay s).
Definition vmt (s : slot) (off : nat) : meta := Meta (s_del s) off (klen_o (s_key s)) (slen s).

Definition kcell (m : mem) (off : nat) (o : option K) : Prop :=
  forall k, o = Some k -> rd m off (klen k) = enc_key k.
Definition srec (m : mem) (s : slot) (off : nat) : Prop :=
  kcell m off (s_key s) /\
  rd m (off + klen_o (s_key s)) (paylen (s_pay s)) = enc_pay (s_pay s).

(** Slots with their offsets. *)
Definition vdata (m : mem) (L : list (slot * nat)) : Prop :=
  forall i s off, nth_error L i = Some (s, off) ->
    rd m (vm_off i) metalen = enc_meta (vmt s off) /\ srec m s off.

Definition disj (c d : nat * nat) : Prop := fst c + snd c <= fst d \/ fst d + snd d <= fst c.
Definition inchunk (base : nat) (c : nat * nat) : Prop := base <= fst c /\ fst c + snd c <= page.
Definition ochunk (o : option K) (off : nat) : list (nat * nat) :=
  match o with Some k => [(off, klen k)] | None => [] end.
Definition rchunk (x : slot * nat) : nat * nat := (snd x, slen (fst x)).
Definition layout (base : nat) (cs : list (nat * nat)) : Prop :=
  Forall (inchunk base) cs /\ ForallOrdPairs disj cs.

Definition tsize (s : slot) : nat := if s_del s then slen s + metalen else 0.
Definition lsize (s : slot) : nat := if s_del s then 0 else slen s + metalen.
Definition sum {A} (f : A -> nat) (l : list A) : nat := list_sum (map f l).

Record vrep' (n : vnode) (a : anode) (L : list (slot * nat)) (dead : nat) : Prop := {
  v_inner : vn_inner n = a_inner a;
  v_removed : vn_removed n = a_removed a;
  v_next : vn_next n = a_next a;
  v_slots : a_slots a = map fst L;
  v_rc : vn_rc n = length L;
  v_data : vdata (vn_mem n) L;
  v_kind : Forall (fun s => pay_kind (a_inner a) (s_pay s)) (a_slots a);
  v_keys : forall k, In k (keys_of (a_slots a)) -> vkey k;
  v_llen : vn_llen n = klen_o (a_low a);
  v_loff : forall k, a_low a = Some k -> vn_loff n = page - klen k;
  v_lowk : kcell (vn_mem n) (vn_loff n) (a_low a);
  v_lowv : forall k, a_low a = Some k -> vkey k;
  v_hlen : vn_hlen n = klen_o (a_high a);
  v_highk : kcell (vn_mem n) (vn_hoff n) (a_high a);
  v_highv : forall k, a_high a = Some k -> vkey k;
  v_lay : layout (page - vn_block n)
            (ochunk (a_low a) (vn_loff n) ++ ochunk (a_high a) (vn_hoff n) ++ map rchunk L);
  v_fit : hdr + metalen * length L + vn_block n <= page;
  v_del : vn_deleted n = sum tsize (a_slots a) + dead;
  v_acc : exists res, klen_o (a_low a) <= res /\ res <= maxkey /\
            vn_block n = res + klen_o (a_high a) + sum slen (a_slots a) + dead;
  v_dead : a_inner a = false -> dead = 0;
}.
Definition vrep (n : vnode) (a : anode) : Prop := exists L dead, vrep' n a L dead.

(** ** Memory agreement *)

Definition agree (m m' : mem) (a b : nat) : Prop := forall i, a <= i < b -> m' i = m i.

Lemma agree_refl m a b : agree m m a b. Proof. intros i _. reflexivity. Qed.
Lemma agree_trans m1 m2 m3 a b : agree m1 m2 a b -> agree m2 m3 a b -> agree m1 m3 a b.
Proof. intros H1 H2 i Hi. now rewrite H2, H1. Qed.
Lemma agree_sub m m' a b a' b' : agree m m' a b -> a <= a' -> b' <= b -> agree m m' a' b'.
Proof. intros H ? ? i Hi. apply H. lia. Qed.
Lemma rd_agree m m' a b o n : agree m m' a b -> a <= o -> o + n <= b -> rd m' o n = rd m o n.
Proof. intros H H1 H2. apply rd_ext. intros i Hi. apply H. lia. Qed.

Lemma agree_wr m o l a b : b <= o \/ o + length l <= a -> agree m (wr m o l) a b.
Proof.
  intros H i Hi. unfold wr. destruct (o <=? i) eqn:E; auto. apply Nat.leb_le in E.
  apply nth_overflow. lia.
Qed.
Lemma agree_mv dm d sm s n a b : b <= d \/ d + n <= a -> agree dm (mv dm d sm s n) a b.
Proof.
  intros H i Hi. unfold mv. destruct (d <=? i) eqn:E1; destruct (i <? d + n) eqn:E2; auto.
  apply Nat.leb_le in E1. apply Nat.ltb_lt in E2. lia.
Qed.
Lemma agree_mv_in dm sm o n a b : o <= a -> b <= o + n -> agree sm (mv dm o sm o n) a b.
Proof.
  intros H1 H2 i Hi. unfold mv.
  replace (o <=? i) with true by (symmetry; apply Nat.leb_le; lia).
  replace (i <? o + n) with true by (symmetry; apply Nat.ltb_lt; lia). cbn. f_equal. lia.
Qed.

Lemma kcell_agree m m' a b off o : agree m m' a b -> kcell m off o -> a <= off ->
  off + klen_o o <= b -> kcell m' off o.
Proof. intros H Hk H1 H2 k ->. rewrite (rd_agree m m' a b); auto. Qed.

Lemma srec_agree m m' a b s off : agree m m' a b -> srec m s off -> a <= off ->
  off + slen s <= b -> srec m' s off.
Proof.
  intros H [H1 H2] H3 H4. unfold slen in H4. split.
  - eapply kcell_agree; eauto. lia.
  - rewrite <- H2. apply (rd_agree m m' a b); auto; lia.
Qed.

Lemma vm_off_S i : vm_off (S i) = vm_off i + metalen.
Proof. unfold vm_off. cbn. lia. Qed.
Lemma vm_off_add i j : vm_off (i + j) = vm_off i + j * metalen.
Proof. unfold vm_off. rewrite Nat.mul_add_distr_r. lia. Qed.
Lemma vm_off_mono i j : i <= j -> vm_off i <= vm_off j.
Proof. intros H. unfold vm_off. apply Nat.add_le_mono_l, Nat.mul_le_mono_r, H. Qed.
Lemma vm_off_lt i j : i < j -> vm_off i + metalen <= vm_off j.
Proof. intros H. rewrite <- vm_off_S. now apply vm_off_mono. Qed.
Lemma vm_off_hdr i : hdr <= vm_off i.
Proof. unfold vm_off. lia. Qed.
Lemma vm_off_eq i : vm_off i = hdr + metalen * i.
Proof. unfold vm_off. lia. Qed.

Lemma in_rchunk L i s off : nth_error L i = Some (s, off) -> In (off, slen s) (map rchunk L).
Proof. intros H. apply nth_error_In in H. apply (in_map rchunk) in H. exact H. Qed.

Lemma vdata_agree m m' L base cs : vdata m L -> layout base (cs ++ map rchunk L) ->
  agree m m' (vm_off 0) (vm_off (length L)) -> agree m m' base page -> vdata m' L.
Proof.
  intros HD [HL _] H1 H2 i s off Hi. destruct (HD i s off Hi) as [A B].
  pose proof (nth_error_lt _ _ _ Hi) as Hlt. rewrite Forall_app in HL. destruct HL as [_ HL].
  rewrite Forall_forall in HL. destruct (HL _ (in_rchunk _ _ _ _ Hi)) as [C D]. cbn in C, D.
  split.
  - rewrite <- A. apply (rd_agree m m' (vm_off 0) (vm_off (length L))); auto.
    + apply vm_off_mono; lia.
    + now apply vm_off_lt.
  - apply (srec_agree m m' base page); auto.
Qed.

(** ** Reading *)

Lemma vx_meta_ok m i mt : vm_off (S i) <= page -> rd m (vm_off i) metalen = enc_meta mt ->
  vx_meta m i = Some mt.
Proof.
  intros H1 H2. unfold vx_meta. rewrite vm_off_S in H1.
  rewrite mrd_ok by (try apply vm_off_hdr; lia). rewrite H2. apply dec_enc_meta, vs_meta_pos.
Qed.

Lemma mrd_key m off k : hdr <= off -> off + klen k <= page -> 0 < klen k ->
  rd m off (klen k) = enc_key k ->
  (let? b := mrd m off (klen k) in dec_key b) = Some k.
Proof. intros H1 H2 H3 H4. rewrite mrd_ok by lia. rewrite H4. now apply dec_enc_key. Qed.

Section Rep.
Variables (n : vnode) (a : anode) (L : list (slot * nat)) (dead : nat).
Hypothesis H : vrep' n a L dead.

Lemma v_fit' : vm_off (length L) + vn_block n <= page.
Proof. rewrite vm_off_eq. apply (v_fit _ _ _ _ H). Qed.
Lemma v_base : vm_off (length L) <= page - vn_block n.
Proof. pose proof v_fit'. lia. Qed.

Lemma v_chunk i s off : nth_error L i = Some (s, off) ->
  vm_off (length L) <= off /\ off + slen s <= page.
Proof.
  intros Hi. destruct (v_lay _ _ _ _ H) as [HL _]. rewrite !Forall_app in HL.
  destruct HL as (_ & _ & HL). rewrite Forall_forall in HL.
  destruct (HL _ (in_rchunk _ _ _ _ Hi)) as [A B]. cbn in A, B. pose proof v_base. lia.
Qed.

Lemma v_hchunk k : a_high a = Some k -> vm_off (length L) <= vn_hoff n /\ vn_hoff n + klen k <= page.
Proof.
  intros Hk. destruct (v_lay _ _ _ _ H) as [HL _]. rewrite !Forall_app in HL.
  destruct HL as (_ & HL & _). rewrite Hk in HL. cbn in HL. inv HL. destruct H2 as [A B]. cbn in A, B.
  pose proof v_base. lia.
Qed.

Lemma v_lchunk k : a_low a = Some k -> vm_off (length L) <= vn_loff n /\ vn_loff n + klen k <= page.
Proof.
  intros Hk. destruct (v_lay _ _ _ _ H) as [HL _]. rewrite !Forall_app in HL.
  destruct HL as (HL & _). rewrite Hk in HL. cbn in HL. inv HL. destruct H2 as [A B]. cbn in A, B.
  pose proof v_base. lia.
Qed.

Lemma v_chunkb i s off : nth_error L i = Some (s, off) -> page - vn_block n <= off /\ off + slen s <= page.
Proof.
  intros Hi. destruct (v_lay _ _ _ _ H) as [HL _]. rewrite !Forall_app in HL.
  destruct HL as (_ & _ & HL). rewrite Forall_forall in HL. apply (HL _ (in_rchunk _ _ _ _ Hi)).
Qed.
Lemma v_hchunkb k : a_high a = Some k -> page - vn_block n <= vn_hoff n /\ vn_hoff n + klen k <= page.
Proof.
  intros Hk. destruct (v_lay _ _ _ _ H) as [HL _]. rewrite !Forall_app in HL.
  destruct HL as (_ & HL & _). rewrite Hk in HL. cbn in HL. inv HL. exact H2.
Qed.
Lemma v_lchunkb k : a_low a = Some k -> page - vn_block n <= vn_loff n /\ vn_loff n + klen k <= page.
Proof.
  intros Hk. destruct (v_lay _ _ _ _ H) as [HL _]. rewrite !Forall_app in HL.
  destruct HL as (HL & _). rewrite Hk in HL. cbn in HL. inv HL. exact H2.
Qed.
Lemma v_highk_agree m' : agree (vn_mem n) m' (page - vn_block n) page -> kcell m' (vn_hoff n) (a_high a).
Proof.
  intros HA k E. destruct (v_hchunkb k E). rewrite <- (v_highk _ _ _ _ H k E).
  eapply rd_agree; [exact HA|lia|lia].
Qed.
Lemma v_lowk_agree m' : agree (vn_mem n) m' (page - vn_block n) page -> kcell m' (vn_loff n) (a_low a).
Proof.
  intros HA k E. destruct (v_lchunkb k E). rewrite <- (v_lowk _ _ _ _ H k E).
  eapply rd_agree; [exact HA|lia|lia].
Qed.
Lemma v_srec_agree m' i s off : nth_error L i = Some (s, off) ->
  agree (vn_mem n) m' (page - vn_block n) page -> srec m' s off.
Proof.
  intros Hi HA. destruct (v_chunkb i s off Hi). destruct (v_data _ _ _ _ H i s off Hi) as [_ R].
  eapply srec_agree; [exact HA|exact R|lia|lia].
Qed.

Lemma v_meta i s off : nth_error L i = Some (s, off) -> vx_meta (vn_mem n) i = Some (vmt s off).
Proof.
  intros Hi. destruct (v_data _ _ _ _ H i s off Hi) as [A _]. apply vx_meta_ok; auto.
  pose proof (nth_error_lt _ _ _ Hi). pose proof v_fit'.
  pose proof (vm_off_mono (S i) (length L) ltac:(lia)). lia.
Qed.

Lemma v_slot i s : nth_error (a_slots a) i = Some s -> exists off, nth_error L i = Some (s, off).
Proof.
  rewrite (v_slots _ _ _ _ H), nth_error_map. destruct (nth_error L i) as [[s' off]|]; cbn; intros E; inv E.
  eauto.
Qed.

Lemma v_slot' i s off : nth_error L i = Some (s, off) -> nth_error (a_slots a) i = Some s.
Proof. intros E. rewrite (v_slots _ _ _ _ H), nth_error_map, E. reflexivity. Qed.

Lemma v_len : length (a_slots a) = length L.
Proof. now rewrite (v_slots _ _ _ _ H), map_length. Qed.

Lemma v_mkey i s off k : nth_error L i = Some (s, off) -> s_key s = Some k ->
  vx_mkey (vn_mem n) (vmt s off) = Some k.
Proof.
  intros Hi Hk. destruct (v_data _ _ _ _ H i s off Hi) as [_ [B _]].
  destruct (v_chunk i s off Hi) as [C D]. unfold vx_mkey, vmt. cbn [md_off md_klen].
  unfold slen in D. rewrite Hk in *. cbn [klen_o] in *.
  assert (vkey k) as [Hk0 _].
  { apply (v_keys _ _ _ _ H). apply in_keys_of. exists s. split; auto.
    eapply nth_error_In, v_slot'; eauto. }
  apply mrd_key; auto; try lia. pose proof (vm_off_hdr (length L)). lia.
Qed.

Lemma v_key i k : kat (a_slots a) i = Some k -> vx_key n i = Some k.
Proof.
  unfold kat. destruct (nth_error (a_slots a) i) as [s|] eqn:E; [|discriminate]. intros Hk.
  destruct (v_slot i s E) as [off Ho]. unfold vx_key. rewrite (v_meta i s off Ho).
  eapply v_mkey; eauto.
Qed.

Lemma v_mpayb i s off : nth_error L i = Some (s, off) ->
  mrd (vn_mem n) (off + klen_o (s_key s)) (paylen (s_pay s)) = Some (enc_pay (s_pay s)).
Proof.
  intros Hi. destruct (v_data _ _ _ _ H i s off Hi) as [_ [_ B]].
  destruct (v_chunk i s off Hi) as [C D]. unfold slen in D.
  pose proof (vm_off_hdr (length L)). rewrite mrd_ok by lia. now rewrite B.
Qed.

Lemma v_mpay i s off v : nth_error L i = Some (s, off) -> s_pay s = PV v ->
  vx_mpay (vn_mem n) (vmt s off) = Some v.
Proof.
  intros Hi Hv. unfold vx_mpay, vmt. cbn [md_off md_klen].
  pose proof (v_mpayb i s off Hi) as E. rewrite Hv in E. cbn [paylen] in E. rewrite E.
  rewrite dec_enc_pay; auto. cbn. apply vs_plen_pos.
Qed.

Lemma v_child i s c : nth_error (a_slots a) i = Some s -> s_pay s = PP c -> vx_child n i = Some c.
Proof.
  intros Hi Hc. destruct (v_slot i s Hi) as [off Ho]. unfold vx_child. rewrite (v_meta i s off Ho).
  unfold vmt. cbn [md_off md_klen].
  pose proof (v_mpayb i s off Ho) as E. rewrite Hc in E. cbn [paylen] in E. rewrite E.
  rewrite dec_enc_pay; auto. cbn. apply vs_ptrlen_pos.
Qed.

Lemma v_recdel i s : nth_error (a_slots a) i = Some s -> vx_recdel n i = Some (s_del s).
Proof.
  intros Hi. destruct (v_slot i s Hi) as [off Ho]. unfold vx_recdel. now rewrite (v_meta i s off Ho).
Qed.

Lemma v_record i s k v : nth_error (a_slots a) i = Some s -> s_key s = Some k -> s_pay s = PV v ->
  vx_record n i = Some (k, v).
Proof.
  intros Hi Hk Hv. destruct (v_slot i s Hi) as [off Ho]. unfold vx_record.
  rewrite (v_meta i s off Ho), (v_mkey i s off k Ho Hk), (v_mpay i s off v Ho Hv). reflexivity.
Qed.

Lemma v_highkey h : a_high a = Some h -> vx_highkey n = Some h.
Proof.
  intros Hh. unfold vx_highkey. rewrite (v_hlen _ _ _ _ H), Hh. cbn [klen_o].
  destruct (v_hchunk h Hh) as [A B]. pose proof (vm_off_hdr (length L)).
  destruct (v_highv _ _ _ _ H h Hh). apply mrd_key; auto; try lia. apply (v_highk _ _ _ _ H), Hh.
Qed.

Lemma v_lowkey k : a_low a = Some k -> vx_sepkey n false = Some k.
Proof.
  intros Hh. unfold vx_sepkey. rewrite (v_llen _ _ _ _ H), Hh. cbn [klen_o].
  destruct (v_lchunk k Hh) as [A B]. pose proof (vm_off_hdr (length L)).
  destruct (v_lowv _ _ _ _ H k Hh). apply mrd_key; auto; try lia. apply (v_lowk _ _ _ _ H), Hh.
Qed.

Lemma v_comphigh key :
  vx_comphigh n key = Some (match a_high a with Some h => ltb key h | None => true end).
Proof.
  unfold vx_comphigh. rewrite (v_hlen _ _ _ _ H). destruct (a_high a) as [h|] eqn:E; cbn [klen_o].
  - destruct (v_highv _ _ _ _ H h E). replace (klen h =? 0) with false by (symmetry; apply Nat.eqb_neq; lia).
    now rewrite (v_highkey h E).
  - reflexivity.
Qed.

Lemma v_leaf_search key : a_inner a = false -> leaf_ok (a_slots a) ->
  exists rc pos, vx_search n key = Some (rc, pos) /\ leaf_search_spec (a_slots a) key rc pos.
Proof.
  intros Hin Hok. unfold vx_search. rewrite (v_inner _ _ _ _ H), Hin, (v_rc _ _ _ _ H), <- v_len. cbn [b2n].
  destruct (leaf_bsearch_spec (a_slots a) key (vx_key n) Hok) as (r & Hr & Hs).
  - intros i Hi. destruct (body_ok_key false _ i Hok ltac:(cbn; lia) Hi) as [k Hk].
    rewrite Hk. now apply v_key.
  - rewrite Hr. destruct r as [[] p].
    + destruct Hs as (H1 & H2 & l1 & s & l2 & H3 & H4 & H5).
      rewrite (v_recdel (Z.to_nat p) s) by (rewrite H3, H4; apply nth_error_mid).
      destruct (s_del s) eqn:Ed; do 2 eexists; (split; [reflexivity|]); cbn; exists l1, s, l2; auto.
    + do 2 eexists. split; [reflexivity|]. exact Hs.
Qed.

Lemma v_inner_search key : a_inner a = true -> inner_ok (a_slots a) ->
  exists rc pos, vx_search n key = Some (rc, pos) /\ inner_search_spec (a_slots a) key rc pos.
Proof.
  intros Hin Hok. unfold vx_search. rewrite (v_inner _ _ _ _ H), Hin, (v_rc _ _ _ _ H), <- v_len. cbn [b2n].
  destruct (inner_bsearch_spec (a_slots a) key (vx_key n) Hok) as (r & Hr & Hs).
  - intros i Hi. destruct (body_ok_key true _ i Hok ltac:(cbn; lia) ltac:(lia)) as [k Hk].
    rewrite Hk. now apply v_key.
  - rewrite Hr. destruct r as [[] p].
    + destruct Hs as ((l1 & s & l2 & E & Ep & E2 & E3) & E4 & E5).
      rewrite (v_recdel (Z.to_nat p) s) by (rewrite E, Ep; apply nth_error_mid).
      assert (Hd : s_del s = false).
      { destruct (a_slots a) as [|s0 tl]; [destruct Hok|]. destruct Hok as (Hs0 & Htl & _).
        destruct l1 as [|x l1]; cbn in E; inv E.
        - apply Hs0.
        - rewrite Forall_forall in Htl. apply Htl. apply in_or_app. right. now left. }
      rewrite Hd. do 2 eexists. split; [reflexivity|]. split; [|auto]. exists l1, s, l2. auto.
    + do 2 eexists. split; [reflexivity|]. exact Hs.
Qed.

Lemma v_read key : a_inner a = false -> leaf_ok (a_slots a) ->
  vx_read n key = Some (assoc key (live (a_slots a))).
Proof.
  intros Hin Hok. unfold vx_read.
  destruct (v_leaf_search key Hin Hok) as (rc & pos & Hs & Hspec). rewrite Hs.
  destruct rc; try contradiction; cbn in Hspec.
  - destruct Hspec as (l1 & l2 & Hsl & -> & H1 & H2).
    rewrite assoc_live_notin; auto. rewrite Hsl. now apply not_inserted_notin.
  - destruct Hspec as (l1 & s & l2 & Hsl & -> & Hk & Hd).
    rewrite Hsl, (assoc_live_deleted l1 s l2 key); auto. now rewrite <- Hsl.
  - destruct Hspec as (l1 & s & l2 & Hsl & -> & Hk & Hd).
    assert (exists v, s_pay s = PV v) as [v Hv].
    { destruct Hok as [HF _]. rewrite Hsl, Forall_app in HF. destruct HF as [_ HF]. inv HF.
      destruct H2 as (k & v & _ & E). eauto. }
    destruct (v_slot (length l1) s) as [off Ho]; [rewrite Hsl; apply nth_error_mid|].
    rewrite (v_meta _ _ _ Ho), (v_mpay _ _ _ v Ho Hv).
    rewrite Hsl, (assoc_live_found l1 s l2 key v); auto. now rewrite <- Hsl.
Qed.

End Rep.

(** ** Sums *)

Lemma sum_nil {A} (f : A -> nat) : sum f [] = 0. Proof. reflexivity. Qed.
Lemma sum_cons {A} (f : A -> nat) x l : sum f (x :: l) = f x + sum f l. Proof. reflexivity. Qed.
Lemma sum_app {A} (f : A -> nat) l1 l2 : sum f (l1 ++ l2) = sum f l1 + sum f l2.
Proof. unfold sum. rewrite map_app. apply list_sum_app. Qed.
Hint Rewrite @sum_nil @sum_cons @sum_app @app_length @map_app : vsum.

Lemma sum_total l : metalen * length l + sum slen l = sum lsize l + sum tsize l.
Proof.
  induction l as [|s l IH]; cbn [length]; rewrite ?sum_nil, ?sum_cons; [lia|].
  unfold lsize at 1, tsize at 1. destruct (s_del s); lia.
Qed.
Lemma filter_live_cons s l : filter s_live (s :: l) = if s_del s then filter s_live l else s :: filter s_live l.
Proof. cbn. unfold s_live at 1. now destruct (s_del s). Qed.
Lemma sum_live l : metalen * length (filter s_live l) + sum slen (filter s_live l) = sum lsize l.
Proof.
  induction l as [|s l IH]; [cbn; lia|]. rewrite filter_live_cons, !sum_cons. unfold lsize at 1.
  destruct (s_del s); cbn [length]; rewrite ?sum_cons; lia.
Qed.
Lemma sum_live_t l : sum tsize (filter s_live l) = 0.
Proof.
  induction l as [|s l IH]; [reflexivity|]. rewrite filter_live_cons.
  destruct (s_del s) eqn:E; rewrite ?sum_cons; auto.
  unfold tsize at 1. now rewrite E.
Qed.

(** ** Layouts *)

Lemma disj_sym c d : disj c d -> disj d c. Proof. unfold disj. tauto. Qed.

Lemma FOP_perm {A} (R : A -> A -> Prop) : (forall x y, R x y -> R y x) ->
  forall l l', Permutation l l' -> ForallOrdPairs R l -> ForallOrdPairs R l'.
Proof.
  intros Hs l l' HP. induction HP; intros HF; auto.
  - inv HF. constructor; auto. rewrite Forall_forall in *. intros y Hy. apply H1.
    apply Permutation_sym in HP. eapply Permutation_in; eauto.
  - inv HF. inv H2. inv H1. constructor; [constructor; auto|constructor; auto].
Qed.

Lemma layout_perm base cs cs' : Permutation cs cs' -> layout base cs -> layout base cs'.
Proof.
  intros HP [H1 H2]. split.
  - rewrite Forall_forall in *. intros x Hx. apply H1. apply Permutation_sym in HP.
    eapply Permutation_in; eauto.
  - eapply FOP_perm; eauto. apply disj_sym.
Qed.

Lemma layout_sub base base' cs : layout base cs -> base' <= base -> layout base' cs.
Proof.
  intros [H1 H2] Hb. split; auto. eapply Forall_impl; [|exact H1]. intros c [A B]. split; lia.
Qed.

Lemma layout_cons base off len cs : layout base cs -> off + len <= base -> base <= page ->
  layout off ((off, len) :: cs).
Proof.
  intros [H1 H2] Hb Hp. split.
  - constructor; [split; cbn; lia|]. eapply Forall_impl; [|exact H1]. intros c [A B]. split; lia.
  - constructor; auto. eapply Forall_impl; [|exact H1]. intros c [A B]. left. cbn. lia.
Qed.

Lemma layout_nil : layout page []. Proof. split; constructor. Qed.

Lemma layout_tail base c cs : layout base (c :: cs) -> layout base cs.
Proof. intros [H1 H2]. inv H1. inv H2. split; auto. Qed.

Lemma layout_mid base l1 c l2 : layout base (l1 ++ c :: l2) ->
  inchunk base c /\ (forall d, In d (l1 ++ l2) -> disj c d /\ inchunk base d) /\ layout base (l1 ++ l2).
Proof.
  intros H. assert (H' := layout_perm _ _ _ (Permutation_sym (Permutation_middle l1 l2 c)) H).
  pose proof (layout_tail _ _ _ H') as Ht. destruct H' as [A B]. inv A. inv B.
  rewrite Forall_forall in *. split; auto.
Qed.

Lemma perm_layout_add cs L x : Permutation (cs ++ map rchunk (L ++ [x])) (rchunk x :: cs ++ map rchunk L).
Proof.
  rewrite map_app. cbn [map]. rewrite app_assoc. apply Permutation_sym, Permutation_cons_append.
Qed.

(** ** Builders *)

Lemma vx_setmeta_ok m i mt : vm_off (S i) <= page -> vx_setmeta m i mt = Some (wr m (vm_off i) (enc_meta mt)).
Proof.
  intros H. unfold vx_setmeta. rewrite vm_off_S in H. apply mwr_ok; [apply vm_off_hdr|].
  rewrite length_enc_meta. lia.
Qed.

Lemma vdata_app m L x : vdata m L ->
  rd m (vm_off (length L)) metalen = enc_meta (vmt (fst x) (snd x)) -> srec m (fst x) (snd x) ->
  vdata m (L ++ [x]).
Proof.
  intros HD H1 H2 i s off Hi. destruct (Nat.lt_ge_cases i (length L)) as [Hl|Hl].
  - rewrite nth_error_app1 in Hi by auto. now apply HD.
  - rewrite nth_error_app2 in Hi by auto. destruct (i - length L) as [|j] eqn:E; cbn in Hi.
    + inv Hi. replace i with (length L) by lia. auto.
    + destruct j; discriminate.
Qed.

(** What is copied: source records readable in [sm]. *)
Definition vsrc (sm : mem) (i : nat) (LS : list (slot * nat)) : Prop :=
  forall j s off, nth_error LS j = Some (s, off) ->
    vx_meta sm (i + j) = Some (vmt s off) /\ srec sm s off /\ hdr <= off /\ off + slen s <= page.

Lemma vsrc_tail sm i x LS : vsrc sm i (x :: LS) -> vsrc sm (i + 1) LS.
Proof.
  intros H j s off Hj. specialize (H (S j) s off Hj). replace (i + 1 + j) with (i + S j) by lia. exact H.
Qed.

Lemma vrep_vsrc n a L dead : vrep' n a L dead -> vsrc (vn_mem n) 0 L.
Proof.
  intros H j s off Hj. destruct (v_chunk _ _ _ _ H _ _ _ Hj) as [A B]. pose proof (vm_off_hdr (length L)).
  split; [|split; [|lia]].
  - apply (v_meta _ _ _ _ H _ _ _ Hj).
  - apply (v_data _ _ _ _ H _ _ _ Hj).
Qed.

Record bld (dm m : mem) (L : list (slot * nat)) (cs : list (nat * nat)) (c0 off0 off : nat) : Prop := {
  b_data : vdata m L;
  b_lay : layout off (cs ++ map rchunk L);
  b_agree : agree dm m off0 page;
  b_agreem : agree dm m hdr (vm_off c0);
}.

Lemma vx_copyrec_ok dm L cs off sm s soff : s_del s = false ->
  vdata dm L -> layout off (cs ++ map rchunk L) -> off <= page ->
  srec sm s soff -> hdr <= soff -> soff + slen s <= page ->
  vm_off (length L) + lsize s <= off ->
  exists m', vx_copyrec dm (length L) sm (vmt s soff) off = Some (m', off - slen s) /\
    bld dm m' (L ++ [(s, off - slen s)]) cs (length L) off (off - slen s).
Proof.
  intros Hd HD HL Hop HS H1 H2 Hsp. unfold lsize in Hsp. rewrite Hd in Hsp.
  unfold vx_copyrec, vmt. cbn [md_rlen md_off md_klen].
  pose proof (vm_off_hdr (length L)) as Hh.
  rewrite mmv_ok by lia. rewrite vx_setmeta_ok by (rewrite vm_off_S; lia).
  eexists. split; [reflexivity|]. set (m1 := mv _ _ _ _ _).
  assert (A1 : agree dm m1 off page) by (apply agree_mv; lia).
  assert (A2 : agree dm m1 hdr (vm_off (length L))) by (apply agree_mv; lia).
  assert (A3 : forall mt, agree m1 (wr m1 (vm_off (length L)) (enc_meta mt)) (off - slen s) page).
  { intros mt. apply agree_wr. rewrite length_enc_meta. lia. }
  assert (A4 : forall mt, agree m1 (wr m1 (vm_off (length L)) (enc_meta mt)) hdr (vm_off (length L))).
  { intros mt. apply agree_wr. lia. }
  constructor.
  - apply vdata_app; cbn [fst snd].
    + eapply vdata_agree; [exact HD|exact HL| |].
      * eapply agree_sub; [eapply agree_trans; [exact A2|apply A4]|apply vm_off_hdr|lia].
      * eapply agree_trans; [exact A1|]. eapply agree_sub; [apply A3|lia|lia].
    + replace metalen with (length (enc_meta (Meta false (off - slen s) (klen_o (s_key s)) (slen s))))
        by apply length_enc_meta.
      rewrite rd_wr_same. unfold vmt. now rewrite Hd.
    + assert (HS' : srec m1 s (off - slen s)).
      { destruct HS as [S1 S2]. unfold slen in *. split.
        - intros k Hk. unfold m1. rewrite Hk in *. cbn [klen_o] in *. rewrite rd_mv_in by lia.
          replace (soff + _) with soff by lia. now apply S1.
        - unfold m1. rewrite rd_mv_in by lia. rewrite <- S2. f_equal. lia. }
      eapply srec_agree; [apply A3|exact HS'|lia|lia].
  - eapply layout_perm; [apply Permutation_sym, perm_layout_add|].
    unfold rchunk at 1. cbn [fst snd]. apply layout_cons with (base := off); auto. lia.
  - eapply agree_trans; [exact A1|]. eapply agree_sub; [apply A3|lia|lia].
  - eapply agree_trans; [exact A2|apply A4].
Qed.

Lemma vx_copyrecs_ok sm cs LS : forall dm L i off,
  vsrc sm i LS -> vdata dm L -> layout off (cs ++ map rchunk L) -> off <= page ->
  vm_off (length L) + sum lsize (map fst LS) <= off ->
  exists m' L' off', vx_copyrecs (length LS) dm (length L) sm i off = Some (m', length (L ++ L'), off') /\
    map fst L' = filter s_live (map fst LS) /\
    off' + sum slen (filter s_live (map fst LS)) = off /\
    vm_off (length (L ++ L')) <= off' /\
    bld dm m' (L ++ L') cs (length L) off off'.
Proof.
  induction LS as [|[s soff] LS IH]; intros dm L i off HS HD HL Hop Hsp.
  - exists dm, [], off. rewrite app_nil_r. cbn [map filter length vx_copyrecs] in *. rewrite !sum_nil in *.
    split; [reflexivity|]. split; [reflexivity|]. split; [lia|]. split; [lia|].
    constructor; auto; apply agree_refl.
  - cbn [length vx_copyrecs map fst] in *. destruct (HS 0 s soff eq_refl) as (M & R & B1 & B2).
    rewrite Nat.add_0_r in M. rewrite M. rewrite sum_cons in Hsp.
    change (md_del (vmt s soff)) with (s_del s). rewrite !filter_live_cons.
    destruct (s_del s) eqn:Ed.
    + apply IH; auto; [eapply vsrc_tail; eauto | lia].
    + destruct (vx_copyrec_ok dm L cs off sm s soff) as (m1 & E1 & [D1 D2 D3 D4]); auto; [lia|].
      rewrite E1.
      assert (Hlen : length (L ++ [(s, off - slen s)]) = length L + 1) by (rewrite app_length; reflexivity).
      assert (Hls : lsize s = slen s + metalen) by (unfold lsize; now rewrite Ed).
      destruct (IH m1 (L ++ [(s, off - slen s)]) (i + 1) (off - slen s)) as (m2 & L2 & off2 & E2 & F1 & F2 & F3 & [G1 G2 G3 G4]);
        auto; [eapply vsrc_tail; eauto | lia | |].
      { rewrite Hlen, Nat.add_1_r, vm_off_S. lia. }
      rewrite Hlen in E2. rewrite <- app_assoc in *. cbn [app] in *.
      exists m2, ((s, off - slen s) :: L2), off2. split; [exact E2|]. cbn [map fst]. rewrite F1, sum_cons.
      split; [reflexivity|]. split; [lia|]. split; [exact F3|]. constructor; auto.
      * eapply agree_trans; [exact D3|]. eapply agree_sub; [exact G3|lia|lia].
      * eapply agree_trans; [exact D4|]. eapply agree_sub; [exact G4|lia|]. apply vm_off_mono. lia.
Qed.

(** The left half of a split: copy while the used size is below half. *)
Lemma vx_split_loop_ok sm cs half vmx LS : forall fuel dm L i off used,
  length LS <= fuel -> (forall s, In s (map fst LS) -> lsize s <= vmx) ->
  vsrc sm i LS -> vdata dm L -> layout off (cs ++ map rchunk L) -> off <= page ->
  vm_off (length L) + (half + vmx - used) <= off ->
  half <= used + sum lsize (map fst LS) ->
  used < half + vmx ->
  exists m' L' off' LS1 LS2, LS = LS1 ++ LS2 /\
    vx_split_loop fuel dm (length L) sm i off used half
      = Some (m', length (L ++ L'), off', i + length LS1) /\
    map fst L' = filter s_live (map fst LS1) /\
    off' + sum slen (filter s_live (map fst LS1)) = off /\
    vm_off (length (L ++ L')) <= off' /\
    half <= used + sum lsize (map fst LS1) /\
    used + sum lsize (map fst LS1) < half + vmx /\
    (used < half -> LS1 <> []) /\
    bld dm m' (L ++ L') cs (length L) off off'.
Proof.
  induction LS as [|[s soff] LS IH]; intros fuel dm L i off used Hf Hmx HS HD HL Hop Hsp Htot Hu.
  - cbn [map] in Htot. rewrite sum_nil in Htot.
    exists dm, [], off, [], []. rewrite !app_nil_r. cbn [map filter length app]. rewrite !sum_nil.
    split; [reflexivity|]. split.
    { destruct fuel; cbn; replace (used <? half) with false by (symmetry; apply Nat.ltb_ge; lia);
        now rewrite Nat.add_0_r, ?app_nil_r. }
    repeat (split; [reflexivity || lia || (intros; exfalso; lia)|]). constructor; auto; apply agree_refl.
  - destruct (used <? half) eqn:Eu.
    2:{ apply Nat.ltb_ge in Eu. exists dm, [], off, [], ((s, soff) :: LS).
        rewrite !app_nil_r. cbn [map filter length app]. rewrite !sum_nil.
        split; [reflexivity|]. split.
        { destruct fuel; cbn; replace (used <? half) with false by (symmetry; apply Nat.ltb_ge; lia);
            now rewrite Nat.add_0_r, ?app_nil_r. }
        repeat (split; [reflexivity || lia || (intros; exfalso; lia)|]). constructor; auto; apply agree_refl. }
    destruct fuel as [|fuel]; [cbn in Hf; lia|]. cbn [length] in Hf.
    cbn [vx_split_loop]. rewrite Eu. apply Nat.ltb_lt in Eu.
    destruct (HS 0 s soff eq_refl) as (M & R & B1 & B2).
    rewrite Nat.add_0_r in M. rewrite M. cbn [map fst] in Htot. rewrite sum_cons in Htot.
    change (md_del (vmt s soff)) with (s_del s). change (md_rlen (vmt s soff)) with (slen s).
    assert (Hmx' : forall s0, In s0 (map fst LS) -> lsize s0 <= vmx) by (intros s0 Hs0; apply Hmx; now right).
    destruct (s_del s) eqn:Ed.
    + assert (Hls : lsize s = 0) by (unfold lsize; now rewrite Ed).
      destruct (IH fuel dm L (i + 1) off used) as (m2 & L2 & off2 & LS1 & LS2 & E0 & E2 & F1 & F2 & F3 & F4 & F5 & F6 & F7);
        auto; try lia; [eapply vsrc_tail; eauto|].
      exists m2, L2, off2, ((s, soff) :: LS1), LS2. split; [cbn; now rewrite E0|]. cbn [length map fst]. rewrite !filter_live_cons, Ed.
      replace (i + S (length LS1)) with (i + 1 + length LS1) by lia. split; [exact E2|].
      rewrite sum_cons, Hls.
      repeat (split; [lia || assumption || discriminate|]). exact F7.
    + assert (Hls : lsize s = slen s + metalen) by (unfold lsize; now rewrite Ed).
      pose proof (Hmx s (or_introl eq_refl)) as Hms.
      destruct (vx_copyrec_ok dm L cs off sm s soff) as (m1 & E1 & [D1 D2 D3 D4]); auto; [lia|].
      rewrite E1.
      assert (Hlen : length (L ++ [(s, off - slen s)]) = length L + 1) by (rewrite app_length; reflexivity).
      assert (Hu2 : used + (slen s + metalen) < half + vmx) by lia.
      destruct (IH fuel m1 (L ++ [(s, off - slen s)]) (i + 1) (off - slen s) (used + (slen s + metalen)))
        as (m2 & L2 & off2 & LS1 & LS2 & E0 & E2 & F1 & F2 & F3 & F4 & F5 & F6 & [G1 G2 G3 G4]);
        auto; try lia; [eapply vsrc_tail; eauto | |].
      { rewrite Hlen, Nat.add_1_r, vm_off_S. lia. }
      rewrite Hlen in E2. rewrite <- app_assoc in *. cbn [app] in *.
      exists m2, ((s, off - slen s) :: L2), off2, ((s, soff) :: LS1), LS2.
      split; [now rewrite E0|]. cbn [length].
      replace (i + S (length LS1)) with (i + 1 + length LS1) by lia. split; [exact E2|].
      cbn [map fst]. rewrite !filter_live_cons, Ed. rewrite F1, !sum_cons, Hls.
      split; [reflexivity|]. repeat (split; [lia || exact F3 || discriminate|]). constructor; auto.
      * eapply agree_trans; [exact D3|]. eapply agree_sub; [exact G3|lia|lia].
      * eapply agree_trans; [exact D4|]. eapply agree_sub; [exact G4|lia|]. apply vm_off_mono. lia.
Qed.

Lemma vx_reflect_ok m tm rc off : vm_off rc <= off -> off <= page ->
  exists m', vx_reflect m tm rc off = Some m' /\
    agree tm m' (vm_off 0) (vm_off rc) /\ agree tm m' off page.
Proof.
  intros H1 H2. unfold vx_reflect. pose proof (vm_off_hdr 0) as H0.
  assert (E : vm_off 0 + metalen * rc = vm_off rc) by (rewrite !vm_off_eq; lia).
  rewrite mmv_ok by lia. set (m1 := mv _ _ _ _ _).
  rewrite mmv_ok by (pose proof (vm_off_hdr rc); lia). eexists. split; [reflexivity|]. split.
  - apply agree_trans with (m2 := m1).
    + apply agree_mv_in; lia.
    + apply agree_mv. lia.
  - apply agree_mv_in; lia.
Qed.

Lemma vx_copylow_ok dm n a L dead : vrep' n a L dead ->
  exists m', vx_copylow dm n = Some (m', page - klen_o (a_low a)) /\
    kcell m' (vn_loff n) (a_low a) /\
    layout (page - klen_o (a_low a)) (ochunk (a_low a) (vn_loff n)) /\
    (forall k, a_low a = Some k -> vn_loff n = page - klen_o (a_low a)).
Proof.
  intros H. unfold vx_copylow. rewrite (v_llen _ _ _ _ H). destruct (a_low a) as [k|] eqn:E; cbn [klen_o ochunk].
  - destruct (v_lowv _ _ _ _ H k E) as [K1 K2].
    destruct (v_lchunk _ _ _ _ H k E) as [C1 C2]. pose proof (vm_off_hdr (length L)).
    pose proof (v_loff _ _ _ _ H k E) as Ho.
    replace (0 <? klen k) with true by (symmetry; apply Nat.ltb_lt; lia).
    rewrite mmv_ok by lia. eexists. split; [reflexivity|]. split; [|split].
    + intros k' E'. inv E'. rewrite rd_mv_in by lia.
      replace (vn_loff n + _) with (vn_loff n) by lia. apply (v_lowk _ _ _ _ H), E.
    + rewrite Ho. apply layout_cons with (base := page); [apply layout_nil|lia|lia].
    + auto.
  - rewrite Nat.sub_0_r. eexists. split; [reflexivity|]. repeat split; try constructor; intros; discriminate.
Qed.

Lemma vx_copyhigh_ok dm n a L dead cs off : vrep' n a L dead ->
  layout off cs -> off <= page -> hdr + klen_o (a_high a) <= off ->
  exists m', vx_copyhigh dm n off = Some (m', off - klen_o (a_high a)) /\
    kcell m' (off - klen_o (a_high a)) (a_high a) /\
    layout (off - klen_o (a_high a)) (ochunk (a_high a) (off - klen_o (a_high a)) ++ cs) /\
    agree dm m' off page.
Proof.
  intros H HL Hop Hh. unfold vx_copyhigh. rewrite (v_hlen _ _ _ _ H).
  destruct (a_high a) as [k|] eqn:E; cbn [klen_o ochunk] in *.
  - destruct (v_highv _ _ _ _ H k E) as [K1 K2].
    destruct (v_hchunk _ _ _ _ H k E) as [C1 C2]. pose proof (vm_off_hdr (length L)).
    replace (0 <? klen k) with true by (symmetry; apply Nat.ltb_lt; lia).
    rewrite mmv_ok by lia. eexists. split; [reflexivity|]. split; [|split].
    + intros k' E'. inv E'. rewrite rd_mv_in by lia.
      replace (vn_hoff n + _) with (vn_hoff n) by lia. apply (v_highk _ _ _ _ H), E.
    + cbn [app]. apply layout_cons with (base := off); auto. lia.
    + apply agree_mv. lia.
  - rewrite Nat.sub_0_r. cbn [app]. exists dm. split; [reflexivity|]. split; [|split]; auto.
    + intros k E'. discriminate.
    + apply agree_refl.
Qed.

(** ** Record-level changes *)

Lemma vmeta_mv m d s cnt i :
  rd (mv m (vm_off d) m (vm_off s) (metalen * cnt)) (vm_off i) metalen =
  if (d <=? i) && (i <? d + cnt) then rd m (vm_off (s + (i - d))) metalen
  else rd m (vm_off i) metalen.
Proof.
  destruct (d <=? i) eqn:E1; cbn [andb].
  - apply Nat.leb_le in E1. destruct (i <? d + cnt) eqn:E2.
    + apply Nat.ltb_lt in E2.
      assert (exists j, i = d + j) as [j ->] by (exists (i - d); lia).
      replace (d + j - d) with j by lia.
      assert (j * metalen + metalen <= metalen * cnt).
      { replace (j*metalen + metalen) with (metalen * (S j)) by lia. apply Nat.mul_le_mono_l. lia. }
      rewrite rd_mv_in by (rewrite vm_off_add; lia).
      f_equal. rewrite !vm_off_add. lia.
    + apply Nat.ltb_ge in E2. apply rd_mv_other. right.
      assert (exists j, i = d + cnt + j) as [j ->] by (exists (i - d - cnt); lia).
      rewrite !vm_off_add. lia.
  - apply Nat.leb_gt in E1. apply rd_mv_other. left. apply vm_off_lt. auto.
Qed.

Lemma vmeta_wr m j mt i :
  rd (wr m (vm_off j) (enc_meta mt)) (vm_off i) metalen =
  if i =? j then enc_meta mt else rd m (vm_off i) metalen.
Proof.
  destruct (i =? j) eqn:E.
  - apply Nat.eqb_eq in E. subst. replace metalen with (length (enc_meta mt)) at 1 by apply length_enc_meta.
    apply rd_wr_same.
  - apply Nat.eqb_neq in E. apply rd_wr_other. rewrite length_enc_meta.
    destruct (Nat.lt_ge_cases i j).
    + left. now apply vm_off_lt.
    + right. apply vm_off_lt. lia.
Qed.

Lemma rd_wr_pay m o p : rd (wr m o (enc_pay p)) o (paylen p) = enc_pay p.
Proof. rewrite <- (length_enc_pay p) at 1. apply rd_wr_same. Qed.
Lemma rd_wr_key m o k : rd (wr m o (enc_key k)) o (klen k) = enc_key k.
Proof. rewrite <- (length_enc_key k) at 1. apply rd_wr_same. Qed.

Lemma vmap_split (L : list (slot * nat)) l1 l2 : map fst L = l1 ++ l2 ->
  exists L1 L2, L = L1 ++ L2 /\ map fst L1 = l1 /\ map fst L2 = l2.
Proof.
  intros H. exists (firstn (length l1) L), (skipn (length l1) L).
  rewrite firstn_skipn, <- firstn_map, <- skipn_map, H.
  rewrite firstn_app, firstn_all, Nat.sub_diag, skipn_app, skipn_all, Nat.sub_diag. cbn.
  now rewrite app_nil_r.
Qed.

Lemma keys_of_mid l1 s l2 x : In x (keys_of (l1 ++ s :: l2)) <-> s_key s = Some x \/ In x (keys_of (l1 ++ l2)).
Proof.
  rewrite !in_keys_of. split.
  - intros (t & Ht & Hk). apply in_app_or in Ht as [Ht|[->|Ht]]; auto;
      right; exists t; split; auto; apply in_or_app; auto.
  - intros [Hk|(t & Ht & Hk)].
    + exists s. split; auto. apply in_or_app. right. now left.
    + exists t. split; auto. apply in_or_app. apply in_app_or in Ht as [Ht|Ht]; [auto|right; now right].
Qed.

Lemma layout_insert base off len cs L1 L2 x : layout base (cs ++ map rchunk (L1 ++ L2)) ->
  rchunk x = (off, len) -> off + len <= base -> base <= page ->
  layout off (cs ++ map rchunk (L1 ++ x :: L2)).
Proof.
  intros HL Hx H1 H2. eapply layout_perm; [|apply layout_cons with (base := base) (len := len); eauto].
  rewrite !map_app. cbn [map]. rewrite Hx, !app_assoc. apply Permutation_middle.
Qed.

Lemma vx_insert_at_ok n a L dead l1 l2 key p :
  vrep' n a L dead -> a_slots a = l1 ++ l2 -> pay_kind (a_inner a) p -> vkey key ->
  hdr + metalen * (vn_rc n + 1) + vn_block n + (klen key + paylen p) <= page ->
  exists n' L', vx_insert_at n key p (length l1) = Some n' /\
    vrep' n' (aslots a (l1 ++ Slot (Some key) p false :: l2)) L' dead.
Proof.
  intros H Hsl Hkind Hkey Hroom.
  rewrite (v_slots _ _ _ _ H) in Hsl. destruct (vmap_split _ _ _ Hsl) as (L1 & L2 & -> & <- & <-).
  rewrite !map_length. set (L := L1 ++ L2) in *.
  rewrite (v_rc _ _ _ _ H) in Hroom.
  assert (HB : vn_block n + (klen key + paylen p) <= page - vm_off (S (length L))) by (rewrite vm_off_eq; lia).
  assert (HB2 : vm_off (S (length L)) <= page) by (rewrite vm_off_eq; lia).
  assert (HLl : length L = length L1 + length L2) by (unfold L; apply app_length).
  pose proof (vm_off_hdr (S (length L))) as Hh.
  unfold vx_insert_at, vx_setpay, vx_setkey. rewrite (v_rc _ _ _ _ H).
  rewrite mwr_ok by (rewrite ?length_enc_pay; lia). set (m1 := wr (vn_mem n) _ _).
  rewrite mwr_ok by (rewrite ?length_enc_key; lia). set (m2 := wr m1 _ _).
  set (o2 := page - vn_block n - paylen p - klen key) in *.
  unfold vx_mvmeta. rewrite mmv_ok.
  2:{ right. pose proof (vm_off_hdr (length L1 + 1)). pose proof (vm_off_hdr (length L1)).
      assert (vm_off (length L1 + 1) + metalen * (length L - length L1) = vm_off (S (length L)))
        by (rewrite !vm_off_eq, HLl; replace (length L1 + length L2 - length L1) with (length L2) by lia; lia).
      assert (vm_off (length L1) <= vm_off (length L1 + 1)) by (apply vm_off_mono; lia). lia. }
  set (m3 := mv m2 _ _ _ _).
  assert (Hpos : vm_off (S (length L1)) <= vm_off (S (length L))) by (apply vm_off_mono; lia).
  rewrite vx_setmeta_ok by lia. set (mt := Meta _ _ _ _). set (m4 := wr m3 _ _).
  assert (Hend : vm_off (length L1 + 1) + metalen * (length L - length L1) = vm_off (S (length L)))
    by (rewrite !vm_off_eq, HLl; replace (length L1 + length L2 - length L1) with (length L2) by lia; lia).
  assert (A12 : agree (vn_mem n) m2 (page - vn_block n) page).
  { eapply agree_trans; [apply agree_wr|apply agree_wr]; rewrite ?length_enc_pay, ?length_enc_key; lia. }
  assert (A12m : agree (vn_mem n) m2 hdr (vm_off (S (length L)))).
  { eapply agree_trans; [apply agree_wr|apply agree_wr]; rewrite ?length_enc_pay, ?length_enc_key; lia. }
  assert (A24 : agree m2 m4 (vm_off (S (length L))) page).
  { eapply agree_trans; [apply agree_mv|apply agree_wr]; rewrite ?length_enc_meta, <- ?vm_off_S; lia. }
  assert (A14 : agree (vn_mem n) m4 (page - vn_block n) page).
  { eapply agree_trans; [exact A12|]. eapply agree_sub; [exact A24|lia|lia]. }
  assert (Hnew : srec m4 (Slot (Some key) p false) o2).
  { apply (srec_agree m2 m4 (vm_off (S (length L))) page); auto.
    - split.
      + intros k E. cbn in E. inv E. apply rd_wr_key.
      + cbn [s_key s_pay klen_o]. unfold m2. rewrite rd_wr_other by (rewrite length_enc_key; lia).
        replace (o2 + klen key) with (page - vn_block n - paylen p) by lia.
        apply rd_wr_pay.
    - lia.
    - unfold slen. cbn [s_key s_pay klen_o]. lia. }
  eexists. exists (L1 ++ (Slot (Some key) p false, o2) :: L2). split; [reflexivity|].
  pose proof (v_lay _ _ _ _ H) as HLay.
  assert (HLn : length (L1 ++ (Slot (Some key) p false, o2) :: L2) = S (length L))
    by (rewrite app_length; cbn [length]; lia).
  constructor; cbn [vn_inner vn_removed vn_next vn_rc vn_mem vn_llen vn_loff vn_hlen vn_hoff vn_block vn_deleted
                    aslots a_inner a_removed a_next a_slots a_low a_high].
  - apply (v_inner _ _ _ _ H).
  - apply (v_removed _ _ _ _ H).
  - apply (v_next _ _ _ _ H).
  - rewrite map_app. reflexivity.
  - lia.
  - intros i s off Hi. rewrite nth_error_insert in Hi. fold L in Hi.
    destruct (i <? length L1) eqn:E1.
    + apply Nat.ltb_lt in E1. destruct (v_data _ _ _ _ H i s off Hi) as [M R]. split.
      * unfold m4. rewrite vmeta_wr. replace (i =? length L1) with false by (symmetry; apply Nat.eqb_neq; lia).
        unfold m3. rewrite vmeta_mv. replace (length L1 + 1 <=? i) with false by (symmetry; apply Nat.leb_gt; lia).
        cbn [andb]. rewrite <- M. eapply rd_agree; [exact A12m|apply vm_off_hdr|]. apply vm_off_lt. lia.
      * eapply v_srec_agree; eauto.
    + apply Nat.ltb_ge in E1. destruct (i =? length L1) eqn:E2.
      * apply Nat.eqb_eq in E2. inv Hi. split; auto. unfold m4. rewrite vmeta_wr, Nat.eqb_refl. reflexivity.
      * apply Nat.eqb_neq in E2. destruct (v_data _ _ _ _ H (i - 1) s off Hi) as [M R].
        pose proof (nth_error_lt _ _ _ Hi) as Hlt. split.
        -- unfold m4. rewrite vmeta_wr. replace (i =? length L1) with false by (symmetry; apply Nat.eqb_neq; lia).
           unfold m3. rewrite vmeta_mv. replace (length L1 + 1 <=? i) with true by (symmetry; apply Nat.leb_le; lia).
           replace (i <? length L1 + 1 + (length L - length L1)) with true by (symmetry; apply Nat.ltb_lt; lia).
           cbn [andb]. rewrite <- M. replace (length L1 + (i - (length L1 + 1))) with (i - 1) by lia.
           eapply rd_agree; [exact A12m|apply vm_off_hdr|]. apply vm_off_lt. lia.
        -- eapply v_srec_agree; eauto.
  - pose proof (v_kind _ _ _ _ H) as HK. rewrite (v_slots _ _ _ _ H), Hsl, Forall_app in HK.
    destruct HK. apply Forall_app. split; auto.
  - intros k Hk. apply keys_of_mid in Hk as [Hk|Hk].
    + cbn in Hk. inv Hk. auto.
    + apply (v_keys _ _ _ _ H). rewrite (v_slots _ _ _ _ H), Hsl. exact Hk.
  - apply (v_llen _ _ _ _ H).
  - apply (v_loff _ _ _ _ H).
  - eapply v_lowk_agree; eauto.
  - apply (v_lowv _ _ _ _ H).
  - apply (v_hlen _ _ _ _ H).
  - eapply v_highk_agree; eauto.
  - apply (v_highv _ _ _ _ H).
  - replace (page - (vn_block n + (klen key + paylen p))) with o2 by lia.
    rewrite app_assoc. eapply layout_insert with (base := page - vn_block n) (len := klen key + paylen p); try lia.
    + rewrite <- app_assoc. exact HLay.
    + reflexivity.
  - rewrite HLn. lia.
  - rewrite (v_del _ _ _ _ H), (v_slots _ _ _ _ H), Hsl, !sum_app, sum_cons.
    change (tsize (Slot (Some key) p false)) with 0. lia.
  - destruct (v_acc _ _ _ _ H) as (res & R1 & R2 & R3). exists res. split; auto. split; auto.
    rewrite R3, (v_slots _ _ _ _ H), Hsl, !sum_app, sum_cons.
    unfold slen at 4. cbn [s_key s_pay klen_o]. lia.
  - apply (v_dead _ _ _ _ H).
Qed.

Lemma rd_eq m m' o n : (forall i, o <= i < o + n -> m' i = m i) -> rd m' o n = rd m o n.
Proof. intros H. apply rd_ext. intros i Hi. apply H. lia. Qed.

(** Replacing one slot in place. *)
Lemma vrep_replace n a L1 s off L2 dead s' m' del' :
  vrep' n a (L1 ++ (s, off) :: L2) dead -> s_key s' = s_key s ->
  paylen (s_pay s') = paylen (s_pay s) -> pay_kind (a_inner a) (s_pay s') ->
  (forall i, i <> length L1 -> i < length (L1 ++ (s, off) :: L2) ->
     rd m' (vm_off i) metalen = rd (vn_mem n) (vm_off i) metalen) ->
  rd m' (vm_off (length L1)) metalen = enc_meta (vmt s' off) ->
  (forall i, page - vn_block n <= i < page -> ~ (off + klen_o (s_key s) <= i < off + slen s) ->
     m' i = vn_mem n i) ->
  rd m' (off + klen_o (s_key s)) (paylen (s_pay s)) = enc_pay (s_pay s') ->
  del' + tsize s = vn_deleted n + tsize s' ->
  vrep' (VNode (vn_inner n) (vn_removed n) (vn_block n) del' (vn_rc n) (vn_next n)
              (vn_loff n) (vn_llen n) (vn_hoff n) (vn_hlen n) m')
        (aslots a (map fst L1 ++ s' :: map fst L2)) (L1 ++ (s', off) :: L2) dead.
Proof.
  intros H Hk Hp Hkd Hm Hm1 Hr Hr1 Hdel. set (L := L1 ++ (s, off) :: L2) in *.
  assert (Hsl : map fst L = map fst L1 ++ s :: map fst L2) by (unfold L; now rewrite map_app).
  assert (Hi1 : nth_error L (length L1) = Some (s, off)) by apply nth_error_mid.
  assert (Hslen : slen s' = slen s) by (unfold slen; congruence).
  assert (Hch : map rchunk (L1 ++ (s', off) :: L2) = map rchunk L).
  { unfold L. rewrite !map_app. cbn [map]. unfold rchunk at 2 5. cbn [fst snd]. now rewrite Hslen. }
  assert (HLn : length (L1 ++ (s', off) :: L2) = length L) by (unfold L; rewrite !app_length; reflexivity).
  (* chunks other than the record itself are untouched *)
  assert (Hoth : forall c, In c (ochunk (a_low a) (vn_loff n) ++ ochunk (a_high a) (vn_hoff n) ++
                                  map rchunk (L1 ++ L2)) ->
            forall i, fst c <= i < fst c + snd c -> m' i = vn_mem n i).
  { intros c Hc i Hi.
    assert (HL : layout (page - vn_block n)
               ((ochunk (a_low a) (vn_loff n) ++ ochunk (a_high a) (vn_hoff n) ++ map rchunk L1) ++
                (off, slen s) :: map rchunk L2)).
    { pose proof (v_lay _ _ _ _ H) as HL. unfold L in HL. rewrite map_app in HL. rewrite <- !app_assoc. exact HL. }
    destruct (layout_mid _ _ _ _ HL) as (A & B & _).
    rewrite map_app in Hc. rewrite <- !app_assoc in B.
    destruct (B c Hc) as [D [E1 E2]]. apply Hr; [lia|]. destruct D as [D|D]; cbn in D; lia. }
  destruct (v_data _ _ _ _ H _ _ _ Hi1) as [_ [R1 R2]].
  destruct (v_chunkb _ _ _ _ H _ _ _ Hi1) as [B1 B2].
  assert (Hs' : srec m' s' off).
  { split.
    - rewrite Hk. intros k E. rewrite <- (R1 k E). apply rd_eq. intros i Hi. unfold slen in *. rewrite E in *. cbn [klen_o] in *.
      apply Hr; lia.
    - rewrite Hk, Hp. exact Hr1. }
  constructor; cbn [vn_inner vn_removed vn_next vn_rc vn_mem vn_llen vn_loff vn_hlen vn_hoff vn_block vn_deleted
                    aslots a_inner a_removed a_next a_slots a_low a_high]; try rewrite HLn.
  - apply (v_inner _ _ _ _ H).
  - apply (v_removed _ _ _ _ H).
  - apply (v_next _ _ _ _ H).
  - rewrite map_app. reflexivity.
  - apply (v_rc _ _ _ _ H).
  - intros i t o Hi. destruct (Nat.eq_dec i (length L1)) as [->|Hne].
    + rewrite nth_error_mid in Hi. inv Hi. auto.
    + assert (Hi' : nth_error L i = Some (t, o)).
      { rewrite nth_error_insert in Hi. unfold L. rewrite nth_error_insert.
        replace (i =? length L1) with false in * by (symmetry; now apply Nat.eqb_neq). exact Hi. }
      assert (Hin : In (o, slen t) (map rchunk (L1 ++ L2))).
      { rewrite nth_error_insert in Hi. replace (i =? length L1) with false in * by (symmetry; now apply Nat.eqb_neq).
        destruct (i <? length L1); apply in_rchunk in Hi; exact Hi. }
      destruct (v_data _ _ _ _ H _ _ _ Hi') as [M [Q1 Q2]]. split.
      * rewrite Hm; auto. eapply nth_error_lt; eauto.
      * assert (Hu : forall j, o <= j < o + slen t -> m' j = vn_mem n j).
        { apply (Hoth (o, slen t)). apply in_or_app. right. apply in_or_app. now right. }
        unfold slen in Hu. split.
        -- intros k E. rewrite <- (Q1 k E). apply rd_eq. intros j Hj. rewrite E in *. cbn [klen_o] in *. apply Hu. lia.
        -- rewrite <- Q2. apply rd_eq. intros j Hj. apply Hu. lia.
  - pose proof (v_kind _ _ _ _ H) as HK. rewrite (v_slots _ _ _ _ H), Hsl, Forall_app in HK.
    destruct HK as [K1 K2]. inv K2. apply Forall_app. split; auto.
  - intros k Hk'. apply (v_keys _ _ _ _ H). rewrite (v_slots _ _ _ _ H), Hsl. apply keys_of_mid.
    apply keys_of_mid in Hk' as [E|E]; [left; congruence|auto].
  - apply (v_llen _ _ _ _ H).
  - apply (v_loff _ _ _ _ H).
  - intros k E. rewrite <- (v_lowk _ _ _ _ H k E). apply rd_eq. apply (Hoth (vn_loff n, klen k)).
    rewrite E. cbn. auto.
  - apply (v_lowv _ _ _ _ H).
  - apply (v_hlen _ _ _ _ H).
  - intros k E. rewrite <- (v_highk _ _ _ _ H k E). apply rd_eq. apply (Hoth (vn_hoff n, klen k)).
    rewrite E. apply in_or_app. right. cbn. auto.
  - apply (v_highv _ _ _ _ H).
  - rewrite Hch. apply (v_lay _ _ _ _ H).
  - apply (v_fit _ _ _ _ H).
  - pose proof (v_del _ _ _ _ H) as E. rewrite (v_slots _ _ _ _ H), Hsl, sum_app, sum_cons in E.
    rewrite sum_app, sum_cons. lia.
  - destruct (v_acc _ _ _ _ H) as (res & Q1 & Q2 & Q3). exists res. split; auto. split; auto.
    rewrite Q3, (v_slots _ _ _ _ H), Hsl, !sum_app, !sum_cons. lia.
  - apply (v_dead _ _ _ _ H).
Qed.

Lemma vslot_split n a L dead l1 s l2 : vrep' n a L dead -> a_slots a = l1 ++ s :: l2 ->
  exists L1 off L2, L = L1 ++ (s, off) :: L2 /\ map fst L1 = l1 /\ map fst L2 = l2.
Proof.
  intros H Hsl. rewrite (v_slots _ _ _ _ H) in Hsl.
  destruct (vmap_split _ _ _ Hsl) as (L1 & L2 & -> & E1 & E2).
  destruct L2 as [|[t off] L2]; [discriminate|]. cbn in E2. inv E2. exists L1, off, L2. auto.
Qed.

Lemma vx_overwrite_ok n a L dead l1 s l2 p :
  vrep' n a L dead -> a_slots a = l1 ++ s :: l2 -> pay_kind (a_inner a) p ->
  exists n' L', vx_overwrite n (length l1) p = Some n' /\
    vrep' n' (aslots a (l1 ++ Slot (s_key s) p (s_del s) :: l2)) L' dead.
Proof.
  intros H Hsl Hkd. destruct (vslot_split _ _ _ _ _ _ _ H Hsl) as (L1 & off & L2 & -> & <- & <-).
  rewrite map_length. assert (Hi : nth_error (L1 ++ (s, off) :: L2) (length L1) = Some (s, off)) by apply nth_error_mid.
  unfold vx_overwrite. rewrite (v_meta _ _ _ _ H _ _ _ Hi). cbn [vmt md_off md_klen].
  assert (Hks : pay_kind (a_inner a) (s_pay s)).
  { pose proof (v_kind _ _ _ _ H) as HK. rewrite Hsl, Forall_app in HK. destruct HK as [_ HK]. now inv HK. }
  assert (Hpl : paylen p = paylen (s_pay s)).
  { rewrite (pay_kind_len _ _ Hkd). symmetry. now apply pay_kind_len. }
  destruct (v_chunk _ _ _ _ H _ _ _ Hi) as [B1 B2]. unfold slen in B2.
  pose proof (vm_off_hdr (length (L1 ++ (s, off) :: L2))) as Hh.
  destruct (v_chunkb _ _ _ _ H _ _ _ Hi) as [B3 _].
  rewrite mwr_ok by (rewrite ?length_enc_pay; lia). eexists. eexists. split; [reflexivity|].
  eapply vrep_replace; [exact H|..]; cbn [s_key s_pay s_del]; auto.
  - intros i _ Hlt. apply rd_wr_other. left. pose proof (vm_off_lt _ _ Hlt). lia.
  - rewrite rd_wr_other.
    + destruct (v_data _ _ _ _ H _ _ _ Hi) as [M _]. rewrite M. unfold vmt, slen. cbn. now rewrite Hpl.
    + left. pose proof (vm_off_lt _ _ (nth_error_lt _ _ _ Hi)). lia.
  - intros i Hi1 Hi2. unfold wr. destruct (_ <=? i) eqn:E; auto. apply Nat.leb_le in E.
    apply nth_overflow. rewrite length_enc_pay. unfold slen in Hi2. lia.
  - rewrite <- Hpl. apply rd_wr_pay.
  - unfold tsize, slen. cbn. rewrite Hpl. lia.
Qed.

Lemma vx_tomb_ok n a L dead l1 s l2 : vrep' n a L dead -> a_slots a = l1 ++ s :: l2 -> s_del s = false ->
  exists n' L', vx_tomb n (length l1) = Some n' /\
    vrep' n' (aslots a (l1 ++ Slot (s_key s) (s_pay s) true :: l2)) L' dead.
Proof.
  intros H Hsl Hd. destruct (vslot_split _ _ _ _ _ _ _ H Hsl) as (L1 & off & L2 & -> & <- & <-).
  rewrite map_length. assert (Hi : nth_error (L1 ++ (s, off) :: L2) (length L1) = Some (s, off)) by apply nth_error_mid.
  unfold vx_tomb. rewrite (v_meta _ _ _ _ H _ _ _ Hi). cbn [vmt md_off md_klen md_rlen].
  pose proof (v_base _ _ _ _ H) as Hb. pose proof (vm_off_mono _ _ (nth_error_lt _ _ _ Hi)) as Hlt.
  pose proof (v_fit' _ _ _ _ H) as Hf.
  assert (Hks : pay_kind (a_inner a) (s_pay s)).
  { pose proof (v_kind _ _ _ _ H) as HK. rewrite Hsl, Forall_app in HK. destruct HK as [_ HK]. now inv HK. }
  rewrite vx_setmeta_ok by lia. eexists. eexists. split; [reflexivity|].
  eapply vrep_replace; [exact H|..]; cbn [s_key s_pay s_del]; auto.
  - intros i Hne _. rewrite vmeta_wr. now replace (i =? length L1) with false by (symmetry; now apply Nat.eqb_neq).
  - rewrite vmeta_wr, Nat.eqb_refl. reflexivity.
  - intros i Hi1 _. rewrite vm_off_S in Hlt.
    apply (agree_wr (vn_mem n) (vm_off (length L1)) _ (page - vn_block n) page); auto. rewrite length_enc_meta. lia.
  - rewrite vm_off_S in Hlt. destruct (v_data _ _ _ _ H _ _ _ Hi) as [_ [_ R]]. rewrite <- R.
    destruct (v_chunkb _ _ _ _ H _ _ _ Hi). apply rd_wr_other. rewrite length_enc_meta. lia.
  - unfold tsize. cbn. rewrite Hd. unfold slen. cbn. lia.
Qed.

Lemma vx_reuse_ok n a L dead l1 s l2 p : vrep' n a L dead -> a_slots a = l1 ++ s :: l2 -> s_del s = true ->
  pay_kind (a_inner a) p ->
  exists n' L', vx_reuse n (length l1) p = Some n' /\
    vrep' n' (aslots a (l1 ++ Slot (s_key s) p false :: l2)) L' dead.
Proof.
  intros H Hsl Hd Hkd. destruct (vslot_split _ _ _ _ _ _ _ H Hsl) as (L1 & off & L2 & -> & <- & <-).
  rewrite map_length. assert (Hi : nth_error (L1 ++ (s, off) :: L2) (length L1) = Some (s, off)) by apply nth_error_mid.
  unfold vx_reuse. rewrite (v_meta _ _ _ _ H _ _ _ Hi). cbn [vmt md_off md_klen md_rlen].
  pose proof (v_base _ _ _ _ H) as Hb. pose proof (vm_off_mono _ _ (nth_error_lt _ _ _ Hi)) as Hlt.
  pose proof (v_fit' _ _ _ _ H) as Hf.
  assert (Hks : pay_kind (a_inner a) (s_pay s)).
  { pose proof (v_kind _ _ _ _ H) as HK. rewrite Hsl, Forall_app in HK. destruct HK as [_ HK]. now inv HK. }
  assert (Hpl : paylen p = paylen (s_pay s)).
  { rewrite (pay_kind_len _ _ Hkd). symmetry. now apply pay_kind_len. }
  rewrite vx_setmeta_ok by lia.
  destruct (v_chunk _ _ _ _ H _ _ _ Hi) as [B1 B2]. unfold slen in B2.
  destruct (v_chunkb _ _ _ _ H _ _ _ Hi) as [B3 _].
  pose proof (vm_off_hdr (length (L1 ++ (s, off) :: L2))) as Hh.
  rewrite mwr_ok by (rewrite ?length_enc_pay; lia).
  eexists. eexists. split; [reflexivity|].
  eapply vrep_replace; [exact H|..]; cbn [s_key s_pay s_del]; auto.
  - intros i Hne Hl. rewrite rd_wr_other by (left; pose proof (vm_off_lt _ _ Hl); lia).
    rewrite vmeta_wr. now replace (i =? length L1) with false by (symmetry; now apply Nat.eqb_neq).
  - rewrite rd_wr_other by (left; rewrite vm_off_S in Hlt; lia).
    rewrite vmeta_wr, Nat.eqb_refl. unfold vmt, slen. cbn. now rewrite Hpl.
  - intros i Hi1 Hi2. rewrite vm_off_S in Hlt. unfold wr at 1. destruct (_ <=? i) eqn:E.
    + apply Nat.leb_le in E. rewrite nth_overflow by (rewrite length_enc_pay; unfold slen in Hi2; lia).
      apply (agree_wr (vn_mem n) (vm_off (length L1)) _ (page - vn_block n) page); auto. rewrite length_enc_meta. lia.
    + apply (agree_wr (vn_mem n) (vm_off (length L1)) _ (page - vn_block n) page); auto. rewrite length_enc_meta. lia.
  - rewrite <- Hpl. apply rd_wr_pay.
  - pose proof (v_del _ _ _ _ H) as E. rewrite Hsl, sum_app, sum_cons in E. unfold tsize at 2 in E. rewrite Hd in E.
    unfold tsize. cbn. rewrite Hd. unfold slen in *. lia.
Qed.

Lemma vx_remove_ok n a L dead l1 s l2 : vrep' n a L dead -> a_slots a = l1 ++ s :: l2 -> s_del s = false ->
  a_inner a = true ->
  exists n' L', vx_remove n (length l1) = Some n' /\
    vrep' n' (aslots a (l1 ++ l2)) L' (dead + slen s).
Proof.
  intros H Hsl Hd Hin. destruct (vslot_split _ _ _ _ _ _ _ H Hsl) as (L1 & off & L2 & -> & <- & <-).
  rewrite map_length. set (L := L1 ++ (s, off) :: L2) in *.
  assert (Hi : nth_error L (length L1) = Some (s, off)) by apply nth_error_mid.
  unfold vx_remove. rewrite (v_meta _ _ _ _ H _ _ _ Hi). cbn [vmt md_rlen].
  assert (HLl : length L = length L1 + 1 + length L2) by (unfold L; rewrite app_length; cbn; lia).
  pose proof (v_base _ _ _ _ H) as Hb. pose proof (v_fit' _ _ _ _ H) as Hf.
  rewrite (v_rc _ _ _ _ H). replace (length L - 1 - length L1) with (length L2) by lia.
  assert (E1 : vm_off (length L1 + 1) + metalen * length L2 = vm_off (length L)) by (rewrite !vm_off_eq, HLl; lia).
  assert (E2 : vm_off (length L1) <= vm_off (length L1 + 1)) by (apply vm_off_mono; lia).
  unfold vx_mvmeta. rewrite mmv_ok by (right; pose proof (vm_off_hdr (length L1)); lia).
  set (m' := mv _ _ _ _ _).
  assert (A : agree (vn_mem n) m' (page - vn_block n) page) by (apply agree_mv; lia).
  eexists. exists (L1 ++ L2). split; [reflexivity|].
  assert (HLn : length (L1 ++ L2) = length L - 1) by (rewrite app_length; lia).
  constructor; cbn [vn_inner vn_removed vn_next vn_rc vn_mem vn_llen vn_loff vn_hlen vn_hoff vn_block vn_deleted
                    aslots a_inner a_removed a_next a_slots a_low a_high].
  - apply (v_inner _ _ _ _ H).
  - apply (v_removed _ _ _ _ H).
  - apply (v_next _ _ _ _ H).
  - now rewrite map_app.
  - lia.
  - intros i t o Ht. pose proof (nth_error_lt _ _ _ Ht) as Hlt. rewrite HLn in Hlt.
    rewrite (nth_error_removed L1 L2 (s, off)) in Ht. fold L in Ht.
    unfold m' at 1. rewrite vmeta_mv. destruct (i <? length L1) eqn:E.
    + apply Nat.ltb_lt in E. replace (length L1 <=? i) with false by (symmetry; apply Nat.leb_gt; lia). cbn [andb].
      split; [apply (v_data _ _ _ _ H _ _ _ Ht)|]. eapply v_srec_agree; eauto.
    + apply Nat.ltb_ge in E. replace (length L1 <=? i) with true by (symmetry; apply Nat.leb_le; lia).
      replace (i <? length L1 + length L2) with true by (symmetry; apply Nat.ltb_lt; lia). cbn [andb].
      replace (length L1 + 1 + (i - length L1)) with (i + 1) by lia.
      split; [apply (v_data _ _ _ _ H _ _ _ Ht)|]. eapply v_srec_agree; eauto.
  - pose proof (v_kind _ _ _ _ H) as HK. rewrite Hsl, Forall_app in HK.
    destruct HK as [K1 K2]. inv K2. apply Forall_app. split; auto.
  - intros k Hk. apply (v_keys _ _ _ _ H). rewrite Hsl. apply keys_of_mid. auto.
  - apply (v_llen _ _ _ _ H).
  - apply (v_loff _ _ _ _ H).
  - eapply v_lowk_agree; eauto.
  - apply (v_lowv _ _ _ _ H).
  - apply (v_hlen _ _ _ _ H).
  - eapply v_highk_agree; eauto.
  - apply (v_highv _ _ _ _ H).
  - pose proof (v_lay _ _ _ _ H) as HL. unfold L in HL. rewrite map_app in HL. cbn [map] in HL.
    rewrite !app_assoc in HL. apply layout_mid in HL as (_ & _ & HL). rewrite map_app, !app_assoc. exact HL.
  - rewrite HLn. pose proof (v_fit _ _ _ _ H). assert (metalen * (length L - 1) <= metalen * length L) by (apply Nat.mul_le_mono_l; lia). lia.
  - rewrite (v_del _ _ _ _ H), Hsl, !sum_app, sum_cons. unfold tsize at 2. rewrite Hd. lia.
  - destruct (v_acc _ _ _ _ H) as (res & Q1 & Q2 & Q3). exists res. split; auto. split; auto.
    rewrite Q3, Hsl, !sum_app, sum_cons. lia.
  - congruence.
Qed.

(** ** Clean-up *)

Lemma keys_filter l k : In k (keys_of (filter s_live l)) -> In k (keys_of l).
Proof.
  rewrite !in_keys_of. intros (s & Hs & Hk). apply filter_In in Hs as [Hs _]. eauto.
Qed.
Lemma Forall_filter {A} (Q : A -> Prop) f l : Forall Q l -> Forall Q (filter f l).
Proof. rewrite !Forall_forall. intros H x Hx. apply filter_In in Hx as [Hx _]. auto. Qed.

Lemma v_used n a L dead : vrep' n a L dead ->
  exists res, klen_o (a_low a) <= res /\ res <= maxkey /\
    vx_used n = sum lsize (a_slots a) + res + klen_o (a_high a).
Proof.
  intros H. destruct (v_acc _ _ _ _ H) as (res & Q1 & Q2 & Q3). exists res. split; auto. split; auto.
  unfold vx_used. rewrite (v_rc _ _ _ _ H), <- (v_len _ _ _ _ H), Q3, (v_del _ _ _ _ H).
  pose proof (sum_total (a_slots a)). lia.
Qed.

Lemma vx_cleanup_ok n a L dead : vrep' n a L dead ->
  exists n' L', vx_cleanup n = Some n' /\
    vrep' n' (aslots a (filter s_live (a_slots a))) L' 0 /\
    vn_block n' = klen_o (a_low a) + klen_o (a_high a) + sum slen (filter s_live (a_slots a)).
Proof.
  intros H. unfold vx_cleanup. destruct (v_acc _ _ _ _ H) as (res & Q1 & Q2 & Q3).
  pose proof (v_fit _ _ _ _ H) as Hf. pose proof (sum_total (a_slots a)) as Ht.
  rewrite (v_len _ _ _ _ H) in Ht. pose proof (sum_live (a_slots a)) as Hlv.
  assert (Hsp : hdr + sum lsize (a_slots a) + klen_o (a_low a) + klen_o (a_high a) <= page) by lia.
  destruct (vx_copylow_ok mem_undef _ _ _ _ H) as (t1 & E1 & K1 & Y1 & Z1). rewrite E1.
  destruct (vx_copyhigh_ok t1 _ _ _ _ _ (page - klen_o (a_low a)) H Y1) as (t2 & E2 & K2 & Y2 & A2); [lia|lia|].
  rewrite E2. set (o2 := page - klen_o (a_low a) - klen_o (a_high a)) in *.
  destruct (vx_copyrecs_ok (vn_mem n) (ochunk (a_high a) o2 ++ ochunk (a_low a) (vn_loff n)) L t2 [] 0 o2)
    as (t3 & L' & off & E3 & F1 & F2 & F3 & [D1 D2 D3 D4]).
  - eapply vrep_vsrc; eauto.
  - intros i s o Hi. destruct i; discriminate.
  - rewrite app_nil_r. exact Y2.
  - lia.
  - rewrite <- (v_slots _ _ _ _ H). cbn [length]. rewrite vm_off_eq. lia.
  - cbn [app length] in *. rewrite (v_rc _ _ _ _ H), E3.
    rewrite <- (v_slots _ _ _ _ H) in F1, F2.
    destruct (vx_reflect_ok (vn_mem n) t3 (length L') off F3 ltac:(lia)) as (m & E4 & G1 & G2).
    rewrite E4. eexists. exists L'. split; [reflexivity|].
    pose proof (vm_off_hdr (length L')) as Hh.
    assert (Ho2 : o2 + klen_o (a_low a) + klen_o (a_high a) = page) by (unfold o2; lia). clearbody o2.
    split.
    + constructor; cbn [vn_inner vn_removed vn_next vn_rc vn_mem vn_llen vn_loff vn_hlen vn_hoff vn_block vn_deleted
                    aslots a_inner a_removed a_next a_slots a_low a_high].
      * apply (v_inner _ _ _ _ H).
      * apply (v_removed _ _ _ _ H).
      * apply (v_next _ _ _ _ H).
      * auto.
      * auto.
      * eapply vdata_agree; eauto.
      * apply Forall_filter, (v_kind _ _ _ _ H).
      * intros k Hk. apply (v_keys _ _ _ _ H). now apply keys_filter.
      * apply (v_llen _ _ _ _ H).
      * apply (v_loff _ _ _ _ H).
      * intros k E. rewrite <- (K1 k E). pose proof (Z1 k E) as Z. rewrite Z. rewrite E in *. cbn [klen_o] in *.
        rewrite (rd_agree t3 m off page) by (auto; lia). rewrite (rd_agree t2 t3 o2 page) by (auto; lia).
        apply (rd_agree t1 t2 (page - klen k) page); auto; lia.
      * apply (v_lowv _ _ _ _ H).
      * apply (v_hlen _ _ _ _ H).
      * intros k E. rewrite <- (K2 k E). rewrite E in *. cbn [klen_o] in *.
        rewrite (rd_agree t3 m off page) by (auto; lia). apply (rd_agree t2 t3 o2 page); auto; lia.
      * apply (v_highv _ _ _ _ H).
      * replace (page - (page - off)) with off by lia. eapply layout_perm; [|exact D2].
        rewrite !app_assoc. apply Permutation_app_tail, Permutation_app_comm.
      * rewrite <- (map_length fst L'), F1. rewrite vm_off_eq in F3. rewrite <- (map_length fst L'), F1 in F3. lia.
      * rewrite sum_live_t. lia.
      * exists (klen_o (a_low a)). split; [lia|]. split; [lia|]. lia.
      * auto.
    + cbn [vn_block]. lia.
Qed.

End VarProofs.
