(** The fixed-length node satisfies the single-layer interface. *)
From Coq Require Import List Arith ZArith Bool Sorted Lia.
From Verif Require Import Params Mem Common NodeAbs FixModel FixProofs SLIface.
Import ListNotations.

Section FixSL.
Context {P : Params}.

(** GetRecord and RecordIsDeleted, psl/node_fixlen.hpp:305-325. *)
Definition fx_record (n : fnode) (i : nat) : option (K * V) :=
  let? k := fx_key n i in let? v := fx_payload n i in Some (k, v).
Definition fx_recdel (n : fnode) (i : nat) : option bool := Some false.

(** osl/b_tree.hpp:184-186, 219-221: after a split the optimistic tree calls SearchRecord
    and the unchecked InsertRecord. *)
Definition fx_search_insert (n : fnode) (key : K) (v : V) : option (node_rc * fnode) :=
  let? (_, pos) := fx_search n key in
  let? n' := fx_insert_record n key (PV v) pos in
  Some (kCompleted, n').

(** [osl] selects the optimistic variant. *)
Definition fix_sl_ops (osl : bool) : SLOps P := {|
  nd := fnode;
  nd_inner := fn_inner;
  nd_removed := fn_removed;
  nd_next := fn_next;
  nd_rc := fn_rc;
  nd_usage := fx_usage;
  nd_new := fx_new;
  nd_root0 := fx_set_paylen (fx_new false) plen;
  nd_root2 := fx_root2;
  nd_search := fx_search;
  nd_child := fx_child;
  nd_comphigh := fx_comphigh;
  nd_highkey := fx_highkey;
  nd_sepkey := fx_sepkey;
  nd_endpos := fx_endpos;
  nd_recdel := fx_recdel;
  nd_key := fx_key;
  nd_record := fx_record;
  nd_read := fx_read;
  nd_write := fx_write;
  nd_insert := fx_insert;
  nd_write2 := if osl then fx_search_insert else fx_write;
  nd_insert2 := if osl then fx_search_insert else fx_insert;
  nd_update := fx_update;
  nd_delete := fx_delete;
  nd_insert_child := fx_insert_child;
  nd_delete_child := fx_delete_child;
  nd_split := fx_split_sl;
  nd_merge := fx_merge_sl;
  nd_can_merge := fx_can_merge;
  nd_remove_root := fx_remove_root;
|}.

End FixSL.

(** Page configurations in which the fixed-length layout works: a page holds four records
    of either kind besides the two fence keys, and the key slot behind the stored keys
    lies inside the page whenever a node is split. *)
Class FixGood (P : Params) := {
  fg_cap : hdr + 4 * (ks + Nat.max plen ptrlen) + 2 * ks <= page;
  fg_read_leaf : ks <= plen * ((page - hdr - 3 * ks - plen) / (ks + plen));
  fg_read_inner : ks <= ptrlen * ((page - hdr - 3 * ks - ptrlen) / (ks + ptrlen));
}.

Section FixSLProofs.
Context {P : Params} {O : OrdLaws P} {F : FixSizes P} {G : FixGood P}.

Definition fx_room (n : fnode) : Prop := fx_used n + (ks + fn_pl n) <= page - hdr.
Definition fx_splittable (n : fnode) : Prop := 4 <= fn_rc n /\ split_readable n.
Definition fxrep (n : fnode) (a : anode) : Prop := frep n a /\ fn_low n = isSome (a_low a).

Lemma plof_max inner : plof inner <= Nat.max plen ptrlen.
Proof. destruct inner; cbn; lia. Qed.

Lemma need_split_splittable n a : frep n a ->
  fx_need_split n (ks + plof (a_inner a)) = true -> fx_splittable n.
Proof.
  intros H E. unfold fx_need_split in E. apply Nat.ltb_lt in E.
  pose proof (frep_fits _ _ H) as Hf.
  unfold fx_splittable, split_readable, fx_used in *.
  rewrite (fr_rc _ _ H), (fr_block _ _ H), (fr_highb _ _ H) in *.
  set (pl := plof (a_inner a)) in *. set (N := length (a_slots a)) in *.
  set (lo := b2n (fn_low n)) in *. set (hi := b2n (isSome (a_high a))) in *.
  assert (Hlo : lo <= 1) by apply b2n_le. assert (Hhi : hi <= 1) by apply b2n_le.
  pose proof fg_cap as Hcap. pose proof (plof_max (a_inner a)) as Hm. fold pl in Hm.
  assert (A1 : ks * (N + lo + hi) <= ks * N + 2 * ks).
  { replace (ks * N + 2 * ks) with (ks * (N + 2)) by lia. apply Nat.mul_le_mono_l. lia. }
  assert (HN : 4 <= N).
  { destruct (Nat.le_gt_cases 4 N) as [|Hlt]; auto. exfalso.
    assert (B1 : (ks + pl) * N <= (ks + pl) * 3) by (apply Nat.mul_le_mono_l; lia).
    rewrite Nat.mul_add_distr_r in B1. lia. }
  split; auto.
  assert (Hr : ks <= pl * N).
  { assert (Hq : ks <= pl * ((page - hdr - 3 * ks - pl) / (ks + pl))).
    { unfold pl. destruct (a_inner a); cbn [plof]; [apply fg_read_inner | apply fg_read_leaf]. }
    eapply Nat.le_trans; [exact Hq|]. apply Nat.mul_le_mono_l.
    pose proof fx_ks_pos.
    apply Nat.lt_succ_r. apply Nat.div_lt_upper_bound; [lia|].
    rewrite Nat.mul_succ_r, Nat.mul_add_distr_r. lia. }
  unfold fk_off. replace (S (N + hi) * ks) with (ks * (N + hi) + ks) by lia.
  assert (ks * (N + hi) <= ks * (N + lo + hi)) by (apply Nat.mul_le_mono_l; lia).
  lia.
Qed.

Lemma same_frame_aslots a s : same_frame a (aslots a s).
Proof. unfold same_frame, aslots. cbn. auto. Qed.
Lemma same_frame_refl a : same_frame a a.
Proof. unfold same_frame. auto. Qed.

Lemma leaf_upd_refl a : leaf_ok (a_slots a) -> leaf_upd a a [] (live (a_slots a)).
Proof. intros H. split; [apply same_frame_refl|]. split; auto. split; auto. apply incl_refl. Qed.

Lemma key1_some s k : s_key s = Some k -> key1 s = [k].
Proof. intros H. unfold key1. now rewrite H. Qed.

Lemma leaf_upd_insert a l1 l2 key v :
  leaf_ok (a_slots a) -> a_slots a = l1 ++ l2 ->
  (forall k, In k (keys_of l1) -> klt k key) -> (forall k, In k (keys_of l2) -> klt key k) ->
  leaf_upd a (aslots a (l1 ++ Slot (Some key) (PV v) false :: l2)) [key]
           (upsert key v (live (a_slots a))).
Proof.
  intros Hok Hsl H1 H2. rewrite Hsl in *. split; [apply same_frame_aslots|]. cbn [a_slots aslots].
  split; [apply leaf_ok_insert; auto|]. split; [apply live_insert; auto|].
  rewrite Hsl, !keys_of_app, keys_of_cons. cbn. intros x Hx. apply in_app_or in Hx as [Hx|[Hx|Hx]].
  - right. apply in_or_app. auto.
  - left. auto.
  - right. apply in_or_app. auto.
Qed.

Lemma leaf_upd_replace a l1 s l2 key v extra :
  leaf_ok (a_slots a) -> a_slots a = l1 ++ s :: l2 -> s_key s = Some key ->
  leaf_upd a (aslots a (l1 ++ Slot (s_key s) (PV v) false :: l2)) extra
           (upsert key v (live (a_slots a))).
Proof.
  intros Hok Hsl Hk. rewrite Hsl in *. split; [apply same_frame_aslots|]. cbn [a_slots aslots].
  rewrite Hk.
  split; [eapply leaf_ok_replace; eauto|]. split; [apply live_replace; auto|].
  rewrite Hsl. intros x Hx. apply in_or_app. right.
  rewrite !keys_of_app, !keys_of_cons in *. rewrite (key1_some s key) by auto.
  exact Hx.
Qed.

Lemma fxrep_upd n' a s n : frep n' (aslots a s) -> fn_low n' = fn_low n ->
  fn_low n = isSome (a_low a) -> fxrep n' (aslots a s).
Proof. intros H1 H2 H3. split; auto. cbn. congruence. Qed.

Lemma need_split_room n a : frep n a -> fx_need_split n (ks + fn_pl n) = false ->
  hdr + fx_used n + ks + plof (a_inner a) <= page.
Proof.
  intros H E. unfold fx_need_split in E. apply Nat.ltb_ge in E. rewrite (fr_pl _ _ H) in E.
  pose proof fx_hdr_page. lia.
Qed.

Lemma fx_search_pay l1 s l2 : Forall leaf_slot (l1 ++ s :: l2) -> exists v, s_pay s = PV v.
Proof.
  intros H. rewrite Forall_forall in H. destruct (H s) as (k & v & _ & Hv); eauto.
  apply in_or_app. right. now left.
Qed.

Lemma fxL_read n a key : fxrep n a -> a_inner a = false -> leaf_ok (a_slots a) ->
  fx_read n key = Some (assoc key (live (a_slots a))).
Proof.
  intros (H & _) Hin Hok. unfold fx_read.
  destruct (frep_leaf_search n a key H Hin Hok) as (rc & pos & Hs & Hrc & Hspec). rewrite Hs.
  destruct Hrc as [-> | ->].
  - destruct Hspec as (l1 & s & l2 & Hsl & -> & Hk & Hd).
    destruct (fx_search_pay l1 s l2) as [v Hv]; [rewrite <- Hsl; apply Hok|].
    rewrite (frep_payload n a (length l1) s v H); auto.
    + rewrite Hsl, (assoc_live_found l1 s l2 key v); auto. now rewrite <- Hsl.
    + rewrite Hsl. apply nth_error_mid.
  - destruct Hspec as (l1 & l2 & Hsl & -> & H1 & H2).
    rewrite assoc_live_notin; auto. rewrite Hsl. now apply not_inserted_notin.
Qed.

Lemma fxL_write n a key v : fxrep n a -> a_inner a = false -> leaf_ok (a_slots a) ->
  exists rc n' a', fx_write n key v = Some (rc, n') /\ fxrep n' a' /\
    ((rc = kCompleted /\ leaf_upd a a' [key] (upsert key v (live (a_slots a)))) \/
     (rc = kNeedSplit /\ n' = n /\ a' = a /\ leaf_upd a a' [] (live (a_slots a)) /\
      ~ In key (keys_of (a_slots a')) /\ fx_splittable n' /\ ~ fx_room n)).
Proof.
  intros (H & Hl) Hin Hok. unfold fx_write.
  destruct (frep_leaf_search n a key H Hin Hok) as (rc & pos & Hs & Hrc & Hspec). rewrite Hs.
  destruct Hrc as [-> | ->].
  - destruct Hspec as (l1 & s & l2 & Hsl & -> & Hk & Hd).
    destruct (fx_overwrite_ok n a l1 s l2 (PV v) H Hsl) as (n' & A & B & C & D).
    { rewrite Hin. reflexivity. }
    rewrite A. do 3 eexists. split; [reflexivity|]. split; [eapply fxrep_upd; eauto|].
    left. split; auto. eapply leaf_upd_replace; eauto.
  - destruct Hspec as (l1 & l2 & Hsl & -> & H1 & H2).
    destruct (fx_need_split n (ks + fn_pl n)) eqn:E.
    + do 3 eexists. split; [reflexivity|]. split; [split; eauto|]. right.
      split; auto. split; auto. split; auto. split; [apply leaf_upd_refl; auto|]. split.
      * rewrite Hsl. now apply not_inserted_notin.
      * split.
        -- eapply need_split_splittable; eauto. rewrite <- (fr_pl _ _ H). auto.
        -- unfold fx_room. unfold fx_need_split in E. apply Nat.ltb_lt in E. lia.
    + destruct (fx_insert_record_ok n a l1 l2 key (PV v) H Hsl) as (n' & A & B & C & D).
      { rewrite Hin. reflexivity. }
      { eapply need_split_room; eauto. }
      rewrite A. do 3 eexists. split; [reflexivity|]. split; [eapply fxrep_upd; eauto|].
      left. split; auto. apply leaf_upd_insert; auto.
Qed.

Lemma fxL_insert n a key v : fxrep n a -> a_inner a = false -> leaf_ok (a_slots a) ->
  exists rc n' a', fx_insert n key v = Some (rc, n') /\ fxrep n' a' /\
    ((rc = kKeyAlreadyInserted /\ leaf_upd a a' [] (live (a_slots a)) /\
      assoc key (live (a_slots a)) <> None) \/
     (rc = kCompleted /\ assoc key (live (a_slots a)) = None /\
      leaf_upd a a' [key] (upsert key v (live (a_slots a)))) \/
     (rc = kNeedSplit /\ assoc key (live (a_slots a)) = None /\
      leaf_upd a a' [] (live (a_slots a)) /\
      ~ In key (keys_of (a_slots a')) /\ fx_splittable n' /\ ~ fx_room n)).
Proof.
  intros (H & Hl) Hin Hok. unfold fx_insert.
  destruct (frep_leaf_search n a key H Hin Hok) as (rc & pos & Hs & Hrc & Hspec). rewrite Hs.
  destruct Hrc as [-> | ->].
  - destruct Hspec as (l1 & s & l2 & Hsl & -> & Hk & Hd).
    do 3 eexists. split; [reflexivity|]. split; [split; eauto|]. left.
    split; auto. split; [apply leaf_upd_refl; auto|].
    destruct (fx_search_pay l1 s l2) as [w Hw]; [rewrite <- Hsl; apply Hok|].
    rewrite Hsl in *. rewrite (assoc_live_found l1 s l2 key w); auto. discriminate.
  - destruct Hspec as (l1 & l2 & Hsl & -> & H1 & H2).
    assert (Hni : ~ In key (keys_of (a_slots a))) by (rewrite Hsl; now apply not_inserted_notin).
    assert (Hna : assoc key (live (a_slots a)) = None) by now apply assoc_live_notin.
    destruct (fx_need_split n (ks + fn_pl n)) eqn:E.
    + do 3 eexists. split; [reflexivity|]. split; [split; eauto|]. right. right.
      split; auto. split; auto. split; [apply leaf_upd_refl; auto|]. split; auto.
      split.
      * eapply need_split_splittable; eauto. rewrite <- (fr_pl _ _ H). auto.
      * unfold fx_room. unfold fx_need_split in E. apply Nat.ltb_lt in E. lia.
    + destruct (fx_insert_record_ok n a l1 l2 key (PV v) H Hsl) as (n' & A & B & C & D).
      { rewrite Hin. reflexivity. }
      { eapply need_split_room; eauto. }
      rewrite A. do 3 eexists. split; [reflexivity|]. split; [eapply fxrep_upd; eauto|].
      right. left. split; auto. split; auto. apply leaf_upd_insert; auto.
Qed.

Lemma fxL_search_insert n a key v : fxrep n a -> a_inner a = false -> leaf_ok (a_slots a) ->
  fx_room n -> ~ In key (keys_of (a_slots a)) ->
  exists n' a', fx_search_insert n key v = Some (kCompleted, n') /\ fxrep n' a' /\
    leaf_upd a a' [key] (upsert key v (live (a_slots a))).
Proof.
  intros (H & Hl) Hin Hok Hroom Hni. unfold fx_search_insert.
  destruct (frep_leaf_search n a key H Hin Hok) as (rc & pos & Hs & Hrc & Hspec). rewrite Hs.
  destruct Hrc as [-> | ->].
  - exfalso. destruct Hspec as (l1 & s & l2 & Hsl & -> & Hk & Hd). apply Hni.
    apply in_keys_of. exists s. split; auto. rewrite Hsl. apply in_or_app. right. now left.
  - destruct Hspec as (l1 & l2 & Hsl & -> & H1 & H2).
    destruct (fx_insert_record_ok n a l1 l2 key (PV v) H Hsl) as (n' & A & B & C & D).
    { rewrite Hin. reflexivity. }
    { unfold fx_room in Hroom. rewrite (fr_pl _ _ H) in Hroom. pose proof fx_hdr_page. lia. }
    rewrite A. do 2 eexists. split; [reflexivity|]. split; [eapply fxrep_upd; eauto|].
    apply leaf_upd_insert; auto.
Qed.

Lemma fxL_update n a key v : fxrep n a -> a_inner a = false -> leaf_ok (a_slots a) ->
  exists rc n' a', fx_update n key v = Some (rc, n') /\ fxrep n' a' /\
    ((rc = kSuccess /\ assoc key (live (a_slots a)) <> None /\
      leaf_upd a a' [] (upsert key v (live (a_slots a)))) \/
     (rc = kKeyNotExist /\ assoc key (live (a_slots a)) = None /\
      leaf_upd a a' [] (live (a_slots a)))).
Proof.
  intros (H & Hl) Hin Hok. unfold fx_update.
  destruct (frep_leaf_search n a key H Hin Hok) as (rc & pos & Hs & Hrc & Hspec). rewrite Hs.
  destruct Hrc as [-> | ->].
  - destruct Hspec as (l1 & s & l2 & Hsl & -> & Hk & Hd).
    destruct (fx_overwrite_ok n a l1 s l2 (PV v) H Hsl) as (n' & A & B & C & D).
    { rewrite Hin. reflexivity. }
    rewrite A. do 3 eexists. split; [reflexivity|]. split; [eapply fxrep_upd; eauto|].
    left. split; auto. split; [|eapply leaf_upd_replace; eauto].
    destruct (fx_search_pay l1 s l2) as [w Hw]; [rewrite <- Hsl; apply Hok|].
    rewrite Hsl in *. rewrite (assoc_live_found l1 s l2 key w); auto. discriminate.
  - destruct Hspec as (l1 & l2 & Hsl & -> & H1 & H2).
    do 3 eexists. split; [reflexivity|]. split; [split; eauto|]. right.
    split; auto. split; [|apply leaf_upd_refl; auto].
    apply assoc_live_notin. rewrite Hsl. now apply not_inserted_notin.
Qed.

Lemma leaf_upd_remove a l1 s l2 key :
  leaf_ok (a_slots a) -> a_slots a = l1 ++ s :: l2 -> s_key s = Some key ->
  leaf_upd a (aslots a (l1 ++ l2)) [] (remove_key key (live (a_slots a))).
Proof.
  intros Hok Hsl Hk. rewrite Hsl in *. split; [apply same_frame_aslots|]. cbn [a_slots aslots].
  split; [eapply leaf_ok_remove; eauto|]. split; [apply live_remove; auto|].
  rewrite Hsl. intros x Hx. cbn [app].
  rewrite !keys_of_app, !keys_of_cons in *. apply in_app_or in Hx as [Hx|Hx]; apply in_or_app; auto.
  right. apply in_or_app. auto.
Qed.

Lemma fxL_delete n a key : fxrep n a -> a_inner a = false -> leaf_ok (a_slots a) ->
  exists rc n' a', fx_delete n key = Some (rc, n') /\ fxrep n' a' /\
    (((rc = kCompleted \/ rc = kNeedMerge) /\ assoc key (live (a_slots a)) <> None /\
      leaf_upd a a' [] (remove_key key (live (a_slots a)))) \/
     (rc = kKeyNotInserted /\ assoc key (live (a_slots a)) = None /\
      leaf_upd a a' [] (live (a_slots a)))).
Proof.
  intros (H & Hl) Hin Hok. unfold fx_delete.
  destruct (frep_leaf_search n a key H Hin Hok) as (rc & pos & Hs & Hrc & Hspec). rewrite Hs.
  destruct Hrc as [-> | ->].
  - destruct Hspec as (l1 & s & l2 & Hsl & -> & Hk & Hd).
    destruct (fx_remove_ok n a l1 s l2 H Hsl) as (n' & A & B & C & D).
    rewrite A. do 3 eexists. split; [reflexivity|]. split; [eapply fxrep_upd; eauto|].
    left. split; [destruct (_ <? _); auto|]. split; [|eapply leaf_upd_remove; eauto].
    destruct (fx_search_pay l1 s l2) as [w Hw]; [rewrite <- Hsl; apply Hok|].
    rewrite Hsl in *. rewrite (assoc_live_found l1 s l2 key w); auto. discriminate.
  - destruct Hspec as (l1 & l2 & Hsl & -> & H1 & H2).
    do 3 eexists. split; [reflexivity|]. split; [split; eauto|]. right.
    split; auto. split; [|apply leaf_upd_refl; auto].
    apply assoc_live_notin. rewrite Hsl. now apply not_inserted_notin.
Qed.

(** Where a new separator goes, from the search result. *)
Lemma inner_search_pos l sep rc pos :
  inner_search_spec l sep rc pos -> ~ In sep (keys_of (tl l)) ->
  exists l1 s l2, l = l1 ++ s :: l2 /\ pos = length l1 /\
    (l1 <> [] -> exists k, s_key s = Some k /\ klt k sep) /\
    (forall k, In k (keys_of l2) -> klt sep k).
Proof.
  intros ((l1 & s & l2 & Hl & Hp & H1 & H2) & _) Hni. exists l1, s, l2. repeat split; auto.
  intros Hne. destruct (H1 Hne) as (k & Hk & Hle). exists k. split; auto.
  destruct (klt_cases k sep) as [|[->|Hlt]]; auto.
  - exfalso. apply Hni. apply in_keys_of. exists s. split; auto. rewrite Hl.
    destruct l1; [congruence|]. cbn. apply in_or_app. right. now left.
  - exfalso. unfold kle, klt in *. congruence.
Qed.

Lemma fxL_insert_child n a r sep : fxrep n a -> a_inner a = true -> inner_ok (a_slots a) ->
  ~ In sep (keys_of (tl (a_slots a))) ->
  exists rc n' a', fx_insert_child n r sep = Some (rc, n') /\ fxrep n' a' /\ same_frame a a' /\
    ((rc = kCompleted /\ exists l1 s l2, a_slots a = l1 ++ s :: l2 /\
        (l1 <> [] -> exists k, s_key s = Some k /\ klt k sep) /\
        (forall k, In k (keys_of l2) -> klt sep k) /\
        a_slots a' = l1 ++ s :: Slot (Some sep) (PP r) false :: l2) \/
     (rc = kNeedSplit /\ a' = a /\ fx_splittable n' /\ ~ fx_room n)).
Proof.
  intros (H & Hl) Hin Hok Hni. unfold fx_insert_child.
  destruct (frep_inner_search n a sep H Hin Hok) as (rc & pos & Hs & Hrc & Hspec). rewrite Hs.
  destruct (inner_search_pos _ _ _ _ Hspec Hni) as (l1 & s & l2 & Hsl & -> & H1 & H2).
  destruct Hrc as [-> | ->].
  - exfalso. destruct Hspec as (_ & Hp & Hk). apply Hni. unfold kat in Hk.
    rewrite Hsl in *. rewrite nth_error_mid in Hk. apply in_keys_of. exists s. split; auto.
    destruct l1; [cbn in Hp; congruence|]. cbn. apply in_or_app. right. now left.
  - destruct (page - hdr <? fx_used n + (klen sep + ptrlen)) eqn:E.
    + do 3 eexists. split; [reflexivity|]. split; [split; eauto|]. split; [apply same_frame_refl|].
      right. split; auto. split; auto. rewrite fx_klen in E. split.
      * eapply need_split_splittable; eauto. rewrite Hin. exact E.
      * unfold fx_room. apply Nat.ltb_lt in E. rewrite (fr_pl _ _ H), Hin. cbn [plof]. lia.
    + apply Nat.ltb_ge in E. rewrite fx_klen in E. pose proof fx_hdr_page.
      destruct (fx_insert_child_at_ok n a l1 s l2 sep r H Hin Hsl ltac:(lia)) as (n' & A & B & C & D).
      rewrite A. do 3 eexists. split; [reflexivity|]. split; [eapply fxrep_upd; eauto|].
      split; [apply same_frame_aslots|]. left. split; auto. exists l1, s, l2. auto.
Qed.

Lemma inner_ok_cons2 s0 s1 tl : inner_ok (s0 :: s1 :: tl) -> exists k, s_key s1 = Some k /\
  forall x, In x (keys_of tl) -> klt k x.
Proof.
  intros (_ & H1 & H2). inv H1. destruct H3 as (_ & k & c & Hk & _).
  exists k. split; auto. rewrite keys_of_cons, (key1_some _ _ Hk) in H2. cbn in H2. apply StronglySorted_inv in H2 as (_ & H2).
  rewrite Forall_forall in H2. auto.
Qed.

Lemma fxL_delete_child n a del : fxrep n a -> a_inner a = true -> inner_ok (a_slots a) ->
  exists rc n' a', fx_delete_child n del = Some (rc, n') /\ fxrep n' a' /\ same_frame a a' /\
    (((rc = kCompleted \/ rc = kNeedMerge) /\
      exists l1 s l2, a_slots a = l1 ++ s :: l2 /\ l1 <> [] /\ s_key s = Some del /\
        a_slots a' = l1 ++ l2) \/
     (rc = kAbortMerge /\ a' = a /\ forall k, In k (keys_of (tl (a_slots a))) -> klt del k) \/
     (rc = kNeedRetry /\ a' = a /\ ~ In del (keys_of (tl (a_slots a))) /\
      exists k, In k (keys_of (tl (a_slots a))) /\ kle k del)).
Proof.
  intros (H & Hl) Hin Hok. unfold fx_delete_child.
  rewrite (fr_rc _ _ H).
  assert (Habort : exists b, (if length (a_slots a) <=? 1 then Some true
                    else let? k1 := fx_key n 1 in Some (ltb del k1)) = Some b /\
          if b : bool then forall k, In k (keys_of (tl (a_slots a))) -> klt del k
          else exists k, In k (keys_of (tl (a_slots a))) /\ kle k del).
  { destruct (a_slots a) as [|s0 [|s1 tl0]] eqn:Esl.
    - destruct Hok.
    - exists true. split; [reflexivity|]. cbn. tauto.
    - destruct (inner_ok_cons2 _ _ _ Hok) as (k1 & Hk1 & Hlt).
      replace (length (s0 :: s1 :: tl0) <=? 1) with false by (symmetry; apply Nat.leb_gt; cbn; lia).
      rewrite (frep_key n a 1 k1 H).
      2:{ unfold kat. rewrite Esl. cbn. auto. }
      exists (ltb del k1). split; auto.
      cbn [tl]. rewrite keys_of_cons, (key1_some _ _ Hk1).
      destruct (ltb del k1) eqn:E.
      + intros k [<-|Hk]; auto. eapply klt_trans; eauto.
      + exists k1. split; [now left | auto]. }
  destruct Habort as (b & Hb & Hbs). rewrite Hb. destruct b.
  { do 3 eexists. split; [reflexivity|]. split; [split; eauto|]. split; [apply same_frame_refl|].
    right. left. auto. }
  destruct (frep_inner_search n a del H Hin Hok) as (rc & pos & Hs & Hrc & Hspec). rewrite Hs.
  destruct Hrc as [-> | ->].
  - destruct Hspec as ((l1 & s & l2 & Hsl & -> & _) & Hp & Hk). unfold kat in Hk.
    rewrite Hsl, nth_error_mid in Hk.
    destruct (fx_remove_ok n a l1 s l2 H Hsl) as (n' & A & B & C & D).
    rewrite A. do 3 eexists. split; [reflexivity|]. split; [eapply fxrep_upd; eauto|].
    split; [apply same_frame_aslots|]. left. split; [destruct (_ <? _); auto|].
    exists l1, s, l2. repeat split; auto. intros ->. cbn in Hp. congruence.
  - destruct Hspec as (_ & Hni).
    do 3 eexists. split; [reflexivity|]. split; [split; eauto|]. split; [apply same_frame_refl|].
    right. right. auto.
Qed.

Lemma skipn_cons_nth {A} (l : list A) i : i < length l -> exists x tl, skipn i l = x :: tl /\
  nth_error l i = Some x.
Proof.
  intros H. destruct (nth_error_ex l i H) as [x Hx]. exists x, (skipn (S i) l). split; auto.
  rewrite (nth_error_split_eq _ _ _ Hx) at 1. rewrite skipn_app, firstn_length.
  rewrite skipn_all2 by (rewrite firstn_length; lia).
  replace (i - Nat.min i (length l)) with 0 by lia. reflexivity.
Qed.

(** Cutting well-formed contents in the middle gives what a split must give. *)
Lemma split_spec_cut a i s0 tl sep :
  body_ok (a_inner a) (a_slots a) -> 1 <= i -> i < length (a_slots a) ->
  skipn i (a_slots a) = s0 :: tl -> s_key s0 = Some sep ->
  split_spec a sep (firstn i (a_slots a)) (skipn i (a_slots a)).
Proof.
  intros Hok Hi Hlt Hsk Hk.
  assert (Hcat : a_slots a = firstn i (a_slots a) ++ s0 :: tl) by (rewrite <- Hsk, firstn_skipn; auto).
  assert (Hsep : In sep (keys_of (a_slots a))).
  { apply in_keys_of. exists s0. split; auto. rewrite Hcat. apply in_or_app. right. now left. }
  assert (Hne : firstn i (a_slots a) <> []).
  { intros E. apply (f_equal (@length _)) in E. rewrite firstn_length in E. cbn in E. lia. }
  split; auto. destruct (a_inner a) eqn:Ein.
  - split; [symmetry; apply firstn_skipn|]. split; auto. exists s0, tl. auto.
  - cbn in Hok. rewrite Hsk. rewrite Hcat at 1. split; [apply live_app|].
    rewrite Hcat in Hok. destruct (leaf_ok_mid_keys _ _ _ _ Hok Hk) as (H1 & H2).
    apply leaf_ok_app in Hok as (A & B & C). split; auto. split; auto.
    split. { rewrite Hcat at 2. rewrite keys_of_app. apply incl_appl, incl_refl. }
    split. { rewrite Hcat. rewrite keys_of_app. apply incl_appr, incl_refl. }
    split; auto. split.
    + rewrite keys_of_cons, (key1_some _ _ Hk). intros k [<-|Hx]; [apply kle_refl|].
      apply klt_kle. auto.
    + destruct (firstn i (a_slots a)) as [|s l] eqn:E; [congruence|].
      destruct A as (A & _). inv A. destruct H3 as (k0 & v0 & Hk0 & _).
      assert (Hin0 : In k0 (keys_of (s :: l))) by (rewrite keys_of_cons, (key1_some _ _ Hk0); now left).
      exists k0. split; auto. rewrite Hcat, keys_of_app. apply in_or_app. auto.
Qed.

Lemma fx_split_rooms inner n lo hi :
  let lc := Nat.div n 2 in
  4 <= n -> lo <= 1 -> hi <= 1 ->
  ks * (n + lo + hi) + plof inner * n <= page - hdr ->
  ks * (lc + lo + 1) + plof inner * lc + (ks + plof inner) <= page - hdr /\
  ks * (n - lc + 1 + hi) + plof inner * (n - lc) + (ks + plof inner) <= page - hdr.
Proof.
  intros lc Hn Hlo Hhi H. set (pl := plof inner) in *.
  assert (H1 : 2 * lc <= n) by (unfold lc; apply Nat.mul_div_le; lia).
  assert (H2 : n < 2 * S lc) by (unfold lc; apply Nat.mul_succ_div_gt; lia).
  split.
  - assert (A : ks * (lc + lo + 2) <= ks * (n + lo + hi)) by (apply Nat.mul_le_mono_l; lia).
    assert (B : pl * (lc + 1) <= pl * n) by (apply Nat.mul_le_mono_l; lia). lia.
  - assert (A : ks * (n - lc + 2 + hi) <= ks * (n + lo + hi)) by (apply Nat.mul_le_mono_l; lia).
    assert (B : pl * (n - lc + 1) <= pl * n) by (apply Nat.mul_le_mono_l; lia). lia.
Qed.

Lemma fxL_split n a ra : fxrep n a -> body_ok (a_inner a) (a_slots a) -> fx_splittable n ->
  exists l' r' sep s1 s2, fx_split_sl n ra (fx_new (a_inner a)) = Some (l', r') /\
    fxrep l' (ANode (a_inner a) (a_removed a) (Some ra) (a_low a) (Some sep) s1) /\
    fxrep r' (ANode (a_inner a) false (a_next a) (Some sep) (a_high a) s2) /\
    split_spec a sep s1 s2 /\ fx_room l' /\ fx_room r' /\ halves_live s1 s2.
Proof.
  intros (H & Hl) Hok (Hn & Hrd). rewrite (fr_rc _ _ H) in Hn.
  set (i := Nat.div (length (a_slots a)) 2).
  assert (Hi : 1 <= i /\ i < length (a_slots a)).
  { unfold i. split; [apply (Nat.div_le_lower_bound _ 2 1); lia | apply Nat.div_lt; lia]. }
  destruct (skipn_cons_nth (a_slots a) i ltac:(lia)) as (s0 & tl & Hsk & Hnth).
  destruct (body_ok_key _ _ i Hok) as (sep & Hsep).
  { destruct (a_inner a); cbn; lia. }
  { lia. }
  unfold kat in Hsep. rewrite Hnth in Hsep.
  destruct (fx_split_sl_ok n a ra (fx_new (a_inner a)) s0 tl sep H ltac:(lia) Hrd
              eq_refl eq_refl eq_refl Hsk Hsep) as (l' & r' & A & B & C & D & E).
  pose proof (fx_split_rooms (a_inner a) (length (a_slots a)) (b2n (fn_low n))
                (b2n (isSome (a_high a))) Hn (b2n_le _) (b2n_le _)) as Hrooms.
  fold i in Hrooms. destruct Hrooms as (R1 & R2).
  { pose proof (frep_fits _ _ H). lia. }
  exists l', r', sep, (firstn i (a_slots a)), (skipn i (a_slots a)).
  split; [exact A|]. split; [split; [exact B|cbn; congruence]|].
  split; [split; [exact C|cbn; congruence]|].
  split; [apply (split_spec_cut _ _ s0 tl); auto; lia|].
  split; [|split].
  - unfold fx_room, fx_used. rewrite (fr_rc _ _ B), (fr_block _ _ B), (fr_highb _ _ B), (fr_pl _ _ B), D.
    cbn [a_slots a_inner a_high isSome b2n]. rewrite firstn_length.
    replace (Nat.min i (length (a_slots a))) with i by lia. lia.
  - unfold fx_room, fx_used. rewrite (fr_rc _ _ C), (fr_block _ _ C), (fr_highb _ _ C), (fr_pl _ _ C), E.
    cbn [a_slots a_inner a_high isSome b2n]. rewrite skipn_length. lia.
  - split; [|split].
    + destruct (a_slots a); cbn in Hi; [lia|]. destruct i; [lia|]. discriminate.
    + rewrite Hsk. discriminate.
    + rewrite firstn_skipn. intros s Hs. pose proof (fr_kind _ _ H) as HK. rewrite Forall_forall in HK.
      apply HK; auto.
Qed.

Lemma leaf_ok_merge (al ar : anode) h :
  leaf_ok (a_slots al) -> leaf_ok (a_slots ar) ->
  (forall k, In k (keys_of (a_slots al)) -> klt k h) ->
  (forall k, In k (keys_of (a_slots ar)) -> kle h k) ->
  leaf_ok (a_slots al ++ a_slots ar).
Proof.
  intros H1 H2 H3 H4. apply leaf_ok_app. split; auto. split; auto.
  intros x y Hx Hy. eapply klt_le_trans; eauto.
Qed.

Lemma fxL_merge la l al r ar : fxrep l al -> fxrep r ar -> a_inner al = a_inner ar ->
  body_ok (a_inner al) (a_slots al) -> body_ok (a_inner ar) (a_slots ar) ->
  (exists h, a_high al = Some h /\ a_low ar = Some h /\
    (forall k, In k (keys_of (a_slots al)) -> a_inner al = false -> klt k h) /\
    (forall k, In k (keys_of (a_slots ar)) -> kle h k)) ->
  fx_can_merge l r = true ->
  exists l' r' s, fx_merge_sl la l r = Some (l', r') /\
    fxrep l' (ANode (a_inner al) (a_removed al) (a_next ar) (a_low al) (a_high ar) s) /\
    merge_spec al ar s /\ fn_removed r' = true /\ fn_next r' = Some la.
Proof.
  intros (Hl & Hll) (Hr & Hlr) Hin Hokl Hokr (h & Hhl & Hlowr & Hk1 & Hk2) Hcm.
  unfold fx_can_merge, maxused in Hcm. apply Nat.ltb_lt in Hcm.
  assert (Hlr1 : fn_low r = true) by (rewrite Hlr, Hlowr; auto).
  destruct (fx_merge_into_ok l al r ar (fn_rc l + 1) true true Hl Hr Hin) as (l' & A & B & C & D).
  - rewrite (fr_rc _ _ Hl). unfold fx_used in Hcm.
    rewrite (fr_rc _ _ Hl), (fr_highb _ _ Hl), Hhl, Hlr1 in Hcm. cbn [isSome b2n] in Hcm.
    unfold fk_off. replace (S (length (a_slots al) + 1) * ks) with (ks * (length (a_slots al) + 1) + ks * 1) by lia.
    assert (ks * (length (a_slots al) + 1) <= ks * (length (a_slots al) + b2n (fn_low l) + 1)) by (apply Nat.mul_le_mono_l; lia).
    assert (ks * 1 <= ks * (fn_rc r + 1 + b2n (fn_high r))) by (apply Nat.mul_le_mono_l; lia).
    lia.
  - lia.
  - rewrite Hhl. cbn. lia.
  - intros _. rewrite (fr_rc _ _ Hl), Hhl. reflexivity.
  - unfold fx_merge_sl. rewrite A. do 3 eexists. split; [reflexivity|].
    split; [split; [exact B|cbn; congruence]|]. split; [|cbn; auto].
    unfold merge_spec. destruct (a_inner al) eqn:E; auto.
    cbn in Hokl. rewrite <- Hin in Hokr. cbn in Hokr.
    split; [eapply leaf_ok_merge; eauto|]. split; [apply live_app|].
    rewrite keys_of_app. apply incl_refl.
Qed.

Lemma fxL_endpos_frep n a e : frep n a -> a_inner a = false -> leaf_ok (a_slots a) ->
  exists is_end pos, fx_endpos n e = Some (is_end, pos) /\ endpos_spec a e is_end pos.
Proof.
  intros H Hin Hok. unfold fx_endpos, fx_rightmost.
  rewrite (fr_next _ _ H), (fr_rc _ _ H).
  set (ie := match a_next a with
            | None => true
            | Some _ => match e with
                        | None => false
                        | Some (k, _) => match a_high a with None => true | Some h => ltb k h end
                        end
            end).
  assert (E : match a_next a with
         | Some _ => match e with Some (k, _) => fx_comphigh n k | None => Some false end
         | None => Some true end = Some ie).
  { unfold ie. destruct (a_next a); auto. destruct e as [[k c]|]; auto.
    rewrite (frep_comphigh _ _ _ H). destruct (a_high a); auto. }
  rewrite E. destruct ie eqn:Eie.
  - destruct e as [[k c]|].
    + destruct (frep_leaf_search n a k H Hin Hok) as (rc & pos & Hs & Hrc & Hspec). rewrite Hs.
      do 2 eexists. split; [reflexivity|]. split; [symmetry; exact Eie|].
      destruct Hrc as [-> | ->]; cbn [node_rc_eqb].
      * destruct Hspec as (l1 & s & l2 & Hsl & -> & Hk & Hd). rewrite Hsl in Hok.
        destruct (leaf_ok_mid_keys _ _ _ _ Hok Hk) as (H1 & H2).
        destruct c; cbn [andb].
        -- exists (l1 ++ [s]), l2. rewrite app_length, <- app_assoc. cbn. repeat split; auto.
           ++ intros x v Hx. apply live_key_in in Hx. rewrite keys_of_app in Hx.
              apply in_app_or in Hx as [Hx|Hx]; [apply klt_kle; auto|].
              rewrite keys_of_cons, (key1_some _ _ Hk) in Hx. cbn in Hx. destruct Hx as [<-|[]].
              apply kle_refl.
           ++ intros x v Hx. apply live_key_in in Hx. auto.
        -- exists l1, (s :: l2). repeat split; auto.
           ++ intros x v Hx. apply live_key_in in Hx. auto.
           ++ intros x v Hx. apply live_key_in in Hx. rewrite keys_of_cons, (key1_some _ _ Hk) in Hx.
              destruct Hx as [<-|Hx]; [apply kle_refl | apply klt_kle; auto].
      * destruct Hspec as (l1 & l2 & Hsl & -> & H1 & H2). cbn [andb].
        exists l1, l2. repeat split; auto; intros x v Hx; apply live_key_in in Hx; destruct c; auto;
          apply klt_kle; auto.
    + do 2 eexists. split; [reflexivity|]. split; [symmetry; exact Eie|]. reflexivity.
  - do 2 eexists. split; [reflexivity|]. split; [symmetry; exact Eie|]. destruct e; reflexivity.
Qed.

Lemma fxL_endpos n a e : fxrep n a -> a_inner a = false -> leaf_ok (a_slots a) ->
  exists is_end pos, fx_endpos n e = Some (is_end, pos) /\ endpos_spec a e is_end pos.
Proof. intros (H & _). now apply fxL_endpos_frep. Qed.

#[local] Instance fix_sl_laws (osl : bool) : SLLaws P (fix_sl_ops osl).
Proof.
  refine {| rep := (fxrep : @nd P (fix_sl_ops osl) -> _); kvalid := fun _ => True;
            room := (fx_room : @nd P (fix_sl_ops osl) -> _);
            splittable := (fx_splittable : @nd P (fix_sl_ops osl) -> _) |}; cbn [nd fix_sl_ops nd_inner nd_removed nd_next nd_rc nd_usage nd_new nd_root0 nd_root2 nd_search nd_child nd_comphigh nd_highkey nd_sepkey nd_endpos nd_recdel nd_key nd_record nd_read nd_write nd_insert nd_write2 nd_insert2 nd_update nd_delete nd_insert_child nd_delete_child nd_split nd_merge nd_can_merge nd_remove_root].
  - intros n a (H & _). repeat split; apply H.
  - intros n a (H & _). unfold fx_usage. rewrite (fr_rc _ _ H), (fr_block _ _ H).
    pose proof (frep_slots_fit _ _ H). lia.
  - auto.
  - auto.
  - split; [apply (frep_new false)|reflexivity].
  - intros k l r _. destruct (fx_root2_ok k l r) as (n & A & B & C).
    + pose proof fg_cap. lia.
    + exists n, None. split; auto. split; auto.
  - intros n a key (H & _) H1 H2 _.
    destruct (frep_leaf_search n a key H H1 H2) as (rc & pos & A & B & C). eauto.
  - intros n a key (H & _) H1 H2 _.
    destruct (frep_inner_search n a key H H1 H2) as (rc & pos & A & B & C). eauto.
  - intros n a i s c (H & _) _. apply frep_child; auto.
  - intros n a key (H & _). apply frep_comphigh; auto.
  - intros n a h (H & _). apply frep_highkey; auto.
  - intros n a h (H & _). apply frep_highkey; auto.
  - intros n a k (H & _). apply frep_lowkey; auto.
  - intros n a e H H1 H2 _. apply fxL_endpos; auto.
  - intros n a i s (H & _) Hin Hok Hi. split; [|split].
    + unfold fx_recdel. pose proof (fr_kind _ _ H) as Hk. rewrite Forall_forall in Hk.
      destruct (Hk s (nth_error_In _ _ Hi)) as (_ & ->). reflexivity.
    + destruct Hok as [Hok _]. rewrite Forall_forall in Hok.
      destruct (Hok s (nth_error_In _ _ Hi)) as (k & v & Hk & _). rewrite Hk.
      apply (frep_key n a i k H). unfold kat. now rewrite Hi.
    + intros k v Hk Hv _. unfold fx_record. rewrite (frep_key n a i k H) by (unfold kat; rewrite Hi; auto).
      rewrite (frep_payload n a i s v H Hi Hv). reflexivity.
  - intros n a key H H1 H2 _. apply fxL_read; auto.
  - intros n a key v H H1 H2 _. destruct (fxL_write n a key v H H1 H2) as (rc & n' & a' & A & B & C).
    exists rc, n', a'. split; auto. split; auto. intuition (subst; auto).
  - intros n a key v H H1 H2 _. destruct (fxL_insert n a key v H H1 H2) as (rc & n' & a' & A & B & C).
    exists rc, n', a'. split; auto. split; auto. intuition (subst; auto).
  - intros n a key v H H1 H2 _ Hroom Hni. destruct osl; [apply fxL_search_insert; auto|].
    destruct (fxL_write n a key v H H1 H2) as (rc & n' & a' & A & B & [C|C]).
    + destruct C as (-> & C). eauto.
    + exfalso. tauto.
  - intros n a key v H H1 H2 _ Hroom Hni. destruct osl; [apply fxL_search_insert; auto|].
    destruct (fxL_insert n a key v H H1 H2) as (rc & n' & a' & A & B & [C|[C|C]]).
    + exfalso. destruct C as (_ & _ & C). apply C. apply assoc_live_notin; auto.
    + destruct C as (-> & _ & C). eauto.
    + exfalso. tauto.
  - intros n a key v H H1 H2 _. apply fxL_update; auto.
  - intros n a key H H1 H2 _. apply fxL_delete; auto.
  - intros n a r sep H H1 H2 _. apply fxL_insert_child; auto.
  - intros n a del H H1 H2 _. apply fxL_delete_child; auto.
  - intros n a ra H H1 H2. destruct (fxL_split n a ra H H1 H2) as (l' & r' & sep & s1 & s2 & A & B & C & D & E & E' & E'').
    exists l', r', sep, s1, s2. auto 10.
  - intros la l al r ar H1 H2 H3 H4 H5 H6 H7. apply fxL_merge; auto.
  - intros n a _. cbn. auto.
  - intros n. reflexivity.
  - intros la l r l' r'. unfold fx_merge_sl. destruct (fx_merge_into l r (fn_rc l + 1) true); [|discriminate].
    now intros [= _ <-].
Defined.

End FixSLProofs.
