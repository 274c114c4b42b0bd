(** The variable-length node satisfies the single-layer interface. *)
From Coq Require Import List Arith ZArith Bool Sorted Lia.
From Verif Require Import Params Mem Common NodeAbs FixProofs VarModel VarProofs VarSmo SLIface FixSL.
Import ListNotations.

(** Node functions of psl/node_varlen.hpp and osl/node_varlen.hpp; [osl] selects the
    optimistic variant, which inserts without a space check after a split
    (osl/b_tree.hpp:192-193, 230-231). *)
Definition var_sl_ops {P : Params} (osl : bool) : SLOps P := {|
  nd := vnode;
  nd_inner := vn_inner;
  nd_removed := vn_removed;
  nd_next := vn_next;
  nd_rc := vn_rc;
  nd_usage := vx_usage;
  nd_new := vx_new;
  nd_root0 := vx_new false;
  nd_root2 := vx_root2;
  nd_search := vx_search;
  nd_child := vx_child;
  nd_comphigh := vx_comphigh;
  nd_highkey := vx_highkey;
  nd_sepkey := vx_sepkey;
  nd_endpos := vx_endpos;
  nd_recdel := vx_recdel;
  nd_key := vx_key;
  nd_record := vx_record;
  nd_read := vx_read;
  nd_write := vx_write;
  nd_insert := vx_insert;
  nd_write2 := if osl then vx_search_insert else vx_write;
  nd_insert2 := if osl then vx_search_insert else vx_insert;
  nd_update := vx_update;
  nd_delete := vx_delete;
  nd_insert_child := vx_insert_child;
  nd_delete_child := vx_delete_child;
  nd_split := vx_split false;
  nd_merge := vx_merge_sl;
  nd_can_merge := vx_can_merge;
  nd_remove_root := vx_remove_root;
|}.

(** The largest record with its metadata. *)
Definition vmax {P : Params} : nat := maxkey + Nat.max plen ptrlen + metalen.

(** Page configurations in which the variable-length layout works: after a split both
    halves can take a record of maximal size, and a node reported as full really holds
    enough to be split. *)
Class VarGood (P : Params) := {
  vg_cap : hdr + 4 * vmax + 4 * maxkey <= page;
  vg_split : hdr + minfree + 3 * vmax + 4 * maxkey <= page;
}.

Section VarSLProofs.
Context {P : Params} {O : OrdLaws P} {F : VarSizes P} {G : VarGood P}.

Definition vx_room (n : vnode) : Prop :=
  metalen * (vn_rc n + 1) + vn_block n + (maxkey + Nat.max plen ptrlen) <= page - hdr.
Definition vx_splittable (n : vnode) : Prop := vmaxused < vx_used n + vmax.

(** ** Effect of dropping tombstones *)

Lemma live_filter l : live (filter s_live l) = live l.
Proof.
  induction l as [|s l IH]; [reflexivity|]. rewrite filter_live_cons, live_cons.
  unfold rec1. destruct (s_del s) eqn:E.
  - rewrite IH. destruct (s_key s), (s_pay s); reflexivity.
  - rewrite live_cons, IH. unfold rec1. now rewrite E.
Qed.

Lemma keys_filter_incl l : incl (keys_of (filter s_live l)) (keys_of l).
Proof. intros k. apply keys_filter. Qed.

Lemma leaf_ok_filter l : leaf_ok l -> leaf_ok (filter s_live l).
Proof.
  intros [H1 H2]. split; [now apply Forall_filter|].
  induction l as [|s l IH]; [exact H2|]. rewrite filter_live_cons. inv H1.
  rewrite keys_of_cons in H2. destruct H3 as (k & v & Hk & _). rewrite (key1_some _ _ Hk) in H2.
  cbn in H2. apply StronglySorted_inv in H2 as [H2 H3]. destruct (s_del s); [auto|].
  rewrite keys_of_cons, (key1_some _ _ Hk). cbn. constructor; auto.
  rewrite Forall_forall in *. intros x Hx. apply H3. now apply keys_filter.
Qed.

Lemma filter_all l : (forall s, In s l -> s_del s = false) -> filter s_live l = l.
Proof.
  induction l as [|s l IH]; intros H; [reflexivity|]. rewrite filter_live_cons, (H s (or_introl eq_refl)).
  f_equal. apply IH. intros x Hx. apply H. now right.
Qed.

Lemma inner_ok_live l : inner_ok l -> forall s, In s l -> s_del s = false.
Proof.
  destruct l as [|s0 tl]; [destruct 1|]. intros ((H1 & _) & H2 & _) s [<-|Hs]; auto.
  rewrite Forall_forall in H2. apply H2; auto.
Qed.

Lemma aslots_same a : aslots a (a_slots a) = a.
Proof. destruct a; reflexivity. Qed.

Lemma leaf_upd_filter a : leaf_ok (a_slots a) ->
  leaf_upd a (aslots a (filter s_live (a_slots a))) [] (live (a_slots a)).
Proof.
  intros H. split; [apply same_frame_aslots|]. cbn [a_slots aslots]. split; [now apply leaf_ok_filter|].
  split; [apply live_filter|]. cbn. apply keys_filter_incl.
Qed.

Lemma leaf_upd_trans a b c e1 e2 r1 r2 : leaf_upd a b e1 r1 -> leaf_upd b c e2 r2 -> incl e1 e2 ->
  leaf_upd a c e2 r2.
Proof.
  intros ((A1 & A2 & A3 & A4 & A5) & B1 & C1 & D1) ((A1' & A2' & A3' & A4' & A5') & B2 & C2 & D2) HE.
  split; [unfold same_frame; intuition congruence|]. split; auto. split; auto.
  intros x Hx. apply D2 in Hx. apply in_app_or in Hx as [Hx|Hx]; [apply in_or_app; auto|].
  apply D1 in Hx. apply in_app_or in Hx as [Hx|Hx]; apply in_or_app; auto.
Qed.

(** ** Clean-up decisions *)

Lemma v_deleted_le n a L dead : vrep' n a L dead -> vn_deleted n <= metalen * vn_rc n + vn_block n.
Proof.
  intros H. destruct (v_acc _ _ _ _ H) as (res & Q1 & Q2 & Q3).
  rewrite (v_rc _ _ _ _ H), <- (v_len _ _ _ _ H), Q3, (v_del _ _ _ _ H).
  pose proof (sum_total (a_slots a)). lia.
Qed.

Lemma cleanup_if_ok n a L dead len : vrep' n a L dead -> len <= maxkey + Nat.max plen ptrlen ->
  exists n1 a1 L1 dead1, vx_cleanup_if n len = Some n1 /\ vrep' n1 a1 L1 dead1 /\
    (n1 = n /\ a1 = a \/ a1 = aslots a (filter s_live (a_slots a))) /\
    (vx_need_split n1 len = true -> n1 = n /\ a1 = a /\ vx_splittable n1).
Proof.
  intros H Hlen. unfold vx_cleanup_if. destruct (vx_need_cleanup n len) eqn:E.
  - destruct (vx_cleanup_ok _ _ _ _ H) as (n' & L' & E1 & R & B). exists n', (aslots a (filter s_live (a_slots a))), L', 0.
    split; [exact E1|]. split; [exact R|]. split; [auto|]. intros Hn. exfalso.
    unfold vx_need_cleanup, vmaxused in E. apply andb_true_iff in E as [_ E]. apply Nat.leb_le in E.
    unfold vx_need_split in Hn. apply Nat.ltb_lt in Hn.
    rewrite (v_rc _ _ _ _ R), <- (v_len _ _ _ _ R), B in Hn. cbn [a_slots aslots] in Hn.
    pose proof (sum_live (a_slots a)) as Hlv. destruct (v_used _ _ _ _ H) as (res & Q1 & Q2 & Q3).
    pose proof (v_deleted_le _ _ _ _ H). unfold vx_used in Q3. rewrite Nat.mul_add_distr_l in E, Hn. lia.
  - exists n, a, L, dead. split; [reflexivity|]. split; [exact H|]. split; [auto|]. intros Hn.
    split; auto. split; auto. unfold vx_splittable, vx_used.
    unfold vx_need_cleanup in E. unfold vx_need_split in Hn. rewrite Hn in E. cbn [andb] in E.
    apply Nat.leb_gt in E. unfold vmax. lia.
Qed.

Lemma need_split_false n len : hdr <= page -> vx_need_split n len = false ->
  hdr + metalen * (vn_rc n + 1) + vn_block n + len <= page.
Proof. intros Hh E. unfold vx_need_split in E. apply Nat.ltb_ge in E. lia. Qed.

Lemma vkey_len key : vkey key -> klen key + plen <= maxkey + Nat.max plen ptrlen.
Proof. intros [? ?]. lia. Qed.
Lemma vkey_len_p key : vkey key -> klen key + ptrlen <= maxkey + Nat.max plen ptrlen.
Proof. intros [? ?]. lia. Qed.

Lemma need_split_not_room n len : vx_need_split n len = true -> len <= maxkey + Nat.max plen ptrlen ->
  ~ vx_room n.
Proof. intros E Hl Hr. unfold vx_need_split in E. apply Nat.ltb_lt in E. unfold vx_room in Hr. lia. Qed.

Lemma leaf_upd_deleted a l1 s l2 key v extra : leaf_ok (a_slots a) -> a_slots a = l1 ++ s :: l2 ->
  s_key s = Some key ->
  leaf_upd a (aslots a (l1 ++ Slot (s_key s) (PV v) false :: l2)) extra (upsert key v (live (a_slots a))).
Proof. apply leaf_upd_replace. Qed.

Lemma tomb_upd a l1 s l2 key : leaf_ok (a_slots a) -> a_slots a = l1 ++ s :: l2 -> s_key s = Some key ->
  leaf_upd a (aslots a (l1 ++ Slot (s_key s) (s_pay s) true :: l2)) [] (remove_key key (live (a_slots a))).
Proof.
  intros Hok Hsl Hk. destruct (leaf_upd_remove a l1 s l2 key Hok Hsl Hk) as (_ & A & B & C).
  cbn [aslots a_slots] in *.
  split; [apply same_frame_aslots|]. cbn [aslots a_slots]. rewrite Hsl in Hok.
  destruct (fx_search_pay l1 s l2 (proj1 Hok)) as [v Hv].
  split; [rewrite Hv, Hk; eapply leaf_ok_replace; eauto|]. split.
  - rewrite <- B, !live_app, live_cons. f_equal. unfold rec1 at 1. cbn. destruct (s_key s), (s_pay s); reflexivity.
  - rewrite Hsl. cbn [app]. intros x Hx. rewrite !keys_of_app, !keys_of_cons in *. exact Hx.
Qed.

Lemma vxL_write n a key v : vrep n a -> a_inner a = false -> leaf_ok (a_slots a) -> vkey key ->
  exists rc n' a', vx_write n key v = Some (rc, n') /\ vrep n' a' /\
    ((rc = kCompleted /\ leaf_upd a a' [key] (upsert key v (live (a_slots a)))) \/
     (rc = kNeedSplit /\ leaf_upd a a' [] (live (a_slots a)) /\
      ~ In key (keys_of (a_slots a')) /\ vx_splittable n' /\ ~ vx_room n)).
Proof.
  intros (L & dead & H) Hin Hok Hkey. unfold vx_write.
  pose proof (vkey_len _ Hkey) as Hlen.
  destruct (cleanup_if_ok n a L dead _ H Hlen) as (n1 & a1 & L1 & dead1 & E1 & R1 & Hcase & Hsp). rewrite E1.
  assert (HU : leaf_upd a a1 [] (live (a_slots a))).
  { destruct Hcase as [[_ ->]| ->]; [apply leaf_upd_refl; auto|apply leaf_upd_filter; auto]. }
  assert (Hin1 : a_inner a1 = false) by (destruct HU as ((-> & _) & _); auto).
  assert (Hok1 : leaf_ok (a_slots a1)) by apply HU.
  assert (Hlv : live (a_slots a1) = live (a_slots a)) by apply HU.
  destruct (v_leaf_search _ _ _ _ R1 key Hin1 Hok1) as (rc & pos & Hs & Hspec). rewrite Hs.
  assert (Hpk : pay_kind (a_inner a1) (PV v)) by (rewrite Hin1; reflexivity).
  rewrite <- Hlv in *. assert (Hie : incl (@nil K) [key]) by (intros x []).
  destruct rc; cbn in Hspec; try contradiction.
  - destruct Hspec as (l1 & l2 & Hsl & -> & H1 & H2). destruct (vx_need_split n1 (klen key + plen)) eqn:E.
    + destruct (Hsp eq_refl) as (-> & -> & Hspl).
      do 3 eexists. split; [reflexivity|]. split; [exists L1, dead1; exact R1|]. right.
      split; auto. split; auto. split; [rewrite Hsl; now apply not_inserted_notin|]. split; auto.
      eapply need_split_not_room; eauto.
    + destruct (vx_insert_at_ok n1 a1 L1 dead1 l1 l2 key (PV v) R1 Hsl Hpk Hkey) as (n' & L' & A & B).
      { cbn [paylen]. apply need_split_false; auto. apply vs_hdr_page. }
      rewrite A. do 3 eexists. split; [reflexivity|]. split; [eexists; eexists; exact B|]. left. split; auto.
      eapply leaf_upd_trans; [exact HU| |exact Hie]. apply leaf_upd_insert; auto.
  - destruct Hspec as (l1 & s & l2 & Hsl & -> & Hk & Hd).
    destruct (vx_reuse_ok n1 a1 L1 dead1 l1 s l2 (PV v) R1 Hsl Hd Hpk) as (n' & L' & A & B).
    rewrite A. do 3 eexists. split; [reflexivity|]. split; [eexists; eexists; exact B|]. left. split; auto.
    eapply leaf_upd_trans; [exact HU| |exact Hie]. eapply leaf_upd_replace; eauto.
  - destruct Hspec as (l1 & s & l2 & Hsl & -> & Hk & Hd).
    destruct (vx_overwrite_ok n1 a1 L1 dead1 l1 s l2 (PV v) R1 Hsl Hpk) as (n' & L' & A & B).
    rewrite A. do 3 eexists. split; [reflexivity|]. split; [eexists; eexists; exact B|]. left. split; auto.
    rewrite Hd. eapply leaf_upd_trans; [exact HU| |exact Hie]. eapply leaf_upd_replace; eauto.
Qed.

Lemma vxL_insert n a key v : vrep n a -> a_inner a = false -> leaf_ok (a_slots a) -> vkey key ->
  exists rc n' a', vx_insert n key v = Some (rc, n') /\ vrep n' a' /\
    ((rc = kKeyAlreadyInserted /\ leaf_upd a a' [] (live (a_slots a)) /\
      assoc key (live (a_slots a)) <> None) \/
     (rc = kCompleted /\ assoc key (live (a_slots a)) = None /\
      leaf_upd a a' [key] (upsert key v (live (a_slots a)))) \/
     (rc = kNeedSplit /\ assoc key (live (a_slots a)) = None /\
      leaf_upd a a' [] (live (a_slots a)) /\
      ~ In key (keys_of (a_slots a')) /\ vx_splittable n' /\ ~ vx_room n)).
Proof.
  intros (L & dead & H) Hin Hok Hkey. unfold vx_insert.
  pose proof (vkey_len _ Hkey) as Hlen.
  destruct (cleanup_if_ok n a L dead _ H Hlen) as (n1 & a1 & L1 & dead1 & E1 & R1 & Hcase & Hsp). rewrite E1.
  assert (HU : leaf_upd a a1 [] (live (a_slots a))).
  { destruct Hcase as [[_ ->]| ->]; [apply leaf_upd_refl; auto|apply leaf_upd_filter; auto]. }
  assert (Hin1 : a_inner a1 = false) by (destruct HU as ((-> & _) & _); auto).
  assert (Hok1 : leaf_ok (a_slots a1)) by apply HU.
  assert (Hlv : live (a_slots a1) = live (a_slots a)) by apply HU.
  destruct (v_leaf_search _ _ _ _ R1 key Hin1 Hok1) as (rc & pos & Hs & Hspec). rewrite Hs.
  assert (Hpk : pay_kind (a_inner a1) (PV v)) by (rewrite Hin1; reflexivity).
  rewrite <- Hlv in *. assert (Hie : incl (@nil K) [key]) by (intros x []).
  destruct rc; cbn in Hspec; try contradiction.
  - destruct Hspec as (l1 & l2 & Hsl & -> & H1 & H2).
    assert (Hni : ~ In key (keys_of (a_slots a1))) by (rewrite Hsl; now apply not_inserted_notin).
    assert (Hna : assoc key (live (a_slots a1)) = None) by now apply assoc_live_notin.
    destruct (vx_need_split n1 (klen key + plen)) eqn:E.
    + destruct (Hsp eq_refl) as (-> & -> & Hspl).
      do 3 eexists. split; [reflexivity|]. split; [exists L1, dead1; exact R1|]. right. right.
      split; auto. split; auto. split; auto. split; auto. split; auto.
      eapply need_split_not_room; eauto.
    + destruct (vx_insert_at_ok n1 a1 L1 dead1 l1 l2 key (PV v) R1 Hsl Hpk Hkey) as (n' & L' & A & B).
      { cbn [paylen]. apply need_split_false; auto. apply vs_hdr_page. }
      rewrite A. do 3 eexists. split; [reflexivity|]. split; [eexists; eexists; exact B|]. right. left.
      split; auto. split; auto.
      eapply leaf_upd_trans; [exact HU| |exact Hie]. apply leaf_upd_insert; auto.
  - destruct Hspec as (l1 & s & l2 & Hsl & -> & Hk & Hd).
    destruct (vx_reuse_ok n1 a1 L1 dead1 l1 s l2 (PV v) R1 Hsl Hd Hpk) as (n' & L' & A & B).
    rewrite A. do 3 eexists. split; [reflexivity|]. split; [eexists; eexists; exact B|]. right. left. split; auto.
    split; [rewrite Hsl; apply (assoc_live_deleted l1 s l2 key); auto; now rewrite <- Hsl|].
    eapply leaf_upd_trans; [exact HU| |exact Hie]. eapply leaf_upd_replace; eauto.
  - destruct Hspec as (l1 & s & l2 & Hsl & -> & Hk & Hd).
    do 3 eexists. split; [reflexivity|]. split; [exists L1, dead1; exact R1|]. left. split; auto. split; auto.
    destruct (fx_search_pay l1 s l2) as [w Hw]; [rewrite <- Hsl; apply Hok1|].
    rewrite Hsl in *. rewrite (assoc_live_found l1 s l2 key w); auto. discriminate.
Qed.

Lemma vxL_search_insert n a key v : vrep n a -> a_inner a = false -> leaf_ok (a_slots a) -> vkey key ->
  vx_room n -> ~ In key (keys_of (a_slots a)) ->
  exists n' a', vx_search_insert n key v = Some (kCompleted, n') /\ vrep n' a' /\
    leaf_upd a a' [key] (upsert key v (live (a_slots a))).
Proof.
  intros (L & dead & H) Hin Hok Hkey Hroom Hni. unfold vx_search_insert.
  destruct (v_leaf_search _ _ _ _ H key Hin Hok) as (rc & pos & Hs & Hspec). rewrite Hs.
  assert (Hno : forall l1 s l2, a_slots a = l1 ++ s :: l2 -> s_key s = Some key -> False).
  { intros l1 s l2 Hsl Hk. apply Hni. apply in_keys_of. exists s. split; auto. rewrite Hsl.
    apply in_or_app. right. now left. }
  destruct rc; cbn in Hspec; try contradiction;
    [|exfalso; destruct Hspec as (l1 & s & l2 & Hsl & _ & Hk & _); eauto..].
  destruct Hspec as (l1 & l2 & Hsl & -> & H1 & H2).
  destruct (vx_insert_at_ok n a L dead l1 l2 key (PV v) H Hsl) as (n' & L' & A & B); auto.
  { unfold vx_room in Hroom. pose proof (vkey_len _ Hkey). pose proof vs_hdr_page. cbn [paylen]. lia. }
  rewrite A. do 2 eexists. split; [reflexivity|]. split; [eexists; eexists; exact B|].
  apply leaf_upd_insert; auto.
Qed.

Lemma vxL_update n a key v : vrep n a -> a_inner a = false -> leaf_ok (a_slots a) ->
  exists rc n' a', vx_update n key v = Some (rc, n') /\ vrep n' a' /\
    ((rc = kSuccess /\ assoc key (live (a_slots a)) <> None /\
      leaf_upd a a' [] (upsert key v (live (a_slots a)))) \/
     (rc = kKeyNotExist /\ assoc key (live (a_slots a)) = None /\
      leaf_upd a a' [] (live (a_slots a)))).
Proof.
  intros (L & dead & H) Hin Hok. unfold vx_update.
  destruct (v_leaf_search _ _ _ _ H key Hin Hok) as (rc & pos & Hs & Hspec). rewrite Hs.
  assert (Hvr : vrep n a) by (exists L, dead; exact H).
  destruct rc; cbn in Hspec; try contradiction.
  - destruct Hspec as (l1 & l2 & Hsl & -> & H1 & H2).
    do 3 eexists. split; [reflexivity|]. split; [exact Hvr|]. right.
    split; auto. split; [|apply leaf_upd_refl; auto].
    apply assoc_live_notin. rewrite Hsl. now apply not_inserted_notin.
  - destruct Hspec as (l1 & s & l2 & Hsl & -> & Hk & Hd).
    do 3 eexists. split; [reflexivity|]. split; [exact Hvr|]. right.
    split; auto. split; [|apply leaf_upd_refl; auto].
    rewrite Hsl. apply (assoc_live_deleted l1 s l2 key); auto. now rewrite <- Hsl.
  - destruct Hspec as (l1 & s & l2 & Hsl & -> & Hk & Hd).
    destruct (vx_overwrite_ok n a L dead l1 s l2 (PV v) H Hsl) as (n' & L' & A & B).
    { rewrite Hin. reflexivity. }
    rewrite A. do 3 eexists. split; [reflexivity|]. split; [eexists; eexists; exact B|].
    left. split; auto. rewrite Hd. split; [|eapply leaf_upd_replace; eauto].
    destruct (fx_search_pay l1 s l2) as [w Hw]; [rewrite <- Hsl; apply Hok|].
    rewrite Hsl in *. rewrite (assoc_live_found l1 s l2 key w); auto. discriminate.
Qed.

Lemma need_merge_ok n a L dead : vrep' n a L dead ->
  exists b n' a', vx_need_merge n = Some (b, n') /\ vrep n' a' /\
    (a' = a \/ a' = aslots a (filter s_live (a_slots a))).
Proof.
  intros H. unfold vx_need_merge.
  destruct (vx_used n <? minused); [do 3 eexists; split; [reflexivity|]; split; [eexists; eexists; exact H|auto]|].
  destruct (vn_deleted n <=? maxdel); [do 3 eexists; split; [reflexivity|]; split; [eexists; eexists; exact H|auto]|].
  destruct (vx_cleanup_ok _ _ _ _ H) as (n' & L' & E1 & R & B). rewrite E1.
  do 3 eexists. split; [reflexivity|]. split; [eexists; eexists; exact R|auto].
Qed.

Lemma vxL_delete n a key : vrep n a -> a_inner a = false -> leaf_ok (a_slots a) ->
  exists rc n' a', vx_delete n key = Some (rc, n') /\ vrep n' a' /\
    (((rc = kCompleted \/ rc = kNeedMerge) /\ assoc key (live (a_slots a)) <> None /\
      leaf_upd a a' [] (remove_key key (live (a_slots a)))) \/
     (rc = kKeyNotInserted /\ assoc key (live (a_slots a)) = None /\
      leaf_upd a a' [] (live (a_slots a)))).
Proof.
  intros (L & dead & H) Hin Hok. unfold vx_delete.
  destruct (v_leaf_search _ _ _ _ H key Hin Hok) as (rc & pos & Hs & Hspec). rewrite Hs.
  assert (Hvr : vrep n a) by (exists L, dead; exact H).
  destruct rc; cbn in Hspec; try contradiction.
  - destruct Hspec as (l1 & l2 & Hsl & -> & H1 & H2).
    do 3 eexists. split; [reflexivity|]. split; [exact Hvr|]. right.
    split; auto. split; [|apply leaf_upd_refl; auto].
    apply assoc_live_notin. rewrite Hsl. now apply not_inserted_notin.
  - destruct Hspec as (l1 & s & l2 & Hsl & -> & Hk & Hd).
    do 3 eexists. split; [reflexivity|]. split; [exact Hvr|]. right.
    split; auto. split; [|apply leaf_upd_refl; auto].
    rewrite Hsl. apply (assoc_live_deleted l1 s l2 key); auto. now rewrite <- Hsl.
  - destruct Hspec as (l1 & s & l2 & Hsl & -> & Hk & Hd).
    destruct (vx_tomb_ok n a L dead l1 s l2 H Hsl Hd) as (n1 & L1 & A & B). rewrite A.
    destruct (need_merge_ok _ _ _ _ B) as (b & n2 & a2 & E2 & R2 & Hc). rewrite E2.
    pose proof (tomb_upd a l1 s l2 key Hok Hsl Hk) as HU.
    do 3 eexists. split; [reflexivity|]. split; [exact R2|]. left.
    split; [destruct b; auto|]. split.
    + destruct (fx_search_pay l1 s l2) as [w Hw]; [rewrite <- Hsl; apply Hok|].
      rewrite Hsl in *. rewrite (assoc_live_found l1 s l2 key w); auto. discriminate.
    + destruct Hc as [->| ->]; [exact HU|]. destruct HU as (U1 & U2 & U3 & U4).
      eapply leaf_upd_trans; [exact (conj U1 (conj U2 (conj U3 U4)))| |apply incl_refl].
      rewrite <- U3. apply leaf_upd_filter. exact U2.
Qed.

Lemma vxL_insert_child n a r sep : vrep n a -> a_inner a = true -> inner_ok (a_slots a) ->
  vkey sep -> ~ In sep (keys_of (tl (a_slots a))) ->
  exists rc n' a', vx_insert_child n r sep = Some (rc, n') /\ vrep n' a' /\ same_frame a a' /\
    ((rc = kCompleted /\ exists l1 s l2, a_slots a = l1 ++ s :: l2 /\
        (l1 <> [] -> exists k, s_key s = Some k /\ klt k sep) /\
        (forall k, In k (keys_of l2) -> klt sep k) /\
        a_slots a' = l1 ++ s :: Slot (Some sep) (PP r) false :: l2) \/
     (rc = kNeedSplit /\ a' = a /\ vx_splittable n' /\ ~ vx_room n)).
Proof.
  intros (L & dead & H) Hin Hok Hkey Hni. unfold vx_insert_child.
  pose proof (vkey_len_p _ Hkey) as Hlen.
  destruct (cleanup_if_ok n a L dead _ H Hlen) as (n1 & a1 & L1 & dead1 & E1 & R1 & Hcase & Hsp). rewrite E1.
  assert (a1 = a) as ->.
  { destruct Hcase as [[_ ->]| ->]; auto. rewrite filter_all by (apply inner_ok_live; auto). apply aslots_same. }
  destruct (v_inner_search _ _ _ _ R1 sep Hin Hok) as (rc & pos & Hs & Hspec). rewrite Hs.
  destruct (inner_search_pos _ _ _ _ Hspec Hni) as (l1 & s & l2 & Hsl & -> & H1 & H2).
  destruct Hspec as [_ Hspec]. destruct rc; try contradiction.
  - destruct (vx_need_split n1 (klen sep + ptrlen)) eqn:E.
    + destruct (Hsp eq_refl) as (-> & _ & Hspl).
      do 3 eexists. split; [reflexivity|]. split; [exists L1, dead1; exact R1|]. split; [apply same_frame_refl|].
      right. split; auto. split; auto. split; auto. eapply need_split_not_room; eauto.
    + destruct (vx_insert_at_ok n1 a L1 dead1 (l1 ++ [s]) l2 sep (PP r) R1) as (n' & L' & A & B); auto.
      { rewrite Hsl, <- app_assoc. reflexivity. }
      { cbn [paylen]. apply need_split_false; auto. apply vs_hdr_page. }
      rewrite app_length in A. cbn [length] in A. rewrite A.
      do 3 eexists. split; [reflexivity|]. split; [eexists; eexists; exact B|]. split; [apply same_frame_aslots|].
      left. split; auto. exists l1, s, l2. split; auto. split; auto. split; auto.
      cbn [a_slots aslots]. now rewrite <- app_assoc.
  - exfalso. destruct Hspec as [Hp Hk]. apply Hni. unfold kat in Hk.
    rewrite Hsl in *. rewrite nth_error_mid in Hk. apply in_keys_of. exists s. split; auto.
    destruct l1; [cbn in Hp; congruence|]. cbn. apply in_or_app. right. now left.
Qed.

Lemma vxL_delete_child n a del : vrep n a -> a_inner a = true -> inner_ok (a_slots a) ->
  exists rc n' a', vx_delete_child n del = Some (rc, n') /\ vrep n' a' /\ same_frame a a' /\
    (((rc = kCompleted \/ rc = kNeedMerge) /\
      exists l1 s l2, a_slots a = l1 ++ s :: l2 /\ l1 <> [] /\ s_key s = Some del /\
        a_slots a' = l1 ++ l2) \/
     (rc = kAbortMerge /\ a' = a /\ forall k, In k (keys_of (tl (a_slots a))) -> klt del k) \/
     (rc = kNeedRetry /\ a' = a /\ ~ In del (keys_of (tl (a_slots a))) /\
      exists k, In k (keys_of (tl (a_slots a))) /\ kle k del)).
Proof.
  intros (L & dead & H) Hin Hok. unfold vx_delete_child.
  rewrite (v_rc _ _ _ _ H), <- (v_len _ _ _ _ H).
  assert (Hvr : vrep n a) by (exists L, dead; exact H).
  assert (Habort : exists b, (if length (a_slots a) <=? 1 then Some true
                    else let? k1 := vx_key n 1 in Some (ltb del k1)) = Some b /\
          if b : bool then forall k, In k (keys_of (tl (a_slots a))) -> klt del k
          else exists k, In k (keys_of (tl (a_slots a))) /\ kle k del).
  { destruct (a_slots a) as [|s0 [|s1 tl0]] eqn:Esl.
    - destruct Hok.
    - exists true. split; [reflexivity|]. cbn. tauto.
    - destruct (inner_ok_cons2 _ _ _ Hok) as (k1 & Hk1 & Hlt).
      replace (length (s0 :: s1 :: tl0) <=? 1) with false by (symmetry; apply Nat.leb_gt; cbn; lia).
      rewrite (v_key _ _ _ _ H 1 k1).
      2:{ unfold kat. rewrite Esl. cbn. auto. }
      exists (ltb del k1). split; auto.
      cbn [tl]. rewrite keys_of_cons, (key1_some _ _ Hk1).
      destruct (ltb del k1) eqn:E.
      + intros k [<-|Hk]; auto. eapply klt_trans; eauto.
      + exists k1. split; [now left | auto]. }
  destruct Habort as (b & Hb & Hbs). rewrite Hb. destruct b.
  { do 3 eexists. split; [reflexivity|]. split; [exact Hvr|]. split; [apply same_frame_refl|].
    right. left. auto. }
  destruct (v_inner_search _ _ _ _ H del Hin Hok) as (rc & pos & Hs & Hspec). rewrite Hs.
  destruct Hspec as [(l1 & s & l2 & Hsl & -> & _) Hspec]. destruct rc; try contradiction.
  - do 3 eexists. split; [reflexivity|]. split; [exact Hvr|]. split; [apply same_frame_refl|].
    right. right. auto.
  - destruct Hspec as [Hp Hk]. unfold kat in Hk. rewrite Hsl, nth_error_mid in Hk.
    assert (Hd : s_del s = false).
    { apply (inner_ok_live _ Hok). rewrite Hsl. apply in_or_app. right. now left. }
    destruct (vx_remove_ok n a L dead l1 s l2 H Hsl Hd Hin) as (n1 & L1 & A & B). rewrite A.
    destruct (need_merge_ok _ _ _ _ B) as (b & n2 & a2 & E2 & R2 & Hc). rewrite E2.
    assert (a2 = aslots a (l1 ++ l2)) as ->.
    { destruct Hc as [->| ->]; auto. cbn [a_slots aslots]. rewrite filter_all; [reflexivity|].
      intros x Hx. apply (inner_ok_live _ Hok). rewrite Hsl.
      apply in_app_or in Hx as [Hx|Hx]; apply in_or_app; [auto|right; now right]. }
    do 3 eexists. split; [reflexivity|]. split; [exact R2|]. split; [apply same_frame_aslots|].
    left. split; [destruct b; auto|]. exists l1, s, l2. repeat split; auto. intros ->. cbn in Hp. congruence.
Qed.

Lemma vslot_max n a L dead s : vrep' n a L dead -> In s (a_slots a) -> lsize s <= vmax.
Proof.
  intros H Hs. unfold lsize. destruct (s_del s); [unfold vmax; lia|].
  pose proof (v_kind _ _ _ _ H) as HK. rewrite Forall_forall in HK. specialize (HK s Hs).
  apply pay_kind_len in HK. unfold slen, vmax. rewrite HK.
  assert (klen_o (s_key s) <= maxkey).
  { destruct (s_key s) as [k|] eqn:E; cbn; [|lia]. apply (v_keys _ _ _ _ H k). apply in_keys_of. eauto. }
  pose proof (plof_max (a_inner a)). lia.
Qed.

Lemma vxL_split_gen ml n a ra : vrep n a -> body_ok (a_inner a) (a_slots a) -> vx_splittable n ->
  let link := negb (ml && a_inner a) in
  exists l' r' sep s1 s2, vx_split ml n ra (vx_new (a_inner a)) = Some (l', r') /\
    vrep l' (ANode (a_inner a) (a_removed a) (if link then Some ra else a_next a) (a_low a) (Some sep) s1) /\
    vrep r' (ANode (a_inner a) false (if link then a_next a else None) (Some sep) (a_high a) s2) /\
    split_spec a sep s1 s2 /\ vkey sep /\ vx_room l' /\ vx_room r' /\ halves_live s1 s2.
Proof.
  intros (L & dead & H) Hok Hsp link. destruct (v_used _ _ _ _ H) as (res & Q1 & Q2 & Q3).
  pose proof (v_fit _ _ _ _ H) as Hf.
  assert (Hu : vx_used n <= page - hdr).
  { unfold vx_used. rewrite (v_rc _ _ _ _ H). lia. }
  assert (Hhigh : klen_o (a_high a) <= maxkey).
  { destruct (a_high a) as [k|] eqn:E; cbn; [apply (v_highv _ _ _ _ H k E)|lia]. }
  pose proof vg_cap as G1. pose proof vg_split as G2. unfold vx_splittable, vmaxused in Hsp.
  set (half := vx_used n / 2).
  assert (Hh1 : 2 * half <= vx_used n) by (unfold half; apply Nat.mul_div_le; lia).
  assert (Hh2 : vx_used n < 2 * S half) by (unfold half; apply Nat.mul_succ_div_gt; lia).
  pose proof vs_meta_pos as Hmp. assert (Hvm : metalen <= vmax) by (unfold vmax; lia).
  destruct (vx_split_ok ml n a L dead ra vmax H) as (l' & r' & sep & s1 & s0 & tl & L1 & L2 & E & Hsl & Hne & Hk & Vk & R1 & R2 & S1 & S2 & B1 & B2); fold half.
  - intros s Hs. eapply vslot_max; eauto.
  - intros i s Hi. destruct (body_ok_key (a_inner a) (a_slots a) (S i) Hok) as (k & Hkk).
    { destruct (a_inner a); cbn; lia. }
    { eapply nth_error_lt; eauto. }
    unfold kat in Hkk. rewrite Hi in Hkk. eauto.
  - lia.
  - lia.
  - lia.
  - lia.
  - fold half in S1, S2.
    exists l', r', sep, (filter s_live s1), (filter s_live (s0 :: tl)).
    split; [exact E|]. split; [eexists; eexists; exact R1|]. split; [eexists; eexists; exact R2|].
    assert (Hcut : split_spec a sep s1 (s0 :: tl)).
    { assert (Ef : firstn (length s1) (a_slots a) = s1)
        by (rewrite Hsl, firstn_app, firstn_all, Nat.sub_diag; cbn; apply app_nil_r).
      assert (Es : skipn (length s1) (a_slots a) = s0 :: tl)
        by (rewrite Hsl, skipn_app, skipn_all, Nat.sub_diag; reflexivity).
      rewrite <- Ef, <- Es at 1. apply (split_spec_cut a (length s1) s0 tl sep); auto.
      - destruct s1; [congruence|cbn; lia].
      - rewrite Hsl, app_length. cbn. lia. }
    split; [|split; [exact Vk|split; [|split]]].
    + destruct Hcut as [C1 C2]. split; auto. destruct (a_inner a) eqn:Ein.
      * cbn in Hok. pose proof (inner_ok_live _ Hok) as Hl.
        rewrite !filter_all by (intros x Hx; apply Hl; rewrite Hsl; apply in_or_app; auto). exact C2.
      * destruct C2 as (D1 & D2 & D3 & D4 & D5 & D6 & D7 & D8). rewrite !live_filter.
        repeat split; auto; try (apply leaf_ok_filter; auto).
        -- intros x Hx. apply D4. now apply keys_filter.
        -- intros x Hx. apply D5. now apply keys_filter.
        -- intros x Hx. apply D6. now apply keys_filter.
        -- intros x Hx. apply D7. now apply keys_filter.
    + unfold vx_room. rewrite (v_rc _ _ _ _ R1), <- (v_len _ _ _ _ R1), B1. cbn [a_slots].
      pose proof (sum_live s1). destruct Vk as [_ Vk]. rewrite Nat.mul_add_distr_l.
      unfold vmax in G1, G2, S1, S2, Hsp |- *. lia.
    + unfold vx_room. rewrite (v_rc _ _ _ _ R2), <- (v_len _ _ _ _ R2), B2. cbn [a_slots].
      pose proof (sum_live (s0 :: tl)). destruct Vk as [_ Vk]. rewrite Nat.mul_add_distr_l.
      rewrite Hsl, sum_app in Q3. unfold vmax in G1, G2, S1, S2, Hsp |- *. lia.
    + rewrite Hsl, sum_app in Q3.
      assert (Hne' : forall l, 0 < sum lsize l -> filter s_live l <> []).
      { intros l Hl E'. pose proof (sum_live l) as X. rewrite E' in X. unfold sum at 1 in X. cbn in X. lia. }
      split; [apply Hne'; lia|]. split; [apply Hne'; lia|].
      intros s Hs. rewrite <- filter_app in Hs. apply filter_In in Hs as [_ Hs]. unfold s_live in Hs.
      destruct (s_del s); [discriminate|reflexivity].
Qed.

Lemma vxL_merge_gen ml l al r ar : vrep l al -> vrep r ar -> a_inner al = a_inner ar ->
  body_ok (a_inner al) (a_slots al) -> body_ok (a_inner ar) (a_slots ar) ->
  (exists h, a_high al = Some h /\
    (forall k, In k (keys_of (a_slots al)) -> a_inner al = false -> klt k h) /\
    (forall k, In k (keys_of (a_slots ar)) -> a_inner al = false -> kle h k)) ->
  vx_can_merge l r = true ->
  let link := negb (ml && a_inner al) in
  exists l' s, vx_merge_into ml l r = Some l' /\
    vrep l' (ANode (a_inner al) (a_removed al) (if link then a_next ar else a_next al)
               (a_low al) (a_high ar) s) /\
    merge_spec al ar s /\ vx_used l' < vmaxused /\ vn_deleted l' = 0.
Proof.
  intros (L & dead & H) (Lr & deadr & Hr) Hin Hokl Hokr (h & Hh & Hk1 & Hk2) Hcm link.
  unfold vx_can_merge, vmaxused in Hcm. apply Nat.ltb_lt in Hcm.
  destruct (vx_merge_into_ok ml l al L dead r ar Lr deadr H Hr Hin) as (l' & L' & A & B & C & D); [lia|].
  do 2 eexists. split; [exact A|]. split; [eexists; eexists; exact B|]. split; [|split; [unfold vmaxused; lia|exact D]].
  unfold merge_spec. destruct (a_inner al) eqn:E.
  - rewrite <- Hin in Hokr. cbn in Hokl, Hokr. rewrite !filter_all by (apply inner_ok_live; auto). reflexivity.
  - rewrite <- Hin in Hokr. cbn in Hokl, Hokr.
    split; [|split].
    + apply leaf_ok_app. split; [now apply leaf_ok_filter|]. split; [now apply leaf_ok_filter|].
      intros x y Hx Hy. apply keys_filter in Hx, Hy. eapply klt_le_trans; eauto.
    + rewrite live_app, !live_filter. reflexivity.
    + rewrite keys_of_app. intros x Hx. apply in_app_or in Hx as [Hx|Hx]; apply keys_filter in Hx; apply in_or_app; auto.
Qed.

Lemma vxL_endpos n a e : vrep n a -> a_inner a = false -> leaf_ok (a_slots a) ->
  exists is_end pos, vx_endpos n e = Some (is_end, pos) /\ endpos_spec a e is_end pos.
Proof.
  intros (L & dead & H) Hin Hok. unfold vx_endpos, vx_rightmost.
  rewrite (v_next _ _ _ _ H), (v_rc _ _ _ _ H), <- (v_len _ _ _ _ H).
  set (ie := match a_next a with
            | None => true
            | Some _ => match e with
                        | None => false
                        | Some (k, _) => match a_high a with None => true | Some h => ltb k h end
                        end
            end).
  assert (E : match a_next a with
         | Some _ => match e with Some (k, _) => vx_comphigh n k | None => Some false end
         | None => Some true end = Some ie).
  { unfold ie. destruct (a_next a); auto. destruct e as [[k c]|]; auto.
    rewrite (v_comphigh _ _ _ _ H). destruct (a_high a); auto. }
  rewrite E. destruct ie eqn:Eie.
  - destruct e as [[k c]|].
    + destruct (v_leaf_search _ _ _ _ H k Hin Hok) as (rc & pos & Hs & Hspec). rewrite Hs.
      do 2 eexists. split; [reflexivity|]. split; [symmetry; exact Eie|].
      destruct rc; cbn in Hspec; try contradiction; cbn [node_rc_eqb andb].
      * destruct Hspec as (l1 & l2 & Hsl & -> & H1 & H2).
        exists l1, l2. repeat split; auto; intros x v Hx; apply live_key_in in Hx; destruct c; auto;
          apply klt_kle; auto.
      * destruct Hspec as (l1 & s & l2 & Hsl & -> & Hk & Hd). rewrite Hsl in Hok.
        destruct (leaf_ok_mid_keys _ _ _ _ Hok Hk) as (H1 & H2).
        exists l1, (s :: l2). repeat split; auto.
        -- intros x v Hx. apply live_key_in in Hx. destruct c; auto. apply klt_kle; auto.
        -- intros x v Hx. rewrite live_cons in Hx.
           assert (Er : rec1 s = []) by (unfold rec1; rewrite Hd, Hk; destruct (s_pay s); reflexivity).
           rewrite Er in Hx. cbn in Hx.
           apply live_key_in in Hx. destruct c; auto. apply klt_kle; auto.
      * destruct Hspec as (l1 & s & l2 & Hsl & -> & Hk & Hd). rewrite Hsl in Hok.
        destruct (leaf_ok_mid_keys _ _ _ _ Hok Hk) as (H1 & H2).
        destruct c; cbn [andb].
        -- exists (l1 ++ [s]), l2. rewrite app_length, <- app_assoc. cbn. repeat split; auto.
           ++ intros x v Hx. apply live_key_in in Hx. rewrite keys_of_app in Hx.
              apply in_app_or in Hx as [Hx|Hx]; [apply klt_kle; auto|].
              rewrite keys_of_cons, (key1_some _ _ Hk) in Hx. cbn in Hx. destruct Hx as [<-|[]].
              apply kle_refl.
           ++ intros x v Hx. apply live_key_in in Hx. auto.
        -- exists l1, (s :: l2). repeat split; auto.
           ++ intros x v Hx. apply live_key_in in Hx. auto.
           ++ intros x v Hx. apply live_key_in in Hx. rewrite keys_of_cons, (key1_some _ _ Hk) in Hx.
              destruct Hx as [<-|Hx]; [apply kle_refl | apply klt_kle; auto].
    + do 2 eexists. split; [reflexivity|]. split; [symmetry; exact Eie|]. reflexivity.
  - do 2 eexists. split; [reflexivity|]. split; [symmetry; exact Eie|]. destruct e; reflexivity.
Qed.

#[local] Instance var_sl_laws (osl : bool) : SLLaws P (var_sl_ops osl).
Proof.
  refine {| rep := (vrep : @nd P (var_sl_ops osl) -> _); kvalid := vkey;
            room := (vx_room : @nd P (var_sl_ops osl) -> _);
            splittable := (vx_splittable : @nd P (var_sl_ops osl) -> _) |}; cbn [nd var_sl_ops nd_inner nd_removed nd_next nd_rc nd_usage nd_new nd_root0 nd_root2 nd_search nd_child nd_comphigh nd_highkey nd_sepkey nd_endpos nd_recdel nd_key nd_record nd_read nd_write nd_insert nd_write2 nd_insert2 nd_update nd_delete nd_insert_child nd_delete_child nd_split nd_merge nd_can_merge nd_remove_root].
  - intros n a (L & d & H). repeat split; try apply H. rewrite (v_len _ _ _ _ H). apply H.
  - intros n a (L & d & H). unfold vx_usage. rewrite (v_rc _ _ _ _ H).
    pose proof (v_fit _ _ _ _ H). lia.
  - intros n a k (L & d & H). apply (v_highv _ _ _ _ H).
  - intros n a i s k (L & d & H) _ Hi Hk. apply (v_keys _ _ _ _ H). apply in_keys_of. exists s. split; auto.
    eapply nth_error_In; eauto.
  - exists [], 0. apply vrep_new, vs_hdr_page.
  - intros k l r Vk. destruct (vx_root2_ok k l r Vk) as (n & L & A & B).
    + pose proof vg_cap. unfold vmax in *. lia.
    + exists n, None. split; auto. exists L, 0. exact B.
  - intros n a key (L & d & H) H1 H2 _. apply (v_leaf_search _ _ _ _ H); auto.
  - intros n a key (L & d & H) H1 H2 _. apply (v_inner_search _ _ _ _ H); auto.
  - intros n a i s c (L & d & H) _. apply (v_child _ _ _ _ H).
  - intros n a key (L & d & H). apply (v_comphigh _ _ _ _ H).
  - intros n a h (L & d & H). apply (v_highkey _ _ _ _ H).
  - intros n a h (L & d & H). apply (v_highkey _ _ _ _ H).
  - intros n a k (L & d & H). apply (v_lowkey _ _ _ _ H).
  - intros n a e H H1 H2 _. apply vxL_endpos; auto.
  - intros n a i s (L & d & H) Hin Hok Hi. split; [|split].
    + apply (v_recdel _ _ _ _ H); auto.
    + destruct Hok as [Hok _]. rewrite Forall_forall in Hok.
      destruct (Hok s (nth_error_In _ _ Hi)) as (k & v & Hk & _). rewrite Hk.
      apply (v_key _ _ _ _ H). unfold kat. now rewrite Hi.
    + intros k v Hk Hv _. eapply (v_record _ _ _ _ H); eauto.
  - intros n a key (L & d & H) H1 H2 _. apply (v_read _ _ _ _ H); auto.
  - intros n a key v H H1 H2 H3. destruct (vxL_write n a key v H H1 H2 H3) as (rc & n' & a' & A & B & C).
    exists rc, n', a'. split; auto. split; auto. intuition (subst; auto).
  - intros n a key v H H1 H2 H3. destruct (vxL_insert n a key v H H1 H2 H3) as (rc & n' & a' & A & B & C).
    exists rc, n', a'. split; auto. split; auto. intuition (subst; auto).
  - intros n a key v H H1 H2 H3 Hroom Hni. destruct osl; [apply vxL_search_insert; auto|].
    destruct (vxL_write n a key v H H1 H2 H3) as (rc & n' & a' & A & B & [C|C]).
    + destruct C as (-> & C). eauto.
    + exfalso. tauto.
  - intros n a key v H H1 H2 H3 Hroom Hni. destruct osl; [apply vxL_search_insert; auto|].
    destruct (vxL_insert n a key v H H1 H2 H3) as (rc & n' & a' & A & B & [C|[C|C]]).
    + exfalso. destruct C as (_ & _ & C). apply C. apply assoc_live_notin; auto.
    + destruct C as (-> & _ & C). eauto.
    + exfalso. tauto.
  - intros n a key v H H1 H2 _. apply vxL_update; auto.
  - intros n a key H H1 H2 _. apply vxL_delete; auto.
  - intros n a r sep H H1 H2 H3 H4. apply vxL_insert_child; auto.
  - intros n a del H H1 H2 _. apply vxL_delete_child; auto.
  - intros n a ra H H1 H2. destruct (vxL_split_gen false n a ra H H1 H2) as (l' & r' & sep & s1 & s2 & A & B & C & D & E & E' & E'' & E3).
    exists l', r', sep, s1, s2. auto 10.
  - intros la l al r ar H1 H2 H3 H4 H5 (h & H6 & _ & H6' & H6'') H7.
    destruct (vxL_merge_gen false l al r ar H1 H2 H3 H4 H5) as (l' & s & A & B & C & D & E); eauto 8.
    unfold vx_merge_sl. rewrite A. do 3 eexists. split; [reflexivity|]. split; [exact B|]. split; [exact C|]. auto.
  - intros n a _. cbn. auto.
  - intros n. reflexivity.
  - intros la l r l' r'. unfold vx_merge_sl. destruct (vx_merge_into false l r); [|discriminate].
    now intros [= _ <-].
Defined.

End VarSLProofs.
