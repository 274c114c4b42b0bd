(** The variable-length node satisfies the multi-layer interface. *)
From Coq Require Import List Arith ZArith Bool Sorted Lia.
From Verif Require Import Params Mem Common NodeAbs FixProofs VarModel VarProofs VarSmo SLIface
  BaseIface FixSL VarSL MLIface.
Import ListNotations.

Section VarML.
Context {P : Params}.

(** NeedSplit: pml/node_varlen.hpp:135-150 (there new_rec_len already contains kMetaLen,
    pml/b_tree.hpp:377-379), oml/node_varlen.hpp:1326-1349. *)
Definition vx_ask_split (n : vnode) (len : nat) : option (bool * option vnode) :=
  let total := metalen * (vn_rc n + 1) + vn_block n + len in
  if total <=? page - hdr then Some (false, None)
  else if vmaxused <? total - vn_deleted n then Some (true, None)
  else let? n' := vx_cleanup n in Some (false, Some n').

(** NeedMerge: pml/node_varlen.hpp:155-170, oml/node_varlen.hpp:1357-1379. *)
Definition vx_ask_merge (n : vnode) : option (bool * option vnode) :=
  if vx_used n <? minused then Some (true, None)
  else if vn_deleted n <=? maxdel then Some (false, None)
  else let? n' := vx_cleanup n in Some (false, Some n').

(** Write on a leaf that is known to have room: pml/node_varlen.hpp:526-547,
    oml/node_varlen.hpp:735-757. *)
Definition vx_put (n : vnode) (key : K) (v : V) : option vnode :=
  let? (ex, pos) := vx_search n key in
  match ex with
  | kKeyNotInserted => vx_insert_at n key (PV v) pos
  | kKeyAlreadyDeleted => vx_reuse n pos (PV v)
  | _ => vx_overwrite n pos (PV v)
  end.

(** Insert: pml/node_varlen.hpp:563-586, oml/node_varlen.hpp:776-815 after its range and
    space checks (there the codes are kCompleted and kKeyAlreadyInserted). *)
Definition vx_add (n : vnode) (key : K) (v : V) : option (return_code * vnode) :=
  let? (ex, pos) := vx_search n key in
  match ex with
  | kKeyNotInserted => let? n' := vx_insert_at n key (PV v) pos in Some (kSuccess, n')
  | kKeyAlreadyDeleted => let? n' := vx_reuse n pos (PV v) in Some (kSuccess, n')
  | _ => Some (kKeyExist, n)
  end.

(** Delete: pml/node_varlen.hpp:633-650, oml/node_varlen.hpp:872-895. *)
Definition vx_del (n : vnode) (key : K) : option (return_code * vnode) :=
  let? (ex, pos) := vx_search n key in
  match ex with
  | kKeyAlreadyInserted => let? n' := vx_tomb n pos in Some (kSuccess, n')
  | _ => Some (kKeyNotExist, n)
  end.

(** InsertChild: pml/node_varlen.hpp:660-684, oml/node_varlen.hpp:907-930. *)
Definition vx_insert_child_at (n : vnode) (r : addr) (sep : K) (pos : nat) : option vnode :=
  vx_insert_at n sep (PP r) (pos + 1).

(** DeleteChild: pml/node_varlen.hpp:688-700, oml/node_varlen.hpp:937-954. *)
Definition vx_delete_child_at (n : vnode) (pos : nat) : option vnode := vx_remove n (pos + 1).

(** The right node of an OML merge, oml/node_varlen.hpp:1060-1065. *)
Definition vx_mark_removed (la : addr) (r : vnode) : vnode :=
  VNode (vn_inner r) true (vn_block r) (vn_deleted r) (vn_rc r)
        (if vn_inner r then vn_next r else Some la)
        (vn_loff r) (vn_llen r) (vn_hoff r) (vn_hlen r) (vn_mem r).

(** Node functions of pml/node_varlen.hpp and oml/node_varlen.hpp. *)
Definition var_ml_ops : MLOps P := {|
  mn := vnode;
  mn_inner := vn_inner;
  mn_removed := vn_removed;
  mn_next := vn_next;
  mn_rc := vn_rc;
  mn_usage := vx_usage;
  mn_new := vx_new;
  mn_root0 := vx_new false;
  mn_root2 := vx_root2;
  mn_search := vx_search;
  mn_child := vx_child;
  mn_comphigh := vx_comphigh;
  mn_highkey := vx_highkey;
  mn_endpos := vx_endpos;
  mn_recdel := vx_recdel;
  mn_key := vx_key;
  mn_record := vx_record;
  mn_read := vx_read;
  mn_reclen := fun key => klen key + plen;
  mn_maxlen := maxkey + Nat.max plen ptrlen;
  mn_need_split := vx_ask_split;
  mn_need_merge := vx_ask_merge;
  mn_can_merge := vx_can_merge;
  mn_write := vx_put;
  mn_insert := vx_add;
  mn_update := vx_update;
  mn_delete := vx_del;
  mn_insert_child := vx_insert_child_at;
  mn_delete_child := vx_delete_child_at;
  mn_split := vx_split true;
  mn_merge := vx_merge_into true;
  mn_mark_removed := vx_mark_removed;
  mn_remove_root := vx_remove_root;
|}.

End VarML.

(** In addition to [VarGood]: a merged node, which keeps kMinFreeSpaceSize bytes free, can
    take a record of maximal size. *)
Class VarMLGood (P : Params) := { vm_free : vmax <= minfree }.

Section VarMLProofs.
Context {P : Params} {O : OrdLaws P} {F : VarSizes P} {G : VarGood P} {GM : VarMLGood P}.

Lemma refreshed_refl a : body_ok (a_inner a) (a_slots a) -> refreshed a a.
Proof.
  intros H. unfold refreshed. destruct (a_inner a); auto. apply leaf_upd_refl. exact H.
Qed.

Lemma refreshed_filter a : body_ok (a_inner a) (a_slots a) ->
  refreshed a (aslots a (filter s_live (a_slots a))).
Proof.
  intros H. unfold refreshed. destruct (a_inner a).
  - rewrite filter_all by (apply inner_ok_live; exact H). apply aslots_same.
  - apply leaf_upd_filter. exact H.
Qed.

Lemma vm_cleanup_size n a L dead n' L' : vrep' n a L dead ->
  vrep' n' (aslots a (filter s_live (a_slots a))) L' 0 -> vx_cleanup n = Some n' ->
  metalen * vn_rc n' + vn_block n' <= vx_used n.
Proof.
  intros H R E.
  destruct (vx_cleanup_ok _ _ _ _ H) as (n2 & L2 & E1 & R2 & B). rewrite E1 in E. inv E.
  rewrite (v_rc _ _ _ _ R), <- (v_len _ _ _ _ R), B. cbn [a_slots aslots].
  pose proof (sum_live (a_slots a)) as Hlv. destruct (v_used _ _ _ _ H) as (res & Q1 & Q2 & Q3). lia.
Qed.

Lemma vm_ask_split n a : vrep n a -> body_ok (a_inner a) (a_slots a) ->
  exists b o a', vx_ask_split n (maxkey + Nat.max plen ptrlen) = Some (b, o) /\
    let n' := match o with Some x => x | None => n end in
    vrep n' a' /\ refreshed a a' /\
    (b = true -> vx_splittable n') /\ (b = false -> vx_room n').
Proof.
  intros (L & dead & H) Hok. unfold vx_ask_split.
  destruct (Nat.leb_spec (metalen * (vn_rc n + 1) + vn_block n + (maxkey + Nat.max plen ptrlen)) (page - hdr)) as [E|E].
  - exists false, None, a. split; auto. split; [exists L, dead; exact H|]. split; [now apply refreshed_refl|].
    split; [discriminate|]. intros _. unfold vx_room. lia.
  - destruct (Nat.ltb_spec vmaxused (metalen * (vn_rc n + 1) + vn_block n + (maxkey + Nat.max plen ptrlen) - vn_deleted n)) as [E2|E2].
    + exists true, None, a. split; auto. split; [exists L, dead; exact H|]. split; [now apply refreshed_refl|].
      split; [|discriminate]. intros _. unfold vx_splittable, vx_used, vmax. lia.
    + destruct (vx_cleanup_ok _ _ _ _ H) as (n' & L' & E1 & R & B). rewrite E1.
      exists false, (Some n'), (aslots a (filter s_live (a_slots a))). split; auto.
      split; [exists L', 0; exact R|]. split; [now apply refreshed_filter|].
      split; [discriminate|]. intros _. pose proof (vm_cleanup_size _ _ _ _ _ _ H R E1) as Hs.
      pose proof (v_deleted_le _ _ _ _ H).
      unfold vx_room, vx_used, vmaxused in *. lia.
Qed.

Lemma vm_ask_merge n a : vrep n a -> body_ok (a_inner a) (a_slots a) ->
  exists b o a', vx_ask_merge n = Some (b, o) /\
    let n' := match o with Some x => x | None => n end in
    vrep n' a' /\ refreshed a a' /\ (vx_room n -> vx_room n').
Proof.
  intros (L & dead & H) Hok. unfold vx_ask_merge.
  destruct (vx_used n <? minused); [exists true, None, a; split; auto; split; [exists L, dead; exact H|]; split; [now apply refreshed_refl|auto]|].
  destruct (vn_deleted n <=? maxdel); [exists false, None, a; split; auto; split; [exists L, dead; exact H|]; split; [now apply refreshed_refl|auto]|].
  destruct (vx_cleanup_ok _ _ _ _ H) as (n' & L' & E1 & R & B). rewrite E1.
  exists false, (Some n'), (aslots a (filter s_live (a_slots a))). split; auto.
  split; [exists L', 0; exact R|]. split; [now apply refreshed_filter|].
  intros Hr. pose proof (vm_cleanup_size _ _ _ _ _ _ H R E1) as Hs. unfold vx_room, vx_used in *. lia.
Qed.

Lemma vm_insert_room n key : vx_room n -> vkey key ->
  hdr + metalen * (vn_rc n + 1) + vn_block n + klen key + Nat.max plen ptrlen <= page.
Proof. intros Hr [_ Hk]. unfold vx_room in Hr. pose proof vs_hdr_page. lia. Qed.

Lemma vm_put n a key v : vrep n a -> a_inner a = false -> leaf_ok (a_slots a) -> vkey key -> vx_room n ->
  exists n' a', vx_put n key v = Some n' /\ vrep n' a' /\
    leaf_upd a a' [key] (upsert key v (live (a_slots a))).
Proof.
  intros (L & dead & H) Hin Hok Hkey Hroom. unfold vx_put.
  destruct (v_leaf_search _ _ _ _ H key Hin Hok) as (rc & pos & Hs & Hspec). rewrite Hs.
  assert (Hpk : pay_kind (a_inner a) (PV v)) by (rewrite Hin; reflexivity).
  destruct rc; cbn in Hspec; try contradiction.
  - destruct Hspec as (l1 & l2 & Hsl & -> & H1 & H2).
    destruct (vx_insert_at_ok n a L dead l1 l2 key (PV v) H Hsl Hpk Hkey) as (n' & L' & A & B).
    { cbn [paylen]. pose proof (vm_insert_room _ _ Hroom Hkey). lia. }
    rewrite A. do 2 eexists. split; [reflexivity|]. split; [eexists; eexists; exact B|].
    apply leaf_upd_insert; auto.
  - destruct Hspec as (l1 & s & l2 & Hsl & -> & Hk & Hd).
    destruct (vx_reuse_ok n a L dead l1 s l2 (PV v) H Hsl Hd Hpk) as (n' & L' & A & B).
    rewrite A. do 2 eexists. split; [reflexivity|]. split; [eexists; eexists; exact B|].
    eapply leaf_upd_replace; eauto.
  - destruct Hspec as (l1 & s & l2 & Hsl & -> & Hk & Hd).
    destruct (vx_overwrite_ok n a L dead l1 s l2 (PV v) H Hsl Hpk) as (n' & L' & A & B).
    rewrite A. do 2 eexists. split; [reflexivity|]. split; [eexists; eexists; exact B|].
    rewrite Hd. eapply leaf_upd_replace; eauto.
Qed.

Lemma vm_add n a key v : vrep n a -> a_inner a = false -> leaf_ok (a_slots a) -> vkey key -> vx_room n ->
  exists rc n' a', vx_add n key v = Some (rc, n') /\ vrep n' a' /\
    ((rc = kKeyExist /\ n' = n /\ a' = a /\ assoc key (live (a_slots a)) <> None) \/
     (rc = kSuccess /\ assoc key (live (a_slots a)) = None /\
      leaf_upd a a' [key] (upsert key v (live (a_slots a))))).
Proof.
  intros (L & dead & H) Hin Hok Hkey Hroom. unfold vx_add.
  destruct (v_leaf_search _ _ _ _ H key Hin Hok) as (rc & pos & Hs & Hspec). rewrite Hs.
  assert (Hpk : pay_kind (a_inner a) (PV v)) by (rewrite Hin; reflexivity).
  destruct rc; cbn in Hspec; try contradiction.
  - destruct Hspec as (l1 & l2 & Hsl & -> & H1 & H2).
    destruct (vx_insert_at_ok n a L dead l1 l2 key (PV v) H Hsl Hpk Hkey) as (n' & L' & A & B).
    { cbn [paylen]. pose proof (vm_insert_room _ _ Hroom Hkey). lia. }
    rewrite A. do 3 eexists. split; [reflexivity|]. split; [eexists; eexists; exact B|].
    right. split; auto. split; [|apply leaf_upd_insert; auto].
    apply assoc_live_notin. rewrite Hsl. now apply not_inserted_notin.
  - destruct Hspec as (l1 & s & l2 & Hsl & -> & Hk & Hd).
    destruct (vx_reuse_ok n a L dead l1 s l2 (PV v) H Hsl Hd Hpk) as (n' & L' & A & B).
    rewrite A. do 3 eexists. split; [reflexivity|]. split; [eexists; eexists; exact B|].
    right. split; auto. split; [|eapply leaf_upd_replace; eauto].
    rewrite Hsl. apply (assoc_live_deleted l1 s l2 key); auto. now rewrite <- Hsl.
  - destruct Hspec as (l1 & s & l2 & Hsl & -> & Hk & Hd).
    do 3 eexists. split; [reflexivity|]. split; [exists L, dead; exact H|]. left.
    split; auto. split; auto. split; auto.
    destruct (fx_search_pay l1 s l2) as [w Hw]; [rewrite <- Hsl; apply Hok|].
    rewrite Hsl in *. rewrite (assoc_live_found l1 s l2 key w); auto. discriminate.
Qed.

Lemma vm_update n a key v : vrep n a -> a_inner a = false -> leaf_ok (a_slots a) ->
  exists rc n' a', vx_update n key v = Some (rc, n') /\ vrep n' a' /\
    ((rc = kSuccess /\ assoc key (live (a_slots a)) <> None /\
      leaf_upd a a' [] (upsert key v (live (a_slots a)))) \/
     (rc = kKeyNotExist /\ n' = n /\ a' = a /\ assoc key (live (a_slots a)) = None)).
Proof.
  intros (L & dead & H) Hin Hok. unfold vx_update.
  destruct (v_leaf_search _ _ _ _ H key Hin Hok) as (rc & pos & Hs & Hspec). rewrite Hs.
  assert (Hvr : vrep n a) by (exists L, dead; exact H).
  destruct rc; cbn in Hspec; try contradiction.
  - destruct Hspec as (l1 & l2 & Hsl & -> & H1 & H2).
    do 3 eexists. split; [reflexivity|]. split; [exact Hvr|]. right. split; auto. split; auto. split; auto.
    apply assoc_live_notin. rewrite Hsl. now apply not_inserted_notin.
  - destruct Hspec as (l1 & s & l2 & Hsl & -> & Hk & Hd).
    do 3 eexists. split; [reflexivity|]. split; [exact Hvr|]. right. split; auto. split; auto. split; auto.
    rewrite Hsl. apply (assoc_live_deleted l1 s l2 key); auto. now rewrite <- Hsl.
  - destruct Hspec as (l1 & s & l2 & Hsl & -> & Hk & Hd).
    destruct (vx_overwrite_ok n a L dead l1 s l2 (PV v) H Hsl) as (n' & L' & A & B).
    { rewrite Hin. reflexivity. }
    rewrite A. do 3 eexists. split; [reflexivity|]. split; [eexists; eexists; exact B|].
    left. split; auto. rewrite Hd. split; [|eapply leaf_upd_replace; eauto].
    destruct (fx_search_pay l1 s l2) as [w Hw]; [rewrite <- Hsl; apply Hok|].
    rewrite Hsl in *. rewrite (assoc_live_found l1 s l2 key w); auto. discriminate.
Qed.

Lemma vm_delete n a key : vrep n a -> a_inner a = false -> leaf_ok (a_slots a) ->
  exists rc n' a', vx_del n key = Some (rc, n') /\ vrep n' a' /\
    ((rc = kSuccess /\ assoc key (live (a_slots a)) <> None /\
      leaf_upd a a' [] (remove_key key (live (a_slots a)))) \/
     (rc = kKeyNotExist /\ n' = n /\ a' = a /\ assoc key (live (a_slots a)) = None)).
Proof.
  intros (L & dead & H) Hin Hok. unfold vx_del.
  destruct (v_leaf_search _ _ _ _ H key Hin Hok) as (rc & pos & Hs & Hspec). rewrite Hs.
  assert (Hvr : vrep n a) by (exists L, dead; exact H).
  destruct rc; cbn in Hspec; try contradiction.
  - destruct Hspec as (l1 & l2 & Hsl & -> & H1 & H2).
    do 3 eexists. split; [reflexivity|]. split; [exact Hvr|]. right. split; auto. split; auto. split; auto.
    apply assoc_live_notin. rewrite Hsl. now apply not_inserted_notin.
  - destruct Hspec as (l1 & s & l2 & Hsl & -> & Hk & Hd).
    do 3 eexists. split; [reflexivity|]. split; [exact Hvr|]. right. split; auto. split; auto. split; auto.
    rewrite Hsl. apply (assoc_live_deleted l1 s l2 key); auto. now rewrite <- Hsl.
  - destruct Hspec as (l1 & s & l2 & Hsl & -> & Hk & Hd).
    destruct (vx_tomb_ok n a L dead l1 s l2 H Hsl Hd) as (n1 & L1 & A & B). rewrite A.
    do 3 eexists. split; [reflexivity|]. split; [eexists; eexists; exact B|]. left.
    split; auto. split; [|apply tomb_upd; auto].
    destruct (fx_search_pay l1 s l2) as [w Hw]; [rewrite <- Hsl; apply Hok|].
    rewrite Hsl in *. rewrite (assoc_live_found l1 s l2 key w); auto. discriminate.
Qed.

#[local] Instance var_ml_laws : MLLaws P var_ml_ops.
Proof.
  refine {| mrep := (vrep : @mn P var_ml_ops -> _); mvalid := vkey;
            mroom := (vx_room : @mn P var_ml_ops -> _);
            msplit_ok := (vx_splittable : @mn P var_ml_ops -> _) |};
    cbn [mn var_ml_ops mn_inner mn_removed mn_next mn_rc mn_usage mn_new mn_root0 mn_root2 mn_search
         mn_child mn_comphigh mn_highkey mn_endpos mn_recdel mn_key mn_record mn_read mn_reclen
         mn_maxlen mn_need_split mn_need_merge mn_can_merge mn_write mn_insert mn_update mn_delete
         mn_insert_child mn_delete_child mn_split mn_merge mn_mark_removed mn_remove_root after].
  - intros n a (L & d & H). repeat split; try apply H. rewrite (v_len _ _ _ _ H). apply H.
  - intros n a (L & d & H). unfold vx_usage. rewrite (v_rc _ _ _ _ H).
    pose proof (v_fit _ _ _ _ H). lia.
  - intros n a k (L & d & H). apply (v_highv _ _ _ _ H).
  - intros n a i s k (L & d & H) _ Hi Hk. apply (v_keys _ _ _ _ H). apply in_keys_of. exists s. split; auto.
    eapply nth_error_In; eauto.
  - exists [], 0. apply vrep_new, vs_hdr_page.
  - intros k l r Vk. destruct (vx_root2_ok k l r Vk) as (n & L & A & B).
    + pose proof vg_cap. unfold vmax in *. lia.
    + exists n, None. split; auto. exists L, 0. exact B.
  - intros n a key (L & d & H) H1 H2 _. apply (v_leaf_search _ _ _ _ H); auto.
  - intros n a key (L & d & H) H1 H2 _. apply (v_inner_search _ _ _ _ H); auto.
  - intros n a i s c (L & d & H) _. apply (v_child _ _ _ _ H).
  - intros n a key (L & d & H). apply (v_comphigh _ _ _ _ H).
  - intros n a h (L & d & H). apply (v_highkey _ _ _ _ H).
  - intros n a e H H1 H2 _. apply vxL_endpos; auto.
  - intros n a i s (L & d & H) Hin Hok Hi. split; [|split].
    + apply (v_recdel _ _ _ _ H); auto.
    + destruct Hok as [Hok _]. rewrite Forall_forall in Hok.
      destruct (Hok s (nth_error_In _ _ Hi)) as (k & v & Hk & _). rewrite Hk.
      apply (v_key _ _ _ _ H). unfold kat. now rewrite Hi.
    + intros k v Hk Hv _. eapply (v_record _ _ _ _ H); eauto.
  - intros n a key (L & d & H) H1 H2 _. apply (v_read _ _ _ _ H); auto.
  - intros n a H Hok. destruct (vm_ask_split n a H Hok) as (b & o & a' & A & B). exists b, o, a'. auto.
  - intros n a key H Hin Hr Hk. unfold vx_ask_split. destruct (Nat.leb_spec (metalen * (vn_rc n + 1) + vn_block n + (klen key + plen)) (page - hdr)) as [E|E]; auto.
    exfalso. pose proof (vkey_len _ Hk). unfold vx_room in Hr. lia.
  - intros n a H Hok. destruct (vm_ask_merge n a H Hok) as (b & o & a' & A & B). exists b, o, a'. auto.
  - intros n a key v H H1 H2 H3 Hr. apply vm_put; auto.
  - intros n a key v H H1 H2 H3 Hr. apply vm_add; auto.
  - intros n a key v H H1 H2 _. apply vm_update; auto.
  - intros n a key H H1 H2 _. apply vm_delete; auto.
  - intros n a l1 s l2 r sep (L & dead & H) Hin Hsl Vk Hr.
    assert (Hsl' : a_slots a = (l1 ++ [s]) ++ l2) by (rewrite Hsl, <- app_assoc; auto).
    assert (Hpk : pay_kind (a_inner a) (PP r)) by (rewrite Hin; reflexivity).
    destruct (vx_insert_at_ok n a L dead (l1 ++ [s]) l2 sep (PP r) H Hsl' Hpk Vk) as (n' & L' & A & B).
    { cbn [paylen]. pose proof (vm_insert_room _ _ Hr Vk). lia. }
    rewrite app_length in A. cbn in A.
    exists n'. eexists. split; [exact A|]. split; [eexists; eexists; exact B|].
    split; [apply same_frame_aslots|]. cbn. now rewrite <- app_assoc.
  - intros n a l1 s s' l2 (L & dead & H) Hin Hok Hsl.
    assert (Hsl' : a_slots a = (l1 ++ [s]) ++ s' :: l2) by (rewrite Hsl, <- app_assoc; auto).
    destruct (vx_remove_ok n a L dead (l1 ++ [s]) s' l2 H Hsl') as (n' & L' & A & B); auto.
    { apply (inner_ok_live _ Hok). rewrite Hsl'. apply in_or_app. right. now left. }
    rewrite app_length in A. cbn in A.
    exists n'. eexists. split; [exact A|]. split; [eexists; eexists; exact B|].
    split; [apply same_frame_aslots|]. cbn. now rewrite <- app_assoc.
  - intros n a ra H H1 H2. destruct (vxL_split_gen true n a ra H H1 H2) as (l' & r' & sep & s1 & s2 & A & B & C & D & E & E' & E'' & E3).
    cbn [andb] in *. exists l', r', sep, s1, s2, (a_low a), (Some sep).
    split; [exact A|]. destruct (a_inner a); cbn [negb] in *; auto 10.
  - intros l al r ar h H1 H2 H3 H4 H5 H6 H7 H8 H9.
    destruct (vxL_merge_gen true l al r ar H1 H2 H3 H4 H5) as (l' & s & A & B & C & D & E); eauto 8.
    cbn [andb] in *. exists l', s, (a_low al). split; [exact A|]. split; [destruct (a_inner al); exact B|].
    split; [exact C|]. pose proof vm_free. unfold vx_room, vx_used, vmaxused, vmax in *. lia.
  - intros la n. cbn. auto.
Defined.

End VarMLProofs.
