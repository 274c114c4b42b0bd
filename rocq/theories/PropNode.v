(** Node-level properties: search (C27), split (C28), merge (C29) and the accounting of
    dead space in variable-length nodes (C30).

    The statements read nodes through the views of NodeView.v, that is through the code's
    own accessors.  [node_ok rep sl lo n] says that [n] is a well-formed node whose keys
    start at [lo]: its bytes represent ([rep]) sorted contents inside the range from [lo] to
    the node's upper bound ([node_wf], Levels.v).  [..._reachable] show that every node of
    every tree produced by a session is such a node, so the theorems apply to all of them. *)
From Coq Require Import List Arith ZArith Bool Lia Sorted.
From Verif Require Import Params Mem Common Spec NodeAbs FixModel FixProofs VarModel VarProofs VarSmo
  SLIface BaseIface MLIface FixSL VarSL FixML VarML Levels LevelOps TreeState SLModel SLProofs WalkModel SLApi
  MLModel MLProofs MLApi NodeView Inst.
Import ListNotations.

(** ** C27: search *)
Section Search.
Context (P : Params) (O : OrdLaws P).

(** Keys at the positions [lo, hi) can be read and ascend strictly; nothing is said about
    other positions, whose bytes may be unreadable. *)
Definition sorted_keys (kf : nat -> option K) (lo hi : nat) : Prop :=
  (forall i, lo <= i < hi -> exists k, kf i = Some k) /\
  (forall i j ki kj, lo <= i -> i < j -> j < hi -> kf i = Some ki -> kf j = Some kj -> klt ki kj).

(** What a search in a leaf with [n] records must answer. *)
Definition leaf_answer (kf : nat -> option K) (n : nat) (key : K) (found : bool) (pos : nat) : Prop :=
  if found then pos < n /\ kf pos = Some key
  else pos <= n /\
    (forall i k, i < n -> kf i = Some k -> if i <? pos then klt k key else klt key k).

(** What a search in an inner node with [n] children must answer: position of the key, or
    the child whose range contains it. *)
Definition inner_answer (kf : nat -> option K) (n : nat) (key : K) (found : bool) (pos : nat) : Prop :=
  if found then 1 <= pos < n /\ kf pos = Some key
  else pos < n /\
    (forall i k, 1 <= i < n -> kf i = Some k -> if i <=? pos then klt k key else klt key k).

Theorem C27_search_fixlen : forall n key,
  sorted_keys (fx_key n) (b2n (fn_inner n)) (fn_rc n) -> (fn_inner n = true -> 1 <= fn_rc n) ->
  exists (found : bool) pos,
    fx_search n key = Some (if found then kKeyAlreadyInserted else kKeyNotInserted, pos) /\
    if fn_inner n then inner_answer (fx_key n) (fn_rc n) key found pos
    else leaf_answer (fx_key n) (fn_rc n) key found pos.
Proof.
  intros n key [Hr Hs] Hne. unfold fx_search.
  destruct (bsearch_ok (fx_key n) key (b2n (fn_inner n)) (fn_rc n) Hr Hs) as ([found p] & E & Hp).
  rewrite E. destruct found.
  - exists true, (Z.to_nat p). split; [reflexivity|]. destruct Hp as (A & B & C).
    destruct (fn_inner n); cbn [b2n] in *; split; auto; lia.
  - exists false. eexists. split; [reflexivity|]. destruct Hp as (A & B & C & D).
    destruct (fn_inner n); cbn [b2n inner_answer leaf_answer] in *.
    + specialize (Hne eq_refl). split; [lia|]. intros i k Hi Ek. destruct (Nat.leb_spec i (Z.to_nat (p - Z.of_nat 1))).
      * apply (C i k); auto. lia.
      * apply (D i k); auto. lia.
    + split; [lia|]. intros i k Hi Ek. destruct (Nat.ltb_spec i (Z.to_nat (p - Z.of_nat 0))).
      * apply (C i k); auto; lia.
      * apply (D i k); auto; lia.
Qed.

(** Variable-length nodes also tell whether the key found is a tombstone. *)
Theorem C27_search_varlen : forall n key,
  sorted_keys (vx_key n) (b2n (vn_inner n)) (vn_rc n) -> (vn_inner n = true -> 1 <= vn_rc n) ->
  exists (found : bool) pos rc,
    vx_search n key = Some (rc, pos) /\
    (if found then vx_recdel n pos = Some true /\ rc = kKeyAlreadyDeleted \/
                   vx_recdel n pos = Some false /\ rc = kKeyAlreadyInserted
     else rc = kKeyNotInserted) /\
    if vn_inner n then inner_answer (vx_key n) (vn_rc n) key found pos
    else leaf_answer (vx_key n) (vn_rc n) key found pos.
Proof.
  intros n key [Hr Hs] Hne. unfold vx_search.
  destruct (bsearch_ok (vx_key n) key (b2n (vn_inner n)) (vn_rc n) Hr Hs) as ([found p] & E & Hp).
  rewrite E. destruct found.
  - destruct Hp as (A & B & C). pose proof C as C'. unfold vx_key in C'.
    destruct (vx_meta (vn_mem n) (Z.to_nat p)) as [mt|] eqn:Em; [|discriminate].
    exists true, (Z.to_nat p), (if md_del mt then kKeyAlreadyDeleted else kKeyAlreadyInserted).
    unfold vx_recdel. rewrite Em. split; [destruct (md_del mt); reflexivity|].
    split; [destruct (md_del mt); auto|].
    destruct (vn_inner n); cbn [b2n] in *; split; auto; lia.
  - exists false. do 2 eexists. split; [reflexivity|]. split; [reflexivity|]. destruct Hp as (A & B & C & D).
    destruct (vn_inner n); cbn [b2n inner_answer leaf_answer] in *.
    + specialize (Hne eq_refl). split; [lia|]. intros i k Hi Ek. destruct (Nat.leb_spec i (Z.to_nat (p - Z.of_nat 1))).
      * apply (C i k); auto. lia.
      * apply (D i k); auto. lia.
    + split; [lia|]. intros i k Hi Ek. destruct (Nat.ltb_spec i (Z.to_nat (p - Z.of_nat 0))).
      * apply (C i k); auto; lia.
      * apply (D i k); auto; lia.
Qed.

End Search.

(** ** C28 and C29: split and merge *)

(** Well-formed node whose range starts at [lo]; [sl]: single-layer variants. *)
Definition node_ok {P : Params} {N : Type} (rep : N -> anode -> Prop) (sl : bool) (lo : ext) (n : N) : Prop :=
  exists a, rep n a /\ node_wf sl (a_inner a) lo a.

Section SplitFix.
Context (P : Params) (O : OrdLaws P) (F : FixSizes P).

(** The test that makes the single-layer trees split a node (psl/node_fixlen.hpp:1080-1085,
    with the record length of that node's kind). *)
Definition ffull (n : fnode) : Prop := fx_need_split n (ks + fn_pl n) = true.
(** Room for one more record according to the same test. *)
Definition froom (n : fnode) : Prop := fx_need_split n (ks + fn_pl n) = false.
(** The test of the multi-layer trees. *)
Definition ffull_ml (n : fnode) : Prop := fx_need_split n (ks + Nat.max plen ptrlen) = true.

Lemma froom_of n : fx_room n -> froom n.
Proof. unfold fx_room, froom, fx_need_split. intros H. apply Nat.ltb_ge. lia. Qed.

Theorem C28_split_single_layer_fixlen : forall (G : FixGood P) lo n ra,
  node_ok fxrep true lo n -> ffull n ->
  exists l' r' sep, fx_split_sl n ra (fx_new (fn_inner n)) = Some (l', r') /\
    is_split (fview n) (fview l') (fview r') sep /\
    fx_sepkey l' true = Some sep /\ fx_sepkey r' false = Some sep /\
    fn_next l' = Some ra /\ fn_next r' = fn_next n /\
    fn_removed l' = false /\ fn_removed r' = false /\
    froom l' /\ froom r' /\ node_ok fxrep true lo l' /\ node_ok fxrep true (Key sep) r'.
Proof.
  intros G lo n ra (a & [Ha Hlow] & W) Hfull. pose proof (nw_body _ _ _ _ W) as Hb.
  unfold ffull in Hfull. rewrite (fr_pl _ _ Ha) in Hfull.
  destruct (fxL_split n a ra (conj Ha Hlow) Hb (need_split_splittable _ _ Ha Hfull))
    as (l' & r' & sep & s1 & s2 & E & R1 & R2 & S & M1 & M2 & HL).
  rewrite (fr_inner _ _ Ha). exists l', r', sep. split; [exact E|].
  destruct (node_wf_split true lo a sep s1 s2 (Some ra) (a_next a) (a_low a) (Some sep) W S) as [W1 W2]; auto.
  pose proof R1 as [R1a _]. pose proof R2 as [R2a _].
  split; [eapply split_shows; eauto using fshows|].
  split; [exact (frep_highkey _ _ _ R1a eq_refl)|].
  split; [exact (frep_lowkey _ _ _ R2a eq_refl)|].
  rewrite (fr_next _ _ R1a), (fr_next _ _ R2a), (fr_next _ _ Ha), (fr_removed _ _ R1a), (fr_removed _ _ R2a).
  split; [reflexivity|]. split; [reflexivity|]. split; [exact (nw_alive _ _ _ _ W)|]. split; [reflexivity|].
  split; [now apply froom_of|]. split; [now apply froom_of|]. split; eexists; split; eauto.
Qed.

Theorem C28_split_multi_layer_fixlen : forall (G : FixMLGood P) lo n ra,
  node_ok frep false lo n -> ffull_ml n ->
  exists l' r' sep, fx_split_ml n ra (fx_new (fn_inner n)) = Some (l', r') /\
    is_split (fview n) (fview l') (fview r') sep /\
    fx_highkey l' = Some sep /\
    fn_next l' = (if fn_inner n then fn_next n else Some ra) /\
    (fn_inner n = false -> fn_next r' = fn_next n) /\
    fn_removed l' = false /\ fn_removed r' = false /\
    froom l' /\ froom r' /\ node_ok frep false lo l' /\ node_ok frep false (Key sep) r'.
Proof.
  intros G lo n ra (a & Ha & W) Hfull. pose proof (nw_body _ _ _ _ W) as Hb.
  unfold ffull_ml in Hfull.
  destruct (fm_split n a ra Ha Hb (fm_splittable _ _ Ha Hfull))
    as (l' & r' & sep & s1 & s2 & lw1 & lw2 & E & R1 & R2 & S & M1 & M2 & HL).
  rewrite (fr_inner _ _ Ha). exists l', r', sep. split; [exact E|].
  destruct (node_wf_split false lo a sep s1 s2 (if a_inner a then a_next a else Some ra)
     (if a_inner a then None else a_next a) lw1 lw2 W S) as [W1 W2]; [discriminate|discriminate|].
  split; [eapply split_shows; eauto using fshows|].
  split; [exact (frep_highkey _ _ _ R1 eq_refl)|].
  rewrite (fr_next _ _ R1), (fr_next _ _ R2), (fr_next _ _ Ha), (fr_removed _ _ R1), (fr_removed _ _ R2).
  split; [reflexivity|]. split; [cbn; intros ->; reflexivity|]. split; [exact (nw_alive _ _ _ _ W)|]. split; [reflexivity|].
  split; [now apply froom_of|]. split; [now apply froom_of|]. split; eexists; split; eauto.
Qed.

(** Merging [l] (at address [la]) with its right neighbour [r]. *)
Theorem C29_merge_single_layer_fixlen : forall lo h la l r,
  node_ok fxrep true lo l -> w_high (fview l) = Some h -> node_ok fxrep true (Key h) r ->
  fn_inner l = fn_inner r -> fx_can_merge l r = true ->
  exists l' r', fx_merge_sl la l r = Some (l', r') /\
    is_merge (fview l) (fview r) (fview l') h /\
    fn_next l' = fn_next r /\ fn_removed l' = false /\
    fn_removed r' = true /\ fn_next r' = Some la /\ node_ok fxrep true lo l'.
Proof.
  intros lo h la l r (al & [Hl Hll] & Wl) Hh (ar & [Hr Hrl] & Wr) Ei Hcm.
  rewrite (sh_high _ _ (fshows _ _ Hl)) in Hh. rewrite (fr_inner _ _ Hl), (fr_inner _ _ Hr) in Ei.
  pose proof (nw_body _ _ _ _ Wl) as Bl. pose proof (nw_body _ _ _ _ Wr) as Br.
  assert (Hk1 : forall k, In k (keys_of (a_slots al)) -> a_inner al = false -> klt k h).
  { intros k Hk E. pose proof (nw_hi _ _ _ _ Wl k) as X. unfold rkeys, hi_ext in X. rewrite E, Hh in X. now apply X. }
  assert (Hk2 : forall k, In k (keys_of (a_slots ar)) -> kle h k).
  { intros k Hk. pose proof (nw_lo _ _ _ _ Wr k) as X. pose proof (nw_first _ _ _ _ Wr) as Y. unfold rkeys in X.
    destruct (a_inner ar) eqn:E; [|apply kle_ele; exact (X Hk)]. specialize (Y eq_refl h eq_refl). unfold kat in Y.
    destruct (a_slots ar) as [|s0 t0]; [discriminate|]. cbn in Y, X, Hk. unfold key1 in Hk at 1. rewrite Y in Hk.
    destruct Hk as [<-|Hk]; [apply kle_refl|apply klt_kle, X, Hk]. }
  destruct (fxL_merge la l al r ar (conj Hl Hll) (conj Hr Hrl) Ei Bl Br) as (l' & r' & s & E & [R Rl] & S & Q1 & Q2); auto.
  { exists h. split; [exact Hh|]. split; [exact (nw_low _ _ _ _ Wr eq_refl h eq_refl)|auto]. }
  exists l', r'. split; [exact E|].
  assert (Wr' : node_wf true (a_inner al) (Key h) ar) by (rewrite Ei; exact Wr).
  split; [eapply (merge_shows _ _ _ al ar); eauto using fshows|].
  rewrite (fr_next _ _ R), (fr_next _ _ Hr), (fr_removed _ _ R).
  split; [reflexivity|]. split; [exact (nw_alive _ _ _ _ Wl)|]. split; [exact Q1|]. split; [exact Q2|].
  eexists. split; [split; [exact R|exact Rl]|]. cbn [a_inner].
  eapply node_wf_merge; eauto.
Qed.

Theorem C29_merge_multi_layer_fixlen : forall (G : FixMLGood P) lo h l r,
  node_ok frep false lo l -> w_high (fview l) = Some h -> node_ok frep false (Key h) r ->
  fn_inner l = fn_inner r -> fx_can_merge l r = true ->
  exists l', fx_merge_ml l r = Some l' /\
    is_merge (fview l) (fview r) (fview l') h /\
    (fn_inner l = false -> fn_next l' = fn_next r) /\ fn_removed l' = false /\
    froom l' /\ node_ok frep false lo l'.
Proof.
  intros G lo h l r (al & Hl & Wl) Hh (ar & Hr & Wr) Ei Hcm.
  rewrite (sh_high _ _ (fshows _ _ Hl)) in Hh. rewrite (fr_inner _ _ Hl), (fr_inner _ _ Hr) in Ei.
  pose proof (nw_body _ _ _ _ Wl) as Bl. pose proof (nw_body _ _ _ _ Wr) as Br.
  assert (Hk1 : forall k, In k (keys_of (a_slots al)) -> a_inner al = false -> klt k h).
  { intros k Hk E. pose proof (nw_hi _ _ _ _ Wl k) as X. unfold rkeys, hi_ext in X. rewrite E, Hh in X. now apply X. }
  assert (Hk2 : forall k, In k (keys_of (a_slots ar)) -> a_inner al = false -> kle h k).
  { intros k Hk E. pose proof (nw_lo _ _ _ _ Wr k) as X. unfold rkeys in X. rewrite <- Ei, E in X. apply kle_ele. exact (X Hk). }
  destruct (fm_merge l al r ar h Hl Hr Ei Bl Br Hh Hk1 Hk2 Hcm) as (l' & s & lw & E & R & S & M).
  exists l'. split; [exact E|]. rewrite (fr_inner _ _ Hl).
  assert (Wr' : node_wf false (a_inner al) (Key h) ar) by (rewrite Ei; exact Wr).
  split; [eapply (merge_shows _ _ _ al ar); eauto using fshows|].
  rewrite (fr_next _ _ R), (fr_next _ _ Hr), (fr_removed _ _ R).
  split; [cbn; intros ->; reflexivity|]. split; [exact (nw_alive _ _ _ _ Wl)|]. split; [now apply froom_of|].
  eexists. split; [exact R|]. cbn [a_inner]. eapply node_wf_merge; eauto. discriminate.
Qed.

End SplitFix.

Section SplitVar.
Context (P : Params) (O : OrdLaws P) (F : VarSizes P) (G : VarGood P).

(** The tests that make the trees split a node when a record of [len] bytes arrives: it
    does not fit, and clean-up would not help enough (psl/node_varlen.hpp:1128-1153). *)
Definition vfull (n : vnode) : Prop :=
  exists len, len <= maxkey + Nat.max plen ptrlen /\
    vx_need_split n len = true /\ vx_need_cleanup n len = false.
(** Room for a record of maximal size. *)
Definition vroom (n : vnode) : Prop := vx_need_split n (maxkey + Nat.max plen ptrlen) = false.

Lemma vroom_of n : vx_room n -> vroom n.
Proof. unfold vx_room, vroom, vx_need_split. intros H. apply Nat.ltb_ge. lia. Qed.
Lemma vfull_splittable n : vfull n -> vx_splittable n.
Proof.
  intros (len & Hlen & E1 & E2). unfold vx_splittable, vx_used.
  unfold vx_need_cleanup in E2. unfold vx_need_split in E1. rewrite E1 in E2. cbn [andb] in E2.
  apply Nat.leb_gt in E2. unfold vmax. lia.
Qed.

(** [ml = false]: single-layer, [ml = true]: multi-layer (inner nodes are not linked). *)
Theorem C28_split_varlen : forall (ml : bool) lo n ra,
  node_ok vrep (negb ml) lo n -> vfull n ->
  exists l' r' sep, vx_split ml n ra (vx_new (vn_inner n)) = Some (l', r') /\
    is_split (vview n) (vview l') (vview r') sep /\
    vx_sepkey l' true = Some sep /\ vx_sepkey r' false = Some sep /\
    vn_next l' = (if ml && vn_inner n then vn_next n else Some ra) /\
    (ml = false \/ vn_inner n = false -> vn_next r' = vn_next n) /\
    vn_removed l' = false /\ vn_removed r' = false /\
    vroom l' /\ vroom r' /\ vn_deleted l' = 0 /\ vn_deleted r' = 0 /\
    node_ok vrep (negb ml) lo l' /\ node_ok vrep (negb ml) (Key sep) r'.
Proof.
  intros ml lo n ra (a & Ha & W) Hfull. pose proof (nw_body _ _ _ _ W) as Hb.
  destruct (vxL_split_gen ml n a ra Ha Hb (vfull_splittable _ Hfull))
    as (l' & r' & sep & s1 & s2 & E & R1 & R2 & S & _ & M1 & M2 & HL).
  assert (Ei : vn_inner n = a_inner a) by (destruct Ha as (? & ? & H); apply (v_inner _ _ _ _ H)).
  assert (En : vn_next n = a_next a) by (destruct Ha as (? & ? & H); apply (v_next _ _ _ _ H)).
  rewrite Ei. exists l', r', sep. split; [exact E|].
  destruct (node_wf_split (negb ml) lo a sep s1 s2 (if negb (ml && a_inner a) then Some ra else a_next a)
     (if negb (ml && a_inner a) then a_next a else None) (a_low a) (Some sep) W S) as [W1 W2]; auto.
  split; [eapply split_shows; eauto using vshows|].
  pose proof R1 as (L1 & d1 & R1'). pose proof R2 as (L2 & d2 & R2').
  split; [exact (v_highkey _ _ _ _ R1' sep eq_refl)|].
  split; [exact (v_lowkey _ _ _ _ R2' sep eq_refl)|].
  rewrite (v_next _ _ _ _ R1'), (v_next _ _ _ _ R2'), En, (v_removed _ _ _ _ R1'), (v_removed _ _ _ _ R2').
  cbn [a_next a_removed].
  split; [destruct (ml && a_inner a); reflexivity|].
  split; [intros [->| ->]; [reflexivity|rewrite andb_false_r; reflexivity]|].
  split; [exact (nw_alive _ _ _ _ W)|]. split; [reflexivity|].
  split; [now apply vroom_of|]. split; [now apply vroom_of|].
  assert (Hd : vn_deleted l' = 0 /\ vn_deleted r' = 0).
  { clear - E. unfold vx_split in E.
    repeat match type of E with
    | match ?x with Some _ => _ | None => None end = Some _ => destruct x as [[]|]; try discriminate; try (destruct x)
    end; repeat match goal with p : prod _ _ |- _ => destruct p end.
    all: repeat (match type of E with
    | context [match ?x with Some _ => _ | None => None end] => destruct x eqn:?; try discriminate end;
    repeat match goal with p : prod _ _ |- _ => destruct p end).
    all: inversion E; subst; cbn; auto. }
  destruct Hd as [Hd1 Hd2].
  split; [exact Hd1|]. split; [exact Hd2|]. split; eexists; split; eauto.
Qed.

Theorem C29_merge_varlen : forall (ml : bool) lo h l r,
  node_ok vrep (negb ml) lo l -> w_high (vview l) = Some h -> node_ok vrep (negb ml) (Key h) r ->
  vn_inner l = vn_inner r -> vx_can_merge l r = true ->
  exists l', vx_merge_into ml l r = Some l' /\
    is_merge (vview l) (vview r) (vview l') h /\
    (ml = false \/ vn_inner l = false -> vn_next l' = vn_next r) /\ vn_removed l' = false /\
    vn_deleted l' = 0 /\ vx_used l' < vmaxused /\ node_ok vrep (negb ml) lo l'.
Proof.
  intros ml lo h l r (al & Hl & Wl) Hh (ar & Hr & Wr) Ei Hcm.
  rewrite (sh_high _ _ (vshows _ _ Hl)) in Hh.
  pose proof Hl as (Ll & dl & Hl'). pose proof Hr as (Lr & dr & Hr').
  rewrite (v_inner _ _ _ _ Hl'), (v_inner _ _ _ _ Hr') in Ei.
  pose proof (nw_body _ _ _ _ Wl) as Bl. pose proof (nw_body _ _ _ _ Wr) as Br.
  assert (Hk1 : forall k, In k (keys_of (a_slots al)) -> a_inner al = false -> klt k h).
  { intros k Hk E. pose proof (nw_hi _ _ _ _ Wl k) as X. unfold rkeys, hi_ext in X. rewrite E, Hh in X. now apply X. }
  assert (Hk2 : forall k, In k (keys_of (a_slots ar)) -> a_inner al = false -> kle h k).
  { intros k Hk E. pose proof (nw_lo _ _ _ _ Wr k) as X. unfold rkeys in X. rewrite <- Ei, E in X. apply kle_ele. exact (X Hk). }
  destruct (vxL_merge_gen ml l al r ar Hl Hr Ei Bl Br) as (l' & s & E & R & S & M & D); auto.
  { exists h. auto. }
  exists l'. split; [exact E|]. rewrite (v_inner _ _ _ _ Hl').
  assert (Wr' : node_wf (negb ml) (a_inner al) (Key h) ar) by (rewrite Ei; exact Wr).
  split; [eapply (merge_shows _ _ _ al ar); eauto using vshows|].
  pose proof R as (L2 & d2 & R'). rewrite (v_next _ _ _ _ R'), (v_next _ _ _ _ Hr'), (v_removed _ _ _ _ R'). cbn [a_next a_removed].
  split; [intros [->| ->]; [reflexivity|rewrite andb_false_r; reflexivity]|].
  split; [exact (nw_alive _ _ _ _ Wl)|]. split; [exact D|]. split; [exact M|].
  eexists. split; [exact R|]. cbn [a_inner]. eapply node_wf_merge; eauto.
Qed.

(** The removed right node of a single-layer merge leads readers back to the survivor. *)
Theorem C29_merge_right_node_single_layer_varlen : forall la l r l' r',
  vx_merge_sl la l r = Some (l', r') ->
  vx_merge_into false l r = Some l' /\ vn_removed r' = true /\ vn_next r' = Some la.
Proof.
  intros la l r l' r' E. unfold vx_merge_sl in E. destruct (vx_merge_into false l r); [|discriminate].
  inversion E; subst. auto.
Qed.

End SplitVar.

(** ** Every node of every reachable tree is covered *)
Section Reach.
Context (P : Params) (O : OrdLaws P).

(** In a tree built by any session, each node is well formed for some lower bound, and so
    is its right neighbour, whose range starts at the node's upper bound. *)
Definition covered {N : Type} (rep : N -> anode -> Prop) (view : N -> nview) (sl : bool) (hp : addr -> option N) (n : N) : Prop :=
  exists lo, node_ok rep sl lo n /\
    (sl = true \/ w_inner (view n) = false -> forall b, w_next (view n) = Some b ->
     exists n' h, hp b = Some n' /\ w_high (view n) = Some h /\ node_ok rep sl (Key h) n' /\
       w_inner (view n') = w_inner (view n)).

Theorem C28_reachable_single_layer_fixlen : forall (F : FixSizes P) (G : FixGood P) osl es fuel rs s d a n,
  let N : SLOps P := fix_sl_ops osl in
  length es + 3 <= fuel -> @sl_run P N osl fuel es (@sl_init P N) = Ok rs s ->
  @at_depth P (base_of_sl N) s d a -> hp s a = Some n -> covered fxrep fview true (hp s) n.
Proof.
  intros F G osl es fu rs s d a n N Hf Hr Hd Hn.
  assert (Hv : @keys_valid P N (fix_sl_laws osl) es) by (intros c _; exact I).
  destruct (@api_reached P O N (fix_sl_laws osl) osl _ _ _ _ Hv Hf Hr) as [_ Hi].
  destruct (@api_wf P N (fix_sl_laws osl) _ _ _ _ _ _ _ Hi Hd Hn) as (lo & x & R & W & Hx).
  change (fxrep n x) in R. exists lo. split; [exists x; auto|].
  pose proof (fshows _ _ (proj1 R)) as Sh. rewrite (sh_next _ _ Sh), (sh_high _ _ Sh), (sh_inner _ _ Sh).
  intros _ b Hb. destruct (Hx b Hb) as (n' & y & h & A1 & A2 & A3 & A4 & A5). change (fxrep n' y) in A2.
  exists n', h. split; [exact A1|]. split; [exact A3|]. split; [exists y; rewrite A5; auto|].
  rewrite (sh_inner _ _ (fshows _ _ (proj1 A2))). exact A5.
Qed.

Theorem C28_reachable_single_layer_varlen : forall (F : VarSizes P) (G : VarGood P) osl es fuel rs s d a n,
  let N : SLOps P := var_sl_ops osl in
  (forall c, In c (calls_of es) -> 0 < klen (call_key c) <= maxkey) ->
  length es + 3 <= fuel -> @sl_run P N osl fuel es (@sl_init P N) = Ok rs s ->
  @at_depth P (base_of_sl N) s d a -> hp s a = Some n -> covered vrep vview true (hp s) n.
Proof.
  intros F G osl es fu rs s d a n N Hv Hf Hr Hd Hn.
  destruct (@api_reached P O N (var_sl_laws osl) osl _ _ _ _ Hv Hf Hr) as [_ Hi].
  destruct (@api_wf P N (var_sl_laws osl) _ _ _ _ _ _ _ Hi Hd Hn) as (lo & x & R & W & Hx).
  change (vrep n x) in R. exists lo. split; [exists x; auto|].
  pose proof (vshows _ _ R) as Sh. rewrite (sh_next _ _ Sh), (sh_high _ _ Sh), (sh_inner _ _ Sh).
  intros _ b Hb. destruct (Hx b Hb) as (n' & y & h & A1 & A2 & A3 & A4 & A5). change (vrep n' y) in A2.
  exists n', h. split; [exact A1|]. split; [exact A3|]. split; [exists y; rewrite A5; auto|].
  rewrite (sh_inner _ _ (vshows _ _ A2)). exact A5.
Qed.

Theorem C28_reachable_multi_layer_fixlen : forall (F : FixSizes P) (G : FixMLGood P) oml es fuel rs s d a n,
  let N : MLOps P := fix_ml_ops in
  length es + 3 <= fuel -> @ml_run P N oml fuel es (@ml_init P N) = Ok rs s ->
  @at_depth P (base_of_ml N) s d a -> hp s a = Some n -> covered frep fview false (hp s) n.
Proof.
  intros F G oml es fu rs s d a n N Hf Hr Hd Hn.
  assert (Hv : @mkeys_valid P N fix_ml_laws es) by (intros c _; exact I).
  destruct (@mapi_reached P O N fix_ml_laws oml _ _ _ _ Hv Hf Hr) as [_ Hi].
  destruct (@mapi_wf P N fix_ml_laws _ oml _ _ _ _ _ _ Hi Hd Hn) as (lo & x & R & W & Hx).
  change (frep n x) in R. exists lo. split; [exists x; auto|].
  pose proof (fshows _ _ R) as Sh. rewrite (sh_next _ _ Sh), (sh_high _ _ Sh), (sh_inner _ _ Sh).
  intros [Q|Q] b Hb; [discriminate|]. destruct (Hx b Q Hb) as (n' & y & h & A1 & A2 & A3 & A4 & A5). change (frep n' y) in A2.
  exists n', h. split; [exact A1|]. split; [exact A3|]. split; [exists y; rewrite A5; auto|].
  rewrite (sh_inner _ _ (fshows _ _ A2)). exact A5.
Qed.

Theorem C28_reachable_multi_layer_varlen : forall (F : VarSizes P) (G : VarGood P) (GM : VarMLGood P) oml es fuel rs s d a n,
  let N : MLOps P := var_ml_ops in
  (forall c, In c (calls_of es) -> 0 < klen (call_key c) <= maxkey) ->
  length es + 3 <= fuel -> @ml_run P N oml fuel es (@ml_init P N) = Ok rs s ->
  @at_depth P (base_of_ml N) s d a -> hp s a = Some n -> covered vrep vview false (hp s) n.
Proof.
  intros F G GM oml es fu rs s d a n N Hv Hf Hr Hd Hn.
  destruct (@mapi_reached P O N var_ml_laws oml _ _ _ _ Hv Hf Hr) as [_ Hi].
  destruct (@mapi_wf P N var_ml_laws _ oml _ _ _ _ _ _ Hi Hd Hn) as (lo & x & R & W & Hx).
  change (vrep n x) in R. exists lo. split; [exists x; auto|].
  pose proof (vshows _ _ R) as Sh. rewrite (sh_next _ _ Sh), (sh_high _ _ Sh), (sh_inner _ _ Sh).
  intros [Q|Q] b Hb; [discriminate|]. destruct (Hx b Q Hb) as (n' & y & h & A1 & A2 & A3 & A4 & A5). change (vrep n' y) in A2.
  exists n', h. split; [exact A1|]. split; [exact A3|]. split; [exists y; rewrite A5; auto|].
  rewrite (sh_inner _ _ (vshows _ _ A2)). exact A5.
Qed.

End Reach.

(** ** C30: dead space of variable-length nodes *)
Section Dead.
Context (P : Params) (O : OrdLaws P) (F : VarSizes P) (G : VarGood P).

(** Bytes held by tombstones, read from the stored metadata. *)
Definition tomb_bytes (n : vnode) : nat :=
  list_sum (map (fun i => match vx_meta (vn_mem n) i with
                          | Some mt => if md_del mt then md_rlen mt + metalen else 0
                          | None => 0 end) (seq 0 (vn_rc n))).
(** Bytes of all stored records, deleted or not. *)
Definition rec_bytes (n : vnode) : nat :=
  list_sum (map (fun i => match vx_meta (vn_mem n) i with Some mt => md_rlen mt | None => 0 end)
                (seq 0 (vn_rc n))).

(** [evolves n d]: [n] arises by node operations, and the separators removed from it since
    it was last rebuilt (by clean-up, split or merge) were [d] bytes long.  The operations
    are the code's primitives under the checks the code makes before using them. *)
Inductive evolves : vnode -> nat -> Prop :=
| ev_new inner : evolves (vx_new inner) 0
| ev_root2 k l r n : 0 < klen k <= maxkey -> vx_root2 k l r = Some n -> evolves n 0
| ev_insert n d key p pos n' : evolves n d -> 0 < klen key <= maxkey ->
    pay_kind (vn_inner n) p -> b2n (vn_inner n) <= pos -> pos <= vn_rc n ->
    vx_need_split n (klen key + paylen p) = false ->
    vx_insert_at n key p pos = Some n' -> evolves n' d
| ev_overwrite n d p pos n' : evolves n d -> pay_kind (vn_inner n) p -> pos < vn_rc n ->
    vx_overwrite n pos p = Some n' -> evolves n' d
| ev_reuse n d p pos n' : evolves n d -> pay_kind (vn_inner n) p -> pos < vn_rc n ->
    vx_recdel n pos = Some true -> vx_reuse n pos p = Some n' -> evolves n' d
| ev_tomb n d pos n' : evolves n d -> vn_inner n = false -> pos < vn_rc n ->
    vx_recdel n pos = Some false -> vx_tomb n pos = Some n' -> evolves n' d
| ev_remove n d pos mt n' : evolves n d -> vn_inner n = true -> 1 <= pos -> pos < vn_rc n ->
    vx_meta (vn_mem n) pos = Some mt -> vx_remove n pos = Some n' -> evolves n' (d + md_rlen mt)
| ev_cleanup n d n' : evolves n d -> vx_cleanup n = Some n' -> evolves n' 0
| ev_split_l ml n d ra l r : evolves n d -> vfull P n ->
    vx_split ml n ra (vx_new (vn_inner n)) = Some (l, r) -> evolves l 0
| ev_split_r ml n d ra l r : evolves n d -> vfull P n ->
    vx_split ml n ra (vx_new (vn_inner n)) = Some (l, r) -> evolves r 0
| ev_merge ml l dl r dr m : evolves l dl -> evolves r dr -> vn_inner l = vn_inner r ->
    (vn_inner r = true -> exists mt, vx_meta (vn_mem r) 0 = Some mt /\ 0 < md_klen mt) ->
    vx_can_merge l r = true -> vx_merge_into ml l r = Some m -> evolves m 0.

Definition ev_inv (n : vnode) (d : nat) : Prop :=
  exists a L, vrep' n a L d /\ shape (a_inner a) (a_slots a).

Lemma slots_at {A} (l : list A) pos : pos < length l ->
  exists l1 x l2, l = l1 ++ x :: l2 /\ length l1 = pos.
Proof.
  intros H. destruct (nth_error l pos) as [x|] eqn:E; [|apply nth_error_None in E; lia].
  destruct (nth_error_split _ _ E) as (l1 & l2 & E1 & E2). eauto.
Qed.

Lemma slots_cut {A} (l : list A) pos : pos <= length l -> exists l1 l2, l = l1 ++ l2 /\ length l1 = pos.
Proof.
  intros H. exists (firstn pos l), (skipn pos l). split; [symmetry; apply firstn_skipn|].
  now apply firstn_length_le.
Qed.

Lemma tl_app {A} (l1 l2 : list A) : l1 <> [] -> tl (l1 ++ l2) = tl l1 ++ l2.
Proof. destruct l1; [congruence|reflexivity]. Qed.

(** Replacing one slot, keeping its key. *)
Lemma shape_replace inner l1 s l2 p : shape inner (l1 ++ s :: l2) -> pay_kind inner p ->
  forall b, (inner = true -> b = false) -> shape inner (l1 ++ Slot (s_key s) p b :: l2).
Proof.
  intros H Hp b Hb. destruct inner; cbn [shape] in *.
  - destruct H as [H1 H2]. destruct p as [v|c]; [discriminate Hp|]. rewrite (Hb eq_refl). split.
    + apply Forall_app in H1 as [A B]. inversion B; subst. apply Forall_app. split; auto.
      constructor; auto. split; cbn; eauto.
    + destruct l1 as [|x l1]; [exact H2|]. cbn [app tl] in *. apply Forall_app in H2 as [A B]. inversion B as [|? ? X Y]; subst.
      apply Forall_app. split; auto. constructor; auto. destruct X as (_ & k & c' & E & _). split; cbn; eauto.
  - destruct p as [v|c]; [|discriminate Hp]. apply Forall_app in H as [A B]. inversion B as [|? ? X Y]; subst. apply Forall_app. split; auto.
    constructor; auto. destruct X as (k & v' & E & _). exists k, v. cbn. auto.
Qed.

Lemma shape_filter inner l : shape inner l -> shape inner (filter s_live l).
Proof.
  destruct inner; cbn [shape].
  - intros [H1 H2]. rewrite filter_all; auto. intros s Hs. rewrite Forall_forall in H1. apply (H1 s Hs).
  - intros H. rewrite Forall_forall in *. intros x Hx. apply H. apply filter_In in Hx. tauto.
Qed.

Lemma shape_app inner l1 l2 : shape inner (l1 ++ l2) -> l1 <> [] -> shape inner l1 /\ shape inner l2.
Proof.
  intros H Hne. destruct inner; cbn [shape] in *.
  - destruct H as [H1 H2]. rewrite tl_app in H2 by auto. apply Forall_app in H1 as [A B], H2 as [C D].
    repeat split; auto. destruct l2; cbn; auto. now inversion D.
  - now apply Forall_app in H.
Qed.

Lemma split_inv ml n a L d ra l r : vrep' n a L d -> shape (a_inner a) (a_slots a) -> vfull P n ->
  vx_split ml n ra (vx_new (a_inner a)) = Some (l, r) -> ev_inv l 0 /\ ev_inv r 0.
Proof.
  intros H Hs Hf E. pose proof (vfull_splittable _ _ Hf) as Hsp.
  destruct (v_used _ _ _ _ H) as (res & Q1 & Q2 & Q3).
  pose proof (v_fit _ _ _ _ H) as Hft.
  assert (Hu : vx_used n <= page - hdr).
  { unfold vx_used. rewrite (v_rc _ _ _ _ H). lia. }
  assert (Hhigh : klen_o (a_high a) <= maxkey).
  { destruct (a_high a) as [k|] eqn:Eh; cbn; [apply (v_highv _ _ _ _ H k Eh)|lia]. }
  pose proof vg_cap as G1. pose proof vg_split as G2. unfold vx_splittable, vmaxused in Hsp.
  pose proof (Nat.mul_div_le (vx_used n) 2 ltac:(lia)) as Hh1.
  pose proof (Nat.mul_succ_div_gt (vx_used n) 2 ltac:(lia)) as Hh2.
  pose proof vs_meta_pos as Hmp. assert (Hvm : metalen <= vmax) by (unfold vmax; lia).
  destruct (vx_split_ok ml n a L d ra vmax H) as (l' & r' & sep & s1 & s0 & tl0 & L1 & L2 & E1 & Hsl & Hne & Hk & Vk & R1 & R2 & _); try lia.
  - intros s Hin. eapply vslot_max; eauto.
  - intros i s Hi. destruct (a_inner a); cbn [shape] in Hs.
    + destruct Hs as [_ Hs]. destruct (a_slots a) as [|x xs]; [destruct i; discriminate|]. cbn in Hi, Hs.
      rewrite Forall_forall in Hs. destruct (Hs s (nth_error_In _ _ Hi)) as (_ & k & c & Ek & _). eauto.
    + rewrite Forall_forall in Hs. destruct (Hs s (nth_error_In _ _ Hi)) as (k & v & Ek & _). eauto.
  - rewrite E in E1. inv E1. rewrite Hsl in Hs. apply shape_app in Hs as [S1 S2]; auto.
    split; [eexists; exists L1; split; [exact R1|]|eexists; exists L2; split; [exact R2|]]; cbn [a_inner a_slots];
      now apply shape_filter.
Qed.

Lemma evolves_inv n d : evolves n d -> ev_inv n d.
Proof.
  pose proof vs_hdr_page as Hhp.
  assert (Hat : forall n a L d, vrep' n a L d -> forall pos, pos < vn_rc n ->
            exists l1 s l2, a_slots a = l1 ++ s :: l2 /\ length l1 = pos).
  { intros n0 a L d0 H pos Hp. apply slots_at. rewrite (v_len _ _ _ _ H), <- (v_rc _ _ _ _ H). exact Hp. }
  assert (Hni : forall n a L d, vrep' n a L d -> forall l1 s l2, a_slots a = l1 ++ s :: l2 ->
            nth_error (a_slots a) (length l1) = Some s).
  { intros n0 a L d0 _ l1 s l2 E. rewrite E, nth_error_app2, Nat.sub_diag by lia. reflexivity. }
  induction 1 as [inner|k l r n Hk E|n d key p pos n' _ (a & L & H & Hs) Hk Hp Hp0 Hpos Hns E
    |n d p pos n' _ (a & L & H & Hs) Hp Hpos E|n d p pos n' _ (a & L & H & Hs) Hp Hpos Hd E
    |n d pos n' _ (a & L & H & Hs) Hi Hpos Hd E|n d pos mt n' _ (a & L & H & Hs) Hi Hp0 Hpos Hm E
    |n d n' _ (a & L & H & Hs) E
    |ml n d ra l r _ (a & L & H & Hs) Hf E|ml n d ra l r _ (a & L & H & Hs) Hf E
    |ml l dl r dr m _ (a & L & H & Hs) _ (b & L' & H' & Hs') Ei Hfirst Hcm E].
  - exists (ANode inner false None None None []), []. split; [now apply vrep_new|]. destruct inner; cbn; auto.
  - destruct (vx_root2_ok k l r Hk) as (n1 & L & E1 & H).
    { pose proof vg_cap. unfold vmax in *. lia. }
    rewrite E1 in E. inv E. eexists. exists L. split; [exact H|]. cbn.
    repeat constructor; cbn; eauto.
  - rewrite (v_inner _ _ _ _ H) in *.
    destruct (slots_cut (a_slots a) pos) as (l1 & l2 & Es & El).
    { rewrite (v_len _ _ _ _ H), <- (v_rc _ _ _ _ H). exact Hpos. }
    destruct (vx_insert_at_ok n a L d l1 l2 key p H Es Hp Hk) as (n1 & L1 & E1 & H1).
    { pose proof (need_split_false _ _ Hhp Hns). lia. }
    rewrite El, E in E1. inv E1. eexists. exists L1. split; [exact H1|]. cbn [aslots a_inner a_slots].
    rewrite Es in Hs. destruct (a_inner a); cbn [shape b2n] in *.
    + destruct p as [v|c]; [discriminate Hp|]. destruct l1 as [|x l1]; [cbn in Hp0; lia|]. cbn [app tl] in *.
      destruct Hs as [A B]. inversion A as [|? ? A1 A2]; subst. apply Forall_app in A2 as [A2 A3], B as [B1 B2].
      split; [constructor; auto|]; apply Forall_app; split; auto; constructor; auto; split; cbn; eauto.
    + destruct p as [v|c]; [|discriminate Hp]. apply Forall_app in Hs as [A B]. apply Forall_app. split; auto.
      constructor; auto. exists key, v. auto.
  - rewrite (v_inner _ _ _ _ H) in *. destruct (Hat _ _ _ _ H pos Hpos) as (l1 & s & l2 & Es & El).
    destruct (vx_overwrite_ok n a L d l1 s l2 p H Es Hp) as (n1 & L1 & E1 & H1).
    rewrite El, E in E1. inv E1. eexists. exists L1. split; [exact H1|]. cbn [aslots a_inner a_slots].
    rewrite Es in Hs. apply shape_replace; auto. intros Q. rewrite Q in Hs. destruct Hs as [A _].
    apply Forall_app in A as [_ A]. inversion A as [|? ? A1 _]. apply A1.
  - rewrite (v_inner _ _ _ _ H) in *. destruct (Hat _ _ _ _ H pos Hpos) as (l1 & s & l2 & Es & El).
    assert (Hds : s_del s = true).
    { rewrite <- El, (v_recdel _ _ _ _ H _ s) in Hd by (eapply Hni; eauto). congruence. }
    destruct (vx_reuse_ok n a L d l1 s l2 p H Es Hds Hp) as (n1 & L1 & E1 & H1).
    rewrite El, E in E1. inv E1. eexists. exists L1. split; [exact H1|]. cbn [aslots a_inner a_slots].
    rewrite Es in Hs. apply shape_replace; auto.
  - rewrite (v_inner _ _ _ _ H) in *. destruct (Hat _ _ _ _ H pos Hpos) as (l1 & s & l2 & Es & El).
    assert (Hds : s_del s = false).
    { rewrite <- El, (v_recdel _ _ _ _ H _ s) in Hd by (eapply Hni; eauto). congruence. }
    destruct (vx_tomb_ok n a L d l1 s l2 H Es Hds) as (n1 & L1 & E1 & H1).
    rewrite El, E in E1. inv E1. eexists. exists L1. split; [exact H1|]. cbn [aslots a_inner a_slots].
    rewrite Es in Hs. apply shape_replace; auto.
    + pose proof (v_kind _ _ _ _ H) as HK. rewrite Es in HK. apply Forall_app in HK as [_ HK]. now inversion HK.
    + intros Q. congruence.
  - rewrite (v_inner _ _ _ _ H) in *. destruct (Hat _ _ _ _ H pos Hpos) as (l1 & s & l2 & Es & El).
    pose proof (Hni _ _ _ _ H _ _ _ Es) as Hn. rewrite El in Hn.
    assert (Hds : s_del s = false).
    { rewrite Hi in Hs. destruct Hs as [A _]. rewrite Forall_forall in A. apply (A s (nth_error_In _ _ Hn)). }
    destruct (v_slot _ _ _ _ H _ _ Hn) as (off & Ho).
    rewrite (v_meta _ _ _ _ H _ _ _ Ho) in Hm. inv Hm. cbn [vmt md_rlen].
    destruct (vx_remove_ok n a L d l1 s l2 H Es Hds Hi) as (n1 & L1 & E1 & H1).
    rewrite E in E1. inv E1. eexists. exists L1. split; [exact H1|]. cbn [aslots a_inner a_slots].
    rewrite Es, Hi in Hs. rewrite Hi. cbn [shape] in *. destruct l1 as [|x l1]; [cbn in *; lia|]. cbn [app tl] in *.
    destruct Hs as [A B]. inversion A as [|? ? A1 A2]; subst. apply Forall_app in A2 as [A2 A3], B as [B1 B2].
    inversion A3; inversion B2; subst. split; [constructor; auto|]; apply Forall_app; auto.
  - destruct (vx_cleanup_ok _ _ _ _ H) as (n1 & L1 & E1 & H1 & _). rewrite E in E1. inv E1.
    eexists. exists L1. split; [exact H1|]. now apply shape_filter.
  - destruct (split_inv ml n a L d ra l r H Hs Hf) as [A _]; [|exact A]. rewrite <- (v_inner _ _ _ _ H). exact E.
  - destruct (split_inv ml n a L d ra l r H Hs Hf) as [_ A]; [|exact A]. rewrite <- (v_inner _ _ _ _ H). exact E.
  - rewrite (v_inner _ _ _ _ H), (v_inner _ _ _ _ H') in *.
    unfold vx_can_merge, vmaxused in Hcm. apply Nat.ltb_lt in Hcm.
    destruct (vx_merge_into_ok ml l a L dl r b L' dr H H' Ei) as (m1 & L1 & E1 & H1 & _ & _); [lia|].
    rewrite E in E1. inv E1. eexists. exists L1. split; [exact H1|]. cbn [a_inner a_slots].
    rewrite <- Ei in *. pose proof Hs' as Hsb. apply shape_filter in Hs, Hs'.
    destruct (a_inner a) eqn:Ea; cbn [shape] in *.
    + destruct Hs as [A1 A2], Hs' as [B1 B2]. split; [now apply Forall_app|].
      destruct (filter s_live (a_slots a)) as [|x xs]; [exact B2|]. cbn [app tl] in *. apply Forall_app. split; auto.
      destruct (filter s_live (a_slots b)) as [|y ys] eqn:Eb; auto. cbn [tl] in *. constructor; auto.
      inversion B1 as [|? ? (Y1 & c & Y2) _]; subst. split; auto.
      destruct (Hfirst eq_refl) as (mt & Hm & Hkl).
      assert (Hy : nth_error (a_slots b) 0 = Some y).
      { destruct (a_slots b) as [|z zs] eqn:Ez; [discriminate|]. cbn [filter] in Eb. cbn [nth_error].
        destruct (s_live z) eqn:Elz; [congruence|]. exfalso.
        destruct Hsb as [Hsb _]. inversion Hsb as [|? ? [Z1 _] _]; subst. unfold s_live in Elz. now rewrite Z1 in Elz. }
      destruct (v_slot _ _ _ _ H' 0 y Hy) as (off & Ho). rewrite (v_meta _ _ _ _ H' _ _ _ Ho) in Hm. inv Hm.
      cbn [vmt md_klen] in Hkl. destruct (s_key y) as [k|]; [|cbn in Hkl; lia]. exists k, c. auto.
    + now apply Forall_app.
Qed.

Lemma sum_meta n a L d (f : meta -> nat) (g : slot -> nat) : vrep' n a L d ->
  (forall s off, f (vmt s off) = g s) ->
  list_sum (map (fun i => match vx_meta (vn_mem n) i with Some mt => f mt | None => 0 end) (seq 0 (vn_rc n)))
  = sum g (a_slots a).
Proof.
  intros H Hfg. rewrite (v_rc _ _ _ _ H), <- (v_len _ _ _ _ H). unfold sum.
  assert (X : forall l o, (forall i s, nth_error l i = Some s -> exists off, vx_meta (vn_mem n) (o + i) = Some (vmt s off)) ->
    list_sum (map (fun i => match vx_meta (vn_mem n) i with Some mt => f mt | None => 0 end) (seq o (length l))) = list_sum (map g l)).
  { induction l as [|x l IH]; intros o Hl; [reflexivity|]. cbn [length seq map]. unfold list_sum in *. cbn [fold_right].
    destruct (Hl 0 x eq_refl) as (off & E). rewrite Nat.add_0_r in E. rewrite E, Hfg. f_equal. apply IH.
    intros i s Hi. destruct (Hl (S i) s Hi) as (off' & E'). exists off'. rewrite <- E'. f_equal. lia. }
  apply X. intros i s Hi. destruct (v_slot _ _ _ _ H _ _ Hi) as (off & Ho). exists off.
  apply (v_meta _ _ _ _ H _ _ _ Ho).
Qed.

(** The recorded dead space is exact, and so is the block size: it consists of the bytes
    reserved for the lowest key (at most kMaxKeyLen), the highest key, the records and the
    removed separators. *)
Theorem C30_dead_space_exact : forall n d, evolves n d ->
  vn_deleted n = tomb_bytes n + d /\ (vn_inner n = false -> d = 0) /\
  (vn_inner n = true -> tomb_bytes n = 0) /\
  exists res, vn_llen n <= res <= maxkey /\ vn_block n = res + vn_hlen n + rec_bytes n + d.
Proof.
  intros n d Hn. destruct (evolves_inv _ _ Hn) as (a & L & H & Hs).
  assert (E1 : tomb_bytes n = sum tsize (a_slots a)) by (eapply (sum_meta n a L d (fun mt => if md_del mt then md_rlen mt + metalen else 0)); eauto).
  assert (E2 : rec_bytes n = sum slen (a_slots a)) by (eapply (sum_meta n a L d md_rlen); eauto).
  rewrite E1, E2. split; [exact (v_del _ _ _ _ H)|].
  split; [rewrite (v_inner _ _ _ _ H); exact (v_dead _ _ _ _ H)|]. split.
  - rewrite (v_inner _ _ _ _ H). intros Ei. rewrite Ei in Hs. destruct Hs as [Hs _].
    clear - Hs. unfold sum. induction Hs as [|s l [Hd _] _ IH]; auto. cbn [map]. unfold list_sum in *. cbn [fold_right].
    rewrite IH. unfold tsize. now rewrite Hd.
  - destruct (v_acc _ _ _ _ H) as (res & Q1 & Q2 & Q3). exists res.
    rewrite (v_llen _ _ _ _ H), (v_hlen _ _ _ _ H). split; [lia|exact Q3].
Qed.

(** Reusing a tombstone revives exactly that key: its payload is the new one, every other
    position reads as before, and its bytes no longer count as dead. *)
Theorem C30_reuse_revives : forall n d pos v, evolves n d -> vn_inner n = false ->
  pos < vn_rc n -> vx_recdel n pos = Some true ->
  exists n' k mt, vx_reuse n pos (PV v) = Some n' /\ evolves n' d /\ vx_key n pos = Some k /\
    vx_recdel n' pos = Some false /\ vx_record n' pos = Some (k, v) /\ vn_rc n' = vn_rc n /\
    (forall i, i < vn_rc n -> i <> pos ->
       vx_recdel n' i = vx_recdel n i /\ vx_record n' i = vx_record n i) /\
    vx_meta (vn_mem n) pos = Some mt /\ vn_deleted n = vn_deleted n' + (md_rlen mt + metalen).
Proof.
  intros n d pos v Hn Hi Hpos Hd. destruct (evolves_inv _ _ Hn) as (a & L & H & Hs).
  rewrite (v_inner _ _ _ _ H) in Hi.
  destruct (slots_at (a_slots a) pos) as (l1 & s & l2 & Es & El).
  { rewrite (v_len _ _ _ _ H), <- (v_rc _ _ _ _ H). exact Hpos. }
  assert (Hns : nth_error (a_slots a) pos = Some s) by (rewrite Es, nth_error_app2 by lia; rewrite El, Nat.sub_diag; reflexivity).
  assert (Hds : s_del s = true) by (rewrite (v_recdel _ _ _ _ H _ s Hns) in Hd; congruence).
  destruct (vx_reuse_ok n a L d l1 s l2 (PV v) H Es Hds) as (n' & L' & E & H'); [rewrite Hi; reflexivity|].
  rewrite El in E. rewrite Hi in Hs. cbn [shape] in Hs. rewrite Forall_forall in Hs.
  destruct (Hs s (nth_error_In _ _ Hns)) as (k & v0 & Ek & Ev).
  destruct (v_slot _ _ _ _ H _ _ Hns) as (off & Ho).
  assert (Hn' : nth_error (a_slots (aslots a (l1 ++ Slot (s_key s) (PV v) false :: l2))) pos = Some (Slot (s_key s) (PV v) false)).
  { cbn. rewrite nth_error_app2 by lia. rewrite El, Nat.sub_diag. reflexivity. }
  exists n', k, (vmt s off). split; [exact E|].
  split; [eapply ev_reuse; eauto; rewrite (v_inner _ _ _ _ H), Hi; reflexivity|].
  split; [apply (v_key _ _ _ _ H); unfold kat; now rewrite Hns|].
  split; [apply (v_recdel _ _ _ _ H' _ _ Hn')|].
  split; [apply (v_record _ _ _ _ H' _ _ k v Hn'); auto|].
  split.
  { rewrite (v_rc _ _ _ _ H'), (v_rc _ _ _ _ H), <- (v_len _ _ _ _ H), <- (v_len _ _ _ _ H'). cbn. rewrite Es, !app_length. reflexivity. }
  split; [|split; [apply (v_meta _ _ _ _ H _ _ _ Ho)|]].
  - intros i Hlt Hne. destruct (nth_error (a_slots a) i) as [x|] eqn:Ex.
    2:{ apply nth_error_None in Ex. rewrite (v_len _ _ _ _ H), <- (v_rc _ _ _ _ H) in Ex. lia. }
    assert (Ex' : nth_error (a_slots (aslots a (l1 ++ Slot (s_key s) (PV v) false :: l2))) i = Some x).
    { cbn. rewrite Es in Ex. destruct (Nat.lt_ge_cases i (length l1)) as [Hlt'|Hge].
      - rewrite nth_error_app1 in Ex |- * by lia. exact Ex.
      - rewrite nth_error_app2 in Ex |- * by lia. destruct (i - length l1) eqn:Ed; [lia|]. exact Ex. }
    rewrite (v_recdel _ _ _ _ H _ _ Ex), (v_recdel _ _ _ _ H' _ _ Ex').
    destruct (Hs x (nth_error_In _ _ Ex)) as (kx & vx & Ekx & Evx).
    rewrite (v_record _ _ _ _ H _ _ _ _ Ex Ekx Evx), (v_record _ _ _ _ H' _ _ _ _ Ex' Ekx Evx). auto.
  - rewrite (v_del _ _ _ _ H), (v_del _ _ _ _ H'). cbn [aslots a_slots vmt md_rlen]. rewrite Es, !sum_app, !sum_cons.
    unfold tsize at 2 5. rewrite Hds. cbn [s_del]. lia.
Qed.

(** Clean-up keeps all live records (or children and separators), their order and both
    bounds, and reclaims all dead space: what remains is the border keys and live records. *)
Theorem C30_cleanup : forall n d, evolves n d ->
  exists n', vx_cleanup n = Some n' /\ evolves n' 0 /\ vn_deleted n' = 0 /\ tomb_bytes n' = 0 /\
    vn_inner n' = vn_inner n /\ vn_next n' = vn_next n /\ vn_removed n' = vn_removed n /\
    w_high (vview n') = w_high (vview n) /\ vn_llen n' = vn_llen n /\
    (0 < vn_llen n -> vx_sepkey n' false = vx_sepkey n false) /\
    (vn_inner n = false -> view_recs (vview n') = view_recs (vview n)) /\
    (vn_inner n = true -> view_kids (vview n') = view_kids (vview n) /\
                          view_seps (vview n') = view_seps (vview n)) /\
    vn_block n' = vn_llen n' + vn_hlen n' + rec_bytes n' /\
    vx_used n' <= vx_used n.
Proof.
  intros n d Hn. destruct (evolves_inv _ _ Hn) as (a & L & H & Hs).
  destruct (vx_cleanup_ok _ _ _ _ H) as (n' & L' & E & H' & B).
  assert (Hn' : evolves n' 0) by (eapply ev_cleanup; eauto).
  exists n'. split; [exact E|]. split; [exact Hn'|].
  assert (Hd : vn_deleted n' = 0) by (rewrite (v_del _ _ _ _ H'); cbn [aslots a_slots]; rewrite sum_live_t; reflexivity).
  split; [exact Hd|].
  split; [destruct (C30_dead_space_exact _ _ Hn') as (X & _); lia|].
  pose proof (vshows n a (ex_intro _ L (ex_intro _ d H))) as Sh.
  pose proof (vshows n' _ (ex_intro _ L' (ex_intro _ 0 H'))) as Sh'.
  pose proof (shape_filter _ _ Hs) as Hsf.
  rewrite (v_inner _ _ _ _ H), (v_inner _ _ _ _ H'), (v_next _ _ _ _ H), (v_next _ _ _ _ H'),
    (v_removed _ _ _ _ H), (v_removed _ _ _ _ H'), (sh_high _ _ Sh), (sh_high _ _ Sh'),
    (v_llen _ _ _ _ H), (v_llen _ _ _ _ H'), (v_hlen _ _ _ _ H').
  cbn [aslots a_inner a_next a_removed a_low a_high].
  split; [reflexivity|]. split; [reflexivity|]. split; [reflexivity|]. split; [reflexivity|]. split; [reflexivity|].
  split.
  { intros Hl. destruct (a_low a) as [k|] eqn:El; [|cbn in Hl; lia].
    rewrite (v_lowkey _ _ _ _ H k El), (v_lowkey _ _ _ _ H' k El). reflexivity. }
  split.
  { intros Ei. rewrite Ei in Hs, Hsf. rewrite (shows_recs' _ _ Sh Hs), (shows_recs' _ _ Sh' Hsf). apply live_filter. }
  split.
  { intros Ei. rewrite Ei in Hs, Hsf. destruct Hs as [A1 A2], Hsf as [B1 B2].
    rewrite (shows_kids' _ _ Sh A1), (shows_kids' _ _ Sh' B1), (shows_seps' _ _ Sh A2), (shows_seps' _ _ Sh' B2).
    cbn [aslots a_slots]. rewrite filter_all; auto. intros s Hin. rewrite Forall_forall in A1. apply (A1 s Hin). }
  assert (E2 : rec_bytes n' = sum slen (a_slots (aslots a (filter s_live (a_slots a))))) by (eapply (sum_meta n' _ L' 0 md_rlen); eauto).
  rewrite E2. cbn [aslots a_slots]. split; [lia|].
  pose proof (vm_cleanup_size _ _ _ _ _ _ H H' E). unfold vx_used at 1. lia.
Qed.

(** ** The node functions only ever take such steps *)

Lemma bsearch_range kf key : forall fuel b e r, bsearch fuel kf key b e = Some r -> (0 <= b)%Z ->
  (b <= e + 1)%Z -> (b <= snd r <= e + 1)%Z /\ (fst r = true -> (snd r <= e)%Z).
Proof.
  induction fuel as [|fuel IH]; intros b e r E H0 Hle; cbn [bsearch] in E; [discriminate|].
  destruct (Z.leb_spec b e) as [Hbe|Hbe]; [|inversion E; subst; cbn; split; [lia|discriminate]].
  set (pos := Z.div (b + e) 2) in *.
  assert (Hp : (b <= pos <= e)%Z) by (unfold pos; split; [apply Z.div_le_lower_bound|apply Z.div_le_upper_bound]; lia).
  destruct (kf (Z.to_nat pos)) as [k|]; [|discriminate].
  destruct (ltb key k).
  - apply IH in E; [|lia|lia]. destruct E as [E1 E2]. split; [lia|intros Q; specialize (E2 Q); lia].
  - destruct (ltb k key).
    + apply IH in E; [|lia|lia]. destruct E as [E1 E2]. split; [lia|intros Q; specialize (E2 Q); lia].
    + inversion E; subst; cbn. split; lia.
Qed.

Lemma search_range n key rc pos : vx_search n key = Some (rc, pos) -> (vn_inner n = true -> 1 <= vn_rc n) ->
  (rc = kKeyNotInserted -> pos + b2n (vn_inner n) <= vn_rc n) /\
  (rc <> kKeyNotInserted -> b2n (vn_inner n) <= pos < vn_rc n /\
     vx_recdel n pos = Some (match rc with kKeyAlreadyDeleted => true | _ => false end)).
Proof.
  unfold vx_search. intros E Hne.
  destruct (bsearch (S (vn_rc n)) (vx_key n) key (Z.of_nat (b2n (vn_inner n))) (Z.of_nat (vn_rc n) - 1)) as [[f p]|] eqn:Eb; [|discriminate].
  apply bsearch_range in Eb; [|lia|destruct (vn_inner n); cbn; lia]. cbn [fst snd] in Eb. destruct Eb as [E1 E2].
  destruct f.
  - specialize (E2 eq_refl). destruct (vx_recdel n (Z.to_nat p)) as [dl|] eqn:Ed; [|discriminate]. inv E.
    split; [destruct dl; discriminate|]. intros _. split; [lia|]. rewrite Ed. destruct dl; reflexivity.
  - inv E. split; [intros _; lia|congruence].
Qed.

Ltac brk E := repeat match type of E with
  | match ?x with Some _ => _ | None => None end = Some _ => let Q := fresh "Q" in destruct x eqn:Q; [|discriminate E]
  | context [match ?p with (_, _) => _ end] => is_var p; destruct p
  | Some _ = Some _ => inv E
  end.

Lemma cleanup_if_evolves n d len n' : evolves n d -> vx_cleanup_if n len = Some n' -> exists d', evolves n' d'.
Proof.
  unfold vx_cleanup_if. intros H E. destruct (vx_need_cleanup n len).
  - exists 0. eapply ev_cleanup; eauto.
  - inv E. eauto.
Qed.

Lemma need_merge_evolves n d b n' : evolves n d -> vx_need_merge n = Some (b, n') -> exists d', evolves n' d'.
Proof.
  unfold vx_need_merge. intros H E. destruct (vx_used n <? minused); [inv E; eauto|].
  destruct (vn_deleted n <=? maxdel); [inv E; eauto|]. brk E. exists 0. eapply ev_cleanup; eauto.
Qed.

Lemma cleanup_inner n n' : vx_cleanup n = Some n' -> vn_inner n' = vn_inner n.
Proof. unfold vx_cleanup. intros E. brk E. reflexivity. Qed.
Lemma cleanup_if_inner n len n' : vx_cleanup_if n len = Some n' -> vn_inner n' = vn_inner n.
Proof. unfold vx_cleanup_if. destruct (vx_need_cleanup n len); [apply cleanup_inner|congruence]. Qed.

Lemma cleanup_if_rc n d len n' : evolves n d -> vn_inner n = true -> vx_cleanup_if n len = Some n' ->
  vn_rc n' = vn_rc n.
Proof.
  unfold vx_cleanup_if. intros H Hi E. destruct (vx_need_cleanup n len); [|congruence].
  destruct (evolves_inv _ _ H) as (a & L & R & Hs). destruct (vx_cleanup_ok _ _ _ _ R) as (n1 & L1 & E1 & R1 & _).
  rewrite E in E1. inv E1. rewrite (v_rc _ _ _ _ R), (v_rc _ _ _ _ R1), <- (v_len _ _ _ _ R), <- (v_len _ _ _ _ R1).
  cbn [aslots a_slots]. rewrite (v_inner _ _ _ _ R) in Hi. rewrite Hi in Hs. destruct Hs as [Hs _].
  rewrite filter_all; auto. intros s Hin. rewrite Forall_forall in Hs. apply (Hs s Hin).
Qed.

Lemma leaf_store_evolves n d key v ex pos n' : evolves n d -> vn_inner n = false -> 0 < klen key <= maxkey ->
  vx_search n key = Some (ex, pos) ->
  match ex with
  | kKeyNotInserted => vx_need_split n (klen key + plen) = false /\ vx_insert_at n key (PV v) pos = Some n'
  | kKeyAlreadyDeleted => vx_reuse n pos (PV v) = Some n'
  | _ => vx_overwrite n pos (PV v) = Some n'
  end -> evolves n' d.
Proof.
  intros H Hi Hk Es E. destruct (search_range _ _ _ _ Es) as [S1 S2]; [congruence|]. rewrite Hi in S1, S2. cbn [b2n] in S1, S2.
  destruct ex; try (destruct (S2 ltac:(discriminate)) as [S3 S4]); try (eapply (ev_overwrite n d (PV v) pos); eauto; lia).
  - destruct E as [E1 E2]. specialize (S1 eq_refl). eapply (ev_insert n d key (PV v) pos); eauto; try exact Hi; try exact E1; rewrite ?Hi; cbn; lia.
  - eapply (ev_reuse n d (PV v) pos); eauto; lia.
Qed.

Lemma room_len n len : vroom P n -> len <= maxkey + Nat.max plen ptrlen -> vx_need_split n len = false.
Proof. unfold vroom, vx_need_split. intros H Hl. apply Nat.ltb_ge in H. apply Nat.ltb_ge. lia. Qed.

(** The node functions of psl/node_varlen.hpp and osl/node_varlen.hpp, for every caller:
    whatever they return is again such a node. *)
Theorem C30_single_layer_steps : forall n d key v sep r, evolves n d ->
  0 < klen key <= maxkey -> 0 < klen sep <= maxkey ->
  (vn_inner n = false ->
    (forall rc n', vx_write n key v = Some (rc, n') -> exists d', evolves n' d') /\
    (forall rc n', vx_insert n key v = Some (rc, n') -> exists d', evolves n' d') /\
    (forall rc n', vx_update n key v = Some (rc, n') -> exists d', evolves n' d') /\
    (forall rc n', vx_delete n key = Some (rc, n') -> exists d', evolves n' d') /\
    (vroom P n ->
      forall rc n', vx_search_insert n key v = Some (rc, n') -> exists d', evolves n' d')) /\
  (vn_inner n = true -> 1 <= vn_rc n ->
    (forall rc n', vx_insert_child n r sep = Some (rc, n') -> exists d', evolves n' d') /\
    (forall rc n', vx_delete_child n sep = Some (rc, n') -> exists d', evolves n' d')).
Proof.
  intros n d key v sep r H Hk Hsep. split; intros Hi.
  - split; [|split; [|split; [|split]]]; intros.
    + unfold vx_write in H0. destruct (vx_cleanup_if n (klen key + plen)) as [n1|] eqn:Ec; [|discriminate].
      destruct (cleanup_if_evolves _ _ _ _ H Ec) as (d1 & H1). pose proof (cleanup_if_inner _ _ _ Ec) as Hi1. rewrite Hi in Hi1.
      destruct (vx_search n1 key) as [[ex pos]|] eqn:Es; [|discriminate].
      destruct (vx_need_split n1 (klen key + plen)) eqn:Ens.
      * destruct ex; brk H0; exists d1; try exact H1; eapply (leaf_store_evolves n1 d1 key v _ pos); eauto; cbn; auto.
      * destruct ex; brk H0; exists d1; eapply (leaf_store_evolves n1 d1 key v _ pos); eauto; cbn; auto.
    + unfold vx_insert in H0. destruct (vx_cleanup_if n (klen key + plen)) as [n1|] eqn:Ec; [|discriminate].
      destruct (cleanup_if_evolves _ _ _ _ H Ec) as (d1 & H1). pose proof (cleanup_if_inner _ _ _ Ec) as Hi1. rewrite Hi in Hi1.
      destruct (vx_search n1 key) as [[ex pos]|] eqn:Es; [|discriminate].
      pose proof (search_range _ _ _ _ Es ltac:(congruence)) as [_ S2].
      destruct (vx_need_split n1 (klen key + plen)) eqn:Ens;
      destruct ex; brk H0; exists d1; try exact H1;
        try (exfalso; unfold vx_search in Es; brk Es; destruct b; brk Es; destruct b; discriminate);
        eapply (leaf_store_evolves n1 d1 key v _ pos); eauto; cbn; auto.
    + unfold vx_update in H0. destruct (vx_search n key) as [[ex pos]|] eqn:Es; [|discriminate].
      destruct ex; brk H0; eauto. exists d. eapply (leaf_store_evolves n d key v); eauto; cbn; auto.
    + unfold vx_delete in H0. destruct (vx_search n key) as [[ex pos]|] eqn:Es; [|discriminate].
      pose proof (search_range _ _ _ _ Es ltac:(congruence)) as [_ S2].
      destruct ex; brk H0; eauto. destruct (S2 ltac:(discriminate)) as [S3 S4].
      eapply need_merge_evolves; [|eauto]. eapply ev_tomb; eauto. lia.
    + unfold vx_search_insert in H1. destruct (vx_search n key) as [[ex pos]|] eqn:Es; [|discriminate]. brk H1.
      destruct (search_range _ _ _ _ Es ltac:(congruence)) as [S1 S2]. rewrite Hi in S1, S2. cbn [b2n] in S1, S2.
      exists d. eapply (ev_insert n d key (PV v) pos); eauto.
      * rewrite Hi. cbn. lia.
      * destruct ex; try (destruct (S2 ltac:(discriminate)); lia). specialize (S1 eq_refl). lia.
      * eapply room_len; eauto. cbn [paylen]. lia.
  - intros Hrc. split; intros.
    + unfold vx_insert_child in H0. destruct (vx_cleanup_if n (klen sep + ptrlen)) as [n1|] eqn:Ec; [|discriminate].
      destruct (cleanup_if_evolves _ _ _ _ H Ec) as (d1 & H1). pose proof (cleanup_if_inner _ _ _ Ec) as Hi1. rewrite Hi in Hi1.
      pose proof (cleanup_if_rc _ _ _ _ H Hi Ec) as Hrc1.
      destruct (vx_search n1 sep) as [[ex pos]|] eqn:Es; [|discriminate].
      destruct (search_range _ _ _ _ Es ltac:(intros; lia)) as [S1 S2]. rewrite Hi1 in S1, S2. cbn [b2n] in S1, S2.
      assert (Hpos : pos + 1 <= vn_rc n1) by (destruct ex; try (destruct (S2 ltac:(discriminate)); lia); specialize (S1 eq_refl); lia).
      destruct (vx_need_split n1 (klen sep + ptrlen)) eqn:Ens; destruct ex; brk H0; eauto;
        exists d1; eapply (ev_insert n1 d1 sep (PP r) (pos + 1)); eauto; try exact Hi1; rewrite ?Hi1; cbn; try lia; auto.
    + unfold vx_delete_child in H0.
      destruct (if vn_rc n <=? 1 then Some true else match vx_key n 1 with Some k1 => Some (ltb sep k1) | None => None end) as [ab|]; [|discriminate].
      destruct ab; [brk H0; eauto|].
      destruct (vx_search n sep) as [[ex pos]|] eqn:Es; [|discriminate].
      destruct (search_range _ _ _ _ Es ltac:(intros; lia)) as [S1 S2]. rewrite Hi in S1, S2. cbn [b2n] in S1, S2.
      destruct ex; brk H0; eauto; destruct (S2 ltac:(discriminate)) as [S3 S4];
        (destruct (vx_meta (vn_mem n) pos) as [mt|] eqn:Em; [|unfold vx_recdel in S4; rewrite Em in S4; discriminate]);
        (eapply need_merge_evolves; [|eauto]); (eapply (ev_remove n d pos mt); eauto; lia).
Qed.

(** The node functions of pml/node_varlen.hpp and oml/node_varlen.hpp, which the trees
    call on nodes known to have room ([vroom]). *)
Theorem C30_multi_layer_steps : forall n d key v sep r pos, evolves n d ->
  0 < klen key <= maxkey -> 0 < klen sep <= maxkey ->
  (forall len b o, vx_ask_split n len = Some (b, o) ->
     exists d', evolves (match o with Some x => x | None => n end) d') /\
  (forall b o, vx_ask_merge n = Some (b, o) ->
     exists d', evolves (match o with Some x => x | None => n end) d') /\
  (vn_inner n = false ->
    (vroom P n -> forall n', vx_put n key v = Some n' -> evolves n' d) /\
    (vroom P n -> forall rc n', vx_add n key v = Some (rc, n') -> evolves n' d) /\
    (forall rc n', vx_update n key v = Some (rc, n') -> evolves n' d) /\
    (forall rc n', vx_del n key = Some (rc, n') -> evolves n' d)) /\
  (vn_inner n = true ->
    (vroom P n -> pos < vn_rc n -> forall n', vx_insert_child_at n r sep pos = Some n' -> evolves n' d) /\
    (pos + 1 < vn_rc n -> forall n', vx_delete_child_at n pos = Some n' ->
       exists mt, vx_meta (vn_mem n) (pos + 1) = Some mt /\ evolves n' (d + md_rlen mt))).
Proof.
  intros n d key v sep r pos H Hk Hsep. split; [|split; [|split]].
  - intros len b o E. unfold vx_ask_split in E.
    destruct (_ <=? _); [inv E; eauto|]. destruct (vmaxused <? _); [inv E; eauto|]. brk E.
    exists 0. eapply ev_cleanup; eauto.
  - intros b o E. unfold vx_ask_merge in E.
    destruct (_ <? _); [inv E; eauto|]. destruct (_ <=? _); [inv E; eauto|]. brk E.
    exists 0. eapply ev_cleanup; eauto.
  - intros Hi. split; [|split; [|split]].
    + intros Hr n' E. unfold vx_put in E. destruct (vx_search n key) as [[ex p]|] eqn:Es; [|discriminate].
      apply (leaf_store_evolves n d key v ex p); auto. destruct ex; auto. split; auto. eapply room_len; eauto. lia.
    + intros Hr rc n' E. unfold vx_add in E. destruct (vx_search n key) as [[ex p]|] eqn:Es; [|discriminate].
      destruct ex; brk E; auto; eapply (leaf_store_evolves n d key v); eauto; cbn; auto. split; auto. eapply room_len; eauto. lia.
    + intros rc n' E. unfold vx_update in E. destruct (vx_search n key) as [[ex p]|] eqn:Es; [|discriminate].
      destruct ex; brk E; auto. eapply (leaf_store_evolves n d key v); eauto; cbn; auto.
    + intros rc n' E. unfold vx_del in E. destruct (vx_search n key) as [[ex p]|] eqn:Es; [|discriminate].
      pose proof (search_range _ _ _ _ Es ltac:(congruence)) as [_ S2].
      destruct ex; brk E; auto. destruct (S2 ltac:(discriminate)) as [S3 S4]. eapply ev_tomb; eauto. lia.
  - intros Hi. split.
    + intros Hr Hp n' E. unfold vx_insert_child_at in E. eapply (ev_insert n d sep (PP r) (pos + 1)); eauto; try exact Hi; rewrite ?Hi; cbn; try lia.
      eapply room_len; eauto. cbn. lia.
    + intros Hp n' E. unfold vx_delete_child_at in E.
      destruct (vx_meta (vn_mem n) (pos + 1)) as [mt|] eqn:Em; [|unfold vx_remove in E; rewrite Em in E; discriminate].
      exists mt. split; auto. eapply (ev_remove n d (pos + 1) mt); eauto. lia.
Qed.

End Dead.

(** ** Non-vacuity *)

(** Follow child positions from the root. *)
Fixpoint follow {P : Params} {B : BaseOps P} (s : st bn) (a : addr) (path : list nat) : option addr :=
  match path with
  | [] => Some a
  | i :: path' =>
      match hp s a with
      | Some n => if bn_inner n && (i <? bn_rc n) then
                    match bn_child n i with Some c => follow s c path' | None => None end
                  else None
      | None => None
      end
  end.

Lemma follow_at_depth {P : Params} {B : BaseOps P} s path : forall a d b, at_depth s d a ->
  follow s a path = Some b -> exists d', at_depth s d' b.
Proof.
  induction path as [|i path IH]; intros a d b Hd E; cbn in E; [inv E; eauto|].
  destruct (hp s a) as [n|] eqn:En; [|discriminate]. destruct (bn_inner n) eqn:Ei; [|discriminate].
  destruct (Nat.ltb_spec i (bn_rc n)) as [Hlt|]; [|discriminate]. cbn in E.
  destruct (bn_child n i) as [c|] eqn:Ec; [|discriminate]. eapply IH; [|exact E]. eapply ad_child; eauto.
Qed.

Section Examples.

Definition insf (n : nat) : list (@event tiny) := map (fun i => ECall (@CInsert tiny (i * 7 mod 61) i)) (seq 0 n).
Definition delf (n : nat) : list (@event tiny) := map (fun i => ECall (@CDelete tiny (i * 5 mod 61))) (seq 0 n).
Definition insv (n : nat) : list (@event vtiny) := map (fun i => ECall (@CInsert vtiny (i * 7 mod 61) i)) (seq 0 n).
Definition delv (n : nat) : list (@event vtiny) := map (fun i => ECall (@CDelete vtiny (i * 5 mod 61))) (seq 0 n).

(** The node at [path] of the tree built by [es], and its right neighbour. *)
Definition pick_f (es : list (@event tiny)) (path : list nat) : option (fnode * option fnode) :=
  match @sl_run tiny (fix_sl_ops false) false (length es + 3) es (@sl_init tiny (fix_sl_ops false)) with
  | Ok _ s => match @follow tiny (base_of_sl (fix_sl_ops false)) s (rt s) path with
              | Some a => match hp s a with
                          | Some n => Some (n, match fn_next n with Some b => hp s b | None => None end)
                          | None => None end
              | None => None end
  | _ => None
  end.
Definition pick_v (es : list (@event vtiny)) (path : list nat) : option (vnode * option vnode) :=
  match @sl_run vtiny (var_sl_ops false) false (length es + 3) es (@sl_init vtiny (var_sl_ops false)) with
  | Ok _ s => match @follow vtiny (base_of_sl (var_sl_ops false)) s (rt s) path with
              | Some a => match hp s a with
                          | Some n => Some (n, match vn_next n with Some b => hp s b | None => None end)
                          | None => None end
              | None => None end
  | _ => None
  end.
Definition pick_m (es : list (@event tiny)) (path : list nat) : option (fnode * option fnode) :=
  match @ml_run tiny fix_ml_ops false (length es + 3) es (@ml_init tiny fix_ml_ops) with
  | Ok _ s => match @follow tiny (base_of_ml fix_ml_ops) s (rt s) path with
              | Some a => match hp s a with
                          | Some n => Some (n, match fn_next n with Some b => hp s b | None => None end)
                          | None => None end
              | None => None end
  | _ => None
  end.

Lemma pick_f_ok es path n o : pick_f es path = Some (n, o) ->
  exists lo, @node_ok tiny _ fxrep true lo n /\
    forall m, o = Some m -> exists h, @w_high tiny (fview n) = Some h /\
      @node_ok tiny _ fxrep true (Key h) m /\ fn_inner m = fn_inner n.
Proof.
  unfold pick_f. destruct (sl_run false _ es sl_init) as [rs s| | |] eqn:E; try discriminate.
  destruct (@follow tiny (base_of_sl (fix_sl_ops false)) s (rt s) path) as [a|] eqn:Ef; [|discriminate].
  destruct (@follow_at_depth tiny (base_of_sl (fix_sl_ops false)) s path _ _ _ (@ad_root tiny (base_of_sl (fix_sl_ops false)) s) Ef) as (d & Hd).
  destruct (hp s a) as [n0|] eqn:En; [|discriminate]. intros Eq. inv Eq.
  destruct (C28_reachable_single_layer_fixlen tiny tiny_ord tiny_sizes tiny_good false es _ rs s d a n (le_n _) E Hd En) as (lo & A & B).
  exists lo. split; [exact A|]. intros m Hm.
  destruct (fn_next n) as [b|] eqn:Eb; [|discriminate].
  destruct (B (or_introl eq_refl) b Eb) as (m' & h & B1 & B2 & B3 & B4).
  assert (Some m' = Some m) as X by (etransitivity; [symmetry; exact B1|exact Hm]). inv X. exists h. auto.
Qed.

Lemma pick_v_ok es path n o : pick_v es path = Some (n, o) ->
  exists lo, @node_ok vtiny _ vrep true lo n /\
    forall m, o = Some m -> exists h, @w_high vtiny (vview n) = Some h /\
      @node_ok vtiny _ vrep true (Key h) m /\ vn_inner m = vn_inner n.
Proof.
  unfold pick_v. destruct (sl_run false _ es sl_init) as [rs s| | |] eqn:E; try discriminate.
  destruct (@follow vtiny (base_of_sl (var_sl_ops false)) s (rt s) path) as [a|] eqn:Ef; [|discriminate].
  destruct (@follow_at_depth vtiny (base_of_sl (var_sl_ops false)) s path _ _ _ (@ad_root vtiny (base_of_sl (var_sl_ops false)) s) Ef) as (d & Hd).
  destruct (hp s a) as [n0|] eqn:En; [|discriminate]. intros Eq. inv Eq.
  destruct (C28_reachable_single_layer_varlen vtiny vtiny_ord vtiny_sizes vtiny_good false es (length es + 3) rs s d a n) as (lo & A & B); auto.
  { intros c _. cbn. pose proof (Nat.mod_upper_bound (call_key c) 3). lia. }
  exists lo. split; [exact A|]. intros m Hm.
  destruct (vn_next n) as [b|] eqn:Eb; [|discriminate].
  destruct (B (or_introl eq_refl) b Eb) as (m' & h & B1 & B2 & B3 & B4).
  assert (Some m' = Some m) as X by (etransitivity; [symmetry; exact B1|exact Hm]). inv X. exists h. auto.
Qed.

Lemma tiny_mlgood' : FixMLGood tiny.
Proof. split; apply Nat.leb_le; vm_compute; reflexivity. Qed.

Lemma pick_m_ok es path n o : pick_m es path = Some (n, o) ->
  exists lo, @node_ok tiny _ frep false lo n /\
    (fn_inner n = false -> forall m, o = Some m -> exists h, @w_high tiny (fview n) = Some h /\
      @node_ok tiny _ frep false (Key h) m /\ fn_inner m = fn_inner n).
Proof.
  unfold pick_m. destruct (ml_run false _ es ml_init) as [rs s| | |] eqn:E; try discriminate.
  destruct (@follow tiny (base_of_ml fix_ml_ops) s (rt s) path) as [a|] eqn:Ef; [|discriminate].
  destruct (@follow_at_depth tiny (base_of_ml fix_ml_ops) s path _ _ _ (@ad_root tiny (base_of_ml fix_ml_ops) s) Ef) as (d & Hd).
  destruct (hp s a) as [n0|] eqn:En; [|discriminate]. intros Eq. inv Eq.
  destruct (C28_reachable_multi_layer_fixlen tiny tiny_ord tiny_sizes tiny_mlgood' false es _ rs s d a n (le_n _) E Hd En) as (lo & A & B).
  exists lo. split; [exact A|]. intros Hi m Hm.
  destruct (fn_next n) as [b|] eqn:Eb; [|discriminate].
  destruct (B (or_intror Hi) b Eb) as (m' & h & B1 & B2 & B3 & B4).
  assert (Some m' = Some m) as X by (etransitivity; [symmetry; exact B1|exact Hm]). inv X. exists h. auto.
Qed.

(** Full nodes: a leaf and an inner node (fixlen), a leaf (varlen). *)
Example C28_fix_applies : exists lo n, @node_ok tiny _ fxrep true lo n /\ ffull tiny n.
Proof.
  assert (X : match pick_f (insf 8) [] with Some (n, _) => @fx_need_split tiny n (@ks tiny + fn_pl n) | None => false end = true) by (vm_compute; reflexivity).
  destruct (pick_f (insf 8) []) as [[n o]|] eqn:E; [|discriminate X].
  destruct (pick_f_ok _ _ _ _ E) as (lo & A & _). exists lo, n. split; [exact A|]. unfold ffull. exact X.
Qed.

Example C28_fix_ml_applies : exists lo n, @node_ok tiny _ frep false lo n /\ ffull_ml tiny n.
Proof.
  assert (X : match pick_m (insf 8) [] with Some (n, _) => @fx_need_split tiny n (@ks tiny + Nat.max (@plen tiny) (@ptrlen tiny)) | None => false end = true) by (vm_compute; reflexivity).
  destruct (pick_m (insf 8) []) as [[n o]|] eqn:E; [|discriminate X].
  destruct (pick_m_ok _ _ _ _ E) as (lo & A & _). exists lo, n. split; [exact A|]. unfold ffull_ml. exact X.
Qed.

Example C28_var_applies : exists lo n, @node_ok vtiny _ vrep true lo n /\ vfull vtiny n.
Proof.
  assert (X : match pick_v (insv 6) [] with Some (n, _) => @vx_need_split vtiny n 11 && negb (@vx_need_cleanup vtiny n 11) | None => false end = true) by (vm_compute; reflexivity).
  destruct (pick_v (insv 6) []) as [[n o]|] eqn:E; [|discriminate X].
  destruct (pick_v_ok _ _ _ _ E) as (lo & A & _). exists lo, n. split; [exact A|]. exists 11. apply andb_true_iff in X as [X1 X2]. split; [cbn; lia|]. split; [exact X1|]. destruct (vx_need_cleanup n 11); [discriminate|reflexivity].
Qed.

(** Neighbours that can be merged. *)
Example C29_fix_applies : exists lo h l r, @node_ok tiny _ fxrep true lo l /\ @w_high tiny (fview l) = Some h /\
  @node_ok tiny _ fxrep true (Key h) r /\ fn_inner l = fn_inner r /\ @fx_can_merge tiny l r = true.
Proof.
  set (es := insf 40 ++ delf 17).
  assert (X : exists path, match pick_f es path with Some (n, Some m) => @fx_can_merge tiny n m | _ => false end = true)
    by (first [exists [0;2]; vm_compute; reflexivity | exists [0;0]; vm_compute; reflexivity | exists [0;1]; vm_compute; reflexivity
       | exists [0]; vm_compute; reflexivity| exists [1]; vm_compute; reflexivity| exists [2]; vm_compute; reflexivity | exists [3]; vm_compute; reflexivity
       | exists [1;0]; vm_compute; reflexivity| exists [1;1]; vm_compute; reflexivity | exists [1;2]; vm_compute; reflexivity]).
  clearbody es. destruct X as (path & X). destruct (pick_f es path) as [[n [m|]]|] eqn:E; try discriminate X.
  destruct (pick_f_ok _ _ _ _ E) as (lo & A & B). destruct (B m eq_refl) as (h & B1 & B2 & B3).
  exists lo, h, n, m. auto 6.
Qed.

Example C29_fix_ml_applies : exists lo h l r, @node_ok tiny _ frep false lo l /\ @w_high tiny (fview l) = Some h /\
  @node_ok tiny _ frep false (Key h) r /\ fn_inner l = fn_inner r /\ @fx_can_merge tiny l r = true.
Proof.
  set (es := insf 40 ++ delf 16).
  assert (X : exists path, match pick_m es path with Some (n, Some m) => negb (fn_inner n) && @fx_can_merge tiny n m | _ => false end = true)
    by (first [exists [0;0]; vm_compute; reflexivity | exists [0;1]; vm_compute; reflexivity | exists [0;2]; vm_compute; reflexivity
       | exists [0]; vm_compute; reflexivity| exists [1]; vm_compute; reflexivity| exists [2]; vm_compute; reflexivity | exists [3]; vm_compute; reflexivity
       | exists [1;0]; vm_compute; reflexivity| exists [1;1]; vm_compute; reflexivity | exists [1;2]; vm_compute; reflexivity]).
  clearbody es. destruct X as (path & X). destruct (pick_m es path) as [[n [m|]]|] eqn:E; try discriminate X.
  apply andb_true_iff in X as [X1 X2].
  destruct (pick_m_ok _ _ _ _ E) as (lo & A & B). destruct (fn_inner n) eqn:Ei; [discriminate|]. destruct (B eq_refl m eq_refl) as (h & B1 & B2 & B3).
  exists lo, h, n, m. rewrite Ei. auto 6.
Qed.

Example C29_var_applies : exists lo h l r, @node_ok vtiny _ vrep true lo l /\ @w_high vtiny (vview l) = Some h /\
  @node_ok vtiny _ vrep true (Key h) r /\ vn_inner l = vn_inner r /\ @vx_can_merge vtiny l r = true.
Proof.
  set (es := insv 40 ++ delv 17).
  assert (X : exists path, match pick_v es path with Some (n, Some m) => @vx_can_merge vtiny n m | _ => false end = true)
    by (first [exists [0;0]; vm_compute; reflexivity | exists [0;1]; vm_compute; reflexivity | exists [0;2]; vm_compute; reflexivity
       | exists [0]; vm_compute; reflexivity| exists [1]; vm_compute; reflexivity| exists [2]; vm_compute; reflexivity | exists [3]; vm_compute; reflexivity
       | exists [1;0]; vm_compute; reflexivity| exists [1;1]; vm_compute; reflexivity | exists [1;2]; vm_compute; reflexivity]).
  clearbody es. destruct X as (path & X). destruct (pick_v es path) as [[n [m|]]|] eqn:E; try discriminate X.
  destruct (pick_v_ok _ _ _ _ E) as (lo & A & B). destruct (B m eq_refl) as (h & B1 & B2 & B3).
  exists lo, h, n, m. auto 6.
Qed.

(** C27: the leaf above has readable ascending keys, and the bytes behind them are not
    readable. *)
Example C27_applies : exists n, fn_inner n = false /\ fn_rc n = 3 /\
  sorted_keys tiny (@fx_key tiny n) 0 3 /\ @fx_key tiny n 3 = None.
Proof.
  assert (X : match pick_f (insf 3) [] with
              | Some (n, _) => negb (fn_inner n) && (fn_rc n =? 3) &&
                  match @fx_key tiny n 0, @fx_key tiny n 1, @fx_key tiny n 2, @fx_key tiny n 3 with
                  | Some a, Some b, Some c, None => (a <? b) && (b <? c) && (a <? c) | _, _, _, _ => false end
              | None => false end = true) by (vm_compute; reflexivity).
  destruct (pick_f (insf 3) []) as [[n o]|] eqn:E; [|discriminate X]. exists n.
  repeat (apply andb_true_iff in X as [X ?]).
  destruct (fn_inner n); [discriminate|]. apply Nat.eqb_eq in H0.
  destruct (fx_key n 0) as [a|] eqn:E0; [|discriminate]. destruct (fx_key n 1) as [b|] eqn:E1; [|discriminate].
  destruct (fx_key n 2) as [c|] eqn:E2; [|discriminate]. destruct (fx_key n 3) eqn:E3; [discriminate|].
  repeat (apply andb_true_iff in H as [H ?]).
  split; [reflexivity|]. split; [exact H0|]. split; [|reflexivity]. split.
  - intros i Hi. destruct i as [|[|[|i]]]; eauto. lia.
  - intros i j ki kj _ Hij Hj Ei Ej. unfold klt.
    assert (Q : forall x y : option nat, x = y -> forall u v, x = Some u -> y = Some v -> u = v) by (intros; subst; congruence).
    destruct j as [|[|[|j]]]; [lia| | |lia]; destruct i as [|[|i]]; try lia;
      (first [rewrite (Q _ _ eq_refl _ _ Ei E0) | rewrite (Q _ _ eq_refl _ _ Ei E1) | rewrite (Q _ _ eq_refl _ _ Ei E2)]);
      (first [rewrite (Q _ _ eq_refl _ _ Ej E0) | rewrite (Q _ _ eq_refl _ _ Ej E1) | rewrite (Q _ _ eq_refl _ _ Ej E2)]); assumption.
Qed.

(** C30: a leaf with three records of which one was deleted. *)
Example C30_applies : exists n d, evolves vtiny n d /\ vn_inner n = false /\ vn_rc n = 3 /\
  @vx_recdel vtiny n 1 = Some true /\ vn_deleted n = 18.
Proof.
  set (w := fun n k => match @vx_write vtiny n k (k + 100) with Some (_, n') => n' | None => n end).
  set (n3 := w (w (w (@vx_new vtiny false) 4) 7) 9).
  assert (Hk : forall k : nat, 0 < @klen vtiny k <= @maxkey vtiny) by (intros k; cbn; pose proof (Nat.mod_upper_bound k 3); lia).
  assert (Hw : forall n d k, evolves vtiny n d -> vn_inner n = false -> exists d', evolves vtiny (w n k) d').
  { intros n d k H Hi. unfold w. destruct (vx_write n k (k + 100)) as [[rc n']|] eqn:E; [|eauto].
    destruct (C30_single_layer_steps vtiny vtiny_sizes vtiny_good n d k (k + 100) k 0 H (Hk k) (Hk k)) as [A _].
    destruct (A Hi) as (A1 & _). eauto. }
  destruct (Hw _ _ 4 (ev_new vtiny false) eq_refl) as (d1 & H1).
  destruct (Hw _ _ 7 H1 ltac:(vm_compute; reflexivity)) as (d2 & H2).
  destruct (Hw _ _ 9 H2 ltac:(vm_compute; reflexivity)) as (d3 & H3). fold n3 in H3.
  assert (X : match @vx_tomb vtiny n3 1 with
              | Some n4 => negb (vn_inner n4) && (vn_rc n4 =? 3) && (vn_deleted n4 =? 18) &&
                           match @vx_recdel vtiny n4 1 with Some true => true | _ => false end
              | None => false end = true) by (vm_compute; reflexivity).
  assert (X0 : vn_inner n3 = false) by (vm_compute; reflexivity).
  assert (X1 : 1 < vn_rc n3) by (apply Nat.ltb_lt; vm_compute; reflexivity).
  assert (X2 : @vx_recdel vtiny n3 1 = Some false) by (vm_compute; reflexivity).
  clearbody n3.
  destruct (@vx_tomb vtiny n3 1) as [n4|] eqn:E4; [|discriminate X].
  exists n4, d3. split; [exact (ev_tomb vtiny n3 d3 1 n4 H3 X0 X1 X2 E4)|].
  repeat (apply andb_true_iff in X as [X ?]).
  destruct (vn_inner n4); [discriminate|]. destruct (vx_recdel n4 1) as [[]|]; try discriminate.
  apply Nat.eqb_eq in H0, H4. auto.
Qed.

End Examples.

Print Assumptions C27_search_fixlen.
Print Assumptions C27_search_varlen.
Print Assumptions C28_split_single_layer_fixlen.
Print Assumptions C28_split_multi_layer_fixlen.
Print Assumptions C28_split_varlen.
Print Assumptions C28_reachable_single_layer_fixlen.
Print Assumptions C28_reachable_single_layer_varlen.
Print Assumptions C28_reachable_multi_layer_fixlen.
Print Assumptions C28_reachable_multi_layer_varlen.
Print Assumptions C29_merge_single_layer_fixlen.
Print Assumptions C29_merge_multi_layer_fixlen.
Print Assumptions C29_merge_varlen.
Print Assumptions C29_merge_right_node_single_layer_varlen.
Print Assumptions C30_dead_space_exact.
Print Assumptions C30_reuse_revives.
Print Assumptions C30_cleanup.
Print Assumptions C30_single_layer_steps.
Print Assumptions C30_multi_layer_steps.
