(** Interface between the node layouts and the single-layer trees.

    [SLOps] lists the node functions the single-layer trees (psl/b_tree.hpp,
    osl/b_tree.hpp) call; the fixed-length and variable-length nodes are instances.
    [SLLaws] states what a tree may assume about them.  The laws are proved for each
    instance (FixSL.v, VarSL.v); nothing is assumed. *)
From Coq Require Import List Arith ZArith Bool Sorted Lia.
From Verif Require Import Params Mem Common NodeAbs.
Import ListNotations.

Class SLOps (P : Params) := {
  nd : Type;
  nd_inner : nd -> bool;
  nd_removed : nd -> bool;
  nd_next : nd -> option addr;
  nd_rc : nd -> nat;
  nd_usage : nd -> nat;
  nd_new : bool -> nd;                          (* new Node{is_inner} *)
  nd_root0 : nd;                                (* the initial root leaf *)
  nd_root2 : K -> addr -> addr -> option nd;    (* new root with two children *)
  nd_search : nd -> K -> option (node_rc * nat);
  nd_child : nd -> nat -> option addr;
  nd_comphigh : nd -> K -> option bool;
  nd_highkey : nd -> option K;
  nd_sepkey : nd -> bool -> option K;
  nd_endpos : nd -> option (K * bool) -> option (bool * nat);
  nd_recdel : nd -> nat -> option bool;
  nd_key : nd -> nat -> option K;
  nd_record : nd -> nat -> option (K * V);
  nd_read : nd -> K -> option (option V);
  nd_write : nd -> K -> V -> option (node_rc * nd);
  nd_insert : nd -> K -> V -> option (node_rc * nd);
  nd_write2 : nd -> K -> V -> option (node_rc * nd);   (* Write after a split *)
  nd_insert2 : nd -> K -> V -> option (node_rc * nd);  (* Insert after a split *)
  nd_update : nd -> K -> V -> option (return_code * nd);
  nd_delete : nd -> K -> option (node_rc * nd);
  nd_insert_child : nd -> addr -> K -> option (node_rc * nd);
  nd_delete_child : nd -> K -> option (node_rc * nd);
  nd_split : nd -> addr -> nd -> option (nd * nd);
  nd_merge : addr -> nd -> nd -> option (nd * nd);
  nd_can_merge : nd -> nd -> bool;
  nd_remove_root : nd -> nd;
}.

Section Defs.
Context {P : Params}.

(** Position of a scan end bound in a leaf. *)
Definition endpos_spec (a : anode) (e : option (K * bool)) (is_end : bool) (pos : nat) : Prop :=
  is_end = (match a_next a with
            | None => true
            | Some _ => match e with
                        | None => false
                        | Some (k, _) => match a_high a with None => true | Some h => ltb k h end
                        end
            end) /\
  match is_end, e with
  | true, Some (k, c) =>
      exists l1 l2, a_slots a = l1 ++ l2 /\ pos = length l1 /\
        (forall x v, In (x, v) (live l1) -> if c : bool then kle x k else klt x k) /\
        (forall x v, In (x, v) (live l2) -> if c : bool then klt k x else kle k x)
  | _, _ => pos = length (a_slots a)
  end.

Definition same_frame (a a' : anode) : Prop :=
  a_inner a' = a_inner a /\ a_removed a' = a_removed a /\ a_next a' = a_next a /\
  a_low a' = a_low a /\ a_high a' = a_high a.

(** A leaf update: the frame and the record order survive, no foreign keys appear. *)
Definition leaf_upd (a a' : anode) (extra : list K) (recs : list (K * V)) : Prop :=
  same_frame a a' /\ leaf_ok (a_slots a') /\ live (a_slots a') = recs /\
  incl (keys_of (a_slots a')) (extra ++ keys_of (a_slots a)).

(** What splitting [a] may produce. *)
Definition split_spec (a : anode) (sep : K) (s1 s2 : list slot) : Prop :=
  In sep (keys_of (a_slots a)) /\
  if a_inner a then
    a_slots a = s1 ++ s2 /\ s1 <> [] /\
    exists s0 tl, s2 = s0 :: tl /\ s_key s0 = Some sep
  else
    live (a_slots a) = live s1 ++ live s2 /\ leaf_ok s1 /\ leaf_ok s2 /\
    incl (keys_of s1) (keys_of (a_slots a)) /\ incl (keys_of s2) (keys_of (a_slots a)) /\
    (forall k, In k (keys_of s1) -> klt k sep) /\ (forall k, In k (keys_of s2) -> kle sep k) /\
    (exists k0, In k0 (keys_of (a_slots a)) /\ klt k0 sep).

(** Both halves hold live slots only, and at least one each. *)
Definition halves_live (s1 s2 : list slot) : Prop :=
  s1 <> [] /\ s2 <> [] /\ forall s, In s (s1 ++ s2) -> s_del s = false.

(** What merging [al] with its right sibling [ar] may produce. *)
Definition merge_spec (al ar : anode) (s : list slot) : Prop :=
  if a_inner al then s = a_slots al ++ a_slots ar
  else leaf_ok s /\ live s = live (a_slots al) ++ live (a_slots ar) /\
       incl (keys_of s) (keys_of (a_slots al) ++ keys_of (a_slots ar)).

End Defs.

Class SLLaws (P : Params) (N : SLOps P) := {
  rep : nd -> anode -> Prop;
  kvalid : K -> Prop;         (* keys an API caller may use *)
  room : nd -> Prop;          (* one more record certainly fits *)
  splittable : nd -> Prop;    (* enough records to split *)

  L_hdr : forall n a, rep n a ->
    nd_inner n = a_inner a /\ nd_removed n = a_removed a /\ nd_next n = a_next a /\
    nd_rc n = length (a_slots a);
  L_usage : forall n a, rep n a -> nd_usage n <= page;
  L_kvalid_high : forall n a k, rep n a -> a_high a = Some k -> kvalid k;
  L_kvalid_slot : forall n a i s k, rep n a -> a_inner a = false ->
    nth_error (a_slots a) i = Some s -> s_key s = Some k -> kvalid k;
  L_root0 : rep nd_root0 (ANode false false None None None []);
  L_root2 : forall k l r, kvalid k -> exists n s0, nd_root2 k l r = Some n /\
    rep n (ANode true false None None None
             [Slot s0 (PP l) false; Slot (Some k) (PP r) false]);
  L_search_leaf : forall n a key, rep n a -> a_inner a = false -> leaf_ok (a_slots a) ->
    kvalid key ->
    exists rc pos, nd_search n key = Some (rc, pos) /\ leaf_search_spec (a_slots a) key rc pos;
  L_search_inner : forall n a key, rep n a -> a_inner a = true -> inner_ok (a_slots a) ->
    kvalid key ->
    exists rc pos, nd_search n key = Some (rc, pos) /\ inner_search_spec (a_slots a) key rc pos;
  L_child : forall n a i s c, rep n a -> a_inner a = true -> nth_error (a_slots a) i = Some s ->
    s_pay s = PP c -> nd_child n i = Some c;
  L_comphigh : forall n a key, rep n a ->
    nd_comphigh n key = Some (match a_high a with Some h => ltb key h | None => true end);
  L_highkey : forall n a h, rep n a -> a_high a = Some h -> nd_highkey n = Some h;
  L_sepkey_l : forall n a h, rep n a -> a_high a = Some h -> nd_sepkey n true = Some h;
  L_sepkey_r : forall n a k, rep n a -> a_low a = Some k -> nd_sepkey n false = Some k;
  L_endpos : forall n a e, rep n a -> a_inner a = false -> leaf_ok (a_slots a) ->
    (forall k c, e = Some (k, c) -> kvalid k) ->
    exists is_end pos, nd_endpos n e = Some (is_end, pos) /\ endpos_spec a e is_end pos;
  L_record : forall n a i s, rep n a -> a_inner a = false -> leaf_ok (a_slots a) ->
    nth_error (a_slots a) i = Some s ->
    nd_recdel n i = Some (s_del s) /\ nd_key n i = s_key s /\
    forall k v, s_key s = Some k -> s_pay s = PV v -> s_del s = false ->
      nd_record n i = Some (k, v);
  L_read : forall n a key, rep n a -> a_inner a = false -> leaf_ok (a_slots a) -> kvalid key ->
    nd_read n key = Some (assoc key (live (a_slots a)));
  L_write : forall n a key v, rep n a -> a_inner a = false -> leaf_ok (a_slots a) ->
    kvalid key ->
    exists rc n' a', nd_write n key v = Some (rc, n') /\ rep n' a' /\
      ((rc = kCompleted /\ leaf_upd a a' [key] (upsert key v (live (a_slots a)))) \/
       (rc = kNeedSplit /\ leaf_upd a a' [] (live (a_slots a)) /\
        ~ In key (keys_of (a_slots a')) /\ splittable n'));
  L_insert : forall n a key v, rep n a -> a_inner a = false -> leaf_ok (a_slots a) ->
    kvalid key ->
    exists rc n' a', nd_insert n key v = Some (rc, n') /\ rep n' a' /\
      ((rc = kKeyAlreadyInserted /\ leaf_upd a a' [] (live (a_slots a)) /\
        assoc key (live (a_slots a)) <> None) \/
       (rc = kCompleted /\ assoc key (live (a_slots a)) = None /\
        leaf_upd a a' [key] (upsert key v (live (a_slots a)))) \/
       (rc = kNeedSplit /\ assoc key (live (a_slots a)) = None /\
        leaf_upd a a' [] (live (a_slots a)) /\
        ~ In key (keys_of (a_slots a')) /\ splittable n'));
  L_write2 : forall n a key v, rep n a -> a_inner a = false -> leaf_ok (a_slots a) ->
    kvalid key -> room n -> ~ In key (keys_of (a_slots a)) ->
    exists n' a', nd_write2 n key v = Some (kCompleted, n') /\ rep n' a' /\
      leaf_upd a a' [key] (upsert key v (live (a_slots a)));
  L_insert2 : forall n a key v, rep n a -> a_inner a = false -> leaf_ok (a_slots a) ->
    kvalid key -> room n -> ~ In key (keys_of (a_slots a)) ->
    exists n' a', nd_insert2 n key v = Some (kCompleted, n') /\ rep n' a' /\
      leaf_upd a a' [key] (upsert key v (live (a_slots a)));
  L_update : forall n a key v, rep n a -> a_inner a = false -> leaf_ok (a_slots a) ->
    kvalid key ->
    exists rc n' a', nd_update n key v = Some (rc, n') /\ rep n' a' /\
      ((rc = kSuccess /\ assoc key (live (a_slots a)) <> None /\
        leaf_upd a a' [] (upsert key v (live (a_slots a)))) \/
       (rc = kKeyNotExist /\ assoc key (live (a_slots a)) = None /\
        leaf_upd a a' [] (live (a_slots a))));
  L_delete : forall n a key, rep n a -> a_inner a = false -> leaf_ok (a_slots a) ->
    kvalid key ->
    exists rc n' a', nd_delete n key = Some (rc, n') /\ rep n' a' /\
      (((rc = kCompleted \/ rc = kNeedMerge) /\ assoc key (live (a_slots a)) <> None /\
        leaf_upd a a' [] (remove_key key (live (a_slots a)))) \/
       (rc = kKeyNotInserted /\ assoc key (live (a_slots a)) = None /\
        leaf_upd a a' [] (live (a_slots a))));
  L_insert_child : forall n a r sep, rep n a -> a_inner a = true -> inner_ok (a_slots a) ->
    kvalid sep -> ~ In sep (keys_of (tl (a_slots a))) ->
    exists rc n' a', nd_insert_child n r sep = Some (rc, n') /\ rep n' a' /\ same_frame a a' /\
      ((rc = kCompleted /\ exists l1 s l2, a_slots a = l1 ++ s :: l2 /\
          (l1 <> [] -> exists k, s_key s = Some k /\ klt k sep) /\
          (forall k, In k (keys_of l2) -> klt sep k) /\
          a_slots a' = l1 ++ s :: Slot (Some sep) (PP r) false :: l2) \/
       (rc = kNeedSplit /\ a' = a /\ splittable n' /\ ~ room n));
  L_delete_child : forall n a del, rep n a -> a_inner a = true -> inner_ok (a_slots a) ->
    kvalid del ->
    exists rc n' a', nd_delete_child n del = Some (rc, n') /\ rep n' a' /\ same_frame a a' /\
      (((rc = kCompleted \/ rc = kNeedMerge) /\
        exists l1 s l2, a_slots a = l1 ++ s :: l2 /\ l1 <> [] /\ s_key s = Some del /\
          a_slots a' = l1 ++ l2) \/
       (rc = kAbortMerge /\ a' = a /\ forall k, In k (keys_of (tl (a_slots a))) -> klt del k) \/
       (rc = kNeedRetry /\ a' = a /\ ~ In del (keys_of (tl (a_slots a))) /\
        exists k, In k (keys_of (tl (a_slots a))) /\ kle k del));
  L_split : forall n a ra, rep n a -> body_ok (a_inner a) (a_slots a) -> splittable n ->
    exists l' r' sep s1 s2, nd_split n ra (nd_new (a_inner a)) = Some (l', r') /\
      rep l' (ANode (a_inner a) (a_removed a) (Some ra) (a_low a) (Some sep) s1) /\
      rep r' (ANode (a_inner a) false (a_next a) (Some sep) (a_high a) s2) /\
      split_spec a sep s1 s2 /\ kvalid sep /\ room l' /\ room r' /\ halves_live s1 s2;
  L_merge : forall la l al r ar, rep l al -> rep r ar -> a_inner al = a_inner ar ->
    body_ok (a_inner al) (a_slots al) -> body_ok (a_inner ar) (a_slots ar) ->
    (exists h, a_high al = Some h /\ a_low ar = Some h /\
      (forall k, In k (keys_of (a_slots al)) -> a_inner al = false -> klt k h) /\
      (forall k, In k (keys_of (a_slots ar)) -> kle h k)) ->
    nd_can_merge l r = true ->
    exists l' r' s, nd_merge la l r = Some (l', r') /\
      rep l' (ANode (a_inner al) (a_removed al) (a_next ar) (a_low al) (a_high ar) s) /\
      merge_spec al ar s /\ nd_removed r' = true /\ nd_next r' = Some la;
  L_remove_root : forall n a, rep n a ->
    nd_removed (nd_remove_root n) = true /\ nd_next (nd_remove_root n) = None;
  L_remove_root_inner : forall n, nd_inner (nd_remove_root n) = nd_inner n;
  L_merge_inner : forall la l r l' r', nd_merge la l r = Some (l', r') -> nd_inner r' = nd_inner r;
}.
