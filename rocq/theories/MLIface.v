(** Interface between the node layouts and the multi-layer trees.

    [MLOps] lists the node functions the multi-layer trees (pml/b_tree.hpp,
    oml/b_tree.hpp) call; the fixed-length and variable-length nodes are instances.
    [MLLaws] states what a tree may assume about them.  The laws are proved for each
    instance (FixML.v, VarML.v); nothing is assumed. *)
From Coq Require Import List Arith ZArith Bool Sorted Lia.
From Verif Require Import Params Mem Common NodeAbs SLIface BaseIface.
Import ListNotations.

Class MLOps (P : Params) := {
  mn : Type;
  mn_inner : mn -> bool;
  mn_removed : mn -> bool;
  mn_next : mn -> option addr;
  mn_rc : mn -> nat;
  mn_usage : mn -> nat;
  mn_new : bool -> mn;                          (* new Node{is_inner} *)
  mn_root0 : mn;                                (* the initial root leaf *)
  mn_root2 : K -> addr -> addr -> option mn;    (* new root with two children *)
  mn_search : mn -> K -> option (node_rc * nat);
  mn_child : mn -> nat -> option addr;
  mn_comphigh : mn -> K -> option bool;
  mn_highkey : mn -> option K;
  mn_endpos : mn -> option (K * bool) -> option (bool * nat);
  mn_recdel : mn -> nat -> option bool;
  mn_key : mn -> nat -> option K;
  mn_record : mn -> nat -> option (K * V);
  mn_read : mn -> K -> option (option V);
  mn_reclen : K -> nat;                         (* key_len + kPayLen *)
  mn_maxlen : nat;                              (* kMaxKeyLen + kMaxPayLen *)
  (* NeedSplit / NeedMerge: the answer, and the cleaned-up node if CleanUp ran *)
  mn_need_split : mn -> nat -> option (bool * option mn);
  mn_need_merge : mn -> option (bool * option mn);
  mn_can_merge : mn -> mn -> bool;
  mn_write : mn -> K -> V -> option mn;
  mn_insert : mn -> K -> V -> option (return_code * mn);
  mn_update : mn -> K -> V -> option (return_code * mn);
  mn_delete : mn -> K -> option (return_code * mn);
  mn_insert_child : mn -> addr -> K -> nat -> option mn;
  mn_delete_child : mn -> nat -> option mn;
  mn_split : mn -> addr -> mn -> option (mn * mn);
  mn_merge : mn -> mn -> option mn;
  mn_mark_removed : addr -> mn -> mn;           (* the right node of an OML merge *)
  mn_remove_root : mn -> mn;
}.

Section Defs.
Context {P : Params}.

(** CleanUp leaves the records of a leaf and everything in an inner node alone. *)
Definition refreshed (a a' : anode) : Prop :=
  if a_inner a then a' = a else leaf_upd a a' [] (live (a_slots a)).

Definition after {N : MLOps P} (n : mn) (o : option mn) : mn :=
  match o with Some n' => n' | None => n end.

End Defs.

Class MLLaws (P : Params) (N : MLOps P) := {
  mrep : mn -> anode -> Prop;
  mvalid : K -> Prop;          (* keys an API caller may use *)
  mroom : mn -> Prop;          (* one more record certainly fits *)
  msplit_ok : mn -> Prop;      (* enough records to split *)

  M_hdr : forall n a, mrep n a ->
    mn_inner n = a_inner a /\ mn_removed n = a_removed a /\ mn_next n = a_next a /\
    mn_rc n = length (a_slots a);
  M_usage : forall n a, mrep n a -> mn_usage n <= page;
  M_valid_high : forall n a k, mrep n a -> a_high a = Some k -> mvalid k;
  M_valid_slot : forall n a i s k, mrep n a -> a_inner a = false ->
    nth_error (a_slots a) i = Some s -> s_key s = Some k -> mvalid k;
  M_root0 : mrep mn_root0 (ANode false false None None None []);
  M_root2 : forall k l r, mvalid k -> exists n s0, mn_root2 k l r = Some n /\
    mrep n (ANode true false None None None
             [Slot s0 (PP l) false; Slot (Some k) (PP r) false]);
  M_search_leaf : forall n a key, mrep n a -> a_inner a = false -> leaf_ok (a_slots a) ->
    mvalid key ->
    exists rc pos, mn_search n key = Some (rc, pos) /\ leaf_search_spec (a_slots a) key rc pos;
  M_search_inner : forall n a key, mrep n a -> a_inner a = true -> inner_ok (a_slots a) ->
    mvalid key ->
    exists rc pos, mn_search n key = Some (rc, pos) /\ inner_search_spec (a_slots a) key rc pos;
  M_child : forall n a i s c, mrep n a -> a_inner a = true -> nth_error (a_slots a) i = Some s ->
    s_pay s = PP c -> mn_child n i = Some c;
  M_comphigh : forall n a key, mrep n a ->
    mn_comphigh n key = Some (match a_high a with Some h => ltb key h | None => true end);
  M_highkey : forall n a h, mrep n a -> a_high a = Some h -> mn_highkey n = Some h;
  M_endpos : forall n a e, mrep n a -> a_inner a = false -> leaf_ok (a_slots a) ->
    (forall k c, e = Some (k, c) -> mvalid k) ->
    exists is_end pos, mn_endpos n e = Some (is_end, pos) /\ endpos_spec a e is_end pos;
  M_record : forall n a i s, mrep n a -> a_inner a = false -> leaf_ok (a_slots a) ->
    nth_error (a_slots a) i = Some s ->
    mn_recdel n i = Some (s_del s) /\ mn_key n i = s_key s /\
    forall k v, s_key s = Some k -> s_pay s = PV v -> s_del s = false ->
      mn_record n i = Some (k, v);
  M_read : forall n a key, mrep n a -> a_inner a = false -> leaf_ok (a_slots a) -> mvalid key ->
    mn_read n key = Some (assoc key (live (a_slots a)));
  M_need_split : forall n a, mrep n a -> body_ok (a_inner a) (a_slots a) ->
    exists b o a', mn_need_split n mn_maxlen = Some (b, o) /\
      mrep (after n o) a' /\ refreshed a a' /\
      (b = true -> msplit_ok (after n o)) /\ (b = false -> mroom (after n o));
  M_leaf_fits : forall n a key, mrep n a -> a_inner a = false -> mroom n -> mvalid key ->
    mn_need_split n (mn_reclen key) = Some (false, None);
  M_need_merge : forall n a, mrep n a -> body_ok (a_inner a) (a_slots a) ->
    exists b o a', mn_need_merge n = Some (b, o) /\
      mrep (after n o) a' /\ refreshed a a' /\ (mroom n -> mroom (after n o));
  M_write : forall n a key v, mrep n a -> a_inner a = false -> leaf_ok (a_slots a) ->
    mvalid key -> mroom n ->
    exists n' a', mn_write n key v = Some n' /\ mrep n' a' /\
      leaf_upd a a' [key] (upsert key v (live (a_slots a)));
  M_insert : forall n a key v, mrep n a -> a_inner a = false -> leaf_ok (a_slots a) ->
    mvalid key -> mroom n ->
    exists rc n' a', mn_insert n key v = Some (rc, n') /\ mrep n' a' /\
      ((rc = kKeyExist /\ n' = n /\ a' = a /\ assoc key (live (a_slots a)) <> None) \/
       (rc = kSuccess /\ assoc key (live (a_slots a)) = None /\
        leaf_upd a a' [key] (upsert key v (live (a_slots a)))));
  M_update : forall n a key v, mrep n a -> a_inner a = false -> leaf_ok (a_slots a) ->
    mvalid key ->
    exists rc n' a', mn_update n key v = Some (rc, n') /\ mrep n' a' /\
      ((rc = kSuccess /\ assoc key (live (a_slots a)) <> None /\
        leaf_upd a a' [] (upsert key v (live (a_slots a)))) \/
       (rc = kKeyNotExist /\ n' = n /\ a' = a /\ assoc key (live (a_slots a)) = None));
  M_delete : forall n a key, mrep n a -> a_inner a = false -> leaf_ok (a_slots a) ->
    mvalid key ->
    exists rc n' a', mn_delete n key = Some (rc, n') /\ mrep n' a' /\
      ((rc = kSuccess /\ assoc key (live (a_slots a)) <> None /\
        leaf_upd a a' [] (remove_key key (live (a_slots a)))) \/
       (rc = kKeyNotExist /\ n' = n /\ a' = a /\ assoc key (live (a_slots a)) = None));
  M_insert_child : forall n a l1 s l2 r sep, mrep n a -> a_inner a = true ->
    a_slots a = l1 ++ s :: l2 -> mvalid sep -> mroom n ->
    exists n' a', mn_insert_child n r sep (length l1) = Some n' /\ mrep n' a' /\
      same_frame a a' /\ a_slots a' = l1 ++ s :: Slot (Some sep) (PP r) false :: l2;
  M_delete_child : forall n a l1 s s' l2, mrep n a -> a_inner a = true ->
    inner_ok (a_slots a) -> a_slots a = l1 ++ s :: s' :: l2 ->
    exists n' a', mn_delete_child n (length l1) = Some n' /\ mrep n' a' /\
      same_frame a a' /\ a_slots a' = l1 ++ s :: l2;
  M_split : forall n a ra, mrep n a -> body_ok (a_inner a) (a_slots a) -> msplit_ok n ->
    exists l' r' sep s1 s2 lw1 lw2, mn_split n ra (mn_new (a_inner a)) = Some (l', r') /\
      mrep l' (ANode (a_inner a) (a_removed a) (if a_inner a then a_next a else Some ra)
                     lw1 (Some sep) s1) /\
      mrep r' (ANode (a_inner a) false (if a_inner a then None else a_next a)
                     lw2 (a_high a) s2) /\
      split_spec a sep s1 s2 /\ mvalid sep /\ mroom l' /\ mroom r' /\ halves_live s1 s2;
  M_merge : forall l al r ar h, mrep l al -> mrep r ar -> a_inner al = a_inner ar ->
    body_ok (a_inner al) (a_slots al) -> body_ok (a_inner ar) (a_slots ar) ->
    a_high al = Some h ->
    (forall k, In k (keys_of (a_slots al)) -> a_inner al = false -> klt k h) ->
    (forall k, In k (keys_of (a_slots ar)) -> a_inner al = false -> kle h k) ->
    mn_can_merge l r = true ->
    exists l' s lw, mn_merge l r = Some l' /\
      mrep l' (ANode (a_inner al) (a_removed al)
                     (if a_inner al then a_next al else a_next ar) lw (a_high ar) s) /\
      merge_spec al ar s /\ mroom l';
  M_mark : forall la n, mn_removed (mn_mark_removed la n) = true /\
    mn_removed (mn_remove_root n) = true;
}.

Section OfML.
Context {P : Params}.

Definition base_of_ml (N : MLOps P) : BaseOps P := {|
  bn := mn;
  bn_inner := mn_inner;
  bn_removed := mn_removed;
  bn_next := mn_next;
  bn_rc := mn_rc;
  bn_usage := mn_usage;
  bn_search := mn_search;
  bn_child := mn_child;
  bn_comphigh := mn_comphigh;
  bn_endpos := mn_endpos;
  bn_recdel := mn_recdel;
  bn_key := mn_key;
  bn_record := mn_record;
|}.

Definition base_laws_of_ml (N : MLOps P) (L : MLLaws P N) : BaseLaws P (base_of_ml N).
Proof.
  refine {| brep := (mrep : @bn P (base_of_ml N) -> _); bvalid := mvalid |};
    cbn [base_of_ml bn bn_inner bn_removed bn_next bn_rc bn_usage bn_search bn_child bn_comphigh
         bn_endpos bn_recdel bn_key bn_record].
  - apply M_hdr.
  - apply M_usage.
  - apply M_search_leaf.
  - apply M_child.
  - apply M_comphigh.
  - apply M_endpos.
  - apply M_record.
  - apply M_valid_slot.
Defined.

End OfML.
