(** The node functions used by code that is the same in all tree variants: destructor,
    statistics and iterators.  Instances come from the single-layer interface (here) and
    the multi-layer interface (MLIface.v). *)
From Coq Require Import List Arith ZArith Bool Sorted Lia.
From Verif Require Import Params Mem Common NodeAbs SLIface.
Import ListNotations.

Class BaseOps (P : Params) := {
  bn : Type;
  bn_inner : bn -> bool;
  bn_removed : bn -> bool;
  bn_next : bn -> option addr;
  bn_rc : bn -> nat;
  bn_usage : bn -> nat;
  bn_search : bn -> K -> option (node_rc * nat);
  bn_child : bn -> nat -> option addr;
  bn_comphigh : bn -> K -> option bool;
  bn_endpos : bn -> option (K * bool) -> option (bool * nat);
  bn_recdel : bn -> nat -> option bool;
  bn_key : bn -> nat -> option K;
  bn_record : bn -> nat -> option (K * V);
}.

Class BaseLaws (P : Params) (B : BaseOps P) := {
  brep : bn -> anode -> Prop;
  bvalid : K -> Prop;
  B_hdr : forall n a, brep n a ->
    bn_inner n = a_inner a /\ bn_removed n = a_removed a /\ bn_next n = a_next a /\
    bn_rc n = length (a_slots a);
  B_usage : forall n a, brep n a -> bn_usage n <= page;
  B_search_leaf : forall n a key, brep n a -> a_inner a = false -> leaf_ok (a_slots a) ->
    bvalid key ->
    exists rc pos, bn_search n key = Some (rc, pos) /\ leaf_search_spec (a_slots a) key rc pos;
  B_child : forall n a i s c, brep n a -> a_inner a = true -> nth_error (a_slots a) i = Some s ->
    s_pay s = PP c -> bn_child n i = Some c;
  B_comphigh : forall n a key, brep n a ->
    bn_comphigh n key = Some (match a_high a with Some h => ltb key h | None => true end);
  B_endpos : forall n a e, brep n a -> a_inner a = false -> leaf_ok (a_slots a) ->
    (forall k c, e = Some (k, c) -> bvalid k) ->
    exists is_end pos, bn_endpos n e = Some (is_end, pos) /\ endpos_spec a e is_end pos;
  B_record : forall n a i s, brep n a -> a_inner a = false -> leaf_ok (a_slots a) ->
    nth_error (a_slots a) i = Some s ->
    bn_recdel n i = Some (s_del s) /\ bn_key n i = s_key s /\
    forall k v, s_key s = Some k -> s_pay s = PV v -> s_del s = false ->
      bn_record n i = Some (k, v);
  B_valid_key : forall n a i s k, brep n a -> a_inner a = false ->
    nth_error (a_slots a) i = Some s -> s_key s = Some k -> bvalid k;
}.

Section OfSL.
Context {P : Params}.

Definition base_of_sl (N : SLOps P) : BaseOps P := {|
  bn := nd;
  bn_inner := nd_inner;
  bn_removed := nd_removed;
  bn_next := nd_next;
  bn_rc := nd_rc;
  bn_usage := nd_usage;
  bn_search := nd_search;
  bn_child := nd_child;
  bn_comphigh := nd_comphigh;
  bn_endpos := nd_endpos;
  bn_recdel := nd_recdel;
  bn_key := nd_key;
  bn_record := nd_record;
|}.

Definition base_laws_of_sl (N : SLOps P) (L : SLLaws P N) : BaseLaws P (base_of_sl N).
Proof.
  refine {| brep := (rep : @bn P (base_of_sl N) -> _); bvalid := kvalid |};
    cbn [base_of_sl bn bn_inner bn_removed bn_next bn_rc bn_usage bn_search bn_child bn_comphigh
         bn_endpos bn_recdel bn_key bn_record].
  - apply L_hdr.
  - apply L_usage.
  - apply L_search_leaf.
  - apply L_child.
  - apply L_comphigh.
  - apply L_endpos.
  - apply L_record.
  - apply L_kvalid_slot.
Defined.

End OfSL.
