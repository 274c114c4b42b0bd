(** Abstract specification: what a user of the tree relies on.
    Nothing here refers to nodes, pages or latches. *)
From Coq Require Import List Arith Bool Sorted.
From Verif Require Import Params.
Import ListNotations.

Section Spec.
Context {P : Params}.

(** The abstract state: a finite map seen as a lookup function. *)
Definition amap := K -> option V.
Definition amap_empty : amap := fun _ => None.
Definition amap_set (m : amap) (k : K) (o : option V) : amap :=
  fun k' => if keqb k' k then o else m k'.
Definition amap_eq (m1 m2 : amap) : Prop := forall k, m1 k = m2 k.

(** Point operations of the public API (b_tree.hpp) and their results. *)
Inductive call :=
| CRead (k : K)
| CWrite (k : K) (v : V)
| CInsert (k : K) (v : V)
| CUpdate (k : K) (v : V)
| CDelete (k : K).

Inductive ret :=
| RPayload (o : option V)      (* Read: std::optional<Payload> *)
| RSuccess                     (* ReturnCode::kSuccess *)
| RKeyExist                    (* ReturnCode::kKeyExist *)
| RKeyNotExist.                (* ReturnCode::kKeyNotExist *)

Definition call_key (c : call) : K :=
  match c with
  | CRead k | CWrite k _ | CInsert k _ | CUpdate k _ | CDelete k => k
  end.

(** One call on the abstract map. *)
Definition spec_step (m : amap) (c : call) : amap * ret :=
  match c with
  | CRead k => (m, RPayload (m k))
  | CWrite k v => (amap_set m k (Some v), RSuccess)
  | CInsert k v =>
      match m k with
      | Some _ => (m, RKeyExist)
      | None => (amap_set m k (Some v), RSuccess)
      end
  | CUpdate k v =>
      match m k with
      | Some _ => (amap_set m k (Some v), RSuccess)
      | None => (m, RKeyNotExist)
      end
  | CDelete k =>
      match m k with
      | Some _ => (amap_set m k None, RSuccess)
      | None => (m, RKeyNotExist)
      end
  end.

(** A sequence of calls. *)
Fixpoint spec_run (m : amap) (cs : list call) : amap * list ret :=
  match cs with
  | [] => (m, [])
  | c :: cs' =>
      let (m1, r) := spec_step m c in
      let (m2, rs) := spec_run m1 cs' in
      (m2, r :: rs)
  end.

(** Scan ranges: an absent bound is unbounded; the flag says whether the bound is closed. *)
Definition bound := option (K * bool).

Definition above (b : bound) (k : K) : Prop :=
  match b with
  | None => True
  | Some (b, true) => kle b k
  | Some (b, false) => klt b k
  end.

Definition below (b : bound) (k : K) : Prop :=
  match b with
  | None => True
  | Some (b, true) => kle k b
  | Some (b, false) => klt k b
  end.

(** [l] is the answer to a scan of [m]: exactly the bindings in range, ascending. *)
Definition is_scan (m : amap) (lo hi : bound) (l : list (K * V)) : Prop :=
  StronglySorted klt (map fst l) /\
  forall k v, In (k, v) l <-> (m k = Some v /\ above lo k /\ below hi k).

(** The map that holds exactly the entries of a list (later entries do not override:
    used with strictly sorted lists only). *)
Fixpoint amap_of (l : list (K * V)) : amap :=
  match l with
  | [] => amap_empty
  | (k, v) :: l' => amap_set (amap_of l') k (Some v)
  end.

(** Sessions in which the tree may also be bulkloaded: a bulkload of a non-empty list
    replaces the contents, one of an empty list changes nothing; both report success. *)
Inductive bcall :=
| BCall (c : call)
| BLoad (entries : list (K * V)).

Definition spec_bstep (m : amap) (b : bcall) : amap * ret :=
  match b with
  | BCall c => spec_step m c
  | BLoad [] => (m, RSuccess)
  | BLoad (e :: l) => (amap_of (e :: l), RSuccess)
  end.

Fixpoint spec_brun (m : amap) (bs : list bcall) : amap * list ret :=
  match bs with
  | [] => (m, [])
  | b :: bs' =>
      let (m1, r) := spec_bstep m b in
      let (m2, rs) := spec_brun m1 bs' in
      (m2, r :: rs)
  end.

End Spec.
