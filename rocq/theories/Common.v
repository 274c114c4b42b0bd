(** Codes shared by all node and tree models. *)
From Coq Require Import List Arith ZArith Bool.
From Verif Require Import Params Mem.

(** component/common.hpp:41-50 enum NodeRC. *)
Inductive node_rc :=
| kCompleted
| kKeyNotInserted
| kKeyAlreadyDeleted
| kKeyAlreadyInserted
| kNeedSplit
| kNeedMerge
| kAbortMerge
| kNeedRetry.

(** utility.hpp enum ReturnCode (only the codes used by the API). *)
Inductive return_code :=
| kSuccess
| kKeyNotExist
| kKeyExist.

Definition b2n (b : bool) : nat := if b then 1 else 0.

(** The binary search loop shared by both node layouts (psl/node_fixlen.hpp:390-405,
    psl/node_varlen.hpp SearchRecord).  [kf i] reads the key of record i.  Positions are
    64-bit signed in the code and unbounded integers here; record counts are 16-bit.
    The result is (true, pos) when an equivalent key is at pos, and (false, begin_pos)
    when the loop ends.  Running out of fuel is reported as undefined behaviour. *)
Fixpoint bsearch {P : Params} (fuel : nat) (kf : nat -> option K) (key : K) (b e : Z)
  : option (bool * Z) :=
  match fuel with
  | O => None
  | S fuel' =>
      if Z.leb b e then
        let pos := Z.div (b + e) 2 in
        let? ik := kf (Z.to_nat pos) in
        if ltb key ik then bsearch fuel' kf key b (pos - 1)
        else if ltb ik key then bsearch fuel' kf key (pos + 1) e
        else Some (true, pos)
      else Some (false, b)
  end.

Definition node_rc_eqb (a b : node_rc) : bool :=
  match a, b with
  | kCompleted, kCompleted | kKeyNotInserted, kKeyNotInserted
  | kKeyAlreadyDeleted, kKeyAlreadyDeleted | kKeyAlreadyInserted, kKeyAlreadyInserted
  | kNeedSplit, kNeedSplit | kNeedMerge, kNeedMerge
  | kAbortMerge, kAbortMerge | kNeedRetry, kNeedRetry => true
  | _, _ => false
  end.
