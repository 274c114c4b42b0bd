(** Executions of the optimistic multi-layer tree in which the functions of the tree and of its
    iterators do not overlap: one thread that calls Write, Delete, ... while it holds
    iterators, or several threads that do so under one lock of their own.

    The machine is OScanModel.v; a call and an iterator of one thread are a caller and a
    scanner there.  Nothing else is modelled here: this file says which executions these are.
    The functions are the calls, Scan (oml/b_tree.hpp:149-169, from the descent to the first
    ResetIterator, optimistic_record_iterator.hpp:62-84), HasRecord with the operator++ that
    follows it (optimistic_record_iterator.hpp:126-217) and the destructor of the iterator. *)
From Coq Require Import List Arith Bool.
From Verif Require Import Params Mem Common Spec ConcSpec ScanSpec SLIface BaseIface MLIface IterModel
  TreeState MLModel ConcModel MConcModel OConcModel CScanModel MScanModel OScanModel.
Import ListNotations.

Section AloneModel.
Context {P : Params} {N : MLOps P}.

(** Who is inside a function. *)
Inductive inside := Nobody | InCall (t : tid) | InScan (u : tid) | InHas (u : tid).

(** The move [v] is not made while somebody else is inside. *)
Definition allowed (w : inside) (v : umove) : bool :=
  match w, v with
  | Nobody, _ => true
  | InCall t0, UCall t => Nat.eqb t t0
  | InScan u0, UScan u _ => Nat.eqb u u0
  | InHas u0, UScan u _ => Nat.eqb u u0
  | _, _ => false
  end.

(** The records delivered so far. *)
Definition given (p : upc) : list (K * V) :=
  match p with
  | UReset _ _ _ _ acc | UPos _ _ _ _ _ acc | UEnd _ _ _ _ _ _ acc | ULoop _ _ _ _ _ _ _ _ acc
  | URet _ _ acc => acc
  | _ => []
  end.

(** HasRecord returns when there is a record, or when there is none any more. *)
Definition has_over (u : tid) (s s' : ucfg) : inside :=
  match uth s' u with
  | UIdle | URet _ _ _ => Nobody
  | ULoop _ _ _ _ _ _ _ _ acc => if Nat.eqb (length acc) (length (given (uth s u))) then InHas u else Nobody
  | _ => InHas u
  end.

(** Who is inside after the move [v] from [s] to [s']. *)
Definition moved (w : inside) (v : umove) (s s' : ucfg) : inside :=
  match v with
  | UCall t => match oth (ub s') t with OIdle => Nobody | _ => InCall t end
  | UScan u _ =>
      match w, uth s u with
      | InScan _, _ => match uth s' u with ULoop _ _ _ _ _ _ _ _ _ => Nobody | _ => InScan u end
      | _, UIdle => InScan u
      | _, _ => has_over u s s'
      end
  | UStop _ => Nobody
  end.

(** No function begins before the one that runs has returned. *)
Fixpoint one_by_one (fx : bool) (w : inside) (s : ucfg) (sched : list umove) : bool :=
  match sched with
  | [] => true
  | v :: sched' =>
      match ustep fx v s with
      | UOk s' => allowed w v && one_by_one fx (moved w v s s') s' sched'
      | UBlock => one_by_one fx w s sched'
      | UUndef => allowed w v
      end
  end.

(** Who is inside after the execution [sched]. *)
Fixpoint who (fx : bool) (w : inside) (s : ucfg) (sched : list umove) : inside :=
  match sched with
  | [] => w
  | v :: sched' =>
      match ustep fx v s with
      | UOk s' => who fx (moved w v s s') s' sched'
      | UBlock => who fx w s sched'
      | UUndef => w
      end
  end.

End AloneModel.
