(** Concurrent executions seen by the users of a tree.

    Nothing here refers to nodes, pages or latches: a history is the sequence of call and
    return events of all the threads, and linearizability is defined in terms of the
    sequential map of Spec.v only. *)
From Coq Require Import List Arith Bool.
From Verif Require Import Params Spec.
Import ListNotations.

Section ConcSpec.
Context {P : Params}.

Definition tid := nat.

(** What is observable of an execution. *)
Inductive event :=
| EInv (t : tid) (c : call)
| ERes (t : tid) (r : ret).

(** A history with linearization points: [XLin t] is the moment at which the pending call
    of [t] takes effect. *)
Inductive xevent :=
| XInv (t : tid) (c : call)
| XLin (t : tid)
| XRes (t : tid) (r : ret).

Inductive status :=
| Idle
| Called (c : call)
| Done (r : ret).

Definition supd {A : Type} (f : tid -> A) (t : tid) (x : A) : tid -> A :=
  fun u => if Nat.eqb u t then x else f u.

(** A call takes effect at one point between its call and its return, and returns what
    the sequential map returns at that point. *)
Fixpoint legal (m : amap) (f : tid -> status) (x : list xevent) : Prop :=
  match x with
  | [] => True
  | XInv t c :: x' => f t = Idle /\ legal m (supd f t (Called c)) x'
  | XLin t :: x' =>
      exists c, f t = Called c /\
        legal (fst (spec_step m c)) (supd f t (Done (snd (spec_step m c)))) x'
  | XRes t r :: x' => f t = Done r /\ legal m (supd f t Idle) x'
  end.

Fixpoint erase (x : list xevent) : list event :=
  match x with
  | [] => []
  | XInv t c :: x' => EInv t c :: erase x'
  | XRes t r :: x' => ERes t r :: erase x'
  | XLin _ :: x' => erase x'
  end.

(** A history is linearizable from the map [m] if linearization points can be placed in
    it such that the sequential map explains every return value. *)
Definition linearizable (m : amap) (h : list event) : Prop :=
  exists x, erase x = h /\ legal m (fun _ => Idle) x.

End ConcSpec.
