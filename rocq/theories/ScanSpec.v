(** Scans that run while other threads change the tree, seen by the users of a tree.

    A marked history is a history (ConcSpec.v) in which the begin and the end of every scan
    are recorded.  Nothing here refers to nodes, pages or latches. *)
From Coq Require Import List Arith Bool Sorted.
From Verif Require Import Params Spec ConcSpec.
Import ListNotations.

Section ScanSpec.
Context {P : Params}.

(** Scan number [u] begins, with its bounds; it ends, with the records delivered. *)
Inductive mark :=
| MBeg (u : tid) (lo hi : bound)
| MEnd (u : tid) (rs : list (K * V)).
Definition mtid (m : mark) : tid := match m with MBeg u _ _ => u | MEnd u _ => u end.

Inductive marked (A : Type) :=
| Ev (a : A)
| Mk (m : mark).
Arguments Ev {A} a.
Arguments Mk {A} m.

(** The sequence without the marks. *)
Fixpoint unmark {A : Type} (l : list (marked A)) : list A :=
  match l with
  | [] => []
  | Ev a :: l' => a :: unmark l'
  | Mk _ :: l' => unmark l'
  end.

(** A history with linearization points and marks; without the points. *)
Fixpoint merase (x : list (marked xevent)) : list (marked event) :=
  match x with
  | [] => []
  | Ev (XInv t c) :: x' => Ev (EInv t c) :: merase x'
  | Ev (XRes t r) :: x' => Ev (ERes t r) :: merase x'
  | Ev (XLin _) :: x' => merase x'
  | Mk m :: x' => Mk m :: merase x'
  end.

(** The map after a history with linearization points. *)
Fixpoint map_after (m : amap) (f : tid -> status) (x : list xevent) : amap :=
  match x with
  | [] => m
  | XInv t c :: x' => map_after m (supd f t (Called c)) x'
  | XRes t _ :: x' => map_after m (supd f t Idle) x'
  | XLin t :: x' =>
      match f t with
      | Called c => map_after (fst (spec_step m c)) (supd f t (Done (snd (spec_step m c)))) x'
      | _ => map_after m f x'
      end
  end.

(** What a scan may deliver when [Ms] holds of the maps of all moments of the scan: keys in
    strictly ascending order; only records in range that were present at some moment of the
    scan; every key in range that was present during the whole scan. *)
Definition scan_result (Ms : amap -> Prop) (lo hi : bound) (rs : list (K * V)) : Prop :=
  StronglySorted klt (map fst rs) /\
  (forall k v, In (k, v) rs -> above lo k /\ below hi k /\ exists M, Ms M /\ M k = Some v) /\
  (forall k, above lo k -> below hi k -> (forall M, Ms M -> M k <> None) -> In k (map fst rs)).

Definition no_mark {A : Type} (u : tid) (x : list (marked A)) : Prop :=
  forall m, In (Mk m) x -> mtid m <> u.

(** Every complete scan of the history is right. *)
Definition scans_right (m0 : amap) (x : list (marked xevent)) : Prop :=
  forall x1 u lo hi x2 rs x3,
    x = x1 ++ Mk (MBeg u lo hi) :: x2 ++ Mk (MEnd u rs) :: x3 -> no_mark u x2 ->
    scan_result
      (fun M => exists y z, x2 = y ++ z /\ M = map_after m0 (fun _ => Idle) (unmark (x1 ++ y)))
      lo hi rs.

(** Linearization points can be placed in the history such that the sequential map explains
    every return value and every complete scan is right. *)
Definition scan_linearizable (m0 : amap) (h : list (marked event)) : Prop :=
  exists x, merase x = h /\ legal m0 (fun _ => Idle) (unmark x) /\ scans_right m0 x.

End ScanSpec.
Arguments Ev {P A} a.
Arguments Mk {P A} m.
