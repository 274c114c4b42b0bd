(** Scans of the optimistic multi-layer tree while other threads make calls.

    The calls are the machine of OConcModel.v.  A thread makes one call or one scan at a
    time (a thread that makes calls while it holds an iterator is covered by a caller and a
    scanner that take turns; each has an epoch guard of its own).  The iterator is
    optimistic_record_iterator.hpp.

    A scanner holds no latch.  Its epoch guard is created by Scan (oml/b_tree.hpp:154) and
    kept by the iterator (optimistic_record_iterator.hpp:62-84, :314), so a page that is retired
    while an iterator exists is not released before the iterator is destroyed.

    Granularity: a validated look at one node is one step, as in OConcModel.v.  ResetIterator
    (optimistic_record_iterator.hpp:268-283) is three steps: take the version, search the
    leaf, look for the end position; the last two are not validated, and they are modelled
    as looks at one moment each.  HasSameVersion can only succeed if the version of the leaf
    is still the one taken.

    A client may destroy its iterator between two records; nothing is said about the records
    such a client has read.
    Not modelled: the shared buffers of the optimistic iterator (that is ShareModel.v). *)
From Coq Require Import List Arith Bool Lia.
From Verif Require Import Params Mem Common Spec ConcSpec ScanSpec SLIface BaseIface MLIface IterModel
  TreeState MLModel ConcModel MConcModel OConcModel CScanModel MScanModel.
Import ListNotations.

Section OScanModel.
Context {P : Params} {N : MLOps P} (fx : bool).
#[local] Existing Instance base_of_ml.

(** Program counters of scanners; [acc] are the records delivered so far. *)
Inductive upc :=
| UIdle
| URoot (lo hi : bound)                 (* load root_ *)
| UDesc (lo hi : bound) (a : addr)      (* SearchLeafNodeForRead, SearchLeftmostLeaf: look at a *)
| UReset (lo hi : bound) (a : addr) (kk : bound) (acc : list (K * V))
    (* ResetIterator: about to take the version of a; kk is key_ and is_closed_ *)
| UPos (lo hi : bound) (a : addr) (ver : nat) (kk : bound) (acc : list (K * V))
    (* about to search the begin position *)
| UEnd (lo hi : bound) (a : addr) (ver : nat) (kk : bound) (pos : nat) (acc : list (K * V))
    (* about to search the end position *)
| ULoop (lo hi : bound) (a : addr) (ver : nat) (kk : bound) (pos e : nat) (ie : bool)
    (acc : list (K * V))
    (* the loop of HasRecord *)
| URet (lo hi : bound) (acc : list (K * V)).

Record ucfg := UCfg {
  ub : ocfg;                               (* the tree and the callers *)
  uth : tid -> upc;                        (* the scanners *)
  uq : tid -> list (bound * bound);        (* scans each thread has still to make *)
  ulg : list (marked label);               (* what has happened so far *)
}.

Inductive ures :=
| UOk (s : ucfg)
| UBlock           (* waiting for a latch, or nothing to do *)
| UUndef.          (* undefined behaviour *)

Definition ubind {A} (o : option A) (f : A -> ures) : ures :=
  match o with Some a => f a | None => UUndef end.
Notation "'get' x ':=' o 'in' e" := (ubind o (fun x => e))
  (at level 200, x pattern, o at level 100, e at level 200, right associativity).

(** The epoch guard of a scan is created (it is destroyed by [o_end]). *)
Definition o_guard (s : ocfg) (u : tid) : ocfg :=
  OCfg (och s) (ort s) (ofr s) (ovs s) (osx s) (ogb s) (u :: oac s) (oth s) (opg s) (otr s).

Definition u_goto (s : ucfg) (u : tid) (p : upc) : ures :=
  UOk (UCfg (ub s) (supd (uth s) u p) (uq s) (ulg s)).

(** The iterator of [u] is destroyed, and with it the epoch guard. *)
Definition u_done (s : ucfg) (u : tid) (l : list (marked label)) : ures :=
  UOk (UCfg (o_end (ub s) u) (supd (uth s) u UIdle) (uq s) l).

(** One step of scanner [u]; [chk] is whether HasSameVersion succeeds if the version of the
    leaf has not moved (it may fail nevertheless: the version also moves when the exclusive
    latch is taken in vain). *)
Definition scano_step (u : tid) (chk : bool) (s : ucfg) : ures :=
  let b := ub s in
  match uth s u with
  | UIdle =>
      match oth b u, uq s u with
      | OIdle, (lo, hi) :: q =>
          UOk (UCfg (o_guard b u) (supd (uth s) u (URoot lo hi)) (supd (uq s) u q)
                    (ulg s ++ [Mk (MBeg u lo hi)]))
      | _, _ => UBlock
      end
  (* Scan, oml/b_tree.hpp:149-169, with SearchLeafNodeForRead, :467-480, and SearchChild,
     oml/node_fixlen.hpp:499-523; SearchLeftmostLeaf, oml/b_tree.hpp:490-503, with
     GetLeftmostChild, oml/node_fixlen.hpp:284-299 *)
  | URoot lo hi => u_goto s u (UDesc lo hi (ort b))
  | UDesc lo hi a =>
      get n := opage b a in
      if mn_inner n then
        match lo with
        | Some (key, _) =>
            get ok := oin n key in
            if ok : bool then get pb := routep n key in u_goto s u (UDesc lo hi (snd pb))
            else u_goto s u (URoot lo hi)
        | None =>
            if mn_removed n then u_goto s u (URoot lo hi)
            else get c := mn_child n 0 in u_goto s u (UDesc lo hi c)
        end
      else u_goto s u (UReset lo hi a lo [])
  (* ResetIterator, optimistic_record_iterator.hpp:268-283, with CheckKeyRange,
     oml/node_fixlen.hpp:600-625 *)
  | UReset lo hi a kk acc =>
      get n := opage b a in
      match kk with
      | None => u_goto s u (UEnd lo hi a (ovs b a) None 0 acc)
      | Some (key, _) =>
          get ok := oin n key in
          if ok : bool then u_goto s u (UPos lo hi a (ovs b a) kk acc)
          else get c := mn_next n in u_goto s u (UReset lo hi c kk acc)
      end
  | UPos lo hi a ver kk acc =>
      get n := opage b a in
      get pos := first_pos n kk in
      u_goto s u (UEnd lo hi a ver kk pos acc)
  | UEnd lo hi a ver kk pos acc =>
      get n := opage b a in
      get (ie, e) := mn_endpos n hi in
      u_goto s u (ULoop lo hi a ver kk pos e ie acc)
  (* HasRecord and operator++, optimistic_record_iterator.hpp:126-217 *)
  | ULoop lo hi a ver kk pos e ie acc =>
      if pos <? e then
        get n := opage b a in
        if chk && Nat.eqb (ovs b a) ver then
          get k := mn_key n pos in
          get d := mn_recdel n pos in
          if d : bool then u_goto s u (ULoop lo hi a ver (Some (k, false)) (S pos) e ie acc)
          else get r := mn_record n pos in
               u_goto s u (ULoop lo hi a ver (Some (k, false)) (S pos) e ie (acc ++ [r]))
        else u_goto s u (UReset lo hi a kk acc)
      else if ie then u_goto s u (URet lo hi acc)             (* no version check *)
      else
        get n := opage b a in
        if chk && Nat.eqb (ovs b a) ver then
          get c := mn_next n in u_goto s u (UReset lo hi c kk acc)
        else u_goto s u (UReset lo hi a kk acc)
  | URet _ _ acc => u_done s u (ulg s ++ [Mk (MEnd u acc)])
  end.

(** The client of [u] destroys its iterator. *)
Definition stop_step (u : tid) (s : ucfg) : ures :=
  match uth s u with
  | ULoop _ _ _ _ _ _ _ _ _ => u_done s u (ulg s)
  | _ => UBlock
  end.

(** Who moves: a caller, a scanner, or a client that has had enough. *)
Inductive umove := UCall (t : tid) | UScan (u : tid) (chk : bool) | UStop (u : tid).

Definition ustep (v : umove) (s : ucfg) : ures :=
  match v with
  | UCall t =>
      match uth s t with
      | UIdle =>
          match ostep fx t (ub s) with
          | XOk l c => UOk (UCfg (o_emit c l) (uth s) (uq s) (ulg s ++ [Ev l]))
          | XBlock => UBlock
          | XUndef => UUndef
          end
      | _ => UBlock
      end
  | UScan u chk => scano_step u chk s
  | UStop u => stop_step u s
  end.

(** A schedule names who moves; one that cannot move is skipped. *)
Fixpoint urun (s : ucfg) (sched : list umove) : option ucfg :=
  match sched with
  | [] => Some s
  | v :: sched' =>
      match ustep v s with
      | UOk s' => urun s' sched'
      | UBlock => urun s sched'
      | UUndef => None
      end
  end.

(** A fresh tree; thread [t] will make the calls [prog t] and the scans [scans t]. *)
Definition uinit (prog : tid -> list call) (scans : tid -> list (bound * bound)) : ucfg :=
  UCfg (oinit prog) (fun _ => UIdle) scans [].

(** The history of an execution, with its scans. *)
Definition uhistory (s : ucfg) : list (marked event) := mevents (ulg s).

End OScanModel.
