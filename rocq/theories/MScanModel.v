(** Scans of the pessimistic multi-layer tree while other threads make calls.

    The calls are the machine of MConcModel.v.  A scan is run by a client of its own (a
    thread makes one call or runs one scan at a time, so a thread that does both is covered
    by a caller and a scanner that take turns).  The iterator is record_iterator.hpp.

    Granularity: as in MConcModel.v, a step runs from one latch acquisition to the point
    before the next one.  A scanner that has the shared latch of a leaf reads the leaf's
    records in the step that latches it: no other thread can get the exclusive latch, so the
    records are the same when the client asks for them one by one.
    A client may destroy its iterator at any time; nothing is said about the records such a
    client has read.
    Not modelled: a thread that makes calls while it holds an iterator. *)
From Coq Require Import List Arith Bool Lia.
From Verif Require Import Params Mem Common Spec ConcSpec ScanSpec SLIface BaseIface MLIface IterModel
  TreeState MLModel ConcModel MConcModel CScanModel.
Import ListNotations.

Section MScanModel.
Context {P : Params} {N : MLOps P} (fx : bool).
#[local] Existing Instance base_of_ml.

(** Program counters of scanners; [acc] are the records delivered so far. *)
Inductive qpc :=
| QIdle
| QR0 (lo hi : bound)                   (* GetRootForRead: about to latch mutex_ *)
| QR1 (lo hi : bound)                   (* has mutex_ (S) *)
| QDesc (lo hi : bound) (a : addr)      (* SearchLeafNodeForRead, SearchLeftmostLeaf: has a (S) *)
| QHold (lo hi : bound) (a : addr) (ie : bool) (acc : list (K * V))
    (* the iterator: has leaf a (S), whose records have been delivered; is_end_ *)
| QRet (lo hi : bound) (acc : list (K * V)).

Record qcfg := QCfg {
  qb : mcfg;                               (* the tree and the callers *)
  qsh : addr -> list tid;                  (* scanners that hold the latch in shared mode *)
  qth : tid -> qpc;                        (* the scanners *)
  qq : tid -> list (bound * bound);        (* scans each scanner has still to make *)
  qlg : list (marked label);               (* what has happened so far *)
}.

(** The latches that scanners hold in shared mode. *)
Definition qrd (s : qcfg) (a : addr) : bool := match qsh s a with [] => false | _ => true end.

Inductive qres :=
| QOk (s : qcfg)
| QBlock           (* waiting for a latch, or nothing to do *)
| QUndef.          (* undefined behaviour *)

Definition qbind {A} (o : option A) (f : A -> qres) : qres :=
  match o with Some a => f a | None => QUndef end.
Notation "'get' x ':=' o 'in' e" := (qbind o (fun x => e))
  (at level 200, x pattern, o at level 100, e at level 200, right associativity).

(** LockS and UnlockS by scanner [u]. *)
Definition q_lock (h : addr -> list tid) (u : tid) (a : addr) : addr -> list tid :=
  supd h a (u :: h a).
Definition q_unlock (h : addr -> list tid) (u : tid) (a : addr) : addr -> list tid :=
  supd h a (filter (fun v => negb (Nat.eqb v u)) (h a)).

(** Scanner [u] goes to [p]; its latches become [h]. *)
Definition q_goto (s : qcfg) (u : tid) (h : addr -> list tid) (p : qpc) : qcfg :=
  QCfg (qb s) h (supd (qth s) u p) (qq s) (qlg s).

(** The records of a leaf from position [pos] to [pos + m], deleted ones skipped: the loop
    of a client over RecordIterator, record_iterator.hpp:108-160. *)
Fixpoint leaf_recs (n : mn) (pos m : nat) : option (list (K * V)) :=
  match m with
  | O => Some []
  | S m' =>
      let? d := mn_recdel n pos in
      let? l := leaf_recs n (S pos) m' in
      if d : bool then Some l else let? r := mn_record n pos in Some (r :: l)
  end.

(** The begin position of a scan in its first leaf: pml/b_tree.hpp:147-156. *)
Definition first_pos (n : mn) (lo : bound) : option nat :=
  match lo with Some (k, c) => start_pos (n : bn) k c | None => Some 0 end.

(** The leaf [n] at [a] has just been latched: SearchEndPositionFor,
    pml/node_fixlen.hpp:463-477, pml/b_tree.hpp:158-159, record_iterator.hpp:155-157. *)
Definition arrive (lo hi : bound) (a : addr) (n : mn) (from : bound) (acc : list (K * V))
  : option qpc :=
  let? pos := first_pos n from in
  let? (ie, e) := mn_endpos n hi in
  let? l := leaf_recs n pos (e - pos) in
  Some (QHold lo hi a ie (acc ++ l)).

(** The child a scan goes to: pml/b_tree.hpp:464-468 and 484-488, GetChildForRead,
    pml/node_fixlen.hpp:268-275. *)
Definition descend (n : mn) (lo : bound) : option addr :=
  match lo with
  | Some (key, _) => match routep n key with Some (_, b) => Some b | None => None end
  | None => mn_child n 0
  end.

(** One step of scanner [u]; with [stop], the client destroys its iterator if it has one
    (~RecordIterator, record_iterator.hpp:86-91). *)
Definition scanr_step (u : tid) (stop : bool) (s : qcfg) : qres :=
  let b := qb s in
  match qth s u with
  | QIdle =>
      match qq s u with
      | [] => QBlock
      | (lo, hi) :: q =>
          QOk (QCfg b (qsh s) (supd (qth s) u (QR0 lo hi)) (supd (qq s) u q)
                    (qlg s ++ [Mk (MBeg u lo hi)]))
      end
  (* GetRootForRead, pml/b_tree.hpp:414-426 *)
  | QR0 lo hi => if canS b 0 then QOk (q_goto s u (q_lock (qsh s) u 0) (QR1 lo hi)) else QBlock
  | QR1 lo hi =>
      let a := mrt b in
      get _ := mch b a in
      if canS b a then QOk (q_goto s u (q_unlock (q_lock (qsh s) u a) u 0) (QDesc lo hi a)) else QBlock
  (* Scan, pml/b_tree.hpp:140-160 with SearchLeafNodeForRead, :459-471, and
     SearchLeftmostLeaf, :481-490 *)
  | QDesc lo hi a =>
      get n := mch b a in
      if mn_inner n then
        get c := descend n lo in
        get _ := mch b c in
        if canS b c then QOk (q_goto s u (q_unlock (q_lock (qsh s) u c) u a) (QDesc lo hi c)) else QBlock
      else
        get p := arrive lo hi a n lo [] in
        QOk (q_goto s u (qsh s) p)
  (* HasRecord, record_iterator.hpp:138-164, GetNextNodeForRead, pml/node_fixlen.hpp:183-190 *)
  | QHold lo hi a ie acc =>
      get n := mch b a in
      if stop then QOk (q_goto s u (q_unlock (qsh s) u a) QIdle)
      else if ie then QOk (q_goto s u (q_unlock (qsh s) u a) (QRet lo hi acc))
      else
        get c := mn_next n in
        get m := mch b c in
        if canS b c then
          get p := arrive lo hi c m None acc in
          QOk (q_goto s u (q_unlock (q_lock (qsh s) u c) u a) p)
        else QBlock
  | QRet _ _ acc =>
      QOk (QCfg b (qsh s) (supd (qth s) u QIdle) (qq s) (qlg s ++ [Mk (MEnd u acc)]))
  end.

(** Who moves: a caller, or a scanner (which may give up). *)
Inductive qmove := QCall (t : tid) | QScan (u : tid) (stop : bool).

(** One step of the whole system: callers have to wait for the scanners' latches too. *)
Definition qstep (v : qmove) (s : qcfg) : qres :=
  match v with
  | QCall t =>
      match mstepr fx (qrd s) t (qb s) with
      | KOk l c => QOk (QCfg (m_emit c l) (qsh s) (qth s) (qq s) (qlg s ++ [Ev l]))
      | KBlock => QBlock
      | KUndef => QUndef
      end
  | QScan u stop => scanr_step u stop s
  end.

(** A schedule names who moves; one that cannot move is skipped. *)
Fixpoint qrun (s : qcfg) (sched : list qmove) : option qcfg :=
  match sched with
  | [] => Some s
  | v :: sched' =>
      match qstep v s with
      | QOk s' => qrun s' sched'
      | QBlock => qrun s sched'
      | QUndef => None
      end
  end.

(** A fresh tree; caller [t] will make the calls [prog t], scanner [u] the scans [scans u]. *)
Definition qinit (prog : tid -> list call) (scans : tid -> list (bound * bound)) : qcfg :=
  QCfg (minit prog) (fun _ => []) (fun _ => QIdle) scans [].

(** The history of an execution, with its scans. *)
Definition qhistory (s : qcfg) : list (marked event) := mevents (qlg s).

(** Whether a call or a scan is in progress. *)
Definition in_call (s : qcfg) (v : qmove) : Prop :=
  match v with QCall t => mth (qb s) t <> MIdle | QScan u _ => qth s u <> QIdle end.

End MScanModel.
