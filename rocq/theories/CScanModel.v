(** Scans of the single-layer trees while other threads make calls.

    The calls are the machine of ConcModel.v.  A scan is run by a client of its own (a
    thread makes one call or runs one scan at a time, so a thread that does both is covered
    by a caller and a scanner that take turns).  The iterators are record_iterator.hpp
    (psl) and optimistic_record_iterator.hpp (osl).

    psl.  A scanner holds the shared latch of its current leaf, so no other thread can get
    the exclusive latch of that leaf: a step of a call that changes a leaf held by a
    scanner cannot be taken.  The leaf does not change while the scanner holds it, so its
    records are read in the step that latches it.

    osl.  A scanner holds no latch.  ResetIterator takes the version of its leaf, then
    searches it, then looks for the end position: three steps.  Every page has a version
    that moves whenever the page changes (every change is made under the exclusive latch);
    HasSameVersion can only succeed if the version of the leaf is still the one taken.

    Not modelled: iterators that are abandoned before the end; the shared buffers of the
    optimistic iterator (that is ShareModel.v); a scanning thread that makes calls while it
    holds an iterator. *)
From Coq Require Import List Arith Bool Lia.
From Verif Require Import Params Mem Common Spec ConcSpec ScanSpec SLIface BaseIface IterModel
  TreeState ConcModel.
Import ListNotations.

Section CScanModel.
Context {P : Params} {N : SLOps P} (osl : bool) (fx : fixes).
#[local] Existing Instance base_of_sl.

(** Program counters of scanners; [acc] are the records delivered so far. *)
Inductive spc :=
| SIdle
| SRoot (lo hi : bound)                 (* load root_ *)
| SDesc (lo hi : bound) (a : addr)      (* SearchLeafNode / SearchLeftmostLeaf: at a *)
| SHold (lo hi : bound) (a : addr) (ie : bool) (acc : list (K * V))
    (* psl: holds the shared latch of leaf a, whose records have been delivered; is_end_ *)
| OReset (lo hi : bound) (a : addr) (kk : bound) (acc : list (K * V))
    (* osl, ResetIterator: about to take the version of a; kk is key_ and is_closed_ *)
| OPos (lo hi : bound) (a : addr) (ver : nat) (kk : bound) (acc : list (K * V))
    (* about to search the begin position *)
| OEnd (lo hi : bound) (a : addr) (ver : nat) (kk : bound) (pos : nat) (acc : list (K * V))
    (* about to search the end position *)
| OLoop (lo hi : bound) (a : addr) (ver : nat) (kk : bound) (pos e : nat) (ie : bool)
    (acc : list (K * V))
    (* the loop of HasRecord *)
| SRet (lo hi : bound) (acc : list (K * V)).

Record scfg := SCfg {
  base : cfg;                              (* the tree and the callers *)
  vn : addr -> nat;                        (* versions of the pages *)
  sth : tid -> spc;                        (* the scanners *)
  sq : tid -> list (bound * bound);        (* scans each scanner has still to make *)
  lg : list (marked label);                (* what has happened so far *)
}.

(** The shared latch a scanner holds. *)
Definition latched (p : spc) (a : addr) : Prop :=
  match p with SHold _ _ b _ _ => b = a | _ => False end.

(** The records of a leaf from position [pos] to [e], deleted ones skipped: the loop of a
    client over RecordIterator, record_iterator.hpp:108-160. *)
Fixpoint page_recs (n : nd) (pos m : nat) : option (list (K * V)) :=
  match m with
  | O => Some []
  | S m' =>
      let? d := nd_recdel n pos in
      let? l := page_recs n (S pos) m' in
      if d : bool then Some l else let? r := nd_record n pos in Some (r :: l)
  end.

(** The begin position of a scan in a leaf: psl/b_tree.hpp:159-167,
    optimistic_record_iterator.hpp:273-280. *)
Definition begin_pos (n : nd) (lo : bound) : option nat :=
  match lo with Some (k, c) => start_pos n k c | None => Some 0 end.

(** The leaf [n] at [a] has just been latched by a psl scan: SearchEndPositionFor,
    psl/node_fixlen.hpp:436-451, and the records of the leaf. *)
Definition enter (lo hi : bound) (a : addr) (n : nd) (from : bound) (acc : list (K * V))
  : option spc :=
  let? pos := begin_pos n from in
  let? (ie, e) := nd_endpos n hi in
  let? l := page_recs n pos (e - pos) in
  Some (SHold lo hi a ie (acc ++ l)).

Inductive stres :=
| TOk (p : spc) (m : option mark)
| TBlock
| TUndef.
Definition tlift (o : option spc) : stres :=
  match o with Some p => TOk p None | None => TUndef end.

(** One step of a scanner at [p]; [chk] is the answer of HasSameVersion in the steps that
    ask (see [chk_ok]). *)
Definition scan_step (u : tid) (chk : bool) (s : cfg) (vs : addr -> nat) (p : spc) (q : list (bound * bound)) : stres :=
  match p with
  | SIdle =>
      match q with
      | [] => TBlock
      | (lo, hi) :: _ => TOk (SRoot lo hi) (Some (MBeg u lo hi))
      end
  (* SearchLeafNodeForRead, psl/b_tree.hpp:477-497; SearchLeafNode, osl/b_tree.hpp:464-482;
     SearchLeftmostLeaf, psl/b_tree.hpp:507-520, osl/b_tree.hpp:489-501 *)
  | SRoot lo hi => TOk (SDesc lo hi (croot s)) None
  | SDesc lo hi a =>
      match ch s a with
      | None => TUndef
      | Some n =>
          match lo with
          | Some (key, _) =>
              if osl && negb (nd_inner n) then TOk (OReset lo hi a lo []) None
              else
                match covers n key with
                | None => TUndef
                | Some true =>
                    if nd_inner n then
                      match childp n key with Some b => TOk (SDesc lo hi b) None | None => TUndef end
                    else tlift (enter lo hi a n lo [])
                | Some false =>
                    match nd_next n with
                    | Some b => TOk (SDesc lo hi b) None
                    | None => TOk (SRoot lo hi) None
                    end
                end
          | None =>
              (* GetLeftmostChild, psl/node_fixlen.hpp:287-300, osl/node_fixlen.hpp:297-311 *)
              if nd_inner n then
                if nd_removed n then TOk (SRoot lo hi) None
                else match nd_child n 0 with Some b => TOk (SDesc lo hi b) None | None => TUndef end
              else if osl then TOk (OReset lo hi a None []) None
              else tlift (enter lo hi a n None [])
          end
      end
  (* HasRecord, record_iterator.hpp:138-164, GetNextNodeForRead, psl/node_fixlen.hpp:153-160 *)
  | SHold lo hi a ie acc =>
      if ie then TOk (SRet lo hi acc) None
      else
        match ch s a with
        | None => TUndef
        | Some n =>
            match nd_next n with
            | None => TUndef
            | Some b => match ch s b with
                        | None => TUndef
                        | Some m => tlift (enter lo hi b m None acc)
                        end
            end
        end
  (* ResetIterator, optimistic_record_iterator.hpp:268-283, CheckKeyRange,
     osl/node_fixlen.hpp:503-527 *)
  | OReset lo hi a kk acc =>
      match ch s a with
      | None => TUndef
      | Some n =>
          match kk with
          | None => TOk (OEnd lo hi a (vs a) None 0 acc) None
          | Some (key, _) =>
              match covers n key with
              | None => TUndef
              | Some true => TOk (OPos lo hi a (vs a) kk acc) None
              | Some false =>
                  match nd_next n with
                  | Some b => TOk (OReset lo hi b kk acc) None
                  | None => TUndef                  (* a null node would be used *)
                  end
              end
          end
      end
  | OPos lo hi a ver kk acc =>
      match ch s a with
      | None => TUndef
      | Some n =>
          match begin_pos n kk with
          | Some pos => TOk (OEnd lo hi a ver kk pos acc) None
          | None => TUndef
          end
      end
  | OEnd lo hi a ver kk pos acc =>
      match ch s a with
      | None => TUndef
      | Some n =>
          match nd_endpos n hi with
          | Some (ie, e) => TOk (OLoop lo hi a ver kk pos e ie acc) None
          | None => TUndef
          end
      end
  (* HasRecord and operator++, optimistic_record_iterator.hpp:126-217 *)
  | OLoop lo hi a ver kk pos e ie acc =>
      if pos <? e then
        match ch s a with
        | None => TUndef
        | Some n =>
            if chk then
              match nd_key n pos, nd_recdel n pos with
              | Some k, Some true => TOk (OLoop lo hi a ver (Some (k, false)) (S pos) e ie acc) None
              | Some k, Some false =>
                  match nd_record n pos with
                  | Some r => TOk (OLoop lo hi a ver (Some (k, false)) (S pos) e ie (acc ++ [r])) None
                  | None => TUndef
                  end
              | _, _ => TUndef
              end
            else TOk (OReset lo hi a kk acc) None
        end
      else if ie then TOk (SRet lo hi acc) None             (* no version check *)
      else
        match ch s a with
        | None => TUndef
        | Some n =>
            if chk then
              match nd_next n with
              | Some b => TOk (OReset lo hi b kk acc) None
              | None => TUndef
              end
            else TOk (OReset lo hi a kk acc) None
        end
  | SRet _ _ acc => TOk SIdle (Some (MEnd u acc))
  end.

(** HasSameVersion succeeds only if the version of the leaf has not moved.  (It may fail
    without a change: the version also moves when the exclusive latch is taken in vain.) *)
Definition chk_ok (vs : addr -> nat) (p : spc) (chk : bool) : Prop :=
  match p with
  | OLoop _ _ a ver _ _ _ _ _ => chk = true -> vs a = ver
  | _ => True
  end.

Definition add_mark (l : list (marked label)) (m : option mark) : list (marked label) :=
  match m with Some m => l ++ [Mk m] | None => l end.

(** Who moves: a caller, or a scanner with an answer of HasSameVersion. *)
Inductive mover := Caller (t : tid) | Scanner (u : tid) (chk : bool).

(** One step of the whole system. *)
Inductive sstep : mover -> scfg -> scfg -> Prop :=
| ss_call t s l c vs :
    cstep osl fx t (base s) = SOk l c ->
    (forall u a, latched (sth s u) a -> ch c a = ch (base s) a) ->   (* nobody latches them X *)
    (forall a, vn s a <= vs a) ->
    (forall a, vs a = vn s a -> ch c a = ch (base s) a) ->
    sstep (Caller t) s (SCfg (emit c l) vs (sth s) (sq s) (lg s ++ [Ev l]))
| ss_scan u chk s p m :
    chk_ok (vn s) (sth s u) chk ->
    scan_step u chk (base s) (vn s) (sth s u) (sq s u) = TOk p m ->
    sstep (Scanner u chk) s
      (SCfg (base s) (vn s) (supd (sth s) u p)
            (match sth s u with SIdle => supd (sq s) u (tl (sq s u)) | _ => sq s end)
            (add_mark (lg s) m)).

(** Undefined behaviour. *)
Inductive swrong : mover -> scfg -> Prop :=
| sw_call t s : cstep osl fx t (base s) = SUndef -> swrong (Caller t) s
| sw_scan u chk s : chk_ok (vn s) (sth s u) chk ->
    scan_step u chk (base s) (vn s) (sth s u) (sq s u) = TUndef -> swrong (Scanner u chk) s.

(** A fresh tree; caller [t] will make the calls [prog t], scanner [u] the scans [scans u]. *)
Definition sinit (prog : tid -> list call) (scans : tid -> list (bound * bound)) : scfg :=
  SCfg (cinit prog) (fun _ => 0) (fun _ => SIdle) scans [].

(** Configurations reached by steps that satisfy [A]. *)
Inductive sreach (A : mover -> scfg -> Prop) prog scans : scfg -> Prop :=
| sr_init : sreach A prog scans (sinit prog scans)
| sr_step v s s' : sreach A prog scans s -> A v s -> sstep v s s' -> sreach A prog scans s'.

(** The history of an execution, with its scans. *)
Fixpoint mevents (l : list (marked label)) : list (marked event) :=
  match l with
  | [] => []
  | Ev (LInv t c) :: l' => Ev (EInv t c) :: mevents l'
  | Ev (LRes t r) :: l' => Ev (ERes t r) :: mevents l'
  | Ev _ :: l' => mevents l'
  | Mk m :: l' => Mk m :: mevents l'
  end.
Definition shistory (s : scfg) : list (marked event) := mevents (lg s).

End CScanModel.
