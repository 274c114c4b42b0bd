(** Clients that ask an iterator more than once whether it has a record.

    HasRecord, or the conversion to bool that calls it (record_iterator.hpp:107, :138-164,
    optimistic_record_iterator.hpp:110, :142-217), may be called any number of times before
    operator++.  First the iterators run by one thread (IterModel.v), then the iterator of the
    optimistic multi-layer tree while other threads write (OScanModel.v). *)
From Coq Require Import List Arith Bool Lia.
From Verif Require Import Params Mem Common Spec ConcSpec ScanSpec SLIface BaseIface MLIface IterModel
  TreeState MLModel ConcModel MConcModel OConcModel CScanModel MScanModel OScanModel.
Import ListNotations.

Section Seq.
Context {P : Params} {B : BaseOps P}.
Notation MM := (M bn).

(** [S n] calls of HasRecord; the answer is the last one. *)
Fixpoint pit_ask (n fuel : nat) (it : piter) : MM (bool * piter) :=
  '(b, it1) <- pit_has fuel it ;;
  match n with O => mret (b, it1) | S n' => pit_ask n' fuel it1 end.
Fixpoint oit_ask (n fuel : nat) (tls : option K) (it : oiter) : MM (bool * (option K * oiter)) :=
  '(b, ti) <- oit_has fuel tls it ;;
  match n with O => mret (b, ti) | S n' => oit_ask n' fuel (fst ti) (snd ti) end.

(** The client loops of IterModel.v; before the [i]-th record from the end of the loop the
    client asks [asks i] times more than it has to. *)
Fixpoint pit_take_asking (asks : nat -> nat) (fuel limit : nat) (it : piter) : MM (list (K * V) * piter) :=
  match limit with
  | O => mret ([], it)
  | S l =>
      '(b, it1) <- pit_ask (asks l) fuel it ;;
      if b : bool then
        r <- pit_get it1 ;;
        '(rs, it2) <- pit_take_asking asks fuel l (pit_next it1) ;;
        mret (r :: rs, it2)
      else mret ([], it1)
  end.
Fixpoint oit_take_asking (asks : nat -> nat) (fuel limit : nat) (tls : option K) (it : oiter)
  : MM (list (K * V) * (option K * oiter)) :=
  match limit with
  | O => mret ([], (tls, it))
  | S l =>
      '(b, ti) <- oit_ask (asks l) fuel tls it ;;
      let (tls1, it1) := ti in
      if b : bool then
        r <- oit_get tls1 it1 ;;
        '(rs, ti2) <- oit_take_asking asks fuel l tls1 (oit_next it1) ;;
        mret (r :: rs, ti2)
      else mret ([], (tls1, it1))
  end.
Definition scan_from_asking (asks : nat -> nat) (opt : bool) (fuel : nat) (a : addr) (lo hi : bound) (limit : nat)
  : MM (list (K * V)) :=
  if opt then
    '(tls, it) <- oit_make fuel None a lo hi ;;
    '(rs, _) <- oit_take_asking asks fuel limit tls it ;;
    mret rs
  else
    it <- pit_make a lo hi ;;
    '(rs, it') <- pit_take_asking asks fuel limit it ;;
    pit_close it' ;;;
    mret rs.
End Seq.

(** ** BTreeOML while other threads write

    In OScanModel.v the step that makes HasRecord return true is followed at once by operator++.
    Here the client may call HasRecord again instead: the iterator is where it was before
    operator++, with key_ the key of the record and is_closed_ false
    (optimistic_record_iterator.hpp:187-196), and the loop of HasRecord begins again.  The
    record counts as read when operator++ is called. *)
Section Conc.
Context {P : Params} {N : MLOps P} (fx : bool).

Record wcfg := WCfg {
  wu : ucfg;              (* the tree, the callers and the scanners *)
  wgiven : tid -> bool;   (* HasRecord has returned true and the client has not yet gone on *)
}.
Inductive wmove := WGo (v : umove) | WAgain (u : tid).
Inductive wres := WOk (s : wcfg) | WBlock | WUndef.

Definition acc_of (p : upc) : list (K * V) :=
  match p with
  | UReset _ _ _ _ acc | UPos _ _ _ _ _ acc | UEnd _ _ _ _ _ _ acc
  | ULoop _ _ _ _ _ _ _ _ acc | URet _ _ acc => acc
  | _ => []
  end.

Definition wstep (v : wmove) (s : wcfg) : wres :=
  match v with
  | WGo m =>
      match ustep fx m (wu s) with
      | UOk u' =>
          WOk (WCfg u' (match m with
                        | UScan u _ => supd (wgiven s) u (length (acc_of (uth (wu s) u)) <? length (acc_of (uth u' u)))
                        | UStop u => supd (wgiven s) u false
                        | UCall _ => wgiven s
                        end))
      | UBlock => WBlock
      | UUndef => WUndef
      end
  | WAgain u =>
      match wgiven s u, uth (wu s) u with
      | true, ULoop lo hi a ver kk (S pos) e ie acc =>
          WOk (WCfg (UCfg (ub (wu s)) (supd (uth (wu s)) u (ULoop lo hi a ver kk pos e ie (removelast acc)))
                          (uq (wu s)) (ulg (wu s)))
                    (supd (wgiven s) u false))
      | _, _ => WBlock
      end
  end.
Fixpoint wrun (s : wcfg) (sched : list wmove) : option wcfg :=
  match sched with
  | [] => Some s
  | v :: sched' =>
      match wstep v s with
      | WOk s' => wrun s' sched'
      | WBlock => wrun s sched'
      | WUndef => None
      end
  end.
Definition winit (prog : tid -> list call) (scans : tid -> list (bound * bound)) : wcfg :=
  WCfg (uinit prog scans) (fun _ => false).
(** All moves of callers and scanners are such that [p]. *)
Fixpoint walways (p : umove -> ucfg -> bool) (s : wcfg) (sched : list wmove) : bool :=
  match sched with
  | [] => true
  | v :: sched' =>
      match wstep v s with
      | WOk s' => match v with WGo m => p m (wu s) | WAgain _ => true end && walways p s' sched'
      | WBlock => walways p s sched'
      | WUndef => false
      end
  end.
End Conc.
