(** The single-layer trees with their garbage collector: which pages are handed to it, whose
    epoch guards protect them, and which pages every step uses.

    The calls and the scans are the machines of ConcModel.v and CScanModel.v; those let a
    page stay for ever.  Here every step is watched: it may use the pages in [touches] only,
    it hands the pages in [retired_now] to the collector, and it creates and destroys epoch
    guards.  A page is released as soon as all the guards that existed when it was handed to
    the collector are gone (a collector that waits longer does nothing else).  Using a
    released page, or handing a page to the collector twice, is undefined behaviour.

    Simplified: a released page is not used again for another node. *)
From Coq Require Import List Arith Bool Lia.
From Verif Require Import Params Mem Common Spec ConcSpec ScanSpec SLIface BaseIface IterModel
  TreeState ConcModel CScanModel.
Import ListNotations.

Section ReclModel.
Context {P : Params} {N : SLOps P} (osl : bool) (fx : fixes).
#[local] Existing Instance base_of_sl.
(** Deviations from the code: [late] makes TryShrinkTree hand the removed roots to the
    collector after root_ has been stored; [keep] makes the iterator of the pessimistic tree
    keep the epoch guard of Scan.  The code is [late = false] and [keep = osl]. *)
Context (late keep : bool).

(** Who can have an epoch guard. *)
Inductive party := ByCall (t : tid) | ByScan (u : tid).
Definition party_of (v : mover) : party :=
  match v with Caller t => ByCall t | Scanner u _ => ByScan u end.
Definition party_eqb (x y : party) : bool :=
  match x, y with
  | ByCall t, ByCall u | ByScan t, ByScan u => Nat.eqb t u
  | _, _ => false
  end.
Definition leave (x : party) (l : list party) : list party :=
  filter (fun y => negb (party_eqb x y)) l.

Record rcfg := RCfg {
  rs : scfg;                             (* the tree, the callers and the scanners *)
  gb : addr -> option (list party);      (* retired pages, and whose guards protect them *)
  act : list party;                      (* who has an epoch guard *)
  hold : tid -> list addr;               (* [late]: removed roots, not retired yet *)
}.

Definition released (s : rcfg) (a : addr) : Prop := gb s a = Some [].

Definition opt_list {A} (o : option A) : list A := match o with Some x => [x] | None => [] end.
Definition next_page (s : cfg) (a : addr) : list addr :=
  match ch s a with Some n => opt_list (nd_next n) | None => [] end.
Definition first_child (s : cfg) (a : addr) : list addr :=
  match ch s a with Some n => opt_list (nd_child n 0) | None => [] end.

(** The pages whose contents or latches the next step of a call uses; the citations are those
    of [cstep]. *)
Definition call_touches (s : cfg) (p : pc) : list addr :=
  match p with
  | PIdle | PRoot _ | PTry _ _ _ _ _ | PTrySt _ _ _ _ _ | PFindRoot _ _ _ _ _ | PRet _ => []
  | PDesc _ a _ => [a]                            (* psl/node_fixlen.hpp:466-514 *)
  | PSplit _ a _ => [a]                           (* psl/node_fixlen.hpp:803-840 *)
  | PValid _ a r _ _ => [a; r]                    (* psl/node_fixlen.hpp:171-183 *)
  | PRetry _ _ _ x _ _ => [x]                     (* psl/b_tree.hpp:204 *)
  | PSep _ _ _ x _ _ => [x]                       (* psl/b_tree.hpp:207, 726 *)
  | PComp _ _ x _ _ _ => [x]                      (* psl/b_tree.hpp:711-733 *)
  | PCompSplit _ _ p _ _ => [p]
  | PCompValid _ _ p pr _ _ _ => [p; pr]
  | PCompIns _ _ _ _ x _ _ _ => [x]
  | PFind _ _ a _ _ _ => [a]                      (* psl/b_tree.hpp:569-597 *)
  | PMerge _ _ _ l => l :: next_page s l          (* psl/node_fixlen.hpp:194-213 *)
  | PMergeAt _ _ x l r _ => [x; l; r]             (* psl/b_tree.hpp:796-836 *)
  | PMrg1 _ l r _ => [l; r]                       (* psl/node_fixlen.hpp:847-876 *)
  | PMrg2 _ r _ _ => [r]
  | PShr _ p => [p]                               (* psl/b_tree.hpp:845-857 *)
  | PShrL _ p => p :: first_child s p             (* psl/node_fixlen.hpp:882-899 *)
  | PShrSt _ p => [p]
  | PShrEnd _ p => [p]
  end.

(** Likewise for a scan: record_iterator.hpp:86-164, optimistic_record_iterator.hpp:126-283. *)
Definition scan_touches (s : cfg) (p : spc) : list addr :=
  match p with
  | SIdle | SRoot _ _ | SRet _ _ _ => []
  | SDesc _ _ a => [a]
  | SHold _ _ a ie _ => if ie then [a] else a :: next_page s a
  | OReset _ _ a _ _ | OPos _ _ a _ _ _ | OEnd _ _ a _ _ _ _ => [a]
  | OLoop _ _ a _ _ pos e ie _ => if (pos <? e) || negb ie then [a] else []
  end.

Definition touches (v : mover) (s : scfg) : list addr :=
  match v with
  | Caller t => call_touches (base s) (th (base s) t)
  | Scanner u _ => scan_touches (base s) (sth s u)
  end.

(** The root that a step of TryShrinkTree decides to remove: the argument of AddGarbage,
    psl/b_tree.hpp:850, osl/b_tree.hpp:823.  [p] and [p'] are the program counters before and
    after the step. *)
Definition root_dropped (p p' : pc) : list addr :=
  match p, p' with
  | PShr _ _, PShrL _ q | PShrL _ _, PShrL _ q => [q]
  | _, _ => []
  end.

(** gc_.AddGarbage, psl/b_tree.hpp:811, 827, 850, osl/b_tree.hpp:784, 800, 823. *)
Definition retired_now (p p' : pc) (held : list addr) : list addr :=
  match p with
  | PMrg2 _ r _ _ => [r]
  | PShrSt _ _ => held
  | _ => if late then [] else root_dropped p p'
  end.
Definition held_after (p p' : pc) (held : list addr) : list addr :=
  match p with
  | PShrSt _ _ => []
  | _ => if late then root_dropped p p' ++ held else held
  end.

(** Pages [l] are handed to the collector: the guards that exist protect them. *)
Definition retire (l : list addr) (w : list party) (g : addr -> option (list party)) :=
  fun a => if existsb (Nat.eqb a) l then Some w else g a.
(** The guard of [x] is destroyed. *)
Definition unguard (x : party) (g : addr -> option (list party)) :=
  fun a => match g a with Some w => Some (leave x w) | None => None end.

(** CreateEpochGuard is the first thing a call does (psl/b_tree.hpp:133, 157, 194, 230, 267,
    288, osl/b_tree.hpp:133, 156, 181, 219, 257, 277); the guard goes with the call.  The guard of a scan is moved into the
    iterator by osl (optimistic_record_iterator.hpp:62-72); psl destroys it when Scan returns,
    which is when the first leaf has been latched (psl/b_tree.hpp:157-172). *)
Inductive gact := GNone | GBegin | GEnd.
Definition call_guard (p : pc) : gact :=
  match p with PIdle => GBegin | PRet _ => GEnd | _ => GNone end.
Definition scan_guard (p p' : spc) : gact :=
  match p, p' with
  | SIdle, _ => GBegin
  | SDesc _ _ _, SHold _ _ _ _ _ => if keep then GNone else GEnd
  | SRet _ _ _, _ => GEnd
  | _, _ => GNone
  end.
Definition guard_of (v : mover) (s s' : scfg) : gact :=
  match v with
  | Caller t => call_guard (th (base s) t)
  | Scanner u _ => scan_guard (sth s u) (sth s' u)
  end.
Definition retires (v : mover) (s : rcfg) (s' : scfg) : list addr :=
  match v with
  | Caller t => retired_now (th (base (rs s)) t) (th (base s') t) (hold s t)
  | Scanner _ _ => []
  end.

(** The collector's side of a step of [v] from [s] to a state whose tree is [s']. *)
Definition after (v : mover) (s : rcfg) (s' : scfg) : rcfg :=
  let x := party_of v in
  let g1 := retire (retires v s s') (act s) (gb s) in
  let h1 := match v with
            | Caller t => supd (hold s) t (held_after (th (base (rs s)) t) (th (base s') t) (hold s t))
            | Scanner _ _ => hold s
            end in
  match guard_of v (rs s) s' with
  | GNone => RCfg s' g1 (act s) h1
  | GBegin => RCfg s' g1 (x :: act s) h1
  | GEnd => RCfg s' (unguard x g1) (leave x (act s)) h1
  end.

(** One step, using no released page. *)
Inductive rstep : mover -> rcfg -> rcfg -> Prop :=
| rs_step v s s' :
    (forall a, In a (touches v (rs s)) -> ~ released s a) ->
    sstep osl fx v (rs s) s' ->
    rstep v s (after v s s').

(** Undefined behaviour: the next step of [v] uses a released page. *)
Definition use_after_free (v : mover) (s : rcfg) : Prop :=
  exists a, In a (touches v (rs s)) /\ released s a.
(** Undefined behaviour: the next step of [v] hands a page to the collector again. *)
Definition double_free (v : mover) (s : rcfg) : Prop :=
  exists s', sstep osl fx v (rs s) s' /\
    (~ NoDup (retires v s s') \/ exists a, In a (retires v s s') /\ gb s a <> None).

Definition rinit (prog : tid -> list call) (scans : tid -> list (bound * bound)) : rcfg :=
  RCfg (sinit prog scans) (fun _ => None) [] (fun _ => []).

(** Configurations reached by steps that satisfy [A]. *)
Inductive rreach (A : mover -> rcfg -> Prop) prog scans : rcfg -> Prop :=
| rr_init : rreach A prog scans (rinit prog scans)
| rr_step v s s' : rreach A prog scans s -> A v s -> rstep v s s' -> rreach A prog scans s'.

End ReclModel.
