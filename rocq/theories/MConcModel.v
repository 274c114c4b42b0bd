(** The pessimistic multi-layer tree under concurrent threads: pml/b_tree.hpp with
    pml/node_fixlen.hpp and pml/node_varlen.hpp.

    A configuration holds the pages, the root pointer, the latches (shared holders, owner
    of SIX or X, and whether the owner has X) and a program counter per thread; [mstep]
    lets one thread make one step.  The node functions are those of the sequential model
    (MLIface.v), so both layouts are covered.  The tree latch mutex_ is the latch at
    address 0, where no page is ever allocated.

    Granularity.  A step runs from one latch acquisition (a lock or an upgrade, which may
    have to wait) to the point before the next one.  In between a thread only touches pages
    whose latches it holds and releases latches, so nothing another thread does can be
    ordered in the middle of a step and be noticed.
    A thread that waits for a latch computes what it knows again when it tries again; it
    holds the latches of the pages it looked at.
    Simplified: a page is not used again after it has been released, so every use of a
    released page is detected (undefined behaviour); a waiting upgrade does not keep new
    readers out; weak memory ordering is not modelled. *)
From Coq Require Import List Arith Bool Lia.
From Verif Require Import Params Mem Common Spec ConcSpec MLIface TreeState MLModel ConcModel.
Import ListNotations.

Section MConcModel.
Context {P : Params} {N : MLOps P} (fx : bool).
(** [fx = false] is the code.  With [fx = true], ShrinkTreeIfNeeded waits for the readers
    of the root before it releases the page. *)

(** Program counters; the addresses named are those of latched pages unless stated
    otherwise.  [MX] states hold the exclusive latch of the node called [a]. *)
Inductive mpc :=
| MIdle
| MR0 (c : call)                                  (* GetRootForRead: about to latch mutex_ *)
| MR1 (c : call)                                  (* has mutex_ (S) *)
| MRd (c : call) (a : addr)                       (* SearchLeafNodeForRead: has a (S) *)
| MW0 (c : call)                                  (* GetRootForWrite: about to latch mutex_ *)
| MW1 (c : call)                                  (* has mutex_ (SIX) *)
| MShr (c : call) (a : addr)                      (* has mutex_ and the root a (SIX) *)
| MShrX (c : call) (a : addr)                     (* has mutex_ (X) and the root a (SIX) *)
| MRs (c : call) (a : addr)                       (* RootSplit: has mutex_ and a (SIX) *)
| MRsX (c : call) (a : addr)                      (* has mutex_ (X) and a (SIX) *)
| MWd (c : call) (a : addr)                       (* SearchLeafNodeForWrite: has a (SIX) *)
| MCh (c : call) (a b : addr) (pos : nat)         (* has a and its child b (SIX) *)
| MCm (c : call) (a b : addr) (pos : nat)         (* NeedSplit(b) was false *)
| MSp (c : call) (a b : addr) (pos : nat)         (* Split *)
| MSpX (c : call) (a b : addr) (pos : nat)        (* has a (X) *)
| MMg (c : call) (a b : addr) (pos : nat)         (* Merge: about to latch the right child *)
| MMg1 (c : call) (a b r : addr) (pos : nat)      (* has the right child r (SIX) *)
| MMg2 (c : call) (a b r : addr) (pos : nat)      (* has a (X) *)
| MMg3 (c : call) (a b r : addr) (pos : nat)      (* has a and b (X) *)
| MRet (r : ret).

Record mcfg := MCfg {
  mch : addr -> option mn;       (* pages *)
  mrt : addr;                    (* root_ *)
  mfr : addr;                    (* next unused address *)
  msh : addr -> list tid;        (* threads that hold the latch in shared mode *)
  msx : addr -> option tid;      (* the thread that holds it in SIX or X mode *)
  mxl : addr -> bool;            (* whether that is X *)
  mth : tid -> mpc;
  mpg : tid -> list call;        (* calls each thread has still to make *)
  mtr : list label;              (* what has happened so far *)
}.

Inductive mres :=
| KOk (l : label) (c : mcfg)
| KBlock           (* waiting for a latch, or nothing to do *)
| KUndef.          (* undefined behaviour: a released page was used, or a node overran *)

Definition kbind {A} (o : option A) (f : A -> mres) : mres :=
  match o with Some a => f a | None => KUndef end.
Notation "'get' x ':=' o 'in' e" := (kbind o (fun x => e))
  (at level 200, x pattern, o at level 100, e at level 200, right associativity).

(** Updates of a configuration. *)
Definition m_goto (s : mcfg) (t : tid) (p : mpc) : mcfg :=
  MCfg (mch s) (mrt s) (mfr s) (msh s) (msx s) (mxl s) (supd (mth s) t p) (mpg s) (mtr s).
Definition m_set (s : mcfg) (a : addr) (n : mn) : mcfg :=
  MCfg (upd (mch s) a (Some n)) (mrt s) (mfr s) (msh s) (msx s) (mxl s) (mth s) (mpg s) (mtr s).
Definition m_new (s : mcfg) (n : mn) : mcfg :=
  MCfg (upd (mch s) (mfr s) (Some n)) (mrt s) (S (mfr s)) (msh s) (msx s) (mxl s) (mth s) (mpg s) (mtr s).
Definition m_root (s : mcfg) (a : addr) : mcfg :=
  MCfg (mch s) a (mfr s) (msh s) (msx s) (mxl s) (mth s) (mpg s) (mtr s).
Definition m_lockS (s : mcfg) (t : tid) (a : addr) : mcfg :=
  MCfg (mch s) (mrt s) (mfr s) (supd (msh s) a (t :: msh s a)) (msx s) (mxl s) (mth s) (mpg s) (mtr s).
Definition m_unlockS (s : mcfg) (t : tid) (a : addr) : mcfg :=
  MCfg (mch s) (mrt s) (mfr s)
       (supd (msh s) a (filter (fun u => negb (Nat.eqb u t)) (msh s a)))
       (msx s) (mxl s) (mth s) (mpg s) (mtr s).
(** LockSIX, and UnlockSIX or UnlockX *)
Definition m_own (s : mcfg) (a : addr) (o : option tid) : mcfg :=
  MCfg (mch s) (mrt s) (mfr s) (msh s) (supd (msx s) a o) (supd (mxl s) a false) (mth s) (mpg s) (mtr s).
(** UpgradeToX and DowngradeToSIX *)
Definition m_x (s : mcfg) (a : addr) (b : bool) : mcfg :=
  MCfg (mch s) (mrt s) (mfr s) (msh s) (msx s) (supd (mxl s) a b) (mth s) (mpg s) (mtr s).
(** Release<Page>: the page and the owner's latch in it are gone. *)
Definition m_free (s : mcfg) (a : addr) : mcfg :=
  MCfg (upd (mch s) a None) (mrt s) (mfr s) (msh s) (supd (msx s) a None) (supd (mxl s) a false)
       (mth s) (mpg s) (mtr s).
Definition m_emit (s : mcfg) (l : label) : mcfg :=
  MCfg (mch s) (mrt s) (mfr s) (msh s) (msx s) (mxl s) (mth s) (mpg s) (mtr s ++ [l]).

(** When a latch can be had: LockS needs no X, LockSIX no other SIX or X, and an upgrade
    from SIX to X no shared holder.  [rd] tells which latches are held in shared mode by
    somebody who is not one of the threads of the configuration (a scan, MScanModel.v). *)
Definition canS (s : mcfg) (a : addr) : bool := negb (mxl s a).
Definition canSIX (s : mcfg) (a : addr) : bool := match msx s a with None => true | _ => false end.
Definition canX (rd : addr -> bool) (s : mcfg) (a : addr) : bool :=
  match msh s a with [] => negb (rd a) | _ => false end.

(** SearchRecord(key).second and the child there: pml/b_tree.hpp:466-467, 506-507. *)
Definition routep (n : mn) (key : K) : option (nat * addr) :=
  match mn_search n key with
  | Some (_, pos) => match mn_child n pos with Some c => Some (pos, c) | None => None end
  | None => None
  end.

(** The code a call runs on its leaf: pml/b_tree.hpp:174-243; whether the leaf is changed,
    the result, and the leaf afterwards. *)
Definition mleaf_op (n : mn) (c : call) : option (bool * ret * mn) :=
  match c with
  | CRead k => match mn_read n k with Some o => Some (false, RPayload o, n) | None => None end
  | CWrite k v => match mn_write n k v with Some n' => Some (true, RSuccess, n') | None => None end
  | CInsert k v =>
      match mn_insert n k v with
      | Some (rc, n') => Some (match rc with kSuccess => true | _ => false end, rc_ret rc, n')
      | None => None
      end
  | CUpdate k v =>
      match mn_update n k v with
      | Some (rc, n') => Some (match rc with kSuccess => true | _ => false end, rc_ret rc, n')
      | None => None
      end
  | CDelete k =>
      match mn_delete n k with
      | Some (rc, n') => Some (match rc with kSuccess => true | _ => false end, rc_ret rc, n')
      | None => None
      end
  end.

(** The CleanUp that NeedSplit and NeedMerge may run (pml/node_varlen.hpp:126-170) upgrades
    to X; [None] in [o] means that none is run. *)
Definition m_clean (s : mcfg) (a : addr) (o : option mn) : mcfg :=
  match o with None => s | Some n' => m_set s a n' end.
Definition canClean (rd : addr -> bool) (s : mcfg) (a : addr) (o : option mn) : bool :=
  match o with None => true | Some _ => canX rd s a end.

(** pml/b_tree.hpp:117-131, 174-243 (the operations), 414-449 (the root), 459-471, 502-528
    (the descents), 600-675 (structure modifications). *)
Definition mstepr (rd : addr -> bool) (t : tid) (s : mcfg) : mres :=
  match mth s t with
  | MIdle =>
      match mpg s t with
      | [] => KBlock
      | c :: cs =>
          KOk (LInv t c)
              (MCfg (mch s) (mrt s) (mfr s) (msh s) (msx s) (mxl s)
                    (supd (mth s) t (if is_read c then MR0 c else MW0 c))
                    (supd (mpg s) t cs) (mtr s))
      end
  (* GetRootForRead, pml/b_tree.hpp:414-426 *)
  | MR0 c =>
      if canS s 0 then KOk LTau (m_goto (m_lockS s t 0) t (MR1 c)) else KBlock
  | MR1 c =>
      let a := mrt s in
      get _ := mch s a in
      if canS s a then KOk LTau (m_goto (m_unlockS (m_lockS s t a) t 0) t (MRd c a)) else KBlock
  (* SearchLeafNodeForRead, pml/b_tree.hpp:459-471, GetChildForRead, pml/node_fixlen.hpp:268-275;
     Read, pml/b_tree.hpp:117-131 with pml/node_fixlen.hpp:493-510 *)
  | MRd c a =>
      get n := mch s a in
      if mn_inner n then
        get pb := routep n (call_key c) in
        get _ := mch s (snd pb) in
        if canS s (snd pb)
        then KOk LTau (m_goto (m_unlockS (m_lockS s t (snd pb)) t a) t (MRd c (snd pb)))
        else KBlock
      else
        get x := mleaf_op n c in
        KOk (LObs t c (snd (fst x))) (m_goto (m_unlockS s t a) t (MRet (snd (fst x))))
  (* GetRootForWrite, pml/b_tree.hpp:435-449 *)
  | MW0 c =>
      if canSIX s 0 then KOk LTau (m_goto (m_own s 0 (Some t)) t (MW1 c)) else KBlock
  | MW1 c =>
      let a := mrt s in
      get _ := mch s a in
      if canSIX s a then KOk LTau (m_goto (m_own s a (Some t)) t (MShr c a)) else KBlock
  (* the loop condition of ShrinkTreeIfNeeded, pml/b_tree.hpp:662-665, and NeedSplit, :443 *)
  | MShr c a =>
      get n := mch s a in
      if Nat.eqb (mn_rc n) 1 && mn_inner n then
        if canX rd s 0 then KOk LTau (m_goto (m_x s 0 true) t (MShrX c a)) else KBlock
      else
        get bo := mn_need_split n mn_maxlen in
        if canClean rd s a (snd bo) then
          if fst bo then KOk LTau (m_goto (m_clean s a (snd bo)) t (MRs c a))
          else KOk LTau (m_goto (m_own (m_clean s a (snd bo)) 0 None) t (MWd c a))
        else KBlock
  (* ShrinkTreeIfNeeded, pml/b_tree.hpp:667-674: the root page is released while its latch
     is held in SIX mode only *)
  | MShrX c a =>
      get n := mch s a in
      get b := mn_child n 0 in
      get _ := mch s b in
      if canSIX s b && (negb fx || canX rd s a)
      then KOk LTau (m_goto (m_x (m_root (m_free (m_own s b (Some t)) a) b) 0 false) t (MShr c b))
      else KBlock
  (* RootSplit, pml/b_tree.hpp:620-633, Split, pml/node_fixlen.hpp:719-755, and
     GetValidSplitNode, :201-216 *)
  | MRs c a =>
      if canX rd s 0 then KOk LTau (m_goto (m_x s 0 true) t (MRsX c a)) else KBlock
  | MRsX c a =>
      get n := mch s a in
      if canX rd s a then
        let r := mfr s in
        get lr := mn_split n r (mn_new (mn_inner n)) in
        get sep := mn_highkey (fst lr) in
        get rn := mn_root2 sep a r in
        get ok := mn_comphigh (fst lr) (call_key c) in
        let x := if ok : bool then a else r in
        let s1 := m_set (m_new (m_new s (snd lr)) rn) a (fst lr) in
        let s2 := m_root s1 (S r) in
        let s3 := if ok : bool then s2 else m_own (m_own s2 r (Some t)) a None in
        KOk LTau (m_goto (m_own s3 0 None) t (MWd c x))
      else KBlock
  (* SearchLeafNodeForWrite, pml/b_tree.hpp:502-528 *)
  | MWd c a =>
      get n := mch s a in
      if mn_inner n then
        get pb := routep n (call_key c) in
        get _ := mch s (snd pb) in
        if canSIX s (snd pb)
        then KOk LTau (m_goto (m_own s (snd pb) (Some t)) t (MCh c a (snd pb) (fst pb)))
        else KBlock
      else if canX rd s a then
        get x := mleaf_op n c in
        KOk (if fst (fst x) then LEff t c (snd (fst x)) else LObs t c (snd (fst x)))
            (m_goto (m_own (m_set s a (snd x)) a None) t (MRet (snd (fst x))))
      else KBlock
  (* NeedSplit of the child, :510 *)
  | MCh c a b pos =>
      get n := mch s b in
      get bo := mn_need_split n mn_maxlen in
      if canClean rd s b (snd bo)
      then KOk LTau (m_goto (m_clean s b (snd bo)) t
                       (if fst bo then MSp c a b pos else MCm c a b pos))
      else KBlock
  (* NeedMerge of the child, :513; the first test of GetMergeableRightChild,
     pml/node_fixlen.hpp:309-314 *)
  | MCm c a b pos =>
      get pn := mch s a in
      get n := mch s b in
      get bo := mn_need_merge n in
      if canClean rd s b (snd bo) then
        if fst bo && negb (Nat.eqb (pos + 1) (mn_rc pn))
        then KOk LTau (m_goto (m_clean s b (snd bo)) t (MMg c a b pos))
        else KOk LTau (m_goto (m_own (m_clean s b (snd bo)) a None) t (MWd c b))
      else KBlock
  (* Split, pml/b_tree.hpp:600-611; InsertChild, pml/node_fixlen.hpp:661-684 *)
  | MSp c a b pos =>
      get _ := mch s a in
      if canX rd s a then KOk LTau (m_goto (m_x s a true) t (MSpX c a b pos)) else KBlock
  | MSpX c a b pos =>
      get pn := mch s a in
      get n := mch s b in
      if canX rd s b then
        let r := mfr s in
        get lr := mn_split n r (mn_new (mn_inner n)) in
        get sep := mn_highkey (fst lr) in
        get pn' := mn_insert_child pn r sep pos in
        get ok := mn_comphigh (fst lr) (call_key c) in
        let x := if ok : bool then b else r in
        let s1 := m_own (m_set (m_set (m_new s (snd lr)) b (fst lr)) a pn') a None in
        let s2 := if ok : bool then s1 else m_own (m_own s1 r (Some t)) b None in
        KOk LTau (m_goto s2 t (MWd c x))
      else KBlock
  (* Merge, pml/b_tree.hpp:642-656; GetMergeableRightChild, pml/node_fixlen.hpp:316-325;
     node Merge, :762-789; DeleteChild, :691-710 *)
  | MMg c a b pos =>
      get pn := mch s a in
      get n := mch s b in
      get r := mn_child pn (pos + 1) in
      get rn := mch s r in
      if canSIX s r then
        if mn_can_merge n rn
        then KOk LTau (m_goto (m_own s r (Some t)) t (MMg1 c a b r pos))
        else KOk LTau (m_goto (m_own s a None) t (MWd c b))
      else KBlock
  | MMg1 c a b r pos =>
      get _ := mch s a in
      if canX rd s a then KOk LTau (m_goto (m_x s a true) t (MMg2 c a b r pos)) else KBlock
  | MMg2 c a b r pos =>
      get _ := mch s b in
      if canX rd s b then KOk LTau (m_goto (m_x s b true) t (MMg3 c a b r pos)) else KBlock
  | MMg3 c a b r pos =>
      get pn := mch s a in
      get n := mch s b in
      get rn := mch s r in
      if canX rd s r then
        get n' := mn_merge n rn in
        get pn' := mn_delete_child pn pos in
        KOk LTau (m_goto (m_free (m_own (m_set (m_x (m_set s b n') b false) a pn') a None) r)
                         t (MWd c b))
      else KBlock
  | MRet r => KOk (LRes t r) (m_goto s t MIdle)
  end.

(** One step when only the threads of the configuration use the tree. *)
Definition no_reader : addr -> bool := fun _ => false.
Definition mstep : tid -> mcfg -> mres := mstepr no_reader.

(** A schedule names the thread that moves; a thread that cannot move is skipped. *)
Fixpoint mrun (s : mcfg) (sched : list tid) : option mcfg :=
  match sched with
  | [] => Some s
  | t :: sched' =>
      match mstep t s with
      | KOk l s' => mrun (m_emit s' l) sched'
      | KBlock => mrun s sched'
      | KUndef => None
      end
  end.

(** BTree::BTree, pml/b_tree.hpp:83-90; thread [t] will make the calls [p t]. *)
Definition minit (p : tid -> list call) : mcfg :=
  MCfg (fun a => if Nat.eqb a 1 then Some mn_root0 else None) 1 2
       (fun _ => []) (fun _ => None) (fun _ => false) (fun _ => MIdle) p [].

Definition mhistory (s : mcfg) : list event := events (mtr s).

(** Waiting for ever: a call is in progress and no thread can make a step. *)
Definition mstuck (s : mcfg) : Prop :=
  (exists t, mth s t <> MIdle) /\ forall t, mstep t s = KBlock.

End MConcModel.
