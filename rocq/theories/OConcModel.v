(** The optimistic multi-layer tree under concurrent threads: oml/b_tree.hpp with
    oml/node_fixlen.hpp and oml/node_varlen.hpp.

    A configuration holds the pages with their version counters, the root pointer, the
    owners of the SIX latches, the retired pages and a program counter per thread; [ostep]
    lets one thread make one step.  The node functions are those of the sequential model
    (MLIface.v), so both layouts are covered.

    Granularity.
    - A version-validated read of one node is one step (C22: what a validated read has seen
      is the node at one moment; a failed validation is an attempt without effect).
    - A section that has X on one node and changes it is one step.  TryLockX(ver) followed
      by a change and UnlockX is one step as well.
    - SIX latches kept from one section to the next are in [osx]; TryLockSIX(ver) fails when
      the version has moved and waits while another thread has SIX, LockSIX waits.
    - Everything a step changes in another node is X-latched by the thread for the whole
      section (Split) or not reachable yet (new nodes).
    The garbage collector releases a retired page as soon as all the calls that were in
    progress when it was retired have returned: these are the calls whose epoch guards
    protect the page.  Using a released page is undefined behaviour.  (A collector that
    waits longer does nothing else.)
    Simplified: released pages are not used again, a CleanUp is a step of its own after
    which the node is checked again, weak memory ordering is not modelled, and no iterator
    has a page latched in shared mode, so that upgrades to X never wait. *)
From Coq Require Import List Arith Bool Lia.
From Verif Require Import Params Mem Common Spec ConcSpec MLIface TreeState MLModel ConcModel MConcModel.
Import ListNotations.

Section OConcModel.
Context {P : Params} {N : MLOps P} (fx : bool).
(** [fx = false] is the code.  With [fx = true], Merge marks the right node as removed
    before the left one is unlocked, and TryShrinkTree stores root_ before it unlocks the old
    root and hands it to the garbage collector. *)

(** Program counters.  [a] is a node, [v] the version of it the thread remembers; [b], [w]
    likewise for its child at [pos]. *)
Inductive opc :=
| OIdle
| ORoot (c : call)                                 (* SearchLeafNodeForRead: load root_ *)
| ORd (c : call) (a : addr)                        (* look at a *)
| OWRoot (c : call)                                (* GetRootForWrite: load root_ *)
| OWSt (c : call) (a : addr)                       (* CheckNodeStatus of the root *)
| OWRs (c : call) (a : addr) (v : nat)             (* TryRootSplit *)
| OWSh (c : call) (a : addr) (v : nat)             (* TryShrinkTree *)
| OShr1 (c : call) (a : addr)                      (* owns a: RemoveRoot *)
| OShr2 (c : call) (b : addr)                      (* root_.store *)
| OWd (c : call) (a : addr) (v : nat)              (* SearchLeafNodeForWrite: loop head *)
| OWc (c : call) (a : addr) (v : nat) (b : addr) (pos : nat)               (* CheckNodeStatus of b *)
| OSpA (c : call) (a : addr) (v : nat) (b : addr) (w pos : nat)            (* TrySplit *)
| OSpB (c : call) (a : addr) (v : nat) (b : addr) (w pos : nat)            (* owns a *)
| OSpC (c : call) (a r : addr) (sep : K) (pos : nat) (x : addr) (w : nat)  (* owns a: InsertChild *)
| OMgA (c : call) (a : addr) (v : nat) (b : addr) (w pos : nat)            (* TryMerge *)
| OMgB (c : call) (a : addr) (v : nat) (b : addr) (w pos : nat)            (* owns a *)
| OMgC (c : call) (a b : addr) (w pos : nat)       (* owns a, b: GetMergeableRightChild *)
| OMg1 (c : call) (a b r : addr) (pos : nat)       (* owns a, b, r: Merge, the left node *)
| OMg2 (c : call) (a b r : addr) (w pos : nat)     (* owns a, r: Merge, the right node *)
| OMg3 (c : call) (a b r : addr) (w pos : nat)     (* owns a: DeleteChild *)
| OWl (c : call) (a : addr)                        (* the leaf operation: look at a *)
| ORet (r : ret).

Record ocfg := OCfg {
  och : addr -> option mn;       (* pages *)
  ort : addr;                    (* root_ *)
  ofr : addr;                    (* next unused address *)
  ovs : addr -> nat;             (* version counters *)
  osx : addr -> option tid;      (* the thread that has the SIX latch *)
  ogb : addr -> option (list tid);   (* retired pages, and the calls that may still use them *)
  oac : list tid;                (* threads in the middle of a call *)
  oth : tid -> opc;
  opg : tid -> list call;        (* calls each thread has still to make *)
  otr : list label;              (* what has happened so far *)
}.

Inductive ores :=
| XOk (l : label) (c : ocfg)
| XBlock           (* waiting for a latch, or nothing to do *)
| XUndef.          (* undefined behaviour: a released page or a null pointer was used, or a node overran *)

Definition xbind {A} (o : option A) (f : A -> ores) : ores :=
  match o with Some a => f a | None => XUndef end.
Notation "'get' x ':=' o 'in' e" := (xbind o (fun x => e))
  (at level 200, x pattern, o at level 100, e at level 200, right associativity).

(** A page as far as it has not been released. *)
Definition opage (s : ocfg) (a : addr) : option mn :=
  match ogb s a with Some [] => None | _ => och s a end.

(** Updates of a configuration. *)
Definition o_goto (s : ocfg) (t : tid) (p : opc) : ocfg :=
  OCfg (och s) (ort s) (ofr s) (ovs s) (osx s) (ogb s) (oac s) (supd (oth s) t p) (opg s) (otr s).
(** A node is changed under X; UnlockX increments the version. *)
Definition o_set (s : ocfg) (a : addr) (n : mn) : ocfg :=
  OCfg (upd (och s) a (Some n)) (ort s) (ofr s) (supd (ovs s) a (S (ovs s a))) (osx s) (ogb s)
       (oac s) (oth s) (opg s) (otr s).
Definition o_new (s : ocfg) (n : mn) : ocfg :=
  OCfg (upd (och s) (ofr s) (Some n)) (ort s) (S (ofr s)) (supd (ovs s) (ofr s) 0) (osx s) (ogb s)
       (oac s) (oth s) (opg s) (otr s).
Definition o_root (s : ocfg) (a : addr) : ocfg :=
  OCfg (och s) a (ofr s) (ovs s) (osx s) (ogb s) (oac s) (oth s) (opg s) (otr s).
(** LockSIX, and UnlockSIX or UnlockX *)
Definition o_own (s : ocfg) (a : addr) (o : option tid) : ocfg :=
  OCfg (och s) (ort s) (ofr s) (ovs s) (supd (osx s) a o) (ogb s) (oac s) (oth s) (opg s) (otr s).
(** gc_.AddGarbage: oml/b_tree.hpp:722, 751 *)
Definition o_retire (s : ocfg) (a : addr) : ocfg :=
  OCfg (och s) (ort s) (ofr s) (ovs s) (osx s) (supd (ogb s) a (Some (oac s))) (oac s) (oth s)
       (opg s) (otr s).
Definition o_emit (s : ocfg) (l : label) : ocfg :=
  OCfg (och s) (ort s) (ofr s) (ovs s) (osx s) (ogb s) (oac s) (oth s) (opg s) (otr s ++ [l]).

Definition drop (t : tid) (l : list tid) : list tid := filter (fun u => negb (Nat.eqb u t)) l.

(** The epoch guard of a call is created, oml/b_tree.hpp:133, 181, 208, 234, 254, and destroyed. *)
Definition o_begin (s : ocfg) (t : tid) (cs : list call) : ocfg :=
  OCfg (och s) (ort s) (ofr s) (ovs s) (osx s) (ogb s) (t :: oac s) (oth s) (supd (opg s) t cs) (otr s).
Definition o_end (s : ocfg) (t : tid) : ocfg :=
  OCfg (och s) (ort s) (ofr s) (ovs s) (osx s)
       (fun a => match ogb s a with Some w => Some (drop t w) | None => None end)
       (drop t (oac s)) (oth s) (opg s) (otr s).

(** No thread has SIX or X on [a]. *)
Definition ofree (s : ocfg) (a : addr) : bool := match osx s a with None => true | _ => false end.

(** CheckSMOs, oml/node_fixlen.hpp:1265-1279, oml/node_varlen.hpp:1388-1401, on a node that
    does not change meanwhile. *)
Inductive smo :=
| SClean (n' : mn)    (* CleanUp is to be run, giving n' *)
| SSplit | SMerge | SDone.
Definition ostat (n : mn) (len : nat) : option smo :=
  match mn_need_split n len with
  | None => None
  | Some (_, Some n') => Some (SClean n')
  | Some (true, None) => Some SSplit
  | Some (false, None) =>
      match mn_need_merge n with
      | None => None
      | Some (_, Some n') => Some (SClean n')
      | Some (true, None) => Some SMerge
      | Some (false, None) => Some SDone
      end
  end.

(** The node is not removed and the key is less than its highest key:
    oml/node_fixlen.hpp:508, 547, 609. *)
Definition oin (n : mn) (k : K) : option bool :=
  if mn_removed n then Some false else mn_comphigh n k.

Definition needs_room (c : call) : bool :=
  match c with CWrite _ _ | CInsert _ _ => true | _ => false end.

Definition ostep (t : tid) (s : ocfg) : ores :=
  match oth s t with
  | OIdle =>
      match opg s t with
      | [] => XBlock
      | c :: cs =>
          XOk (LInv t c) (o_goto (o_begin s t cs) t (if is_read c then ORoot c else OWRoot c))
      end
  (* SearchLeafNodeForRead, oml/b_tree.hpp:467-480, with SearchChild, oml/node_fixlen.hpp:499-523;
     Node::Read, oml/node_fixlen.hpp:692-713, with CheckKeyRange, :600-625 *)
  | ORoot c => XOk LTau (o_goto s t (ORd c (ort s)))
  | ORd c a =>
      get n := opage s a in
      get ok := oin n (call_key c) in
      if mn_inner n then
        if ok : bool then
          get pb := routep n (call_key c) in XOk LTau (o_goto s t (ORd c (snd pb)))
        else XOk LTau (o_goto s t (ORoot c))
      else
        if ok : bool then
          get x := mleaf_op n c in XOk (LObs t c (snd (fst x))) (o_goto s t (ORet (snd (fst x))))
        else
          get b := mn_next n in XOk LTau (o_goto s t (ORd c b))
  (* GetRootForWrite, oml/b_tree.hpp:437-456; CheckNodeStatus, oml/node_fixlen.hpp:225-249 *)
  | OWRoot c => XOk LTau (o_goto s t (OWSt c (ort s)))
  | OWSt c a =>
      get n := opage s a in
      if mn_removed n then XOk LTau (o_goto s t (OWRoot c)) else
      get m := ostat n mn_maxlen in
      match m with
      | SClean n' => if ofree s a then XOk LTau (o_goto (o_set s a n') t (OWSt c a)) else XBlock
      | SSplit => XOk LTau (o_goto s t (OWRs c a (ovs s a)))
      | SMerge => XOk LTau (o_goto s t (OWSh c a (ovs s a)))
      | SDone => XOk LTau (o_goto s t (OWd c a (ovs s a)))
      end
  (* TryRootSplit, oml/b_tree.hpp:659-686; Split, oml/node_fixlen.hpp:960-996, and
     GetValidSplitNode, :182-204: both halves are latched with X until root_ is stored *)
  | OWRs c a v =>
      get n := opage s a in
      if negb (Nat.eqb (ovs s a) v) then XOk LTau (o_goto s t (OWRoot c)) else
      if ofree s a then
        if negb (Nat.eqb (ort s) a) then XOk LTau (o_goto s t (OWRoot c)) else
        let r := ofr s in
        get lr := mn_split n r (mn_new (mn_inner n)) in
        get sep := mn_highkey (fst lr) in
        get rn := mn_root2 sep a r in
        let s1 := o_root (o_set (o_new (o_new s (snd lr)) rn) a (fst lr)) (S r) in
        let x := if ltb (call_key c) sep then a else r in
        XOk LTau (o_goto s1 t (OWd c x (ovs s1 x)))
      else XBlock
  (* TryShrinkTree, oml/b_tree.hpp:736-756, with RemoveRoot, oml/node_fixlen.hpp:1139-1155 *)
  | OWSh c a v =>
      get n := opage s a in
      if negb (Nat.leb (mn_rc n) 1) || negb (mn_inner n) then XOk LTau (o_goto s t (OWd c a v)) else
      if negb (Nat.eqb (ovs s a) v) then XOk LTau (o_goto s t (OWRoot c)) else
      if ofree s a then
        if negb (Nat.eqb (ort s) a) then XOk LTau (o_goto s t (OWRoot c)) else
        if fx then
          get b := mn_child n 0 in
          XOk LTau (o_goto (o_retire (o_root (o_set s a (mn_remove_root n)) b) a) t (OWRoot c))
        else XOk LTau (o_goto (o_own (o_retire s a) a (Some t)) t (OShr1 c a))
      else XBlock
  | OShr1 c a =>
      get n := opage s a in
      get b := mn_child n 0 in
      XOk LTau (o_goto (o_own (o_set s a (mn_remove_root n)) a None) t (OShr2 c b))
  | OShr2 c b => XOk LTau (o_goto (o_root s b) t (OWRoot c))
  (* the loop of SearchLeafNodeForWrite, oml/b_tree.hpp:516-544; SearchChild,
     oml/node_fixlen.hpp:537-568 *)
  | OWd c a v =>
      get n := opage s a in
      if negb (mn_inner n) then XOk LTau (o_goto s t (OWl c a)) else
      if Nat.eqb (ovs s a) v then
        get ok := oin n (call_key c) in
        if ok : bool then
          get pb := routep n (call_key c) in XOk LTau (o_goto s t (OWc c a v (snd pb) (fst pb)))
        else XOk LTau (o_goto s t (OWRoot c))
      else
        if mn_removed n then XOk LTau (o_goto s t (OWRoot c)) else
        get m := ostat n mn_maxlen in
        match m with
        | SClean n' => if ofree s a then XOk LTau (o_goto (o_set s a n') t (OWd c a v)) else XBlock
        | SDone => XOk LTau (o_goto s t (OWd c a (ovs s a)))
        | _ => XOk LTau (o_goto s t (OWRoot c))
        end
  | OWc c a v b pos =>
      get n := opage s b in
      if mn_removed n then XOk LTau (o_goto s t (OWd c a v)) else
      get m := ostat n mn_maxlen in
      match m with
      | SClean n' => if ofree s b then XOk LTau (o_goto (o_set s b n') t (OWc c a v b pos)) else XBlock
      | SSplit => XOk LTau (o_goto s t (OSpA c a v b (ovs s b) pos))
      | SMerge => XOk LTau (o_goto s t (OMgA c a v b (ovs s b) pos))
      | SDone => XOk LTau (o_goto s t (OWd c b (ovs s b)))
      end
  (* TrySplit, oml/b_tree.hpp:621-647; Split, oml/node_fixlen.hpp:960-996, GetValidSplitNode,
     :182-204, and InsertChild, :896-922 *)
  | OSpA c a v b w pos =>
      get _ := opage s a in
      if negb (Nat.eqb (ovs s a) v) then XOk LTau (o_goto s t (OWd c a v)) else
      if ofree s a then XOk LTau (o_goto (o_own s a (Some t)) t (OSpB c a v b w pos)) else XBlock
  | OSpB c a v b w pos =>
      get n := opage s b in
      if negb (Nat.eqb (ovs s b) w) then XOk LTau (o_goto (o_own s a None) t (OWd c a v)) else
      if ofree s b then
        let r := ofr s in
        get lr := mn_split n r (mn_new (mn_inner n)) in
        get sep := mn_highkey (fst lr) in
        let s1 := o_set (o_new s (snd lr)) b (fst lr) in
        let x := if ltb (call_key c) sep then b else r in
        XOk LTau (o_goto s1 t (OSpC c a r sep pos x (ovs s1 x)))
      else XBlock
  | OSpC c a r sep pos x w =>
      get pn := opage s a in
      get pn' := mn_insert_child pn r sep pos in
      XOk LTau (o_goto (o_own (o_set s a pn') a None) t (OWd c x w))
  (* TryMerge, oml/b_tree.hpp:700-725; GetMergeableRightChild, oml/node_fixlen.hpp:312-337,
     Merge, :1002-1043, and DeleteChild, :930-950 *)
  | OMgA c a v b w pos =>
      get _ := opage s a in
      if negb (Nat.eqb (ovs s a) v) then XOk LTau (o_goto s t (OWd c a v)) else
      if ofree s a then XOk LTau (o_goto (o_own s a (Some t)) t (OMgB c a v b w pos)) else XBlock
  | OMgB c a v b w pos =>
      get _ := opage s b in
      if negb (Nat.eqb (ovs s b) w) then XOk LTau (o_goto (o_own s a None) t (OWd c a v)) else
      if ofree s b then XOk LTau (o_goto (o_own s b (Some t)) t (OMgC c a b w pos)) else XBlock
  | OMgC c a b w pos =>
      get pn := opage s a in
      get n := opage s b in
      if Nat.eqb (pos + 1) (mn_rc pn)
      then XOk LTau (o_goto (o_own (o_own s a None) b None) t (OWd c b w)) else
      get r := mn_child pn (pos + 1) in
      get rn := opage s r in
      if ofree s r then
        if mn_can_merge n rn
        then XOk LTau (o_goto (o_own s r (Some t)) t (OMg1 c a b r pos))
        else XOk LTau (o_goto (o_own (o_own s a None) b None) t (OWd c b w))
      else XBlock
  | OMg1 c a b r pos =>
      get n := opage s b in
      get rn := opage s r in
      get n' := mn_merge n rn in
      let s1 := o_own (o_set s b n') b None in
      if fx
      then XOk LTau (o_goto (o_own (o_set s1 r (mn_mark_removed b rn)) r None) t
                            (OMg3 c a b r (ovs s1 b) pos))
      else XOk LTau (o_goto s1 t (OMg2 c a b r (ovs s1 b) pos))
  | OMg2 c a b r w pos =>
      get rn := opage s r in
      XOk LTau (o_goto (o_own (o_set s r (mn_mark_removed b rn)) r None) t (OMg3 c a b r w pos))
  | OMg3 c a b r w pos =>
      get pn := opage s a in
      get pn' := mn_delete_child pn pos in
      XOk LTau (o_goto (o_retire (o_own (o_set s a pn') a None) r) t (OWd c b w))
  (* CheckKeyRange, oml/node_fixlen.hpp:600-625; CheckKeyRangeAndLockForWrite, :657-676, with
     Write, :728-750; Insert, :766-797; Update, :814-842; Delete, :853-892 *)
  | OWl c a =>
      get n := opage s a in
      get ok := oin n (call_key c) in
      if ok : bool then
        let op :=
          get x := mleaf_op n c in
          if fst (fst x) then
            if ofree s a
            then XOk (LEff t c (snd (fst x))) (o_goto (o_set s a (snd x)) t (ORet (snd (fst x))))
            else XBlock
          else XOk (LObs t c (snd (fst x))) (o_goto s t (ORet (snd (fst x)))) in
        if needs_room c then
          get m := ostat n (mn_reclen (call_key c)) in
          match m with
          | SClean n' => if ofree s a then XOk LTau (o_goto (o_set s a n') t (OWl c a)) else XBlock
          | SSplit => XOk LTau (o_goto s t (OWRoot c))
          | _ => op
          end
        else op
      else
        get b := mn_next n in XOk LTau (o_goto s t (OWl c b))
  | ORet r => XOk (LRes t r) (o_goto (o_end s t) t OIdle)
  end.

(** A schedule names the thread that moves; a thread that cannot move is skipped. *)
Fixpoint orun (s : ocfg) (sched : list tid) : option ocfg :=
  match sched with
  | [] => Some s
  | t :: sched' =>
      match ostep t s with
      | XOk l s' => orun (o_emit s' l) sched'
      | XBlock => orun s sched'
      | XUndef => None
      end
  end.

(** BTree::BTree, oml/b_tree.hpp:82-95; thread [t] will make the calls [p t]. *)
Definition oinit (p : tid -> list call) : ocfg :=
  OCfg (fun a => if Nat.eqb a 1 then Some mn_root0 else None) 1 2
       (fun _ => 0) (fun _ => None) (fun _ => None) [] (fun _ => OIdle) p [].

Definition ohistory (s : ocfg) : list event := events (otr s).

End OConcModel.
