(** The single-layer trees under concurrent threads: psl/b_tree.hpp and osl/b_tree.hpp.

    A configuration holds the pages, the root pointer, the owner of each SIX latch and a
    program counter per thread; [cstep] lets one thread make one step.  The node functions
    are those of the sequential model (SLIface.v), so both layouts are covered.

    Granularity.  A step is one latched section on one node (or one access to [root_]):
    - a section under a shared latch (psl) or a version-validated read (osl) is one step:
      it reads one node only, and no thread modifies the node during it;
    - a section that takes SIX, upgrades to X, modifies the node and releases it is one
      step: readers see the node before or after the X part;
    - SIX latches kept from one section to the next are kept in [six], and a step that needs
      a SIX latch owned by a thread (also by the caller itself) cannot be taken.
    Simplified: pages are not reused (the epoch-based garbage collector is taken to work),
    sleeping before a retry is no step, and weak memory ordering is not modelled. *)
From Coq Require Import List Arith Bool Lia.
From Verif Require Import Params Mem Common Spec ConcSpec SLIface TreeState.
Import ListNotations.

(** Deviations from the code, all off for the code as it is.  They are used to name what
    the code would have to do for its concurrent executions to be correct. *)
Record fixes := Fixes {
  fx_sep : bool;      (* take the separator key before the latch is released *)
  fx_root : bool;     (* install a new root with compare-and-swap *)
  fx_shrink : bool;   (* do not remove a root that has a right sibling *)
}.
Definition as_is : fixes := Fixes false false false.
Definition repaired : fixes := Fixes true true true.

Section ConcModel.
Context {P : Params} {N : SLOps P} (osl : bool) (fx : fixes).

(** What to do when SearchParentNode has rebuilt the stack. *)
Inductive kont :=
| KSplit (l r : addr) (sep : K)     (* the loop of CompleteSplit *)
| KMerge (node : option addr) (l : addr).   (* the loop of Merge *)

(** Program counters.  [rt0] is the value the API call will return. *)
Inductive pc :=
| PIdle
| PRoot (c : call)                                 (* load root_ *)
| PDesc (c : call) (a : addr) (stk : list addr)    (* SearchLeafNode*: about to look at a *)
| PSplit (c : call) (a : addr) (stk : list addr)   (* kNeedSplit: owns a *)
| PValid (c : call) (a r : addr) (sep : K) (stk : list addr)     (* owns a and r *)
| PRetry (c : call) (a r t : addr) (sep : K) (stk : list addr)   (* owns t *)
| PSep (rt0 : ret) (a r t : addr) (sep : K) (stk : list addr)    (* GetSeparatorKey of t *)
| PComp (rt0 : ret) (stk : list addr) (x l r : addr) (sep : K)   (* CompleteSplit: about to latch x *)
| PCompSplit (rt0 : ret) (stk : list addr) (p r : addr) (sep : K)            (* owns p *)
| PCompValid (rt0 : ret) (stk : list addr) (p pr r : addr) (psep sep : K)    (* owns p and pr *)
| PCompIns (rt0 : ret) (stk : list addr) (p pr t r : addr) (psep sep : K)    (* owns t *)
| PTry (rt0 : ret) (stk : list addr) (l r : addr) (sep : K)      (* TryRootSplit: load root_ *)
| PTrySt (rt0 : ret) (stk : list addr) (l r : addr) (sep : K)    (* TryRootSplit: root_ was l *)
| PFindRoot (rt0 : ret) (k : kont) (stk : list addr) (key : K) (target : addr)
| PFind (rt0 : ret) (k : kont) (a : addr) (stk : list addr) (key : K) (target : addr)
| PMerge (rt0 : ret) (stk : list addr) (node : option addr) (l : addr)    (* owns l *)
| PMergeAt (rt0 : ret) (stk : list addr) (x l r : addr) (del : K)  (* owns l and r *)
| PMrg1 (rt0 : ret) (l r : addr) (up : option (addr * list addr))  (* owns l, r (and up) *)
| PMrg2 (rt0 : ret) (r : addr) (m : nd) (up : option (addr * list addr))  (* owns r (and up) *)
| PShr (rt0 : ret) (p : addr)                      (* TryShrinkTree: owns p *)
| PShrL (rt0 : ret) (p : addr)                     (* its loop: owns p *)
| PShrSt (rt0 : ret) (p : addr)                    (* about to store root_: owns p *)
| PShrEnd (rt0 : ret) (p : addr)                   (* about to release p *)
| PRet (rt0 : ret).

(** What a step does that matters for the API: [LEff] is the step in which an updating call
    changes the map, [LObs] the step in which a call reads its result from a leaf and
    changes nothing. *)
Inductive label :=
| LInv (t : tid) (c : call)
| LEff (t : tid) (c : call) (r : ret)
| LObs (t : tid) (c : call) (r : ret)
| LRes (t : tid) (r : ret)
| LTau.                          (* any other step *)

Record cfg := Cfg {
  ch : addr -> option nd;        (* pages *)
  croot : addr;                  (* root_ *)
  cfr : addr;                    (* next unused address *)
  six : addr -> option tid;      (* owner of the SIX (or X) latch *)
  th : tid -> pc;
  pg : tid -> list call;         (* calls each thread has still to make *)
  tr : list label;               (* what has happened so far *)
}.

Inductive sres :=
| SOk (l : label) (c : cfg)
| SBlock           (* waiting for a latch, or nothing to do *)
| SUndef.          (* undefined behaviour *)

Definition sbind {A} (o : option A) (f : A -> sres) : sres :=
  match o with Some a => f a | None => SUndef end.
Notation "'get' x ':=' o 'in' e" := (sbind o (fun x => e))
  (at level 200, x pattern, o at level 100, e at level 200, right associativity).

(** Updates of a configuration. *)
Definition goto (s : cfg) (t : tid) (p : pc) : cfg :=
  Cfg (ch s) (croot s) (cfr s) (six s) (supd (th s) t p) (pg s) (tr s).
Definition setp (s : cfg) (a : addr) (n : nd) : cfg :=
  Cfg (upd (ch s) a (Some n)) (croot s) (cfr s) (six s) (th s) (pg s) (tr s).
Definition newp (s : cfg) (n : nd) : cfg :=
  Cfg (upd (ch s) (cfr s) (Some n)) (croot s) (S (cfr s)) (six s) (th s) (pg s) (tr s).
Definition own (s : cfg) (a : addr) (o : option tid) : cfg :=
  Cfg (ch s) (croot s) (cfr s) (supd (six s) a o) (th s) (pg s) (tr s).
Definition rootp (s : cfg) (a : addr) : cfg :=
  Cfg (ch s) a (cfr s) (six s) (th s) (pg s) (tr s).
Definition emit (s : cfg) (l : label) : cfg :=
  Cfg (ch s) (croot s) (cfr s) (six s) (th s) (pg s) (tr s ++ [l]).

(** The condition of CheckKeyRange*, psl/node_fixlen.hpp:474, osl/node_fixlen.hpp:513. *)
Definition covers (n : nd) (key : K) : option bool :=
  if nd_removed n then Some false else nd_comphigh n key.

(** SearchChild, psl/node_fixlen.hpp:418-427, osl/node_fixlen.hpp:454-474. *)
Definition childp (n : nd) (key : K) : option addr :=
  match nd_search n key with Some (_, pos) => nd_child n pos | None => None end.

Definition free (s : cfg) (a : addr) : bool :=
  match six s a with None => true | Some _ => false end.

(** A node function of the leaf: the code that the API call runs on the leaf it has found.
    [Fail r n] leaves the leaf alone, [Eff r n] changes it, [Split]/[MergeN] go on. *)
Inductive leafres :=
| Fail (r : ret)
| Eff (n : nd)
| NSplit (n : nd)
| NMerge (n : nd).

(** Write: psl/node_fixlen.hpp:528-571; Insert: 583-616, osl 692-740; Update: psl 624-645,
    osl 763-795; Delete: psl 659-689, osl 805-840; Read: psl 540-553, osl 610-627. *)
Definition leaf_op (n : nd) (c : call) : option leafres :=
  match c with
  | CRead k => let? o := nd_read n k in Some (Fail (RPayload o))
  | CWrite k v =>
      let? (rc, n') := nd_write n k v in
      Some (match rc with kNeedSplit => NSplit n' | _ => Eff n' end)
  | CInsert k v =>
      let? (rc, n') := nd_insert n k v in
      Some (match rc with
            | kKeyAlreadyInserted => Fail RKeyExist
            | kNeedSplit => NSplit n'
            | _ => Eff n'
            end)
  | CUpdate k v =>
      let? (rc, n') := nd_update n k v in
      Some (match rc with kSuccess => Eff n' | _ => Fail RKeyNotExist end)
  | CDelete k =>
      let? (rc, n') := nd_delete n k in
      Some (match rc with
            | kKeyNotInserted => Fail RKeyNotExist
            | kNeedMerge => NMerge n'
            | _ => Eff n'
            end)
  end.

(** The second attempt after a split: psl/b_tree.hpp:204, 240, osl/b_tree.hpp:185, 222. *)
Definition leaf_op2 (n : nd) (c : call) : option (node_rc * nd) :=
  match c with
  | CWrite k v => nd_write2 n k v
  | CInsert k v => nd_insert2 n k v
  | _ => None
  end.

Definition is_read (c : call) : bool := match c with CRead _ => true | _ => false end.

(** Whether the section at a leaf needs its SIX latch: Read never does; the pessimistic
    tree latches before it looks (psl/node_fixlen.hpp:494-514), the optimistic one once it
    knows that it will modify the leaf (osl/node_fixlen.hpp:569-590, 692-840). *)
Definition leaf_blocked (s : cfg) (a : addr) (c : call) (will_write : bool) : bool :=
  if is_read c then false
  else if osl then will_write && negb (free s a) else negb (free s a).

(** Where CompleteSplit goes on with a stack (psl/b_tree.hpp:696-709). *)
Definition comp (rt0 : ret) (stk : list addr) (l r : addr) (sep : K) : pc :=
  match stk with
  | [] => PTry rt0 [] l r sep
  | top :: _ => PComp rt0 stk top l r sep
  end.

(** psl/b_tree.hpp:126-301 (Read, Write, Insert, Update, Delete), 477-561 (search),
    569-597 (SearchParentNode), 667-857 (structure modifications); osl/b_tree.hpp:126-283,
    464-571, 636-826. *)
Definition cstep (t : tid) (s : cfg) : sres :=
  match th s t with
  | PIdle =>
      match pg s t with
      | [] => SBlock
      | c :: cs =>
          SOk (LInv t c)
              (Cfg (ch s) (croot s) (cfr s) (six s) (supd (th s) t (PRoot c))
                   (supd (pg s) t cs) (tr s))
      end
  | PRoot c => SOk LTau (goto s t (PDesc c (croot s) []))
  | PDesc c a stk =>
      get n := ch s a in
      get ok := covers n (call_key c) in
      if nd_inner n then
        (* CheckKeyRangeAndLockForRead and SearchChild *)
        if ok : bool then
          get b := childp n (call_key c) in SOk LTau (goto s t (PDesc c b (a :: stk)))
        else match nd_next n with
             | Some b => SOk LTau (goto s t (PDesc c b stk))
             | None => SOk LTau (goto s t (PRoot c))        (* a root node was removed *)
             end
      else if ok : bool then
        get lr := leaf_op n c in
        match lr with
        | Fail r =>
            if leaf_blocked s a c false then SBlock
            else SOk (LObs t c r) (goto s t (PRet r))
        | Eff n' =>
            if leaf_blocked s a c true then SBlock
            else SOk (LEff t c RSuccess) (goto (setp s a n') t (PRet RSuccess))
        | NSplit n' =>
            if leaf_blocked s a c true then SBlock
            else SOk LTau (goto (own (setp s a n') a (Some t)) t (PSplit c a stk))
        | NMerge n' =>
            if leaf_blocked s a c true then SBlock
            else SOk (LEff t c RSuccess)
                     (goto (own (setp s a n') a (Some t)) t (PMerge RSuccess stk None a))
        end
      else if leaf_blocked s a c false then SBlock
      else match nd_next n with
           | Some b => SOk LTau (goto s t (PDesc c b stk))
           | None => SUndef                            (* a null leaf would be used *)
           end
  (* HalfSplit, psl/b_tree.hpp:667-674 with node Split, psl/node_fixlen.hpp:803-840 *)
  | PSplit c a stk =>
      get n := ch s a in
      let r := cfr s in
      get lr := nd_split n r (nd_new (nd_inner n)) in
      let (l', r') := lr in
      get sep := nd_highkey l' in
      SOk LTau (goto (own (setp (newp s r') a l') r (Some t)) t (PValid c a r sep stk))
  (* GetValidSplitNode, psl/node_fixlen.hpp:171-183 *)
  | PValid c a r sep stk =>
      get n := ch s a in
      get ok := nd_comphigh n (call_key c) in
      if ok : bool then SOk LTau (goto (own s r None) t (PRetry c a r a sep stk))
      else SOk LTau (goto (own s a None) t (PRetry c a r r sep stk))
  (* the second Write/Insert, psl/b_tree.hpp:204 *)
  | PRetry c a r x sep stk =>
      get n := ch s x in
      get rn := leaf_op2 n c in
      let (rc, n') := rn in
      match rc with
      | kCompleted =>
          SOk (LEff t c RSuccess)
              (goto (own (setp s x n') x None) t (PSep RSuccess a r x sep stk))
      | _ => SOk LTau (goto s t (PSep RSuccess a r x sep stk))   (* the record is lost *)
      end
  (* GetSeparatorKey, psl/b_tree.hpp:207, 726: no latch is held *)
  | PSep rt0 a r x sep stk =>
      if fx_sep fx then SOk LTau (goto s t (comp rt0 stk a r sep))
      else
        get n := ch s x in
        get k := nd_sepkey n (Nat.eqb x a) in
        SOk LTau (goto s t (comp rt0 stk a r k))
  (* CheckKeyRangeAndLockForWrite and InsertChild, psl/b_tree.hpp:711-733 *)
  | PComp rt0 stk x l r sep =>
      get n := ch s x in
      get ok := covers n sep in
      if negb (free s x) && (negb osl || ok) then SBlock
      else if ok : bool then
        get rn := nd_insert_child n r sep in
        let (rc, n') := rn in
        match rc with
        | kCompleted => SOk LTau (goto (setp s x n') t (PRet rt0))
        | kNeedSplit => SOk LTau (goto (own (setp s x n') x (Some t)) t
                                  (PCompSplit rt0 (tl stk) x r sep))
        | _ => SOk LTau (setp s x n')
        end
      else match nd_next n with
           | Some b => SOk LTau (goto s t (PComp rt0 stk b l r sep))
           | None => SOk LTau (goto s t (PTry rt0 stk l r sep))
           end
  | PCompSplit rt0 stk p r sep =>
      get n := ch s p in
      let pr := cfr s in
      get lr := nd_split n pr (nd_new (nd_inner n)) in
      let (l', r') := lr in
      get psep := nd_highkey l' in
      SOk LTau (goto (own (setp (newp s r') p l') pr (Some t)) t (PCompValid rt0 stk p pr r psep sep))
  | PCompValid rt0 stk p pr r psep sep =>
      get n := ch s p in
      get ok := nd_comphigh n sep in
      if ok : bool then SOk LTau (goto (own s pr None) t (PCompIns rt0 stk p pr p r psep sep))
      else SOk LTau (goto (own s p None) t (PCompIns rt0 stk p pr pr r psep sep))
  | PCompIns rt0 stk p pr x r psep sep =>
      get n := ch s x in
      get rn := nd_insert_child n r sep in
      let (rc, n') := rn in
      match rc with
      | kCompleted => SOk LTau (goto (own (setp s x n') x None) t (PSep rt0 p pr x psep stk))
      | kNeedSplit => SOk LTau (goto s t (PSep rt0 p pr x psep stk))      (* x stays latched *)
      | _ => SOk LTau (goto (own s x None) t (PSep rt0 p pr x psep stk))
      end
  (* TryRootSplit, psl/b_tree.hpp:750-765: a load, then a store *)
  | PTry rt0 stk l r sep =>
      if Nat.eqb (croot s) l then SOk LTau (goto s t (PTrySt rt0 stk l r sep))
      else SOk LTau (goto s t (PFindRoot rt0 (KSplit l r sep) stk sep r))
  | PTrySt rt0 stk l r sep =>
      if negb (fx_root fx) || Nat.eqb (croot s) l then
        get n := nd_root2 sep l r in
        SOk LTau (goto (rootp (newp s n) (cfr s)) t (PRet rt0))
      else SOk LTau (goto s t (PFindRoot rt0 (KSplit l r sep) stk sep r))
  (* SearchParentNode, psl/b_tree.hpp:569-597 *)
  | PFindRoot rt0 k stk key target => SOk LTau (goto s t (PFind rt0 k (croot s) stk key target))
  | PFind rt0 k a stk key target =>
      get n := ch s a in
      get ok := covers n key in
      if ok : bool then
        if Nat.eqb a target then
          SOk LTau (goto s t (match k with
                         | KSplit l r sep => comp rt0 stk l r sep
                         | KMerge node l => PMerge rt0 stk node l
                         end))
        else get b := childp n key in SOk LTau (goto s t (PFind rt0 k b (a :: stk) key target))
      else match nd_next n with
           | Some b => SOk LTau (goto s t (PFind rt0 k b stk key target))
           | None => SOk LTau (goto s t (PFindRoot rt0 k [] key target))
           end
  (* Merge, psl/b_tree.hpp:773-837 with GetMergeableSiblingNode, psl/node_fixlen.hpp:194-213 *)
  | PMerge rt0 stk node l =>
      get n := ch s l in
      match nd_next n with
      | None => SOk LTau (goto (own s l None) t (PRet rt0))
      | Some b =>
          if negb (free s b) then SBlock
          else
            get m := ch s b in
            if nd_can_merge n m then
              get del := nd_highkey n in
              let s' := own s b (Some t) in
              match stk with
              | [] => SOk LTau (goto s' t (PFindRoot rt0 (KMerge node l) [] del b))
              | top :: rest =>
                  match node with
                  | None => SOk LTau (goto s' t (PMergeAt rt0 rest top l b del))
                  | Some x => SOk LTau (goto s' t (PMergeAt rt0 stk x l b del))
                  end
              end
            else SOk LTau (goto (own s l None) t (PRet rt0))
      end
  (* CheckKeyRangeAndLockForWrite and DeleteChild, psl/b_tree.hpp:796-836 *)
  | PMergeAt rt0 stk x l r del =>
      get n := ch s x in
      get ok := covers n del in
      if negb (free s x) && (negb osl || ok) then SBlock
      else if ok : bool then
        get rn := nd_delete_child n del in
        let (rc, n') := rn in
        match rc with
        | kCompleted => SOk LTau (goto (setp s x n') t (PMrg1 rt0 l r None))
        | kAbortMerge => SOk LTau (goto (own (own s l None) r None) t (PRet rt0))
        | kNeedRetry => SOk LTau (goto s t (PMerge rt0 stk (Some x) l))
        | _ => SOk LTau (goto (own (setp s x n') x (Some t)) t (PMrg1 rt0 l r (Some (x, stk))))
        end
      else match nd_next n with
           | Some b => SOk LTau (goto s t (PMergeAt rt0 stk b l r del))
           | None => SOk LTau (goto s t (PFindRoot rt0 (KMerge None l) stk del r))
           end
  (* node Merge, psl/node_fixlen.hpp:847-876: first the left node, then the right one *)
  | PMrg1 rt0 l r up =>
      get n := ch s l in
      get m := ch s r in
      get lr := nd_merge l n m in
      let (l', r') := lr in
      SOk LTau (goto (own (setp s l l') l None) t (PMrg2 rt0 r r' up))
  | PMrg2 rt0 r m up =>
      SOk LTau (goto (own (setp s r m) r None) t
                (match up with
                 | None => PRet rt0
                 | Some (p, []) => PShr rt0 p
                 | Some (p, stk) => PMerge rt0 stk None p
                 end))
  (* TryShrinkTree, psl/b_tree.hpp:845-857 with RemoveRoot, psl/node_fixlen.hpp:882-899 *)
  | PShr rt0 p =>
      get n := ch s p in
      if Nat.eqb p (croot s) && Nat.eqb (nd_rc n) 1 &&
         (negb (fx_shrink fx) || match nd_next n with None => true | Some _ => false end)
      then SOk LTau (goto s t (PShrL rt0 p))
      else SOk LTau (goto s t (PShrEnd rt0 p))
  | PShrL rt0 p =>
      get n := ch s p in
      get c := nd_child n 0 in
      if negb (free s c) then SBlock
      else
        get m := ch s c in
        let s' := own (own (setp s p (nd_remove_root n)) p None) c (Some t) in
        if Nat.eqb (nd_rc m) 1 && nd_inner m &&
           (negb (fx_shrink fx) || match nd_next m with None => true | Some _ => false end)
        then SOk LTau (goto s' t (PShrL rt0 c))
        else SOk LTau (goto s' t (PShrSt rt0 c))
  | PShrSt rt0 p => SOk LTau (goto (rootp s p) t (PShrEnd rt0 p))
  | PShrEnd rt0 p => SOk LTau (goto (own s p None) t (PRet rt0))
  | PRet r => SOk (LRes t r) (goto s t PIdle)
  end.

(** A schedule names the thread that moves; a thread that cannot move is skipped. *)
Fixpoint crun (s : cfg) (sched : list tid) : option cfg :=
  match sched with
  | [] => Some s
  | t :: sched' =>
      match cstep t s with
      | SOk l s' => crun (emit s' l) sched'
      | SBlock => crun s sched'
      | SUndef => None
      end
  end.

(** BTree::BTree, psl/b_tree.hpp:83-95, osl likewise; thread [t] will make the calls [p t]. *)
Definition cinit (p : tid -> list call) : cfg :=
  Cfg (fun a => if Nat.eqb a 0 then Some nd_root0 else None) 0 1
      (fun _ => None) (fun _ => PIdle) p [].

(** The history of an execution. *)
Fixpoint events (l : list label) : list event :=
  match l with
  | [] => []
  | LInv t c :: l' => EInv t c :: events l'
  | LRes t r :: l' => ERes t r :: events l'
  | _ :: l' => events l'
  end.
Definition history (s : cfg) : list event := events (tr s).

End ConcModel.
