(** The single-layer trees, run by one thread: psl/b_tree.hpp and osl/b_tree.hpp.

    [osl] selects the optimistic variant.  Without concurrent threads a version check
    always succeeds, so the optimistic read loops make one pass; the variants then differ
    in the latches taken.  Loops are bounded by fuel (outcome NoFuel). *)
From Coq Require Import List Arith Bool Lia.
From Verif Require Import Params Mem Common Spec SLIface TreeState.
Import ListNotations.

Section SLModel.
Context {P : Params} {N : SLOps P} (osl : bool).

Notation MM := (M nd).

(** BTree::BTree, psl/b_tree.hpp:83-95, osl likewise. *)
Definition sl_init : st nd :=
  St (fun a => if Nat.eqb a 0 then Some nd_root0 else None) 0 1 [] [].

(** The condition of CheckKeyRange*: not removed, and the key below the highest key
    (psl/node_fixlen.hpp:474). *)
Definition in_node (n : nd) (key : K) : MM bool :=
  if nd_removed n then mret false else mlift (nd_comphigh n key).

(** psl/node_fixlen.hpp:463-482, osl/node_fixlen.hpp:537-558: CheckKeyRangeAndLockForRead. *)
Fixpoint check_read (fuel : nat) (a : addr) (key : K) : MM (option addr) :=
  match fuel with
  | O => mnofuel
  | S f =>
      lock LS a ;;;
      n <- getn a ;;
      ok <- in_node n key ;;
      if ok : bool then mret (Some a)
      else
        unlock LS a ;;;
        match nd_next n with
        | None => mret None
        | Some b => check_read f b key
        end
  end.

(** osl/node_fixlen.hpp:503-527: CheckKeyRange (no latch). *)
Fixpoint check_range (fuel : nat) (a : addr) (key : K) : MM (option addr) :=
  match fuel with
  | O => mnofuel
  | S f =>
      n <- getn a ;;
      ok <- in_node n key ;;
      if ok : bool then mret (Some a)
      else
        match nd_next n with
        | None => mret None
        | Some b => check_range f b key
        end
  end.

(** psl/node_fixlen.hpp:494-514, osl/node_fixlen.hpp:569-590: CheckKeyRangeAndLockForWrite. *)
Fixpoint check_write (fuel : nat) (a : addr) (key : K) : MM (option addr) :=
  match fuel with
  | O => mnofuel
  | S f =>
      lock LSIX a ;;;
      n <- getn a ;;
      ok <- in_node n key ;;
      if ok : bool then mret (Some a)
      else
        unlock LSIX a ;;;
        match nd_next n with
        | None => mret None
        | Some b => check_write f b key
        end
  end.

(** SearchChild without its latch: psl/node_fixlen.hpp:418-427. *)
Definition child_of (a : addr) (key : K) : MM addr :=
  n <- getn a ;;
  '(_, pos) <- mlift (nd_search n key) ;;
  mlift (nd_child n pos).

(** psl/b_tree.hpp:477-497 SearchLeafNodeForRead. *)
Fixpoint psl_search_read (fuel : nat) (a : addr) (key : K) : MM addr :=
  match fuel with
  | O => mnofuel
  | S f =>
      r <- check_read fuel a key ;;
      match r with
      | None => b <- getroot ;; psl_search_read f b key
      | Some b =>
          n <- getn b ;;
          if nd_inner n then
            c <- child_of b key ;; unlock LS b ;;; psl_search_read f c key
          else mret b
      end
  end.

(** osl/b_tree.hpp:464-482 SearchLeafNode; SearchChild checks the key range itself
    (osl/node_fixlen.hpp:454-474). *)
Fixpoint osl_search (fuel : nat) (a : addr) (key : K) : MM addr :=
  match fuel with
  | O => mnofuel
  | S f =>
      n <- getn a ;;
      if nd_inner n then
        r <- check_range fuel a key ;;
        match r with
        | None => b <- getroot ;; osl_search f b key
        | Some b => c <- child_of b key ;; osl_search f c key
        end
      else mret a
  end.

(** psl/b_tree.hpp:531-561 SearchLeafNodeForWrite.  The stack grows at its front: the
    head is stack.back(). *)
Fixpoint psl_search_write (fuel : nat) (a : addr) (stack : list addr) (key : K)
  : MM (list addr) :=
  match fuel with
  | O => mnofuel
  | S f =>
      n <- getn a ;;
      if nd_inner n then
        r <- check_read fuel a key ;;
        match r with
        | None => b <- getroot ;; psl_search_write f b [] key
        | Some b => c <- child_of b key ;; unlock LS b ;;; psl_search_write f c (b :: stack) key
        end
      else
        r <- check_write fuel a key ;;
        match r with
        | None => mundef         (* a null node would be pushed and used *)
        | Some b => mret (b :: stack)
        end
  end.

(** osl/b_tree.hpp:511-535 SearchLeafNodeForWrite: the leaf is not latched. *)
Fixpoint osl_search_write (fuel : nat) (a : addr) (stack : list addr) (key : K)
  : MM (list addr) :=
  match fuel with
  | O => mnofuel
  | S f =>
      n <- getn a ;;
      if nd_inner n then
        r <- check_range fuel a key ;;
        match r with
        | None => b <- getroot ;; osl_search_write f b [] key
        | Some b => c <- child_of b key ;; osl_search_write f c (b :: stack) key
        end
      else mret (a :: stack)
  end.

Definition search_write (fuel : nat) (key : K) : MM (list addr) :=
  r <- getroot ;;
  if osl then osl_search_write fuel r [] key else psl_search_write fuel r [] key.

(** psl/b_tree.hpp:569-597, osl/b_tree.hpp:543-571 SearchParentNode. *)
Fixpoint psl_search_parent (fuel : nat) (a : addr) (stack : list addr) (key : K) (target : addr)
  : MM (list addr) :=
  match fuel with
  | O => mnofuel
  | S f =>
      r <- check_read fuel a key ;;
      match r with
      | None => b <- getroot ;; psl_search_parent f b [] key target
      | Some b =>
          if Nat.eqb b target then unlock LS b ;;; mret stack
          else c <- child_of b key ;; unlock LS b ;;; psl_search_parent f c (b :: stack) key target
      end
  end.

Fixpoint osl_search_parent (fuel : nat) (a : addr) (stack : list addr) (key : K) (target : addr)
  : MM (list addr) :=
  match fuel with
  | O => mnofuel
  | S f =>
      r <- check_range fuel a key ;;
      match r with
      | None => b <- getroot ;; osl_search_parent f b [] key target
      | Some b =>
          if Nat.eqb b target then mret stack
          else c <- child_of b key ;; osl_search_parent f c (b :: stack) key target
      end
  end.

Definition search_parent (fuel : nat) (stack : list addr) (key : K) (target : addr)
  : MM (list addr) :=
  r <- getroot ;;
  if osl then osl_search_parent fuel r stack key target
  else psl_search_parent fuel r stack key target.

(** HalfSplit, psl/b_tree.hpp:667-674 with Split (psl/node_fixlen.hpp:803-840): both halves
    end up latched with SIX. *)
Definition half_split (a : addr) : MM addr :=
  n <- getn a ;;
  r <- alloc (nd_new (nd_inner n)) ;;
  rn <- getn r ;;
  '(l', r') <- mlift (nd_split n r rn) ;;
  lock LSIX r ;;;
  setn r r' ;;;
  upgradeX a ;;;
  setn a l' ;;;
  downgradeSIX a ;;;
  mret r.

(** GetValidSplitNode, psl/node_fixlen.hpp:165-178. *)
Definition valid_split_node (a : addr) (key : K) : MM addr :=
  n <- getn a ;;
  ok <- mlift (nd_comphigh n key) ;;
  match nd_next n with
  | None => mundef
  | Some r => if ok : bool then unlock LSIX r ;;; mret a else unlock LSIX a ;;; mret r
  end.

(** The latch effect of a node function that either modified the node (upgrade, modify,
    release) or left with SIX still held because a split is needed. *)
Definition finish_write (a : addr) (rc : node_rc) (n' : nd) : MM unit :=
  match rc with
  | kNeedSplit => setn a n'
  | _ => upgradeX a ;;; setn a n' ;;; unlock LX a
  end.

(** TryRootSplit, psl/b_tree.hpp:750-765. *)
Definition try_root_split (l r : addr) (sep : K) : MM bool :=
  cur <- getroot ;;
  if Nat.eqb cur l then
    n <- mlift (nd_root2 sep l r) ;;
    a <- alloc n ;;
    setroot a ;;;
    mret true
  else mret false.

(** CompleteSplit, psl/b_tree.hpp:686-738.  [stack] has already lost its top; [node] is
    the local variable of that name.  [fuel] counts loop iterations and recursive calls. *)
Fixpoint complete_split (fuel : nat) (stack : list addr) (node : option addr)
         (l r : addr) (sep : K) : MM unit :=
  match fuel with
  | O => mnofuel
  | S f =>
      match stack with
      | [] =>
          done <- try_root_split l r sep ;;
          if done : bool then mret tt
          else stack' <- search_parent fuel [] sep r ;; complete_split f stack' node l r sep
      | top :: rest =>
          let a := match node with None => top | Some x => x end in
          w <- check_write fuel a sep ;;
          match w with
          | None =>
              done <- try_root_split l r sep ;;
              if done : bool then mret tt
              else stack' <- search_parent fuel stack sep r ;;
                   complete_split f stack' None l r sep
          | Some p =>
              n <- getn p ;;
              '(rc, n') <- mlift (nd_insert_child n r sep) ;;
              match rc with
              | kCompleted => upgradeX p ;;; setn p n' ;;; unlock LX p
              | kNeedSplit =>
                  setn p n' ;;;
                  pr <- half_split p ;;
                  t <- valid_split_node p sep ;;
                  tn <- getn t ;;
                  '(rc2, tn') <- mlift (nd_insert_child tn r sep) ;;
                  match rc2 with
                  | kNeedSplit => setn t tn'
                  | kCompleted => upgradeX t ;;; setn t tn' ;;; unlock LX t
                  | _ => unlock LSIX t
                  end ;;;
                  tn2 <- getn t ;;
                  sep' <- mlift (nd_sepkey tn2 (Nat.eqb t p)) ;;
                  complete_split f rest None p pr sep'
              | _ => unlock LSIX p ;;; complete_split f stack (Some p) l r sep
              end
          end
      end
  end.

(** GetMergeableSiblingNode, psl/node_fixlen.hpp:190-209. *)
Definition mergeable_sibling (a : addr) : MM (option addr) :=
  n <- getn a ;;
  match nd_next n with
  | None => unlock LSIX a ;;; mret None
  | Some b =>
      lock LSIX b ;;;
      m <- getn b ;;
      if nd_can_merge n m then mret (Some b)
      else unlock LSIX b ;;; unlock LSIX a ;;; mret None
  end.

(** Node::Merge called by the tree: psl/node_fixlen.hpp:847-876. *)
Definition do_merge (l r : addr) : MM unit :=
  n <- getn l ;;
  m <- getn r ;;
  '(l', r') <- mlift (nd_merge l n m) ;;
  upgradeX l ;;; setn l l' ;;; unlock LX l ;;;
  upgradeX r ;;; setn r r' ;;; unlock LX r ;;;
  add_garbage r.

(** TryShrinkTree, psl/b_tree.hpp:845-857 with RemoveRoot, psl/node_fixlen.hpp:882-899. *)
Fixpoint remove_roots (fuel : nat) (a : addr) : MM addr :=
  match fuel with
  | O => mnofuel
  | S f =>
      add_garbage a ;;;
      n <- getn a ;;
      upgradeX a ;;;
      c <- mlift (nd_child n 0) ;;
      lock LSIX c ;;;
      setn a (nd_remove_root n) ;;;
      unlock LX a ;;;
      cn <- getn c ;;
      if Nat.eqb (nd_rc cn) 1 && nd_inner cn then remove_roots f c else mret c
  end.

Definition try_shrink (fuel : nat) (a : addr) : MM unit :=
  r <- getroot ;;
  n <- getn a ;;
  if Nat.eqb a r && Nat.eqb (nd_rc n) 1 then
    c <- remove_roots fuel a ;;
    setroot c ;;;
    unlock LSIX c
  else unlock LSIX a.

(** Merge, psl/b_tree.hpp:773-837; [stack] has already lost its top. *)
Fixpoint merge (fuel : nat) (stack : list addr) (node : option addr) (l : addr) : MM unit :=
  match fuel with
  | O => mnofuel
  | S f =>
      r' <- mergeable_sibling l ;;
      match r' with
      | None => mret tt
      | Some r =>
          ln <- getn l ;;
          del <- mlift (nd_highkey ln) ;;
          match node, stack with
          | None, [] =>
              stack' <- search_parent fuel [] del r ;; merge f stack' node l
          | Some _, [] =>
              stack' <- search_parent fuel [] del r ;; merge f stack' node l
          | _, top :: rest =>
              let a := match node with None => top | Some x => x end in
              let stack1 := match node with None => rest | Some _ => stack end in
              w <- check_write fuel a del ;;
              match w with
              | None => stack' <- search_parent fuel stack1 del r ;; merge f stack' None l
              | Some p =>
                  n <- getn p ;;
                  '(rc, n') <- mlift (nd_delete_child n del) ;;
                  match rc with
                  | kCompleted =>
                      upgradeX p ;;; setn p n' ;;; unlock LX p ;;; do_merge l r
                  | kAbortMerge =>
                      unlock LSIX p ;;; unlock LSIX l ;;; unlock LSIX r
                  | kNeedRetry =>
                      unlock LSIX p ;;; merge f stack1 (Some p) l
                  | _ =>
                      upgradeX p ;;; setn p n' ;;; downgradeSIX p ;;;
                      do_merge l r ;;;
                      match stack1 with
                      | [] => try_shrink fuel p
                      | _ => merge f stack1 None p
                      end
                  end
              end
          end
      end
  end.

Definition pop (stack : list addr) : MM (addr * list addr) :=
  match stack with [] => mundef | a :: rest => mret (a, rest) end.

(** Read, psl/b_tree.hpp:126-142; osl/b_tree.hpp:126-140 with osl/node_fixlen.hpp:610-627. *)
Definition sl_read (fuel : nat) (key : K) : MM ret :=
  r <- getroot ;;
  if osl then
    a <- osl_search fuel r key ;;
    b <- check_range fuel a key ;;
    match b with
    | None => mundef
    | Some b => n <- getn b ;; o <- mlift (nd_read n key) ;; mret (RPayload o)
    end
  else
    a <- psl_search_read fuel r key ;;
    n <- getn a ;; o <- mlift (nd_read n key) ;; unlock LS a ;;; mret (RPayload o).

(** The part of Write and Insert that follows kNeedSplit: psl/b_tree.hpp:200-210,
    osl/b_tree.hpp:181-191. *)
Definition split_and_retry (fuel : nat) (op2 : nd -> K -> V -> option (node_rc * nd))
           (a : addr) (rest : list addr) (key : K) (v : V) : MM unit :=
  r <- half_split a ;;
  t <- valid_split_node a key ;;
  tn <- getn t ;;
  '(rc2, tn') <- mlift (op2 tn key v) ;;
  finish_write t rc2 tn' ;;;
  tn2 <- getn t ;;
  sep <- mlift (nd_sepkey tn2 (Nat.eqb t a)) ;;
  complete_split fuel rest None a r sep.

(** Write, psl/b_tree.hpp:187-213, osl/b_tree.hpp:170-194. *)
Definition sl_write (fuel : nat) (key : K) (v : V) : MM ret :=
  stack <- search_write fuel key ;;
  '(a0, rest) <- pop stack ;;
  w <- (if osl then check_write fuel a0 key else mret (Some a0)) ;;
  match w with
  | None => mundef
  | Some a =>
      n <- getn a ;;
      '(rc, n') <- mlift (nd_write n key v) ;;
      finish_write a rc n' ;;;
      match rc with
      | kNeedSplit => split_and_retry fuel nd_write2 a rest key v ;;; mret RSuccess
      | _ => mret RSuccess
      end
  end.

(** The leaf the operation works on.  The optimistic Insert, Update and Delete check the
    key range without a latch (osl/node_fixlen.hpp:692-711, 763-784, 805-840). *)
Definition leaf_for_update (fuel : nat) (a0 : addr) (key : K) : MM addr :=
  if osl then
    w <- check_range fuel a0 key ;;
    match w with None => mundef | Some a => mret a end
  else mret a0.

(** Leaving a leaf unchanged. *)
Definition leave (a : addr) : MM unit := if osl then mret tt else unlock LSIX a.

(** Insert, psl/b_tree.hpp:223-250 with psl/node_fixlen.hpp:594-608, osl/b_tree.hpp:206-231. *)
Definition sl_insert (fuel : nat) (key : K) (v : V) : MM ret :=
  stack <- search_write fuel key ;;
  '(a0, rest) <- pop stack ;;
  a <- leaf_for_update fuel a0 key ;;
  n <- getn a ;;
  '(rc, n') <- mlift (nd_insert n key v) ;;
  match rc with
  | kKeyAlreadyInserted => leave a ;;; mret RKeyExist
  | _ =>
      (if osl then lock LSIX a else mret tt) ;;;
      finish_write a rc n' ;;;
      match rc with
      | kNeedSplit => split_and_retry fuel nd_insert2 a rest key v ;;; mret RSuccess
      | _ => mret RSuccess
      end
  end.

(** Update, psl/b_tree.hpp:260-272 with psl/node_fixlen.hpp:624-645; the optimistic variant
    descends without a stack (osl/b_tree.hpp:244-255). *)
Definition sl_update (fuel : nat) (key : K) (v : V) : MM ret :=
  a0 <- (if osl then r <- getroot ;; osl_search fuel r key
         else stack <- search_write fuel key ;; '(a, _) <- pop stack ;; mret a) ;;
  a <- leaf_for_update fuel a0 key ;;
  n <- getn a ;;
  '(rc, n') <- mlift (nd_update n key v) ;;
  match rc with
  | kSuccess =>
      (if osl then lock LX a else upgradeX a) ;;; setn a n' ;;; unlock LX a ;;; mret RSuccess
  | _ => leave a ;;; mret RKeyNotExist
  end.

(** Delete, psl/b_tree.hpp:282-301 with psl/node_fixlen.hpp:659-689, osl/b_tree.hpp:265-283. *)
Definition sl_delete (fuel : nat) (key : K) : MM ret :=
  stack <- search_write fuel key ;;
  '(a0, rest) <- pop stack ;;
  a <- leaf_for_update fuel a0 key ;;
  n <- getn a ;;
  '(rc, n') <- mlift (nd_delete n key) ;;
  match rc with
  | kKeyNotInserted => leave a ;;; mret RKeyNotExist
  | _ =>
      (if osl then lock LX a else upgradeX a) ;;; setn a n' ;;;
      match rc with
      | kNeedMerge => downgradeSIX a ;;; merge fuel rest None a ;;; mret RSuccess
      | _ => unlock LX a ;;; mret RSuccess
      end
  end.

Definition sl_call (fuel : nat) (c : call) : MM ret :=
  match c with
  | CRead k => sl_read fuel k
  | CWrite k v => sl_write fuel k v
  | CInsert k v => sl_insert fuel k v
  | CUpdate k v => sl_update fuel k v
  | CDelete k => sl_delete fuel k
  end.

(** A client session: calls one after the other, the collector may run in between. *)
Inductive event := ECall (c : call) | EGC.

Fixpoint sl_run (fuel : nat) (es : list event) : MM (list ret) :=
  match es with
  | [] => mret []
  | ECall c :: es' => r <- sl_call fuel c ;; rs <- sl_run fuel es' ;; mret (r :: rs)
  | EGC :: es' => fun s => sl_run fuel es' (free_garbage s)
  end.

Fixpoint calls_of (es : list event) : list call :=
  match es with
  | [] => []
  | ECall c :: es' => c :: calls_of es'
  | EGC :: es' => calls_of es'
  end.

End SLModel.
