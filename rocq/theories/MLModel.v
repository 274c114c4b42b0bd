(** The multi-layer trees, run by one thread: pml/b_tree.hpp and oml/b_tree.hpp.

    Inner nodes of these trees have no sibling links; structure modifications happen on
    the way down, so that a node is only reached after its parent has been given room.
    Without concurrent threads every version check of the optimistic variant succeeds.
    Loops are bounded by fuel (outcome NoFuel). *)
From Coq Require Import List Arith Bool Lia.
From Verif Require Import Params Mem Common Spec MLIface TreeState SLModel.
Import ListNotations.

Section MLModel.
Context {P : Params} {N : MLOps P}.

Notation MM := (M mn).

(** ** The tree latch mutex_ of the pessimistic tree (pml/b_tree.hpp:750)

    It is not part of a page; it is represented by latch entries for address 0, at which
    no page is ever allocated. *)
Definition tree_latch : addr := 0.

Definition tlock (m : lmode) : MM unit :=
  fun s => if may_lock (lk s) tree_latch m
           then Ok tt (St (hp s) (rt s) (fr s) ((tree_latch, m) :: lk s) (gb s))
           else Blocked.
Definition tunlock (m : lmode) : MM unit :=
  fun s => if holds (lk s) tree_latch m
           then Ok tt (St (hp s) (rt s) (fr s) (unhold (lk s) tree_latch m) (gb s))
           else Undef.
Definition tupgrade : MM unit :=
  fun s => if holds (lk s) tree_latch LSIX then
             if holds (lk s) tree_latch LS then Blocked
             else Ok tt (St (hp s) (rt s) (fr s)
                            ((tree_latch, LX) :: unhold (lk s) tree_latch LSIX) (gb s))
           else Undef.
Definition tdowngrade : MM unit :=
  fun s => if holds (lk s) tree_latch LX
           then Ok tt (St (hp s) (rt s) (fr s)
                          ((tree_latch, LSIX) :: unhold (lk s) tree_latch LX) (gb s))
           else Undef.

(** ::dbgroup::memory::Release<Page>(node) of a page whose latch the thread may still hold
    (pml/b_tree.hpp:655, 670): the latch is part of the page and disappears with it. *)
Definition free_page (a : addr) : MM unit :=
  fun s => match hp s a with
           | Some _ => Ok tt (St (upd (hp s) a None) (rt s) (fr s)
                                 (filter (fun p => negb (Nat.eqb (fst p) a)) (lk s)) (gb s))
           | None => Undef
           end.

(** BTree::BTree, pml/b_tree.hpp:83-90, oml likewise; address 0 is not a page. *)
Definition ml_init : st mn :=
  St (fun a => if Nat.eqb a 1 then Some mn_root0 else None) 1 2 [] [].

(** ** Pieces common to both variants *)

(** SearchRecord(key).second and the child there: pml/b_tree.hpp:506-507, oml/node_fixlen.hpp:551-552. *)
Definition route (a : addr) (key : K) : MM (nat * addr) :=
  n <- getn a ;;
  '(_, pos) <- mlift (mn_search n key) ;;
  c <- mlift (mn_child n pos) ;;
  mret (pos, c).

(** ** Pessimistic tree (PML) *)

(** GetRootForRead, pml/b_tree.hpp:414-426. *)
Definition pml_root_read : MM addr :=
  tlock LS ;;;
  r <- getroot ;;
  lock LS r ;;;
  tunlock LS ;;;
  mret r.

(** SearchLeafNodeForRead, pml/b_tree.hpp:459-471, with GetChildForRead
    (pml/node_fixlen.hpp:268-275): the child is latched before the node is unlatched. *)
Fixpoint pml_down_read (fuel : nat) (a : addr) (key : K) : MM addr :=
  match fuel with
  | O => mnofuel
  | S f =>
      n <- getn a ;;
      if mn_inner n then
        '(_, c) <- route a key ;;
        lock LS c ;;; unlock LS a ;;;
        pml_down_read f c key
      else mret a
  end.

(** SearchLeftmostLeaf, pml/b_tree.hpp:481-491. *)
Fixpoint pml_down_left (fuel : nat) (a : addr) : MM addr :=
  match fuel with
  | O => mnofuel
  | S f =>
      n <- getn a ;;
      if mn_inner n then
        c <- mlift (mn_child n 0) ;;
        lock LS c ;;; unlock LS a ;;;
        pml_down_left f c
      else mret a
  end.

(** The CleanUp that NeedSplit and NeedMerge may run: pml/node_varlen.hpp:130-170. *)
Definition pml_clean (a : addr) (o : option mn) : MM unit :=
  match o with
  | None => mret tt
  | Some n' => upgradeX a ;;; setn a n' ;;; downgradeSIX a
  end.

(** NeedSplit(kMaxRecLen), pml/node_fixlen.hpp:128-138, pml/node_varlen.hpp:126-146. *)
Definition pml_need_split (a : addr) : MM bool :=
  n <- getn a ;;
  '(b, o) <- mlift (mn_need_split n mn_maxlen) ;;
  pml_clean a o ;;;
  mret b.

(** NeedMerge, pml/node_fixlen.hpp:144-149, pml/node_varlen.hpp:153-170. *)
Definition pml_need_merge (a : addr) : MM bool :=
  n <- getn a ;;
  '(b, o) <- mlift (mn_need_merge n) ;;
  pml_clean a o ;;;
  mret b.

(** new Node, then Node::Split, pml/node_fixlen.hpp:719-755: both nodes end with SIX. *)
Definition pml_node_split (l : addr) : MM addr :=
  ln <- getn l ;;
  r <- alloc (mn_new (mn_inner ln)) ;;
  rn <- getn r ;;
  '(ln', rn') <- mlift (mn_split ln r rn) ;;
  setn r rn' ;;;
  upgradeX l ;;;
  setn l ln' ;;;
  downgradeSIX l ;;;
  lock LSIX r ;;;
  mret r.

(** GetValidSplitNode, pml/node_fixlen.hpp:201-216. *)
Definition pml_valid_split (l r : addr) (key : K) : MM addr :=
  ln <- getn l ;;
  b <- mlift (mn_comphigh ln key) ;;
  if b : bool then unlock LSIX r ;;; mret l
  else unlock LSIX l ;;; mret r.

(** Split, pml/b_tree.hpp:600-611, with InsertChild (pml/node_fixlen.hpp:661-684). *)
Definition pml_split (l p : addr) (pos : nat) : MM addr :=
  upgradeX p ;;;
  r <- pml_node_split l ;;
  ln <- getn l ;;
  sep <- mlift (mn_highkey ln) ;;
  pn <- getn p ;;
  pn' <- mlift (mn_insert_child pn r sep pos) ;;
  setn p pn' ;;;
  unlock LX p ;;;
  mret r.

(** RootSplit, pml/b_tree.hpp:620-633. *)
Definition pml_root_split (key : K) : MM addr :=
  tupgrade ;;;
  l <- getroot ;;
  r <- pml_node_split l ;;
  ln <- getn l ;;
  sep <- mlift (mn_highkey ln) ;;
  rn <- mlift (mn_root2 sep l r) ;;
  a <- alloc rn ;;
  setroot a ;;;
  tdowngrade ;;;
  pml_valid_split l r key.

(** Merge, pml/b_tree.hpp:642-656, with GetMergeableRightChild
    (pml/node_fixlen.hpp:303-325), Node::Merge (:762-789) and DeleteChild (:691-710).  The
    right page is released while it is latched. *)
Definition pml_merge (l p : addr) (pos : nat) : MM unit :=
  pn <- getn p ;;
  if Nat.eqb (pos + 1) (mn_rc pn) then unlock LSIX p
  else
    r <- mlift (mn_child pn (pos + 1)) ;;
    lock LSIX r ;;;
    ln <- getn l ;;
    rn <- getn r ;;
    if mn_can_merge ln rn then
      upgradeX p ;;;
      upgradeX l ;;;
      upgradeX r ;;;
      ln' <- mlift (mn_merge ln rn) ;;
      setn l ln' ;;;
      downgradeSIX l ;;;
      pn' <- mlift (mn_delete_child pn pos) ;;
      setn p pn' ;;;
      unlock LX p ;;;
      free_page r
    else
      unlock LSIX p ;;; unlock LSIX r.

(** ShrinkTreeIfNeeded, pml/b_tree.hpp:662-675. *)
Fixpoint pml_shrink (fuel : nat) : MM unit :=
  match fuel with
  | O => mnofuel
  | S f =>
      r <- getroot ;;
      n <- getn r ;;
      if Nat.eqb (mn_rc n) 1 && mn_inner n then
        tupgrade ;;;
        c <- mlift (mn_child n 0) ;;
        lock LSIX c ;;;
        free_page r ;;;
        setroot c ;;;
        tdowngrade ;;;
        pml_shrink f
      else mret tt
  end.

(** GetRootForWrite, pml/b_tree.hpp:435-449. *)
Definition pml_root_write (fuel : nat) (key : K) : MM addr :=
  tlock LSIX ;;;
  r0 <- getroot ;;
  lock LSIX r0 ;;;
  pml_shrink fuel ;;;
  r <- getroot ;;
  b <- pml_need_split r ;;
  a <- (if b : bool then pml_root_split key else mret r) ;;
  tunlock LSIX ;;;
  mret a.

(** The loop of SearchLeafNodeForWrite, pml/b_tree.hpp:502-528. *)
Fixpoint pml_down_write (fuel : nat) (a : addr) (key : K) : MM addr :=
  match fuel with
  | O => mnofuel
  | S f =>
      n <- getn a ;;
      if mn_inner n then
        '(pos, c) <- route a key ;;
        lock LSIX c ;;;
        b <- pml_need_split c ;;
        if b : bool then
          r <- pml_split c a pos ;;
          t <- pml_valid_split c r key ;;
          pml_down_write f t key
        else
          m <- pml_need_merge c ;;
          (if m : bool then pml_merge c a pos else unlock LSIX a) ;;;
          pml_down_write f c key
      else
        upgradeX a ;;; mret a
  end.

Definition pml_search_write (fuel : nat) (key : K) : MM addr :=
  a <- pml_root_write fuel key ;;
  pml_down_write fuel a key.

Definition rc_ret (rc : return_code) : ret :=
  match rc with
  | kSuccess => RSuccess
  | kKeyExist => RKeyExist
  | kKeyNotExist => RKeyNotExist
  end.

(** A leaf operation that releases the exclusive latch at its end; a leaf that is not
    changed is stored back as it was. *)
Definition pml_leaf_op (a : addr) (op : mn -> option (return_code * mn)) : MM ret :=
  n <- getn a ;;
  '(rc, n') <- mlift (op n) ;;
  setn a n' ;;;
  unlock LX a ;;;
  mret (rc_ret rc).

(** Read, pml/b_tree.hpp:117-131 with pml/node_fixlen.hpp:493-510. *)
Definition pml_read (fuel : nat) (key : K) : MM ret :=
  r <- pml_root_read ;;
  a <- pml_down_read fuel r key ;;
  n <- getn a ;;
  o <- mlift (mn_read n key) ;;
  unlock LS a ;;;
  mret (RPayload o).

(** Write, Insert, Update, Delete: pml/b_tree.hpp:174-243. *)
Definition pml_write (fuel : nat) (key : K) (v : V) : MM ret :=
  a <- pml_search_write fuel key ;;
  pml_leaf_op a (fun n => match mn_write n key v with Some n' => Some (kSuccess, n') | None => None end).
Definition pml_insert (fuel : nat) (key : K) (v : V) : MM ret :=
  a <- pml_search_write fuel key ;; pml_leaf_op a (fun n => mn_insert n key v).
Definition pml_update (fuel : nat) (key : K) (v : V) : MM ret :=
  a <- pml_search_write fuel key ;; pml_leaf_op a (fun n => mn_update n key v).
Definition pml_delete (fuel : nat) (key : K) : MM ret :=
  a <- pml_search_write fuel key ;; pml_leaf_op a (fun n => mn_delete n key).

(** ** Optimistic tree (OML) *)

(** The condition of CheckKeyRange and SearchChild: not removed, and the key below the
    highest key (oml/node_fixlen.hpp:508, 609). *)
Definition oml_in_node (n : mn) (key : K) : MM bool :=
  if mn_removed n then mret false else mlift (mn_comphigh n key).

(** CheckKeyRange, oml/node_fixlen.hpp:600-625. *)
Fixpoint oml_check_range (fuel : nat) (a : addr) (key : K) : MM (option addr) :=
  match fuel with
  | O => mnofuel
  | S f =>
      n <- getn a ;;
      ok <- oml_in_node n key ;;
      if ok : bool then mret (Some a)
      else
        match mn_next n with
        | None => mret None
        | Some b => oml_check_range f b key
        end
  end.

(** SearchLeafNodeForRead, oml/b_tree.hpp:467-481, with SearchChild (oml/node_fixlen.hpp:499-523). *)
Fixpoint oml_search_read (fuel : nat) (a : addr) (key : K) : MM addr :=
  match fuel with
  | O => mnofuel
  | S f =>
      n <- getn a ;;
      if mn_inner n then
        ok <- oml_in_node n key ;;
        if ok : bool then '(_, c) <- route a key ;; oml_search_read f c key
        else r <- getroot ;; oml_search_read f r key
      else mret a
  end.

(** The CleanUp in CheckSMOs: oml/node_varlen.hpp:1345-1348, 1371-1374. *)
Definition oml_clean (a : addr) (o : option mn) : MM unit :=
  match o with
  | None => mret tt
  | Some n' => lock LX a ;;; setn a n' ;;; unlock LX a
  end.

(** CheckSMOs, oml/node_fixlen.hpp:1265-1279, oml/node_varlen.hpp:1388-1401. *)
Definition oml_check_smos (a : addr) (len : nat) : MM node_rc :=
  n <- getn a ;;
  '(b, o) <- mlift (mn_need_split n len) ;;
  oml_clean a o ;;;
  if b : bool then mret kNeedSplit
  else
    n1 <- getn a ;;
    '(m, o1) <- mlift (mn_need_merge n1) ;;
    oml_clean a o1 ;;;
    mret (if m : bool then kNeedMerge else kCompleted).

(** CheckNodeStatus, oml/node_fixlen.hpp:225-249. *)
Definition oml_status (a : addr) : MM node_rc :=
  n <- getn a ;;
  if mn_removed n then mret kNeedRetry else oml_check_smos a mn_maxlen.

(** new Node, then Node::Split, oml/node_fixlen.hpp:960-996: both nodes end with X. *)
Definition oml_node_split (l : addr) : MM addr :=
  ln <- getn l ;;
  r <- alloc (mn_new (mn_inner ln)) ;;
  lock LX r ;;;
  rn <- getn r ;;
  '(ln', rn') <- mlift (mn_split ln r rn) ;;
  setn r rn' ;;;
  upgradeX l ;;;
  setn l ln' ;;;
  mret r.

(** GetValidSplitNode, oml/node_fixlen.hpp:182-204: also returns the separator key. *)
Definition oml_valid_split (l r : addr) (key : K) : MM (addr * K) :=
  ln <- getn l ;;
  sep <- mlift (mn_highkey ln) ;;
  if ltb key sep then unlock LX r ;;; unlock LX l ;;; mret (l, sep)
  else unlock LX r ;;; unlock LX l ;;; mret (r, sep).

(** TrySplit, oml/b_tree.hpp:621-650, with InsertChild (oml/node_fixlen.hpp:897-922). *)
Definition oml_split (l p : addr) (pos : nat) (key : K) : MM addr :=
  lock LSIX p ;;;
  lock LSIX l ;;;
  r <- oml_node_split l ;;
  '(t, sep) <- oml_valid_split l r key ;;
  pn <- getn p ;;
  upgradeX p ;;;
  pn' <- mlift (mn_insert_child pn r sep pos) ;;
  setn p pn' ;;;
  unlock LX p ;;;
  mret t.

(** TryRootSplit, oml/b_tree.hpp:659-690; None when the root has changed. *)
Definition oml_root_split (l : addr) (key : K) : MM (option addr) :=
  lock LSIX l ;;;
  r0 <- getroot ;;
  if Nat.eqb l r0 then
    r <- oml_node_split l ;;
    ln <- getn l ;;
    sep <- mlift (mn_highkey ln) ;;
    rn <- mlift (mn_root2 sep l r) ;;
    a <- alloc rn ;;
    setroot a ;;;
    '(t, _) <- oml_valid_split l r key ;;
    mret (Some t)
  else unlock LSIX l ;;; mret None.

(** TryMerge, oml/b_tree.hpp:700-727, with GetMergeableRightChild
    (oml/node_fixlen.hpp:312-337), Node::Merge (:1002-1043) and DeleteChild (:930-950). *)
Definition oml_merge (l p : addr) (pos : nat) : MM unit :=
  lock LSIX p ;;;
  lock LSIX l ;;;
  pn <- getn p ;;
  if Nat.eqb (pos + 1) (mn_rc pn) then unlock LSIX p ;;; unlock LSIX l
  else
    r <- mlift (mn_child pn (pos + 1)) ;;
    lock LSIX r ;;;
    ln <- getn l ;;
    rn <- getn r ;;
    if mn_can_merge ln rn then
      upgradeX l ;;;
      ln' <- mlift (mn_merge ln rn) ;;
      setn l ln' ;;;
      unlock LX l ;;;
      upgradeX r ;;;
      setn r (mn_mark_removed l rn) ;;;
      unlock LX r ;;;
      upgradeX p ;;;
      pn' <- mlift (mn_delete_child pn pos) ;;
      setn p pn' ;;;
      unlock LX p ;;;
      add_garbage r
    else
      unlock LSIX p ;;; unlock LSIX l ;;; unlock LSIX r.

(** TryShrinkTree, oml/b_tree.hpp:736-762, with RemoveRoot (oml/node_fixlen.hpp:1139-1155):
    true when there is nothing to do. *)
Definition oml_shrink (a : addr) : MM bool :=
  n <- getn a ;;
  if Nat.ltb 1 (mn_rc n) || negb (mn_inner n) then mret true
  else
    lock LSIX a ;;;
    r <- getroot ;;
    if Nat.eqb a r then
      add_garbage a ;;;
      upgradeX a ;;;
      c <- mlift (mn_child n 0) ;;
      setn a (mn_remove_root n) ;;;
      unlock LX a ;;;
      setroot c ;;;
      mret false
    else unlock LSIX a ;;; mret false.

(** GetRootForWrite, oml/b_tree.hpp:437-457. *)
Fixpoint oml_root_write (fuel : nat) (key : K) : MM addr :=
  match fuel with
  | O => mnofuel
  | S f =>
      a <- getroot ;;
      rc <- oml_status a ;;
      match rc with
      | kNeedRetry => oml_root_write f key
      | kNeedSplit =>
          o <- oml_root_split a key ;;
          match o with Some t => mret t | None => oml_root_write f key end
      | kNeedMerge =>
          b <- oml_shrink a ;;
          if b : bool then mret a else oml_root_write f key
      | _ => mret a
      end
  end.

(** The loop of SearchLeafNodeForWrite, oml/b_tree.hpp:516-545, with SearchChild
    (oml/node_fixlen.hpp:537-568). *)
Fixpoint oml_down_write (fuel : nat) (a : addr) (key : K) : MM addr :=
  match fuel with
  | O => mnofuel
  | S f =>
      n <- getn a ;;
      if mn_inner n then
        ok <- oml_in_node n key ;;
        if ok : bool then
          '(pos, c) <- route a key ;;
          rc <- oml_status c ;;
          match rc with
          | kNeedRetry => oml_down_write f a key
          | kNeedSplit => t <- oml_split c a pos key ;; oml_down_write f t key
          | kNeedMerge => oml_merge c a pos ;;; oml_down_write f c key
          | _ => oml_down_write f c key
          end
        else r <- oml_root_write f key ;; oml_down_write f r key
      else mret a
  end.

Definition oml_search_write (fuel : nat) (key : K) : MM addr :=
  a <- oml_root_write fuel key ;;
  oml_down_write fuel a key.

Definition oml_leaf (fuel : nat) (a : addr) (key : K) : MM addr :=
  w <- oml_check_range fuel a key ;;
  match w with None => mundef | Some b => mret b end.

(** Read, oml/b_tree.hpp:127-140, with oml/node_fixlen.hpp:692-714. *)
Definition oml_read (fuel : nat) (key : K) : MM ret :=
  r <- getroot ;;
  a <- oml_search_read fuel r key ;;
  b <- oml_leaf fuel a key ;;
  n <- getn b ;;
  o <- mlift (mn_read n key) ;;
  mret (RPayload o).

(** Write, oml/b_tree.hpp:174-190, with CheckKeyRangeAndLockForWrite and Node::Write
    (oml/node_fixlen.hpp:657-677, 728-752). *)
Fixpoint oml_write (fuel : nat) (key : K) (v : V) : MM ret :=
  match fuel with
  | O => mnofuel
  | S f =>
      a <- oml_search_write fuel key ;;
      b <- oml_leaf fuel a key ;;
      rc <- oml_check_smos b (mn_reclen key) ;;
      match rc with
      | kNeedSplit => oml_write f key v
      | _ =>
          lock LSIX b ;;;
          n <- getn b ;;
          upgradeX b ;;;
          n' <- mlift (mn_write n key v) ;;
          setn b n' ;;;
          unlock LX b ;;;
          mret RSuccess
      end
  end.

(** Leave a leaf alone, or store its new content under an exclusive latch. *)
Definition oml_store (a : addr) (rc : return_code) (n' : mn) : MM ret :=
  match rc with
  | kSuccess => lock LX a ;;; setn a n' ;;; unlock LX a ;;; mret RSuccess
  | _ => mret (rc_ret rc)
  end.

(** Insert, oml/b_tree.hpp:201-217, with Node::Insert (oml/node_fixlen.hpp:766-803). *)
Fixpoint oml_insert (fuel : nat) (key : K) (v : V) : MM ret :=
  match fuel with
  | O => mnofuel
  | S f =>
      a <- oml_search_write fuel key ;;
      b <- oml_leaf fuel a key ;;
      rc <- oml_check_smos b (mn_reclen key) ;;
      match rc with
      | kNeedSplit => oml_insert f key v
      | _ =>
          n <- getn b ;;
          '(c, n') <- mlift (mn_insert n key v) ;;
          oml_store b c n'
      end
  end.

(** Update, oml/b_tree.hpp:228-240, with Node::Update (oml/node_fixlen.hpp:814-840). *)
Definition oml_update (fuel : nat) (key : K) (v : V) : MM ret :=
  a <- oml_search_write fuel key ;;
  b <- oml_leaf fuel a key ;;
  n <- getn b ;;
  '(c, n') <- mlift (mn_update n key v) ;;
  oml_store b c n'.

(** Delete, oml/b_tree.hpp:249-259, with Node::Delete (oml/node_fixlen.hpp:853-889). *)
Definition oml_delete (fuel : nat) (key : K) : MM ret :=
  a <- oml_search_write fuel key ;;
  b <- oml_leaf fuel a key ;;
  n <- getn b ;;
  '(c, n') <- mlift (mn_delete n key) ;;
  oml_store b c n'.

(** ** The public operations *)
Definition ml_call (oml : bool) (fuel : nat) (c : call) : MM ret :=
  match c, oml with
  | CRead k, false => pml_read fuel k
  | CRead k, true => oml_read fuel k
  | CWrite k v, false => pml_write fuel k v
  | CWrite k v, true => oml_write fuel k v
  | CInsert k v, false => pml_insert fuel k v
  | CInsert k v, true => oml_insert fuel k v
  | CUpdate k v, false => pml_update fuel k v
  | CUpdate k v, true => oml_update fuel k v
  | CDelete k, false => pml_delete fuel k
  | CDelete k, true => oml_delete fuel k
  end.

(** A client session; for the pessimistic tree the collector never has anything to free. *)
Fixpoint ml_run (oml : bool) (fuel : nat) (es : list event) : MM (list ret) :=
  match es with
  | [] => mret []
  | ECall c :: es' =>
      r <- ml_call oml fuel c ;; rs <- ml_run oml fuel es' ;; mret (r :: rs)
  | EGC :: es' => fun s => ml_run oml fuel es' (free_garbage s)
  end.

End MLModel.
