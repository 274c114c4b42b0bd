(** Bulkload: the node functions and the tree construction.

    The tree-level code is the same text in all four variants (psl/b_tree.hpp:302-388 and
    :858-930, osl/b_tree.hpp:291-377 and :831-903, pml/b_tree.hpp:244-330 and :677-749,
    oml/b_tree.hpp:260-346 and :757-829); it is modelled once over [BulkOps].

    Simplifications:
    - The worker threads of a parallel Bulkload touch nothing but the pages they allocate
      themselves until the main thread has received their results (psl/b_tree.hpp:333-361),
      so they are run one after the other; only the page addresses could differ.
    - vector::reserve has no effect on the result and is left out. *)
From Coq Require Import List Arith ZArith Bool Lia.
From Verif Require Import Params Mem Common Spec FixModel VarModel TreeState.
Import ListNotations.

(** ** Node functions *)
Section Nodes.
Context {P : Params}.

(** kNodeCapacityForBulkLoading = kPageSize * 0.9, component/common.hpp:56. *)
Definition bulkcap : nat := page * 9 / 10.

(** The loop of NodeFixLen::Bulkload, psl/node_fixlen.hpp:923-934 (osl :1087-1098,
    pml :811-822, oml :1062-1073): memory, offset, record count, entries left. *)
Fixpoint fx_bulk_loop (m : mem) (pl off size rc : nat) (es : list (K * pay))
  : option (mem * nat * nat * list (K * pay)) :=
  match es with
  | [] => Some (m, off, rc, [])
  | (k, p) :: es' =>
      let size' := size + (ks + pl) in
      if bulkcap <? size' + 2 * ks then Some (m, off, rc, es)
      else
        let? (m1, off') := fx_setpayload m pl off p in
        let? m2 := fx_setkey m1 rc k in
        fx_bulk_loop m2 pl off' size' (rc + 1) es'
  end.

(** A new node and NodeFixLen::Bulkload without the link to the previous node
    (psl/node_fixlen.hpp:914-947, b_tree.hpp:921-924): the key for the upper layer, the
    node, the entries left.  The code links the previous node before it stores the lowest
    key; the link reads only keys_[0] of this node, so the order does not matter. *)
Definition fx_bulk (inner : bool) (es : list (K * pay)) : option (K * fnode * list (K * pay)) :=
  let pl := if inner then ptrlen else plen in
  let? (m, off, rc, rest) := fx_bulk_loop mem_undef pl page hdr 0 es in
  let? m1 := fx_cpkey m rc m 0 in
  let n := FNode inner false (page - off) rc pl None true false m1 in
  let? k := fx_key n 0 in
  Some (k, n, rest).

(** LinkNext, psl/node_fixlen.hpp:1207-1217, osl :1331-1341; [sl] = false:
    pml/node_fixlen.hpp:1095-1107, oml :1425-1437 (inner nodes get no sibling link). *)
Definition fx_link (sl : bool) (l : fnode) (ra : addr) (r : fnode) : option fnode :=
  let? m1 := fx_cpkey (fn_mem l) (fn_rc l + 1) (fn_mem l) (fn_rc l) in
  let? m2 := fx_cpkey m1 (fn_rc l) (fn_mem r) 0 in
  Some (FNode (fn_inner l) (fn_removed l) (fn_block l) (fn_rc l) (fn_pl l)
              (if sl || negb (fn_inner l) then Some ra else fn_next l) (fn_low l) true m2).

(** The loop body of RemoveLeftmostKeys before it goes down, psl/node_fixlen.hpp:982-986:
    keys_[0] = Key{}, modelled as unspecified bytes; the lowest key is dropped. *)
Definition fx_strip (n : fnode) : option fnode :=
  let? m := mwr (fn_mem n) (fk_off 0) (repeat CUndef ks) in
  Some (FNode (fn_inner n) (fn_removed n) (fn_block n) (fn_rc n) (fn_pl n) (fn_next n)
              false (fn_high n) m).

(** The end of RemoveLeftmostKeys, psl/node_fixlen.hpp:991-992. *)
Definition fx_unlow (n : fnode) : fnode :=
  FNode (fn_inner n) (fn_removed n) (fn_block n) (fn_rc n) (fn_pl n) (fn_next n)
        false (fn_high n) (fn_mem n).

(** The loop of NodeVarLen::Bulkload, psl/node_varlen.hpp:1005-1019 (osl :1183-1197,
    pml :836-850, oml :1104-1118). *)
Fixpoint vx_bulk_loop (m : mem) (off size rc : nat) (es : list (K * pay))
  : option (mem * nat * nat * list (K * pay)) :=
  match es with
  | [] => Some (m, off, rc, [])
  | (k, p) :: es' =>
      let rec_len := klen k + paylen p in
      let size' := size + (rec_len + metalen) in
      if bulkcap <? size' + maxkey then Some (m, off, rc, es)
      else
        let? (m1, off1) := vx_setpay m off p in
        let? (m2, off2) := vx_setkey m1 off1 k in
        let? m3 := vx_setmeta m2 rc (Meta false off2 (klen k) rec_len) in
        vx_bulk_loop m3 off2 size' (rc + 1) es'
  end.

(** A new node and NodeVarLen::Bulkload without the link to the previous node,
    psl/node_varlen.hpp:991-1032. *)
Definition vx_bulk (inner : bool) (es : list (K * pay)) : option (K * vnode * list (K * pay)) :=
  match es with
  | [] => None                                     (* ParseKey( *iter ) of an empty range *)
  | (k0, _) :: _ =>
      let? (m, off, rc, rest) := vx_bulk_loop mem_undef (page - maxkey) (hdr + maxkey) 0 es in
      let? (m1, lo) := vx_setkey m page k0 in
      Some (k0, VNode inner false (page - off) 0 rc None lo (klen k0) page 0 m1, rest)
  end.

(** LinkNext, psl/node_varlen.hpp:1557-1567, osl :1695-1705: the length comes from the
    right node's lowest key; pml/node_varlen.hpp:1347-1364, oml :1722-1739 ([sl] = false):
    it comes from the right node's first record, and inner nodes get no sibling link. *)
Definition vx_link (sl : bool) (l : vnode) (ra : addr) (r : vnode) : option vnode :=
  let? mt := vx_meta (vn_mem r) 0 in
  let hlen := if sl then vn_llen r else md_klen mt in
  let? k := vx_mkey (vn_mem r) (Meta false (md_off mt) hlen (md_rlen mt)) in
  let? (m, ho) := vx_setkey (vn_mem l) (page - vn_block l) k in
  Some (VNode (vn_inner l) (vn_removed l) (vn_block l + hlen) (vn_deleted l) (vn_rc l)
              (if sl || negb (vn_inner l) then Some ra else vn_next l)
              (vn_loff l) (vn_llen l) ho hlen m).

(** The loop body of RemoveLeftmostKeys before it goes down, psl/node_varlen.hpp:1066-1076. *)
Definition vx_strip (n : vnode) : option vnode :=
  let? mt := vx_meta (vn_mem n) 0 in
  let? m := vx_setmeta (vn_mem n) 0
              (Meta false (md_off mt + md_klen mt) 0 (md_rlen mt - md_klen mt)) in
  Some (VNode (vn_inner n) (vn_removed n) (vn_block n) (vn_deleted n) (vn_rc n) (vn_next n)
              page 0 (vn_hoff n) (vn_hlen n) m).

(** The end of RemoveLeftmostKeys, psl/node_varlen.hpp:1081-1083. *)
Definition vx_unlow (n : vnode) : vnode :=
  VNode (vn_inner n) (vn_removed n) (vn_block n) (vn_deleted n) (vn_rc n) (vn_next n)
        page 0 (vn_hoff n) (vn_hlen n) (vn_mem n).

End Nodes.

(** ** The tree *)
Class BulkOps (P : Params) (ND : Type) := {
  bk_fill : bool -> list (K * pay) -> option (K * ND * list (K * pay));
  bk_link : ND -> addr -> ND -> option ND;
  bk_inner : ND -> bool;
  bk_rc : ND -> nat;
  bk_child : ND -> nat -> option addr;
  bk_strip : ND -> option ND;
  bk_unlow : ND -> ND;
  bk_cap : nat;                    (* kInnerNodeCap *)
}.

(** kInnerNodeCap, psl/b_tree.hpp:442-452. *)
Definition fx_inner_cap {P : Params} : nat := (page - hdr - ks - minfree) / (ks + ptrlen).
Definition vx_inner_cap {P : Params} : nat :=
  (page - hdr - maxkey - minfree) / (ks + ptrlen + metalen).

Definition fix_bulk {P : Params} (sl : bool) : BulkOps P fnode := {|
  bk_fill := fx_bulk; bk_link := fx_link sl; bk_inner := fn_inner; bk_rc := fn_rc;
  bk_child := fx_child; bk_strip := fx_strip; bk_unlow := fx_unlow; bk_cap := fx_inner_cap |}.
Definition var_bulk {P : Params} (sl : bool) : BulkOps P vnode := {|
  bk_fill := vx_bulk; bk_link := vx_link sl; bk_inner := vn_inner; bk_rc := vn_rc;
  bk_child := vx_child; bk_strip := vx_strip; bk_unlow := vx_unlow; bk_cap := vx_inner_cap |}.

Section Tree.
Context {P : Params} {ND : Type} {B : BulkOps P ND}.
Notation MM := (M ND).

(** l_node->LinkNext(r_node). *)
Definition link_pages (l r : addr) : MM unit :=
  dl <- getn l ;; dr <- getn r ;; dl' <- mlift (bk_link dl r dr) ;; setn l dl'.

(** ConstructSingleLayer, psl/b_tree.hpp:903-930. *)
Fixpoint bk_layer (fuel : nat) (inner : bool) (prev : option addr) (es : list (K * pay))
  : MM (list (K * pay)) :=
  match es with
  | [] => mret []
  | _ :: _ =>
      match fuel with
      | O => mnofuel
      | S f =>
          r <- mlift (bk_fill inner es) ;;
          a <- alloc (snd (fst r)) ;;
          (match prev with Some p => link_pages p a | None => mret tt end) ;;;
          nodes <- bk_layer f inner (Some a) (snd r) ;;
          mret ((fst (fst r), PP a) :: nodes)
      end
  end.

(** Add index layers while there are more than [cap] nodes; the number of layers is
    counted: the loops psl/b_tree.hpp:887-891 ([cap] = kInnerNodeCap) and :379-381
    ([cap] = 1). *)
Fixpoint bk_index (fuel cap height : nat) (nodes : list (K * pay)) : MM (nat * list (K * pay)) :=
  if length nodes <=? cap then mret (height, nodes)
  else match fuel with
       | O => mnofuel
       | S f => nodes' <- bk_layer fuel true None nodes ;; bk_index f cap (height + 1) nodes'
       end.

(** BulkloadWithSingleThread, psl/b_tree.hpp:875-895. *)
Definition bk_single (fuel : nat) (es : list (K * pay)) : MM (nat * list (K * pay)) :=
  nodes <- bk_layer fuel false None es ;; bk_index fuel bk_cap 1 nodes.

(** The slices given to the worker threads, psl/b_tree.hpp:344-354: thread [i] of [t] gets
    (rec_num + i) / t entries. *)
Fixpoint bk_slices (todo i t total : nat) (es : list (K * pay)) : list (list (K * pay)) :=
  match todo with
  | O => []
  | S todo' =>
      let n := (total + i) / t in
      firstn n es :: bk_slices todo' (i + 1) t total (skipn n es)
  end.

(** The partial trees and their maximum height, psl/b_tree.hpp:356-364. *)
Fixpoint bk_partials (fuel : nat) (sls : list (list (K * pay))) (height : nat)
  : MM (nat * list (nat * list (K * pay))) :=
  match sls with
  | [] => mret (height, [])
  | es :: sls' =>
      p <- bk_single fuel es ;;
      r <- bk_partials fuel sls' (if height <? fst p then fst p else height) ;;
      mret (fst r, p :: snd r)
  end.

(** The while loop psl/b_tree.hpp:370-373: one partial tree is brought to [height]. *)
Fixpoint bk_align (fuel todo : nat) (nodes : list (K * pay)) : MM (list (K * pay)) :=
  match todo with
  | O => mret nodes
  | S t => nodes' <- bk_layer fuel true None nodes ;; bk_align fuel t nodes'
  end.

(** LinkVerticalBorderNodes, psl/node_fixlen.hpp:957-971. *)
Fixpoint bk_vlink (fuel : nat) (l r : addr) : MM unit :=
  match fuel with
  | O => mnofuel
  | S f =>
      link_pages l r ;;;
      dl <- getn l ;;
      if bk_inner dl then
        cl <- mlift (bk_child dl (bk_rc dl - 1)) ;;
        dr <- getn r ;;
        cr <- mlift (bk_child dr 0) ;;
        bk_vlink f cl cr
      else mret tt
  end.

Definition pay_addr (e : K * pay) : option addr :=
  match snd e with PP a => Some a | PV _ => None end.
Definition front (l : list (K * pay)) : option addr :=
  match l with e :: _ => pay_addr e | [] => None end.
Definition back (l : list (K * pay)) : option addr := front (rev l).

(** The loop that aligns and links the partial trees, psl/b_tree.hpp:366-378. *)
Fixpoint bk_join (fuel height : nat) (prev : option addr) (ps : list (nat * list (K * pay)))
  : MM (list (K * pay)) :=
  match ps with
  | [] => mret []
  | (h, nodes) :: ps' =>
      nodes' <- bk_align fuel (height - h) nodes ;;
      (match prev with
       | Some l => r <- mlift (front nodes') ;; bk_vlink fuel l r
       | None => mret tt
       end) ;;;
      b <- mlift (back nodes') ;;
      rest <- bk_join fuel height (Some b) ps' ;;
      mret (nodes' ++ rest)
  end.

(** RemoveLeftmostKeys, psl/node_fixlen.hpp:978-993, psl/node_varlen.hpp:1062-1084. *)
Fixpoint bk_leftmost (fuel : nat) (a : addr) : MM unit :=
  match fuel with
  | O => mnofuel
  | S f =>
      n <- getn a ;;
      if bk_inner n then setn a (bk_unlow n)
      else
        n' <- mlift (bk_strip n) ;;
        setn a n' ;;;
        c <- mlift (bk_child n' 0) ;;
        bk_leftmost f c
  end.

(** Bulkload, psl/b_tree.hpp:314-388.  It always returns kSuccess. *)
Definition bulkload (fuel : nat) (entries : list (K * V)) (threads : nat) : MM unit :=
  match entries with
  | [] => mret tt
  | _ :: _ =>
      let es := map (fun e => (fst e, PV (snd e))) entries in
      let total := length es in
      nodes <-
        (if (threads <=? 1) || (total <? threads) then
           r <- bk_single fuel es ;; mret (snd r)
         else
           ps <- bk_partials fuel (bk_slices threads 0 threads total es) 1 ;;
           bk_join fuel (fst ps) None (snd ps)) ;;
      top <- bk_index fuel 1 0 nodes ;;
      root <- mlift (front (snd top)) ;;
      setroot root ;;;
      bk_leftmost fuel root
  end.

(** A client session with bulkloads (entries and thread count); [callf] is the tree's
    point operation, and the collector may run between any two steps. *)
Inductive bevent :=
| VCall (c : call)
| VGC
| VLoad (entries : list (K * V)) (threads : nat).

Fixpoint bk_run (callf : nat -> call -> MM ret) (fuel : nat) (es : list bevent) : MM (list ret) :=
  match es with
  | [] => mret []
  | VCall c :: es' => r <- callf fuel c ;; rs <- bk_run callf fuel es' ;; mret (r :: rs)
  | VGC :: es' => fun s => bk_run callf fuel es' (free_garbage s)
  | VLoad l t :: es' => bulkload fuel l t ;;; rs <- bk_run callf fuel es' ;; mret (RSuccess :: rs)
  end.

Fixpoint bcalls_of (es : list bevent) : list bcall :=
  match es with
  | [] => []
  | VCall c :: es' => BCall c :: bcalls_of es'
  | VGC :: es' => bcalls_of es'
  | VLoad l _ :: es' => BLoad l :: bcalls_of es'
  end.

(** An upper bound for the steps a session needs: one per call, two per loaded entry. *)
Fixpoint bcost (es : list bevent) : nat :=
  match es with
  | [] => 0
  | VCall _ :: es' => 1 + bcost es'
  | VGC :: es' => bcost es'
  | VLoad l _ :: es' => 2 * length l + bcost es'
  end.

End Tree.
