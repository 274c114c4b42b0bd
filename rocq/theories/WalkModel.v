(** Whole-tree walks shared by all variants: the destructor and the statistics. *)
From Coq Require Import List Arith Bool Lia.
From Verif Require Import Params Mem Common BaseIface TreeState.
Import ListNotations.

Section WalkModel.
Context {P : Params} {B : BaseOps P}.
Notation MM := (M bn).

(** [for (i = 0; i < n; ++i) body(i)], starting at [i] with [n] rounds left. *)
Fixpoint for_each {A} (n i : nat) (acc : A) (body : nat -> A -> MM A) : MM A :=
  match n with
  | O => mret acc
  | S n' => acc' <- body i acc ;; for_each n' (S i) acc' body
  end.

(** DeleteChildren, psl/b_tree.hpp:606-618, pml/b_tree.hpp:536-548 (identical). *)
Fixpoint delete_children (fuel : nat) (a : addr) : MM unit :=
  match fuel with
  | O => mnofuel
  | S f =>
      n <- getn a ;;
      (if bn_inner n then
         for_each (bn_rc n) 0 tt (fun i _ =>
           n' <- getn a ;; c <- mlift (bn_child n' i) ;; delete_children f c)
       else mret tt) ;;;
      release a
  end.

(** ~BTree, psl/b_tree.hpp:110-113, pml/b_tree.hpp:101-104: the root's subtree, then the collector's destructor. *)
Definition destroy (fuel : nat) : MM unit :=
  r <- getroot ;;
  delete_children fuel r ;;;
  (fun s => Ok tt (free_garbage s)).

(** One entry of the statistics: node_num, actual_usage, virtual_usage. *)
Definition stat := (nat * nat * nat)%type.

(** [stat_data.at(level)] after the emplace_back, with the node's data added. *)
Fixpoint stat_add (l : list stat) (level : nat) (usage : nat) : option (list stat) :=
  match l, level with
  | (c, u, v) :: l', O => Some ((c + 1, u + usage, v + page) :: l')
  | e :: l', S k => match stat_add l' k usage with Some r => Some (e :: r) | None => None end
  | [], _ => None              (* vector::at throws *)
  end.

Definition stat_extend (l : list stat) (level : nat) : list stat :=
  if length l <=? level then l ++ [(0, 0, 0)] else l.

(** CollectStatisticalData, psl/b_tree.hpp:628-656; identical in osl (:601-628), pml (:559-586), oml (:575-602). *)
Fixpoint collect (fuel : nat) (a : addr) (level : nat) (sd : list stat)
  : MM (list stat) :=
  match fuel with
  | O => mnofuel
  | S f =>
      lock LS a ;;;
      n <- getn a ;;
      sd1 <- mlift (stat_add (stat_extend sd level) level (bn_usage n)) ;;
      sd2 <- (if bn_inner n then
                for_each (bn_rc n) 0 sd1 (fun i sd =>
                  n' <- getn a ;; c <- mlift (bn_child n' i) ;; collect f c (S level) sd)
              else mret sd1) ;;
      unlock LS a ;;;
      mret sd2
  end.

(** CollectStatisticalData(), psl/b_tree.hpp:396-406: starts at the root. *)
Definition statistics (fuel : nat) : MM (list stat) :=
  r <- getroot ;; collect fuel r 0 [].

(** ** Vocabulary for statements about whole trees *)

(** [a] is a node at distance [d] from the root. *)
Inductive at_depth (s : st bn) : nat -> addr -> Prop :=
| ad_root : at_depth s 0 (rt s)
| ad_child d a n i c : at_depth s d a -> hp s a = Some n -> bn_inner n = true ->
    i < bn_rc n -> bn_child n i = Some c -> at_depth s (S d) c.

Definition is_leaf (s : st bn) (a : addr) : Prop :=
  exists n, hp s a = Some n /\ bn_inner n = false.

(** [l] is the chain of next pointers starting at its first element, up to its end. *)
Inductive chain (s : st bn) : addr -> list addr -> Prop :=
| ch_last a n : hp s a = Some n -> bn_next n = None -> chain s a [a]
| ch_cons a n b l : hp s a = Some n -> bn_next n = Some b -> chain s b l -> chain s a (a :: l).

(** The leftmost leaf: first children all the way down. *)
Inductive leftmost_path (s : st bn) : addr -> addr -> Prop :=
| lp_leaf a : is_leaf s a -> leftmost_path s a a
| lp_inner a n c b : hp s a = Some n -> bn_inner n = true -> bn_child n 0 = Some c ->
    leftmost_path s c b -> leftmost_path s a b.

End WalkModel.
