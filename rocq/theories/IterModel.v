(** Scan iterators: record_iterator.hpp and optimistic_record_iterator.hpp, run by one
    thread.  They are shared by all tree variants, so they are stated on [BaseOps]. *)
From Coq Require Import List Arith Bool Lia.
From Verif Require Import Params Mem Common Spec BaseIface TreeState.
Import ListNotations.

Section IterModel.
Context {P : Params} {B : BaseOps P}.
Notation MM := (M bn).

(** The position of the first record of a scan in its first leaf: psl/b_tree.hpp:162-163,
    optimistic_record_iterator.hpp:275-276. *)
Definition start_pos (n : bn) (key : K) (closed : bool) : option nat :=
  let? (rc, pos) := bn_search n key in
  Some (if node_rc_eqb rc kKeyAlreadyInserted && negb closed then pos + 1 else pos).

(** ** RecordIterator (record_iterator.hpp:34-199): holds a shared latch on its leaf *)

Record piter := PIter {
  p_node : option addr;    (* node_ *)
  p_pos : nat;             (* pos_ *)
  p_end : nat;             (* end_pos_ *)
  p_hi : bound;            (* end_key_ (a reference in the code; see PropIter.v) *)
  p_isend : bool;          (* is_end_ *)
}.

(** The tail of Scan (psl/b_tree.hpp:169-172, pml/b_tree.hpp:158-159): [a] is latched. *)
Definition pit_make (a : addr) (lo hi : bound) : MM piter :=
  n <- getn a ;;
  pos <- mlift (match lo with Some (k, c) => start_pos n k c | None => Some 0 end) ;;
  '(is_end, e) <- mlift (bn_endpos n hi) ;;
  mret (PIter (Some a) pos e hi is_end).

(** record_iterator.hpp:143-145: skip deleted records; at most [m] of them. *)
Fixpoint skip_deleted (m : nat) (n : bn) (pos : nat) : option nat :=
  match m with
  | O => Some pos
  | S m' => let? d := bn_recdel n pos in
            if d : bool then skip_deleted m' n (S pos) else Some pos
  end.

(** HasRecord, record_iterator.hpp:138-164, with GetNextNodeForRead
    (psl/node_fixlen.hpp:150-160). *)
Fixpoint pit_has (fuel : nat) (it : piter) : MM (bool * piter) :=
  match fuel with
  | O => mnofuel
  | S f =>
      match p_node it with
      | None => mret (false, it)
      | Some a =>
          n <- getn a ;;
          pos <- mlift (skip_deleted (p_end it - p_pos it) n (p_pos it)) ;;
          if pos <? p_end it then mret (true, PIter (Some a) pos (p_end it) (p_hi it) (p_isend it))
          else if p_isend it then
            unlock LS a ;;; mret (false, PIter None pos (p_end it) (p_hi it) (p_isend it))
          else
            match bn_next n with
            | None => mundef
            | Some b =>
                lock LS b ;;;
                unlock LS a ;;;
                nb <- getn b ;;
                '(is_end, e) <- mlift (bn_endpos nb (p_hi it)) ;;
                pit_has f (PIter (Some b) 0 e (p_hi it) is_end)
            end
      end
  end.

(** operator*, record_iterator.hpp:111-116. *)
Definition pit_get (it : piter) : MM (K * V) :=
  match p_node it with
  | None => mundef
  | Some a => n <- getn a ;; mlift (bn_record n (p_pos it))
  end.

(** operator++, record_iterator.hpp:122-126. *)
Definition pit_next (it : piter) : piter :=
  PIter (p_node it) (S (p_pos it)) (p_end it) (p_hi it) (p_isend it).

(** ~RecordIterator, record_iterator.hpp:86-91. *)
Definition pit_close (it : piter) : MM unit :=
  match p_node it with Some a => unlock LS a | None => mret tt end.

(** The client loop [for (auto it = Scan(..); it; ++it) use( *it )], left after [limit] records. *)
Fixpoint pit_take (fuel limit : nat) (it : piter) : MM (list (K * V) * piter) :=
  match limit with
  | O => mret ([], it)
  | S l =>
      '(b, it1) <- pit_has fuel it ;;
      if b : bool then
        r <- pit_get it1 ;;
        '(rs, it2) <- pit_take fuel l (pit_next it1) ;;
        mret (r :: rs, it2)
      else mret ([], it1)
  end.

(** ** OptimisticRecordIterator (optimistic_record_iterator.hpp): no latch

    Without concurrent writers every version check succeeds, so the retry branches are
    not taken.  [key_] is a static thread_local: it is not part of the iterator but a
    cell [tls] shared by all iterators of the thread. *)
Record oiter := OIter {
  o_node : option addr;
  o_pos : nat;
  o_end : nat;
  o_hi : bound;
  o_isend : bool;
  o_has : bool;            (* has_key_ *)
  o_closed : bool;         (* is_closed_ *)
  o_pay : option V;        (* payload_ *)
}.

(** CheckKeyRange, osl/node_fixlen.hpp:503-527, oml/node_fixlen.hpp:601-625. *)
Fixpoint it_check_range (fuel : nat) (a : addr) (key : K) : MM (option addr) :=
  match fuel with
  | O => mnofuel
  | S f =>
      n <- getn a ;;
      ok <- (if bn_removed n then mret false else mlift (bn_comphigh n key)) ;;
      if ok : bool then mret (Some a)
      else
        match bn_next n with
        | None => mret None
        | Some b => it_check_range f b key
        end
  end.

(** ResetIterator, optimistic_record_iterator.hpp:268-283. *)
Definition oit_reset (fuel : nat) (tls : option K) (it : oiter) : MM oiter :=
  match o_node it with
  | None => mundef
  | Some a =>
      if o_has it then
        key <- mlift tls ;;
        w <- it_check_range fuel a key ;;
        match w with
        | None => mundef
        | Some b =>
            n <- getn b ;;
            pos <- mlift (start_pos n key (o_closed it)) ;;
            '(is_end, e) <- mlift (bn_endpos n (o_hi it)) ;;
            mret (OIter (Some b) pos e (o_hi it) is_end (o_has it) (o_closed it) (o_pay it))
        end
      else
        n <- getn a ;;
        '(is_end, e) <- mlift (bn_endpos n (o_hi it)) ;;
        mret (OIter (Some a) 0 e (o_hi it) is_end (o_has it) (o_closed it) (o_pay it))
  end.

(** The constructor, optimistic_record_iterator.hpp:62-84; the result includes [tls]. *)
Definition oit_make (fuel : nat) (tls : option K) (a : addr) (lo hi : bound)
  : MM (option K * oiter) :=
  match lo with
  | Some (k, c) =>
      it <- oit_reset fuel (Some k) (OIter (Some a) 0 0 hi false true c None) ;;
      mret (Some k, it)
  | None =>
      it <- oit_reset fuel tls (OIter (Some a) 0 0 hi false false true None) ;;
      mret (tls, it)
  end.

(** HasRecord, optimistic_record_iterator.hpp:142-217; [fuel] counts loop iterations. *)
Fixpoint oit_has (fuel : nat) (tls : option K) (it : oiter) : MM (bool * (option K * oiter)) :=
  match fuel with
  | O => mnofuel
  | S f =>
      match o_node it with
      | None => mret (false, (tls, it))
      | Some a =>
          n <- getn a ;;
          if o_pos it <? o_end it then
            key <- mlift (bn_key n (o_pos it)) ;;
            del <- mlift (bn_recdel n (o_pos it)) ;;
            if del : bool then
              oit_has f (Some key)
                (OIter (Some a) (S (o_pos it)) (o_end it) (o_hi it) (o_isend it) true false (o_pay it))
            else
              '(_, v) <- mlift (bn_record n (o_pos it)) ;;
              mret (true, (Some key,
                OIter (Some a) (o_pos it) (o_end it) (o_hi it) (o_isend it) true false (Some v)))
          else if o_isend it then
            mret (false, (tls,
              OIter None (o_pos it) (o_end it) (o_hi it) (o_isend it) (o_has it) (o_closed it) (o_pay it)))
          else
            match bn_next n with
            | None => mundef
            | Some b =>
                it' <- oit_reset fuel tls
                  (OIter (Some b) (o_pos it) (o_end it) (o_hi it) (o_isend it) (o_has it) (o_closed it) (o_pay it)) ;;
                oit_has f tls it'
            end
      end
  end.

(** operator*, optimistic_record_iterator.hpp:112-117: GetKey reads [key_]. *)
Definition oit_get (tls : option K) (it : oiter) : MM (K * V) :=
  key <- mlift tls ;; v <- mlift (o_pay it) ;; mret (key, v).

(** operator++, optimistic_record_iterator.hpp:123-127. *)
Definition oit_next (it : oiter) : oiter :=
  OIter (o_node it) (S (o_pos it)) (o_end it) (o_hi it) (o_isend it) (o_has it) (o_closed it) (o_pay it).

Fixpoint oit_take (fuel limit : nat) (tls : option K) (it : oiter)
  : MM (list (K * V) * (option K * oiter)) :=
  match limit with
  | O => mret ([], (tls, it))
  | S l =>
      '(b, ti) <- oit_has fuel tls it ;;
      let (tls1, it1) := ti in
      if b : bool then
        r <- oit_get tls1 it1 ;;
        '(rs, ti2) <- oit_take fuel l tls1 (oit_next it1) ;;
        mret (r :: rs, ti2)
      else mret ([], (tls1, it1))
  end.

(** SearchLeftmostLeaf without the latch on the leaf: psl/b_tree.hpp:506-520 with
    GetLeftmostChild (psl/node_fixlen.hpp:286-300) under a shared latch when [latched];
    osl/b_tree.hpp:489-502 and oml/b_tree.hpp:490-503 without. *)
Fixpoint leftmost (latched : bool) (fuel : nat) (a : addr) : MM addr :=
  match fuel with
  | O => mnofuel
  | S f =>
      n <- getn a ;;
      if bn_inner n then
        (if latched then lock LS a else mret tt) ;;;
        c <- (if bn_removed n then mret None else c <- mlift (bn_child n 0) ;; mret (Some c)) ;;
        (if latched then unlock LS a else mret tt) ;;;
        match c with
        | None => r <- getroot ;; leftmost latched f r
        | Some c => leftmost latched f c
        end
      else mret a
  end.

(** The body of a whole scan that starts at leaf [a], which is latched when [opt] is false. *)
Definition scan_from (opt : bool) (fuel : nat) (a : addr) (lo hi : bound) (limit : nat)
  : MM (list (K * V)) :=
  if opt then
    '(tls, it) <- oit_make fuel None a lo hi ;;
    '(rs, _) <- oit_take fuel limit tls it ;;
    mret rs
  else
    it <- pit_make a lo hi ;;
    '(rs, it') <- pit_take fuel limit it ;;
    pit_close it' ;;;
    mret rs.

End IterModel.
