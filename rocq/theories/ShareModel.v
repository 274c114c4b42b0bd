(** One thread using several pessimistic scan iterators and point reads at the same time. *)
From Coq Require Import List Arith Bool Lia.
From Verif Require Import Params Mem Common Spec BaseIface TreeState IterModel.
Import ListNotations.

(** What the client does: open a scan, advance the i-th iterator, destroy it, read a key. *)
Section ShareSpec.
Context {P : Params}.

Inductive cop := COpen (lo hi : bound) | CNext (i : nat) | CClose (i : nat) | CGet (k : K).
Inductive cres :=
| ROpened | RRec (kv : K * V) | REnd | RClosed | RVal (r : ret) | RNoIter.

Fixpoint put {A} (i : nat) (x : A) (l : list A) : list A :=
  match l, i with
  | [], _ => []
  | _ :: l', O => x :: l'
  | y :: l', S i' => y :: put i' x l'
  end.

(** Specification: every open iterator owns the list of records it still has to deliver,
    [sc lo hi] being the answer to a whole scan; nobody else touches that list. *)
Fixpoint share_spec (sc : bound -> bound -> list (K * V)) (m : amap) (env : list (list (K * V)))
  (ops : list cop) : list cres :=
  match ops with
  | [] => []
  | COpen lo hi :: ops' => ROpened :: share_spec sc m (env ++ [sc lo hi]) ops'
  | CNext i :: ops' =>
      match nth_error env i with
      | None => RNoIter :: share_spec sc m env ops'
      | Some [] => REnd :: share_spec sc m env ops'
      | Some (kv :: l) => RRec kv :: share_spec sc m (put i l env) ops'
      end
  | CClose i :: ops' =>
      match nth_error env i with
      | None => RNoIter :: share_spec sc m env ops'
      | Some _ => RClosed :: share_spec sc m (put i [] env) ops'
      end
  | CGet k :: ops' => RVal (RPayload (m k)) :: share_spec sc m env ops'
  end.

(** Reading, anywhere in the program, a key that a scan delivers gives the delivered payload. *)
Definition reads_back (ops : list cop) (rs : list cres) : Prop :=
  forall i j k v, nth_error rs i = Some (RRec (k, v)) -> nth_error ops j = Some (CGet k) ->
    nth_error rs j = Some (RVal (RPayload (Some v))).
End ShareSpec.

Section ShareModel.
Context {P : Params} {B : BaseOps P}.
Notation MM := (M bn).

(** [scan_leaf] finds and latches the first leaf of a scan; [read] is the point read. *)
Context (scan_leaf : nat -> bound -> MM addr) (read : nat -> K -> MM ret).

(** The destructors of all iterators, record_iterator.hpp:86-91. *)
Fixpoint share_end (env : list piter) : MM unit :=
  match env with
  | [] => mret tt
  | it :: env' => pit_close it ;;; share_end env'
  end.

(** The client program; each step is the code of Scan, of the iterator or of Read. *)
Fixpoint share_run (fuel : nat) (env : list piter) (ops : list cop) : MM (list cres) :=
  match ops with
  | [] => share_end env ;;; mret []
  | COpen lo hi :: ops' =>
      a <- scan_leaf fuel lo ;;
      it <- pit_make a lo hi ;;
      rs <- share_run fuel (env ++ [it]) ops' ;;
      mret (ROpened :: rs)
  | CNext i :: ops' =>
      match nth_error env i with
      | None => rs <- share_run fuel env ops' ;; mret (RNoIter :: rs)
      | Some it =>
          '(b, it1) <- pit_has fuel it ;;
          if b : bool then
            kv <- pit_get it1 ;;
            rs <- share_run fuel (put i (pit_next it1) env) ops' ;;
            mret (RRec kv :: rs)
          else
            rs <- share_run fuel (put i it1 env) ops' ;;
            mret (REnd :: rs)
      end
  | CClose i :: ops' =>
      match nth_error env i with
      | None => rs <- share_run fuel env ops' ;; mret (RNoIter :: rs)
      | Some it =>
          pit_close it ;;;
          rs <- share_run fuel (put i (PIter None 0 0 None true) env) ops' ;;
          mret (RClosed :: rs)
      end
  | CGet k :: ops' =>
      r <- read fuel k ;; rs <- share_run fuel env ops' ;; mret (RVal r :: rs)
  end.

End ShareModel.

(** One thread using several optimistic iterators: [key_] is one cell for all of them. *)
Section OptShareModel.
Context {P : Params} {B : BaseOps P}.
Notation MM := (M bn).
Context (scan_leaf : nat -> bound -> MM addr) (read : nat -> K -> MM ret).

Fixpoint oshare_run (fuel : nat) (tls : option K) (env : list oiter) (ops : list cop) : MM (list cres) :=
  match ops with
  | [] => mret []
  | COpen lo hi :: ops' =>
      a <- scan_leaf fuel lo ;;
      '(tls1, it) <- oit_make fuel tls a lo hi ;;
      rs <- oshare_run fuel tls1 (env ++ [it]) ops' ;;
      mret (ROpened :: rs)
  | CNext i :: ops' =>
      match nth_error env i with
      | None => rs <- oshare_run fuel tls env ops' ;; mret (RNoIter :: rs)
      | Some it =>
          '(b, ti) <- oit_has fuel tls it ;;
          let (tls1, it1) := ti in
          if b : bool then
            kv <- oit_get tls1 it1 ;;
            rs <- oshare_run fuel tls1 (put i (oit_next it1) env) ops' ;;
            mret (RRec kv :: rs)
          else
            rs <- oshare_run fuel tls1 (put i it1 env) ops' ;;
            mret (REnd :: rs)
      end
  | CClose i :: ops' =>
      match nth_error env i with
      | None => rs <- oshare_run fuel tls env ops' ;; mret (RNoIter :: rs)
      | Some it =>
          rs <- oshare_run fuel tls (put i (OIter None 0 0 None true false true None) env) ops' ;;
          mret (RClosed :: rs)
      end
  | CGet k :: ops' =>
      r <- read fuel k ;; rs <- oshare_run fuel tls env ops' ;; mret (RVal r :: rs)
  end.

End OptShareModel.

(** A search whose key argument points into the buffer that [GetKey(Metadata)] fills:
    psl/node_varlen.hpp:1247-1263, pml/node_varlen.hpp:1047-1063, where [tls_key] is a
    function-local thread_local and the returned pointer is what [*iter] hands out
    (record_iterator.hpp:111-116).  [cell] is the content of that buffer.  Latches are
    left out: they do not change values. *)
Section AliasModel.
Context {P : Params} {B : BaseOps P}.
Notation MM := (M bn).

(** SearchRecord, psl/node_varlen.hpp:411-430: the first probe copies the probed key into
    the buffer that [key] points to, so both operands of Comp are equal. *)
Definition alias_search (n : bn) (cell : K) : option (node_rc * nat * K) :=
  let lo := if bn_inner n then 1 else 0 in
  if lo <? bn_rc n then
    let pos := (lo + (bn_rc n - 1)) / 2 in
    let? k := bn_key n pos in
    let? d := bn_recdel n pos in
    Some ((if d : bool then kKeyAlreadyDeleted else kKeyAlreadyInserted), pos, k)
  else Some (kKeyNotInserted, 0, cell).

(** Read, psl/b_tree.hpp:127-142 and pml/b_tree.hpp:118-131; [linked]: the node checks the key
    against its high key first and may move right (psl only); CompHighKey has a buffer of its own. *)
Fixpoint alias_read (linked : bool) (fuel : nat) (a : addr) (cell : K) : MM (option V) :=
  match fuel with
  | O => mnofuel
  | S f =>
      n <- getn a ;;
      ok <- (if linked then mlift (bn_comphigh n cell) else mret true) ;;
      if ok : bool then
        '(rp, cell1) <- mlift (alias_search n cell) ;;
        let (rc, pos) := rp in
        if bn_inner n then c <- mlift (bn_child n pos) ;; alias_read linked f c cell1
        else if node_rc_eqb rc kKeyAlreadyInserted then '(_, v) <- mlift (bn_record n pos) ;; mret (Some v)
        else mret None
      else
        match bn_next n with
        | None => mundef
        | Some b => alias_read linked f b cell
        end
  end.

(** The client takes [limit] records, changes the variable that the end bound refers to
    ([ScanKey] holds a [const Key &], record_iterator.hpp:44, 201), and takes the rest. *)
Definition rebound_scan (scan_leaf : nat -> bound -> MM addr) (fuel : nat) (lo hi hi2 : bound)
  (limit rest : nat) : MM (list (K * V)) :=
  a <- scan_leaf fuel lo ;;
  it <- pit_make a lo hi ;;
  '(rs, it1) <- pit_take fuel limit it ;;
  '(rs2, it2) <- pit_take fuel rest (PIter (p_node it1) (p_pos it1) (p_end it1) hi2 (p_isend it1)) ;;
  pit_close it2 ;;;
  mret (rs ++ rs2).

Definition orebound_scan (scan_leaf : nat -> bound -> MM addr) (fuel : nat) (lo hi hi2 : bound)
  (limit rest : nat) : MM (list (K * V)) :=
  a <- scan_leaf fuel lo ;;
  '(tls, it) <- oit_make fuel None a lo hi ;;
  '(rs, ti) <- oit_take fuel limit tls it ;;
  let (tls1, it1) := ti in
  '(rs2, _) <- oit_take fuel rest tls1
     (OIter (o_node it1) (o_pos it1) (o_end it1) hi2 (o_isend it1) (o_has it1) (o_closed it1) (o_pay it1)) ;;
  mret (rs ++ rs2).

End AliasModel.
