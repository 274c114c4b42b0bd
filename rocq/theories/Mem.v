(** Byte-level page memory.

    A page is a total map from byte offsets (relative to [this]) to cells.  A cell is
    one byte of an abstract object: "the i-th byte of key k", "the i-th byte of payload
    p" or "the i-th byte of metadata m", or an unspecified byte.  Reading an object
    succeeds only if all its bytes are there, in order, and the number of bytes read is
    the object's length; so overlapping writes, truncated reads and reads of
    uninitialised memory are visible as decoding failures (undefined behaviour). *)
From Coq Require Import List Arith Bool Lia.
From Verif Require Import Params.
Import ListNotations.

#[global] Arguments Nat.ltb _ _ : simpl never.
#[global] Arguments Nat.leb _ _ : simpl never.
#[global] Arguments Nat.eqb _ _ : simpl never.
#[global] Arguments Nat.div _ _ : simpl never.
#[global] Arguments Nat.sub _ _ : simpl never.
#[global] Arguments Nat.mul _ _ : simpl never.

Notation "'let?' x ':=' e1 'in' e2" :=
  (match e1 with Some x => e2 | None => None end)
  (at level 200, x pattern, e1 at level 100, e2 at level 200, right associativity).

Section Mem.
Context {P : Params}.

(** A payload slot holds a user payload (leaf) or a child pointer (inner node).
    GetPayload<Payload>/GetPayload<Node*>, psl/node_fixlen.hpp:268-276. *)
Inductive pay :=
| PV (v : V)
| PP (a : addr).

Definition paylen (p : pay) : nat :=
  match p with PV _ => plen | PP _ => ptrlen end.

Definition pay_eqb (p q : pay) : bool :=
  match p, q with
  | PV v, PV w => veqb v w
  | PP a, PP b => Nat.eqb a b
  | _, _ => false
  end.

(** component/metadata.hpp:30-119: is_deleted, offset, key_len, rec_len. *)
Record meta := Meta {
  md_del : bool;
  md_off : nat;
  md_klen : nat;
  md_rlen : nat;
}.

Definition meta_eqb (a b : meta) : bool :=
  Bool.eqb (md_del a) (md_del b) && Nat.eqb (md_off a) (md_off b) &&
  Nat.eqb (md_klen a) (md_klen b) && Nat.eqb (md_rlen a) (md_rlen b).

Inductive cell :=
| CUndef
| CKey (k : K) (i : nat)
| CPay (p : pay) (i : nat)
| CMeta (m : meta) (i : nat).

Definition cell_eqb (a b : cell) : bool :=
  match a, b with
  | CKey k i, CKey k' i' => keqb k k' && Nat.eqb i i'
  | CPay p i, CPay p' i' => pay_eqb p p' && Nat.eqb i i'
  | CMeta m i, CMeta m' i' => meta_eqb m m' && Nat.eqb i i'
  | _, _ => false
  end.

Fixpoint cells_eqb (a b : list cell) : bool :=
  match a, b with
  | [], [] => true
  | x :: a', y :: b' => cell_eqb x y && cells_eqb a' b'
  | _, _ => false
  end.

Definition mem := nat -> cell.
Definition mem_undef : mem := fun _ => CUndef.

(** Raw accesses. *)
Definition rd (m : mem) (o n : nat) : list cell := map (fun i => m (o + i)) (seq 0 n).
Definition wr (m : mem) (o : nat) (l : list cell) : mem :=
  fun i => if o <=? i then nth (i - o) l (m i) else m i.
Definition mv (dm : mem) (d : nat) (sm : mem) (s n : nat) : mem :=
  fun i => if (d <=? i) && (i <? d + n) then sm (s + (i - d)) else dm i.

(** Bounds: an access must stay between the header and the end of the page. *)
Definition inpage (o n : nat) : bool := (n =? 0) || ((hdr <=? o) && (o + n <=? page)).

(** Bounds-checked accesses: [None] is undefined behaviour. *)
Definition mrd (m : mem) (o n : nat) : option (list cell) :=
  if inpage o n then Some (rd m o n) else None.
Definition mwr (m : mem) (o : nat) (l : list cell) : option mem :=
  if inpage o (length l) then Some (wr m o l) else None.
(** memmove / memcpy between pages (the source is read before the target is written). *)
Definition mmv (dm : mem) (d : nat) (sm : mem) (s n : nat) : option mem :=
  if inpage d n && inpage s n then Some (mv dm d sm s n) else None.

(** Encoding and decoding of objects. *)
Definition enc_key (k : K) : list cell := map (CKey k) (seq 0 (klen k)).
Definition enc_pay (p : pay) : list cell := map (CPay p) (seq 0 (paylen p)).
Definition enc_meta (m : meta) : list cell := map (CMeta m) (seq 0 metalen).

Definition dec_key (l : list cell) : option K :=
  match l with
  | CKey k _ :: _ => if cells_eqb l (enc_key k) then Some k else None
  | _ => None
  end.
Definition dec_pay (l : list cell) : option pay :=
  match l with
  | CPay p _ :: _ => if cells_eqb l (enc_pay p) then Some p else None
  | _ => None
  end.
Definition dec_meta (l : list cell) : option meta :=
  match l with
  | CMeta m _ :: _ => if cells_eqb l (enc_meta m) then Some m else None
  | _ => None
  end.

(** ** Lemmas *)

Lemma rd_length m o n : length (rd m o n) = n.
Proof. unfold rd. now rewrite map_length, seq_length. Qed.

Lemma rd_ext m m' o o' n :
  (forall i, i < n -> m (o + i) = m' (o' + i)) -> rd m o n = rd m' o' n.
Proof.
  intros H. unfold rd. apply map_ext_in. intros i Hi. apply in_seq in Hi. apply H. lia.
Qed.

Lemma rd_wr_same m o l : rd (wr m o l) o (length l) = l.
Proof.
  apply nth_ext with (d := CUndef) (d' := CUndef).
  - apply rd_length.
  - intros i Hi. rewrite rd_length in Hi. unfold rd.
    rewrite nth_indep with (d' := (fun i => wr m o l (o + i)) 0)
      by (rewrite map_length, seq_length; auto).
    rewrite map_nth with (f := fun i => wr m o l (o + i)).
    rewrite seq_nth by auto. unfold wr. cbn.
    replace (o <=? o + i) with true by (symmetry; apply Nat.leb_le; lia).
    replace (o + i - o) with i by lia. now apply nth_indep.
Qed.

Lemma rd_wr_other m o l o' n :
  o' + n <= o \/ o + length l <= o' -> rd (wr m o l) o' n = rd m o' n.
Proof.
  intros H. apply rd_ext. intros i Hi. unfold wr.
  destruct (o <=? o' + i) eqn:E; auto.
  apply Nat.leb_le in E. apply nth_overflow. lia.
Qed.

Lemma rd_mv_in dm d sm s n o k :
  d <= o -> o + k <= d + n -> rd (mv dm d sm s n) o k = rd sm (s + (o - d)) k.
Proof.
  intros H1 H2. apply rd_ext. intros i Hi. unfold mv.
  replace (d <=? o + i) with true by (symmetry; apply Nat.leb_le; lia).
  replace (o + i <? d + n) with true by (symmetry; apply Nat.ltb_lt; lia).
  cbn. f_equal. lia.
Qed.

Lemma rd_mv_other dm d sm s n o k :
  o + k <= d \/ d + n <= o -> rd (mv dm d sm s n) o k = rd dm o k.
Proof.
  intros H. apply rd_ext. intros i Hi. unfold mv.
  destruct (d <=? o + i) eqn:E1; destruct (o + i <? d + n) eqn:E2; auto.
  apply Nat.leb_le in E1. apply Nat.ltb_lt in E2. lia.
Qed.

Lemma mrd_some m o n l : mrd m o n = Some l -> l = rd m o n /\ inpage o n = true.
Proof. unfold mrd. destruct (inpage o n); intros H; inversion H; auto. Qed.

Lemma inpage_true o n : hdr <= o -> o + n <= page -> inpage o n = true.
Proof.
  intros. unfold inpage. apply orb_true_iff. right.
  apply andb_true_iff. split; apply Nat.leb_le; lia.
Qed.

Lemma inpage_0 o n : n = 0 -> inpage o n = true.
Proof. intros ->. reflexivity. Qed.

Lemma mrd_ok m o n : hdr <= o -> o + n <= page -> mrd m o n = Some (rd m o n).
Proof. intros. unfold mrd. now rewrite inpage_true by lia. Qed.

Lemma mwr_ok m o l : hdr <= o -> o + length l <= page -> mwr m o l = Some (wr m o l).
Proof. intros. unfold mwr. now rewrite inpage_true by lia. Qed.

Lemma mmv_ok dm d sm s n :
  n = 0 \/ (hdr <= d /\ d + n <= page /\ hdr <= s /\ s + n <= page) ->
  mmv dm d sm s n = Some (mv dm d sm s n).
Proof.
  intros H. unfold mmv.
  destruct H as [->|(H1 & H2 & H3 & H4)].
  - reflexivity.
  - now rewrite !inpage_true by lia.
Qed.

Lemma length_enc_key k : length (enc_key k) = klen k.
Proof. unfold enc_key. now rewrite map_length, seq_length. Qed.
Lemma length_enc_pay p : length (enc_pay p) = paylen p.
Proof. unfold enc_pay. now rewrite map_length, seq_length. Qed.
Lemma length_enc_meta m : length (enc_meta m) = metalen.
Proof. unfold enc_meta. now rewrite map_length, seq_length. Qed.

Context {O : OrdLaws P}.

Lemma pay_eqb_refl p : pay_eqb p p = true.
Proof. destruct p; cbn; [now apply veqb_eq | apply Nat.eqb_refl]. Qed.

Lemma meta_eqb_refl m : meta_eqb m m = true.
Proof. unfold meta_eqb. now rewrite Bool.eqb_reflx, !Nat.eqb_refl. Qed.

Lemma cells_eqb_map_refl (f : nat -> cell) n s :
  (forall i, cell_eqb (f i) (f i) = true) ->
  cells_eqb (map f (seq s n)) (map f (seq s n)) = true.
Proof.
  intros H. revert s. induction n as [|n IH]; intros s; cbn; auto. now rewrite H, IH.
Qed.

Lemma dec_enc_key k : 0 < klen k -> dec_key (enc_key k) = Some k.
Proof.
  intros H. assert (E : cells_eqb (enc_key k) (enc_key k) = true).
  { apply cells_eqb_map_refl. intros i. cbn. now rewrite keqb_refl, Nat.eqb_refl. }
  unfold dec_key. destruct (enc_key k) eqn:D.
  - apply (f_equal (@length _)) in D. rewrite length_enc_key in D. cbn in D. lia.
  - assert (exists j, c = CKey k j) as [j ->].
    { unfold enc_key in D. destruct (klen k); cbn in D; inversion D. eauto. }
    now rewrite D, E.
Qed.

Lemma dec_enc_pay p : 0 < paylen p -> dec_pay (enc_pay p) = Some p.
Proof.
  intros H. assert (E : cells_eqb (enc_pay p) (enc_pay p) = true).
  { apply cells_eqb_map_refl. intros i. cbn. now rewrite pay_eqb_refl, Nat.eqb_refl. }
  unfold dec_pay. destruct (enc_pay p) eqn:D.
  - apply (f_equal (@length _)) in D. rewrite length_enc_pay in D. cbn in D. lia.
  - assert (exists j, c = CPay p j) as [j ->].
    { unfold enc_pay in D. destruct (paylen p); cbn in D; inversion D. eauto. }
    now rewrite D, E.
Qed.

Lemma dec_enc_meta m : 0 < metalen -> dec_meta (enc_meta m) = Some m.
Proof.
  intros H. assert (E : cells_eqb (enc_meta m) (enc_meta m) = true).
  { apply cells_eqb_map_refl. intros i. cbn. now rewrite meta_eqb_refl, Nat.eqb_refl. }
  unfold dec_meta. destruct (enc_meta m) eqn:D.
  - apply (f_equal (@length _)) in D. rewrite length_enc_meta in D. cbn in D. lia.
  - assert (exists j, c = CMeta m j) as [j ->].
    { unfold enc_meta in D. destruct metalen; cbn in D; inversion D. eauto. }
    now rewrite D, E.
Qed.

End Mem.
