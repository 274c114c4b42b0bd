(** Parameters of the library: key/payload types, comparator, and the compile-time
    size constants.  Everything downstream is polymorphic in an instance of [Params].

    Models: include/b_tree/utility.hpp (tuning constants), the template parameters
    Key, Payload, Comp of include/b_tree/b_tree.hpp:47-60, and the [static constexpr]
    blocks of component/{pml,psl,oml,osl}/b_tree.hpp and node_{fixlen,varlen}.hpp. *)
From Coq Require Import List Arith Bool Lia.
Import ListNotations.

Class Params := {
  K : Type;                    (* template parameter Key (key contents) *)
  V : Type;                    (* template parameter Payload *)
  ltb : K -> K -> bool;        (* Comp{}(a, b) *)
  veqb : V -> V -> bool;       (* byte equality of payloads (used only to decode bytes) *)
  klen : K -> nat;             (* key_len passed with a key; sizeof(Key) for fixed keys *)
  ks : nat;                    (* kKeyLen = sizeof(Key) in node_fixlen.hpp *)
  plen : nat;                  (* kPayLen = sizeof(Payload) *)
  ptrlen : nat;                (* kPtrLen = sizeof(Node* ) *)
  metalen : nat;               (* kMetaLen = sizeof(Metadata) *)
  page : nat;                  (* kPageSize, utility.hpp *)
  hdr : nat;                   (* kHeaderLen = sizeof(Node) *)
  maxdel : nat;                (* kMaxDeletedSpaceSize *)
  minfree : nat;               (* kMinFreeSpaceSize *)
  minused : nat;               (* kMinUsedSpaceSize *)
  maxkey : nat;                (* kMaxKeyLen: kMaxVarLenDataSize or sizeof(Key) *)
}.

(** Node addresses.  Allocation never reuses an address in the model, so a stale
    pointer is always distinguishable from a live one. *)
Definition addr := nat.

(** Requirements on the comparator and the payload equality: a strict total order.
    (C++ asks for a strict weak order; keys that compare equivalent are identified.) *)
Class OrdLaws (P : Params) : Prop := {
  ltb_irrefl : forall a, ltb a a = false;
  ltb_trans : forall a b c, ltb a b = true -> ltb b c = true -> ltb a c = true;
  ltb_total : forall a b, ltb a b = false -> ltb b a = false -> a = b;
  veqb_eq : forall a b, veqb a b = true <-> a = b;
}.

Section KeyEq.
Context {P : Params}.

(** Two keys are equivalent iff neither is less than the other
    (the "find an equivalent key" branch of SearchRecord, psl/node_fixlen.hpp:401). *)
Definition keqb (a b : K) : bool := negb (ltb a b) && negb (ltb b a).

Definition klt (a b : K) : Prop := ltb a b = true.
Definition kle (a b : K) : Prop := ltb b a = false.

Context {O : OrdLaws P}.

Lemma keqb_eq a b : keqb a b = true <-> a = b.
Proof.
  unfold keqb. split.
  - intros H. apply andb_true_iff in H as [H1 H2].
    apply negb_true_iff in H1, H2. now apply ltb_total.
  - intros ->. now rewrite ltb_irrefl.
Qed.

Lemma keqb_refl a : keqb a a = true.
Proof. now apply keqb_eq. Qed.

Lemma keqb_neq a b : keqb a b = false <-> a <> b.
Proof.
  rewrite <- keqb_eq. destruct (keqb a b); split; congruence.
Qed.

Lemma key_eq_dec (a b : K) : {a = b} + {a <> b}.
Proof.
  destruct (keqb a b) eqn:E; [left; now apply keqb_eq | right; now apply keqb_neq].
Qed.

Lemma klt_irrefl a : ~ klt a a.
Proof. unfold klt. rewrite ltb_irrefl. discriminate. Qed.

Lemma klt_trans a b c : klt a b -> klt b c -> klt a c.
Proof. apply ltb_trans. Qed.

Lemma klt_asym a b : klt a b -> ~ klt b a.
Proof. intros H1 H2. exact (klt_irrefl a (klt_trans _ _ _ H1 H2)). Qed.

Lemma klt_neq a b : klt a b -> a <> b.
Proof. intros H ->. exact (klt_irrefl b H). Qed.

Lemma kle_not_lt a b : kle a b <-> ~ klt b a.
Proof. unfold kle, klt. destruct (ltb b a); split; congruence. Qed.

Lemma klt_kle a b : klt a b -> kle a b.
Proof. intros H. apply kle_not_lt. now apply klt_asym. Qed.

Lemma kle_refl a : kle a a.
Proof. apply kle_not_lt, klt_irrefl. Qed.

Lemma kle_cases a b : kle a b -> klt a b \/ a = b.
Proof.
  intros H. unfold kle, klt in *. destruct (ltb a b) eqn:E; auto.
  right. now apply ltb_total.
Qed.

Lemma klt_cases a b : klt a b \/ a = b \/ klt b a.
Proof.
  unfold klt. destruct (ltb a b) eqn:E1; auto.
  destruct (ltb b a) eqn:E2; auto. right; left. now apply ltb_total.
Qed.

Lemma klt_le_dec a b : {klt a b} + {kle b a}.
Proof. unfold klt, kle. destruct (ltb a b); auto. Qed.

Lemma kle_lt_trans a b c : kle a b -> klt b c -> klt a c.
Proof. intros H1 H2. destruct (kle_cases _ _ H1) as [H| ->]; auto. eapply klt_trans; eauto. Qed.

Lemma klt_le_trans a b c : klt a b -> kle b c -> klt a c.
Proof. intros H1 H2. destruct (kle_cases _ _ H2) as [H| <-]; auto. eapply klt_trans; eauto. Qed.

Lemma kle_trans a b c : kle a b -> kle b c -> kle a c.
Proof.
  intros H1 H2. destruct (kle_cases _ _ H1) as [H| ->]; auto.
  apply klt_kle. eapply klt_le_trans; eauto.
Qed.

Lemma kle_antisym a b : kle a b -> kle b a -> a = b.
Proof. unfold kle. intros. now apply ltb_total. Qed.

Lemma ltb_false_kle a b : ltb a b = false -> kle b a.
Proof. auto. Qed.

End KeyEq.

#[export] Hint Resolve klt_irrefl kle_refl klt_kle : kord.
