(** Concrete parameter instances used by the non-vacuity examples: numeric keys and
    payloads with the library's default tuning ratios (utility.hpp:45-81). *)
From Coq Require Import List Arith Bool Lia.
From Verif Require Import Params FixProofs FixSL VarProofs VarSL.
Import ListNotations.

(** sizeof(Key) = [k] bytes, sizeof(Payload) = [v] bytes, page of [p] bytes;
    maxdel = p/4, minfree = p/8 as in utility.hpp:53-63; minused = [u] (p/16 by default). *)
Definition natp (k v p u : nat) : Params := {|
  K := nat; V := nat; ltb := Nat.ltb; veqb := Nat.eqb;
  klen := fun _ => k; ks := k; plen := v; ptrlen := 8; metalen := 8;
  page := p; hdr := 32; maxdel := p / 4; minfree := p / 8; minused := u; maxkey := k |}.

Lemma natp_ord k v p u : OrdLaws (natp k v p u).
Proof.
  split; cbn.
  - intros a. apply Nat.ltb_irrefl.
  - intros a b c H1 H2. apply Nat.ltb_lt in H1, H2. apply Nat.ltb_lt. lia.
  - intros a b H1 H2. apply Nat.ltb_ge in H1, H2. lia.
  - intros a b. apply Nat.eqb_eq.
Qed.

(** The smallest page the test-suite style configurations exercise: 8-byte keys and
    payloads on 160-byte pages, merging below three records. *)
Definition tiny : Params := natp 8 8 160 48.
Definition dflt : Params := natp 8 8 1024 64.

Lemma tiny_ord : OrdLaws tiny. Proof. apply natp_ord. Qed.
Lemma dflt_ord : OrdLaws dflt. Proof. apply natp_ord. Qed.

Lemma tiny_sizes : FixSizes tiny.
Proof. split; intros; cbn; try lia. Qed.
Lemma dflt_sizes : FixSizes dflt.
Proof. split; intros; cbn; try lia. Qed.

Lemma tiny_good : FixGood tiny.
Proof. split; apply Nat.leb_le; vm_compute; reflexivity. Qed.
Lemma dflt_good : FixGood dflt.
Proof. split; apply Nat.leb_le; vm_compute; reflexivity. Qed.

(** Variable-length keys: key [n] occupies 1 + n mod [k] bytes. *)
Definition natv (k v p u : nat) : Params := {|
  K := nat; V := nat; ltb := Nat.ltb; veqb := Nat.eqb;
  klen := fun n => S (n mod k); ks := k; plen := v; ptrlen := 8; metalen := 8;
  page := p; hdr := 32; maxdel := p / 4; minfree := p / 8; minused := u; maxkey := k |}.

Lemma natv_ord k v p u : OrdLaws (natv k v p u).
Proof.
  destruct (natp_ord k v p u) as [H1 H2 H3 H4]. split; assumption.
Qed.

Definition vtiny : Params := natv 3 8 144 48.
Definition vdflt : Params := natv 64 8 1024 64.

Lemma vtiny_ord : OrdLaws vtiny. Proof. apply natv_ord. Qed.
Lemma vdflt_ord : OrdLaws vdflt. Proof. apply natv_ord. Qed.
Lemma vtiny_sizes : VarSizes vtiny.
Proof. split; cbn; apply Nat.leb_le; vm_compute; reflexivity. Qed.
Lemma vdflt_sizes : VarSizes vdflt.
Proof. split; cbn; apply Nat.leb_le; vm_compute; reflexivity. Qed.
Lemma vtiny_good : VarGood vtiny.
Proof. split; apply Nat.leb_le; vm_compute; reflexivity. Qed.
Lemma vdflt_good : VarGood vdflt.
Proof. split; apply Nat.leb_le; vm_compute; reflexivity. Qed.

(** For the multi-layer trees, whose merges keep only kMinFreeSpaceSize bytes free. *)
Definition mvtiny : Params := natv 3 8 160 64.
Lemma mvtiny_ord : OrdLaws mvtiny. Proof. apply natv_ord. Qed.
Lemma mvtiny_sizes : VarSizes mvtiny.
Proof. split; cbn; apply Nat.leb_le; vm_compute; reflexivity. Qed.
Lemma mvtiny_good : VarGood mvtiny.
Proof. split; apply Nat.leb_le; vm_compute; reflexivity. Qed.
