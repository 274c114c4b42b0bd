(** Record metadata as the 8-byte bit-field word it is (metadata.hpp), and the widths of the
    header fields (C32, C37).  The tree models keep these numbers as naturals; C37 shows
    that on pages below 64 KiB no field of a reachable node exceeds its declared width, so
    nothing is cut off when the numbers are stored. *)
From Coq Require Import List Arith NArith ZArith Bool Lia ZifyN.
From Verif Require Import Params Mem Common Spec NodeAbs FixModel FixProofs VarModel VarProofs SLIface BaseIface FixSL VarSL
  MLIface FixML VarML Levels TreeState SLModel MLModel WalkModel WalkProofs Inst NodeView PropNode PropStats.
Import ListNotations.

(** ** The word: is_deleted : 1, offset : 31, key_len : 16, rec_len : 16
    (metadata.hpp:107-116), allocated from the least significant bit as GCC and Clang do. *)
Open Scope N_scope.

Definition b31 : N := 2 ^ 31.
Definition b16 : N := 2 ^ 16.

(** Metadata(offset, key_length, record_length), metadata.hpp:46-54; the casts cut off the
    high bits. *)
Definition mw_make (off klen rlen : N) : N :=
  (off mod 2 ^ 32 mod b31) * 2 + (klen mod b16) * 2 ^ 32 + (rlen mod b16) * 2 ^ 48.
(** Field reads. *)
Definition mw_del (w : N) : bool := N.odd w.
Definition mw_off (w : N) : N := w / 2 mod b31.
Definition mw_klen (w : N) : N := w / 2 ^ 32 mod b16.
Definition mw_rlen (w : N) : N := w / 2 ^ 48 mod b16.
(** [is_deleted = b]. *)
Definition mw_setdel (w : N) (b : bool) : N := w / 2 * 2 + (if b then 1 else 0).
(** operator==, metadata.hpp:80-87. *)
Definition mw_eqb (v w : N) : bool :=
  (mw_off v =? mw_off w) && (mw_klen v =? mw_klen w) && (mw_rlen v =? mw_rlen w).

Ltac nums := unfold mw_make, mw_off, mw_klen, mw_rlen, b31, b16 in *;
  change (2 ^ 16) with 65536 in *; change (2 ^ 31) with 2147483648 in *;
  change (2 ^ 32) with 4294967296 in *; change (2 ^ 48) with 281474976710656 in *;
  change (2 ^ 64) with 18446744073709551616 in *.
Ltac divs := zify; Z.to_euclidean_division_equations; lia.

(** C32.  Building an entry and reading it back; the entry fits its eight bytes. *)
Theorem C32_round_trip : forall off klen rlen,
  off < 2 ^ 31 -> klen < 2 ^ 16 -> rlen < 2 ^ 16 ->
  let w := mw_make off klen rlen in
  w < 2 ^ 64 /\ mw_del w = false /\ mw_off w = off /\ mw_klen w = klen /\ mw_rlen w = rlen.
Proof.
  intros off kl rl H1 H2 H3 w. unfold w, mw_del. nums.
  rewrite (N.mod_small off 4294967296), (N.mod_small off), (N.mod_small kl), (N.mod_small rl) by lia.
  repeat split; try divs.
  rewrite <- N.negb_even. apply negb_false_iff. apply N.even_spec.
  exists (off + kl * 2147483648 + rl * 140737488355328). lia.
Qed.

(** Deleting (or reviving) an entry changes the flag and nothing else. *)
Theorem C32_delete_only_changes_the_flag : forall w b,
  mw_del (mw_setdel w b) = b /\ mw_off (mw_setdel w b) = mw_off w /\
  mw_klen (mw_setdel w b) = mw_klen w /\ mw_rlen (mw_setdel w b) = mw_rlen w /\
  (w < 2 ^ 64 -> mw_setdel w b < 2 ^ 64).
Proof.
  intros w b. unfold mw_del, mw_setdel. split.
  - destruct b.
    + apply N.odd_spec. exists (w / 2). lia.
    + rewrite <- N.negb_even. apply negb_false_iff, N.even_spec. exists (w / 2). lia.
  - nums. destruct b; repeat split; try divs.
Qed.

(** Equality compares the three numbers and ignores the flag. *)
Theorem C32_equality : forall v w,
  mw_eqb v w = true <-> (mw_off v = mw_off w /\ mw_klen v = mw_klen w /\ mw_rlen v = mw_rlen w).
Proof.
  intros v w. unfold mw_eqb. rewrite !andb_true_iff, !N.eqb_eq. tauto.
Qed.
Theorem C32_equality_ignores_the_flag : forall v w b c,
  mw_eqb (mw_setdel v b) (mw_setdel w c) = mw_eqb v w.
Proof.
  intros v w b c. unfold mw_eqb.
  destruct (C32_delete_only_changes_the_flag v b) as (_ & -> & -> & -> & _).
  destruct (C32_delete_only_changes_the_flag w c) as (_ & -> & -> & -> & _). reflexivity.
Qed.
(** Two words with equal fields and flags are the same word. *)
Theorem C32_fields_determine_the_entry : forall v w,
  v < 2 ^ 64 -> w < 2 ^ 64 -> mw_del v = mw_del w -> mw_eqb v w = true -> v = w.
Proof.
  intros v w Hv Hw Hd He. apply C32_equality in He as (E1 & E2 & E3). unfold mw_del in Hd.
  assert (D : v mod 2 = w mod 2).
  { rewrite <- !N.bit0_mod, !N.bit0_odd, Hd. reflexivity. }
  nums. divs.
Qed.

Example C32_round_trip_applies :
  let w := mw_make 2147483647 65535 65535 in
  mw_off w = 2147483647 /\ mw_klen w = 65535 /\ mw_rlen w = 65535 /\ mw_del w = false /\
  mw_del (mw_setdel w true) = true /\ mw_eqb (mw_setdel w true) w = true /\
  mw_off (mw_make (2 ^ 31) 0 0) = 0.
Proof. repeat split; vm_compute; reflexivity. Qed.

Close Scope N_scope.

(** ** The numbers in a reachable node fit *)

(** [k] bits hold [n]. *)
Definition fits (k n : nat) : Prop := (N.of_nat n < 2 ^ N.of_nat k)%N.

(** Declared widths: psl/node_varlen.hpp:1574-1604 (osl :1712-1742), pml/node_varlen.hpp:1372-1399;
    block_size_ has 30 bits in the single-layer trees and 31 in BTreePML: the smaller one
    is used here.  The offsets of border keys count only when the key is present. *)
Definition var_fields_fit {P : Params} (n : vnode) : Prop :=
  fits 30 (vn_block n) /\ fits 16 (vn_deleted n) /\ fits 16 (vn_rc n) /\
  fits 16 (vn_llen n) /\ fits 16 (vn_hlen n) /\
  (vn_llen n <> 0 -> fits 16 (vn_loff n)) /\ (vn_hlen n <> 0 -> fits 16 (vn_hoff n)) /\
  (forall i, i < vn_rc n -> exists m, vx_meta (vn_mem n) i = Some m /\
     let w := mw_make (N.of_nat (md_off m)) (N.of_nat (md_klen m)) (N.of_nat (md_rlen m)) in
     mw_off w = N.of_nat (md_off m) /\ mw_klen w = N.of_nat (md_klen m) /\ mw_rlen w = N.of_nat (md_rlen m)).

(** psl/node_fixlen.hpp:1224-1248. *)
Definition fix_fields_fit {P : Params} (n : fnode) : Prop :=
  fits 30 (fn_block n) /\ fits 16 (fn_rc n) /\ fits 16 (fn_pl n).

Section Widths.
Context (P : Params) (O : OrdLaws P).

Lemma fits_le k n m : n <= m -> fits k m -> fits k n.
Proof. unfold fits. intros. eapply N.le_lt_trans; [|eassumption]. lia. Qed.
Lemma fits_mono n : fits 16 n -> fits 30 n.
Proof. unfold fits. intros H. eapply N.lt_trans; [exact H|]. reflexivity. Qed.
Lemma fits_mono31 n : fits 16 n -> (N.of_nat n < 2 ^ 31)%N.
Proof. unfold fits. intros H. eapply N.lt_trans; [exact H|]. reflexivity. Qed.

Lemma tsize_le l : sum tsize l <= sum slen l + metalen * length l.
Proof.
  unfold sum. induction l as [|s l IH]; cbn [map list_sum fold_right length]; [lia|].
  change (fold_right Nat.add 0 (map tsize l)) with (list_sum (map tsize l)).
  change (fold_right Nat.add 0 (map slen l)) with (list_sum (map slen l)).
  unfold tsize at 1. rewrite Nat.mul_succ_r. destruct (s_del s); lia.
Qed.

Lemma vrep_fields (F : VarSizes P) n a : vrep n a -> fits 16 page -> var_fields_fit n.
Proof.
  intros (L & dead & R) Hp.
  pose proof (v_fit _ _ _ _ R) as Hf. destruct (v_acc _ _ _ _ R) as (res & A1 & A2 & A3).
  pose proof (tsize_le (a_slots a)) as Ht. pose proof vs_meta_pos as Hm.
  assert (Hl : length (a_slots a) = length L) by (rewrite (v_slots _ _ _ _ R); apply map_length).
  assert (Hd := v_del _ _ _ _ R). rewrite Hl in Ht.
  assert (Hlay := v_lay _ _ _ _ R). destruct Hlay as [Hin _].
  assert (HL : length L <= metalen * length L) by nia.
  repeat split.
  - apply fits_mono. eapply fits_le; [|exact Hp]. lia.
  - eapply fits_le; [|exact Hp]. lia.
  - rewrite (v_rc _ _ _ _ R). eapply fits_le; [|exact Hp]. lia.
  - rewrite (v_llen _ _ _ _ R). eapply fits_le; [|exact Hp]. lia.
  - rewrite (v_hlen _ _ _ _ R). eapply fits_le; [|exact Hp]. lia.
  - rewrite (v_llen _ _ _ _ R). intros Hz. destruct (a_low a) as [k|] eqn:E; [|now cbn in Hz].
    rewrite (v_loff _ _ _ _ R k E). eapply fits_le; [|exact Hp]. lia.
  - rewrite (v_hlen _ _ _ _ R). intros Hz. destruct (a_high a) as [k|] eqn:E; [|now cbn in Hz].
    apply Forall_app in Hin as [_ Hin]. apply Forall_app in Hin as [Hin _].
    cbn [ochunk] in Hin. inversion Hin as [|? ? [_ Hi] _]; subst. cbn in Hi.
    eapply fits_le; [|exact Hp]. lia.
  - intros i Hi. rewrite (v_rc _ _ _ _ R) in Hi.
    destruct (nth_error L i) as [[s off]|] eqn:E; [|apply nth_error_None in E; lia].
    exists (vmt s off). split; [eapply v_meta; eauto|].
    apply Forall_app in Hin as [_ Hin]. apply Forall_app in Hin as [_ Hin].
    rewrite Forall_forall in Hin. specialize (Hin (rchunk (s, off))).
    assert (Hc : inchunk (page - vn_block n) (rchunk (s, off))).
    { apply Hin. apply in_map. eapply nth_error_In; eauto. }
    destruct Hc as [_ Hc]. cbn in Hc. unfold slen in Hc.
    cbn [vmt md_off md_klen md_rlen]. unfold slen.
    assert (X1 : off <= page) by lia. assert (X2 : klen_o (s_key s) <= page) by lia.
    assert (X3 : klen_o (s_key s) + paylen (s_pay s) <= page) by lia.
    eapply C32_round_trip.
    + apply fits_mono31. eapply fits_le; [exact X1|exact Hp].
    + exact (fits_le 16 _ _ X2 Hp).
    + exact (fits_le 16 _ _ X3 Hp).
Qed.

Lemma frep_fields (F : FixSizes P) n a : frep n a -> fits 16 page -> fits 16 plen -> fits 16 ptrlen ->
  fix_fields_fit n.
Proof.
  intros R Hp H1 H2. pose proof (fr_fits _ _ R) as Hf. unfold fx_used in Hf. pose proof fx_ks_pos as Hk.
  rewrite (fr_rc _ _ R) in Hf. repeat split.
  - apply fits_mono. eapply fits_le; [|exact Hp]. lia.
  - rewrite (fr_rc _ _ R). eapply fits_le; [|exact Hp]. nia.
  - rewrite (fr_pl _ _ R). destruct (a_inner a); assumption.
Qed.

(** C37, all trees: every node of every tree a session can build. *)
Theorem C37_fields_fit_single_layer_fixlen : forall (F : FixSizes P) (G : FixGood P) osl es fuel rs s d a n,
  let N : SLOps P := fix_sl_ops osl in
  fits 16 page -> length es + 3 <= fuel -> @sl_run P N osl fuel es (@sl_init P N) = Ok rs s ->
  @at_depth P (base_of_sl N) s d a -> hp s a = Some n -> fix_fields_fit n.
Proof.
  intros F G osl es fu rs s d a n N Hp Hf Hr Hd Hn.
  destruct (C28_reachable_single_layer_fixlen P O F G osl es fu rs s d a n Hf Hr Hd Hn) as (lo & (x & [R _] & _) & _).
  pose proof fg_cap. eapply frep_fields; eauto; (eapply fits_le; [|exact Hp]; lia).
Qed.
Theorem C37_fields_fit_multi_layer_fixlen : forall (F : FixSizes P) (G : FixMLGood P) oml es fuel rs s d a n,
  let N : MLOps P := fix_ml_ops in
  fits 16 page -> length es + 3 <= fuel -> @ml_run P N oml fuel es (@ml_init P N) = Ok rs s ->
  @at_depth P (base_of_ml N) s d a -> hp s a = Some n -> fix_fields_fit n.
Proof.
  intros F G oml es fu rs s d a n N Hp Hf Hr Hd Hn.
  destruct (C28_reachable_multi_layer_fixlen P O F G oml es fu rs s d a n Hf Hr Hd Hn) as (lo & (x & R & _) & _).
  pose proof fm_cap. eapply frep_fields; eauto; (eapply fits_le; [|exact Hp]; lia).
Qed.
Theorem C37_fields_fit_single_layer_varlen : forall (F : VarSizes P) (G : VarGood P) osl es fuel rs s d a n,
  let N : SLOps P := var_sl_ops osl in
  (forall c, In c (calls_of es) -> 0 < klen (call_key c) <= maxkey) ->
  fits 16 page -> length es + 3 <= fuel -> @sl_run P N osl fuel es (@sl_init P N) = Ok rs s ->
  @at_depth P (base_of_sl N) s d a -> hp s a = Some n -> var_fields_fit n.
Proof.
  intros F G osl es fu rs s d a n N Hv Hp Hf Hr Hd Hn.
  destruct (C28_reachable_single_layer_varlen P O F G osl es fu rs s d a n Hv Hf Hr Hd Hn) as (lo & (x & R & _) & _).
  eapply vrep_fields; eauto.
Qed.
Theorem C37_fields_fit_multi_layer_varlen : forall (F : VarSizes P) (G : VarGood P) (M : VarMLGood P) oml es fuel rs s d a n,
  let N : MLOps P := var_ml_ops in
  (forall c, In c (calls_of es) -> 0 < klen (call_key c) <= maxkey) ->
  fits 16 page -> length es + 3 <= fuel -> @ml_run P N oml fuel es (@ml_init P N) = Ok rs s ->
  @at_depth P (base_of_ml N) s d a -> hp s a = Some n -> var_fields_fit n.
Proof.
  intros F G M oml es fu rs s d a n N Hv Hp Hf Hr Hd Hn.
  destruct (C28_reachable_multi_layer_varlen P O F G M oml es fu rs s d a n Hv Hf Hr Hd Hn) as (lo & (x & R & _) & _).
  eapply vrep_fields; eauto.
Qed.

End Widths.

(** The default 1 KiB page is below 64 KiB. *)
Example C37_applies : fits 16 (@page dflt) /\ fits 16 (@page vdflt) /\ FixGood dflt /\ VarGood vdflt.
Proof.
  split; [reflexivity|]. split; [reflexivity|]. split; [apply dflt_good|apply vdflt_good].
Qed.

Print Assumptions C32_round_trip.
Print Assumptions C32_delete_only_changes_the_flag.
Print Assumptions C32_equality.
Print Assumptions C32_equality_ignores_the_flag.
Print Assumptions C32_fields_determine_the_entry.
Print Assumptions C37_fields_fit_single_layer_fixlen.
Print Assumptions C37_fields_fit_multi_layer_fixlen.
Print Assumptions C37_fields_fit_single_layer_varlen.
Print Assumptions C37_fields_fit_multi_layer_varlen.
