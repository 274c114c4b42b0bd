(** C14, second half: what the actual usage of one node counts, in terms of the records
    stored in it. *)
From Coq Require Import List Arith Bool Lia.
From Verif Require Import Params Mem Common Spec NodeAbs FixModel FixProofs VarModel VarProofs SLIface BaseIface FixSL VarSL
  MLIface FixML VarML Levels TreeState SLModel MLModel WalkModel WalkProofs Inst NodeView PropNode.
Import ListNotations.

Section Stats.
Context (P : Params) (O : OrdLaws P).

(** Record bytes: the lengths given by the metadata entries of positions [i .. i+cnt-1],
    deleted records included. *)
Fixpoint meta_bytes (n : vnode) (i cnt : nat) : nat :=
  match cnt with
  | 0 => 0
  | S c => match vx_meta (vn_mem n) i with Some mt => md_rlen mt | None => 0 end + meta_bytes n (S i) c
  end.

Lemma frep_usage (F : FixSizes P) n a : frep n a ->
  fx_usage n = hdr + fn_rc n * (ks + (if fn_inner n then ptrlen else plen)).
Proof.
  intros R. unfold fx_usage. rewrite (fr_block _ _ R), (fr_rc _ _ R), (fr_inner _ _ R). unfold plof.
  destruct (a_inner a); lia.
Qed.

Theorem C14_usage_single_layer_fixlen : forall (F : FixSizes P) (G : FixGood P) osl es fuel rs s d a n,
  let N : SLOps P := fix_sl_ops osl in
  length es + 3 <= fuel -> @sl_run P N osl fuel es (@sl_init P N) = Ok rs s ->
  @at_depth P (base_of_sl N) s d a -> hp s a = Some n ->
  fx_usage n = hdr + fn_rc n * (ks + (if fn_inner n then ptrlen else plen)).
Proof.
  intros F G osl es fu rs s d a n N Hf Hr Hd Hn.
  destruct (C28_reachable_single_layer_fixlen P O F G osl es fu rs s d a n Hf Hr Hd Hn) as (lo & (x & [R _] & _) & _).
  eapply frep_usage; eauto.
Qed.

Theorem C14_usage_multi_layer_fixlen : forall (F : FixSizes P) (G : FixMLGood P) oml es fuel rs s d a n,
  let N : MLOps P := fix_ml_ops in
  length es + 3 <= fuel -> @ml_run P N oml fuel es (@ml_init P N) = Ok rs s ->
  @at_depth P (base_of_ml N) s d a -> hp s a = Some n ->
  fx_usage n = hdr + fn_rc n * (ks + (if fn_inner n then ptrlen else plen)).
Proof.
  intros F G oml es fu rs s d a n N Hf Hr Hd Hn.
  destruct (C28_reachable_multi_layer_fixlen P O F G oml es fu rs s d a n Hf Hr Hd Hn) as (lo & (x & R & _) & _).
  eapply frep_usage; eauto.
Qed.

Lemma meta_bytes_ok (F : VarSizes P) n a L dead : vrep' n a L dead ->
  meta_bytes n 0 (vn_rc n) = sum slen (a_slots a).
Proof.
  intros R. rewrite (v_rc _ _ _ _ R), (v_slots _ _ _ _ R).
  assert (H : forall L2 L1, L = L1 ++ L2 -> meta_bytes n (length L1) (length L2) = sum slen (map fst L2)).
  { induction L2 as [|[s off] L2 IH]; intros L1 E; [reflexivity|]. cbn [length meta_bytes map fst].
    assert (Hn : nth_error L (length L1) = Some (s, off)).
    { rewrite E, nth_error_app2, Nat.sub_diag by lia. reflexivity. }
    erewrite v_meta by eauto. cbn [vmt md_rlen].
    replace (S (length L1)) with (length (L1 ++ [(s, off)])) by (rewrite app_length; cbn; lia).
    rewrite (IH (L1 ++ [(s, off)])) by (rewrite <- app_assoc; exact E). reflexivity. }
  apply (H L []). reflexivity.
Qed.

Lemma vrep_usage (F : VarSizes P) n a : vrep n a ->
  hdr + vn_rc n * metalen + meta_bytes n 0 (vn_rc n) + vn_llen n + vn_hlen n <= vx_usage n /\ vx_usage n <= page.
Proof.
  intros (L & dead & R). rewrite (meta_bytes_ok F n a L dead R). unfold vx_usage.
  rewrite (v_llen _ _ _ _ R), (v_hlen _ _ _ _ R).
  destruct (v_acc _ _ _ _ R) as (res & A & _ & B). pose proof (v_fit _ _ _ _ R) as Hf.
  rewrite (v_rc _ _ _ _ R). nia.
Qed.

(** Variable-length nodes: the usage counts the header, one metadata entry and the bytes of
    every record, and the border keys; it may count more (dead index entries and space
    reserved for a lowest key), but never more than the page. *)
Theorem C14_usage_single_layer_varlen : forall (F : VarSizes P) (G : VarGood P) osl es fuel rs s d a n,
  let N : SLOps P := var_sl_ops osl in
  (forall c, In c (calls_of es) -> 0 < klen (call_key c) <= maxkey) ->
  length es + 3 <= fuel -> @sl_run P N osl fuel es (@sl_init P N) = Ok rs s ->
  @at_depth P (base_of_sl N) s d a -> hp s a = Some n ->
  hdr + vn_rc n * metalen + meta_bytes n 0 (vn_rc n) + vn_llen n + vn_hlen n <= vx_usage n /\ vx_usage n <= page.
Proof.
  intros F G osl es fu rs s d a n N Hv Hf Hr Hd Hn.
  destruct (C28_reachable_single_layer_varlen P O F G osl es fu rs s d a n Hv Hf Hr Hd Hn) as (lo & (x & R & _) & _).
  eapply vrep_usage; eauto.
Qed.

Theorem C14_usage_multi_layer_varlen : forall (F : VarSizes P) (G : VarGood P) (M : VarMLGood P) oml es fuel rs s d a n,
  let N : MLOps P := var_ml_ops in
  (forall c, In c (calls_of es) -> 0 < klen (call_key c) <= maxkey) ->
  length es + 3 <= fuel -> @ml_run P N oml fuel es (@ml_init P N) = Ok rs s ->
  @at_depth P (base_of_ml N) s d a -> hp s a = Some n ->
  hdr + vn_rc n * metalen + meta_bytes n 0 (vn_rc n) + vn_llen n + vn_hlen n <= vx_usage n /\ vx_usage n <= page.
Proof.
  intros F G M oml es fu rs s d a n N Hv Hf Hr Hd Hn.
  destruct (C28_reachable_multi_layer_varlen P O F G M oml es fu rs s d a n Hv Hf Hr Hd Hn) as (lo & (x & R & _) & _).
  eapply vrep_usage; eauto.
Qed.

End Stats.

(** A leaf with three 8-byte keys and payloads: 32 + 3 * 16 bytes. *)
Example C14_usage_applies : exists n, pick_f (insf 3) [] = Some (n, None) /\ @fx_usage tiny n = 80.
Proof.
  assert (X : match pick_f (insf 3) [] with Some (n, None) => @fx_usage tiny n =? 80 | _ => false end = true) by (vm_compute; reflexivity).
  destruct (pick_f (insf 3) []) as [[n [m|]]|]; try discriminate X. exists n. split; [reflexivity|now apply Nat.eqb_eq].
Qed.

Print Assumptions C14_usage_single_layer_fixlen.
Print Assumptions C14_usage_multi_layer_fixlen.
Print Assumptions C14_usage_single_layer_varlen.
Print Assumptions C14_usage_multi_layer_varlen.
