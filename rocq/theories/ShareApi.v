(** Several iterators and reads in one thread, for any lawful node layout. *)
From Coq Require Import List Arith Bool Lia Sorted.
From Verif Require Import Params Mem Common Spec NodeAbs SLIface MLIface BaseIface TreeState TreeHeap SLModel SLProofs
  SLScanModel SLScan SLApi MLModel MLProofs MLScanModel MLApi IterModel ShareModel ShareProofs.
Import ListNotations.

(** Every record a client is handed is a binding of the map. *)
Lemma share_spec_reads {P : Params} sc (m : amap) ops : forall env,
  (forall l, In l env -> forall k v, In (k, v) l -> m k = Some v) ->
  (forall lo hi, In (COpen lo hi) ops -> forall k v, In (k, v) (sc lo hi) -> m k = Some v) ->
  forall k v, In (RRec (k, v)) (share_spec sc m env ops) -> m k = Some v.
Proof.
  induction ops as [|o ops IH]; intros env He Ho k v Hin; [contradiction|].
  assert (Ho' : forall lo hi, In (COpen lo hi) ops -> forall k v, In (k, v) (sc lo hi) -> m k = Some v)
    by (intros lo hi H; apply Ho; now right).
  assert (Hput : forall i l0, (forall k v, In (k, v) l0 -> m k = Some v) ->
    forall l, In l (put i l0 env) -> forall k v, In (k, v) l -> m k = Some v).
  { intros i l0 H0. revert i. clear Hin. induction env as [|e env IHe]; intros i l Hl; [destruct i; contradiction|].
    destruct i as [|i]; cbn in Hl.
    - destruct Hl as [<-|Hl]; auto. apply He. now right.
    - destruct Hl as [<-|Hl]; [apply He; now left|]. eapply IHe; eauto. intros l1 H1. apply He. now right. }
  destruct o as [lo hi|i|i|k0]; cbn [share_spec] in Hin.
  - destruct Hin as [Hin|Hin]; [discriminate|]. eapply IH; [|exact Ho'|exact Hin].
    intros l Hl. apply in_app_iff in Hl as [Hl|[<-|[]]]; [now apply He|]. apply Ho. now left.
  - destruct (nth_error env i) as [[|kv l]|] eqn:E.
    + destruct Hin as [Hin|Hin]; [discriminate|]. eapply IH; eauto.
    + apply nth_error_In in E. pose proof (He _ E) as Hl. destruct Hin as [Hin|Hin].
      * inversion Hin; subst. apply Hl. now left.
      * eapply IH; [|exact Ho'|exact Hin]. apply Hput. intros k1 v1 H1. apply Hl. now right.
    + destruct Hin as [Hin|Hin]; [discriminate|]. eapply IH; eauto.
  - destruct (nth_error env i) as [l|].
    + destruct Hin as [Hin|Hin]; [discriminate|]. eapply IH; [|exact Ho'|exact Hin]. apply Hput. contradiction.
    + destruct Hin as [Hin|Hin]; [discriminate|]. eapply IH; eauto.
  - destruct Hin as [Hin|Hin]; [discriminate|]. eapply IH; eauto.
Qed.

Section SL.
Context {P : Params} {O : OrdLaws P} {N : SLOps P} {L : SLLaws P N} {W : Leak}.
#[local] Existing Instance bsl.
#[local] Existing Instance bll.

Lemma psl_share H s m : sl_inv H s m ->
  exists sc F, (forall lo hi, bound_valid lo -> bound_valid hi -> is_scan m lo hi (sc lo hi)) /\
    forall fu ops, F <= fu -> Forall (op_ok bound_valid kvalid) ops ->
      share_run (B := bsl) (sl_scan_leaf false) (sl_read false) fu [] ops s = Ok (share_spec sc m [] ops) s.
Proof.
  intros Hi. destruct (sl_scan_all false H s m Hi) as (sc & F & A). exists sc, (F + H + 1).
  split; [intros; now apply A|]. intros fu ops Hfu Hok.
  assert (Hlk : lk s = []) by (destruct Hi as (? & ? & _ & _ & E & _); exact E).
  destruct s as [h r f l g]. cbn [lk] in Hlk. subst l.
  apply (@share_run_ok P bsl (sl_scan_leaf false) (sl_read false) fu bound_valid kvalid m sc h r f g) with (ls := []); auto.
  - lia.
  - intros lo. apply sf_psl_leaf.
  - intros k. apply sf_psl_read.
  - intros lo hi limit H1 H2. apply (A lo hi H1 H2). lia.
  - intros k Hk. eapply (sl_read_ok false); eauto. lia.
  - constructor.
Qed.

Lemma osl_share H s m : sl_inv H s m ->
  exists sc F, (forall lo hi, bound_valid lo -> bound_valid hi -> is_scan m lo hi (sc lo hi)) /\
    forall fu ops tls, F <= fu -> Forall (op_ok bound_valid kvalid) ops -> newest 0 ops ->
      oshare_run (B := bsl) (sl_scan_leaf true) (sl_read true) fu tls [] ops s = Ok (share_spec sc m [] ops) s.
Proof.
  intros Hi. destruct (sl_scan_all true H s m Hi) as (sc & F & A). exists sc, (F + H + 1).
  split; [intros; now apply A|]. intros fu ops tls Hfu Hok Hn.
  apply (@oshare_run_ok P bsl (sl_scan_leaf true) (sl_read true) fu bound_valid kvalid m sc s); auto.
  - lia.
  - intros lo. apply ro_osl_leaf.
  - intros lo hi limit H1 H2. apply (A lo hi H1 H2). lia.
  - intros k Hk. eapply (sl_read_ok true); eauto. lia.
  - split; auto. intros env0 it E. now destruct env0.
Qed.
End SL.

Section ML.
Context {P : Params} {O : OrdLaws P} {N : MLOps P} {L : MLLaws P N} {W : Leak}.
#[local] Existing Instance bml.
#[local] Existing Instance bmll.

Lemma pml_share H s m : ml_inv false H s m ->
  exists sc F, (forall lo hi, mbound_valid lo -> mbound_valid hi -> is_scan m lo hi (sc lo hi)) /\
    forall fu ops, F <= fu -> Forall (op_ok mbound_valid mvalid) ops ->
      share_run (B := bml) (ml_scan_leaf false) (fun f k => ml_call false f (CRead k)) fu [] ops s =
      Ok (share_spec sc m [] ops) s.
Proof.
  intros Hi. destruct (ml_scan_all false H s m Hi) as (sc & F & A). exists sc, (F + H + 1).
  split; [intros; now apply A|]. intros fu ops Hfu Hok.
  assert (Hlk : lk s = []) by (destruct Hi as (? & ? & _ & _ & E & _); exact E).
  destruct s as [h r f l g]. cbn [lk] in Hlk. subst l.
  apply (@share_run_ok P bml (ml_scan_leaf false) (fun f k => ml_call false f (CRead k)) fu mbound_valid mvalid m sc h r f g) with (ls := []); auto.
  - lia.
  - intros lo. apply sf_pml_leaf.
  - intros k. apply sf_pml_read.
  - intros lo hi limit H1 H2. apply (A lo hi H1 H2). lia.
  - intros k Hk. eapply (ml_read_ok false); eauto. lia.
  - constructor.
Qed.

Lemma oml_share H s m : ml_inv true H s m ->
  exists sc F, (forall lo hi, mbound_valid lo -> mbound_valid hi -> is_scan m lo hi (sc lo hi)) /\
    forall fu ops tls, F <= fu -> Forall (op_ok mbound_valid mvalid) ops -> newest 0 ops ->
      oshare_run (B := bml) (ml_scan_leaf true) (fun f k => ml_call true f (CRead k)) fu tls [] ops s =
      Ok (share_spec sc m [] ops) s.
Proof.
  intros Hi. destruct (ml_scan_all true H s m Hi) as (sc & F & A). exists sc, (F + H + 1).
  split; [intros; now apply A|]. intros fu ops tls Hfu Hok Hn.
  apply (@oshare_run_ok P bml (ml_scan_leaf true) (fun f k => ml_call true f (CRead k)) fu mbound_valid mvalid m sc s); auto.
  - lia.
  - intros lo. apply ro_oml_leaf.
  - intros lo hi limit H1 H2. apply (A lo hi H1 H2). lia.
  - intros k Hk. eapply (ml_read_ok true); eauto. lia.
  - split; auto. intros env0 it E. now destruct env0.
Qed.
End ML.

Lemma share_spec_get {P : Params} sc (m : amap) ops : forall env j k,
  nth_error ops j = Some (CGet k) -> nth_error (share_spec sc m env ops) j = Some (RVal (RPayload (m k))).
Proof.
  induction ops as [|o ops IH]; intros env j k Hj; [destruct j; discriminate|].
  destruct j as [|j]; cbn in Hj.
  - inversion Hj; subst. reflexivity.
  - destruct o as [lo hi|i|i|k0]; cbn [share_spec].
    + cbn. auto.
    + destruct (nth_error env i) as [[|kv l]|]; cbn; auto.
    + destruct (nth_error env i) as [l|]; cbn; auto.
    + cbn. auto.
Qed.

Lemma share_spec_back {P : Params} sc (m : amap) ops :
  (forall lo hi, In (COpen lo hi) ops -> is_scan m lo hi (sc lo hi)) ->
  reads_back ops (share_spec sc m [] ops).
Proof.
  intros H i j k v Hi Hj. rewrite (share_spec_get _ _ _ _ _ _ Hj). do 3 f_equal.
  apply nth_error_In in Hi. eapply share_spec_reads; [| |exact Hi]; [contradiction|].
  intros lo hi Ho k0 v0 H0. apply (H lo hi Ho) in H0. tauto.
Qed.
