(** Executions with scans: every calm execution is free of undefined behaviour and its scans
    are right.  This file is proof-side only, except for the definition of calm moves. *)
From Coq Require Import List Arith Bool Lia Sorted.
From Verif Require Import Params Mem Common Spec ConcSpec ScanSpec NodeAbs SLIface BaseIface
  IterModel IterProofs TreeState Levels ConcModel ConcLin ConcInv ConcHeap ConcSmo ConcThreads
  ConcSteps ConcMain ConcWait CScanModel CScanLin CScanProofs.
Import ListNotations.

Section CScanMain.
Context {P : Params} {O : OrdLaws P} {N : SLOps P} {L : SLLaws P N}.
#[local] Existing Instance base_of_sl.
#[local] Existing Instance base_laws_of_sl.
Context (osl : bool).

Notation sinv := (sinv amap_empty).

(** Calm moves of callers (ConcMain.v) and of scanners (CScanProofs.v). *)
Definition calls_calm (v : mover) (s : scfg) : Prop :=
  match v with Caller t => calm_at t (base s) | Scanner _ _ => True end.
Definition scans_calm (v : mover) (s : scfg) : Prop :=
  match v with Caller _ => True | Scanner u _ => scan_calm (base s) (vn s) (sth s u) end.

Definition fx_calm (fx : fixes) (v : mover) (s : scfg) : Prop := fx = repaired \/ fx = as_is /\ calls_calm v s.

Lemma fx_step fx t s : fx_calm fx (Caller t) s -> cstep osl fx t (base s) = cstep osl repaired t (base s).
Proof. intros [-> |[-> Hc]]; auto. now apply calm_step. Qed.

Lemma cstep_tr fx t s l s' : cstep osl fx t s = SOk l s' -> tr s' = tr s.
Proof.
  intros Hs. unfold cstep, sbind in Hs.
  repeat (match type of Hs with context [match ?x with _ => _ end] => destruct x end; try discriminate);
    injection Hs as <- <-; reflexivity.
Qed.

(** What a step of a scanner needs; [scans_calm] implies it. *)
Definition scans_soft (v : mover) (s : scfg) (G : gh) : Prop :=
  match v with
  | Caller _ => True
  | Scanner u _ => forall i0, i0 <= length (tr (base s)) ->
      (forall lo hi, bounds (sth s u) = Some (lo, hi) -> vb lo /\ vb hi) ->
      body amap_empty (base s) (vn s) G i0 (sth s u) ->
      scan_soft amap_empty (base s) (vn s) i0 (sth s u)
  end.

Lemma calm_scans_soft v s G : sinv s G -> scans_calm v s -> scans_soft v s G.
Proof.
  intros Hi Hc. destruct v as [t|u chk]; [exact Logic.I|]. intros i0 Hi0 Hv Hb.
  eapply calm_soft; eauto. apply Hi.
Qed.

Definition evolved (s s' : scfg) (G G' : gh) : Prop :=
  (base s' = base s /\ G' = G) \/
  (exists fx t l c, cstep osl fx t (base s) = SOk l c /\ base s' = emit c l /\
     tr (base s') = tr (base s) ++ [l] /\ gext (base s) (base s') G G').

Lemma sinv_step fx v s s' G : sinv s G -> fx_calm fx v s -> scans_soft v s G -> sstep osl fx v s s' ->
  exists G', sinv s' G' /\ evolved s s' G G'.
Proof.
  intros Hi Hf Hc Hs. destruct Hs as [t s l c vs E Hlat Hv1 Hv2|u chk s p m Hk E].
  - rewrite (fx_step _ _ _ Hf) in E.
    pose proof (step_good amap_empty osl (base s) G t (si_base _ _ _ Hi)) as Hg. rewrite E in Hg.
    cbn [good] in Hg. destruct Hg as (G' & Hinv & X). exists G'.
    assert (Htr : tr (emit c l) = tr (base s) ++ [l]).
    { unfold emit. cbn. now rewrite (cstep_tr _ _ _ _ _ E). }
    split; [|right; exists repaired, t, l, c; auto].
    constructor; cbn [base vn sth sq lg]; auto.
    + rewrite Htr, (si_log _ _ _ Hi), unmark_snoc. reflexivity.
    + apply right_snoc; [apply Hi|]. discriminate.
    + intros u. pose proof (si_scan _ _ _ Hi u) as Hu. unfold spc_ok in *.
      destruct (bounds (sth s u)) as [[lo hi]|]; auto. destruct Hu as (V1 & V2 & i0 & Hrun & Hb).
      split; [auto|]. split; [auto|]. exists i0. split; [apply running_snoc; auto; discriminate|].
      apply (body_later amap_empty (base s) (emit c l) G G' l (vn s) vs X Htr Hv1 Hv2); auto.
      * rewrite (si_log _ _ _ Hi). eapply running_len; eauto.
      * intros a Ha. cbn. eapply Hlat; eauto.
    + apply Hi.
  - exists G. split; [|left; auto].
    pose proof (si_scan _ _ _ Hi u) as Hu. cbn [scans_soft] in Hc.
    destruct (bounds (sth s u)) as [[lo hi]|] eqn:Eb.
    + unfold spc_ok in Hu. rewrite Eb in Hu. destruct Hu as (V1 & V2 & i0 & Hrun & Hb).
      assert (Hi0 : i0 <= length (tr (base s))) by (rewrite (si_log _ _ _ Hi); eapply running_len; eauto).
      assert (Hne : sth s u <> SIdle) by (intros Q; rewrite Q in Eb; discriminate).
      destruct (scan_body osl amap_empty (base s) (vn s) G i0 (si_base _ _ _ Hi) Hi0 u chk (sth s u) (sq s u))
        as [(lo' & hi' & acc & Ep)|(p' & Ep & Eb' & Hb')]; auto.
      { rewrite Eb. intros ? ? [= <- <-]. auto. }
      { apply Hc; auto. intros ? ? [= <- <-]. auto. }
      * rewrite Ep in *. cbn in Eb. injection Eb as -> ->. cbn [scan_step] in E. injection E as <- <-.
        cbn [body] in Hb. constructor; cbn [base vn sth sq lg add_mark]; try apply Hi.
        -- rewrite (si_log _ _ _ Hi), unmark_app. cbn [unmark]. now rewrite app_nil_r.
        -- apply right_snoc; [apply Hi|]. intros u' rs [= <- <-]. exists lo, hi, i0. split; [auto|].
           now rewrite <- (si_log _ _ _ Hi).
        -- intros u'. unfold supd. destruct (Nat.eqb_spec u' u) as [-> |Hu']; [exact Logic.I|].
           pose proof (si_scan _ _ _ Hi u') as Hu2. unfold spc_ok in *.
           destruct (bounds (sth s u')) as [[lo2 hi2]|]; auto. destruct Hu2 as (V3 & V4 & j0 & Hrun2 & Hb2).
           split; [auto|]. split; [auto|]. exists j0. split; [|auto].
           apply running_snoc; auto. intros m [= <-]. cbn. auto.
      * rewrite Ep in E. injection E as <- <-.
        constructor; cbn [base vn sth sq lg add_mark]; try apply Hi.
        -- intros u'. unfold supd. destruct (Nat.eqb_spec u' u) as [-> |Hu']; [|apply Hi].
           unfold spc_ok. rewrite Eb', Eb. split; [auto|]. split; [auto|]. eauto.
        -- destruct (sth s u); try congruence; apply Hi.
    + assert (Hs0 : sth s u = SIdle) by (destruct (sth s u); auto; discriminate).
      rewrite Hs0 in *. cbn [scan_step] in E. destruct (sq s u) as [|[lo hi] q] eqn:Eq; [discriminate|].
      injection E as <- <-. destruct (si_q _ _ _ Hi u lo hi) as (V1 & V2); [rewrite Eq; now left|].
      constructor; cbn [base vn sth sq lg add_mark]; try apply Hi.
      * rewrite (si_log _ _ _ Hi), unmark_app. cbn [unmark]. now rewrite app_nil_r.
      * apply right_snoc; [apply Hi|]. discriminate.
      * intros u'. unfold supd. destruct (Nat.eqb_spec u' u) as [-> |Hu'].
        -- unfold spc_ok. cbn [bounds]. split; [auto|]. split; [auto|]. exists (length (unmark (lg s))).
           split; [|exact Logic.I]. exists (lg s), []. split; [auto|]. split; [intros ? []|auto].
        -- pose proof (si_scan _ _ _ Hi u') as Hu2. unfold spc_ok in *.
           destruct (bounds (sth s u')) as [[lo2 hi2]|]; auto. destruct Hu2 as (V3 & V4 & j0 & Hrun2 & Hb2).
           split; [auto|]. split; [auto|]. exists j0. split; [|auto].
           apply running_snoc; auto. intros m [= <-]. cbn. auto.
      * intros u' lo' hi'. unfold supd. destruct (Nat.eqb_spec u' u) as [-> |Hu']; [|apply Hi].
        cbn [tl]. intros Hq. apply (si_q _ _ _ Hi u). rewrite Eq. now right.
Qed.

Lemma sinv_safe fx v s G : sinv s G -> fx_calm fx v s -> scans_soft v s G -> ~ swrong osl fx v s.
Proof.
  intros Hi Hf Hc Hw. destruct Hw as [t s E|u chk s Hk E].
  - rewrite (fx_step _ _ _ Hf) in E.
    pose proof (step_good amap_empty osl (base s) G t (si_base _ _ _ Hi)) as Hg. now rewrite E in Hg.
  - pose proof (si_scan _ _ _ Hi u) as Hu. cbn [scans_soft] in Hc.
    destruct (bounds (sth s u)) as [[lo hi]|] eqn:Eb.
    + unfold spc_ok in Hu. rewrite Eb in Hu. destruct Hu as (V1 & V2 & i0 & Hrun & Hb).
      assert (Hi0 : i0 <= length (tr (base s))) by (rewrite (si_log _ _ _ Hi); eapply running_len; eauto).
      assert (Hne : sth s u <> SIdle) by (intros Q; rewrite Q in Eb; discriminate).
      destruct (scan_body osl amap_empty (base s) (vn s) G i0 (si_base _ _ _ Hi) Hi0 u chk (sth s u) (sq s u))
        as [(lo' & hi' & acc & Ep)|(p' & Ep & Eb' & Hb')]; auto.
      { rewrite Eb. intros ? ? [= <- <-]. auto. }
      { apply Hc; auto. intros ? ? [= <- <-]. auto. }
      * rewrite Ep in E. discriminate.
      * congruence.
    + assert (Hs0 : sth s u = SIdle) by (destruct (sth s u); auto; discriminate).
      rewrite Hs0 in E. cbn [scan_step] in E. destruct (sq s u) as [|[]]; discriminate.
Qed.

Lemma sinv_init prog scans : (forall t c, In c (prog t) -> kvalid (call_key c)) ->
  (forall u lo hi, In (lo, hi) (scans u) -> vb lo /\ vb hi) -> sinv (sinit prog scans) g0.
Proof.
  intros Hp Hq. constructor; cbn; auto.
  - now apply init_inv.
  - intros [|? ?]; discriminate.
Qed.

Lemma sinv_scans s G : sinv s G -> scan_linearizable amap_empty (shistory s).
Proof.
  intros Hi. apply trace_scans; [|apply Hi]. rewrite <- (si_log _ _ _ Hi). apply (i_trace _ _ _ (si_base _ _ _ Hi)).
Qed.

Lemma sreach_inv fx (A : mover -> scfg -> Prop) prog scans s : (forall v s, A v s -> fx_calm fx v s /\ scans_calm v s) ->
  (forall t c, In c (prog t) -> kvalid (call_key c)) ->
  (forall u lo hi, In (lo, hi) (scans u) -> vb lo /\ vb hi) ->
  sreach osl fx A prog scans s -> exists G, sinv s G.
Proof.
  intros HA Hp Hq. induction 1 as [|v s s' Hr (G & IH) Ha Hs]; [exists g0; now apply sinv_init|].
  destruct (HA v s Ha) as (H1 & H2). destruct (sinv_step fx v s s' G IH H1 (calm_scans_soft v s G IH H2) Hs) as (G' & Hi & _). eauto.
Qed.

End CScanMain.
