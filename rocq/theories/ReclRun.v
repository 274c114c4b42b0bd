(** An executable form of the steps of ReclModel.v, for witnesses.  Proof-side only. *)
From Coq Require Import List Arith Bool Lia.
From Verif Require Import Params Mem Common Spec ConcSpec ScanSpec SLIface BaseIface IterModel
  TreeState ConcModel CScanModel CScanRun ReclModel ReclProofs.
Import ListNotations.

Section ReclRun.
Context {P : Params} {N : SLOps P} (osl : bool) (fx : fixes) (late keep : bool).
#[local] Existing Instance base_of_sl.

Definition releasedb (s : rcfg) (a : addr) : bool := match gb s a with Some [] => true | _ => false end.
Lemma releasedb_ok s a : releasedb s a = true <-> released s a.
Proof. unfold releasedb, released. destruct (gb s a) as [[|]|]; split; intros; try discriminate; auto. Qed.

Definition usesb (v : mover) (s : rcfg) : bool := existsb (releasedb s) (touches v (rs s)).
Lemma usesb_ok v s : usesb v s = true <-> use_after_free v s.
Proof.
  unfold usesb, use_after_free. rewrite existsb_exists. split; intros (a & H1 & H2); exists a; split; auto; now apply releasedb_ok.
Qed.

Definition rexec (us : list tid) (v : mover) (s : rcfg) : option rcfg :=
  if usesb v s then None else option_map (after late keep v s) (sexec osl fx us v (rs s)).

Lemma rexec_step us v s s' : others us (rs s) -> rexec us v s = Some s' ->
  rstep osl fx late keep v s s' /\ others us (rs s').
Proof.
  intros Ho. unfold rexec. destruct (usesb v s) eqn:Eu; [discriminate|].
  destruct (sexec osl fx us v (rs s)) as [s1|] eqn:E; [|discriminate]. intros [= <-].
  destruct (sexec_step osl fx us v (rs s) s1 Ho E) as (H1 & H2). split.
  - constructor; auto. intros a Ha Hr. assert (usesb v s = true) by (apply usesb_ok; exists a; auto). congruence.
  - unfold after. destruct (guard_of keep v (rs s) s1); exact H2.
Qed.

(** [us] are the scanners and [ts] the callers that ever move. *)
Context (us ts : list tid) (ok : mover -> rcfg -> bool) (A : mover -> rcfg -> Prop).
Definition resting (s : rcfg) : Prop := forall t, ~ In t ts -> th (base (rs s)) t = PIdle.
Hypothesis Hok : forall v s, resting s -> ok v s = true -> A v s.

Definition ours (v : mover) : bool := match v with Caller t => memb t ts | Scanner _ _ => true end.
Fixpoint rrun (s : rcfg) (l : list mover) : option rcfg :=
  match l with
  | [] => Some s
  | v :: l' => if ours v && ok v s then match rexec us v s with Some s' => rrun s' l' | None => None end else None
  end.

Lemma rexec_resting v s s' : ours v = true -> rexec us v s = Some s' -> resting s -> resting s'.
Proof.
  unfold rexec. destruct (usesb v s); [discriminate|].
  destruct (sexec osl fx us v (rs s)) as [s1|] eqn:E; [|discriminate]. intros Hv [= <-] Hr t Ht.
  assert (Q : th (base s1) t = PIdle).
  { specialize (Hr t Ht). destruct v as [u|u chk]; cbn [sexec] in E.
    - destruct (cstep osl fx u (base (rs s))) as [l c| |] eqn:Ec; try discriminate.
      destruct (forallb _ us); [|discriminate]. injection E as <-. cbn [base emit th].
      rewrite (cstep_th osl fx _ _ _ _ t Ec); auto. intros ->. apply memb_in in Hv. auto.
    - destruct (chkb _ _ _); [|discriminate]. destruct (scan_step _ _ _ _ _ _ _); try discriminate.
      injection E as <-. exact Hr. }
  unfold after. destruct (guard_of keep v (rs s) s1); exact Q.
Qed.

Lemma rrun_reach prog scans l : forall s s', rreach osl fx late keep A prog scans s -> others us (rs s) ->
  resting s -> rrun s l = Some s' -> rreach osl fx late keep A prog scans s' /\ resting s' /\ others us (rs s').
Proof.
  induction l as [|v l IH]; intros s s' Hr Ho Hi; cbn [rrun].
  - intros [= <-]. auto.
  - destruct (ours v && ok v s) eqn:Ek; [|discriminate]. apply andb_true_iff in Ek as (Ev & Ek).
    destruct (rexec us v s) as [s1|] eqn:E; [|discriminate].
    destruct (rexec_step us v s s1 Ho E) as (H1 & H2). apply IH; auto.
    + eapply rr_step; eauto.
    + eapply rexec_resting; eauto.
Qed.

(** What [f] shows at the end of the moves [l]. *)
Definition run_shows {B} (f : rcfg -> B) prog scans (l : list mover) : option B :=
  option_map f (rrun (rinit prog scans) l).
Lemma run_shows_reach {B} (f : rcfg -> B) prog scans l x : (forall u, ~ In u us -> scans u = []) ->
  run_shows f prog scans l = Some x ->
  exists s, rreach osl fx late keep A prog scans s /\ (resting s /\ others us (rs s)) /\ f s = x.
Proof.
  intros Hus. unfold run_shows. destruct (rrun _ _) as [s|] eqn:E; [|discriminate]. intros [= <-].
  exists s. destruct (rrun_reach prog scans l (rinit prog scans) s) as (Q1 & Q2 & Q3); auto.
  - constructor.
  - intros u Hu. split; [reflexivity|]. cbn. now apply Hus.
  - intros t _. reflexivity.
Qed.

End ReclRun.
