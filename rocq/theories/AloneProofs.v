(** Executions without overlap are calm.  This file is proof-side only. *)
From Coq Require Import List Arith Bool Lia Sorted.
From Verif Require Import Params Mem Common Spec ConcSpec ScanSpec NodeAbs SLIface BaseIface MLIface
  IterModel IterProofs TreeState Levels TreeHeap LevelOps SLModel SLSearch SLProofs MLModel MLSearch MLSteps
  ConcModel ConcLin ConcInv MConcModel MConcInv MConcSteps MConcMain OLaws OConcModel OConcInv OConcSteps
  OConcMain OConcCalm CScanModel CScanLin CScanProofs MScanModel MScanProofs MLeak OScanModel OScanProofs
  OScanMain AloneModel.
Import ListNotations.

Section AloneProofs.
Context {P : Params} {O : OrdLaws P} {N : MLOps P} {LW : MLLaws P N} {OW : OMLaws P N LW}.
#[local] Existing Instance no_leak.

Definition alive (s : ocfg) (a : addr) : Prop := exists n, och s a = Some n /\ mn_removed n = false.

(** A scan without a begin key that has read nothing yet is at the leftmost leaf, or HasRecord
    has just gone to an existing leaf. *)
Definition fresh (w : inside) (s : ocfg) (lw : addr -> ext) (u : tid) (a : addr) (kk : bound) : Prop :=
  kk = None -> lw a = NegInf \/ (w = InHas u /\ alive s a).

Definition wpc (w : inside) (s : ocfg) (lw : addr -> ext) (u : tid) (p : upc) : Prop :=
  match p with
  | UIdle | URet _ _ _ => True
  | URoot _ _ | UDesc _ _ _ => w = InScan u
  | UReset _ _ a kk _ => (w = InScan u \/ w = InHas u) /\ fresh w s lw u a kk
  | UPos _ _ a ver kk _ => (w = InScan u \/ w = InHas u) /\ fresh w s lw u a kk /\ ovs s a = ver
  | UEnd _ _ a ver kk _ _ => (w = InScan u \/ w = InHas u) /\ fresh w s lw u a kk /\ ovs s a = ver
  | ULoop _ _ a _ kk _ _ _ _ => w <> InScan u /\ fresh w s lw u a kk
  end.

Record wok (w : inside) (s : ucfg) (lw : addr -> ext) : Prop := {
  w_call : forall t, w <> InCall t -> oth (ub s) t = OIdle;
  w_scan : forall u, wpc w (ub s) lw u (uth s u);
}.

Lemma idle_half (s : ocfg) t : (forall u, u <> t -> oth s u = OIdle) -> ocalm_at t s = true.
Proof.
  intros H. apply forallb_forall. intros u _. destruct (Nat.eqb_spec u t); [reflexivity|]. now rewrite H.
Qed.

Lemma step_half w s lw v : wok w s lw -> allowed w v = true -> half_calm v s = true.
Proof.
  intros W Ha. destruct v as [t|u chk|u]; cbn [half_calm]; auto.
  - apply idle_half. intros u Hu. apply (w_call _ _ _ W). intros ->. cbn in Ha. apply Nat.eqb_eq in Ha. congruence.
  - apply forallb_forall. intros x _. rewrite (w_call _ _ _ W x); [reflexivity|].
    intros ->. discriminate Ha.
Qed.

Section Step.
Context (w : inside) (s z : ucfg) (Ls : list lvl) (hv : addr -> option mn) (lw : addr -> ext).
Context (S : usim s z) (Q : uinv true z Ls hv lw) (W : wok w s lw).

Lemma same_pages : (forall t, w <> InCall t) -> forall a, och (ub z) a = och (ub s) a.
Proof.
  intros H a. apply (m_pp _ _ (us_base _ _ S) a). intros u. rewrite (w_call _ _ _ W u (H u)). cbn. tauto.
Qed.

Lemma body_of u lo hi : ubounds (uth s u) = Some (lo, hi) -> exists i0, ubody true (ub z) lw u i0 (uth s u).
Proof.
  intros E. pose proof (u_scan _ _ _ _ _ Q u) as H. unfold upc_ok in H. rewrite (us_th _ _ S), E in H.
  destruct H as (_ & _ & _ & _ & i0 & _ & H). eauto.
Qed.

Lemma low_alive u a : (forall t, w <> InCall t) -> uplaced (ub z) u a -> lw a = NegInf -> alive (ub s) a.
Proof.
  intros Hw ((n & E & Hi) & _) Hl. exists n. rewrite <- same_pages by auto. split; [auto|].
  destruct (mn_removed n) eqn:Er; [|auto]. exfalso.
  pose proof (i_okp _ _ _ _ (u_base _ _ _ _ _ Q) a n E) as Ho. unfold okp in Ho. rewrite Er in Ho.
  destruct (Ho Hi) as (_ & b & nb & _ & _ & _ & X). rewrite Hl in X. destruct (lw b); exact X.
Qed.

Lemma scan_inside u chk : allowed w (UScan u chk) = true -> forall t, w <> InCall t.
Proof. intros H t ->. discriminate H. Qed.

Lemma step_scan v : allowed w v = true -> scan_calm v s = true.
Proof.
  intros Ha. destruct v as [t|u chk|u]; cbn [scan_calm]; auto.
  pose proof (scan_inside _ _ Ha) as Hw. pose proof (w_scan _ _ _ W u) as Hu.
  destruct (uth s u) eqn:E; cbn [scan_ok wpc] in *; auto.
  - destruct kk; auto. destruct (body_of u lo hi) as (i0 & Hb); [now rewrite E|]. rewrite E in Hb. destruct Hb as (Hp & _).
    assert (A : alive (ub s) a).
    { destruct (proj2 Hu eq_refl) as [Hl|(_ & Hl)]; [|auto]. eapply low_alive; eauto. }
    destruct A as (n & En & Hr). now rewrite En, Hr.
  - destruct (och (ub s) a); auto. destruct (mn_endpos _ _) as [[[|] e]|]; auto.
    destruct Hu as (_ & _ & ->). rewrite Nat.eqb_refl. apply orb_true_r.
Qed.

(** The others are at rest. *)
Lemma rests x w' s1 lw' : w <> InScan x -> w <> InHas x -> w' <> InScan x ->
  (forall a, och (ub z) a <> None -> lw' a = lw a) -> wpc w' s1 lw' x (uth s x).
Proof.
  intros H1 H2 H3 Hl. pose proof (w_scan _ _ _ W x) as H. destruct (uth s x) eqn:E; cbn [wpc] in *; auto; try congruence.
  1,2,3: destruct H as ([?|?] & _); congruence.
  destruct H as (_ & H). split; [auto|]. intros Hk. left. destruct (H Hk) as [Hn|(? & _)]; [|congruence].
  destruct (body_of x lo hi) as (i0 & Hb); [now rewrite E|]. rewrite E in Hb. destruct Hb as ((((n & En & _) & _) & _) & _).
  rewrite Hl by congruence. auto.
Qed.

Lemma next_alive a n y : (forall t, w <> InCall t) -> och (ub s) a = Some n -> mn_removed n = false -> mn_inner n = false ->
  mn_next n = Some y -> alive (ub s) y.
Proof.
  intros Hw En Hr Hi Hn. pose proof (u_base _ _ _ _ _ Q) as V. rewrite <- same_pages in En by auto.
  pose proof (leaf_live (ub z) Ls hv lw V a n En Hr Hi) as Hv.
  destruct (leaf_next _ _ _ _ _ (i_tree _ _ _ _ V) (i_heap _ _ _ _ V) (i_lo _ _ _ _ V) a n y Hv Hi Hn) as (dy & _ & _ & Hy & _).
  destruct (i_inn _ _ _ _ V y dy Hy) as (m & Em & _). exists m. rewrite <- same_pages by auto. split; [auto|].
  destruct (mn_removed m) eqn:Er; [|auto]. rewrite (i_dead _ _ _ _ V y m Em Er) in Hy. discriminate.
Qed.

Lemma opage_och (b : ocfg) a n : opage b a = Some n -> och b a = Some n.
Proof. unfold opage. destruct (ogb b a) as [[|]|]; congruence. Qed.

Lemma step_wok v s' z' Ls' hv' lw' : allowed w v = true -> ustep false v s = UOk s' ->
  usim s' z' -> uinv true z' Ls' hv' lw' -> (forall a, och (ub z) a <> None -> lw' a = lw a) ->
  wok (moved w v s s') s' lw'.
Proof.
  intros Ha E S' Q' Hl. destruct v as [t|u chk|u]; cbn [ustep moved] in *.
  - destruct (uth s t) eqn:Et; try discriminate. destruct (ostep false t (ub s)) as [l c| |] eqn:Eo; try discriminate.
    injection E as <-. cbn [ub uth]. destruct (ostep_else _ _ _ _ _ Eo) as (_ & He).
    assert (Hw : w = Nobody \/ w = InCall t).
    { destruct w; cbn in Ha; try discriminate; auto. apply Nat.eqb_eq in Ha. subst. auto. }
    split; cbn [ub uth].
    + intros x Hx. destruct (Nat.eq_dec x t) as [->|Hne].
      * destruct (oth (o_emit c l) t) eqn:E; auto; congruence.
      * destruct (He x Hne) as (E & _). cbn [o_emit oth]. rewrite E. apply (w_call _ _ _ W). destruct Hw; congruence.
    + intros x. apply rests; auto; try (destruct Hw; congruence). destruct (oth _ t); discriminate.
  - pose proof (scan_inside _ _ Ha) as Hw.
    assert (Hu : w = Nobody \/ w = InScan u \/ w = InHas u).
    { destruct w; cbn in Ha; try discriminate; auto; apply Nat.eqb_eq in Ha; subst; auto. }
    pose proof (w_scan _ _ _ W u) as Hp.
    assert (Hgo : forall w' p, u_goto s u p = UOk s' -> w' = InScan u \/ w' = InHas u \/ w' = Nobody ->
              wpc w' (ub s) lw' u p -> wok w' s' lw').
    { intros w' p [= <-] Hw' Hpc. split; cbn [ub uth].
      - intros x _. now apply (w_call _ _ _ W).
      - intros x. unfold supd. destruct (Nat.eqb_spec x u) as [->|Hx]; [exact Hpc|].
        apply rests; auto; destruct Hu as [|[|]]; destruct Hw' as [|[|]]; congruence. }
    assert (Hdone : forall w' b p q T, UOk (UCfg b (supd (uth s) u p) q T) = UOk s' ->
              oth b = oth (ub s) -> w' = InScan u \/ w' = InHas u \/ w' = Nobody ->
              wpc w' b lw' u p -> wok w' s' lw').
    { intros w' b p q T [= <-] Hb Hw' Hpc. split; cbn [ub uth].
      - intros x _. rewrite Hb. now apply (w_call _ _ _ W).
      - intros x. unfold supd. destruct (Nat.eqb_spec x u) as [->|Hx]; [exact Hpc|].
        apply rests; auto; destruct Hu as [|[|]]; destruct Hw' as [|[|]]; congruence. }
    assert (Hth : forall p, u_goto s u p = UOk s' -> uth s' u = p).
    { intros p [= <-]. cbn. unfold supd. now rewrite Nat.eqb_refl. }
    unfold scano_step in E. destruct (uth s u) eqn:Eu; cbn [wpc] in Hp.
    + destruct (oth (ub s) u); try discriminate. destruct (uq s u) as [|[lo hi] q]; try discriminate.
      assert (Ew : match w with InScan _ => match uth s' u with ULoop _ _ _ _ _ _ _ _ _ => Nobody | _ => InScan u end
                   | _ => InScan u end = InScan u).
      { injection E as <-. cbn [uth]. unfold supd. rewrite Nat.eqb_refl. destruct w; reflexivity. }
      rewrite Ew. eapply Hdone; [exact E|reflexivity|auto|reflexivity].
    + subst w. rewrite (Hth _ E). eapply Hgo; [exact E|auto|reflexivity].
    + subst w. destruct (body_of u lo hi) as (i0 & Hb); [now rewrite Eu|]. rewrite Eu in Hb.
      destruct Hb as (B1 & _ & B3). unfold ubind in E.
      repeat (match type of E with context [match ?x with _ => _ end] => destruct x eqn:? end; try discriminate);
        rewrite (Hth _ E); (eapply Hgo; [exact E|auto|]); cbn [wpc]; auto.
      all: split; [auto|]; intros Hk; left; try discriminate.
      subst lo. rewrite Hl; auto.
    + destruct (body_of u lo hi) as (i0 & Hb); [now rewrite Eu|]. rewrite Eu in Hb.
      destruct Hb as (((m & Em & _) & _) & _). destruct Hp as (Hp & Hf).
      assert (Hf' : fresh w (ub s) lw' u a kk).
      { intros Hk. destruct (Hf Hk) as [H|H]; [left|now right]. now rewrite Hl by congruence. }
      unfold ubind in E. destruct Hp; subst w; unfold has_over.
      all: repeat (match type of E with context [match ?x with _ => _ end] => destruct x eqn:? end; try discriminate);
        rewrite (Hth _ E); (eapply Hgo; [exact E|auto|]); cbn [wpc]; auto.
      all: (split; [auto|]); try (split; [|reflexivity]); intros Hk; try discriminate; auto.
    + destruct (body_of u lo hi) as (i0 & Hb); [now rewrite Eu|]. rewrite Eu in Hb.
      destruct Hb as ((((m & Em & _) & _) & _) & _). destruct Hp as (Hp & Hf & Hv).
      assert (Hf' : fresh w (ub s) lw' u a kk).
      { intros Hk. destruct (Hf Hk) as [H|H]; [left|now right]. now rewrite Hl by congruence. }
      unfold ubind in E. destruct Hp; subst w; unfold has_over.
      all: repeat (match type of E with context [match ?x with _ => _ end] => destruct x eqn:? end; try discriminate);
        rewrite (Hth _ E); (eapply Hgo; [exact E|auto|]); cbn [wpc]; auto.
    + destruct (body_of u lo hi) as (i0 & Hb); [now rewrite Eu|]. rewrite Eu in Hb.
      destruct Hb as ((((m & Em & _) & _) & _) & _). destruct Hp as (Hp & Hf & Hv).
      assert (Hf' : fresh w (ub s) lw' u a kk).
      { intros Hk. destruct (Hf Hk) as [H|H]; [left|now right]. now rewrite Hl by congruence. }
      unfold ubind in E. destruct Hp; subst w; unfold has_over.
      all: repeat (match type of E with context [match ?x with _ => _ end] => destruct x eqn:? end; try discriminate);
        rewrite (Hth _ E), ?Eu; cbn [given]; rewrite ?Nat.eqb_refl; (eapply Hgo; [exact E|auto|]); cbn [wpc]; auto.
      all: split; [discriminate|]; auto.
      intros Hk. destruct (Hf' Hk) as [H|(H & _)]; [now left|discriminate].
    + destruct (body_of u lo hi) as (i0 & Hb); [now rewrite Eu|]. rewrite Eu in Hb.
      destruct Hb as ((((m & Em & Ei) & _) & _) & (_ & Hs) & _). destruct Hp as (Hp & Hf).
      assert (Hf' : fresh w (ub s) lw' u a kk).
      { intros Hk. destruct (Hf Hk) as [H|H]; [left|now right]. now rewrite Hl by congruence. }
      assert (Hw2 : w = Nobody \/ w = InHas u) by tauto.
      assert (Hf2 : fresh (InHas u) (ub s) lw' u a kk).
      { intros Hk. destruct (Hf' Hk) as [H|(_ & H)]; [now left|now right]. }
      assert (Hw3 : match w with InScan _ => match uth s' u with ULoop _ _ _ _ _ _ _ _ _ => Nobody | _ => InScan u end
                    | _ => has_over u s s' end = has_over u s s') by (destruct Hw2 as [->| ->]; reflexivity).
      rewrite Hw3. clear Hw3.
      assert (Hov : forall p, u_goto s u p = UOk s' -> has_over u s s' = InScan u \/ has_over u s s' = InHas u \/ has_over u s s' = Nobody).
      { intros p _. unfold has_over. destruct (uth s' u); auto; match goal with |- context [if ?c then _ else _] => destruct c end; auto. }
      unfold ubind in E.
      repeat (match type of E with context [match ?x with _ => _ end] => destruct x eqn:? end; try discriminate);
        pose proof (Hov _ E) as Ho; (eapply Hgo; [exact E|exact Ho|]); clear Ho; unfold has_over; rewrite (Hth _ E);
        cbn [wpc]; auto.
      all: try (split; [match goal with |- context [if ?c then _ else _] => destruct c end; discriminate|]; intros Hk; discriminate Hk).
      split; [auto|]. intros Hk. right. split; [auto|].
      match goal with H : chk && (ovs (ub s) a =? ver) = true |- _ => apply andb_true_iff in H as (_ & Hv); apply Nat.eqb_eq in Hv end.
      match goal with H : opage (ub s) a = Some ?n |- _ => pose proof (opage_och _ _ _ H) as Hn end.
      destruct Hs as (n' & E' & R & _).
      { rewrite <- Hv. apply (m_vs _ _ _ (us_base _ _ S)). intros x. rewrite (w_call _ _ _ W x (Hw x)). cbn. tauto. }
      rewrite same_pages in E', Em by auto. assert (n' = m) by congruence. subst n'.
      match goal with H : mn_next ?n = Some ?c |- _ => assert (n = m) by congruence; subst n; apply (next_alive a m c); auto end.
    + assert (Hov : has_over u s s' = Nobody).
      { unfold u_done in E. injection E as <-. unfold has_over. cbn [uth]. unfold supd. now rewrite Nat.eqb_refl. }
      destruct Hu as [->|[->| ->]].
      * rewrite Hov. eapply Hdone; [exact E|reflexivity|auto|exact Logic.I].
      * assert (Et : uth s' u = UIdle).
        { unfold u_done in E. injection E as <-. cbn [uth]. unfold supd. now rewrite Nat.eqb_refl. }
        rewrite Et. eapply Hdone; [exact E|reflexivity|auto|exact Logic.I].
      * rewrite Hov. eapply Hdone; [exact E|reflexivity|auto|exact Logic.I].
  - assert (Hw : w = Nobody) by (destruct w; cbn in Ha; congruence).
    unfold stop_step in E. destruct (uth s u) eqn:Eu; try discriminate. unfold u_done in E. injection E as <-. split; cbn [ub uth].
    + intros x Hx. cbn [o_end oth]. apply (w_call _ _ _ W). congruence.
    + intros x. unfold supd. destruct (Nat.eqb_spec x u) as [->|Hx]; [exact Logic.I|]. apply rests; auto; congruence.
Qed.
End Step.

Lemma one_calm : forall sched w s z Ls hv lw, usim s z -> uinv true z Ls hv lw -> wok w s lw ->
  one_by_one false w s sched = true -> always false half_calm s sched = true /\ always false scan_calm s sched = true.
Proof.
  induction sched as [|v sched IH]; intros w s z Ls hv lw S Q W H; cbn [one_by_one always] in *; [auto|].
  destruct (ustep false v s) as [s'| |] eqn:E; [|eauto|].
  - apply andb_true_iff in H as (Ha & H).
    pose proof (step_half w s lw v W Ha) as H1. pose proof (step_scan w s z Ls hv lw S Q W v Ha) as H2.
    pose proof (usim_step true s z Ls hv lw v S Q H1 (fun _ => H2)) as R. rewrite E in R.
    destruct R as (z' & Ls' & hv' & lw' & S' & Q' & Hl & _).
    destruct (IH (moved w v s s') s' z' Ls' hv' lw' S' Q') as (I1 & I2); auto.
    { eapply step_wok; eauto. }
    rewrite H1, H2. auto.
  - split; [eapply step_half; eauto|eapply step_scan; eauto].
Qed.

Theorem alone_calm prog scans sched :
  (forall t c, In c (prog t) -> mvalid (call_key c)) ->
  (forall u lo hi, In (lo, hi) (scans u) -> mvb lo /\ mvb hi) ->
  one_by_one false Nobody (uinit prog scans) sched = true ->
  always false half_calm (uinit prog scans) sched = true /\ always false scan_calm (uinit prog scans) sched = true.
Proof.
  intros Hp Hs. destruct (uinit_inv true prog scans Hp Hs) as (Ls & hv & lw & Q).
  apply (one_calm sched Nobody _ (uinit prog scans) Ls hv lw); auto; [apply usim_init|].
  split; cbn; auto.
Qed.

End AloneProofs.
