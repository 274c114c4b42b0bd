(** Writes to a leaf that an open iterator stands on.  Proof-side only. *)
From Coq Require Import List Arith Bool Lia Sorted.
From Verif Require Import Params Mem Common Spec ConcSpec ScanSpec NodeAbs SLIface BaseIface MLIface
  IterModel IterProofs TreeState Levels TreeHeap LevelOps SLModel SLSearch SLProofs MLModel MLSearch MLSteps
  ConcModel ConcLin ConcInv MConcModel MConcInv MConcSteps MConcMain CScanModel CScanLin CScanProofs
  MScanModel MScanProofs MScanMain.
Import ListNotations.

Section MScanHold.
Context {P : Params} {O : OrdLaws P} {N : MLOps P} {LW : MLLaws P N} (fx : bool).
#[local] Existing Instance no_leak.
Notation hinv := (@hinv P no_leak mn mrep).
Notation minv := (minv fx).
Notation qinv := (qinv fx).

(** The write a thread is in the middle of. *)
Definition wcall (p : mpc) : option call :=
  match p with
  | MW0 c | MW1 c | MShr c _ | MShrX c _ | MRs c _ | MRsX c _ | MWd c _
  | MCh c _ _ _ | MCm c _ _ _ | MSp c _ _ _ | MSpX c _ _ _ | MMg c _ _ _
  | MMg1 c _ _ _ _ | MMg2 c _ _ _ _ | MMg3 c _ _ _ _ => Some c
  | _ => None
  end.

Lemma th_goto s t p u : mth (m_goto s t p) u = if Nat.eqb u t then p else mth s u.
Proof. reflexivity. Qed.
Lemma th_clean s a o : mth (m_clean s a o) = mth s.
Proof. destruct o; reflexivity. Qed.

(** A write goes on until it writes to its leaf. *)
Lemma step_w rd t s l s' c : mstepr fx rd t s = KOk l s' -> wcall (mth s t) = Some c ->
  (wcall (mth s' t) = Some c /\ l = LTau) \/
  (exists a d, mth s t = MWd c a /\ mch s a = Some d /\ mn_inner d = false /\ canX rd s a = true).
Proof.
  intros Hs Hc. unfold mstepr, kbind in Hs. destruct (mth s t) eqn:E; try discriminate; cbn in Hc; injection Hc as ->;
    repeat (match type of Hs with context [match ?x with _ => _ end] => destruct x eqn:? end; try discriminate);
    injection Hs as <- <-; try (right; eauto 10; fail); left;
    cbn [m_goto m_lockS m_unlockS m_x m_root m_free m_own m_set m_new mth]; unfold supd; rewrite Nat.eqb_refl; auto.
Qed.
Lemma step_other rd t s l s' u : mstepr fx rd t s = KOk l s' -> u <> t -> mth s' u = mth s u.
Proof.
  intros Hs Hu. apply Nat.eqb_neq in Hu. unfold mstepr, kbind in Hs.
  repeat (match type of Hs with context [match ?x with _ => _ end] => destruct x eqn:? end; try discriminate);
    injection Hs as <- <-;
    cbn [m_goto m_lockS m_unlockS m_x m_root m_free m_own m_set m_new mth];
    rewrite ?th_clean; unfold supd; rewrite Hu; auto.
Qed.
Lemma step_res rd t s l s' u r : mstepr fx rd t s = KOk l s' -> l = LRes u r -> u = t /\ wcall (mth s t) = None.
Proof.
  intros Hs E. unfold mstepr, kbind in Hs.
  repeat (match type of Hs with context [match ?x with _ => _ end] => destruct x eqn:? end; try discriminate);
    injection Hs as <- <-; try discriminate; injection E as <- <-; auto.
Qed.
Lemma step_inv rd t s l s' u c : mstepr fx rd t s = KOk l s' -> l = LInv u c -> u = t /\
  (ConcModel.is_read c = false -> wcall (mth s' t) = Some c).
Proof.
  intros Hs E. unfold mstepr, kbind in Hs.
  repeat (match type of Hs with context [match ?x with _ => _ end] => destruct x eqn:? end; try discriminate);
    injection Hs as <- <-; try discriminate; injection E as <- <-; (split; [auto|]); cbn [mth]; unfold supd;
    rewrite Nat.eqb_refl; intros; congruence || reflexivity.
Qed.

Section Held.
Variables (u : tid) (lo hi : bound) (a : addr) (ie : bool) (acc : list (K * V)) (d : mn) (k : K) (v : V).
Hypothesis Hk : mvalid k.
Hypothesis Hd : mn_read d k = Some (Some v).

(** The iterator of [u] stands on the leaf [d] at [a]. *)
Definition stands (s : qcfg) : Prop := qth s u = QHold lo hi a ie acc /\ mch (qb s) a = Some d.

Lemma leaf_of s Ls : qinv s Ls -> stands s -> mn_inner d = false.
Proof.
  intros Q (E & Ea). pose proof (q_scan _ _ _ Q u) as Hu. rewrite E in Hu. unfold qpc_ok in Hu. cbn [qbounds] in Hu.
  destruct Hu as (_ & _ & i0 & _ & (d' & Ea' & Hi & _)). congruence.
Qed.

(** The page of a key. *)
Lemma owner_leaf s Ls x dx : qinv s Ls -> stands s -> onp Ls k x -> mch (qb s) x = Some dx -> mn_inner dx = false -> x = a.
Proof.
  intros Q St Ho Ex Hx. pose proof (leaf_of s Ls Q St) as Hi. destruct St as (_ & Ea).
  pose proof (q_base _ _ _ Q) as V0.
  destruct (find_leaf fx (qb s) Ls V0 a d Ea Hi) as (L1 & n & L2 & HL).
  destruct (leaf_known fx (qb s) Ls V0 a d L1 n L2 HL) as ((Hr & Hin & Hok) & _ & _ & _ & _ & Hrng & _ & _ & Hss & _).
  rewrite (M_read _ _ k Hr Hin Hok Hk) in Hd. injection Hd as Hd'.
  apply assoc_in in Hd'; [|auto]. pose proof (Hrng k (live_key_in _ _ _ Hd')) as HR.
  destruct HL as ((U & EL) & _ & Hlv).
  destruct (at_node _ _ _ _ _ _ (v_tree _ _ _ V0) (v_heap _ _ _ V0) Ho) as (U' & M1 & nx & M2 & D & dx' & EL' & Hl & HR' & Edx & _ & Hix & Hf & _).
  assert (dx' = dx) by congruence. subst dx'. rewrite Hx in Hix. destruct D; [|discriminate].
  rewrite EL in EL'. apply app_inj_tail in EL' as (_ & EL'). rewrite <- EL' in Hf. rewrite <- Hf.
  eapply fnd_mid; [exact Hlv|exact HR].
Qed.

(** One move of somebody else. *)
Lemma stands_step s Ls w s' : qinv s Ls -> stands s -> (forall b, w <> QScan u b) -> qstep fx w s = QOk s' -> stands s'.
Proof.
  intros Q St Hw E. pose proof (leaf_of s Ls Q St) as Hi. destruct St as (Eu & Ea).
  destruct w as [t|u' b]; cbn [qstep] in E.
  - pose proof (step_good fx (qrd s) (qb s) Ls t (q_base _ _ _ Q) (q_x _ _ _ Q)) as G. unfold good in G.
    destruct (mstepr fx (qrd s) t (qb s)) as [l c| |] eqn:Es; try discriminate. injection E as <-.
    destruct G as (Ls' & M & _ & (S1 & S2 & S3 & S4 & S5)). split; [exact Eu|]. cbn [qb m_emit mch].
    assert (Hrd : qrd s a = true).
    { eapply qrd_in. apply (q_hold _ _ _ Q). rewrite Eu. now left. }
    destruct (in_dec Nat.eq_dec a M) as [Hm|Hm].
    + destruct (S5 a Hm Hrd) as (_ & _ & (d' & Ed & Q')). congruence.
    + rewrite S4; auto. apply (hi_fresh _ _ _ _ _ (v_heap _ _ _ (q_base _ _ _ Q))). congruence.
  - assert (Hne : u <> u') by (intros <-; now apply (Hw b)).
    apply Nat.eqb_neq in Hne. revert E. unfold scanr_step, qbind, stands.
    repeat (match goal with |- context [match ?x with _ => _ end] => destruct x eqn:? end; try discriminate);
      intros [= <-]; cbn [q_goto qth qb]; unfold supd; rewrite Hne; auto.
Qed.

(** What a move adds to the log, and who is writing afterwards. *)
Lemma write_step s Ls w s' t c : qinv s Ls -> stands s -> call_key c = k -> wcall (mth (qb s) t) = Some c ->
  qstep fx w s = QOk s' ->
  wcall (mth (qb s') t) = Some c /\ exists T, qlg s' = qlg s ++ T /\ forall r, ~ In (Ev (LRes t r)) T.
Proof.
  intros Q St Hc Ht E. destruct w as [t'|u' b]; cbn [qstep] in E.
  - destruct (mstepr fx (qrd s) t' (qb s)) as [l s1| |] eqn:Es; try discriminate. injection E as <-. cbn [qb qlg m_emit mth].
    assert (HT : forall r, ~ In (Ev (LRes t r)) [Ev l]).
    { intros r [Hl|[]]. injection Hl as Hl. destruct (step_res _ _ _ _ _ _ _ Es Hl) as (-> & Q1). congruence. }
    split; [|eauto]. destruct (Nat.eq_dec t t') as [<-|Hne]; [|rewrite (step_other _ _ _ _ _ t Es); auto].
    destruct (step_w _ _ _ _ _ _ Es Ht) as [(Q1 & _)|(x & dx & Q1 & Q2 & Q3 & Q4)]; [auto|exfalso].
    pose proof (v_pc _ _ _ (q_base _ _ _ Q) t) as Hp. rewrite Q1 in Hp. cbn [pcok] in Hp. destruct Hp as (_ & Ho & _).
    rewrite Hc in Ho. assert (x = a) by (eapply owner_leaf; eauto). subst x.
    destruct St as (Eu & _). assert (Hrd : qrd s a = true).
    { eapply qrd_in. apply (q_hold _ _ _ Q). rewrite Eu. now left. }
    unfold canX in Q4. destruct (msh (qb s) a); [|discriminate]. rewrite Hrd in Q4. discriminate.
  - assert (Eb : qb s' = qb s /\ exists T, qlg s' = qlg s ++ T /\ forall r, ~ In (Ev (LRes t r)) T).
    { revert E. unfold scanr_step, qbind.
      repeat (match goal with |- context [match ?x with _ => _ end] => destruct x eqn:? end; try discriminate);
        intros [= <-]; cbn [q_goto qb qlg]; (split; [auto|]);
        try (exists []; rewrite app_nil_r; split; [auto|]; intros ? []; fail);
        (eexists; split; [reflexivity|]; intros r [Hr|[]]; discriminate). }
    destruct Eb as (Eb & HT). rewrite Eb. auto.
Qed.

Lemma write_run t c : call_key c = k -> forall sched s Ls s', qinv s Ls -> stands s -> wcall (mth (qb s) t) = Some c ->
  (forall b, ~ In (QScan u b) sched) -> qrun fx s sched = Some s' ->
  exists T, qlg s' = qlg s ++ T /\ forall r, ~ In (Ev (LRes t r)) T.
Proof.
  intros Hc. induction sched as [|w sched IH]; intros s Ls s' Q St Ht Hn; cbn [qrun].
  - intros [= <-]. exists []. rewrite app_nil_r. split; [auto|]. intros r [].
  - assert (Hw : forall b, w <> QScan u b) by (intros b ->; apply (Hn b); now left).
    assert (Hn' : forall b, ~ In (QScan u b) sched) by (intros b Hb; apply (Hn b); now right).
    destruct (qstep fx w s) as [s1| |] eqn:E; [|eauto|discriminate]. intros E'.
    destruct (qinv_step fx _ _ _ _ Q E) as (Ls1 & Q1). pose proof (stands_step _ _ _ _ Q St Hw E) as St1.
    destruct (write_step _ _ _ _ _ _ Q St Hc Ht E) as (Ht1 & T1 & E1 & N1).
    destruct (IH _ _ _ Q1 St1 Ht1 Hn' E') as (T2 & E2 & N2).
    exists (T1 ++ T2). split; [now rewrite E2, E1, app_assoc|].
    intros r Hr. apply in_app_or in Hr as [Hr|Hr]; [eapply N1|eapply N2]; eauto.
Qed.

Lemma no_write : forall sched s Ls s', qinv s Ls -> stands s ->
  (forall b, ~ In (QScan u b) sched) -> qrun fx s sched = Some s' ->
  exists T, qlg s' = qlg s ++ T /\
    forall T1 T2 t c, T = T1 ++ Ev (LInv t c) :: T2 -> ConcModel.is_read c = false -> call_key c = k ->
      forall r, ~ In (Ev (LRes t r)) T2.
Proof.
  induction sched as [|w sched IH]; intros s Ls s' Q St Hn; cbn [qrun].
  - intros [= <-]. exists []. rewrite app_nil_r. split; [auto|]. intros [|? ?]; discriminate.
  - assert (Hw : forall b, w <> QScan u b) by (intros b ->; apply (Hn b); now left).
    assert (Hn' : forall b, ~ In (QScan u b) sched) by (intros b Hb; apply (Hn b); now right).
    destruct (qstep fx w s) as [s1| |] eqn:E; [|eauto|discriminate]. intros E'.
    destruct (qinv_step fx _ _ _ _ Q E) as (Ls1 & Q1). pose proof (stands_step _ _ _ _ Q St Hw E) as St1.
    destruct (IH _ _ _ Q1 St1 Hn' E') as (T' & E2 & N2).
    assert (HT : qlg s1 = qlg s \/ exists e, qlg s1 = qlg s ++ [e] /\
      forall t c, e = Ev (LInv t c) -> ConcModel.is_read c = false -> wcall (mth (qb s1) t) = Some c).
    { destruct w as [t'|u' b]; cbn [qstep] in E.
      - destruct (mstepr fx (qrd s) t' (qb s)) as [l sx| |] eqn:Es; try discriminate. injection E as <-. right.
        exists (Ev l). split; [reflexivity|]. intros t c [= El] Hr. cbn [qb m_emit mth].
        destruct (step_inv _ _ _ _ _ _ _ Es El) as (-> & Q2). auto.
      - revert E. unfold scanr_step, qbind.
        repeat (match goal with |- context [match ?x with _ => _ end] => destruct x eqn:? end; try discriminate);
          intros [= <-]; cbn [q_goto qb qlg]; auto; right; eexists; (split; [reflexivity|]); discriminate. }
    destruct HT as [HT|(e & HT & He)].
    + exists T'. rewrite E2, HT. auto.
    + exists (e :: T'). split; [rewrite E2, HT, <- app_assoc; reflexivity|].
      intros [|e' T1] T2 t c Q2 Hr Hc r; cbn in Q2.
      * injection Q2 as -> <-.
        destruct (write_run t c Hc sched s1 Ls1 s' Q1 St1 (He t c eq_refl Hr) Hn' E') as (T3 & E3 & N3).
        rewrite E2 in E3. apply app_inv_head in E3. subst T3. apply N3.
      * injection Q2 as <- Q2. eapply N2; eauto.
Qed.

(** The same in terms of the history. *)
Lemma mevents_split : forall T h1 h2 t c, mevents T = h1 ++ Ev (EInv t c) :: h2 ->
  exists T1 T2, T = T1 ++ Ev (LInv t c) :: T2 /\ mevents T2 = h2.
Proof.
  induction T as [|e T IH]; intros h1 h2 t c E; [destruct h1; discriminate|].
  assert (Hc : forall h, mevents T = h ++ Ev (EInv t c) :: h2 ->
    exists T1 T2, e :: T = T1 ++ Ev (LInv t c) :: T2 /\ mevents T2 = h2).
  { intros h Eh. destruct (IH _ _ _ _ Eh) as (T1 & T2 & -> & H2). exists (e :: T1), T2. auto. }
  destruct e as [[t' c'|t' c' r'|t' c' r'|t' r'|]|m]; cbn [mevents] in E; eauto.
  - destruct h1 as [|? h1]; cbn in E; [|injection E as _ E; eauto]. injection E as -> -> <-. exists [], T. auto.
  - destruct h1 as [|? h1]; cbn in E; [discriminate|]. injection E as _ E; eauto.
  - destruct h1 as [|? h1]; cbn in E; [discriminate|]. injection E as _ E; eauto.
Qed.
Lemma mevents_res T t r : In (Ev (ERes t r)) (mevents T) -> In (Ev (LRes t r)) T.
Proof.
  induction T as [|[[]|] T IH]; cbn; auto; intros [H|H] || intros H; auto; try discriminate.
  injection H as -> ->. auto.
Qed.

Theorem no_write_returns sched s Ls s' : qinv s Ls -> stands s ->
  (forall b, ~ In (QScan u b) sched) -> qrun fx s sched = Some s' ->
  exists h, qhistory s' = qhistory s ++ h /\
    forall h1 h2 t c r, h = h1 ++ Ev (EInv t c) :: h2 -> ConcModel.is_read c = false -> call_key c = k ->
      ~ In (Ev (ERes t r)) h2.
Proof.
  intros Q St Hn E. destruct (no_write sched s Ls s' Q St Hn E) as (T & ET & HT).
  exists (mevents T). split; [unfold qhistory; now rewrite ET, mevents_app|].
  intros h1 h2 t c r Eh Hr Hc Hin. destruct (mevents_split _ _ _ _ _ Eh) as (T1 & T2 & E2 & <-).
  apply (HT T1 T2 t c E2 Hr Hc r). apply mevents_res. exact Hin.
Qed.
End Held.
End MScanHold.
