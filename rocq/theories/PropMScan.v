(** Scans of BTreePML that run while other threads use the tree.

    [qrun false (qinit prog scans) sched] (MScanModel.v) executes the model of the code from
    a fresh tree: caller [t] makes the calls [prog t], scanner [u] the scans [scans u], and
    [sched] names who moves next (one that has to wait is skipped; a scanner's client may
    also destroy its iterator).  [None] is undefined behaviour.  [qrun true] differs in one
    place: ShrinkTreeIfNeeded waits for the readers of the root before it releases the page.
    [scans_fine] (PropCScan.v) is defined from the history of calls and scans alone: there is
    an order of the calls that explains the results and every scan (each key in its range at
    a moment between the begin and the end of the scan), scans are in ascending order, they
    return every record that stays and only records that were there.
    All theorems quantify over all programs and all schedules of any number of callers and
    scanners. *)
From Coq Require Import List Arith Bool Lia Sorted.
From Verif Require Import Params Mem Common Spec ConcSpec ScanSpec NodeAbs FixProofs VarModel VarProofs SLIface
  VarSL BaseIface MLIface FixML VarML TreeState ConcModel ConcLin MConcModel MConcInv MConcSteps MConcMain
  CScanModel ScanHist PropCScan PropMConc MScanModel MScanProofs MScanMain MScanHold Inst.
Import ListNotations.

Section Any.
Context {P : Params} {O : OrdLaws P} {N : MLOps P} {L : MLLaws P N}.

Definition bounds_ok (scans : tid -> list (bound * bound)) : Prop :=
  forall u lo hi, In (lo, hi) (scans u) -> mvb lo /\ mvb hi.

Lemma qreach fx prog scans sched s : keys_ok prog -> bounds_ok scans ->
  qrun fx (qinit prog scans) sched = Some s -> exists Ls, qinv fx s Ls.
Proof.
  intros Hk Hb E. destruct (qinit_inv fx prog scans Hk Hb) as (Ls & Q).
  pose proof (qrun_inv fx sched _ _ Q) as R. now rewrite E in R.
Qed.
Lemma qreach_repaired prog scans sched : keys_ok prog -> bounds_ok scans ->
  exists s Ls, qrun true (qinit prog scans) sched = Some s /\ qinv true s Ls.
Proof.
  intros Hk Hb. destruct (qinit_inv true prog scans Hk Hb) as (Ls & Q).
  pose proof (qrun_inv true sched _ _ Q) as R.
  destruct (qrun true (qinit prog scans) sched) as [s|]; [|discriminate]. destruct R as (Ls' & Q'). eauto.
Qed.

(** Some call or scan that is in progress can make a step (for a scan: without giving up). *)
Definition scan_or_call_goes_on (fx : bool) (s : qcfg) : Prop :=
  exists v, in_call s v /\ qstep fx v s <> QBlock /\ match v with QScan _ true => False | _ => True end.

Lemma any_scans fx prog scans sched s : keys_ok prog -> bounds_ok scans ->
  qrun fx (qinit prog scans) sched = Some s -> scans_fine (qhistory s).
Proof. intros Hk Hb E. destruct (qreach _ _ _ _ _ Hk Hb E) as (Ls & Q). eapply fine_of, qinv_lin; eauto. Qed.
Lemma any_repaired prog scans sched : keys_ok prog -> bounds_ok scans ->
  exists s, qrun true (qinit prog scans) sched = Some s /\ scans_fine (qhistory s).
Proof.
  intros Hk Hb. destruct (qreach_repaired prog scans sched Hk Hb) as (s & Ls & E & Q).
  exists s. split; [auto|]. eapply fine_of, qinv_lin; eauto.
Qed.
Lemma any_calm prog scans sched : keys_ok prog -> bounds_ok scans -> qcalm (qinit prog scans) sched = true ->
  exists s, qrun false (qinit prog scans) sched = Some s /\ scans_fine (qhistory s).
Proof. intros Hk Hb Hc. rewrite (qcalm_run _ _ Hc). now apply any_repaired. Qed.
Lemma any_goes fx prog scans sched s v : keys_ok prog -> bounds_ok scans ->
  qrun fx (qinit prog scans) sched = Some s -> in_call s v -> scan_or_call_goes_on fx s.
Proof. intros Hk Hb E Hv. destruct (qreach _ _ _ _ _ Hk Hb E) as (Ls & Q). exact (qprogress fx s Ls Q v Hv). Qed.
Lemma any_goes_repaired prog scans sched s v : keys_ok prog -> bounds_ok scans ->
  qrun true (qinit prog scans) sched = Some s -> in_call s v ->
  exists w s', in_call s w /\ qstep true w s = QOk s' /\ match w with QScan _ true => False | _ => True end.
Proof.
  intros Hk Hb E Hv. destruct (any_goes true _ _ _ _ v Hk Hb E Hv) as (w & H1 & H2 & H3).
  destruct (qreach _ _ _ _ _ Hk Hb E) as (Ls & Q).
  destruct (qstep true w s) as [s'| |] eqn:Es; [eauto|congruence|].
  destruct (qundef true w s Ls Q Es). discriminate.
Qed.
Lemma any_gone fx prog scans sched s v : keys_ok prog -> bounds_ok scans ->
  qrun fx (qinit prog scans) sched = Some s -> qstep fx v s = QUndef ->
  fx = false /\ exists a, mch (qb s) a = None /\
    match v with
    | QCall t => exists c, mth (qb s) t = MRd c a
    | QScan u _ => exists lo hi, qth s u = QDesc lo hi a
    end.
Proof.
  intros Hk Hb E Hs. destruct (qreach _ _ _ _ _ Hk Hb E) as (Ls & Q).
  destruct (qundef fx v s Ls Q Hs) as (Hf & Hv). split; [auto|].
  destruct v; [destruct Hv as (c & a & ? & ?)|destruct Hv as (lo & hi & a & ? & ?)]; eauto.
Qed.
Lemma any_freed fx prog scans sched s v s' x : keys_ok prog -> bounds_ok scans ->
  qrun fx (qinit prog scans) sched = Some s -> qstep fx v s = QOk s' ->
  mch (qb s) x <> None -> mch (qb s') x = None ->
  exists t, v = QCall t /\ msx (qb s) x = Some t /\
    ((msh (qb s) x = [] /\ qsh s x = []) \/ (fx = false /\ exists c, mth (qb s) t = MShrX c x)).
Proof. intros Hk Hb E. destruct (qreach _ _ _ _ _ Hk Hb E) as (Ls & Q). eapply qreleased; eauto. Qed.
Lemma any_qidle fx prog scans sched s u a : keys_ok prog -> bounds_ok scans ->
  qrun fx (qinit prog scans) sched = Some s -> qth s u = QIdle -> ~ In u (qsh s a).
Proof. intros Hk Hb E. destruct (qreach _ _ _ _ _ Hk Hb E) as (Ls & Q). eapply qidle; eauto. Qed.

(** In [s], the iterator of [u] stands on a leaf that has a record for [k]. *)
Definition stands_on (s : qcfg) (u : tid) (k : K) : Prop :=
  exists lo hi a ie acc d v, qth s u = QHold lo hi a ie acc /\ mch (qb s) a = Some d /\ mn_read d k = Some (Some v).
(** In the history [h], no call of Write, Insert, Update or Delete on [k] that begins also returns. *)
Definition no_write_done (h : list (marked event)) (k : K) : Prop :=
  forall h1 h2 t c r, h = h1 ++ Ev (EInv t c) :: h2 -> ConcModel.is_read c = false -> call_key c = k ->
    ~ In (Ev (ERes t r)) h2.

Lemma any_held fx prog scans sched s u k : keys_ok prog -> bounds_ok scans -> mvalid k ->
  qrun fx (qinit prog scans) sched = Some s -> stands_on s u k ->
  forall sched' s', (forall b, ~ In (QScan u b) sched') -> qrun fx s sched' = Some s' ->
  exists h, qhistory s' = qhistory s ++ h /\ no_write_done h k.
Proof.
  intros Hk Hb Hv E (lo & hi & a & ie & acc & d & v & E1 & E2 & E3) sched' s' Hn E'.
  destruct (qreach _ _ _ _ _ Hk Hb E) as (Ls & Q).
  eapply (no_write_returns fx u lo hi a ie acc d k v Hv E3 sched' s Ls s'); eauto. now split.
Qed.
(** Scanners do not make a Read wait. *)
Definition reading (p : mpc) : Prop :=
  match p with MR0 _ | MR1 _ | MRd _ _ | MRet _ => True | _ => False end.
Lemma any_read fx s t : reading (mth (qb s) t) -> qstep fx (QCall t) s = QBlock <-> mstep fx t (qb s) = KBlock.
Proof.
  intros Hr. cbn [qstep]. assert (E : mstepr fx (qrd s) t (qb s) = mstep fx t (qb s)).
  { unfold mstep, mstepr. destruct (mth (qb s) t); try destruct Hr; reflexivity. }
  rewrite E. destruct (mstep fx t (qb s)); split; congruence.
Qed.

(** The step of [v] releases the page that scanner [u] is on, and [u]'s next step uses it. *)
Definition qgone (s : qcfg) (v : qmove) (u : tid) (x : addr) : bool :=
  existsb (Nat.eqb u) (qsh s x) &&
  match mch (qb s) x, qstep false v s with
  | Some _, QOk s' =>
      match mch (qb s') x, qstep false (QScan u false) s' with None, QUndef => true | _, _ => false end
  | _, _ => false
  end.
Lemma qgone_ok s v u x : qgone s v u x = true -> exists s',
  In u (qsh s x) /\ qstep false v s = QOk s' /\ mch (qb s) x <> None /\ mch (qb s') x = None /\
  qstep false (QScan u false) s' = QUndef.
Proof.
  unfold qgone. intros H. apply andb_true_iff in H as (H2 & H3).
  apply existsb_exists in H2 as (w & H2 & Hw). apply Nat.eqb_eq in Hw. subst w.
  destruct (mch (qb s) x) eqn:E1; [|discriminate]. destruct (qstep false v s) as [s'| |] eqn:E2; try discriminate.
  exists s'. destruct (mch (qb s') x) eqn:E3; [discriminate|].
  destruct (qstep false (QScan u false) s') eqn:E4; try discriminate.
  split; [auto|]. split; [auto|]. split; [congruence|]. auto.
Qed.
End Any.

(** ** Fixed-length nodes *)
Section Fix.
Context (P : Params) (O : OrdLaws P) (F : FixSizes P) (G : FixMLGood P).
#[local] Instance fops : MLOps P := fix_ml_ops.
#[local] Instance flaws : MLLaws P fops := fix_ml_laws.

Lemma fkeys prog : keys_ok prog.
Proof. intros t c _. exact Logic.I. Qed.
Lemma fbounds scans : bounds_ok scans.
Proof. intros u lo hi _. split; intros k c _; exact Logic.I. Qed.

(** C43.  Scans are right.  Missing: executions in which a reader or a scan uses the root page
    after it has been released (see [C43_scan_uses_released_root_fixlen_refuted]); up to that
    moment, and in all other executions, all scans are right. *)
Theorem C43_scans_pml_fixlen_partial : forall prog scans sched s,
  qrun false (qinit prog scans) sched = Some s -> scans_fine (qhistory s).
Proof. intros prog scans sched s. apply any_scans; auto using fkeys, fbounds. Qed.
(** ShrinkTreeIfNeeded meets no reader and no scan at the root: no undefined behaviour either. *)
Theorem C43_calm_scans_pml_fixlen_partial : forall prog scans sched,
  qcalm (qinit prog scans) sched = true ->
  exists s, qrun false (qinit prog scans) sched = Some s /\ scans_fine (qhistory s).
Proof. intros prog scans sched. apply any_calm; auto using fkeys, fbounds. Qed.
(** The repaired tree. *)
Theorem C43_repaired_scans_pml_fixlen_partial : forall prog scans sched,
  exists s, qrun true (qinit prog scans) sched = Some s /\ scans_fine (qhistory s).
Proof. intros prog scans sched. apply any_repaired; auto using fkeys, fbounds. Qed.
(** The only undefined behaviour there is: a reader or a scan on its way down whose page has
    been released. *)
Theorem C43_only_the_descent_pml_fixlen_partial : forall prog scans sched s v,
  qrun false (qinit prog scans) sched = Some s -> qstep false v s = QUndef ->
  exists a, mch (qb s) a = None /\
    match v with
    | QCall t => exists c, mth (qb s) t = MRd c a
    | QScan u _ => exists lo hi, qth s u = QDesc lo hi a
    end.
Proof. intros prog scans sched s v E Hs. refine (proj2 (any_gone false _ _ _ _ _ _ _ E Hs)); auto using fkeys, fbounds. Qed.
(** C20 with scans: who releases a page has its latch, and nobody reads or scans the page,
    unless the step is the one in ShrinkTreeIfNeeded. *)
Theorem C20_release_with_scans_pml_fixlen_partial : forall prog scans sched s v s' x,
  qrun false (qinit prog scans) sched = Some s -> qstep false v s = QOk s' ->
  mch (qb s) x <> None -> mch (qb s') x = None ->
  exists t, v = QCall t /\ msx (qb s) x = Some t /\
    ((msh (qb s) x = [] /\ qsh s x = []) \/ exists c, mth (qb s) t = MShrX c x).
Proof.
  intros prog scans sched s v s' x E Hs H1 H2.
  destruct (any_freed false prog scans sched s v s' x) as (t & Q1 & Q2 & Q3); auto using fkeys, fbounds.
  exists t. split; [auto|]. split; [auto|]. destruct Q3 as [Q3|[_ Q3]]; auto.
Qed.
(** C19 with scans: whenever a call or a scan is in progress, one of those in progress can make
    a step, and no client has to give up its scan for it. *)
Theorem C19_no_deadlock_with_scans_pml_fixlen : forall prog scans sched s v,
  qrun false (qinit prog scans) sched = Some s -> in_call s v -> scan_or_call_goes_on false s.
Proof. intros prog scans sched s v. apply any_goes; auto using fkeys, fbounds. Qed.
Theorem C19_repaired_no_deadlock_with_scans_pml_fixlen : forall prog scans sched s v,
  qrun true (qinit prog scans) sched = Some s -> in_call s v ->
  exists w s', in_call s w /\ qstep true w s = QOk s' /\ match w with QScan _ true => False | _ => True end.
Proof. intros prog scans sched s v. apply any_goes_repaired; auto using fkeys, fbounds. Qed.
(** C33 with scans: a finished or destroyed iterator holds no latch. *)
Theorem C33_finished_scan_holds_no_latch_pml_fixlen : forall prog scans sched s u a,
  qrun false (qinit prog scans) sched = Some s -> qth s u = QIdle -> ~ In u (qsh s a).
Proof. intros prog scans sched s u a. apply any_qidle; auto using fkeys, fbounds. Qed.

(** C44.  While an iterator stands on a leaf with a record for [k], no Write, Insert, Update or
    Delete on [k] returns, whatever the callers and the other scanners do.  So a thread that
    makes such a call while it has the iterator open never comes back: it cannot advance or
    destroy its iterator before the call has returned.  Missing, because it is false: that
    the call returns. *)
Theorem C44_write_under_iterator_never_returns_pml_fixlen_refuted : forall prog scans sched s u k,
  qrun false (qinit prog scans) sched = Some s -> stands_on s u k ->
  forall sched' s', (forall b, ~ In (QScan u b) sched') -> qrun false s sched' = Some s' ->
  exists h, qhistory s' = qhistory s ++ h /\ no_write_done h k.
Proof. intros prog scans sched s u k. apply any_held; auto using fkeys, fbounds; exact Logic.I. Qed.
(** Open iterators never make a Read wait. *)
Theorem C44_read_under_iterator_pml_fixlen_partial : forall s t, reading (mth (qb s) t) ->
  qstep false (QCall t) s = QBlock <-> mstep false t (qb s) = KBlock.
Proof. intros s t. apply any_read. Qed.

End Fix.

(** ** Variable-length nodes *)
Section Var.
Context (P : Params) (O : OrdLaws P) (F : VarSizes P) (G : VarGood P) (GM : VarMLGood P).
#[local] Instance vops : MLOps P := var_ml_ops.
#[local] Instance vlaws : MLLaws P vops := var_ml_laws.

Lemma vkeys prog : ok_prog P prog -> keys_ok prog.
Proof. intros Hv t c Hc. exact (Hv t c Hc). Qed.
Lemma vbounds scans : ok_scans scans -> bounds_ok scans.
Proof. intros Hs u lo hi H. exact (Hs u lo hi H). Qed.

(** C43.  Scans are right.  Missing: executions in which a reader or a scan uses the root page
    after it has been released (see [C43_scan_uses_released_root_varlen_refuted]); up to that
    moment, and in all other executions, all scans are right. *)
Theorem C43_scans_pml_varlen_partial : forall prog scans sched s, ok_prog P prog -> ok_scans scans ->
  qrun false (qinit prog scans) sched = Some s -> scans_fine (qhistory s).
Proof. intros prog scans sched s Hp Hq. apply any_scans; auto using vkeys, vbounds. Qed.
(** ShrinkTreeIfNeeded meets no reader and no scan at the root: no undefined behaviour either. *)
Theorem C43_calm_scans_pml_varlen_partial : forall prog scans sched, ok_prog P prog -> ok_scans scans ->
  qcalm (qinit prog scans) sched = true ->
  exists s, qrun false (qinit prog scans) sched = Some s /\ scans_fine (qhistory s).
Proof. intros prog scans sched Hp Hq. apply any_calm; auto using vkeys, vbounds. Qed.
(** The repaired tree. *)
Theorem C43_repaired_scans_pml_varlen_partial : forall prog scans sched, ok_prog P prog -> ok_scans scans ->
  exists s, qrun true (qinit prog scans) sched = Some s /\ scans_fine (qhistory s).
Proof. intros prog scans sched Hp Hq. apply any_repaired; auto using vkeys, vbounds. Qed.
(** The only undefined behaviour there is: a reader or a scan on its way down whose page has
    been released. *)
Theorem C43_only_the_descent_pml_varlen_partial : forall prog scans sched s v, ok_prog P prog -> ok_scans scans ->
  qrun false (qinit prog scans) sched = Some s -> qstep false v s = QUndef ->
  exists a, mch (qb s) a = None /\
    match v with
    | QCall t => exists c, mth (qb s) t = MRd c a
    | QScan u _ => exists lo hi, qth s u = QDesc lo hi a
    end.
Proof. intros prog scans sched s v Hp Hq E Hs. refine (proj2 (any_gone false _ _ _ _ _ _ _ E Hs)); auto using vkeys, vbounds. Qed.
(** C20 with scans: who releases a page has its latch, and nobody reads or scans the page,
    unless the step is the one in ShrinkTreeIfNeeded. *)
Theorem C20_release_with_scans_pml_varlen_partial : forall prog scans sched s v s' x, ok_prog P prog -> ok_scans scans ->
  qrun false (qinit prog scans) sched = Some s -> qstep false v s = QOk s' ->
  mch (qb s) x <> None -> mch (qb s') x = None ->
  exists t, v = QCall t /\ msx (qb s) x = Some t /\
    ((msh (qb s) x = [] /\ qsh s x = []) \/ exists c, mth (qb s) t = MShrX c x).
Proof.
  intros prog scans sched s v s' x Hp Hq E Hs H1 H2.
  destruct (any_freed false prog scans sched s v s' x) as (t & Q1 & Q2 & Q3); auto using vkeys, vbounds.
  exists t. split; [auto|]. split; [auto|]. destruct Q3 as [Q3|[_ Q3]]; auto.
Qed.
(** C19 with scans: whenever a call or a scan is in progress, one of those in progress can make
    a step, and no client has to give up its scan for it. *)
Theorem C19_no_deadlock_with_scans_pml_varlen : forall prog scans sched s v, ok_prog P prog -> ok_scans scans ->
  qrun false (qinit prog scans) sched = Some s -> in_call s v -> scan_or_call_goes_on false s.
Proof. intros prog scans sched s v Hp Hq. apply any_goes; auto using vkeys, vbounds. Qed.
Theorem C19_repaired_no_deadlock_with_scans_pml_varlen : forall prog scans sched s v, ok_prog P prog -> ok_scans scans ->
  qrun true (qinit prog scans) sched = Some s -> in_call s v ->
  exists w s', in_call s w /\ qstep true w s = QOk s' /\ match w with QScan _ true => False | _ => True end.
Proof. intros prog scans sched s v Hp Hq. apply any_goes_repaired; auto using vkeys, vbounds. Qed.
(** C33 with scans: a finished or destroyed iterator holds no latch. *)
Theorem C33_finished_scan_holds_no_latch_pml_varlen : forall prog scans sched s u a, ok_prog P prog -> ok_scans scans ->
  qrun false (qinit prog scans) sched = Some s -> qth s u = QIdle -> ~ In u (qsh s a).
Proof. intros prog scans sched s u a Hp Hq. apply any_qidle; auto using vkeys, vbounds. Qed.

(** C44.  While an iterator stands on a leaf with a record for [k], no Write, Insert, Update or
    Delete on [k] returns, whatever the callers and the other scanners do.  So a thread that
    makes such a call while it has the iterator open never comes back: it cannot advance or
    destroy its iterator before the call has returned.  Missing, because it is false: that
    the call returns. *)
Theorem C44_write_under_iterator_never_returns_pml_varlen_refuted : forall prog scans sched s u k, ok_prog P prog -> ok_scans scans -> 0 < klen k <= maxkey ->
  qrun false (qinit prog scans) sched = Some s -> stands_on s u k ->
  forall sched' s', (forall b, ~ In (QScan u b) sched') -> qrun false s sched' = Some s' ->
  exists h, qhistory s' = qhistory s ++ h /\ no_write_done h k.
Proof. intros prog scans sched s u k Hp Hq Hk. apply any_held; auto using vkeys, vbounds. Qed.
(** Open iterators never make a Read wait. *)
Theorem C44_read_under_iterator_pml_varlen_partial : forall s t, reading (mth (qb s) t) ->
  qstep false (QCall t) s = QBlock <-> mstep false t (qb s) = KBlock.
Proof. intros s t. apply any_read. Qed.

End Var.

(** ** The released root

    Caller 0 fills the root leaf until it splits and deletes until the leaves have been merged
    and the root has one child; scanner 1 begins a scan and stops with the root latched in
    shared mode; caller 2 calls Write, finds the root with one child and releases the root's
    page; the scan goes on. *)
Definition shrink_moves (x : nat) : list qmove :=
  repeat (QCall 0) x ++ repeat (QScan 1 false) 3 ++ repeat (QCall 2) 4.
Definition all_scan {P : Params} (u : tid) : list (bound * bound) :=
  match u with 1 => [(None, None)] | _ => [] end.

Notation fix_qrun P := (@qrun P fix_ml_ops).
Notation var_qrun P := (@qrun P var_ml_ops).

Theorem C43_scan_uses_released_root_fixlen_refuted : exists prog scans sched s v s' x u,
  fix_qrun tiny false (qinit prog scans) sched = Some s /\ qstep false v s = QOk s' /\
  In u (qsh s x) /\ mch (qb s) x <> None /\ mch (qb s') x = None /\ qstep false (QScan u false) s' = QUndef.
Proof.
  assert (E : option_map (fun s => existsb (qgone s (QCall 2) 1) (seq 0 10))
    (fix_qrun tiny false (qinit (@shrink_prog tiny (fun x => x) 1 8 4) all_scan) (shrink_moves 150)) = Some true)
    by (vm_compute; reflexivity).
  apply mrun_witness in E as (s & E1 & E2). apply existsb_exists in E2 as (x & _ & E2).
  apply qgone_ok in E2 as (s' & Q1 & Q2 & Q3 & Q4 & Q5).
  exists (@shrink_prog tiny (fun x => x) 1 8 4), all_scan, (shrink_moves 150), s, (QCall 2), s', x, 1. auto 10.
Qed.
Theorem C43_scan_uses_released_root_varlen_refuted : exists prog scans sched s v s' x u,
  var_qrun mvtiny false (qinit prog scans) sched = Some s /\ qstep false v s = QOk s' /\
  In u (qsh s x) /\ mch (qb s) x <> None /\ mch (qb s') x = None /\ qstep false (QScan u false) s' = QUndef.
Proof.
  assert (E : option_map (fun s => existsb (qgone s (QCall 2) 1) (seq 0 10))
    (var_qrun mvtiny false (qinit (@shrink_prog mvtiny (fun x => x) 1 7 3) all_scan) (shrink_moves 150)) = Some true)
    by (vm_compute; reflexivity).
  apply mrun_witness in E as (s & E1 & E2). apply existsb_exists in E2 as (x & _ & E2).
  apply qgone_ok in E2 as (s' & Q1 & Q2 & Q3 & Q4 & Q5).
  exists (@shrink_prog mvtiny (fun x => x) 1 7 3), all_scan, (shrink_moves 150), s, (QCall 2), s', x, 1. auto 10.
Qed.

(** ** Non-vacuity

    Three writers, a reader and two scanners take turns while the tree grows and shrinks; the
    execution is calm, scans end, and writers have to wait for scanners. *)
Definition busy_scans {P : Params} (mk : nat -> K) (u : tid) : list (bound * bound) :=
  match u with
  | 0 => repeat (None, None) 20
  | 1 => repeat (Some (mk 25, true), Some (mk 92, false)) 20
  | _ => []
  end.
Definition busy_moves (n : nat) : list qmove :=
  concat (repeat [QCall 0; QCall 1; QScan 0 false; QCall 2; QCall 3; QScan 1 false; QCall 0; QCall 2; QCall 1] n).
Definition waits {P : Params} {N : MLOps P} (s : qcfg) (t : tid) : bool :=
  match mth (qb s) t, qstep false (QCall t) s, mstep false t (qb s) with
  | MIdle, _, _ => false
  | _, QBlock, KOk _ _ => true
  | _, _, _ => false
  end.
Definition busy_start {P : Params} (N : MLOps P) (mk : nat -> K) (one : V) : qcfg :=
  qinit (busy_prog mk one) (busy_scans mk).
(** The lengths of the scans that have ended, and whether caller 1 waits for a scanner. *)
Lemma busy_scans_fixlen :
  qcalm (@busy_start tiny fix_ml_ops (fun x => x) 1) (firstn 275 (busy_moves 31)) = true /\
  option_map (fun s => (map (fun l => length l) (results (qhistory s)), waits s 1))
    (qrun false (@busy_start tiny fix_ml_ops (fun x => x) 1) (firstn 275 (busy_moves 31)))
  = Some ([1; 0; 4; 0; 7; 1; 3; 9], true).
Proof. split; vm_compute; reflexivity. Qed.
Lemma busy_scans_varlen :
  qcalm (@busy_start mvtiny var_ml_ops (fun x => x) 1) (firstn 275 (busy_moves 31)) = true /\
  option_map (fun s => (map (fun l => length l) (results (qhistory s)), waits s 1))
    (qrun false (@busy_start mvtiny var_ml_ops (fun x => x) 1) (firstn 275 (busy_moves 31)))
  = Some ([1; 0; 4; 0; 7; 1; 3; 9], true).
Proof. split; vm_compute; reflexivity. Qed.

(** C44: thread 0 inserts three records, begins a scan and, with the iterator on the leaf, calls
    Write on one of them. *)
Definition self_prog {P : Params} (mk : nat -> K) (one : V) (t : tid) : list call :=
  match t with
  | 0 => map (fun i => CInsert (mk (10 * i)) one) [1; 2; 3] ++ [CWrite (mk 20) one; CRead (mk 10)]
  | _ => []
  end.
Definition self_scans {P : Params} (u : tid) : list (bound * bound) := match u with 0 => [(None, None)] | _ => [] end.
Definition self_moves : list qmove := repeat (QCall 0) 18 ++ repeat (QScan 0 false) 4.
Definition standsb {P : Params} {N : MLOps P} (s : qcfg) (u : tid) (k : K) : bool :=
  match qth s u with
  | QHold _ _ a _ _ =>
      match mch (qb s) a with
      | Some d => match mn_read d k with Some (Some _) => true | _ => false end
      | None => false
      end
  | _ => false
  end.
Lemma standsb_ok {P : Params} {N : MLOps P} s u k : standsb s u k = true -> stands_on s u k.
Proof.
  unfold standsb, stands_on. destruct (qth s u) as [| | | |lo hi a ie acc|]; try discriminate.
  destruct (mch (qb s) a) as [d|] eqn:E1; [|discriminate]. destruct (mn_read d k) as [[v|]|] eqn:E2; try discriminate.
  intros _. exists lo, hi, a, ie, acc, d, v. auto.
Qed.
Definition pending {P : Params} (h : list (marked event)) : nat :=
  length (filter (fun e => match e with Ev (EInv _ _) => true | _ => false end) h) -
  length (filter (fun e => match e with Ev (ERes _ _) => true | _ => false end) h).
Lemma self_deadlock_fixlen : exists s s',
  fix_qrun tiny false (qinit (@self_prog tiny (fun x => x) 1) self_scans) self_moves = Some s /\
  stands_on s 0 (20 : @K tiny) /\ pending (qhistory s) = 0 /\
  fix_qrun tiny false s (repeat (QCall 0) 20) = Some s' /\ pending (qhistory s') = 1.
Proof.
  assert (E : option_map (fun s => standsb s 0 (20 : @K tiny) && Nat.eqb (pending (qhistory s)) 0 &&
      match fix_qrun tiny false s (repeat (QCall 0) 20) with
      | Some s' => Nat.eqb (pending (qhistory s')) 1 | None => false end)
    (fix_qrun tiny false (qinit (@self_prog tiny (fun x => x) 1) self_scans) self_moves) = Some true)
    by (vm_compute; reflexivity).
  apply mrun_witness in E as (s & E1 & E2). apply andb_true_iff in E2 as (E2 & E4). apply andb_true_iff in E2 as (E2 & E3).
  destruct (fix_qrun tiny false s (repeat (QCall 0) 20)) as [s'|] eqn:E5; [|discriminate].
  exists s, s'. split; [auto|]. split; [now apply standsb_ok|]. split; [now apply Nat.eqb_eq|]. split; [auto|now apply Nat.eqb_eq].
Qed.
Lemma self_deadlock_varlen : exists s s',
  var_qrun mvtiny false (qinit (@self_prog mvtiny (fun x => x) 1) self_scans) self_moves = Some s /\
  stands_on s 0 (20 : @K mvtiny) /\ pending (qhistory s) = 0 /\
  var_qrun mvtiny false s (repeat (QCall 0) 20) = Some s' /\ pending (qhistory s') = 1.
Proof.
  assert (E : option_map (fun s => standsb s 0 (20 : @K mvtiny) && Nat.eqb (pending (qhistory s)) 0 &&
      match var_qrun mvtiny false s (repeat (QCall 0) 20) with
      | Some s' => Nat.eqb (pending (qhistory s')) 1 | None => false end)
    (var_qrun mvtiny false (qinit (@self_prog mvtiny (fun x => x) 1) self_scans) self_moves) = Some true)
    by (vm_compute; reflexivity).
  apply mrun_witness in E as (s & E1 & E2). apply andb_true_iff in E2 as (E2 & E4). apply andb_true_iff in E2 as (E2 & E3).
  destruct (var_qrun mvtiny false s (repeat (QCall 0) 20)) as [s'|] eqn:E5; [|discriminate].
  exists s, s'. split; [auto|]. split; [now apply standsb_ok|]. split; [now apply Nat.eqb_eq|]. split; [auto|now apply Nat.eqb_eq].
Qed.

Print Assumptions C44_write_under_iterator_never_returns_pml_fixlen_refuted.
Print Assumptions C44_write_under_iterator_never_returns_pml_varlen_refuted.
Print Assumptions C44_read_under_iterator_pml_fixlen_partial.
Print Assumptions C44_read_under_iterator_pml_varlen_partial.
Print Assumptions C43_scans_pml_fixlen_partial.
Print Assumptions C43_calm_scans_pml_fixlen_partial.
Print Assumptions C43_repaired_scans_pml_fixlen_partial.
Print Assumptions C43_only_the_descent_pml_fixlen_partial.
Print Assumptions C20_release_with_scans_pml_fixlen_partial.
Print Assumptions C19_no_deadlock_with_scans_pml_fixlen.
Print Assumptions C19_repaired_no_deadlock_with_scans_pml_fixlen.
Print Assumptions C33_finished_scan_holds_no_latch_pml_fixlen.
Print Assumptions C43_scans_pml_varlen_partial.
Print Assumptions C43_calm_scans_pml_varlen_partial.
Print Assumptions C43_repaired_scans_pml_varlen_partial.
Print Assumptions C43_only_the_descent_pml_varlen_partial.
Print Assumptions C20_release_with_scans_pml_varlen_partial.
Print Assumptions C19_no_deadlock_with_scans_pml_varlen.
Print Assumptions C19_repaired_no_deadlock_with_scans_pml_varlen.
Print Assumptions C33_finished_scan_holds_no_latch_pml_varlen.
Print Assumptions C43_scan_uses_released_root_fixlen_refuted.
Print Assumptions C43_scan_uses_released_root_varlen_refuted.
