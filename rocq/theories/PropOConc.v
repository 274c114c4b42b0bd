(** Concurrent executions of BTreeOML.

    [orun false (oinit prog) sched] (OConcModel.v) executes the model of the code from a
    fresh tree: thread [t] makes the calls [prog t], and [sched] names the thread that
    moves next (a thread that has to wait is skipped).  [None] is undefined behaviour, i.e.
    the use of a page that may have been released, or of bytes outside a node.  [orun true]
    differs in two places: Merge marks the right node as removed before it unlocks the left
    one, and TryShrinkTree stores root_ before it retires the old root.  [ocalm]
    (OConcCalm.v) says that nobody looks at a half-finished Merge or TryShrinkTree.
    All theorems quantify over all programs and all schedules of any number of threads. *)
From Coq Require Import List Arith Bool Lia Sorted.
From Verif Require Import Params Mem Common Spec ConcSpec NodeAbs FixProofs VarModel VarProofs SLIface
  VarSL MLIface FixML VarML TreeState ConcModel ConcLin MConcModel OLaws OConcModel OConcInv OConcSteps
  OConcMain OConcCalm PropMConc Inst.
Import ListNotations.

(** ** Fixed-length nodes *)
Section Fix.
Context (P : Params) (O : OrdLaws P) (F : FixSizes P) (G : FixMLGood P).
#[local] Instance fops : MLOps P := fix_ml_ops.
#[local] Instance flaws : MLLaws P fops := fix_ml_laws.
#[local] Instance folaws : OMLaws P fops flaws := fix_o_laws.

Lemma fix_keys prog : keys_ok prog.
Proof. intros t c _. exact Logic.I. Qed.

(** C39, C40.  The code as it is.  Missing: executions in which a thread looks at a page, or
    loads root_, while another thread is between the two halves of a Merge or of TryShrinkTree
    (see PropOConcBad.v). *)
Theorem C39_C40_calm_fixlen_partial : forall prog sched,
  ocalm (oinit prog) sched = true ->
  exists s, orun false (oinit prog) sched = Some s /\ linearizable amap_empty (ohistory s).
Proof. intros prog sched. apply calm_linearizable. apply (fix_keys _). Qed.

(** The repaired tree: no undefined behaviour (no released page is ever used), and every
    history is linearizable. *)
Theorem C39_C40_repaired_fixlen_partial : forall prog sched,
  exists s, orun true (oinit prog) sched = Some s /\ linearizable amap_empty (ohistory s).
Proof.
  intros prog sched. destruct (orun_inv sched _ (oinit_inv prog (fix_keys _))) as (s & E & I).
  exists s. split; [auto|now apply inv_linearizable].
Qed.

(** C41.  Whenever some thread is in a call, some thread in a call can make a step. *)
Theorem C41_no_deadlock_calm_fixlen_partial : forall prog sched s t,
  ocalm (oinit prog) sched = true -> orun false (oinit prog) sched = Some s -> oth s t <> OIdle ->
  exists u l s', oth s u <> OIdle /\ ostep false u s = XOk l s'.
Proof.
  intros prog sched s t Hc E Ht. destruct (calm_reach prog sched s (fix_keys _) Hc E) as (z & S & I).
  eapply calm_progress; eauto.
Qed.
Theorem C41_no_deadlock_repaired_fixlen_partial : forall prog sched s t,
  orun true (oinit prog) sched = Some s -> oth s t <> OIdle ->
  exists u l s', oth s u <> OIdle /\ ostep true u s = XOk l s'.
Proof.
  intros prog sched s t E Ht. destruct (orun_inv sched _ (oinit_inv prog (fix_keys _))) as (s' & E' & I).
  rewrite E in E'. injection E' as <-. destruct I as (Ls & hv & lo & V & W). eapply oprogress; eauto.
Qed.

(** C41.  A thread that is not in a call holds no latch. *)
Theorem C41_idle_thread_holds_no_latch_calm_fixlen_partial : forall prog sched s t a,
  ocalm (oinit prog) sched = true -> orun false (oinit prog) sched = Some s -> oth s t = OIdle ->
  osx s a <> Some t.
Proof.
  intros prog sched s t a Hc E Ht. destruct (calm_reach prog sched s (fix_keys _) Hc E) as (z & S & I).
  eapply calm_idle; eauto.
Qed.

End Fix.

(** ** Variable-length nodes *)
Section Var.
Context (P : Params) (O : OrdLaws P) (F : VarSizes P) (G : VarGood P) (GM : VarMLGood P).
#[local] Instance vops : MLOps P := var_ml_ops.
#[local] Instance vlaws : MLLaws P vops := var_ml_laws.
#[local] Instance volaws : OMLaws P vops vlaws := var_o_laws.

Lemma var_keys prog : ok_prog P prog -> keys_ok prog.
Proof. intros Hv t c Hc. exact (Hv t c Hc). Qed.

(** C39, C40.  The code as it is.  Missing: executions in which a thread looks at a page, or
    loads root_, while another thread is between the two halves of a Merge or of TryShrinkTree
    (see PropOConcBad.v). *)
Theorem C39_C40_calm_varlen_partial : forall prog sched, ok_prog P prog ->
  ocalm (oinit prog) sched = true ->
  exists s, orun false (oinit prog) sched = Some s /\ linearizable amap_empty (ohistory s).
Proof. intros prog sched Hv. apply calm_linearizable. apply (var_keys _ Hv). Qed.

(** The repaired tree: no undefined behaviour (no released page is ever used), and every
    history is linearizable. *)
Theorem C39_C40_repaired_varlen_partial : forall prog sched, ok_prog P prog ->
  exists s, orun true (oinit prog) sched = Some s /\ linearizable amap_empty (ohistory s).
Proof.
  intros prog sched Hv. destruct (orun_inv sched _ (oinit_inv prog (var_keys _ Hv))) as (s & E & I).
  exists s. split; [auto|now apply inv_linearizable].
Qed.

(** C41.  Whenever some thread is in a call, some thread in a call can make a step. *)
Theorem C41_no_deadlock_calm_varlen_partial : forall prog sched s t, ok_prog P prog ->
  ocalm (oinit prog) sched = true -> orun false (oinit prog) sched = Some s -> oth s t <> OIdle ->
  exists u l s', oth s u <> OIdle /\ ostep false u s = XOk l s'.
Proof.
  intros prog sched s t Hv Hc E Ht. destruct (calm_reach prog sched s (var_keys _ Hv) Hc E) as (z & S & I).
  eapply calm_progress; eauto.
Qed.
Theorem C41_no_deadlock_repaired_varlen_partial : forall prog sched s t, ok_prog P prog ->
  orun true (oinit prog) sched = Some s -> oth s t <> OIdle ->
  exists u l s', oth s u <> OIdle /\ ostep true u s = XOk l s'.
Proof.
  intros prog sched s t Hv E Ht. destruct (orun_inv sched _ (oinit_inv prog (var_keys _ Hv))) as (s' & E' & I).
  rewrite E in E'. injection E' as <-. destruct I as (Ls & hv & lo & V & W). eapply oprogress; eauto.
Qed.

(** C41.  A thread that is not in a call holds no latch. *)
Theorem C41_idle_thread_holds_no_latch_calm_varlen_partial : forall prog sched s t a, ok_prog P prog ->
  ocalm (oinit prog) sched = true -> orun false (oinit prog) sched = Some s -> oth s t = OIdle ->
  osx s a <> Some t.
Proof.
  intros prog sched s t a Hv Hc E Ht. destruct (calm_reach prog sched s (var_keys _ Hv) Hc E) as (z & S & I).
  eapply calm_idle; eauto.
Qed.

End Var.

(** ** Non-vacuity

    Three writers and a reader take turns while the tree grows and shrinks; the schedule is
    calm.  *)
Definition obusy {P : Params} {N : MLOps P} (s : ocfg) (t : tid) : bool :=
  match oth s t with OIdle => false | _ => true end.
Definition oblock {P : Params} {N : MLOps P} (s : ocfg) (t : tid) : bool :=
  obusy s t && match ostep false t s with XBlock => true | _ => false end.
Definition retired {P : Params} {N : MLOps P} (s : ocfg) : nat :=
  length (filter (fun a => match ogb s a with Some _ => true | None => false end) (seq 0 (ofr s))).
Definition shape {P : Params} {N : MLOps P} (s : ocfg) :=
  (length (ohistory s), ofr s, retired s, oblock s 0 || oblock s 1 || oblock s 2).

(** History, pages made, pages retired, and whether somebody waits. *)
Example busy_calm_fixlen :
  let p := @busy_prog tiny (fun x => x) 1 in
  ocalm (N := fix_ml_ops) (oinit p) (busy_sched 120) = true /\
  option_map shape (@orun tiny fix_ml_ops false (oinit p) (busy_sched 80)) = Some (116, 15, 1, true) /\
  option_map shape (@orun tiny fix_ml_ops false (oinit p) (busy_sched 120)) = Some (165, 16, 6, false) /\
  ocalm (N := fix_ml_ops) (oinit p) (busy_sched 140) = false.
Proof. vm_compute. repeat split; reflexivity. Qed.
Example busy_calm_varlen :
  let p := @busy_prog mvtiny (fun x => x) 1 in
  ocalm (N := var_ml_ops) (oinit p) (busy_sched 160) = true /\
  option_map shape (@orun mvtiny var_ml_ops false (oinit p) (busy_sched 100)) = Some (132, 13, 2, true) /\
  option_map shape (@orun mvtiny var_ml_ops false (oinit p) (busy_sched 160)) = Some (189, 13, 6, false).
Proof. vm_compute. repeat split; reflexivity. Qed.
Example busy_prog_ok : ok_prog mvtiny (@busy_prog mvtiny (fun x => x) 1).
Proof.
  intros t c Hc. destruct t as [|[|[|[|]]]]; cbn in Hc;
    repeat (destruct Hc as [<-|Hc]; [vm_compute; lia|]); destruct Hc.
Qed.

Print Assumptions C39_C40_calm_fixlen_partial.
Print Assumptions C39_C40_repaired_fixlen_partial.
Print Assumptions C41_no_deadlock_calm_fixlen_partial.
Print Assumptions C41_no_deadlock_repaired_fixlen_partial.
Print Assumptions C41_idle_thread_holds_no_latch_calm_fixlen_partial.
Print Assumptions C39_C40_calm_varlen_partial.
Print Assumptions C39_C40_repaired_varlen_partial.
Print Assumptions C41_no_deadlock_calm_varlen_partial.
Print Assumptions C41_no_deadlock_repaired_varlen_partial.
Print Assumptions C41_idle_thread_holds_no_latch_calm_varlen_partial.
