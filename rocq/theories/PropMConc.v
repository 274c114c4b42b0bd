(** Concurrent executions of BTreePML.

    [mrun false (minit prog) sched] (MConcModel.v) executes the model of the code from a
    fresh tree: thread [t] makes the calls [prog t], and [sched] names the thread that
    moves next (a thread that has to wait is skipped).  [None] is undefined behaviour, i.e.
    the use of a released page or of bytes outside a node.  [mrun true] differs in one
    place: ShrinkTreeIfNeeded waits for the readers of the root before it releases the page.
    All theorems quantify over all programs and all schedules of any number of threads. *)
From Coq Require Import List Arith Bool Lia Sorted.
From Verif Require Import Params Mem Common Spec ConcSpec NodeAbs FixProofs VarModel VarProofs SLIface
  VarSL MLIface FixML VarML TreeState ConcModel ConcLin MConcModel MConcInv MConcSteps MConcMain Inst.
Import ListNotations.

Section Any.
Context {P : Params} {O : OrdLaws P} {N : MLOps P} {L : MLLaws P N}.

Definition keys_ok (prog : tid -> list call) : Prop := forall t c, In c (prog t) -> mvalid (call_key c).

Lemma reach fx prog sched s : keys_ok prog -> mrun fx (minit prog) sched = Some s ->
  exists Ls, minv fx s Ls.
Proof.
  intros Hk E. pose proof (run_inv fx sched _ _ (minit_inv fx prog Hk)) as Q. now rewrite E in Q.
Qed.

Lemma reach_repaired prog sched : keys_ok prog ->
  exists s Ls, mrun true (minit prog) sched = Some s /\ minv true s Ls.
Proof.
  intros Hk. pose proof (run_inv true sched _ _ (minit_inv true prog Hk)) as Q.
  destruct (mrun true (minit prog) sched) as [s|]; [|discriminate]. destruct Q as (Ls & V). eauto.
Qed.

(** In [s] some thread that is in the middle of a call can make a step. *)
Definition can_go_on (fx : bool) (s : mcfg) : Prop := exists u, mth s u <> MIdle /\ mstep fx u s <> KBlock.

Lemma any_lin fx prog sched s : keys_ok prog -> mrun fx (minit prog) sched = Some s ->
  linearizable amap_empty (mhistory s).
Proof. intros Hk E. destruct (reach _ _ _ _ Hk E) as (Ls & V). eapply minv_linearizable; eauto. Qed.

Lemma any_progress fx prog sched s t : keys_ok prog -> mrun fx (minit prog) sched = Some s ->
  mth s t <> MIdle -> can_go_on fx s.
Proof. intros Hk E Ht. destruct (reach _ _ _ _ Hk E) as (Ls & V). eapply progress; eauto. Qed.

Lemma any_released fx prog sched s t l s' x : keys_ok prog -> mrun fx (minit prog) sched = Some s ->
  mstep fx t s = KOk l s' -> mch s x <> None -> mch s' x = None ->
  msx s x = Some t /\ (msh s x = [] \/ (fx = false /\ exists c, mth s t = MShrX c x)).
Proof. intros Hk E. destruct (reach _ _ _ _ Hk E) as (Ls & V). intros Hs Hx Hx'.
  destruct (released fx no_reader t s Ls l s' x V Hs Hx Hx') as (H1 & [(H2 & _)|H2]); auto.
Qed.

Lemma any_undef fx prog sched s t : keys_ok prog -> mrun fx (minit prog) sched = Some s ->
  mstep fx t s = KUndef -> exists c a, mth s t = MRd c a /\ mch s a = None.
Proof.
  intros Hk E Hs. destruct (reach _ _ _ _ Hk E) as (Ls & V). apply (undef_only fx no_reader s Ls t V (fun _ _ => eq_refl) Hs).
Qed.

Lemma any_idle fx prog sched s t a : keys_ok prog -> mrun fx (minit prog) sched = Some s ->
  mth s t = MIdle -> msx s a <> Some t /\ ~ In t (msh s a).
Proof. intros Hk E. destruct (reach _ _ _ _ Hk E) as (Ls & V). eapply idle_free; eauto. Qed.

(** Two ways to see a page go while a reader is on it. *)
Definition gone (s : mcfg) (t u : tid) (x : addr) : bool :=
  negb (Nat.eqb u t) && existsb (Nat.eqb u) (msh s x) &&
  match mch s x, mstep false t s with
  | Some _, KOk l s' =>
      match mch s' x, mstep false u (m_emit s' l) with None, KUndef => true | _, _ => false end
  | _, _ => false
  end.

Lemma gone_ok s t u x : gone s t u x = true -> exists l s',
  u <> t /\ In u (msh s x) /\ mstep false t s = KOk l s' /\ mch s x <> None /\ mch s' x = None /\
  mstep false u (m_emit s' l) = KUndef.
Proof.
  unfold gone. intros H. apply andb_true_iff in H as (H & H3). apply andb_true_iff in H as (H1 & H2).
  apply negb_true_iff, Nat.eqb_neq in H1. apply existsb_exists in H2 as (v & H2 & Hv).
  apply Nat.eqb_eq in Hv. subst v.
  destruct (mch s x) eqn:E1; [|discriminate]. destruct (mstep false t s) as [l s'| |] eqn:E2; try discriminate.
  exists l, s'. destruct (mch s' x) eqn:E3; [discriminate|].
  destruct (mstep false u (m_emit s' l)) eqn:E4; try discriminate.
  split; [auto|]. split; [auto|]. split; [auto|]. split; [congruence|]. auto.
Qed.

End Any.

(** ** Fixed-length nodes *)
Section Fix.
Context (P : Params) (O : OrdLaws P) (F : FixSizes P) (G : FixMLGood P).
#[local] Instance fops : MLOps P := fix_ml_ops.
#[local] Instance flaws : MLLaws P fops := fix_ml_laws.

Lemma fix_keys prog : keys_ok prog.
Proof. intros t c _. exact Logic.I. Qed.

(** C18.  Missing: executions in which a reader uses the root page after it has been
    released (see [C18_C20_use_after_free_fixlen_refuted]); up to that moment, and in all other
    executions, the history is linearizable. *)
Theorem C18_linearizable_pml_fixlen_partial : forall prog sched s,
  mrun false (minit prog) sched = Some s -> linearizable amap_empty (mhistory s).
Proof. intros prog sched s. apply any_lin, fix_keys. Qed.

(** ShrinkTreeIfNeeded meets no reader: no undefined behaviour either. *)
Theorem C18_calm_linearizable_pml_fixlen_partial : forall prog sched,
  mcalm (minit prog) sched = true ->
  exists s, mrun false (minit prog) sched = Some s /\ linearizable amap_empty (mhistory s).
Proof.
  intros prog sched Hc. rewrite (mcalm_run _ _ Hc).
  destruct (reach_repaired prog sched (fix_keys _)) as (s & Ls & E & V). eauto using minv_linearizable.
Qed.

(** The repaired tree. *)
Theorem C18_repaired_linearizable_pml_fixlen_partial : forall prog sched,
  exists s, mrun true (minit prog) sched = Some s /\ linearizable amap_empty (mhistory s).
Proof.
  intros prog sched. destruct (reach_repaired prog sched (fix_keys _)) as (s & Ls & E & V).
  eauto using minv_linearizable.
Qed.

(** C19.  Whenever some thread is in a call, some thread in a call can make a step. *)
Theorem C19_no_deadlock_pml_fixlen : forall prog sched s t,
  mrun false (minit prog) sched = Some s -> mth s t <> MIdle -> can_go_on false s.
Proof. intros prog sched s t. apply any_progress, fix_keys. Qed.
Theorem C19_repaired_no_deadlock_pml_fixlen : forall prog sched s t,
  mrun true (minit prog) sched = Some s -> mth s t <> MIdle ->
  exists u l s', mth s u <> MIdle /\ mstep true u s = KOk l s'.
Proof.
  intros prog sched s t E Ht. destruct (any_progress true _ _ _ t (fix_keys _) E Ht) as (u & Hu & Hs).
  destruct (mstep true u s) as [l s'| |] eqn:Q; [eauto| |].
  - now elim Hs.
  - destruct (reach _ _ _ _ (fix_keys _) E) as (Ls & V). destruct (undef_only true no_reader s Ls u V (fun _ _ => eq_refl) Q). discriminate.
Qed.

(** C20.  A step that releases a page is made by the owner of its latch, and no thread holds
    the latch in shared mode, unless the step is the one in ShrinkTreeIfNeeded. *)
Theorem C20_release_pml_fixlen_partial : forall prog sched s t l s' x,
  mrun false (minit prog) sched = Some s -> mstep false t s = KOk l s' ->
  mch s x <> None -> mch s' x = None ->
  (forall u, msx s x = Some u -> u = t) /\ (msh s x = [] \/ exists c, mth s t = MShrX c x).
Proof.
  intros prog sched s t l s' x E Hs H1 H2.
  destruct (any_released false _ _ _ _ _ _ _ (fix_keys _) E Hs H1 H2) as (Q1 & Q2).
  split; [congruence|]. destruct Q2 as [Q2|[_ Q2]]; auto.
Qed.
(** The only undefined behaviour there is: a reader whose page has been released. *)
Theorem C20_only_readers_pml_fixlen_partial : forall prog sched s t,
  mrun false (minit prog) sched = Some s -> mstep false t s = KUndef ->
  exists c a, mth s t = MRd c a /\ mch s a = None.
Proof. intros prog sched s t. apply any_undef, fix_keys. Qed.
(** The repaired tree: nobody else holds the latch, and no thread ever uses a released page. *)
Theorem C20_repaired_release_pml_fixlen_partial : forall prog sched s t l s' x,
  mrun true (minit prog) sched = Some s -> mstep true t s = KOk l s' ->
  mch s x <> None -> mch s' x = None ->
  (forall u, msx s x = Some u -> u = t) /\ msh s x = [] /\
  forall sched', mrun true (m_emit s' l) sched' <> None.
Proof.
  intros prog sched s t l s' x E Hs H1 H2.
  destruct (any_released true _ _ _ _ _ _ _ (fix_keys _) E Hs H1 H2) as (Q1 & Q2).
  split; [congruence|]. split; [destruct Q2 as [Q2|[Q2 _]]; [auto|discriminate]|].
  intros sched'. destruct (reach _ _ _ _ (fix_keys _) E) as (Ls & V).
  pose proof (run_inv true (t :: sched') s Ls V) as R. cbn [mrun] in R. rewrite Hs in R.
  destruct (mrun true (m_emit s' l) sched'); [discriminate|]. discriminate R.
Qed.

(** C33.  A thread that is not in a call holds no latch. *)
Theorem C33_idle_thread_holds_no_latch_pml_fixlen : forall prog sched s t a,
  mrun false (minit prog) sched = Some s -> mth s t = MIdle ->
  msx s a <> Some t /\ ~ In t (msh s a).
Proof. intros prog sched s t a. apply any_idle, fix_keys. Qed.

End Fix.

(** ** Variable-length nodes *)
Section Var.
Context (P : Params) (O : OrdLaws P) (F : VarSizes P) (G : VarGood P) (GM : VarMLGood P).
#[local] Instance vops : MLOps P := var_ml_ops.
#[local] Instance vlaws : MLLaws P vops := var_ml_laws.

(** The keys of all calls are non-empty and at most kMaxKeyLen bytes long. *)
Definition ok_prog (prog : tid -> list call) : Prop :=
  forall t c, In c (prog t) -> 0 < klen (call_key c) <= maxkey.

Lemma var_keys prog : ok_prog prog -> keys_ok prog.
Proof. intros Hv t c Hc. exact (Hv t c Hc). Qed.

Theorem C18_linearizable_pml_varlen_partial : forall prog sched s, ok_prog prog ->
  mrun false (minit prog) sched = Some s -> linearizable amap_empty (mhistory s).
Proof. intros prog sched s Hv. now apply any_lin, var_keys. Qed.
Theorem C18_calm_linearizable_pml_varlen_partial : forall prog sched, ok_prog prog ->
  mcalm (minit prog) sched = true ->
  exists s, mrun false (minit prog) sched = Some s /\ linearizable amap_empty (mhistory s).
Proof.
  intros prog sched Hv Hc. rewrite (mcalm_run _ _ Hc).
  destruct (reach_repaired prog sched (var_keys _ Hv)) as (s & Ls & E & V). eauto using minv_linearizable.
Qed.
Theorem C18_repaired_linearizable_pml_varlen_partial : forall prog sched, ok_prog prog ->
  exists s, mrun true (minit prog) sched = Some s /\ linearizable amap_empty (mhistory s).
Proof.
  intros prog sched Hv. destruct (reach_repaired prog sched (var_keys _ Hv)) as (s & Ls & E & V).
  eauto using minv_linearizable.
Qed.
Theorem C19_no_deadlock_pml_varlen : forall prog sched s t, ok_prog prog ->
  mrun false (minit prog) sched = Some s -> mth s t <> MIdle -> can_go_on false s.
Proof. intros prog sched s t Hv. now apply any_progress, var_keys. Qed.
Theorem C19_repaired_no_deadlock_pml_varlen : forall prog sched s t, ok_prog prog ->
  mrun true (minit prog) sched = Some s -> mth s t <> MIdle ->
  exists u l s', mth s u <> MIdle /\ mstep true u s = KOk l s'.
Proof.
  intros prog sched s t Hv E Ht. destruct (any_progress true _ _ _ t (var_keys _ Hv) E Ht) as (u & Hu & Hs).
  destruct (mstep true u s) as [l s'| |] eqn:Q; [eauto| |].
  - now elim Hs.
  - destruct (reach _ _ _ _ (var_keys _ Hv) E) as (Ls & V). destruct (undef_only true no_reader s Ls u V (fun _ _ => eq_refl) Q). discriminate.
Qed.
Theorem C20_release_pml_varlen_partial : forall prog sched s t l s' x, ok_prog prog ->
  mrun false (minit prog) sched = Some s -> mstep false t s = KOk l s' ->
  mch s x <> None -> mch s' x = None ->
  (forall u, msx s x = Some u -> u = t) /\ (msh s x = [] \/ exists c, mth s t = MShrX c x).
Proof.
  intros prog sched s t l s' x Hv E Hs H1 H2.
  destruct (any_released false _ _ _ _ _ _ _ (var_keys _ Hv) E Hs H1 H2) as (Q1 & Q2).
  split; [congruence|]. destruct Q2 as [Q2|[_ Q2]]; auto.
Qed.
Theorem C20_only_readers_pml_varlen_partial : forall prog sched s t, ok_prog prog ->
  mrun false (minit prog) sched = Some s -> mstep false t s = KUndef ->
  exists c a, mth s t = MRd c a /\ mch s a = None.
Proof. intros prog sched s t Hv. now apply any_undef, var_keys. Qed.
Theorem C20_repaired_release_pml_varlen_partial : forall prog sched s t l s' x, ok_prog prog ->
  mrun true (minit prog) sched = Some s -> mstep true t s = KOk l s' ->
  mch s x <> None -> mch s' x = None ->
  (forall u, msx s x = Some u -> u = t) /\ msh s x = [] /\
  forall sched', mrun true (m_emit s' l) sched' <> None.
Proof.
  intros prog sched s t l s' x Hv E Hs H1 H2.
  destruct (any_released true _ _ _ _ _ _ _ (var_keys _ Hv) E Hs H1 H2) as (Q1 & Q2).
  split; [congruence|]. split; [destruct Q2 as [Q2|[Q2 _]]; [auto|discriminate]|].
  intros sched'. destruct (reach _ _ _ _ (var_keys _ Hv) E) as (Ls & V).
  pose proof (run_inv true (t :: sched') s Ls V) as R. cbn [mrun] in R. rewrite Hs in R.
  destruct (mrun true (m_emit s' l) sched'); [discriminate|]. discriminate R.
Qed.
Theorem C33_idle_thread_holds_no_latch_pml_varlen : forall prog sched s t a, ok_prog prog ->
  mrun false (minit prog) sched = Some s -> mth s t = MIdle ->
  msx s a <> Some t /\ ~ In t (msh s a).
Proof. intros prog sched s t a Hv. now apply any_idle, var_keys. Qed.

End Var.

(** ** The released root

    Thread 0 fills the root leaf until it splits and deletes until the leaves have been merged
    and the root has one child; thread 1 calls Read and stops with the root latched in shared
    mode; thread 2 calls Write, finds the root with one child and releases the root's page
    (it holds the latch in SIX mode, which the readers do not exclude); thread 1 goes on. *)
Definition shrink_prog {P : Params} (mk : nat -> K) (one : V) (n d : nat) (t : tid) : list call :=
  match t with
  | 0 => map (fun i => CInsert (mk (10 * i)) one) (seq 1 n) ++ map (fun i => CDelete (mk (10 * i))) (seq 1 d)
  | 1 => [CRead (mk 10)]
  | 2 => [CWrite (mk 10) one]
  | _ => []
  end.
Definition shrink_sched (x : nat) : list tid := repeat 0 x ++ repeat 1 3 ++ repeat 2 4.

Notation fix_mrun P := (@mrun P fix_ml_ops).
Notation var_mrun P := (@mrun P var_ml_ops).

Lemma mrun_witness {A} (f : A -> bool) (r : option A) :
  option_map f r = Some true -> exists s, r = Some s /\ f s = true.
Proof. destruct r as [s|]; [intros [= E]; eauto|discriminate]. Qed.
Lemma mno_result {A} (r : option A) : option_map (fun _ => 0) r = None -> r = None.
Proof. destruct r; [discriminate|auto]. Qed.

(** C20.  A page goes while a reader holds its latch, and the reader's next step uses it. *)
Theorem C20_fixlen_refuted : exists prog sched s t l s' x u,
  fix_mrun tiny false (minit prog) sched = Some s /\ mstep false t s = KOk l s' /\
  mch s x <> None /\ mch s' x = None /\ u <> t /\ In u (msh s x) /\
  mstep false u (m_emit s' l) = KUndef.
Proof.
  assert (E : option_map (fun s => existsb (gone s 2 1) (seq 0 10))
    (fix_mrun tiny false (minit (@shrink_prog tiny (fun x => x) 1 8 4)) (shrink_sched 150)) = Some true)
    by (vm_compute; reflexivity).
  apply mrun_witness in E as (s & E1 & E2). apply existsb_exists in E2 as (x & _ & E2).
  apply gone_ok in E2 as (l & s' & Q1 & Q2 & Q3 & Q4 & Q5 & Q6).
  exists (@shrink_prog tiny (fun x => x) 1 8 4), (shrink_sched 150), s, 2, l, s', x, 1. auto 10.
Qed.
Theorem C20_varlen_refuted : exists prog sched s t l s' x u,
  var_mrun mvtiny false (minit prog) sched = Some s /\ mstep false t s = KOk l s' /\
  mch s x <> None /\ mch s' x = None /\ u <> t /\ In u (msh s x) /\
  mstep false u (m_emit s' l) = KUndef.
Proof.
  assert (E : option_map (fun s => existsb (gone s 2 1) (seq 0 10))
    (var_mrun mvtiny false (minit (@shrink_prog mvtiny (fun x => x) 1 7 3)) (shrink_sched 150)) = Some true)
    by (vm_compute; reflexivity).
  apply mrun_witness in E as (s & E1 & E2). apply existsb_exists in E2 as (x & _ & E2).
  apply gone_ok in E2 as (l & s' & Q1 & Q2 & Q3 & Q4 & Q5 & Q6).
  exists (@shrink_prog mvtiny (fun x => x) 1 7 3), (shrink_sched 150), s, 2, l, s', x, 1. auto 10.
Qed.

(** C18, C20.  The same executions end in undefined behaviour. *)
Theorem C18_C20_use_after_free_fixlen_refuted : exists prog sched,
  fix_mrun tiny false (minit prog) sched = None.
Proof.
  exists (@shrink_prog tiny (fun x => x) 1 8 4), (shrink_sched 150 ++ [2; 1]).
  apply mno_result. vm_compute. reflexivity.
Qed.
Theorem C18_C20_use_after_free_varlen_refuted : exists prog sched,
  var_mrun mvtiny false (minit prog) sched = None.
Proof.
  exists (@shrink_prog mvtiny (fun x => x) 1 7 3), (shrink_sched 150 ++ [2; 1]).
  apply mno_result. vm_compute. reflexivity.
Qed.

(** The default 1 KiB page with 8-byte keys and payloads. *)
Theorem C18_C20_use_after_free_default_page_refuted : exists prog sched,
  fix_mrun dflt false (minit prog) sched = None.
Proof.
  exists (@shrink_prog dflt (fun x => x) 1 62 29), (shrink_sched 700 ++ [2; 1]).
  apply mno_result. vm_compute. reflexivity.
Qed.

(** ** Non-vacuity

    Three writers and a reader take turns while the tree grows, shrinks and is read: the run
    goes through splits, merges, waiting and a removed root. *)
Definition busy_prog {P : Params} (mk : nat -> K) (one : V) (t : tid) : list call :=
  match t with
  | 0 => map (fun i => CInsert (mk (10 * i)) one) (seq 1 12) ++ map (fun i => CDelete (mk (10 * i))) (seq 1 12)
  | 1 => map (fun i => CWrite (mk (10 * i + 1)) one) (seq 1 12) ++ map (fun i => CDelete (mk (10 * i + 1))) (seq 1 12)
  | 2 => map (fun i => CInsert (mk (10 * i + 2)) one) (seq 1 12) ++ map (fun i => CDelete (mk (10 * i + 2))) (seq 1 12)
  | 3 => map (fun i => CRead (mk (10 * (i mod 12)))) (seq 1 30)
  | _ => []
  end.
Definition busy_sched (n : nat) : list tid := concat (repeat [0; 1; 2; 3; 0; 2; 1] n).
Definition busyb {P : Params} {N : MLOps P} (s : mcfg) (t : tid) : bool :=
  match mth s t with MIdle => false | _ => true end.
Definition blockb {P : Params} {N : MLOps P} (s : mcfg) (t : tid) : bool :=
  busyb s t && match mstep false t s with KBlock => true | _ => false end.

Example busy_runs_fixlen :
  mcalm (N := fix_ml_ops) (minit (@busy_prog tiny (fun x => x) 1)) (busy_sched 60) = true /\
  option_map (fun s => (Nat.leb 20 (length (mhistory s)), Nat.leb 4 (mfr s), blockb s 0 || blockb s 1 || blockb s 2))
    (fix_mrun tiny false (minit (@busy_prog tiny (fun x => x) 1)) (busy_sched 60)) = Some (true, true, true).
Proof. split; vm_compute; reflexivity. Qed.
Example busy_runs_varlen :
  mcalm (N := var_ml_ops) (minit (@busy_prog mvtiny (fun x => x) 1)) (busy_sched 60) = true /\
  option_map (fun s => (Nat.leb 20 (length (mhistory s)), Nat.leb 4 (mfr s), blockb s 0 || blockb s 1 || blockb s 2))
    (var_mrun mvtiny false (minit (@busy_prog mvtiny (fun x => x) 1)) (busy_sched 60)) = Some (true, true, true).
Proof. split; vm_compute; reflexivity. Qed.
(** The repaired tree does release pages: the shrinking execution above, with the reader
    out of the way. *)
Example repaired_releases :
  option_map (fun s => existsb (fun x => match mch s x, mstep true 2 s with
      | Some _, KOk l s' => match mch s' x with None => true | _ => false end | _, _ => false end) (seq 0 10))
    (fix_mrun tiny true (minit (@shrink_prog tiny (fun x => x) 1 8 4)) (repeat 0 150 ++ repeat 2 4)) = Some true.
Proof. vm_compute. reflexivity. Qed.

Print Assumptions C18_linearizable_pml_fixlen_partial.
Print Assumptions C18_calm_linearizable_pml_fixlen_partial.
Print Assumptions C18_repaired_linearizable_pml_fixlen_partial.
Print Assumptions C19_no_deadlock_pml_fixlen.
Print Assumptions C19_repaired_no_deadlock_pml_fixlen.
Print Assumptions C20_release_pml_fixlen_partial.
Print Assumptions C20_only_readers_pml_fixlen_partial.
Print Assumptions C20_repaired_release_pml_fixlen_partial.
Print Assumptions C33_idle_thread_holds_no_latch_pml_fixlen.
Print Assumptions C18_linearizable_pml_varlen_partial.
Print Assumptions C18_calm_linearizable_pml_varlen_partial.
Print Assumptions C18_repaired_linearizable_pml_varlen_partial.
Print Assumptions C19_no_deadlock_pml_varlen.
Print Assumptions C19_repaired_no_deadlock_pml_varlen.
Print Assumptions C20_release_pml_varlen_partial.
Print Assumptions C20_only_readers_pml_varlen_partial.
Print Assumptions C20_repaired_release_pml_varlen_partial.
Print Assumptions C33_idle_thread_holds_no_latch_pml_varlen.
Print Assumptions C20_fixlen_refuted.
Print Assumptions C20_varlen_refuted.
Print Assumptions C18_C20_use_after_free_fixlen_refuted.
Print Assumptions C18_C20_use_after_free_varlen_refuted.
Print Assumptions C18_C20_use_after_free_default_page_refuted.
