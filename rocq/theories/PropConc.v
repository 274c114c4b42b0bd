(** Concurrent executions of BTreePSL ([osl = false]) and BTreeOSL ([osl = true]).

    [crun osl as_is (cinit prog) sched] (ConcModel.v) executes the model of the code from a
    fresh tree: thread [t] makes the calls [prog t], and [sched] names the thread that
    moves next.  [None] is undefined behaviour.  [as_is] is the code; [repaired] differs
    from it in three places only (see [fixes] in ConcModel.v): the separator key is taken
    before the latch of the split node is released, a new root is installed by
    compare-and-swap, and a root with a right sibling is not removed.

    The code as it is violates C16, C17, C21 and C36; the witnesses are below.  What is
    proved of it are the executions that are calm (ConcMain.v), i.e. in which none of the
    three situations arises.  All theorems quantify over all programs and all schedules of
    any number of threads. *)
From Coq Require Import List Arith Bool Lia Sorted.
From Verif Require Import Params Mem Common Spec ConcSpec NodeAbs FixProofs VarModel VarProofs SLIface
  FixSL VarSL TreeState ConcModel ConcLin ConcHist ConcInv ConcMain ConcSeps ConcWait Inst.
Import ListNotations.

(** ** All layouts *)
Section Any.
Context {P : Params} {O : OrdLaws P} {N : SLOps P} {L : SLLaws P N} (osl : bool).

Definition fine (s : cfg) : Prop :=
  linearizable amap_empty (history s) /\ reads_keep (history s) /\ reads_real (history s) /\
  seps_right s /\
  forall t, th s t = PIdle -> forall a, six s a <> Some t.

Definition no_delete (prog : tid -> list call) : Prop :=
  forall t k, ~ In (CDelete k) (prog t).

Lemma repaired_all prog sched : (forall t c, In c (prog t) -> kvalid (call_key c)) ->
  exists s, crun osl repaired (cinit prog) sched = Some s /\ fine s /\ held_ok s.
Proof.
  intros Hk.
  destruct (run_held osl sched _ _ (init_inv prog Hk) (init_held prog)) as (s & G & E & I & HL).
  exists s. split; [auto|]. split; [|auto].
  pose proof (inv_linearizable s G I) as Hlin. split; [auto|].
  split; [now apply linearizable_reads_keep|]. split; [now apply linearizable_reads_real|].
  split; [eapply inv_seps; eauto|].
  intros t Ht a Ha. apply HL in Ha. rewrite Ht in Ha. exact Ha.
Qed.

Lemma nodel_plain prog : no_delete prog -> plain_cfg (cinit prog).
Proof.
  intros Hd t. split; [exact Logic.I|]. intros c Hc. destruct c; auto. now elim (Hd t k).
Qed.

Lemma nodel_progress fx prog sched s : no_delete prog ->
  crun osl fx (cinit prog) sched = Some s -> held_ok s -> ~ deadlocked osl fx s.
Proof.
  intros Hd E HL. apply plain_progress; auto. eapply plain_run; eauto. now apply nodel_plain.
Qed.

(** Threads that do not move. *)
Lemma crun_other fx : forall sched s s' t, crun osl fx s sched = Some s' -> ~ In t sched ->
  th s' t = th s t /\ pg s' t = pg s t.
Proof.
  assert (Hstep : forall u s l s', cstep osl fx u s = SOk l s' -> forall t, t <> u ->
    th s' t = th s t /\ pg s' t = pg s t).
  { intros u s l s' Hs t Ht. unfold cstep, sbind in Hs.
    repeat (match type of Hs with context [match ?x with _ => _ end] => destruct x end; try discriminate);
      injection Hs as <- <-; cbn; rewrite ?supd_diff by auto; auto. }
  induction sched as [|u sched IH]; intros s s' t Hr Ht; cbn [crun] in Hr.
  - injection Hr as <-. auto.
  - destruct (cstep osl fx u s) as [l s1| |] eqn:E; try discriminate.
    + destruct (IH _ _ t Hr) as (Q1 & Q2); [intros ?; apply Ht; now right|].
      destruct (Hstep u s l s1 E t) as (Q3 & Q4); [intros ->; apply Ht; now left|].
      cbn in Q1, Q2. split; congruence.
    + apply IH; auto. intros ?; apply Ht; now right.
Qed.

(** A boolean form of calmness, for the examples. *)
Definition calmb_at (t : tid) (s : cfg) : bool :=
  match th s t with
  | PSep _ a r x sep _ =>
      match ch s x with
      | Some n => match nd_sepkey n (Nat.eqb x a) with Some k => keqb k sep | None => false end
      | None => false
      end
  | PTrySt _ _ l _ _ => Nat.eqb (croot s) l
  | PShr _ p =>
      match ch s p with
      | Some n => negb (Nat.eqb (nd_rc n) 1) || match nd_next n with None => true | Some _ => false end
      | None => true
      end
  | PShrL _ p =>
      match ch s p with
      | Some n =>
          match nd_child n 0 with
          | Some c =>
              match ch s c with
              | Some m => negb (Nat.eqb (nd_rc m) 1) || negb (nd_inner m) ||
                          match nd_next m with None => true | Some _ => false end
              | None => true
              end
          | None => true
          end
      | None => true
      end
  | _ => true
  end.
Fixpoint calmb (s : cfg) (sched : list tid) : bool :=
  match sched with
  | [] => true
  | t :: sched' =>
      calmb_at t s &&
      match cstep osl as_is t s with
      | SOk l s' => calmb (emit s' l) sched'
      | SBlock => calmb s sched'
      | SUndef => true
      end
  end.
Lemma calmb_calm : forall sched s, calmb s sched = true -> calm osl s sched.
Proof.
  assert (Hat : forall t s, calmb_at t s = true -> calm_at t s).
  { intros t s. unfold calmb_at, calm_at. destruct (th s t); auto.
    - destruct (ch s t0) as [n|]; [|discriminate].
      destruct (nd_sepkey n (t0 =? a)) as [k|] eqn:Q; [|discriminate].
      intros E. apply keqb_eq in E. subst. eauto.
    - apply Nat.eqb_eq.
    - destruct (ch s p) as [n|]; [|discriminate]. intros Hb n' _ [= <-] Q. rewrite Q in Hb.
      cbn in Hb. destruct (nd_next n); auto. discriminate.
    - destruct (ch s p) as [n|]; [|discriminate]. intros Hb n' c m [= <-] Q1 Q2 Q3 Q4.
      rewrite Q1, Q2, Q3, Q4 in Hb. cbn in Hb. destruct (nd_next m); auto. discriminate. }
  induction sched as [|t sched IH]; intros s Hb; cbn [calm calmb] in *; auto.
  apply andb_true_iff in Hb as (H1 & H2). split; auto.
  destruct (cstep osl as_is t s); auto.
Qed.

End Any.

(** ** Fixed-length nodes *)
Section Fix.
Context (P : Params) (O : OrdLaws P) (F : FixSizes P) (G : FixGood P) (osl : bool).
#[local] Instance fops : SLOps P := fix_sl_ops osl.
#[local] Instance flaws : SLLaws P fops := fix_sl_laws osl.

(** C16.  Missing: executions that are not calm (refuted below). *)
Theorem C16_calm_linearizable_fixlen_partial : forall prog sched,
  calm osl (cinit prog) sched ->
  exists s, crun osl as_is (cinit prog) sched = Some s /\ linearizable amap_empty (history s).
Proof.
  intros prog sched Hc. rewrite (calm_run osl _ _ Hc).
  destruct (repaired_all osl prog sched) as (s & E & Hf & _); [intros; exact Logic.I|].
  exists s. split; auto. apply Hf.
Qed.

(** C16.  With the three repairs every execution is free of undefined behaviour and
    linearizable.  Missing: the code as it is. *)
Theorem C16_repaired_linearizable_fixlen_partial : forall prog sched,
  exists s, crun osl repaired (cinit prog) sched = Some s /\ linearizable amap_empty (history s).
Proof.
  intros prog sched.
  destruct (repaired_all osl prog sched) as (s & E & Hf & _); [intros; exact Logic.I|].
  exists s. split; auto. apply Hf.
Qed.

(** C17.  In every state of a calm execution (and of every execution of the repaired code)
    the separators are right. *)
Theorem C17_calm_separators_fixlen_partial : forall prog sched,
  calm osl (cinit prog) sched ->
  exists s, crun osl as_is (cinit prog) sched = Some s /\ seps_right s.
Proof.
  intros prog sched Hc. rewrite (calm_run osl _ _ Hc).
  destruct (repaired_all osl prog sched) as (s & E & Hf & _); [intros; exact Logic.I|].
  exists s. split; auto. apply Hf.
Qed.
Theorem C17_repaired_separators_fixlen_partial : forall prog sched,
  exists s, crun osl repaired (cinit prog) sched = Some s /\ seps_right s.
Proof.
  intros prog sched.
  destruct (repaired_all osl prog sched) as (s & E & Hf & _); [intros; exact Logic.I|].
  exists s. split; auto. apply Hf.
Qed.

(** C36.  A Read that starts after a key was stored misses it only if somebody deletes the
    key, and what it returns has been stored. *)
Theorem C36_calm_reads_fixlen_partial : forall prog sched,
  calm osl (cinit prog) sched ->
  exists s, crun osl as_is (cinit prog) sched = Some s /\
    reads_keep (history s) /\ reads_real (history s).
Proof.
  intros prog sched Hc. rewrite (calm_run osl _ _ Hc).
  destruct (repaired_all osl prog sched) as (s & E & Hf & _); [intros; exact Logic.I|].
  exists s. split; auto. split; apply Hf.
Qed.
Theorem C36_repaired_reads_fixlen_partial : forall prog sched,
  exists s, crun osl repaired (cinit prog) sched = Some s /\
    reads_keep (history s) /\ reads_real (history s).
Proof.
  intros prog sched.
  destruct (repaired_all osl prog sched) as (s & E & Hf & _); [intros; exact Logic.I|].
  exists s. split; auto. split; apply Hf.
Qed.

(** C21.  Without Delete there is no deadlock: when some call is in progress, some thread
    can make a step.  Missing: programs with Delete (refuted below, also for the repaired
    code) and executions that are not calm. *)
Theorem C21_no_deadlock_without_delete_fixlen_partial : forall prog sched,
  no_delete prog -> calm osl (cinit prog) sched ->
  exists s, crun osl as_is (cinit prog) sched = Some s /\ ~ deadlocked osl as_is s.
Proof.
  intros prog sched Hd Hc. rewrite (calm_run osl _ _ Hc).
  destruct (repaired_all osl prog sched) as (s & E & _ & HL); [intros; exact Logic.I|].
  exists s. split; auto. rewrite <- (calm_run osl _ _ Hc) in E. eapply nodel_progress; eauto.
Qed.
Theorem C21_repaired_no_deadlock_without_delete_fixlen_partial : forall prog sched,
  no_delete prog ->
  exists s, crun osl repaired (cinit prog) sched = Some s /\ ~ deadlocked osl repaired s.
Proof.
  intros prog sched Hd.
  destruct (repaired_all osl prog sched) as (s & E & _ & HL); [intros; exact Logic.I|].
  exists s. split; auto. eapply nodel_progress; eauto.
Qed.

(** C33 for concurrent calls: a thread that is between two calls holds no latch. *)
Theorem C33_calm_idle_thread_holds_no_latch_fixlen : forall prog sched,
  calm osl (cinit prog) sched ->
  exists s, crun osl as_is (cinit prog) sched = Some s /\
    forall t, th s t = PIdle -> forall a, six s a <> Some t.
Proof.
  intros prog sched Hc. rewrite (calm_run osl _ _ Hc).
  destruct (repaired_all osl prog sched) as (s & E & Hf & _); [intros; exact Logic.I|].
  exists s. split; auto. apply Hf.
Qed.

End Fix.

(** ** Variable-length nodes *)
Section Var.
Context (P : Params) (O : OrdLaws P) (F : VarSizes P) (G : VarGood P) (osl : bool).
#[local] Instance vops : SLOps P := var_sl_ops osl.
#[local] Instance vlaws : SLLaws P vops := var_sl_laws osl.

(** The keys of all calls are non-empty and at most kMaxKeyLen bytes long. *)
Definition ok_prog (prog : tid -> list call) : Prop :=
  forall t c, In c (prog t) -> 0 < klen (call_key c) <= maxkey.

Lemma prog_valid prog : ok_prog prog -> forall t c, In c (prog t) -> kvalid (call_key c).
Proof. intros Hv t c Hc. exact (Hv t c Hc). Qed.

Theorem C16_calm_linearizable_varlen_partial : forall prog sched,
  ok_prog prog -> calm osl (cinit prog) sched ->
  exists s, crun osl as_is (cinit prog) sched = Some s /\ linearizable amap_empty (history s).
Proof.
  intros prog sched Hv Hc. rewrite (calm_run osl _ _ Hc).
  destruct (repaired_all osl prog sched (prog_valid prog Hv)) as (s & E & Hf & _).
  exists s. split; auto. apply Hf.
Qed.
Theorem C16_repaired_linearizable_varlen_partial : forall prog sched, ok_prog prog ->
  exists s, crun osl repaired (cinit prog) sched = Some s /\ linearizable amap_empty (history s).
Proof.
  intros prog sched Hv. destruct (repaired_all osl prog sched (prog_valid prog Hv)) as (s & E & Hf & _).
  exists s. split; auto. apply Hf.
Qed.
Theorem C17_calm_separators_varlen_partial : forall prog sched,
  ok_prog prog -> calm osl (cinit prog) sched ->
  exists s, crun osl as_is (cinit prog) sched = Some s /\ seps_right s.
Proof.
  intros prog sched Hv Hc. rewrite (calm_run osl _ _ Hc).
  destruct (repaired_all osl prog sched (prog_valid prog Hv)) as (s & E & Hf & _).
  exists s. split; auto. apply Hf.
Qed.
Theorem C17_repaired_separators_varlen_partial : forall prog sched, ok_prog prog ->
  exists s, crun osl repaired (cinit prog) sched = Some s /\ seps_right s.
Proof.
  intros prog sched Hv. destruct (repaired_all osl prog sched (prog_valid prog Hv)) as (s & E & Hf & _).
  exists s. split; auto. apply Hf.
Qed.
Theorem C36_calm_reads_varlen_partial : forall prog sched,
  ok_prog prog -> calm osl (cinit prog) sched ->
  exists s, crun osl as_is (cinit prog) sched = Some s /\
    reads_keep (history s) /\ reads_real (history s).
Proof.
  intros prog sched Hv Hc. rewrite (calm_run osl _ _ Hc).
  destruct (repaired_all osl prog sched (prog_valid prog Hv)) as (s & E & Hf & _).
  exists s. split; auto. split; apply Hf.
Qed.
Theorem C36_repaired_reads_varlen_partial : forall prog sched, ok_prog prog ->
  exists s, crun osl repaired (cinit prog) sched = Some s /\
    reads_keep (history s) /\ reads_real (history s).
Proof.
  intros prog sched Hv. destruct (repaired_all osl prog sched (prog_valid prog Hv)) as (s & E & Hf & _).
  exists s. split; auto. split; apply Hf.
Qed.
Theorem C21_no_deadlock_without_delete_varlen_partial : forall prog sched,
  ok_prog prog -> no_delete prog -> calm osl (cinit prog) sched ->
  exists s, crun osl as_is (cinit prog) sched = Some s /\ ~ deadlocked osl as_is s.
Proof.
  intros prog sched Hv Hd Hc. rewrite (calm_run osl _ _ Hc).
  destruct (repaired_all osl prog sched (prog_valid prog Hv)) as (s & E & _ & HL).
  exists s. split; auto. rewrite <- (calm_run osl _ _ Hc) in E. eapply nodel_progress; eauto.
Qed.
Theorem C21_repaired_no_deadlock_without_delete_varlen_partial : forall prog sched,
  ok_prog prog -> no_delete prog ->
  exists s, crun osl repaired (cinit prog) sched = Some s /\ ~ deadlocked osl repaired s.
Proof.
  intros prog sched Hv Hd. destruct (repaired_all osl prog sched (prog_valid prog Hv)) as (s & E & _ & HL).
  exists s. split; auto. eapply nodel_progress; eauto.
Qed.
Theorem C33_calm_idle_thread_holds_no_latch_varlen : forall prog sched,
  ok_prog prog -> calm osl (cinit prog) sched ->
  exists s, crun osl as_is (cinit prog) sched = Some s /\
    forall t, th s t = PIdle -> forall a, six s a <> Some t.
Proof.
  intros prog sched Hv Hc. rewrite (calm_run osl _ _ Hc).
  destruct (repaired_all osl prog sched (prog_valid prog Hv)) as (s & E & Hf & _).
  exists s. split; auto. apply Hf.
Qed.

End Var.
