(** Every call and every scan of BTreePML returns.

    [qrun false (qinit prog scans) sched] (MScanModel.v) executes the model of the code from
    a fresh tree: caller [t] makes the calls [prog t], scanner [u] the scans [scans u].  Here
    the schedule is infinite, [sched i] is the [i]-th move, and all that is asked of it is that
    it never forgets a caller or a scanner for good ([never_forgets]); it may let others move
    any number of times in between, and clients may destroy iterators whenever they like.
    Callers and scanners retry whenever they find a latch taken, go back to the root after a
    split, a merge or a new root, and merge or split on their way down; the theorems say that
    none of this goes on for ever: after finitely many moves every call of every caller has been
    answered and every scan that its client has not given up has reached its end.  "Answered"
    is counted in the history alone. *)
From Coq Require Import List Arith Bool Lia.
From Verif Require Import Params Mem Common Spec ConcSpec ScanSpec NodeAbs FixProofs VarModel VarProofs SLIface
  VarSL BaseIface MLIface FixML VarML TreeState ConcModel ConcLin MConcModel MConcInv MConcSteps MConcMain
  CScanModel ScanHist PropCScan PropMConc MScanModel MScanProofs MScanMain MScanHold PropMScan MTermProofs MTermMain Inst.
Import ListNotations.

(** The answers to the calls of caller [t], and what the finished scans of [u] returned. *)
Definition answers {P : Params} (t : tid) (h : list (marked event)) : list (@ret P) :=
  flat_map (fun e => match e with Ev (ERes u r) => if Nat.eqb u t then [r] else [] | _ => [] end) h.
Definition ended {P : Params} (u : tid) (h : list (marked event)) : list (list (K * V)) :=
  flat_map (fun e => match e with Mk (MEnd w l) => if Nat.eqb w u then [l] else [] | _ => [] end) h.

(** Callers below [n] and scanners below [m] get their turn again and again. *)
Definition never_forgets (n m : nat) (sched : nat -> qmove) : Prop :=
  (forall t, t < n -> forall i, exists j, i <= j /\ sched j = QCall t) /\
  (forall u, u < m -> forall i, exists j, i <= j /\ sched j = QScan u false).
Definition first_moves (sched : nat -> qmove) (k : nat) : list qmove := map sched (seq 0 k).
(** [n] callers and [m] scanners have something to do. *)
Definition only {P : Params} (n m : nat) (prog : tid -> list call) (scans : tid -> list (bound * bound)) : Prop :=
  (forall t, n <= t -> prog t = []) /\ (forall u, m <= u -> scans u = []).
(** All calls have been answered, and all scans have ended that nobody gave up. *)
Definition all_answered {P : Params} (prog : tid -> list call) (scans : tid -> list (bound * bound))
    (sched : nat -> qmove) (h : list (marked event)) : Prop :=
  (forall t, length (answers t h) = length (prog t)) /\
  (forall u, (forall i, sched i <> QScan u true) -> length (ended u h) = length (scans u)).

Section Any.
Context {P : Params} {O : OrdLaws P} {N : MLOps P} {L : MLLaws P N}.

Lemma answers_count t (h : list (marked event)) : length (answers t h) = nans t h.
Proof.
  induction h as [|e h IH]; [reflexivity|]. unfold nans in *. cbn [answers flat_map filter].
  rewrite app_length. change (flat_map _ h) with (answers t h). rewrite IH.
  destruct e as [[]|]; cbn; auto. destruct (Nat.eqb _ _); reflexivity.
Qed.
Lemma ended_count u (h : list (marked event)) : length (ended u h) = nend u h.
Proof.
  induction h as [|e h IH]; [reflexivity|]. unfold nend in *. cbn [ended flat_map filter].
  rewrite app_length. change (flat_map _ h) with (ended u h). rewrite IH.
  destruct e as [|[]]; cbn; auto. destruct (Nat.eqb _ _); reflexivity.
Qed.
Lemma never_fair n m sched : never_forgets n m sched -> fair n m sched.
Proof. intros (H1 & H2) [t|u b]; cbn; [auto|]. intros (Hu & ->). auto. Qed.

Lemma any_answered fx n m prog scans sched : keys_ok prog -> bounds_ok scans -> only n m prog scans ->
  never_forgets n m sched ->
  exists k, match qrun fx (qinit prog scans) (first_moves sched k) with
            | Some s => all_answered prog scans sched (qhistory s)
            | None => fx = false
            end.
Proof.
  intros Hk Hb (H1 & H2) HF.
  destruct (fair_answered fx n m sched prog scans Hk Hb H1 H2 (never_fair _ _ _ HF)) as (k & Q). exists k. unfold first_moves.
  destruct (qrun fx _ _) as [s|]; [|exact Q]. destruct Q as (_ & Q1 & Q2).
  split; intros; rewrite ?answers_count, ?ended_count; auto.
Qed.
Lemma any_answered_repaired n m prog scans sched : keys_ok prog -> bounds_ok scans -> only n m prog scans ->
  never_forgets n m sched ->
  exists k s, qrun true (qinit prog scans) (first_moves sched k) = Some s /\ all_answered prog scans sched (qhistory s).
Proof.
  intros Hk Hb Ho HF. destruct (any_answered true n m prog scans sched Hk Hb Ho HF) as (k & Q). exists k.
  destruct (qrun true _ _) as [s|]; [eauto|discriminate].
Qed.
Lemma any_answered_calm n m prog scans sched : keys_ok prog -> bounds_ok scans -> only n m prog scans ->
  never_forgets n m sched -> (forall k, qcalm (qinit prog scans) (first_moves sched k) = true) ->
  exists k s, qrun false (qinit prog scans) (first_moves sched k) = Some s /\ all_answered prog scans sched (qhistory s).
Proof.
  intros Hk Hb Ho HF Hc. destruct (any_answered_repaired n m prog scans sched Hk Hb Ho HF) as (k & s & E & Q).
  exists k, s. split; [|exact Q]. now rewrite (qcalm_run _ _ (Hc k)).
Qed.

(** An execution that was calm until everybody was done is calm for ever. *)
Lemma qcalm_app : forall a b s, qcalm s (a ++ b) =
  qcalm s a && match qrun false s a with Some s' => qcalm s' b | None => true end.
Proof.
  induction a as [|v a IH]; intros b s; cbn [app qcalm qrun]; [reflexivity|].
  rewrite <- andb_assoc. f_equal. destruct (qstep false v s); auto.
Qed.
Lemma done_blocks s v : all_done s -> qstep false v s = QBlock /\ qcalm_at v s = true.
Proof.
  intros (H1 & H2). destruct v as [t|u b].
  - destruct (H1 t) as (E1 & E2). cbn. unfold mstepr. rewrite E1, E2. auto.
  - destruct (H2 u) as (E1 & E2). split; [|reflexivity]. cbn [qstep]. unfold scanr_step. rewrite E1, E2. reflexivity.
Qed.
Lemma done_calm s : all_done s -> forall sched, qcalm s sched = true.
Proof.
  intros Hd. induction sched as [|v sched IH]; [reflexivity|]. cbn [qcalm].
  destruct (done_blocks s v Hd) as (-> & ->). exact IH.
Qed.
Lemma quiet_run n m : forall sched s s' Ls, qinv false s Ls -> quiet n m s -> qrun false s sched = Some s' -> quiet n m s'.
Proof.
  induction sched as [|v sched IH]; intros s s' Ls Q HQ E; cbn [qrun] in E; [injection E as <-; auto|].
  destruct (qstep false v s) as [s1| |] eqn:Es; [|eauto|discriminate].
  destruct (step_down false n m s Ls v s1 Q HQ Es) as (Ls' & Q1 & Q2 & _). eauto.
Qed.
Definition idle_below (n m : nat) (s : qcfg) : bool :=
  forallb (fun t => negb (mbusy s t)) (seq 0 n) && forallb (fun u => negb (qbusy s u)) (seq 0 m).
Lemma calm_for_ever n m prog scans sched K : keys_ok prog -> bounds_ok scans -> only n m prog scans ->
  qcalm (qinit prog scans) (first_moves sched K) = true ->
  option_map (idle_below n m) (qrun false (qinit prog scans) (first_moves sched K)) = Some true ->
  forall k, qcalm (qinit prog scans) (first_moves sched k) = true.
Proof.
  intros Hk Hb (H1 & H2) Hc E k. destruct (qrun false _ _) as [s|] eqn:Er; [|discriminate]. cbn in E. injection E as E.
  apply andb_true_iff in E as (E1 & E2). rewrite forallb_forall in E1, E2.
  destruct (qinit_inv false prog scans Hk Hb) as (Ls & Q).
  destruct (quiet_run n m _ _ _ _ Q (conj (fun t Ht => conj eq_refl (H1 t Ht)) (fun u Hu => conj eq_refl (H2 u Hu))) Er) as (Q1 & Q2).
  assert (Hd : all_done s).
  { split.
    - intros t. destruct (le_lt_dec n t) as [|Ht]; [auto|]. specialize (E1 t). rewrite in_seq in E1.
      specialize (E1 ltac:(lia)). unfold mbusy in E1. destruct (mth (qb s) t), (mpg (qb s) t); try discriminate. auto.
    - intros t. destruct (le_lt_dec m t) as [|Ht]; [auto|]. specialize (E2 t). rewrite in_seq in E2.
      specialize (E2 ltac:(lia)). unfold qbusy in E2. destruct (qth s t), (qq s t); try discriminate. auto. }
  unfold first_moves in *. destruct (le_lt_dec K k) as [Hl|Hl].
  - replace k with (K + (k - K)) by lia. rewrite seq_app, map_app, qcalm_app, Hc, Er. now apply done_calm.
  - replace K with (k + (K - k)) in Hc by lia. rewrite seq_app, map_app, qcalm_app in Hc.
    now apply andb_true_iff in Hc as (Hc & _).
Qed.
End Any.

(** ** Fixed-length nodes *)
Section Fix.
Context (P : Params) (O : OrdLaws P) (F : FixSizes P) (G : FixMLGood P).
#[local] Instance fops : MLOps P := fix_ml_ops.
#[local] Instance flaws : MLLaws P fops := fix_ml_laws.
Lemma fkeys prog : keys_ok prog.
Proof. intros t c _. exact Logic.I. Qed.
Lemma fbounds scans : bounds_ok scans.
Proof. intros u lo hi _. split; intros k c _; exact Logic.I. Qed.

(** C47.  Everybody gets an answer.  Missing: executions in which a reader or a scan uses the
    root page after it has been released (C43, C20). *)
Theorem C47_everybody_is_answered_pml_fixlen_partial : forall n m prog scans sched,
  only n m prog scans -> never_forgets n m sched ->
  exists k, match qrun false (qinit prog scans) (first_moves sched k) with
            | Some s => all_answered prog scans sched (qhistory s)
            | None => True
            end.
Proof.
  intros n m prog scans sched Ho HF. destruct (any_answered false n m prog scans sched) as (k & Q); auto using fkeys, fbounds.
  exists k. destruct (qrun false _ _); auto.
Qed.
(** ShrinkTreeIfNeeded meets no reader and no scan at the root: everybody gets an answer. *)
Theorem C47_calm_everybody_is_answered_pml_fixlen_partial : forall n m prog scans sched,
  only n m prog scans -> never_forgets n m sched ->
  (forall k, qcalm (qinit prog scans) (first_moves sched k) = true) ->
  exists k s, qrun false (qinit prog scans) (first_moves sched k) = Some s /\ all_answered prog scans sched (qhistory s).
Proof. intros n m prog scans sched. apply any_answered_calm; auto using fkeys, fbounds. Qed.
(** The repaired tree: in all executions. *)
Theorem C47_repaired_everybody_is_answered_pml_fixlen_partial : forall n m prog scans sched,
  only n m prog scans -> never_forgets n m sched ->
  exists k s, qrun true (qinit prog scans) (first_moves sched k) = Some s /\ all_answered prog scans sched (qhistory s).
Proof. intros n m prog scans sched. apply any_answered_repaired; auto using fkeys, fbounds. Qed.
End Fix.

(** ** Variable-length nodes *)
Section Var.
Context (P : Params) (O : OrdLaws P) (F : VarSizes P) (G : VarGood P) (GM : VarMLGood P).
#[local] Instance vops : MLOps P := var_ml_ops.
#[local] Instance vlaws : MLLaws P vops := var_ml_laws.
Lemma vkeys prog : ok_prog P prog -> keys_ok prog.
Proof. intros Hv t c Hc. exact (Hv t c Hc). Qed.
Lemma vbounds scans : ok_scans scans -> bounds_ok scans.
Proof. intros Hs u lo hi H. exact (Hs u lo hi H). Qed.

(** C47.  Everybody gets an answer.  Missing: executions in which a reader or a scan uses the
    root page after it has been released (C43, C20). *)
Theorem C47_everybody_is_answered_pml_varlen_partial : forall n m prog scans sched, ok_prog P prog -> ok_scans scans ->
  only n m prog scans -> never_forgets n m sched ->
  exists k, match qrun false (qinit prog scans) (first_moves sched k) with
            | Some s => all_answered prog scans sched (qhistory s)
            | None => True
            end.
Proof.
  intros n m prog scans sched Hp Hq Ho HF. destruct (any_answered false n m prog scans sched) as (k & Q); auto using vkeys, vbounds.
  exists k. destruct (qrun false _ _); auto.
Qed.
(** ShrinkTreeIfNeeded meets no reader and no scan at the root: everybody gets an answer. *)
Theorem C47_calm_everybody_is_answered_pml_varlen_partial : forall n m prog scans sched, ok_prog P prog -> ok_scans scans ->
  only n m prog scans -> never_forgets n m sched ->
  (forall k, qcalm (qinit prog scans) (first_moves sched k) = true) ->
  exists k s, qrun false (qinit prog scans) (first_moves sched k) = Some s /\ all_answered prog scans sched (qhistory s).
Proof. intros n m prog scans sched Hp Hq. apply any_answered_calm; auto using vkeys, vbounds. Qed.
(** The repaired tree: in all executions. *)
Theorem C47_repaired_everybody_is_answered_pml_varlen_partial : forall n m prog scans sched, ok_prog P prog -> ok_scans scans ->
  only n m prog scans -> never_forgets n m sched ->
  exists k s, qrun true (qinit prog scans) (first_moves sched k) = Some s /\ all_answered prog scans sched (qhistory s).
Proof. intros n m prog scans sched Hp Hq. apply any_answered_repaired; auto using vkeys, vbounds. Qed.
End Var.

(** ** Non-vacuity

    Four callers and two scanners take turns for ever; the tree grows and shrinks.  The
    schedule forgets nobody, and the execution is calm. *)
Definition turns (i : nat) : qmove :=
  match i mod 6 with
  | 0 => QCall 0 | 1 => QCall 1 | 2 => QScan 0 false | 3 => QCall 2 | 4 => QCall 3 | _ => QScan 1 false
  end.
Lemma turns_never_forget : never_forgets 4 2 turns.
Proof.
  assert (H : forall r i, r < 6 -> exists j, i <= j /\ j mod 6 = r).
  { intros r i Hr. exists (i * 6 + r). split; [lia|]. rewrite Nat.add_comm, Nat.mod_add by lia. now apply Nat.mod_small. }
  split; intros x Hx i.
  - destruct x as [|[|[|[|x]]]]; [| | | |lia].
    + destruct (H 0 i) as (j & Hj & E); [lia|]. exists j. unfold turns. now rewrite E.
    + destruct (H 1 i) as (j & Hj & E); [lia|]. exists j. unfold turns. now rewrite E.
    + destruct (H 3 i) as (j & Hj & E); [lia|]. exists j. unfold turns. now rewrite E.
    + destruct (H 4 i) as (j & Hj & E); [lia|]. exists j. unfold turns. now rewrite E.
  - destruct x as [|[|x]]; [| |lia].
    + destruct (H 2 i) as (j & Hj & E); [lia|]. exists j. unfold turns. now rewrite E.
    + destruct (H 5 i) as (j & Hj & E); [lia|]. exists j. unfold turns. now rewrite E.
Qed.
Definition few_prog {P : Params} (mk : nat -> K) (one : V) (t : tid) : list call :=
  match t with
  | 0 => map (fun i => CInsert (mk (10 * i)) one) (seq 1 8) ++ map (fun i => CDelete (mk (10 * i))) (seq 1 8)
  | 1 => map (fun i => CWrite (mk (10 * i + 1)) one) (seq 1 4) ++ map (fun i => CDelete (mk (10 * i + 1))) (seq 1 4)
  | 2 => map (fun i => CInsert (mk (10 * i + 2)) one) (seq 1 4) ++ map (fun i => CUpdate (mk (10 * i + 2)) one) (seq 1 4)
  | 3 => map (fun i => CRead (mk (10 * i))) (seq 1 10)
  | _ => []
  end.
Definition few_scans {P : Params} (mk : nat -> K) (u : tid) : list (bound * bound) :=
  match u with
  | 0 => repeat (None, None) 6
  | 1 => repeat (Some (mk 25, true), Some (mk 92, false)) 6
  | _ => []
  end.
Lemma few_only {P : Params} mk one : only 4 2 (few_prog mk one) (few_scans mk).
Proof.
  split; [intros [|[|[|[|t]]]] H|intros [|[|u]] H]; try (exfalso; lia); reflexivity.
Qed.
Lemma few_tiny_mlgood : FixMLGood tiny.
Proof. split; vm_compute; lia. Qed.
Lemma few_mvtiny_mlgood : VarMLGood mvtiny.
Proof. split; vm_compute; lia. Qed.

Lemma few_calm_fixlen : forall k,
  qcalm (N := fix_ml_ops) (qinit (few_prog (P := tiny) (fun x => x) 1) (few_scans (P := tiny) (fun x => x)))
    (first_moves turns k) = true.
Proof.
  apply (calm_for_ever (O := tiny_ord) (L := @fix_ml_laws tiny tiny_ord tiny_sizes few_tiny_mlgood) 4 2 _ _ turns 1200).
  - intros t c _. exact Logic.I.
  - intros u lo hi _. split; intros k c _; exact Logic.I.
  - apply few_only.
  - vm_compute. reflexivity.
  - vm_compute. reflexivity.
Qed.
Lemma few_ok_prog : ok_prog mvtiny (few_prog (P := mvtiny) (fun x => x) 1).
Proof. intros [|[|[|[|t]]]] c Hc; cbn in Hc; repeat destruct Hc as [<-|Hc]; try tauto; vm_compute; lia. Qed.
Lemma few_ok_scans : ok_scans (few_scans (P := mvtiny) (fun x => x)).
Proof.
  intros [|[|u]] lo hi H; cbn in H; repeat destruct H as [[= <- <-]|H]; try tauto;
    split; intros k c E; try discriminate; injection E as <- <-; vm_compute; lia.
Qed.
Lemma few_calm_varlen : forall k,
  qcalm (N := var_ml_ops) (qinit (few_prog (P := mvtiny) (fun x => x) 1) (few_scans (P := mvtiny) (fun x => x)))
    (first_moves turns k) = true.
Proof.
  apply (calm_for_ever (O := mvtiny_ord)
    (L := @var_ml_laws mvtiny mvtiny_ord mvtiny_sizes mvtiny_good few_mvtiny_mlgood) 4 2 _ _ turns 1200).
  - exact few_ok_prog.
  - exact few_ok_scans.
  - apply few_only.
  - vm_compute. reflexivity.
  - vm_compute. reflexivity.
Qed.
(** So the code answers everybody here; a scanner whose client gives up is the only exception. *)
Example few_answered_fixlen : exists k s,
  fix_qrun tiny false (qinit (few_prog (P := tiny) (fun x => x) 1) (few_scans (P := tiny) (fun x => x))) (first_moves turns k) = Some s /\
  all_answered (few_prog (P := tiny) (fun x => x) 1) (few_scans (P := tiny) (fun x => x)) turns (qhistory s).
Proof.
  apply (C47_calm_everybody_is_answered_pml_fixlen_partial tiny tiny_ord tiny_sizes few_tiny_mlgood 4 2).
  - apply few_only.
  - apply turns_never_forget.
  - apply few_calm_fixlen.
Qed.
Example few_answered_varlen : exists k s,
  var_qrun mvtiny false (qinit (few_prog (P := mvtiny) (fun x => x) 1) (few_scans (P := mvtiny) (fun x => x))) (first_moves turns k) = Some s /\
  all_answered (few_prog (P := mvtiny) (fun x => x) 1) (few_scans (P := mvtiny) (fun x => x)) turns (qhistory s).
Proof.
  apply (C47_calm_everybody_is_answered_pml_varlen_partial mvtiny mvtiny_ord mvtiny_sizes mvtiny_good few_mvtiny_mlgood 4 2).
  - apply few_ok_prog.
  - apply few_ok_scans.
  - apply few_only.
  - apply turns_never_forget.
  - apply few_calm_varlen.
Qed.
(** What the scans of that execution returned: they ran while the tree grew and shrank. *)
Example few_scans_fixlen :
  option_map (fun s => (map (fun l => length l) (ended 0 (qhistory s)), map (fun l => length l) (ended 1 (qhistory s))))
    (fix_qrun tiny false (qinit (few_prog (P := tiny) (fun x => x) 1) (few_scans (P := tiny) (fun x => x))) (first_moves turns 1200))
  = Some ([0; 2; 4; 6; 8; 9], [0; 0; 0; 0; 2; 3]).
Proof. vm_compute. reflexivity. Qed.

Print Assumptions C47_everybody_is_answered_pml_fixlen_partial.
Print Assumptions C47_calm_everybody_is_answered_pml_fixlen_partial.
Print Assumptions C47_repaired_everybody_is_answered_pml_fixlen_partial.
Print Assumptions C47_everybody_is_answered_pml_varlen_partial.
Print Assumptions C47_calm_everybody_is_answered_pml_varlen_partial.
Print Assumptions C47_repaired_everybody_is_answered_pml_varlen_partial.
