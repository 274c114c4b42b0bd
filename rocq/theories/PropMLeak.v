(** C45: the multi-layer trees lose no page, and give every page back once.

    [mreach h r a] (MLeak.v): the child pointers lead from [r] to [a].  [mch s a], [opage s a]:
    the page [a] as it is in memory, [None] when it does not exist (never made, or released).
    [hands_over s t a]: the next step of [t] gives [a] to the garbage collector. *)
From Coq Require Import List Arith Bool Lia.
From Verif Require Import Params Mem Common Spec ConcSpec NodeAbs FixProofs VarModel VarProofs SLIface
  VarSL MLIface FixML VarML TreeState ConcModel ConcLin MConcModel MConcInv MConcSteps MConcMain OLaws
  OConcModel OConcInv OConcSteps OConcMain OConcCalm MLeak PropMConc PropOConc Inst.
Import ListNotations.

Section Any.
Context {P : Params} {O : OrdLaws P} {N : MLOps P} {L : MLLaws P N} {OW : OMLaws P N L}.

Lemma any_pml fx prog sched s : keys_ok prog -> mrun fx (minit prog) sched = Some s ->
  forall a, mch s a <> None <-> mreach (mch s) (mrt s) a.
Proof. intros Hk E. destruct (reach _ _ _ _ Hk E) as (Ls & V). eapply pml_no_leak; eauto. Qed.

Lemma any_oml prog sched s : keys_ok prog -> orun true (oinit prog) sched = Some s ->
  (forall t, oth s t = OIdle) -> forall a, opage s a <> None <-> mreach (opage s) (ort s) a.
Proof.
  intros Hk E. destruct (orun_inv sched _ (oinit_inv prog Hk)) as (s' & E' & Ls & hv & lo & V & G).
  rewrite E in E'. injection E' as <-. intros Hq. apply (oml_no_leak s Ls hv lo V G Hq).
  refine (guarded_idle s _ Hq). eapply guarded_run; [|exact E]. intros u [].
Qed.
Lemma any_oml_calm prog sched s : keys_ok prog -> ocalm (oinit prog) sched = true ->
  orun false (oinit prog) sched = Some s ->
  (forall t, oth s t = OIdle) -> forall a, opage s a <> None <-> mreach (opage s) (ort s) a.
Proof.
  intros Hk Hc E. destruct (calm_reach prog sched s Hk Hc E) as (z & S & I). intros Hq.
  apply (oml_no_leak_calm s z S I Hq).
  refine (guarded_idle s _ Hq). eapply guarded_run; [|exact E]. intros u [].
Qed.
Lemma any_once prog sched s t a : keys_ok prog -> orun true (oinit prog) sched = Some s ->
  hands_over s t a -> ogb s a = None.
Proof.
  intros Hk E. destruct (orun_inv sched _ (oinit_inv prog Hk)) as (s' & E' & Ls & hv & lo & V & G).
  rewrite E in E'. injection E' as <-. eapply oml_once; eauto.
Qed.
Lemma any_once_calm prog sched s t a : keys_ok prog -> ocalm (oinit prog) sched = true ->
  orun false (oinit prog) sched = Some s -> ocalm_at t s = true ->
  hands_over s t a -> ogb s a = None.
Proof.
  intros Hk Hc E Hct. destruct (calm_reach prog sched s Hk Hc E) as (z & S & I). eapply oml_once_calm; eauto.
Qed.

End Any.

(** ** Fixed-length nodes *)
Section Fix.
Context (P : Params) (O : OrdLaws P) (F : FixSizes P) (G : FixMLGood P).
#[local] Instance fops : MLOps P := fix_ml_ops.
#[local] Instance flaws : MLLaws P fops := fix_ml_laws.
#[local] Instance folaws : OMLaws P fops flaws := fix_o_laws.

Lemma fk prog : keys_ok prog.
Proof. intros t c _. exact Logic.I. Qed.

(** C45, BTreePML.  At any moment of any execution up to undefined behaviour, the pages that
    are in memory are those the root leads to. *)
Theorem C45_no_leak_pml_fixlen : forall prog sched s,
  mrun false (minit prog) sched = Some s ->
  forall a, mch s a <> None <-> mreach (mch s) (mrt s) a.
Proof. intros prog sched s. apply any_pml, fk. Qed.

(** C45, BTreeOML.  When no call is running, the pages that are in memory are those the root
    leads to.  Missing: executions that are not calm. *)
Theorem C45_no_leak_calm_fixlen_partial : forall prog sched s,
  ocalm (oinit prog) sched = true -> orun false (oinit prog) sched = Some s ->
  (forall t, oth s t = OIdle) -> forall a, opage s a <> None <-> mreach (opage s) (ort s) a.
Proof. intros prog sched s. apply any_oml_calm, fk. Qed.
Theorem C45_no_leak_repaired_fixlen_partial : forall prog sched s,
  orun true (oinit prog) sched = Some s ->
  (forall t, oth s t = OIdle) -> forall a, opage s a <> None <-> mreach (opage s) (ort s) a.
Proof. intros prog sched s. apply any_oml, fk. Qed.

(** C45, BTreeOML.  A page that is given to the collector has not been given to it before. *)
Theorem C45_once_calm_fixlen_partial : forall prog sched s t a,
  ocalm (oinit prog) sched = true -> orun false (oinit prog) sched = Some s -> ocalm_at t s = true ->
  hands_over s t a -> ogb s a = None.
Proof. intros prog sched s t a. apply any_once_calm, fk. Qed.
Theorem C45_once_repaired_fixlen_partial : forall prog sched s t a,
  orun true (oinit prog) sched = Some s -> hands_over s t a -> ogb s a = None.
Proof. intros prog sched s t a. apply any_once, fk. Qed.
End Fix.

(** ** Variable-length nodes *)
Section Var.
Context (P : Params) (O : OrdLaws P) (F : VarSizes P) (G : VarGood P) (GM : VarMLGood P).
#[local] Instance vops : MLOps P := var_ml_ops.
#[local] Instance vlaws : MLLaws P vops := var_ml_laws.
#[local] Instance volaws : OMLaws P vops vlaws := var_o_laws.

Lemma vk prog : ok_prog P prog -> keys_ok prog.
Proof. intros Hv t c Hc. exact (Hv t c Hc). Qed.

(** C45, BTreePML.  At any moment of any execution up to undefined behaviour, the pages that
    are in memory are those the root leads to. *)
Theorem C45_no_leak_pml_varlen : forall prog sched s, ok_prog P prog ->
  mrun false (minit prog) sched = Some s ->
  forall a, mch s a <> None <-> mreach (mch s) (mrt s) a.
Proof. intros prog sched s Hv. apply any_pml, (vk _ Hv). Qed.

(** C45, BTreeOML.  When no call is running, the pages that are in memory are those the root
    leads to.  Missing: executions that are not calm. *)
Theorem C45_no_leak_calm_varlen_partial : forall prog sched s, ok_prog P prog ->
  ocalm (oinit prog) sched = true -> orun false (oinit prog) sched = Some s ->
  (forall t, oth s t = OIdle) -> forall a, opage s a <> None <-> mreach (opage s) (ort s) a.
Proof. intros prog sched s Hv. apply any_oml_calm, (vk _ Hv). Qed.
Theorem C45_no_leak_repaired_varlen_partial : forall prog sched s, ok_prog P prog ->
  orun true (oinit prog) sched = Some s ->
  (forall t, oth s t = OIdle) -> forall a, opage s a <> None <-> mreach (opage s) (ort s) a.
Proof. intros prog sched s Hv. apply any_oml, (vk _ Hv). Qed.

(** C45, BTreeOML.  A page that is given to the collector has not been given to it before. *)
Theorem C45_once_calm_varlen_partial : forall prog sched s t a, ok_prog P prog ->
  ocalm (oinit prog) sched = true -> orun false (oinit prog) sched = Some s -> ocalm_at t s = true ->
  hands_over s t a -> ogb s a = None.
Proof. intros prog sched s t a Hv. apply any_once_calm, (vk _ Hv). Qed.
Theorem C45_once_repaired_varlen_partial : forall prog sched s t a, ok_prog P prog ->
  orun true (oinit prog) sched = Some s -> hands_over s t a -> ogb s a = None.
Proof. intros prog sched s t a Hv. apply any_once, (vk _ Hv). Qed.
End Var.


(** ** Non-vacuity

    A writer fills the tree and empties most of it again while another one reads and writes.
    At the end nobody is in a call; pages have been given to the collector, and pages are left. *)
Definition fill_prog {P : Params} (mk : nat -> K) (one : V) (n m : nat) (t : tid) : list call :=
  match t with
  | 0 => map (fun i => CInsert (mk (10 * i)) one) (seq 1 n) ++ map (fun i => CDelete (mk (10 * i))) (seq 1 m)
  | 1 => map (fun i => CWrite (mk (10 * i + 1)) one) (seq 1 4) ++ map (fun i => CRead (mk (10 * i))) (seq 1 4)
  | _ => []
  end.
Definition fill_sched : list tid := concat (repeat [0; 1] 80) ++ repeat 1 200 ++ repeat 0 600.
Definition counts {P : Params} {N : MLOps P} (s : ocfg) :=
  (negb (obusy s 0 || obusy s 1), retired s,
   length (filter (fun a => match opage s a with Some _ => true | None => false end) (seq 0 (ofr s)))).
Definition mcounts {P : Params} {N : MLOps P} (s : mcfg) :=
  (mfr s, length (filter (fun a => match mch s a with Some _ => true | None => false end) (seq 0 (mfr s)))).
Lemma fill_fixlen :
  let p := @fill_prog tiny (fun x => x) 1 16 16 in
  ocalm (N := fix_ml_ops) (oinit p) fill_sched = true /\
  option_map counts (@orun tiny fix_ml_ops false (oinit p) fill_sched) = Some (true, 1, 6) /\
  option_map counts (@orun tiny fix_ml_ops true (oinit p) fill_sched) = Some (true, 1, 6) /\
  option_map mcounts (@mrun tiny fix_ml_ops false (minit p) fill_sched) = Some (8, 6).
Proof. vm_compute. repeat split; reflexivity. Qed.
Lemma fill_varlen :
  let p := @fill_prog mvtiny (fun x => x) 1 16 16 in
  ocalm (N := var_ml_ops) (oinit p) fill_sched = true /\
  option_map counts (@orun mvtiny var_ml_ops false (oinit p) fill_sched) = Some (true, 2, 4) /\
  option_map counts (@orun mvtiny var_ml_ops true (oinit p) fill_sched) = Some (true, 2, 4) /\
  option_map mcounts (@mrun mvtiny var_ml_ops false (minit p) fill_sched) = Some (7, 4).
Proof. vm_compute. repeat split; reflexivity. Qed.
Lemma fill_prog_ok : ok_prog mvtiny (@fill_prog mvtiny (fun x => x) 1 16 16).
Proof.
  intros t c Hc. destruct t as [|[|]]; cbn in Hc;
    repeat (destruct Hc as [<-|Hc]; [vm_compute; lia|]); destruct Hc.
Qed.

Print Assumptions C45_no_leak_pml_fixlen.
Print Assumptions C45_no_leak_calm_fixlen_partial.
Print Assumptions C45_no_leak_repaired_fixlen_partial.
Print Assumptions C45_once_calm_fixlen_partial.
Print Assumptions C45_once_repaired_fixlen_partial.
Print Assumptions C45_no_leak_pml_varlen.
Print Assumptions C45_no_leak_calm_varlen_partial.
Print Assumptions C45_no_leak_repaired_varlen_partial.
Print Assumptions C45_once_calm_varlen_partial.
Print Assumptions C45_once_repaired_varlen_partial.
