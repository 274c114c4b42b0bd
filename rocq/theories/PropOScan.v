(** C24 and C46 for BTreeOML: scans that run while other threads use the tree.

    [urun false (uinit prog scans) sched] (OScanModel.v) executes the model of the code from a
    fresh tree: thread [t] makes the calls [prog t] and the scans [scans t]; [sched] names
    who moves next, a caller ([UCall t]), a scanner ([UScan u chk]; [chk = false]: the version
    check fails although the version has not moved) or a client that destroys its iterator
    before the scan is over ([UStop u]).  [None] is undefined behaviour, i.e. the use of a
    page that may have been released, or of bytes outside a node.  [urun true] is the tree
    with the two repairs of PropOConc.v; the iterator is the same.
    [scan_linearizable], [scans_sorted], [scans_keep] and [scans_real] are defined in
    ScanSpec.v and ScanHist.v from the history of calls and scans alone.

    [always fx half_calm] (OScanMain.v): nobody looks at a half-finished Merge or TryShrinkTree.
    [always fx scan_calm]: no scan takes the end of its range from a page that has changed
    since its begin position was taken, and no scan that has not read any record yet arrives
    at a removed leaf. *)
From Coq Require Import List Arith Bool Lia Sorted.
From Verif Require Import Params Mem Common Spec ConcSpec ScanSpec NodeAbs FixModel FixProofs VarModel
  VarProofs SLIface FixSL VarSL BaseIface MLIface FixML VarML IterModel TreeState ConcModel ConcLin ConcHist
  MConcModel OLaws OConcModel OConcInv OConcSteps OConcMain OConcCalm CScanModel CScanLin ScanHist
  MScanProofs MLeak OScanModel OScanProofs OScanMain PropMConc PropConc PropCScan PropOConc Inst.
Import ListNotations.

Section Any.
Context {P : Params} {O : OrdLaws P} {N : MLOps P} {L : MLLaws P N} {OW : OMLaws P N L}.

Definition bounds_ok (scans : tid -> list (bound * bound)) : Prop :=
  forall u lo hi, In (lo, hi) (scans u) -> mvb lo /\ mvb hi.

Lemma reach_repaired cl prog scans sched : keys_ok prog -> bounds_ok scans ->
  (cl = true -> always true scan_calm (uinit prog scans) sched = true) ->
  exists s Ls hv lw, urun true (uinit prog scans) sched = Some s /\ uinv cl s Ls hv lw.
Proof.
  intros Hk Hb Hc. destruct (uinit_inv cl prog scans Hk Hb) as (Ls & hv & lw & Q). eapply urun_inv; eauto.
Qed.
Lemma reach_calm cl prog scans sched : keys_ok prog -> bounds_ok scans ->
  always false half_calm (uinit prog scans) sched = true ->
  (cl = true -> always false scan_calm (uinit prog scans) sched = true) ->
  exists s z Ls hv lw, urun false (uinit prog scans) sched = Some s /\ usim s z /\ uinv cl z Ls hv lw.
Proof.
  intros Hk Hb Hh Hc. destruct (uinit_inv cl prog scans Hk Hb) as (Ls & hv & lw & Q).
  eapply ucalm_run; eauto. apply usim_init.
Qed.

Lemma any_scans_repaired prog scans sched : keys_ok prog -> bounds_ok scans ->
  always true scan_calm (uinit prog scans) sched = true ->
  exists s, urun true (uinit prog scans) sched = Some s /\ scans_fine (uhistory s).
Proof.
  intros Hk Hb Hc. destruct (reach_repaired true prog scans sched Hk Hb (fun _ => Hc)) as (s & Ls & hv & lw & E & Q).
  exists s. split; [auto|]. apply (fine_of (O := O)). exact (uinv_scans true _ Ls hv lw eq_refl Q).
Qed.
Lemma any_scans_calm prog scans sched : keys_ok prog -> bounds_ok scans ->
  always false half_calm (uinit prog scans) sched = true ->
  always false scan_calm (uinit prog scans) sched = true ->
  exists s, urun false (uinit prog scans) sched = Some s /\ scans_fine (uhistory s).
Proof.
  intros Hk Hb Hh Hc. destruct (reach_calm true prog scans sched Hk Hb Hh (fun _ => Hc)) as (s & z & Ls & hv & lw & E & S & Q).
  exists s. split; [auto|]. apply (fine_of (O := O)). unfold uhistory. rewrite <- (us_h _ _ S). exact (uinv_scans true _ Ls hv lw eq_refl Q).
Qed.

Lemma mevents_calls T : unmark (mevents T) = events (unmark T).
Proof. induction T as [|[[]|] T IH]; cbn; congruence. Qed.

(** The calls are linearizable, whatever the scans do. *)
Lemma any_safe_repaired prog scans sched : keys_ok prog -> bounds_ok scans ->
  exists s, urun true (uinit prog scans) sched = Some s /\ linearizable amap_empty (unmark (uhistory s)).
Proof.
  intros Hk Hb. destruct (reach_repaired false prog scans sched Hk Hb) as (s & Ls & hv & lw & E & Q); [discriminate|].
  exists s. split; [auto|]. unfold uhistory. rewrite mevents_calls, <- (u_log _ _ _ _ _ Q).
  apply jtrace_linearizable. apply (u_base _ _ _ _ _ Q).
Qed.
Lemma any_safe_calm prog scans sched : keys_ok prog -> bounds_ok scans ->
  always false half_calm (uinit prog scans) sched = true ->
  exists s, urun false (uinit prog scans) sched = Some s /\ linearizable amap_empty (unmark (uhistory s)).
Proof.
  intros Hk Hb Hh. destruct (reach_calm false prog scans sched Hk Hb Hh) as (s & z & Ls & hv & lw & E & S & Q); [discriminate|].
  exists s. split; [auto|]. unfold uhistory. rewrite <- (us_h _ _ S), mevents_calls, <- (u_log _ _ _ _ _ Q).
  apply jtrace_linearizable. apply (u_base _ _ _ _ _ Q).
Qed.

(** An open iterator takes every next step without waiting. *)
Lemma any_goes u chk s : uth s u <> UIdle -> scano_step u chk s <> UBlock.
Proof.
  intros Hu. unfold scano_step, ubind. destruct (uth s u); [congruence|..];
    repeat match goal with |- context [match ?x with _ => _ end] =>
      match type of x with ures => fail 1 | _ => destruct x end end; discriminate.
Qed.

(** No call waits for an iterator: as long as there are calls, some call can go on. *)
Lemma any_calls_repaired prog scans sched s t : keys_ok prog -> bounds_ok scans ->
  urun true (uinit prog scans) sched = Some s -> oth (ub s) t <> OIdle ->
  exists v s', oth (ub s) v <> OIdle /\ ustep true (UCall v) s = UOk s'.
Proof.
  intros Hk Hb E Ht. destruct (reach_repaired false prog scans sched Hk Hb) as (s' & Ls & hv & lw & E' & Q); [discriminate|].
  rewrite E in E'. injection E' as <-. eapply call_goes; eauto.
Qed.
Lemma any_calls_calm prog scans sched s t : keys_ok prog -> bounds_ok scans ->
  always false half_calm (uinit prog scans) sched = true ->
  urun false (uinit prog scans) sched = Some s -> oth (ub s) t <> OIdle ->
  exists v s', oth (ub s) v <> OIdle /\ ustep false (UCall v) s = UOk s'.
Proof.
  intros Hk Hb Hh E Ht. destruct (reach_calm false prog scans sched Hk Hb Hh) as (s' & z & Ls & hv & lw & E' & S & Q); [discriminate|].
  rewrite E in E'. injection E' as <-.
  assert (I : inv (ub z)) by (exists Ls, hv, lw; split; apply Q).
  destruct (calm_progress (ub s) (ub z) t (us_base _ _ S) I Ht) as (v & l & c & Hv & Ev).
  exists v. eexists. split; [auto|]. cbn [ustep].
  rewrite <- (us_th _ _ S), (scanner_idle _ _ _ _ _ v Q), Ev; [reflexivity|].
  now rewrite (sim_idle _ _ v (us_base _ _ S)).
Qed.

(** All calls have returned and all iterators are gone: exactly the tree is left. *)
Lemma any_noleak_repaired prog scans sched s : keys_ok prog -> bounds_ok scans ->
  urun true (uinit prog scans) sched = Some s ->
  (forall t, oth (ub s) t = OIdle) -> (forall u, uth s u = UIdle) ->
  forall a, opage (ub s) a <> None <-> mreach (opage (ub s)) (ort (ub s)) a.
Proof.
  intros Hk Hb E H1 H2. destruct (reach_repaired false prog scans sched Hk Hb) as (s' & Ls & hv & lw & E' & Q); [discriminate|].
  rewrite E in E'. injection E' as <-.
  apply (oml_no_leak (ub s) Ls hv lw (u_base _ _ _ _ _ Q) (u_garb _ _ _ _ _ Q) H1).
  apply uguarded_idle; auto. eapply uguarded_run; [|exact E]. intros u [].
Qed.
Lemma any_noleak_calm prog scans sched s : keys_ok prog -> bounds_ok scans ->
  always false half_calm (uinit prog scans) sched = true ->
  urun false (uinit prog scans) sched = Some s ->
  (forall t, oth (ub s) t = OIdle) -> (forall u, uth s u = UIdle) ->
  forall a, opage (ub s) a <> None <-> mreach (opage (ub s)) (ort (ub s)) a.
Proof.
  intros Hk Hb Hh E H1 H2. destruct (reach_calm false prog scans sched Hk Hb Hh) as (s' & z & Ls & hv & lw & E' & S & Q); [discriminate|].
  rewrite E in E'. injection E' as <-.
  assert (I : inv (ub z)) by (exists Ls, hv, lw; split; apply Q).
  apply (oml_no_leak_calm (ub s) (ub z) (us_base _ _ S) I H1).
  apply uguarded_idle; auto. eapply uguarded_run; [|exact E]. intros u [].
Qed.

(** Executions given by a list of moves. *)
Definition umoves := list (umove * nat).
Definition uexpand (l : umoves) : list umove := flat_map (fun x => repeat (fst x) (snd x)) l.
Definition uhist (fx : bool) prog scans (l : umoves) : list (marked event) :=
  hist_of (option_map uhistory (urun fx (uinit prog scans) (uexpand l))).

End Any.

(** ** Fixed-length nodes *)
Section Fix.
Context (P : Params) (O : OrdLaws P) (F : FixSizes P) (G : FixMLGood P).
#[local] Instance ufops : MLOps P := fix_ml_ops.
#[local] Instance uflaws : MLLaws P ufops := fix_ml_laws.
#[local] Instance ufolaws : OMLaws P ufops uflaws := fix_o_laws.

Lemma fix_k prog : keys_ok prog.
Proof. intros t c _. exact Logic.I. Qed.
Lemma fix_b scans : bounds_ok scans.
Proof. intros u lo hi _. split; intros k c _; exact Logic.I. Qed.

(** C24.  Missing: executions that are not calm (refuted below). *)
Theorem C24_oml_calm_scans_fixlen_partial : forall prog scans sched,
  always false half_calm (uinit prog scans) sched = true ->
  always false scan_calm (uinit prog scans) sched = true ->
  exists s, urun false (uinit prog scans) sched = Some s /\ scans_fine (uhistory s).
Proof. intros prog scans sched. apply any_scans_calm; [apply fix_k; auto|apply fix_b; auto]. Qed.

(** C24 on the tree with the two repairs of C39 and C40: only the scans have to be calm. *)
Theorem C24_oml_repaired_calm_scans_fixlen_partial : forall prog scans sched,
  always true scan_calm (uinit prog scans) sched = true ->
  exists s, urun true (uinit prog scans) sched = Some s /\ scans_fine (uhistory s).
Proof. intros prog scans sched. apply any_scans_repaired; [apply fix_k; auto|apply fix_b; auto]. Qed.

(** C46.  No released page is used and the calls are linearizable, whatever the scans do.
    Missing: executions in which somebody meets a half-finished Merge or TryShrinkTree (refuted
    below). *)
Theorem C46_safe_calm_fixlen_partial : forall prog scans sched,
  always false half_calm (uinit prog scans) sched = true ->
  exists s, urun false (uinit prog scans) sched = Some s /\ linearizable amap_empty (unmark (uhistory s)).
Proof. intros prog scans sched. apply any_safe_calm; [apply fix_k; auto|apply fix_b; auto]. Qed.
Theorem C46_safe_repaired_fixlen_partial : forall prog scans sched,
  exists s, urun true (uinit prog scans) sched = Some s /\ linearizable amap_empty (unmark (uhistory s)).
Proof. intros prog scans sched. apply any_safe_repaired; [apply fix_k; auto|apply fix_b; auto]. Qed.

(** C46.  An iterator never waits. *)
Theorem C46_scans_never_wait_fixlen : forall fx u chk s, uth s u <> UIdle -> ustep fx (UScan u chk) s <> UBlock.
Proof. intros fx u chk s. apply any_goes. Qed.

(** C46.  Iterators do not keep calls waiting: whenever some thread is in a call, some thread
    in a call can make a step. *)
Theorem C46_calls_go_on_calm_fixlen_partial : forall prog scans sched s t,
  always false half_calm (uinit prog scans) sched = true ->
  urun false (uinit prog scans) sched = Some s -> oth (ub s) t <> OIdle ->
  exists v s', oth (ub s) v <> OIdle /\ ustep false (UCall v) s = UOk s'.
Proof. intros prog scans sched s t. apply any_calls_calm; [apply fix_k; auto|apply fix_b; auto]. Qed.
Theorem C46_calls_go_on_repaired_fixlen_partial : forall prog scans sched s t,
  urun true (uinit prog scans) sched = Some s -> oth (ub s) t <> OIdle ->
  exists v s', oth (ub s) v <> OIdle /\ ustep true (UCall v) s = UOk s'.
Proof. intros prog scans sched s t. apply any_calls_repaired; [apply fix_k; auto|apply fix_b; auto]. Qed.

(** C46.  When all calls have returned and all iterators have been destroyed, the pages in
    memory are those of the tree. *)
Theorem C46_no_leak_calm_fixlen_partial : forall prog scans sched s,
  always false half_calm (uinit prog scans) sched = true ->
  urun false (uinit prog scans) sched = Some s ->
  (forall t, oth (ub s) t = OIdle) -> (forall u, uth s u = UIdle) ->
  forall a, opage (ub s) a <> None <-> mreach (opage (ub s)) (ort (ub s)) a.
Proof. intros prog scans sched s. apply any_noleak_calm; [apply fix_k; auto|apply fix_b; auto]. Qed.
Theorem C46_no_leak_repaired_fixlen_partial : forall prog scans sched s,
  urun true (uinit prog scans) sched = Some s ->
  (forall t, oth (ub s) t = OIdle) -> (forall u, uth s u = UIdle) ->
  forall a, opage (ub s) a <> None <-> mreach (opage (ub s)) (ort (ub s)) a.
Proof. intros prog scans sched s. apply (any_noleak_repaired prog scans sched s); [apply fix_k; auto|apply fix_b; auto]. Qed.

End Fix.

(** ** Variable-length nodes *)
Section Var.
Context (P : Params) (O : OrdLaws P) (F : VarSizes P) (G : VarGood P) (GM : VarMLGood P).
#[local] Instance uvops : MLOps P := var_ml_ops.
#[local] Instance uvlaws : MLLaws P uvops := var_ml_laws.
#[local] Instance uvolaws : OMLaws P uvops uvlaws := var_o_laws.

Lemma var_k prog : PropMConc.ok_prog P prog -> keys_ok prog.
Proof. intros Hv t c Hc. exact (Hv t c Hc). Qed.
Lemma var_b scans : ok_scans scans -> bounds_ok scans.
Proof. intros Hv u lo hi Hin. exact (Hv u lo hi Hin). Qed.

(** C24.  Missing: executions that are not calm (refuted below). *)
Theorem C24_oml_calm_scans_varlen_partial : forall prog scans sched, PropMConc.ok_prog P prog -> ok_scans scans ->
  always false half_calm (uinit prog scans) sched = true ->
  always false scan_calm (uinit prog scans) sched = true ->
  exists s, urun false (uinit prog scans) sched = Some s /\ scans_fine (uhistory s).
Proof. intros prog scans sched Hv Hs. apply any_scans_calm; [apply var_k; auto|apply var_b; auto]. Qed.

(** C24 on the tree with the two repairs of C39 and C40: only the scans have to be calm. *)
Theorem C24_oml_repaired_calm_scans_varlen_partial : forall prog scans sched, PropMConc.ok_prog P prog -> ok_scans scans ->
  always true scan_calm (uinit prog scans) sched = true ->
  exists s, urun true (uinit prog scans) sched = Some s /\ scans_fine (uhistory s).
Proof. intros prog scans sched Hv Hs. apply any_scans_repaired; [apply var_k; auto|apply var_b; auto]. Qed.

(** C46.  No released page is used and the calls are linearizable, whatever the scans do.
    Missing: executions in which somebody meets a half-finished Merge or TryShrinkTree (refuted
    below). *)
Theorem C46_safe_calm_varlen_partial : forall prog scans sched, PropMConc.ok_prog P prog -> ok_scans scans ->
  always false half_calm (uinit prog scans) sched = true ->
  exists s, urun false (uinit prog scans) sched = Some s /\ linearizable amap_empty (unmark (uhistory s)).
Proof. intros prog scans sched Hv Hs. apply any_safe_calm; [apply var_k; auto|apply var_b; auto]. Qed.
Theorem C46_safe_repaired_varlen_partial : forall prog scans sched,  PropMConc.ok_prog P prog -> ok_scans scans ->
  exists s, urun true (uinit prog scans) sched = Some s /\ linearizable amap_empty (unmark (uhistory s)).
Proof. intros prog scans sched Hv Hs. apply any_safe_repaired; [apply var_k; auto|apply var_b; auto]. Qed.

(** C46.  An iterator never waits. *)
Theorem C46_scans_never_wait_varlen : forall fx u chk s, uth s u <> UIdle -> ustep fx (UScan u chk) s <> UBlock.
Proof. intros fx u chk s. apply any_goes. Qed.

(** C46.  Iterators do not keep calls waiting: whenever some thread is in a call, some thread
    in a call can make a step. *)
Theorem C46_calls_go_on_calm_varlen_partial : forall prog scans sched s t, PropMConc.ok_prog P prog -> ok_scans scans ->
  always false half_calm (uinit prog scans) sched = true ->
  urun false (uinit prog scans) sched = Some s -> oth (ub s) t <> OIdle ->
  exists v s', oth (ub s) v <> OIdle /\ ustep false (UCall v) s = UOk s'.
Proof. intros prog scans sched s t Hv Hs. apply any_calls_calm; [apply var_k; auto|apply var_b; auto]. Qed.
Theorem C46_calls_go_on_repaired_varlen_partial : forall prog scans sched s t, PropMConc.ok_prog P prog -> ok_scans scans ->
  urun true (uinit prog scans) sched = Some s -> oth (ub s) t <> OIdle ->
  exists v s', oth (ub s) v <> OIdle /\ ustep true (UCall v) s = UOk s'.
Proof. intros prog scans sched s t Hv Hs. apply any_calls_repaired; [apply var_k; auto|apply var_b; auto]. Qed.

(** C46.  When all calls have returned and all iterators have been destroyed, the pages in
    memory are those of the tree. *)
Theorem C46_no_leak_calm_varlen_partial : forall prog scans sched s, PropMConc.ok_prog P prog -> ok_scans scans ->
  always false half_calm (uinit prog scans) sched = true ->
  urun false (uinit prog scans) sched = Some s ->
  (forall t, oth (ub s) t = OIdle) -> (forall u, uth s u = UIdle) ->
  forall a, opage (ub s) a <> None <-> mreach (opage (ub s)) (ort (ub s)) a.
Proof. intros prog scans sched s Hv Hs. apply any_noleak_calm; [apply var_k; auto|apply var_b; auto]. Qed.
Theorem C46_no_leak_repaired_varlen_partial : forall prog scans sched s, PropMConc.ok_prog P prog -> ok_scans scans ->
  urun true (uinit prog scans) sched = Some s ->
  (forall t, oth (ub s) t = OIdle) -> (forall u, uth s u = UIdle) ->
  forall a, opage (ub s) a <> None <-> mreach (opage (ub s)) (ort (ub s)) a.
Proof. intros prog scans sched s Hv Hs. apply (any_noleak_repaired prog scans sched s); [apply var_k; auto|apply var_b; auto]. Qed.

End Var.

(** ** Refutations *)

(** C24: the scan from the last key has taken its begin position; records before it are
    deleted and the leaf shrinks; the end position is now not behind the begin position,
    the leaf is the last one, and the scan ends without asking for the version
    (optimistic_record_iterator.hpp:178-183).  Nobody meets a half-finished change.
    On the default page of 1 KiB. *)
Definition uf_moves : umoves := [(UCall 0, 20); (UScan 0 true, 5); (UCall 1, 7); (UScan 0 false, 3)].
Definition uf_hist : list (marked (@event dflt)) := @uhist dflt fix_ml_ops false of_prog of_scans uf_moves.

Definition uv_prog (t : tid) : list (@call mvtiny) :=
  match t with
  | 0 => wr (P := mvtiny) (fun x => x) (fun x => x) (seq 1 5)
  | 1 => de (P := mvtiny) (fun x => x) (seq 1 4) ++ wr (P := mvtiny) (fun x => x) (fun x => x) (seq 6 3)
  | _ => []
  end.
Definition uv_scans (u : tid) : list (@bound mvtiny * @bound mvtiny) :=
  match u with 0 => [(Some (5 : @K mvtiny, true), None)] | _ => [] end.
Definition uv_moves : umoves := [(UCall 0, 100); (UScan 0 true, 5); (UCall 1, 100); (UScan 0 false, 3)].
Definition uv_hist : list (marked (@event mvtiny)) := @uhist mvtiny var_ml_ops false uv_prog uv_scans uv_moves.

Lemma run_with {P : Params} {N : MLOps P} fx prog scans sched p h (Q : list (marked event) -> Prop) :
  option_map uhistory (urun fx (uinit prog scans) sched) = Some h ->
  always fx p (uinit prog scans) sched = true -> Q h ->
  exists s, urun fx (uinit prog scans) sched = Some s /\ always fx p (uinit prog scans) sched = true /\ Q (uhistory s).
Proof. destruct (urun fx _ _) as [s|]; intros [= <-] Hc Hq. exists s. auto. Qed.

Theorem C24_oml_scan_complete_refuted_fixlen : exists prog scans sched s,
  urun (N := fix_ml_ops (P := dflt)) false (uinit prog scans) sched = Some s /\
  always (N := fix_ml_ops (P := dflt)) false half_calm (uinit prog scans) sched = true /\
  ~ scans_keep (uhistory s) /\ ~ scan_linearizable amap_empty (uhistory s).
Proof.
  exists of_prog, of_scans, (uexpand uf_moves).
  apply run_with with (h := uf_hist) (Q := fun h => ~ scans_keep h /\ ~ scan_linearizable amap_empty h);
    [vm_compute; reflexivity|vm_compute; reflexivity|].
  assert (Ea : scan_at uf_hist 0 (Some (2 : @K dflt, true)) None []) by (vm_compute; reflexivity).
  rewrite Ea. apply (@missing_refutes dflt dflt_ord) with (k := (2 : @K dflt)) (v := (102 : @V dflt))
    (g1 := firstn 3 (unmark (before_scan uf_hist))) (g2 := []) (t := 0) (r := RSuccess);
    try (vm_compute; reflexivity).
  intros [].
Qed.
Theorem C24_oml_scan_complete_refuted_varlen : exists prog scans sched s,
  urun (N := var_ml_ops (P := mvtiny)) false (uinit prog scans) sched = Some s /\
  always (N := var_ml_ops (P := mvtiny)) false half_calm (uinit prog scans) sched = true /\
  ~ scans_keep (uhistory s) /\ ~ scan_linearizable amap_empty (uhistory s).
Proof.
  exists uv_prog, uv_scans, (uexpand uv_moves).
  apply run_with with (h := uv_hist) (Q := fun h => ~ scans_keep h /\ ~ scan_linearizable amap_empty h);
    [vm_compute; reflexivity|vm_compute; reflexivity|].
  assert (Ea : scan_at uv_hist 0 (Some (5 : @K mvtiny, true)) None []) by (vm_compute; reflexivity).
  rewrite Ea. apply (@missing_refutes mvtiny mvtiny_ord) with (k := (5 : @K mvtiny)) (v := (105 : @V mvtiny))
    (g1 := firstn 9 (unmark (before_scan uv_hist))) (g2 := []) (t := 0) (r := RSuccess);
    try (vm_compute; reflexivity).
  intros [].
Qed.

(** C24: a calm scan goes wrong as well when it meets a half-finished Merge.  The callers do
    what they do in PropOConcBad.v (a lost key); the Write of 10n+5 has returned before the
    scan from 10n+5 begins, and the scan does not find the key. *)
Definition half_prog {P : Params} (mk : nat -> K) (mv : nat -> V) (n dr dl : nat) (t : tid) : list call :=
  match t with
  | 0 => wr mk mv (map (fun i => 10 * i) (seq 1 n))
  | 1 => wr mk mv [10 * n + 5]
  | 2 => wr mk mv (map (fun i => 10 * i) (seq (S n) 2)) ++
         de mk (map (fun i => 10 * i) (rev (seq (n + 3 - dr) dr) ++ seq 1 dl))
  | 3 => de mk [10 * S dl]
  | _ => []
  end.
Definition half_scans {P : Params} (mk : nat -> K) (n : nat) (u : tid) : list (bound * bound) :=
  match u with 4 => [(Some (mk (10 * n + 5), true), None)] | _ => [] end.
Definition half_moves (n : nat) : umoves :=
  [(UCall 0, 20 * n); (UCall 1, 4); (UCall 2, 40 * n); (UCall 3, 10); (UCall 1, 2); (UScan 4 true, 12)].
Definition hf_hist : list (marked (@event tiny)) := @uhist tiny fix_ml_ops false
  (half_prog (P := tiny) (fun x => x) (fun x => x) 7 2 2) (half_scans (P := tiny) (fun x => x) 7) (half_moves 7).
Definition hv_hist : list (marked (@event mvtiny)) := @uhist mvtiny var_ml_ops false
  (half_prog (P := mvtiny) (fun x => x) (fun x => x) 5 2 1) (half_scans (P := mvtiny) (fun x => x) 5) (half_moves 5).

Theorem C24_oml_half_merge_refuted_fixlen : exists prog scans sched s,
  urun (N := fix_ml_ops (P := tiny)) false (uinit prog scans) sched = Some s /\
  always (N := fix_ml_ops (P := tiny)) false scan_calm (uinit prog scans) sched = true /\
  ~ scans_keep (uhistory s) /\ ~ scan_linearizable amap_empty (uhistory s).
Proof.
  exists (half_prog (P := tiny) (fun x => x) (fun x => x) 7 2 2), (half_scans (P := tiny) (fun x => x) 7), (uexpand (half_moves 7)).
  apply run_with with (h := hf_hist) (Q := fun h => ~ scans_keep h /\ ~ scan_linearizable amap_empty h);
    [vm_compute; reflexivity|vm_compute; reflexivity|].
  assert (Ea : scan_at hf_hist 4 (Some (75 : @K tiny, true)) None []) by (vm_compute; reflexivity).
  rewrite Ea. apply (@missing_refutes tiny tiny_ord) with (k := (75 : @K tiny)) (v := (175 : @V tiny))
    (g1 := firstn (length (unmark (before_scan hf_hist)) - 1) (unmark (before_scan hf_hist))) (g2 := [])
    (t := 1) (r := RSuccess);
    try (vm_compute; reflexivity).
  intros [].
Qed.
Theorem C24_oml_half_merge_refuted_varlen : exists prog scans sched s,
  urun (N := var_ml_ops (P := mvtiny)) false (uinit prog scans) sched = Some s /\
  always (N := var_ml_ops (P := mvtiny)) false scan_calm (uinit prog scans) sched = true /\
  ~ scans_keep (uhistory s) /\ ~ scan_linearizable amap_empty (uhistory s).
Proof.
  exists (half_prog (P := mvtiny) (fun x => x) (fun x => x) 5 2 1), (half_scans (P := mvtiny) (fun x => x) 5), (uexpand (half_moves 5)).
  apply run_with with (h := hv_hist) (Q := fun h => ~ scans_keep h /\ ~ scan_linearizable amap_empty h);
    [vm_compute; reflexivity|vm_compute; reflexivity|].
  assert (Ea : scan_at hv_hist 4 (Some (55 : @K mvtiny, true)) None []) by (vm_compute; reflexivity).
  rewrite Ea. apply (@missing_refutes mvtiny mvtiny_ord) with (k := (55 : @K mvtiny)) (v := (155 : @V mvtiny))
    (g1 := firstn (length (unmark (before_scan hv_hist)) - 1) (unmark (before_scan hv_hist))) (g2 := [])
    (t := 1) (r := RSuccess);
    try (vm_compute; reflexivity).
  intros [].
Qed.

(** C46: a scan uses a released root, as in PropOConcBad.v: TryShrinkTree hands the root to the
    garbage collector before root_ is changed, a scan begins in between, and the call that
    shrinks the tree returns. *)
Definition uroot_prog {P : Params} (mk : nat -> K) (mv : nat -> V) (n dr m : nat) (t : tid) : list call :=
  match t with
  | 0 => wr mk mv (map (fun i => 10 * i) (seq 1 n)) ++
         de mk (map (fun i => 10 * i) (rev (seq (n + 1 - dr) dr) ++ seq 1 m))
  | 1 => de mk [10 * S m]
  | _ => []
  end.
Definition uroot_scans {P : Params} (u : tid) : list (bound * bound) :=
  match u with 2 => [(None, None)] | _ => [] end.
Definition uroot_moves (n : nat) : umoves :=
  [(UCall 0, 40 * n); (UCall 1, 4); (UScan 2 true, 2); (UCall 1, 10)].
Definition scan_dangling {P : Params} {N : MLOps P} (u : tid) (s : ucfg) : bool :=
  match uth s u with
  | UDesc lo hi a => match och (ub s) a, ogb (ub s) a with Some _, Some [] => true | _, _ => false end
  | _ => false
  end.
Lemma scan_dangling_witness {P : Params} {N : MLOps P} (r : option ucfg) u :
  option_map (scan_dangling u) r = Some true ->
  exists s lo hi a, r = Some s /\ uth s u = UDesc lo hi a /\ och (ub s) a <> None /\ ogb (ub s) a = Some [] /\
    ustep false (UScan u true) s = UUndef.
Proof.
  destruct r as [s|]; [|discriminate]. intros [= E]. unfold scan_dangling in E.
  destruct (uth s u) as [| |lo hi a| | | | |] eqn:E1; try discriminate.
  destruct (och (ub s) a) eqn:E2; [|discriminate]. destruct (ogb (ub s) a) as [[|]|] eqn:E3; try discriminate.
  exists s, lo, hi, a. split; [auto|]. split; [auto|]. split; [congruence|]. split; [auto|].
  cbn [ustep]. unfold scano_step. rewrite E1. unfold opage. now rewrite E3.
Qed.

Theorem C46_released_root_fixlen_refuted : exists prog scans sched s u lo hi a,
  urun (N := fix_ml_ops (P := dflt)) false (uinit prog scans) sched = Some s /\
  uth s u = UDesc lo hi a /\ och (ub s) a <> None /\ ogb (ub s) a = Some [] /\
  ustep false (UScan u true) s = UUndef.
Proof.
  exists (uroot_prog (P := dflt) (fun x => x) (fun x => x) 63 0 29), (uroot_scans (P := dflt)), (uexpand (uroot_moves 63)).
  assert (E : option_map (scan_dangling 2) (urun (N := fix_ml_ops (P := dflt)) false
    (uinit (uroot_prog (P := dflt) (fun x => x) (fun x => x) 63 0 29) (uroot_scans (P := dflt))) (uexpand (uroot_moves 63))) = Some true)
    by (vm_compute; reflexivity).
  apply scan_dangling_witness in E as (s & lo & hi & a & E). exists s, 2, lo, hi, a. exact E.
Qed.
Theorem C46_released_root_varlen_refuted : exists prog scans sched s u lo hi a,
  urun (N := var_ml_ops (P := mvtiny)) false (uinit prog scans) sched = Some s /\
  uth s u = UDesc lo hi a /\ och (ub s) a <> None /\ ogb (ub s) a = Some [] /\
  ustep false (UScan u true) s = UUndef.
Proof.
  exists (uroot_prog (P := mvtiny) (fun x => x) (fun x => x) 7 0 3), (uroot_scans (P := mvtiny)), (uexpand (uroot_moves 7)).
  assert (E : option_map (scan_dangling 2) (urun (N := var_ml_ops (P := mvtiny)) false
    (uinit (uroot_prog (P := mvtiny) (fun x => x) (fun x => x) 7 0 3) (uroot_scans (P := mvtiny))) (uexpand (uroot_moves 7))) = Some true)
    by (vm_compute; reflexivity).
  apply scan_dangling_witness in E as (s & lo & hi & a & E). exists s, 2, lo, hi, a. exact E.
Qed.

(** The same schedules on the repaired tree: the released root is not used. *)
Example repaired_root_scan :
  option_map (fun s => results (uhistory s)) (urun (N := fix_ml_ops (P := tiny)) true
    (uinit (uroot_prog (P := tiny) (fun x => x) (fun x => x) 9 2 3) (uroot_scans (P := tiny)))
    (uexpand (uroot_moves 9 ++ [(UScan 2 true, 100)]))) = Some [map (fun i => (10 * i, 100 + 10 * i)) (seq 5 3)].
Proof. vm_compute. reflexivity. Qed.

(** ** The hypotheses are met

    Three writers and a reader take turns while the tree grows and shrinks, and a fourth thread
    scans everything again and again; a fifth one gives up its first scan. *)
Definition scan_busy_prog {P : Params} (mk : nat -> K) (one : V) (t : tid) : list call := @busy_prog P mk one t.
Definition scan_busy_scans {P : Params} (mk : nat -> K) (u : tid) : list (bound * bound) :=
  match u with
  | 4 => repeat (None, Some (mk 200, true)) 20
  | 5 => [(Some (mk 20, false), None); (Some (mk 50, true), Some (mk 100, false))]
  | _ => []
  end.
Definition calls_round : list umove := [UCall 0; UCall 1; UCall 2; UCall 3; UCall 0; UCall 2; UCall 1].
Definition scan_busy_sched (n : nat) : list umove :=
  concat (repeat calls_round 40) ++
  concat (repeat (calls_round ++ repeat (UScan 4 true) 5 ++ [UScan 5 true]) n) ++ [UStop 5] ++
  concat (repeat (calls_round ++ repeat (UScan 4 true) 5 ++ [UScan 5 true]) n).
Definition scan_shape {P : Params} {N : MLOps P} (s : ucfg) :=
  (length (unmark (uhistory s)), map (fun l => length l) (results (uhistory s)), (ofr (ub s), retired (ub s))).

(** Events of calls, lengths of the results of the scans, pages made, pages retired. *)
Example scan_busy_fixlen :
  let i := uinit (scan_busy_prog (P := tiny) (fun x => x) 1) (scan_busy_scans (P := tiny) (fun x => x)) in
  always (N := fix_ml_ops (P := tiny)) false half_calm i (scan_busy_sched 20) = true /\
  always (N := fix_ml_ops (P := tiny)) false scan_calm i (scan_busy_sched 20) = true /\
  option_map scan_shape (urun (N := fix_ml_ops (P := tiny)) false i (scan_busy_sched 20)) = Some (116, [32; 36], (15, 1)).
Proof. vm_compute. repeat split; reflexivity. Qed.
Example scan_busy_varlen :
  let i := uinit (scan_busy_prog (P := mvtiny) (fun x => x) 1) (scan_busy_scans (P := mvtiny) (fun x => x)) in
  always (N := var_ml_ops (P := mvtiny)) false half_calm i (scan_busy_sched 30) = true /\
  always (N := var_ml_ops (P := mvtiny)) false scan_calm i (scan_busy_sched 30) = true /\
  option_map scan_shape (urun (N := var_ml_ops (P := mvtiny)) false i (scan_busy_sched 30)) = Some (132, [29; 36; 34], (13, 2)).
Proof. vm_compute. repeat split; reflexivity. Qed.
Example scan_busy_ok : PropMConc.ok_prog mvtiny (scan_busy_prog (P := mvtiny) (fun x => x) 1) /\
  ok_scans (P := mvtiny) (scan_busy_scans (P := mvtiny) (fun x => x)).
Proof.
  split; [exact busy_prog_ok|]. intros u lo hi Hin.
  destruct u as [|[|[|[|[|[|]]]]]]; cbn in Hin;
    repeat (destruct Hin as [[= <- <-]|Hin]; [split; intros k c; [intros [= <- <-]|intros [= <- <-]] || idtac|]);
    try (now destruct Hin); try discriminate; try (vm_compute; lia).
Qed.

(** The tree of [uroot_prog] is filled and emptied while a scan is open; when the iterator is gone and
    the calls have returned, as many pages are allocated as the tree has. *)
Definition live {P : Params} {N : MLOps P} (s : ucfg) : nat :=
  length (filter (fun a => match opage (ub s) a with Some _ => true | None => false end) (seq 0 (ofr (ub s)))).
Definition all_idle {P : Params} {N : MLOps P} (s : ucfg) : bool :=
  forallb (fun t => match oth (ub s) t, uth s t with OIdle, UIdle => true | _, _ => false end) (seq 0 6).
Definition leak_moves (n : nat) : umoves :=
  [(UCall 0, 10 * n); (UScan 2 true, 7); (UCall 0, 40 * n); (UCall 1, 40); (UStop 2, 1)].
Example no_leak_met :
  let i := uinit (uroot_prog (P := tiny) (fun x => x) (fun x => x) 9 2 3) (uroot_scans (P := tiny)) in
  always (N := fix_ml_ops (P := tiny)) false half_calm i (uexpand (leak_moves 9)) = true /\
  option_map (fun s => (all_idle s, live s, ofr (ub s))) (urun (N := fix_ml_ops (P := tiny)) false i (uexpand (leak_moves 9))) = Some (true, 1, 4).
Proof. vm_compute. repeat split; reflexivity. Qed.

Print Assumptions C24_oml_calm_scans_fixlen_partial.
Print Assumptions C24_oml_repaired_calm_scans_fixlen_partial.
Print Assumptions C46_safe_calm_fixlen_partial.
Print Assumptions C46_safe_repaired_fixlen_partial.
Print Assumptions C46_scans_never_wait_fixlen.
Print Assumptions C46_calls_go_on_calm_fixlen_partial.
Print Assumptions C46_calls_go_on_repaired_fixlen_partial.
Print Assumptions C46_no_leak_calm_fixlen_partial.
Print Assumptions C46_no_leak_repaired_fixlen_partial.
Print Assumptions C24_oml_calm_scans_varlen_partial.
Print Assumptions C24_oml_repaired_calm_scans_varlen_partial.
Print Assumptions C46_safe_calm_varlen_partial.
Print Assumptions C46_safe_repaired_varlen_partial.
Print Assumptions C46_scans_never_wait_varlen.
Print Assumptions C46_calls_go_on_calm_varlen_partial.
Print Assumptions C46_calls_go_on_repaired_varlen_partial.
Print Assumptions C46_no_leak_calm_varlen_partial.
Print Assumptions C46_no_leak_repaired_varlen_partial.
Print Assumptions C24_oml_scan_complete_refuted_fixlen.
Print Assumptions C24_oml_scan_complete_refuted_varlen.
Print Assumptions C24_oml_half_merge_refuted_fixlen.
Print Assumptions C24_oml_half_merge_refuted_varlen.
Print Assumptions C46_released_root_fixlen_refuted.
Print Assumptions C46_released_root_varlen_refuted.
