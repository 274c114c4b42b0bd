(** Pages of the single-layer trees and their garbage collector (C42): no call and no scan uses
    a page that the collector has released, no page is handed to the collector twice, and in
    the end the pages that have not been released are exactly those the tree consists of.

    [rreach osl fx late keep A prog scans s] (ReclModel.v): [s] is reached from a fresh tree, the
    callers making the calls [prog], the scanners the scans [scans], by steps that satisfy [A];
    any number of callers and scanners, any schedule.  The code is [fx = as_is], [late = false]
    and [keep = osl].

    The property fails for the code as it is; the witnesses are at the end:
    - TryShrinkTree hands the old root to the collector before it stores the new root; a call
      that starts in between has no guard that protects the old root, and loads it
      (BTreePSL and BTreeOSL);
    - the iterators of BTreePSL have no epoch guard; one that follows the link of a leaf that is
      being merged comes to a leaf that has been handed to the collector.
    What holds:
    - the property, in the executions in which neither happens, and in which the callers do
      nothing that C16 objects to;
    - the property without conditions, in the tree with the repairs of C16 and C42. *)
From Coq Require Import List Arith Bool Lia.
From Verif Require Import Params Mem Common Spec ConcSpec ScanSpec NodeAbs FixModel FixProofs VarModel
  VarProofs SLIface FixSL VarSL BaseIface IterModel TreeState ConcModel ConcLin ConcInv ConcMain
  CScanModel CScanLin CScanProofs CScanMain CScanRun ReclModel ReclProofs ReclMain ReclFrame ReclLeak ReclRun
  PropConc PropConcBad PropCScan Inst.
Import ListNotations.

(** ** All layouts *)
Section Any.
Context {P : Params} {O : OrdLaws P} {N : SLOps P} {L : SLLaws P N} (osl : bool).

(** No step of [A] that is possible now goes wrong. *)
Definition memory_safe (fx : fixes) (late : bool) (A : mover -> rcfg -> Prop) (s : rcfg) : Prop :=
  forall v, A v s -> ~ use_after_free v s /\ ~ double_free osl fx late v s.

(** Nothing is going on. *)
Definition at_rest (s : rcfg) : Prop :=
  (forall t, th (base (rs s)) t = PIdle) /\ (forall u, sth (rs s) u = SIdle).
(** Of the pages that have been allocated, those reachable from the root are the ones that
    have not been released. *)
Definition no_leak (s : rcfg) : Prop :=
  forall a, a < cfr (base (rs s)) ->
    (reachable (ch (base (rs s))) (croot (base (rs s))) a <-> ~ released s a).

(** The steps considered: the call does nothing that C16 objects to; nothing starts while
    TryShrinkTree is at work; [iter]: no iterator follows a link to a merged leaf. *)
Definition calm_recl (iter : bool) (v : mover) (s : rcfg) : Prop :=
  calls_calm v (rs s) /\ guards_calm v (rs s) /\ (iter = true -> iters_calm v (rs s)).
Definition any_rstep (v : mover) (s : rcfg) : Prop := True.

Lemma rreach_weaken fx late keep (A B : mover -> rcfg -> Prop) prog scans s : (forall v s, A v s -> B v s) ->
  rreach osl fx late keep A prog scans s -> rreach osl fx late keep B prog scans s.
Proof. intros HA. induction 1; [constructor|eapply rr_step; eauto]. Qed.

Lemma recl_any fx late keep (A : mover -> rcfg -> Prop) prog scans s :
  (forall v s, A v s -> recl_calm late keep fx v s) ->
  (forall t c, In c (prog t) -> kvalid (call_key c)) ->
  (forall u lo hi, In (lo, hi) (scans u) -> vb lo /\ vb hi) ->
  rreach osl fx late keep A prog scans s ->
  memory_safe fx late A s /\ (at_rest s -> no_leak s).
Proof.
  intros HA Hp Hq Hr. apply (rreach_weaken _ _ _ A (recl_calm late keep fx)) in Hr; auto. split.
  - intros v Hv. destruct (rreach_inv osl late keep fx prog scans s Hp Hq Hr) as (G & st & R).
    split; [eapply rinv_use; eauto|eapply rinv_twice; eauto].
  - intros (H1 & H2) a Ha. eapply quiet_pages; eauto.
Qed.

Lemma calm_as_is keep v s : calm_recl (negb keep) v s -> recl_calm false keep as_is v s.
Proof.
  intros (H1 & H2 & H3). split; [now right|]. split; [now right|]. destruct keep; auto.
Qed.
Lemma any_repaired v s : any_rstep v s -> recl_calm true true repaired v s.
Proof. intros _. split; [now left|]. split; now left. Qed.

(** Boolean forms, for the examples. *)
Definition shrinkb (p : pc) : bool := match p with PShrL _ _ | PShrSt _ _ => true | _ => false end.
Definition startsb (v : mover) (s : scfg) : bool :=
  match v with
  | Caller t => match th (base s) t with PIdle => true | _ => false end
  | Scanner u _ => match sth s u with SIdle => true | _ => false end
  end.
Definition guards_calmb (ts : list tid) (v : mover) (s : scfg) : bool :=
  negb (startsb v s) || forallb (fun t => negb (shrinkb (th (base s) t))) ts.
Definition iters_calmb (v : mover) (s : scfg) : bool :=
  match v with
  | Caller _ => true
  | Scanner u _ =>
      match sth s u with
      | SHold _ _ a false _ =>
          match ch (base s) a with
          | Some n => match nd_next n with Some b => page_inb (base s) b | None => true end
          | None => true
          end
      | _ => true
      end
  end.
Lemma guards_calmb_calm ts v s : (forall t, ~ In t ts -> th (base s) t = PIdle) ->
  guards_calmb ts v s = true -> guards_calm v s.
Proof.
  intros Hr Hb Hs t p Hsh. unfold guards_calmb in Hb. apply orb_true_iff in Hb as [Hb|Hb].
  - assert (startsb v s = true); [|now rewrite H in Hb]. destruct v; cbn in *; now rewrite Hs.
  - rewrite forallb_forall in Hb. destruct (in_dec Nat.eq_dec t ts) as [Hin|Hin].
    + specialize (Hb t Hin). destruct Hsh as [(r & E)|(r & E)]; rewrite E in Hb; discriminate.
    + rewrite (Hr t Hin) in Hsh. destruct Hsh as [(r & E)|(r & E)]; discriminate.
Qed.
Lemma iters_calmb_calm v s : iters_calmb v s = true -> iters_calm v s.
Proof.
  destruct v as [t|u chk]; cbn [iters_calmb iters_calm]; auto. destruct (sth s u); cbn [hold_calm]; auto.
  destruct ie; auto. intros Hb n b E Q. rewrite E, Q in Hb. now apply page_inb_in.
Qed.
Definition calm_reclb (iter : bool) (ts : list tid) (v : mover) (s : rcfg) : bool :=
  calls_calmb v (rs s) && guards_calmb ts v (rs s) && (negb iter || iters_calmb v (rs s)).
Lemma calm_reclb_calm iter ts v s : resting ts s -> calm_reclb iter ts v s = true -> calm_recl iter v s.
Proof.
  intros Hr Hb. unfold calm_reclb in Hb. apply andb_true_iff in Hb as (Hb & H3). apply andb_true_iff in Hb as (H1 & H2).
  split; [now apply calls_calmb_calm|]. split; [eapply guards_calmb_calm; eauto|].
  intros ->. now apply iters_calmb_calm.
Qed.

(** Which of the first [n] pages have been released, and whether anything is going on. *)
Definition idleb (us ts : list tid) (s : rcfg) : bool :=
  forallb (fun t => match th (base (rs s)) t with PIdle => true | _ => false end) ts &&
  forallb (fun u => match sth (rs s) u with SIdle => true | _ => false end) us.
Definition gone (s : rcfg) : list addr := filter (releasedb s) (seq 0 (cfr (base (rs s)))).

End Any.

(** The pages that [use_after_free] looks at are all the pages that the next step of a call or
    scan uses: it changes no other page and no other latch, and does the same whatever the
    others contain. *)
Theorem C42_touches_complete : forall (P : Params) (N : SLOps P) (osl : bool) (fx : fixes) (t : tid) s a,
  a < cfr s -> ~ In a (call_touches s (th s t)) ->
  (forall l c, cstep osl fx t s = SOk l c -> ch c a = ch s a /\ six c a = six s a) /\
  (forall s2, same_but a s s2 -> same_res a (cstep osl fx t s) (cstep osl fx t s2)).
Proof.
  intros P N osl fx t s a Ha Hin. split.
  - intros l c E. eapply touches_change; eauto.
  - intros s2 Hs. now apply touches_depend.
Qed.
Theorem C42_scan_touches_complete : forall (P : Params) (N : SLOps P) (osl : bool) u chk s s2 vs vs2 p q a,
  croot s2 = croot s -> (forall b, b <> a -> ch s2 b = ch s b) -> (forall b, b <> a -> vs2 b = vs b) ->
  ~ In a (scan_touches s p) ->
  scan_step osl u chk s2 vs2 p q = scan_step osl u chk s vs p q.
Proof. intros. eapply touches_scan; eauto. Qed.

(** ** Fixed-length nodes, BTreePSL *)
Section FixPSL.
Context (P : Params) (O : OrdLaws P) (F : FixSizes P) (G : FixGood P).
#[local] Instance opsFixPSLR : SLOps P := fix_sl_ops false.
#[local] Instance lawsFixPSLR : SLLaws P opsFixPSLR := fix_sl_laws false.

(** C42, the code as it is.  Missing (and refuted below): calls that start while the tree shrinks, and iterators that follow
    links to merged leaves. *)
Theorem C42_calm_reclamation_psl_fixlen_partial : forall prog scans s, 
  rreach false as_is false false (calm_recl true) prog scans s ->
  memory_safe false as_is false (calm_recl true) s /\ (at_rest s -> no_leak s).
Proof.
  intros prog scans s Hr. eapply (recl_any false as_is false false); [|intros; exact Logic.I|intros; split; intros ? ? ?; exact Logic.I|exact Hr].
  intros v s0. exact (calm_as_is false v s0).
Qed.

(** C42, the repaired tree: all executions. *)
Theorem C42_repaired_reclamation_psl_fixlen : forall prog scans s, 
  rreach false repaired true true any_rstep prog scans s ->
  memory_safe false repaired true any_rstep s /\ (at_rest s -> no_leak s).
Proof.
  intros prog scans s Hr. eapply (recl_any false repaired true true); [|intros; exact Logic.I|intros; split; intros ? ? ?; exact Logic.I|exact Hr].
  exact any_repaired.
Qed.

End FixPSL.

(** ** Fixed-length nodes, BTreeOSL *)
Section FixOSL.
Context (P : Params) (O : OrdLaws P) (F : FixSizes P) (G : FixGood P).
#[local] Instance opsFixOSLR : SLOps P := fix_sl_ops true.
#[local] Instance lawsFixOSLR : SLLaws P opsFixOSLR := fix_sl_laws true.

(** C42, the code as it is.  Missing (and refuted below): calls that start while the tree shrinks. *)
Theorem C42_calm_reclamation_osl_fixlen_partial : forall prog scans s, 
  rreach true as_is false true (calm_recl false) prog scans s ->
  memory_safe true as_is false (calm_recl false) s /\ (at_rest s -> no_leak s).
Proof.
  intros prog scans s Hr. eapply (recl_any true as_is false true); [|intros; exact Logic.I|intros; split; intros ? ? ?; exact Logic.I|exact Hr].
  intros v s0. exact (calm_as_is true v s0).
Qed.

(** C42, the repaired tree: all executions. *)
Theorem C42_repaired_reclamation_osl_fixlen : forall prog scans s, 
  rreach true repaired true true any_rstep prog scans s ->
  memory_safe true repaired true any_rstep s /\ (at_rest s -> no_leak s).
Proof.
  intros prog scans s Hr. eapply (recl_any true repaired true true); [|intros; exact Logic.I|intros; split; intros ? ? ?; exact Logic.I|exact Hr].
  exact any_repaired.
Qed.

End FixOSL.

(** ** Variable-length nodes, BTreePSL *)
Section VarPSL.
Context (P : Params) (O : OrdLaws P) (F : VarSizes P) (G : VarGood P).
#[local] Instance opsVarPSLR : SLOps P := var_sl_ops false.
#[local] Instance lawsVarPSLR : SLLaws P opsVarPSLR := var_sl_laws false.

(** C42, the code as it is.  Missing (and refuted below): calls that start while the tree shrinks, and iterators that follow
    links to merged leaves. *)
Theorem C42_calm_reclamation_psl_varlen_partial : forall prog scans s, ok_prog P prog -> ok_scans scans -> 
  rreach false as_is false false (calm_recl true) prog scans s ->
  memory_safe false as_is false (calm_recl true) s /\ (at_rest s -> no_leak s).
Proof.
  intros prog scans s Hv Hb Hr. eapply (recl_any false as_is false false); [|intros t c Hc; exact (Hv t c Hc)|intros u lo hi Hin; exact (Hb u lo hi Hin)|exact Hr].
  intros v s0. exact (calm_as_is false v s0).
Qed.

(** C42, the repaired tree: all executions. *)
Theorem C42_repaired_reclamation_psl_varlen : forall prog scans s, ok_prog P prog -> ok_scans scans -> 
  rreach false repaired true true any_rstep prog scans s ->
  memory_safe false repaired true any_rstep s /\ (at_rest s -> no_leak s).
Proof.
  intros prog scans s Hv Hb Hr. eapply (recl_any false repaired true true); [|intros t c Hc; exact (Hv t c Hc)|intros u lo hi Hin; exact (Hb u lo hi Hin)|exact Hr].
  exact any_repaired.
Qed.

End VarPSL.

(** ** Variable-length nodes, BTreeOSL *)
Section VarOSL.
Context (P : Params) (O : OrdLaws P) (F : VarSizes P) (G : VarGood P).
#[local] Instance opsVarOSLR : SLOps P := var_sl_ops true.
#[local] Instance lawsVarOSLR : SLLaws P opsVarOSLR := var_sl_laws true.

(** C42, the code as it is.  Missing (and refuted below): calls that start while the tree shrinks. *)
Theorem C42_calm_reclamation_osl_varlen_partial : forall prog scans s, ok_prog P prog -> ok_scans scans -> 
  rreach true as_is false true (calm_recl false) prog scans s ->
  memory_safe true as_is false (calm_recl false) s /\ (at_rest s -> no_leak s).
Proof.
  intros prog scans s Hv Hb Hr. eapply (recl_any true as_is false true); [|intros t c Hc; exact (Hv t c Hc)|intros u lo hi Hin; exact (Hb u lo hi Hin)|exact Hr].
  intros v s0. exact (calm_as_is true v s0).
Qed.

(** C42, the repaired tree: all executions. *)
Theorem C42_repaired_reclamation_osl_varlen : forall prog scans s, ok_prog P prog -> ok_scans scans -> 
  rreach true repaired true true any_rstep prog scans s ->
  memory_safe true repaired true any_rstep s /\ (at_rest s -> no_leak s).
Proof.
  intros prog scans s Hv Hb Hr. eapply (recl_any true repaired true true); [|intros t c Hc; exact (Hv t c Hc)|intros u lo hi Hin; exact (Hb u lo hi Hin)|exact Hr].
  exact any_repaired.
Qed.

End VarOSL.

(** ** Refutations *)

(** Thread 0 fills two leaves and deletes until they merge; it has handed the root to the
    collector (psl/b_tree.hpp:850, osl/b_tree.hpp:823) when thread 1 starts and loads root_;
    thread 0 stores the new root and returns.  The next step of thread 1 uses the old root.
    In this execution the callers are calm in the sense of C16. *)
Definition sh_fix (t : tid) : list (@call tiny) :=
  match t with
  | 0 => wr (P := tiny) (fun x => x) (fun x => x) (map (fun i => 10 * i) (seq 1 9)) ++
         de (P := tiny) (fun x => x) [10; 20; 30; 40]
  | 1 => [CRead (P := tiny) 80]
  | _ => []
  end.
Definition sh_var (t : tid) : list (@call vtiny) :=
  match t with
  | 0 => wr (P := vtiny) (fun x => x) (fun x => x) (map (fun i => 10 * i) (seq 1 7)) ++
         de (P := vtiny) (fun x => x) [70; 60; 50; 10]
  | 1 => [CRead (P := vtiny) 20]
  | _ => []
  end.
Definition sh_moves (n : nat) : moves := [(Caller 0, n); (Caller 1, 2); (Caller 0, 4)].
Definition no_scans {P : Params} (u : tid) : list (bound * bound) := [].
Definition calm_calls {P : Params} {N : SLOps P} (v : mover) (s : rcfg) : Prop := calls_calm v (rs s).
Definition calm_callsb {P : Params} {N : SLOps P} (v : mover) (s : rcfg) : bool := calls_calmb v (rs s).
Lemma calm_callsb_calm {P : Params} {O : OrdLaws P} {N : SLOps P} (osl : bool) ts v s :
  resting ts s -> calm_callsb v s = true -> calm_calls v s.
Proof. intros _. unfold calm_callsb, calm_calls. apply (calls_calmb_calm osl). Qed.

Theorem C42_shrink_refuted_fixlen : forall osl, exists prog s,
  rreach (N := fix_sl_ops (P := tiny) osl) osl as_is false osl calm_calls prog no_scans s /\
  use_after_free (Caller 1) s.
Proof.
  intros osl. exists sh_fix.
  destruct (run_shows_reach (N := fix_sl_ops (P := tiny) osl) osl as_is false osl [] [0; 1] calm_callsb calm_calls
    (calm_callsb_calm (O := tiny_ord) osl [0; 1]) (usesb (Caller 1)) sh_fix no_scans (expand (sh_moves 68)) true) as (s & Hr & _ & Hs).
  - intros; reflexivity.
  - destruct osl; vm_compute; reflexivity.
  - exists s. split; [exact Hr|]. now apply usesb_ok.
Qed.
Theorem C42_shrink_refuted_varlen : forall osl, exists prog s,
  rreach (N := var_sl_ops (P := vtiny) osl) osl as_is false osl calm_calls prog no_scans s /\
  use_after_free (Caller 1) s.
Proof.
  intros osl. exists sh_var.
  destruct (run_shows_reach (N := var_sl_ops (P := vtiny) osl) osl as_is false osl [] [0; 1] calm_callsb calm_calls
    (calm_callsb_calm (O := vtiny_ord) osl [0; 1]) (usesb (Caller 1)) sh_var no_scans (expand (sh_moves 60)) true) as (s & Hr & _ & Hs).
  - intros; reflexivity.
  - destruct osl; vm_compute; reflexivity.
  - exists s. split; [exact Hr|]. now apply usesb_ok.
Qed.

(** The executions of C23: the scan has delivered a leaf that thread 1 is merging into its left
    sibling; thread 2 merges the next leaf and returns; the scan follows the link to that
    leaf; thread 1 returns.  Nothing protects the leaf, and the next step of the scan uses it. *)
Theorem C42_iterator_refuted_fixlen : exists prog scans s,
  rreach (N := fix_sl_ops (P := tiny) false) false as_is false false
    (fun v s => calm_calls v s /\ guards_calm v (rs s)) prog scans s /\
  use_after_free (Scanner 0 true) s.
Proof.
  exists pf_prog, pf_scans.
  destruct (run_shows_reach (N := fix_sl_ops (P := tiny) false) false as_is false false [0] [0; 1; 2]
    (calm_reclb false [0; 1; 2]) (fun v s => calm_calls v s /\ guards_calm v (rs s))) with
    (B := bool) (f := usesb (N := fix_sl_ops (P := tiny) false) (Scanner 0 true)) (prog := pf_prog) (scans := pf_scans)
    (l := expand [(Caller 0, 82); (Scanner 0 true, 4); (Caller 1, 12); (Caller 2, 54); (Scanner 0 true, 1); (Caller 1, 2)])
    (x := true) as (s & Hr & _ & Hs).
  - intros v s Hi Hb. destruct (calm_reclb_calm (O := tiny_ord) false [0; 1; 2] v s Hi Hb) as (Q1 & Q2 & _). now split.
  - intros [|u] Hu; [now elim Hu; left|reflexivity].
  - vm_compute. reflexivity.
  - exists s. split; [exact Hr|]. now apply usesb_ok.
Qed.
Theorem C42_iterator_refuted_varlen : exists prog scans s,
  rreach (N := var_sl_ops (P := vtiny) false) false as_is false false
    (fun v s => calm_calls v s /\ guards_calm v (rs s)) prog scans s /\
  use_after_free (Scanner 0 true) s.
Proof.
  exists pv_prog, pv_scans.
  destruct (run_shows_reach (N := var_sl_ops (P := vtiny) false) false as_is false false [0] [0; 1; 2]
    (calm_reclb false [0; 1; 2]) (fun v s => calm_calls v s /\ guards_calm v (rs s))) with
    (B := bool) (f := usesb (N := var_sl_ops (P := vtiny) false) (Scanner 0 true)) (prog := pv_prog) (scans := pv_scans)
    (l := expand [(Caller 0, 84); (Scanner 0 true, 4); (Caller 1, 19); (Caller 2, 27); (Scanner 0 true, 1); (Caller 1, 2)])
    (x := true) as (s & Hr & _ & Hs).
  - intros v s Hi Hb. destruct (calm_reclb_calm (O := vtiny_ord) false [0; 1; 2] v s Hi Hb) as (Q1 & Q2 & _). now split.
  - intros [|u] Hu; [now elim Hu; left|reflexivity].
  - vm_compute. reflexivity.
  - exists s. split; [exact Hr|]. now apply usesb_ok.
Qed.

(** ** The hypotheses are met *)

(** The program of the first witness, without the unlucky schedule: two pages are handed to
    the collector and released, one page remains. *)
Lemma reclamation_met_fixlen : forall osl, exists s,
  rreach (N := fix_sl_ops (P := tiny) osl) osl as_is false osl (calm_recl true) sh_fix no_scans s /\
  at_rest s /\ cfr (base (rs s)) = 3 /\ gone s = [1; 2].
Proof.
  intros osl.
  destruct (run_shows_reach (N := fix_sl_ops (P := tiny) osl) osl as_is false osl [] [0; 1] (calm_reclb true [0; 1]) (calm_recl true)
    (calm_reclb_calm (O := tiny_ord) true [0; 1]) (fun s => (idleb [] [0; 1] s, cfr (base (rs s)), gone s)) sh_fix no_scans
    (expand [(Caller 0, 72); (Caller 1, 4)]) (true, 3, [1; 2])) as (s & Hr & (Hi & Ho) & Hs).
  - intros; reflexivity.
  - destruct osl; vm_compute; reflexivity.
  - exists s. split; [exact Hr|]. injection Hs as Q1 Q2 Q3. repeat split; auto.
    + intros t. destruct (in_dec Nat.eq_dec t [0; 1]) as [Hin|Hin]; [|now apply Hi].
      unfold idleb in Q1. rewrite andb_true_r in Q1. rewrite forallb_forall in Q1. specialize (Q1 t Hin).
      destruct (th (base (rs s)) t); auto; discriminate.
    + intros u. apply Ho. intros [].
Qed.
Lemma reclamation_met_varlen : forall osl, exists s,
  rreach (N := var_sl_ops (P := vtiny) osl) osl as_is false osl (calm_recl true) sh_var no_scans s /\
  at_rest s /\ cfr (base (rs s)) = 3 /\ gone s = [1; 2].
Proof.
  intros osl.
  destruct (run_shows_reach (N := var_sl_ops (P := vtiny) osl) osl as_is false osl [] [0; 1] (calm_reclb true [0; 1]) (calm_recl true)
    (calm_reclb_calm (O := vtiny_ord) true [0; 1]) (fun s => (idleb [] [0; 1] s, cfr (base (rs s)), gone s)) sh_var no_scans
    (expand [(Caller 0, 64); (Caller 1, 4)]) (true, 3, [1; 2])) as (s & Hr & (Hi & Ho) & Hs).
  - intros; reflexivity.
  - destruct osl; vm_compute; reflexivity.
  - exists s. split; [exact Hr|]. injection Hs as Q1 Q2 Q3. repeat split; auto.
    + intros t. destruct (in_dec Nat.eq_dec t [0; 1]) as [Hin|Hin]; [|now apply Hi].
      unfold idleb in Q1. rewrite andb_true_r in Q1. rewrite forallb_forall in Q1. specialize (Q1 t Hin).
      destruct (th (base (rs s)) t); auto; discriminate.
    + intros u. apply Ho. intros [].
Qed.

Print Assumptions C42_touches_complete.
Print Assumptions C42_scan_touches_complete.
Print Assumptions C42_calm_reclamation_psl_fixlen_partial.
Print Assumptions C42_repaired_reclamation_psl_fixlen.
Print Assumptions C42_calm_reclamation_osl_fixlen_partial.
Print Assumptions C42_repaired_reclamation_osl_fixlen.
Print Assumptions C42_calm_reclamation_psl_varlen_partial.
Print Assumptions C42_repaired_reclamation_psl_varlen.
Print Assumptions C42_calm_reclamation_osl_varlen_partial.
Print Assumptions C42_repaired_reclamation_osl_varlen.
Print Assumptions C42_shrink_refuted_fixlen.
Print Assumptions C42_shrink_refuted_varlen.
Print Assumptions C42_iterator_refuted_fixlen.
Print Assumptions C42_iterator_refuted_varlen.
