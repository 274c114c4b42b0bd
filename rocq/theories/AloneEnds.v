(** Executions without overlap: HasRecord returns.  This file is proof-side only. *)
From Coq Require Import List Arith Bool Lia Sorted.
From Verif Require Import Params Mem Common Spec ConcSpec ScanSpec NodeAbs SLIface BaseIface MLIface
  IterModel IterProofs TreeState Levels TreeHeap LevelOps SLModel SLSearch SLProofs MLModel MLSearch MLSteps
  ConcModel ConcLin ConcInv MConcModel MConcInv MConcSteps MConcMain OLaws OConcModel OConcInv OConcSteps
  OConcMain OConcCalm CScanModel CScanLin CScanProofs MScanModel MScanProofs MLeak OScanModel OScanProofs
  OScanMain SeqHist AloneModel AloneProofs AloneExact.
Import ListNotations.

Section AloneEnds.
Context {P : Params} {O : OrdLaws P} {N : MLOps P} {LW : MLLaws P N} {OW : OMLaws P N LW}.
#[local] Existing Instance base_of_ml.
#[local] Existing Instance base_laws_of_ml.
#[local] Existing Instance no_leak.

(** ** The chain of leaves *)
Definition cnt (f : addr -> bool) (n : nat) : nat := length (filter f (seq 0 n)).
Lemma cnt_le f g : (forall x, f x = true -> g x = true) ->
  forall l : list addr, length (filter f l) <= length (filter g l).
Proof.
  intros H l. induction l as [|y l IH]; cbn; [lia|].
  destruct (f y) eqn:Ef; [rewrite (H y Ef); cbn; lia|]. destruct (g y); cbn; lia.
Qed.
Lemma cnt_lt f g x : (forall y, f y = true -> g y = true) -> f x = false -> g x = true ->
  forall l : list addr, In x l -> length (filter f l) < length (filter g l).
Proof.
  intros H Hf Hg l. induction l as [|y l IH]; [intros []|]. intros [->|Hi]; cbn.
  - rewrite Hf, Hg. cbn. pose proof (cnt_le f g H l). lia.
  - specialize (IH Hi). destruct (f y) eqn:Ef; [rewrite (H y Ef); cbn; lia|]. destruct (g y); cbn; lia.
Qed.

Lemma filter_le f (l : list addr) : length (filter f l) <= length l.
Proof. induction l as [|y l IH]; cbn; [lia|]. destruct (f y); cbn; lia. Qed.

Definition less (x y : ext) : bool := if elt_dec x y then true else false.
Lemma less_ok x y : less x y = true <-> elt x y.
Proof. unfold less. destruct (elt_dec x y); split; intros; auto; try discriminate. Qed.
Lemma less_irr x : less x x = false.
Proof. destruct (less x x) eqn:E; auto. apply less_ok in E. now apply elt_irrefl in E. Qed.

Lemma leaf_rank z Ls hv lw : uinv true z Ls hv lw -> exists r : addr -> nat,
  forall a n c, och (ub z) a = Some n -> mn_inner n = false -> mn_next n = Some c -> r c < r a.
Proof.
  intros Q. pose proof (u_base _ _ _ _ _ Q) as V. set (fr := ofr (ub z)).
  exists (fun a => match och (ub z) a with
    | Some n => if mn_removed n then fr + 1 + cnt (fun x => less (lw x) (lw a)) fr else cnt (fun x => less (lw a) (lw x)) fr
    | None => 0 end).
  intros a n c En Hi Hn. rewrite En.
  assert (Hin : forall x m, och (ub z) x = Some m -> In x (seq 0 fr)).
  { intros x m Hx. apply in_seq. pose proof (i_fr _ _ _ _ V x). unfold fr. assert (och (ub z) x <> None) by congruence. match goal with H : _ -> _, H' : _ <> None |- _ => specialize (H H') end. lia. }
  destruct (mn_removed n) eqn:Er.
  - pose proof (i_okp _ _ _ _ V a n En) as H. unfold okp in H. rewrite Er in H.
    destruct (H Hi) as (_ & y & ny & Hy & Hh & _ & Hlt). assert (y = c) by congruence. subst y. rewrite Hh.
    destruct (mn_removed ny).
    + assert (cnt (fun x => less (lw x) (lw c)) fr < cnt (fun x => less (lw x) (lw a)) fr); [|lia].
      apply (cnt_lt _ _ c); [|apply less_irr|now apply less_ok|eauto].
      intros y Hy'. apply less_ok in Hy'. apply less_ok. eapply elt_trans; eauto.
    + assert (cnt (fun x => less (lw c) (lw x)) fr <= fr); [|lia].
      unfold cnt. rewrite <- (seq_length fr 0) at 2. apply filter_le.
  - pose proof (leaf_live (ub z) Ls hv lw V a n En Er Hi) as Hv.
    destruct (leaf_next _ _ _ _ _ (i_tree _ _ _ _ V) (i_heap _ _ _ _ V) (i_lo _ _ _ _ V) a n c Hv Hi Hn) as (dy & _ & _ & Hy & _).
    destruct (i_inn _ _ _ _ V c dy Hy) as (m & Em & _). rewrite Em.
    destruct (mn_removed m) eqn:Erm; [rewrite (i_dead _ _ _ _ V c m Em Erm) in Hy; discriminate|].
    destruct (leaf_facts_o z Ls hv lw V a n En Hi Er) as (A & _ & _ & _ & _ & _ & _ & _ & _ & Hlt & Hnx).
    destruct (Hnx c Hn) as (Hlc & _). rewrite <- Hlc in Hlt.
    apply (cnt_lt _ _ c); [|apply less_irr|now apply less_ok|eauto].
    intros y Hy'. apply less_ok in Hy'. apply less_ok. eapply elt_trans; eauto.
Qed.

(** ** One HasRecord *)
(** HasRecord has answered: it delivered one more record, or said that there are no more. *)
Definition answered (u : tid) (s s' : ucfg) : Prop :=
  (exists r, given (uth s' u) = given (uth s u) ++ [r]) \/
  exists lo hi, uth s' u = URet lo hi (given (uth s u)).

Definition tri (b : ocfg) (r : addr -> nat) (p : upc) : nat * nat * nat :=
  match p with
  | UReset _ _ a _ _ => (r a, 3, 0)
  | UPos _ _ a _ _ _ => (r a, 2, 0)
  | UEnd _ _ a _ _ _ _ => (r a, 1, 0)
  | ULoop _ _ a ver _ pos e _ _ => if ovs b a =? ver then (r a, 0, e - pos) else (r a, 4, 0)
  | _ => (0, 0, 0)
  end.
Definition lex (x y : nat * nat * nat) : Prop :=
  match x, y with (a, b, c), (a', b', c') => a < a' \/ (a = a' /\ (b < b' \/ (b = b' /\ c < c'))) end.
Lemma lex_wf : well_founded lex.
Proof.
  assert (H : forall a b c, Acc lex (a, b, c)).
  { induction a as [a IHa] using lt_wf_ind. induction b as [b IHb] using lt_wf_ind. induction c as [c IHc] using lt_wf_ind.
    constructor. intros [[a' b'] c'] [H|(-> & [H|(-> & H)])]; auto. }
  intros [[a b] c]. apply H.
Qed.

Lemma step_down w s z Ls hv lw r u s' : usim s z -> uinv true z Ls hv lw -> wok w s lw ->
  w = Nobody \/ w = InHas u ->
  (forall a n c, och (ub s) a = Some n -> mn_inner n = false -> mn_next n = Some c -> r c < r a) ->
  mid (uth s u) = true -> scano_step u true s = UOk s' ->
  ub s' = ub s /\
  (answered u s s' /\ moved w (UScan u true) s s' = Nobody \/
   given (uth s' u) = given (uth s u) /\ mid (uth s' u) = true /\ moved w (UScan u true) s s' = InHas u /\
   lex (tri (ub s) r (uth s' u)) (tri (ub s) r (uth s u))).
Proof.
  intros S Q W Hw Hr Hm E. pose proof (w_scan _ _ _ W u) as Hp.
  assert (Em : moved w (UScan u true) s s' = has_over u s s').
  { cbn [moved]. destruct Hw as [->| ->]; destruct (uth s u); try discriminate; reflexivity. }
  rewrite Em. unfold has_over, answered.
  assert (Hleaf : forall lo hi a, ubounds (uth s u) = Some (lo, hi) ->
    (forall i0, ubody true (ub z) lw u i0 (uth s u) -> uplaced (ub z) u a) -> forall n c, och (ub s) a = Some n -> mn_next n = Some c -> r c < r a).
  { intros lo hi a Eb Hpl n c En Hn. destruct (body_of s z Ls hv lw S Q u lo hi Eb) as (i0 & Hb).
    destruct (Hpl i0 Hb) as ((m & Hm' & Hi) & _).
    rewrite (same_pages w s z lw S W) in Hm' by (intros t; destruct Hw; congruence).
    assert (m = n) by congruence. subst m. eapply Hr; eauto. }
  unfold scano_step in E. destruct (uth s u) eqn:Eu; try discriminate; cbn [wpc ubounds] in *;
    unfold ubind, u_goto in E;
    repeat (match type of E with context [match ?x with _ => _ end] => destruct x eqn:? end; try discriminate);
    injection E as <-; cbn [ub uth]; unfold supd; rewrite !Nat.eqb_refl; cbn [given mid tri lex]; (split; [reflexivity|]).
  all: rewrite ?app_length, ?Nat.eqb_refl; cbn [length].
  all: try (left; split; [eauto; fail|reflexivity]).
  all: try (left; split; [left; eauto|match goal with |- context [?x + 1 =? ?x] => replace (x + 1 =? x) with false by (symmetry; apply Nat.eqb_neq; lia) end; reflexivity]).
  all: right; (split; [reflexivity|]); (split; [reflexivity|]); (split; [reflexivity|]).
  all: try (destruct Hp as (_ & _ & ->); rewrite Nat.eqb_refl; right; split; [reflexivity|left; lia]).
  all: repeat match goal with
    | H : opage _ _ = Some _ |- _ => apply opage_och in H
    | H : true && _ = _ |- _ => rewrite andb_true_l in H
    | H : (_ <? _) = true |- _ => apply Nat.ltb_lt in H
    end.
  all: repeat match goal with H : (ovs _ _ =? _) = _ |- _ => rewrite H end.
  all: try (right; split; [reflexivity|]; first [left; lia|right; split; [reflexivity|lia]]).
  all: left; eapply (Hleaf lo hi a eq_refl); [|eassumption|eassumption].
  all: intros i0 Hb; cbn [ubody] in Hb; first [exact (proj1 Hb)|exact (proj1 (proj1 Hb))].
Qed.

Lemma never_blocks u chk s : mid (uth s u) = true -> scano_step u chk s <> UBlock.
Proof.
  intros Hm E. unfold scano_step in E. destruct (uth s u); try discriminate; unfold ubind, u_goto in E;
    repeat (match type of E with context [match ?x with _ => _ end] => destruct x eqn:? end; try discriminate).
Qed.

Lemma has_ends r u : forall t w s z Ls hv lw, tri (ub s) r (uth s u) = t -> usim s z -> uinv true z Ls hv lw -> wok w s lw ->
  w = Nobody \/ w = InHas u ->
  (forall a n c, och (ub s) a = Some n -> mn_inner n = false -> mn_next n = Some c -> r c < r a) ->
  mid (uth s u) = true ->
  exists n s', urun false s (repeat (UScan u true) n) = Some s' /\
    one_by_one false w s (repeat (UScan u true) n) = true /\ who false w s (repeat (UScan u true) n) = Nobody /\
    answered u s s'.
Proof.
  induction t as [t IH] using (well_founded_ind lex_wf). intros w s z Ls hv lw Et S Q W Hw Hr Hm.
  assert (Ha : allowed w (UScan u true) = true) by (destruct Hw as [->| ->]; cbn; [reflexivity|apply Nat.eqb_refl]).
  pose proof (step_half w s lw _ W Ha) as H1. pose proof (step_scan w s z Ls hv lw S Q W _ Ha) as H2.
  pose proof (usim_step true s z Ls hv lw _ S Q H1 (fun _ => H2)) as R.
  destruct (ustep false (UScan u true) s) as [s1| |] eqn:E; [|now elim (never_blocks u true s Hm)|contradiction].
  destruct R as (z' & Ls' & hv' & lw' & S' & Q' & Hl & _).
  destruct (step_down w s z Ls hv lw r u s1 S Q W Hw Hr Hm E) as (Eb & [(Hans & Hmv)|(Hg & Hm1 & Hmv & Hlx)]).
  - exists 1, s1. cbn [repeat urun one_by_one who]. rewrite E, Ha, Hmv. auto.
  - pose proof (step_wok w s z Ls hv lw S Q W _ s1 z' Ls' hv' lw' Ha E S' Q' Hl) as W'. rewrite Hmv in W'.
    rewrite Et in Hlx. rewrite <- Eb in Hlx, Hr.
    destruct (IH _ Hlx (InHas u) s1 z' Ls' hv' lw' eq_refl S' Q' W' (or_intror eq_refl) Hr Hm1) as (n & s2 & U & A & B & C).
    exists (1 + n), s2. cbn [Nat.add repeat urun one_by_one who]. rewrite E, Ha, Hmv. split; [auto|]. split; [auto|]. split; [auto|].
    unfold answered in *. now rewrite <- Hg.
Qed.

(** ** Executions *)
Lemma one_state : forall sched w s z Ls hv lw, usim s z -> uinv true z Ls hv lw -> wok w s lw ->
  one_by_one false w s sched = true -> forall e, urun false s sched = Some e ->
  exists z1 Ls1 hv1 lw1, usim e z1 /\ uinv true z1 Ls1 hv1 lw1 /\ wok (who false w s sched) e lw1.
Proof.
  induction sched as [|m sched IH]; intros w s z Ls hv lw S Q W Ho e Er; cbn [one_by_one urun who] in *.
  - injection Er as ->. eauto 8.
  - destruct (ustep false m s) as [s'| |] eqn:E; [|eapply IH; eauto|discriminate].
    apply andb_true_iff in Ho as (Ha & Ho).
    pose proof (step_half w s lw m W Ha) as H1. pose proof (step_scan w s z Ls hv lw S Q W m Ha) as H2.
    pose proof (usim_step true s z Ls hv lw m S Q H1 (fun _ => H2)) as R. rewrite E in R.
    destruct R as (z' & Ls' & hv' & lw' & S' & Q' & Hl & _).
    apply (IH (moved w m s s') s' z' Ls' hv' lw'); auto. eapply step_wok; eauto.
Qed.

Lemma run_then fx r : forall l w s e, urun fx s l = Some e ->
  urun fx s (l ++ r) = urun fx e r /\ who fx w s (l ++ r) = who fx (who fx w s l) e r /\
  (one_by_one fx w s l = true -> one_by_one fx (who fx w s l) e r = true -> one_by_one fx w s (l ++ r) = true).
Proof.
  induction l as [|v l IH]; intros w s e Er; cbn [app urun who one_by_one] in *.
  - injection Er as ->. auto.
  - destruct (ustep fx v s) as [s'| |]; [|auto|discriminate].
    destruct (IH (moved w v s s') s' e Er) as (H1 & H2 & H3). split; [auto|]. split; [auto|].
    intros Ha Hb. apply andb_true_iff in Ha as (-> & Ha). cbn. auto.
Qed.

Theorem alone_answers prog scans sched u s :
  (forall t c, In c (prog t) -> mvalid (call_key c)) ->
  (forall x a b, In (a, b) (scans x) -> mvb a /\ mvb b) ->
  one_by_one false Nobody (uinit prog scans) sched = true -> urun false (uinit prog scans) sched = Some s ->
  who false Nobody (uinit prog scans) sched = Nobody ->
  (exists lo hi a ver kk pos e ie acc, uth s u = ULoop lo hi a ver kk pos e ie acc) ->
  exists n s', urun false (uinit prog scans) (sched ++ repeat (UScan u true) n) = Some s' /\
    one_by_one false Nobody (uinit prog scans) (sched ++ repeat (UScan u true) n) = true /\
    who false Nobody (uinit prog scans) (sched ++ repeat (UScan u true) n) = Nobody /\ answered u s s'.
Proof.
  intros Hp Hs Ho Er Hw (lo & hi & a & ver & kk & pos & e & ie & acc & EL).
  destruct (uinit_inv true prog scans Hp Hs) as (Ls & hv & lw & Q).
  destruct (one_state sched Nobody (uinit prog scans) (uinit prog scans) Ls hv lw) with (e := s)
    as (z1 & Ls1 & hv1 & lw1 & S1 & Q1 & W1); auto; [apply usim_init|split; cbn; auto|].
  rewrite Hw in W1. destruct (leaf_rank z1 Ls1 hv1 lw1 Q1) as (r & Hr).
  destruct (has_ends r u _ Nobody s z1 Ls1 hv1 lw1 eq_refl S1 Q1 W1 (or_introl eq_refl)) as (n & s' & U & A & B & C).
  - intros x m c Hx. rewrite <- (same_pages Nobody s z1 lw1 S1 W1) in Hx by discriminate. now apply Hr.
  - now rewrite EL.
  - destruct (run_then false (repeat (UScan u true) n) sched Nobody _ s Er) as (R1 & R2 & R3).
    rewrite Hw in R2, R3. exists n, s'. rewrite R1, R2. auto.
Qed.

End AloneEnds.
