(** Executions of the pessimistic multi-layer tree with scans.  Proof-side only. *)
From Coq Require Import List Arith Bool Lia Sorted.
From Verif Require Import Params Mem Common Spec ConcSpec ScanSpec NodeAbs SLIface BaseIface MLIface
  IterModel IterProofs TreeState Levels TreeHeap LevelOps SLModel SLSearch SLProofs MLModel MLSearch MLSteps
  ConcModel ConcLin ConcInv MConcModel MConcInv MConcSteps MConcMain CScanModel CScanLin CScanProofs
  MScanModel MScanProofs.
Import ListNotations.

Section MScanMain.
Context {P : Params} {O : OrdLaws P} {N : MLOps P} {LW : MLLaws P N} (fx : bool).
#[local] Existing Instance no_leak.
Notation hinv := (@hinv P no_leak mn mrep).
Notation minv := (minv fx).
Notation qinv := (qinv fx).
Notation qbody := (qbody fx).

Lemma in_lock h u a v x : In v (q_lock h u a x) <-> In v (h x) \/ (v = u /\ x = a).
Proof.
  unfold q_lock, supd. destruct (Nat.eqb_spec x a) as [->|Hx]; cbn; intuition congruence.
Qed.
Lemma in_unlock h u a v x : In v (q_unlock h u a x) <-> In v (h x) /\ ~ (v = u /\ x = a).
Proof.
  unfold q_unlock, supd. destruct (Nat.eqb_spec x a) as [->|Hx].
  - rewrite filter_In. destruct (Nat.eqb_spec v u); cbn; intuition congruence.
  - intuition.
Qed.

Lemma nil_of (l : list tid) : (forall v, ~ In v l) -> l = [].
Proof. destruct l as [|x l]; auto. intros H. destruct (H x). now left. Qed.

(** A scanner moves and nothing is logged. *)
Lemma qinv_scan s Ls u h p : qinv s Ls ->
  (forall v a, In v (h a) <-> In a (qshl (supd (qth s) u p v))) ->
  (forall a, In a (qshl p) -> mxl (qb s) a = false) ->
  qbounds p = qbounds (qth s u) \/ qbounds p = None ->
  (forall i0, i0 <= length (mtr (qb s)) -> qbody (qb s) Ls i0 (qth s u) -> qbody (qb s) Ls i0 p) ->
  qinv (q_goto s u h p) Ls.
Proof.
  intros Q Hh Hx Hb Hbody. constructor; cbn [q_goto qb qsh qth qq qlg]; try apply Q.
  - exact Hh.
  - intros a Ha. unfold qrd. cbn [q_goto qsh]. enough (E : h a = []) by now rewrite E.
    apply nil_of. intros v Hv. apply Hh in Hv. unfold supd in Hv. destruct (Nat.eqb v u).
    + rewrite Hx in Ha by auto. discriminate.
    + apply (q_hold _ _ _ Q) in Hv. apply qrd_in in Hv. rewrite (q_x _ _ _ Q a Ha) in Hv. discriminate.
  - intros v. unfold supd. destruct (Nat.eqb_spec v u) as [->|Hne]; [|apply Q].
    pose proof (q_scan _ _ _ Q u) as Hu. unfold qpc_ok in *. destruct Hb as [Hb|Hb]; rewrite Hb; [|exact Logic.I].
    destruct (qbounds (qth s u)) as [[lo hi]|]; auto. destruct Hu as (V1 & V2 & i0 & Hr & Hu).
    split; [auto|]. split; [auto|]. exists i0. split; [auto|]. apply Hbody; auto.
    rewrite (q_log _ _ _ Q). eapply running_len; eauto.
Qed.

(** Latches when scanner [u] moves from [p]. *)
Lemma hold_keep s Ls u p : qinv s Ls -> qshl p = qshl (qth s u) ->
  forall v a, In v (qsh s a) <-> In a (qshl (supd (qth s) u p v)).
Proof.
  intros Q E v a. rewrite (q_hold _ _ _ Q). unfold supd. destruct (Nat.eqb_spec v u) as [->|]; [now rewrite E|tauto].
Qed.
Lemma hold_take s Ls u p c : qinv s Ls -> qshl (qth s u) = [] -> qshl p = [c] ->
  forall v a, In v (q_lock (qsh s) u c a) <-> In a (qshl (supd (qth s) u p v)).
Proof.
  intros Q E1 E2 v a. rewrite in_lock, (q_hold _ _ _ Q). unfold supd.
  destruct (Nat.eqb_spec v u) as [->|]; [rewrite E1, E2; cbn; intuition congruence|intuition].
Qed.
Lemma hold_drop s Ls u p b : qinv s Ls -> qshl (qth s u) = [b] -> qshl p = [] ->
  forall v a, In v (q_unlock (qsh s) u b a) <-> In a (qshl (supd (qth s) u p v)).
Proof.
  intros Q E1 E2 v a. rewrite in_unlock, (q_hold _ _ _ Q). unfold supd.
  destruct (Nat.eqb_spec v u) as [->|]; [rewrite E1, E2; cbn; intuition congruence|intuition].
Qed.
Lemma hold_move s Ls u p b c : qinv s Ls -> qshl (qth s u) = [b] -> qshl p = [c] -> b <> c ->
  forall v a, In v (q_unlock (q_lock (qsh s) u c) u b a) <-> In a (qshl (supd (qth s) u p v)).
Proof.
  intros Q E1 E2 Hne v a. rewrite in_unlock, in_lock, (q_hold _ _ _ Q). unfold supd.
  destruct (Nat.eqb_spec v u) as [->|]; [rewrite E1, E2; cbn; intuition congruence|intuition].
Qed.

Definition qfine (v : qmove) (s : qcfg) : Prop :=
  match qstep fx v s with
  | QOk s' => exists Ls', qinv s' Ls'
  | QBlock => True
  | QUndef => fx = false /\
      match v with
      | QCall t => exists c a, mth (qb s) t = MRd c a /\ mch (qb s) a = None
      | QScan u _ => exists lo hi a, qth s u = QDesc lo hi a /\ mch (qb s) a = None
      end
  end.

Lemma call_fine s Ls t : qinv s Ls -> qfine (QCall t) s.
Proof.
  intros Q. unfold qfine. cbn [qstep].
  pose proof (step_good fx (qrd s) (qb s) Ls t (q_base _ _ _ Q) (q_x _ _ _ Q)) as G. unfold good in G.
  destruct (mstepr fx (qrd s) t (qb s)) as [l c| |] eqn:E; auto.
  destruct G as (Ls' & M & V' & HS). exists Ls'. pose proof (step_tr fx _ _ _ _ _ E) as Htr.
  constructor; cbn [qb qsh qth qq qlg]; try apply Q; auto.
  - rewrite unmark_snoc. cbn. now rewrite Htr, (q_log _ _ _ Q).
  - apply right_snoc; [apply Q|]. discriminate.
  - intros a Ha. cbn [m_emit mxl] in Ha. destruct (step_x fx _ _ _ _ _ a E Ha) as [Q'|Q']; auto.
    now apply (q_x _ _ _ Q).
  - intros u. pose proof (q_scan _ _ _ Q u) as Hu. unfold qpc_ok in *.
    destruct (qbounds (qth s u)) as [[lo hi]|]; auto. destruct Hu as (V1 & V2 & i0 & Hr & Hb).
    split; [auto|]. split; [auto|]. exists i0. split; [apply running_snoc; auto; discriminate|].
    eapply qbody_later; eauto.
    + apply (hi_fresh _ _ _ _ _ (v_heap _ _ _ (q_base _ _ _ Q))).
    + intros a Ha. eapply qrd_in. apply (q_hold _ _ _ Q). exact Ha.
Qed.

Lemma canS_x s a : canS s a = true -> mxl s a = false.
Proof. apply negb_true_iff. Qed.

(** A step of a scanner leaves the tree as it is. *)
Lemma scan_keeps s Ls u stop : qinv s Ls ->
  match scanr_step u stop s with
  | QOk s' => qinv s' Ls /\ qb s' = qb s
  | QBlock => True
  | QUndef => fx = false /\ exists lo hi a, qth s u = QDesc lo hi a /\ mch (qb s) a = None
  end.
Proof.
  intros Q. unfold scanr_step.
  pose proof (q_base _ _ _ Q) as V. pose proof (q_scan _ _ _ Q u) as Hu. unfold qpc_ok in Hu.
  assert (Hne : forall a, mch (qb s) a <> None -> a <> 0) by (intros a; apply (ne0 fx _ _ V)).
  assert (Hlt : forall a, mch (qb s) a <> None -> a < mfr (qb s)) by (apply (hi_fresh _ _ _ _ _ (v_heap _ _ _ V))).
  assert (Hmx : forall a, In a (qshl (qth s u)) -> mxl (qb s) a = false).
  { intros a Ha. destruct (mxl (qb s) a) eqn:E; auto. apply (q_x _ _ _ Q) in E.
    apply (q_hold _ _ _ Q) in Ha. apply qrd_in in Ha. congruence. }
  destruct (qth s u) as [|lo hi|lo hi|lo hi a|lo hi a ie acc|lo hi acc] eqn:Eu; cbn [qbounds] in Hu.
  - (* QIdle *) destruct (qq s u) as [|[lo hi] q] eqn:Eq; auto. (split; [|reflexivity]).
    destruct (q_q _ _ _ Q u lo hi) as (V1 & V2); [rewrite Eq; now left|].
    constructor; cbn [qb qsh qth qq qlg]; try apply Q.
    + rewrite (q_log _ _ _ Q), unmark_app. cbn [unmark]. now rewrite app_nil_r.
    + apply right_snoc; [apply Q|]. discriminate.
    + apply (hold_keep s Ls); auto. now rewrite Eu.
    + intros u'. unfold supd. destruct (Nat.eqb_spec u' u) as [->|Hu'].
      * unfold qpc_ok. cbn [qbounds]. split; [auto|]. split; [auto|]. exists (length (unmark (qlg s))).
        split; [|exact Logic.I]. exists (qlg s), []. split; [auto|]. split; [intros ? []|auto].
      * pose proof (q_scan _ _ _ Q u') as Hu2. unfold qpc_ok in *.
        destruct (qbounds (qth s u')) as [[lo2 hi2]|]; auto. destruct Hu2 as (V3 & V4 & j0 & Hrun2 & Hb2).
        split; [auto|]. split; [auto|]. exists j0. split; [|auto].
        apply running_snoc; auto. intros m [= <-]. cbn. auto.
    + intros u' lo' hi'. unfold supd. destruct (Nat.eqb_spec u' u) as [->|Hu']; [|apply Q].
      intros Hq. apply (q_q _ _ _ Q u). rewrite Eq. now right.
  - (* QR0 *) destruct (canS (qb s) 0) eqn:Ec; auto. (split; [|reflexivity]). apply qinv_scan; auto.
    + apply (hold_take s Ls); auto. now rewrite Eu.
    + intros a [<-|[]]. now apply canS_x.
    + rewrite Eu. now left.
    + intros. exact Logic.I.
  - (* QR1 *)
    destruct (root_dom _ _ _ _ (v_tree _ _ _ V) (v_heap _ _ _ V)) as (nr & D & d & EL & HD & Hd & _ & Ho).
    rewrite Hd. cbn [qbind]. destruct (canS (qb s) (mrt (qb s))) eqn:Ec; auto. (split; [|reflexivity]).
    assert (H0 : mrt (qb s) <> 0) by (apply Hne; congruence).
    apply qinv_scan; auto.
    + apply (hold_move s Ls); auto. now rewrite Eu.
    + intros a [<-|[]]. now apply canS_x.
    + rewrite Eu. now left.
    + intros i0 _ _. cbn [MScanProofs.qbody]. split; [auto|]. split; [apply Hlt; congruence|]. right.
      split; [congruence|]. destruct lo as [[key c]|]; [apply Ho|].
      exists [(mrt (qb s), nr)]. split; [rewrite EL; now left|reflexivity].
  - (* QDesc *) destruct Hu as (V1 & V2 & i1 & Hr & Hb). cbn [MScanProofs.qbody] in Hb.
    destruct Hb as (H0 & Hl & [(Hfx & Hn)|(Hn & Hp)]).
    { rewrite Hn. cbn. split; [auto|]. eauto. }
    destruct (mch (qb s) a) as [d|] eqn:Ea; [|congruence]. cbn [qbind].
    destruct (mn_inner d) eqn:Ei.
    + assert (Hc : exists b db, descend d lo = Some b /\ mch (qb s) b = Some db /\
        match lo with Some (key, _) => onp Ls key b | None => firstp Ls b end /\ parent Ls a b).
      { unfold descend. destruct lo as [[key c]|].
        - destruct (key_child fx (qb s) Ls V a d key) as (pos & b & db & E1 & E2 & E3 & E4); auto; [eapply V1; eauto|].
          rewrite E1. eauto 10.
        - destruct (first_child fx (qb s) Ls V a d) as (b & db & E1 & E2 & E3 & E4); auto. eauto 10. }
      destruct Hc as (b & db & E1 & E2 & E3 & E4). rewrite E1. cbn [qbind]. rewrite E2. cbn [qbind].
      destruct (canS (qb s) b) eqn:Ec; auto. (split; [|reflexivity]).
      assert (Hab : a <> b).
      { intros ->. pose proof (parent_hgt _ _ (v_tree _ _ _ V) (nodup_tree fx _ _ V) _ _ E4). lia. }
      apply qinv_scan; auto.
      * apply (hold_move s Ls); auto. now rewrite Eu.
      * intros x [<-|[]]. now apply canS_x.
      * rewrite Eu. now left.
      * intros i0 _ _. cbn [MScanProofs.qbody]. split; [apply Hne; congruence|]. split; [apply Hlt; congruence|].
        right. split; [congruence|auto].
    + destruct (at_bottom fx (qb s) Ls V lo a d Ea Ei Hp) as (L1 & n & L2 & HL & Hk & Hlo).
      assert (Hgo : forall i0, i0 <= length (mtr (qb s)) -> exists ie acc',
        arrive lo hi a d lo [] = Some (QHold lo hi a ie acc') /\ qbody (qb s) Ls i0 (QHold lo hi a ie acc')).
      { intros i0 Hi0. apply (arrive_ok fx (qb s) Ls V lo hi a d L1 n L2 lo [] i0); auto.
        - apply nil_handled. exact Hlo.
        - intros ? ? []. }
      destruct (Hgo i1) as (ie & acc & E & _).
      { rewrite (q_log _ _ _ Q). eapply running_len; eauto. }
      rewrite E. cbn [qbind]. (split; [|reflexivity]). apply qinv_scan; auto.
      * apply (hold_keep s Ls); auto. now rewrite Eu.
      * rewrite Eu. now left.
      * intros i0 Hi0 _. destruct (Hgo i0 Hi0) as (ie' & acc' & E' & Hb'). congruence.
  - (* QHold *) destruct Hu as (V1 & V2 & i1 & Hr & Hb0). pose proof Hb0 as (d & Ea & Ei & Hb). rewrite Ea. cbn [qbind].
    destruct stop.
    { (split; [|reflexivity]). apply qinv_scan; auto.
      - apply (hold_drop s Ls); auto. now rewrite Eu.
      - intros ? [].
      - intros. exact Logic.I. }
    destruct ie.
    { (split; [|reflexivity]). apply qinv_scan; auto.
      - apply (hold_drop s Ls); auto. now rewrite Eu.
      - intros ? [].
      - rewrite Eu. now left.
      - intros i0 _ Hb'. rewrite Eu in Hb'. destruct Hb' as (d' & _ & _ & Hb'). exact Hb'. }
    destruct Hb as (Hn & _). destruct (mn_next d) as [b|] eqn:En; [|congruence]. cbn [qbind].
    destruct (find_leaf fx (qb s) Ls V a d Ea Ei) as (L1 & n & L2 & HL).
    destruct (next_leaf fx (qb s) Ls V a d L1 n L2 b HL En) as (m & L2' & db & EL2 & Eb & Eib & HLb & Ehi).
    rewrite Eb. cbn [qbind]. destruct (canS (qb s) b) eqn:Ec; auto.
    destruct (leaf_known fx (qb s) Ls V a d L1 n L2 HL) as (_ & _ & _ & _ & _ & _ & Hil & _ & _ & Hlh).
    assert (Hgo : forall i0, i0 <= length (mtr (qb s)) -> qbody (qb s) Ls i0 (QHold lo hi a false acc) ->
      exists ie acc', arrive lo hi b db None acc = Some (QHold lo hi b ie acc') /\ qbody (qb s) Ls i0 (QHold lo hi b ie acc')).
    { intros i0 Hi0 (d' & E' & _ & _ & B1 & B2 & B3). assert (d' = d) by congruence. subst d'.
      destruct (leaf_known fx (qb s) Ls V b db _ m L2' HLb) as (_ & _ & _ & _ & _ & _ & Hilb & _ & _ & Hlhb).
      apply (arrive_ok fx (qb s) Ls V lo hi b db (L1 ++ [(a, n)]) m L2' None acc i0); auto; rewrite ?Ehi.
      - right. split; [auto|]. intros k Hk. destruct lo as [[key c]|]; [|exact Logic.I].
        pose proof (proj1 (Hil key) (B3 key c eq_refl)) as Hkey.
        pose proof (elt_ele_trans _ _ _ Hkey Hk) as Q'. destruct c; cbn; auto. now apply klt_kle.
      - intros key c Elo. apply Hilb. eapply elt_trans; [apply Hil; eapply B3; eauto|]. now rewrite Ehi in Hlhb.
      - eapply handled_weak; [exact B1|]. intros k _ _ Hk. left. now apply Hil.
      - intros k v Hk. apply Hil. eapply B2; eauto. }
    destruct (Hgo i1) as (ie & acc' & E & _).
    { rewrite (q_log _ _ _ Q). eapply running_len; eauto. }
    { exact Hb0. }
    rewrite E. cbn [qbind]. (split; [|reflexivity]).
    assert (Hab : a <> b).
    { intros ->. destruct HLb as ((U & EL) & _). pose proof (nodup_tree fx _ _ V) as Hnd.
      rewrite EL, concat_app, map_app in Hnd. apply NoDup_app_r in Hnd. cbn [concat] in Hnd.
      rewrite app_nil_r, map_app in Hnd. eapply (NoDup_app_disj _ _ Hnd b); [|now left].
      rewrite map_app. apply in_or_app. right. now left. }
    apply qinv_scan; auto.
    + apply (hold_move s Ls); auto. now rewrite Eu.
    + intros x [<-|[]]. now apply canS_x.
    + rewrite Eu. now left.
    + intros i0 Hi0 Hb'. rewrite Eu in Hb'. destruct (Hgo i0 Hi0 Hb') as (ie' & acc2 & E' & Hb2). congruence.
  - (* QRet *) (split; [|reflexivity]). destruct Hu as (V1 & V2 & i1 & Hr & Hb). cbn [MScanProofs.qbody] in Hb.
    constructor; cbn [qb qsh qth qq qlg]; try apply Q.
    + rewrite (q_log _ _ _ Q), unmark_app. cbn [unmark]. now rewrite app_nil_r.
    + apply right_snoc; [apply Q|]. intros u' rs [= <- <-]. exists lo, hi, i1. split; [auto|].
      now rewrite <- (q_log _ _ _ Q).
    + apply (hold_keep s Ls); auto. now rewrite Eu.
    + intros u'. unfold supd. destruct (Nat.eqb_spec u' u) as [->|Hu']; [exact Logic.I|].
      pose proof (q_scan _ _ _ Q u') as Hu2. unfold qpc_ok in *.
      destruct (qbounds (qth s u')) as [[lo2 hi2]|]; auto. destruct Hu2 as (V3 & V4 & j0 & Hrun2 & Hb2).
      split; [auto|]. split; [auto|]. exists j0. split; [|auto].
      apply running_snoc; auto. intros m [= <-]. cbn. auto.
Qed.

Lemma scan_fine s Ls u stop : qinv s Ls -> qfine (QScan u stop) s.
Proof.
  intros Q. unfold qfine. cbn [qstep]. pose proof (scan_keeps s Ls u stop Q) as H.
  destruct (scanr_step u stop s); auto. exists Ls. apply H.
Qed.

Lemma qinv_step v s s' Ls : qinv s Ls -> qstep fx v s = QOk s' -> exists Ls', qinv s' Ls'.
Proof.
  intros Q E. assert (F : qfine v s) by (destruct v; [eapply call_fine|eapply scan_fine]; eauto).
  unfold qfine in F. now rewrite E in F.
Qed.
Lemma qundef v s Ls : qinv s Ls -> qstep fx v s = QUndef -> fx = false /\
  match v with
  | QCall t => exists c a, mth (qb s) t = MRd c a /\ mch (qb s) a = None
  | QScan u _ => exists lo hi a, qth s u = QDesc lo hi a /\ mch (qb s) a = None
  end.
Proof.
  intros Q E. assert (F : qfine v s) by (destruct v; [eapply call_fine|eapply scan_fine]; eauto).
  unfold qfine in F. now rewrite E in F.
Qed.

Lemma qinit_inv prog scans : (forall t c, In c (prog t) -> mvalid (call_key c)) ->
  (forall u lo hi, In (lo, hi) (scans u) -> mvb lo /\ mvb hi) -> exists Ls, qinv (qinit prog scans) Ls.
Proof.
  intros Hp Hq. eexists. constructor; cbn; auto.
  - now apply minit_inv.
  - intros [|? ?]; discriminate.
  - tauto.
Qed.

Lemma qrun_inv : forall sched s Ls, qinv s Ls ->
  match qrun fx s sched with Some s' => exists Ls', qinv s' Ls' | None => fx = false end.
Proof.
  induction sched as [|v sched IH]; intros s Ls Q; cbn [qrun]; [eauto|].
  destruct (qstep fx v s) as [s'| |] eqn:E.
  - destruct (qinv_step _ _ _ _ Q E) as (Ls' & Q'). eapply IH; eauto.
  - eapply IH; eauto.
  - eapply qundef; eauto.
Qed.

Lemma qinv_lin s Ls : qinv s Ls -> scan_linearizable amap_empty (qhistory s).
Proof.
  intros Q. apply trace_scans; [|apply Q]. rewrite <- (q_log _ _ _ Q). apply (q_base _ _ _ Q).
Qed.

Lemma qidle s Ls u a : qinv s Ls -> qth s u = QIdle -> ~ In u (qsh s a).
Proof. intros Q E H. apply (q_hold _ _ _ Q) in H. now rewrite E in H. Qed.

(** A page that is released is not latched by anybody, except for the root in ShrinkTreeIfNeeded. *)
Lemma qreleased s Ls v s' x : qinv s Ls -> qstep fx v s = QOk s' ->
  mch (qb s) x <> None -> mch (qb s') x = None -> exists t, v = QCall t /\ msx (qb s) x = Some t /\
  ((msh (qb s) x = [] /\ qsh s x = []) \/ (fx = false /\ exists c, mth (qb s) t = MShrX c x)).
Proof.
  intros Q E H1 H2. destruct v as [t|u stop]; cbn [qstep] in E.
  - destruct (mstepr fx (qrd s) t (qb s)) as [l c| |] eqn:Es; try discriminate. injection E as <-. cbn in H2.
    destruct (released fx (qrd s) t (qb s) Ls l c x (q_base _ _ _ Q) Es H1 H2) as (Hx & Hr).
    exists t. split; [auto|]. split; [auto|]. destruct Hr as [(Hr1 & Hr2)|Hr]; auto. left. split; [auto|].
    unfold qrd in Hr2. now destruct (qsh s x).
  - exfalso. apply H1. revert E H2. unfold scanr_step, qbind.
    repeat (match goal with |- context [match ?x with _ => _ end] => destruct x end; try discriminate);
      intros [= <-]; cbn; auto.
Qed.

(** ** Progress *)
Section Wait.
Variables (s : qcfg) (Ls : list lvl).
Hypothesis Q : qinv s Ls.
Let V := q_base _ _ _ Q.
Let B := qb s.

Definition goes (v : qmove) : Prop :=
  in_call s v /\ qstep fx v s <> QBlock /\ match v with QScan _ true => False | _ => True end.
Definition some_goes : Prop := exists v, goes v.

Lemma call_goes t : mth B t <> MIdle -> some_goes \/ mstepr fx (qrd s) t B = KBlock.
Proof.
  intros Ht. destruct (mstepr fx (qrd s) t B) as [l c| |] eqn:E; auto; left; exists (QCall t);
    (split; [exact Ht|]); cbn [qstep]; fold B; rewrite E; (split; [discriminate|exact Logic.I]).
Qed.
Lemma scan_goes u : qth s u <> QIdle -> some_goes \/ scanr_step u false s = QBlock.
Proof.
  intros Ht. destruct (scanr_step u false s) eqn:E; auto; left; exists (QScan u false);
    (split; [exact Ht|]); cbn [qstep]; rewrite E; (split; [discriminate|exact Logic.I]).
Qed.

(** A merge of leaves is a merge of neighbours. *)
Lemma merge_next c a b r pos nb L1 n L2 : downP Ls (mch B) c a b pos -> mergeP (mch B) a b r pos ->
  leaf_in Ls b nb L1 n L2 -> mch B b = Some nb -> mn_inner nb = false ->
  exists m L2', L2 = (r, m) :: L2'.
Proof.
  intros HP (d & nb' & nr & E1 & E2 & E3 & E4 & E5 & _) HL Eb Ei.
  destruct (down_ab fx B Ls V c a b pos HP) as (U & K1 & n0 & K2 & s1 & s0 & s2 & C1 & m & C2 & D & d' & db & EL & Epos & CX &
    Hd' & Hn & Hrd & Hin & Er & Hdb & Hmb & Hab & HF2).
  assert (d' = d) by congruence. subst d'.
  destruct (right_core _ _ _ _ _ _ _ _ _ _ _ _ _ CX d Hn) as [[Hrc' _]|(r' & m2 & C2' & s' & s2' & _ & Hs2 & HC2 & Hr')];
    [congruence|].
  rewrite <- Epos, E4 in Hr'. injection Hr' as <-.
  assert (db = nb) by congruence. subst db.
  assert (HL2 : leaf_in Ls b nb C1 m C2).
  { assert (EL2 : Ls = (U ++ [K1 ++ (a, n0) :: K2]) ++ (C1 ++ (b, m) :: C2) :: D) by (rewrite <- app_assoc; exact EL).
    pose proof (v_tree _ _ _ V) as HT. fold B in HT. rewrite EL2 in HT. apply dtree_app in HT as (_ & HD & _).
    apply mdn_level in HD. pose proof (seg_wf _ _ _ _ _ _ _ _ _ HD) as (Hw & _).
    assert (Hd0 : innerb D = false) by (rewrite <- (nw_inner _ _ _ _ Hw); rewrite <- (proj1 (M_hdr _ _ Hmb)); auto).
    destruct D; [|discriminate]. split; [eauto|]. auto. }
  destruct (leaf_uniq fx B Ls V _ _ _ _ _ _ _ _ HL HL2) as (_ & _ & ->). eauto.
Qed.

(** A scanner that holds a leaf: by the number of leaves that follow. *)
Lemma hold_goes : forall k u lo hi a ie acc d L1 n L2, qth s u = QHold lo hi a ie acc -> mch B a = Some d ->
  leaf_in Ls a d L1 n L2 -> length L2 <= k -> some_goes.
Proof.
  induction k as [k IH] using (well_founded_induction lt_wf). intros u lo hi a ie acc d L1 n L2 Eu Ea HL Hk.
  destruct (scan_goes u) as [|Es]; [congruence|auto|]. unfold scanr_step in Es. rewrite Eu in Es. fold B in Es.
  rewrite Ea in Es. cbn [qbind] in Es. destruct ie; [discriminate|].
  destruct (mn_next d) as [b|] eqn:En; [|discriminate]. cbn [qbind] in Es.
  destruct (next_leaf fx B Ls V a d L1 n L2 b HL En) as (m & L2' & db & EL2 & Eb & Eib & HLb & _).
  rewrite Eb in Es. cbn [qbind] in Es. destruct (canS B b) eqn:Ec.
  { destruct (arrive lo hi b db None acc); discriminate. }
  destruct (leaf_writer fx (qrd s) B Ls V b db Eb Eib Ec) as (t & c & p & r & pos & Et).
  pose proof (v_pc _ _ _ V t) as Hp. fold B in Hp. rewrite Et in Hp. cbn [pcok] in Hp. destruct Hp as (Hp & _ & Hm).
  destruct (merge_next _ _ _ _ _ _ _ _ _ Hp Hm HLb Eb Eib) as (mr & L3 & EL3).
  destruct Hm as (pn & nb & nr & M1 & M2 & M3 & _).
  destruct (call_goes t) as [|Ek]; [congruence|auto|]. unfold mstepr in Ek. rewrite Et in Ek.
  rewrite M1 in Ek. cbn [kbind] in Ek. rewrite M2 in Ek. cbn [kbind] in Ek. rewrite M3 in Ek. cbn [kbind] in Ek.
  assert (HLr : leaf_in Ls r nr ((L1 ++ [(a, n)]) ++ [(b, m)]) mr L3 /\ mn_inner nr = false).
  { destruct (leaf_known fx B Ls V b db _ m L2' HLb) as (_ & _ & Nb & Fb & _). rewrite EL3 in Fb. cbn in Fb.
    destruct (next_leaf fx B Ls V b db _ m L2' r HLb) as (m' & L4 & dr & EL4 & Er & Eir & HLr & _); [congruence|].
    assert (dr = nr) by congruence. subst dr. rewrite EL3 in EL4. injection EL4 as <- <-. auto. }
  destruct HLr as (HLr & Eir). assert (H0 : r <> 0) by (apply (ne0 fx B Ls V); congruence).
  destruct (canX (qrd s) B r) eqn:Ex.
  { unfold kbind in Ek. repeat (match type of Ek with context [match ?x with _ => _ end] => destruct x end; try discriminate). }
  unfold canX in Ex. destruct (msh B r) as [|v l] eqn:Er.
  - apply negb_false_iff in Ex. unfold qrd in Ex. destruct (qsh s r) as [|v l] eqn:Eq; [discriminate|].
    assert (Hv : In r (qshl (qth s v))) by (apply (q_hold _ _ _ Q); rewrite Eq; now left).
    destruct (qth s v) as [| | |lo' hi' x|lo' hi' x ie' acc'|] eqn:Ev; cbn in Hv; try tauto; destruct Hv as [Hv|[]]; try congruence; subst x.
    + destruct (scan_goes v) as [|Es2]; [congruence|auto|]. unfold scanr_step in Es2. rewrite Ev in Es2. fold B in Es2.
      rewrite M3 in Es2. cbn [qbind] in Es2. rewrite Eir in Es2. destruct (arrive lo' hi' r nr lo' []); discriminate.
    + eapply (IH (length L3)); eauto. subst L2 L2'. cbn in Hk. lia.
  - assert (Hv : In r (shl (mth B v))) by (apply (l_s _ _ _ _ _ _ (v_lat _ _ _ V)); fold B; rewrite Er; now left).
    destruct (mth B v) as [| | |c' x| | | | | | | | | | | | | | | |] eqn:Ev; cbn in Hv; try tauto; destruct Hv as [Hv|[]]; try congruence. subst x.
    destruct (call_goes v) as [|Ek2]; [congruence|auto|]. unfold mstepr in Ek2. rewrite Ev, M3 in Ek2. cbn [kbind] in Ek2.
    rewrite Eir in Ek2. destruct (mleaf_op nr c'); discriminate.
Qed.

Lemma hold_any u lo hi a ie acc : qth s u = QHold lo hi a ie acc -> some_goes.
Proof.
  intros Eu. pose proof (q_scan _ _ _ Q u) as Hu. rewrite Eu in Hu. unfold qpc_ok in Hu. cbn [qbounds] in Hu.
  destruct Hu as (_ & _ & i0 & _ & (d & Ea & Ei & _)).
  destruct (find_leaf fx B Ls V a d Ea Ei) as (L1 & n & L2 & HL). eapply hold_goes; eauto.
Qed.

Definition qrk (p : qpc) : nat :=
  match p with
  | QIdle | QRet _ _ _ | QHold _ _ _ _ _ => 0
  | QDesc _ _ a => 2 * hgt Ls a
  | QR1 _ _ => 2 * length Ls + 2
  | QR0 _ _ => 2 * length Ls + 4
  end.

Lemma ranked : forall r,
  (forall t, mth B t <> MIdle -> rk Ls (mth B t) = r -> some_goes) /\
  (forall u, qth s u <> QIdle -> qrk (qth s u) = r -> some_goes).
Proof.
  induction r as [r IH] using (well_founded_induction lt_wf).
  assert (IHc : forall t, mth B t <> MIdle -> rk Ls (mth B t) < r -> some_goes).
  { intros t Ht Hr. exact (proj1 (IH _ Hr) t Ht eq_refl). }
  assert (IHs : forall u, qth s u <> QIdle -> qrk (qth s u) < r -> some_goes).
  { intros u Hu Hr. exact (proj2 (IH _ Hr) u Hu eq_refl). }
  split.
  - intros t Ht Er. destruct (call_goes t Ht) as [|Eb]; [auto|].
    destruct (blocked fx (qrd s) B Ls V t Ht Eb) as [(u & Hu & Hr)|(x & Hx & Hx0 & Ho)]; [eapply IHc; eauto; lia|].
    unfold qrd in Hx. destruct (qsh s x) as [|v l] eqn:Eq; [discriminate|].
    assert (Hv : In x (qshl (qth s v))) by (apply (q_hold _ _ _ Q); rewrite Eq; now left).
    unfold outer in Ho.
    destruct (qth s v) as [| | |lo' hi' y|lo' hi' y ie' acc'|] eqn:Ev; cbn in Hv; try tauto; destruct Hv as [Hv|[]]; subst.
    + apply (IHs v); rewrite Ev; [discriminate|]. exact Ho.
    + apply (IHs v); rewrite Ev; [discriminate|]. cbn [qrk].
      destruct (Nat.eqb_spec x 0) as [->|]; [|exact Ho].
      pose proof (q_scan _ _ _ Q v) as Hq. rewrite Ev in Hq. unfold qpc_ok in Hq. cbn [qbounds] in Hq.
      destruct Hq as (_ & _ & i0 & _ & (Hq & _)). congruence.
    + eapply hold_any; eauto.
  - intros u Hu Er. destruct (scan_goes u Hu) as [|Eb]; [auto|].
    pose proof (q_scan _ _ _ Q u) as Hq. unfold qpc_ok in Hq.
    assert (Hne : forall a, mch B a <> None -> a <> 0) by (intros a; apply (ne0 fx _ _ V)).
    unfold scanr_step in Eb. fold B in Eb.
    destruct (qth s u) as [|lo hi|lo hi|lo hi a|lo hi a ie acc|lo hi acc] eqn:Eu; cbn [qbounds] in Hq.
    + congruence.
    + destruct (canS B 0) eqn:Ec; [discriminate|]. destruct (wait0 fx (qrd s) B Ls V Ec) as (t & H1 & H2).
      apply (IHc t H1). cbn in Er. lia.
    + destruct (root_dom _ _ _ _ (v_tree _ _ _ V) (v_heap _ _ _ V)) as (nr & D & d & _ & _ & Hd & _ & _).
      fold B in Hd. rewrite Hd in Eb. cbn [qbind] in Eb. destruct (canS B (mrt B)) eqn:Ec; [discriminate|].
      destruct (wait_root fx (qrd s) B Ls V Ec) as (t & H1 & H2). apply (IHc t H1). cbn in Er. lia.
    + destruct Hq as (V1 & V2 & i1 & _ & Hb). cbn [MScanProofs.qbody] in Hb. fold B in Hb.
      destruct Hb as (H0 & Hl & Hb). destruct (mch B a) as [d|] eqn:Ea; [|discriminate]. cbn [qbind] in Eb.
      destruct Hb as [(_ & Hb)|(_ & Hp)]; [congruence|].
      destruct (mn_inner d) eqn:Ei; [|destruct (arrive lo hi a d lo []); discriminate].
      assert (Hc : exists b db, descend d lo = Some b /\ mch B b = Some db /\ parent Ls a b).
      { unfold descend. destruct lo as [[key c]|].
        - destruct (key_child fx B Ls V a d key) as (pos & b & db & E1 & E2 & E3 & E4); auto; [eapply V1; eauto|].
          rewrite E1. eauto 10.
        - destruct (first_child fx B Ls V a d) as (b & db & E1 & E2 & E3 & E4); auto. eauto 10. }
      destruct Hc as (b & db & E1 & E2 & E3). rewrite E1 in Eb. cbn [qbind] in Eb. rewrite E2 in Eb. cbn [qbind] in Eb.
      destruct (canS B b) eqn:Ec; [discriminate|].
      destruct (child_waitR fx (qrd s) B Ls V a b E3) as (t & H1 & H2); auto.
      { apply Hne. congruence. }
      { destruct (mxl B a) eqn:Ex; auto. apply (q_x _ _ _ Q) in Ex.
        assert (Hu2 : In u (qsh s a)) by (apply (q_hold _ _ _ Q); rewrite Eu; now left).
        apply qrd_in in Hu2. congruence. }
      apply (IHc t H1). cbn in Er. lia.
    + eapply hold_any; eauto.
    + discriminate.
Qed.

Theorem qprogress v : in_call s v -> some_goes.
Proof.
  destruct v as [t|u stop]; cbn [in_call]; intros H.
  - exact (proj1 (ranked _) t H eq_refl).
  - exact (proj2 (ranked _) u H eq_refl).
Qed.
End Wait.

(** ** Calm executions *)
Definition qcalm_at (v : qmove) (s : qcfg) : bool :=
  match v with
  | QCall t => match mth (qb s) t with MShrX _ a => canX (qrd s) (qb s) a | _ => true end
  | QScan _ _ => true
  end.
Fixpoint qcalm (s : qcfg) (sched : list qmove) : bool :=
  match sched with
  | [] => true
  | v :: sched' =>
      qcalm_at v s &&
      match qstep false v s with
      | QOk s' => qcalm s' sched'
      | QBlock => qcalm s sched'
      | QUndef => true
      end
  end.
Lemma qcalm_step v s : qcalm_at v s = true -> qstep false v s = qstep true v s.
Proof.
  destruct v as [t|]; [|reflexivity]. unfold qcalm_at, qstep, mstepr. destruct (mth (qb s) t); auto.
  intros ->. reflexivity.
Qed.
Lemma qcalm_run : forall sched s, qcalm s sched = true -> qrun false s sched = qrun true s sched.
Proof.
  induction sched as [|v sched IH]; intros s Hc; cbn [qrun qcalm] in *; auto.
  apply andb_true_iff in Hc as [H1 H2]. rewrite <- (qcalm_step v s H1).
  destruct (qstep false v s); auto.
Qed.

End MScanMain.
