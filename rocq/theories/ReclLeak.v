(** When nothing is going on, the pages that have not been released are exactly those that can
    be reached from the root.  This file is proof-side only, except for [reachable]. *)
From Coq Require Import List Arith Bool Lia Sorted.
From Verif Require Import Params Mem Common Spec ConcSpec ScanSpec NodeAbs SLIface BaseIface
  IterModel TreeState Levels ConcModel ConcLin ConcInv ConcHeap ConcSmo ConcThreads
  ConcSteps ConcMain CScanModel CScanLin CScanProofs CScanMain ReclModel ReclProofs ReclMain.
Import ListNotations.

Section ReclLeak.
Context {P : Params} {O : OrdLaws P} {N : SLOps P} {L : SLLaws P N}.
#[local] Existing Instance base_of_sl.
Context (osl late keep : bool).

Notation inv := (ConcInv.inv amap_empty).

(** The pages that the pointers of the tree lead to. *)
Inductive reachable (h : addr -> option nd) (r : addr) : addr -> Prop :=
| re_root : reachable h r r
| re_child a n i c : reachable h r a -> h a = Some n -> nd_inner n = true -> i < nd_rc n ->
    nd_child n i = Some c -> reachable h r c
| re_next a n b : reachable h r a -> h a = Some n -> nd_next n = Some b -> reachable h r b.

Section Quiet.
Context (s : cfg) (G : gh) (I : inv s G).
Hypothesis Hidle : forall t, th s t = PIdle.
Let H := i_heap _ _ _ I.

Lemma quiet_root : lives s G (croot s) /\ lo G (croot s) = NegInf /\ forall y, lives s G y -> lv G y <= lv G (croot s).
Proof.
  destruct (i_root _ _ _ I) as (R & HR). destruct (r_cur _ _ _ HR) as [->|(_ & _ & t & [(r & E)|(r & E)])].
  - split; [apply HR|]. split; [apply HR|]. apply (r_top _ _ _ HR).
  - rewrite Hidle in E. discriminate.
  - rewrite Hidle in E. discriminate.
Qed.

Lemma live_node a : lives s G a -> exists d, ch s a = Some d /\ nd_removed d = false /\ node_ok (cfr s) G a d /\
  nd_next d = a_next (av G a) /\ nd_inner d = negb (lv G a =? 0) /\ nd_rc d = length (a_slots (av G a)).
Proof.
  intros (Ha & Hd). destruct (h_some _ _ _ _ _ H a Ha) as (d & E). exists d.
  assert (Hr : nd_removed d = false).
  { destruct (nd_removed d) eqn:Er; auto. destruct (h_dead _ _ _ _ _ H a d E Er) as (Q & _). congruence. }
  pose proof (h_node _ _ _ _ _ H a d E Hr) as Hn.
  destruct (L_hdr _ _ (n_rep _ _ _ _ Hn)) as (I1 & _ & I3 & I4).
  split; [auto|]. split; [auto|]. split; [auto|]. split; [auto|]. split; [|auto].
  rewrite I1. apply (n_inner _ _ _ _ Hn).
Qed.

Lemma slot_entry l sl i z : nth_error sl i = Some z -> exists e, In (e, skid z) (ents l sl).
Proof.
  destruct sl as [|s0 tl]; [destruct i; discriminate|]. destruct i as [|i]; cbn.
  - intros [= ->]. eauto.
  - intros E. exists (skey z). right. change (skey z, skid z) with (sent z). apply in_map. eapply nth_error_In; eauto.
Qed.

Lemma inner_pay sl i z : inner_ok sl -> nth_error sl i = Some z -> exists c, s_pay z = PP c.
Proof.
  unfold inner_ok. destruct sl as [|s0 tl]; [intros []|]. intros ((_ & x & Hx) & Hf & _).
  destruct i as [|i]; cbn.
  - intros [= ->]. eauto.
  - intros E. rewrite Forall_forall in Hf. destruct (Hf z (nth_error_In _ _ E)) as (_ & k & c & _ & Hc). eauto.
Qed.

Lemma reach_live a : reachable (ch s) (croot s) a -> lives s G a.
Proof.
  induction 1 as [|a n i c _ IH E Hi Hc Hch|a n b _ IH E Hn]; [apply quiet_root| |].
  - destruct (live_node a IH) as (d & E' & Hr & Hok & _ & Hin & Hrc). assert (d = n) by congruence. subst d.
    assert (Hl : lv G a <> 0).
    { rewrite Hi in Hin. destruct (Nat.eqb_spec (lv G a) 0); auto; discriminate. }
    destruct (node_inner _ _ _ _ Hok Hl) as (Hia & Hb).
    destruct (nth_error (a_slots (av G a)) i) as [z|] eqn:Ez; [|apply nth_error_None in Ez; lia].
    destruct (inner_pay _ _ _ Hb Ez) as (x & Hx).
    rewrite (L_child _ _ _ _ _ (n_rep _ _ _ _ Hok) Hia Ez Hx) in Hch. injection Hch as ->.
    destruct (slot_entry (lo G a) _ _ _ Ez) as (e & He). unfold skid in He. rewrite Hx in He.
    destruct (n_kids _ _ _ _ Hok Hl e c He) as (K1 & _ & _ & K4 & _). split; auto.
    destruct IH as (_ & Hd). rewrite Hd in K4. destruct (dd G c); [destruct K4|auto].
  - destruct (live_node a IH) as (d & E' & Hr & Hok & Hnx & _). assert (d = n) by congruence. subst d.
    pose proof (n_next _ _ _ _ Hok) as Q. rewrite <- Hnx, Hn in Q.
    destruct Q as (k & _ & _ & Q1 & _ & Q2 & _). split; auto. destruct IH as (_ & Hd). rewrite Hd in Q2.
    destruct (dd G b); [destruct Q2|auto].
Qed.

(** The leftmost node of every level can be reached. *)
Lemma reach_left v : v <= lv G (croot s) -> exists a, reachable (ch s) (croot s) a /\ lv G a = v /\ lo G a = NegInf.
Proof.
  intros Hv. remember (lv G (croot s) - v) as k eqn:Ek. revert v Hv Ek. induction k as [|k IH]; intros v Hv Ek.
  - exists (croot s). split; [constructor|]. split; [lia|]. apply quiet_root.
  - destruct (IH (S v)) as (a & Ra & La & Oa); [lia|lia|].
    pose proof (reach_live a Ra) as Hl.
    destruct (live_node a Hl) as (d & E & Hr & Hok & _ & Hin & Hrc).
    assert (Hlv : lv G a <> 0) by lia. destruct (node_inner _ _ _ _ Hok Hlv) as (Hia & Hb).
    destruct (a_slots (av G a)) as [|s0 tl] eqn:Es; [destruct Hb|].
    assert (E0 : nth_error (a_slots (av G a)) 0 = Some s0) by now rewrite Es.
    rewrite <- Es in Hb. destruct (inner_pay _ 0 s0 Hb E0) as (c & Hc).
    exists c. split; [|].
    + eapply (re_child _ _ a d 0 c); eauto.
      * rewrite Hin. destruct (Nat.eqb_spec (lv G a) 0); auto; congruence.
      * rewrite Hrc. cbn. lia.
      * exact (L_child _ _ _ _ _ (n_rep _ _ _ _ Hok) Hia E0 Hc).
    + destruct (n_kids _ _ _ _ Hok Hlv (lo G a) c) as (K1 & K2 & K3 & _).
      * unfold entries_of. rewrite Es. cbn. left. unfold skid. now rewrite Hc.
      * split; [lia|congruence].
Qed.

Definition eltb (x y : ext) : bool :=
  match x, y with
  | NegInf, NegInf => false
  | NegInf, _ => true
  | Key a, Key b => ltb a b
  | Key _, PosInf => true
  | _, _ => false
  end.
Lemma eltb_ok x y : eltb x y = true <-> elt x y.
Proof. destruct x, y; cbn; split; intros; try discriminate; auto; try tauto. Qed.

Definition right_count (a : addr) : nat :=
  length (filter (fun y => eltb (lo G a) (lo G y)) (seq 0 (cfr s))).

Lemma filter_le {A} (f g : A -> bool) l : (forall x, In x l -> f x = true -> g x = true) ->
  length (filter f l) <= length (filter g l).
Proof.
  induction l as [|x l IH]; intros Hl; cbn; auto. pose proof (Hl x (or_introl eq_refl)) as Hx.
  assert (IH' := IH (fun y Hy => Hl y (or_intror Hy))).
  destruct (f x); [rewrite Hx by auto; cbn; lia|destruct (g x); cbn; lia].
Qed.
Lemma filter_lt {A} (f g : A -> bool) l x : (forall x, In x l -> f x = true -> g x = true) ->
  In x l -> f x = false -> g x = true -> length (filter f l) < length (filter g l).
Proof.
  induction l as [|y l IH]; [intros _ []|]. intros Hl [<-|Hin] Hf Hg; cbn.
  - rewrite Hf, Hg. cbn. pose proof (filter_le f g l (fun z Hz => Hl z (or_intror Hz))). lia.
  - assert (IH' := IH (fun z Hz => Hl z (or_intror Hz)) Hin Hf Hg). pose proof (Hl y (or_introl eq_refl)) as Hy.
    destruct (f y); [rewrite Hy by auto; cbn; lia|destruct (g y); cbn; lia].
Qed.

Lemma reach_all x : lives s G x -> reachable (ch s) (croot s) x.
Proof.
  intros Hx. destruct quiet_root as (_ & _ & Ht).
  destruct (reach_left (lv G x) (Ht x Hx)) as (a & Ra & La & Oa).
  assert (Hle : ele (lo G a) (lo G x)) by (rewrite Oa; apply ele_neg).
  clear Oa. remember (right_count a) as k eqn:Ek. revert a Ra La Hle Ek.
  induction k as [k IH] using lt_wf_ind. intros a Ra La Hle Ek.
  pose proof (reach_live a Ra) as Hl. destruct (live_node a Hl) as (d & E & Hr & Hok & Hnx & _).
  destruct (elt_cases (lo G x) (hi G a)) as [Hlt|Hge].
  - assert (a = x); [|now subst].
    eapply (same_point _ _ _ G (tr s) a x (lo G x) H); auto; try apply Hl; try apply Hx.
    + apply ele_refl.
    + apply (elt_hi_lo _ _ _ _ _ _ H (proj1 Hx) (proj2 Hx)).
  - pose proof (n_next _ _ _ _ Hok) as Q. destruct (a_next (av G a)) as [b|] eqn:En.
    + destruct Q as (kk & Q1 & Q2 & Q3 & Q4 & Q5 & _).
      assert (Hhi : hi G a = lo G b) by (unfold hi, hia; now rewrite Q1, Q2).
      assert (Hab : elt (lo G a) (lo G b)) by (rewrite <- Hhi; apply (n_rng _ _ _ _ Hok)).
      assert (Rb : reachable (ch s) (croot s) b) by (eapply re_next; eauto; congruence).
      apply (IH (right_count b)) with (a := b); auto; [|congruence|].
      * subst k. unfold right_count. apply (filter_lt _ _ _ b).
        -- intros y _ Hy. apply eltb_ok in Hy. apply eltb_ok. eapply elt_trans; eauto.
        -- apply in_seq. lia.
        -- destruct (eltb (lo G b) (lo G b)) eqn:Eb; auto. apply eltb_ok in Eb. now apply elt_irrefl in Eb.
        -- now apply eltb_ok.
      * rewrite Hhi in Hge. destruct Hge as [<-|Hge]; [apply ele_refl|now apply elt_ele].
    + exfalso. assert (Hhi : hi G a = PosInf) by (unfold hi, hia; now rewrite Q). rewrite Hhi in Hge.
      destruct Hge as [Hge|Hge]; [|destruct (lo G x); destruct Hge].
      pose proof (elt_hi_lo _ _ _ _ _ _ H (proj1 Hx) (proj2 Hx)) as Q'. rewrite Hge in Q'.
      destruct (hi G x); destruct Q'.
Qed.
End Quiet.

(** Who has a guard is doing something. *)
Definition busy (s : scfg) (q : party) : Prop :=
  match q with ByCall t => th (base s) t <> PIdle | ByScan u => sth s u <> SIdle end.

Lemma cstep_busy fx t s l c : cstep osl fx t s = SOk l c -> (forall r, th s t <> PRet r) -> th c t <> PIdle.
Proof.
  intros Hs Hr Hc. unfold cstep in Hs. destruct (th s t) eqn:E; unfold sbind in Hs;
    repeat (match type of Hs with context [match ?x with _ => _ end] => destruct x eqn:? end; try discriminate);
    injection Hs as <- <-; cbn [th goto setp own newp rootp] in Hc; rewrite ?supd_same in Hc;
    try discriminate; try congruence;
    try match type of Hc with comp _ ?x _ _ _ = _ => destruct x; discriminate end.
Qed.

Lemma act_busy fx A prog scans s : rreach osl fx late keep A prog scans s -> forall q, In q (act s) -> busy (rs s) q.
Proof.
  induction 1 as [|v s s' Hr IH Ha Hs]; [intros q []|].
  destruct Hs as [v s s' Ht Hs]. remember (rs s) as s0 eqn:Er.
  destruct Hs as [t s0 l c vs E Hlat Hv1 Hv2|u chk s0 p m Hck E]; subst s0; unfold after, guard_of.
  - assert (Hoth : forall q, q <> ByCall t -> busy (rs s) q ->
      busy (SCfg (emit c l) vs (sth (rs s)) (sq (rs s)) (lg (rs s) ++ [Ev l])) q).
    { intros [v|v] Hne; cbn; auto. rewrite (cstep_th osl fx _ _ _ _ v E) by congruence. auto. }
    destruct (th (base (rs s)) t) eqn:Et; cbn [call_guard act]; intros q Hq;
      try (destruct (party_dec q (ByCall t)) as [->|Hne]; [|apply Hoth; [auto|apply IH; auto]];
           cbn; eapply cstep_busy; [exact E|rewrite Et; discriminate]).
    + destruct Hq as [<-|Hq]; [cbn; eapply cstep_busy; [exact E|rewrite Et; discriminate]|].
      destruct (party_dec q (ByCall t)) as [->|Hne]; [|apply Hoth; auto].
      cbn. eapply cstep_busy; [exact E|rewrite Et; discriminate].
    + apply in_leave in Hq as (Hq & Hne). apply Hoth; auto.
  - assert (Hoth : forall q sq' lg', q <> ByScan u -> busy (rs s) q ->
      busy (SCfg (base (rs s)) (vn (rs s)) (supd (sth (rs s)) u p) sq' lg') q).
    { intros [v|v] sq' lg' Hne; cbn; auto. rewrite supd_diff by congruence. auto. }
    assert (Hself : forall sq' lg', (forall lo hi acc, sth (rs s) u <> SRet lo hi acc) ->
      busy (SCfg (base (rs s)) (vn (rs s)) (supd (sth (rs s)) u p) sq' lg') (ByScan u)).
    { intros sq' lg' Hnr. cbn. rewrite supd_same. intros ->. unfold scan_step, enter, tlift in E.
      destruct (sth (rs s) u); repeat (match type of E with context [match ?x with _ => _ end] => destruct x eqn:? end; try discriminate).
      all: try discriminate. all: try (eapply Hnr; reflexivity). all: repeat (match goal with Q : context [match ?x with _ => _ end] |- _ => match type of Q with _ = Some _ => destruct x eqn:? end end; try discriminate). all: congruence. }
    cbn [sth]. rewrite supd_same.
    destruct (sth (rs s) u) eqn:Es; cbn [scan_guard].
    1:{ cbn [act]. intros q Hq. destruct (party_dec q (ByScan u)) as [->|Hne]; [apply Hself; discriminate|].
        destruct Hq as [<-|Hq]; [now elim Hne|]. apply Hoth; auto. }
    all: destruct p; try destruct keep; cbn [act]; intros q Hq; try (apply in_leave in Hq as (Hq & ?));
      (destruct (party_dec q (ByScan u)) as [->|Hne]; [first [match goal with Q : ByScan _ <> _ |- _ => now elim Q end|apply Hself; discriminate]|apply Hoth; auto]).
Qed.

Theorem quiet_pages fx prog scans s : (forall t c, In c (prog t) -> kvalid (call_key c)) ->
  (forall u lo hi, In (lo, hi) (scans u) -> vb lo /\ vb hi) ->
  rreach osl fx late keep (recl_calm late keep fx) prog scans s ->
  (forall t, th (base (rs s)) t = PIdle) -> (forall u, sth (rs s) u = SIdle) ->
  forall a, a < cfr (base (rs s)) ->
    (reachable (ch (base (rs s))) (croot (base (rs s))) a <-> ~ released s a).
Proof.
  intros Hp Hq Hr Hi1 Hi2 a Ha. destruct (rreach_inv osl late keep fx prog scans s Hp Hq Hr) as (G & st & R).
  pose proof (ri_inv _ _ _ _ _ R) as I.
  assert (Hact : act s = []).
  { destruct (act s) as [|q l] eqn:E; auto. exfalso.
    assert (Hb : busy (rs s) q) by (eapply act_busy; eauto; rewrite E; now left).
    destruct q; cbn in Hb; auto. }
  split.
  - intros Hre Hrel. destruct (reach_live _ _ I Hi1 a Hre) as (_ & Hd).
    destruct (ri_gb _ _ _ _ _ R a [] Hrel) as (_ & _ & [(T & Q & _)|(_ & (t & r & Q) & _)]); [congruence|].
    rewrite Hi1 in Q. discriminate.
  - intros Hn. apply (reach_all _ G I Hi1). split; auto. destruct (dd G a) eqn:Ed; auto. exfalso.
    assert (Hg : gb s a <> None) by (eapply rinv_leak; eauto; congruence).
    destruct (gb s a) as [w|] eqn:Eg; [|congruence]. destruct (ri_gb _ _ _ _ _ R a w Eg) as (_ & Hw & _).
    rewrite Hact in Hw. destruct w as [|q w]; [now apply Hn|]. destruct (Hw q). now left.
Qed.

End ReclLeak.
