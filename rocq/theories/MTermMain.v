(** Every call and every scan of the concurrent pessimistic multi-layer tree comes to an end
    when all who can move are allowed to move again and again.  Proof-side only. *)
From Coq Require Import List Arith Bool Lia Sorted Permutation Wellfounded.Lexicographic_Product Relation_Operators.
From Verif Require Import Params Mem Common Spec NodeAbs SLIface BaseIface MLIface TreeState Levels TreeHeap
  LevelOps SLModel SLSearch SLSplit SLMerge SLProofs MLModel MLSearch MLSteps ConcSpec ScanSpec ConcModel ConcLin
  MConcModel MConcInv MConcSteps MConcMain CScanModel CScanLin MScanModel MScanProofs MScanMain MTermProofs.
Import ListNotations.

(** ** Sums over the first [n] threads *)
Fixpoint sumn (n : nat) (f : nat -> nat) : nat :=
  match n with O => 0 | S m => sumn m f + f m end.

Lemma sumn_le n f g : (forall i, i < n -> f i <= g i) -> sumn n f <= sumn n g.
Proof.
  induction n as [|n IH]; intros H; cbn; [auto|]. specialize (IH ltac:(auto)). specialize (H n ltac:(lia)). lia.
Qed.
Lemma sumn_lt n f g k : k < n -> (forall i, i < n -> f i <= g i) -> f k < g k -> sumn n f < sumn n g.
Proof.
  intros Hk H Hlt. induction n as [|n IH]; [lia|]. cbn.
  pose proof (sumn_le n f g ltac:(auto)). pose proof (H n ltac:(lia)).
  destruct (Nat.eq_dec k n) as [->|]; [lia|]. specialize (IH ltac:(lia) ltac:(auto)). lia.
Qed.
Lemma sumn_eq n f g : (forall i, i < n -> f i = g i) -> sumn n f = sumn n g.
Proof. induction n as [|n IH]; intros H; cbn; [auto|]. rewrite IH by auto. now rewrite H by lia. Qed.

(** ** Three measures, the first of which counts most *)
Definition lt3 (x y : nat * nat * nat) : Prop :=
  match x, y with (a, b, c), (a', b', c') => a < a' \/ (a = a' /\ (b < b' \/ (b = b' /\ c < c'))) end.
Lemma lt3_wf : well_founded lt3.
Proof.
  intros [[a b] c]. revert b c. induction a as [a IHa] using lt_wf_ind. intros b.
  induction b as [b IHb] using lt_wf_ind. intros c. induction c as [c IHc] using lt_wf_ind.
  constructor. intros [[a' b'] c'] H. cbn in H. destruct H as [H|[-> [H|[-> H]]]]; auto.
Qed.

Section MTermMain.
Context {P : Params} {O : OrdLaws P} {N : MLOps P} {LW : MLLaws P N} (fx : bool).
#[local] Existing Instance no_leak.
#[local] Existing Instance base_of_ml.
Notation minv := (minv fx).
Notation qinv := (qinv fx).

(** How many leaves come after [a]. *)
Fixpoint rest (a : addr) (L : lvl) : nat :=
  match L with [] => 0 | (b, _) :: L' => if Nat.eqb b a then length L' else rest a L' end.
Lemma rest_le a L : rest a L <= length L.
Proof. induction L as [|[b n] L IH]; cbn; [auto|]. destruct (Nat.eqb b a); lia. Qed.
Lemma rest_at a n L1 L2 : ~ In a (map fst L1) -> rest a (L1 ++ (a, n) :: L2) = length L2.
Proof.
  induction L1 as [|[b m] L1 IH]; cbn; intros H.
  - now rewrite Nat.eqb_refl.
  - destruct (Nat.eqb_spec b a); [tauto|]. apply IH. tauto.
Qed.

Lemma leaf_rest s Ls a d L1 n L2 : minv s Ls -> leaf_in Ls a d L1 n L2 -> rest a (last Ls []) = length L2.
Proof.
  intros V ((U & EL) & _). pose proof (nodup_tree fx s Ls V) as Hn. rewrite EL in Hn |- *.
  unfold lvl in *. rewrite last_last. apply rest_at. rewrite concat_app, map_app in Hn. apply NoDup_app_r in Hn.
  cbn [concat] in Hn. rewrite app_nil_r, map_app in Hn. cbn [map fst] in Hn.
  intros Hi. eapply (NoDup_app_disj _ _ Hn a Hi). now left.
Qed.

Definition room3 (Ls : list lvl) : nat := length Ls + length (last Ls []) + 3.
(** How far a scan has still to go. *)
Definition qrank (Ls : list lvl) (p : qpc) : nat :=
  match p with
  | QIdle => 0
  | QR0 _ _ => room3 Ls + 2
  | QR1 _ _ => room3 Ls + 1
  | QDesc _ _ a => length (last Ls []) + 3 + hgt Ls a
  | QHold _ _ a _ _ => 2 + rest a (last Ls [])
  | QRet _ _ _ => 1
  end.

Definition mA (n : nat) (s : mcfg) : nat := sumn n (fun t => 4 * length (mpg s t) + pre (mth s t)).
Definition mB (n : nat) (s : mcfg) (Ls : list lvl) : nat := sumn n (fun t => rank Ls (mth s t)).
Definition mC (m : nat) (s : qcfg) (Ls : list lvl) : nat :=
  sumn m (fun u => length (qq s u) * (room3 Ls + 3) + qrank Ls (qth s u)).
Definition meas (n m : nat) (s : qcfg) (Ls : list lvl) : nat * nat * nat :=
  (mA n (qb s), mB n (qb s) Ls, mC m s Ls).

(** Only the first [n] callers and the first [m] scanners have anything to do. *)
Definition quiet (n m : nat) (s : qcfg) : Prop :=
  (forall t, n <= t -> mth (qb s) t = MIdle /\ mpg (qb s) t = []) /\
  (forall u, m <= u -> qth s u = QIdle /\ qq s u = []).
Definition all_done (s : qcfg) : Prop :=
  (forall t, mth (qb s) t = MIdle /\ mpg (qb s) t = []) /\
  (forall u, qth s u = QIdle /\ qq s u = []).

Lemma call_down n m s Ls t s' : qinv s Ls -> quiet n m s -> qstep fx (QCall t) s = QOk s' ->
  exists Ls', qinv s' Ls' /\ quiet n m s' /\ lt3 (meas n m s' Ls') (meas n m s Ls).
Proof.
  intros Q (Q1 & Q2) E. destruct (qinv_step fx _ _ _ _ Q E) as (Ls' & Q'). exists Ls'. split; [auto|].
  cbn [qstep] in E. destruct (mstepr fx (qrd s) t (qb s)) as [l c| |] eqn:Es; try discriminate. injection E as <-.
  pose proof (q_base _ _ _ Q) as V. pose proof (q_base _ _ _ Q') as V'. cbn [qb] in V'.
  destruct (step_rank fx _ _ _ _ _ _ _ V Es V') as (Ho & Hc).
  pose proof (step_alike fx _ _ _ _ _ _ V Es) as HA.
  assert (Ht : t < n).
  { destruct (le_lt_dec n t) as [Hn|]; [|auto]. destruct (Q1 t Hn) as (H1 & H2).
    destruct Hc as [(c0 & cs & _ & Hp & _)|(Hi & _)]; congruence. }
  split.
  - split; [|exact Q2]. cbn [qb m_emit mth mpg]. intros u Hu. assert (Hut : u <> t) by lia.
    rewrite (Ho u Hut). split; [now apply Q1|].
    destruct Hc as [(c0 & cs & _ & _ & Hp & _)|(_ & Hp & _)]; rewrite Hp; [rewrite supd_diff by auto|]; now apply Q1.
  - unfold meas, lt3. cbn [qb]. unfold mA, mB. cbn [m_emit mpg mth].
    destruct Hc as [(c0 & cs & Hi & Hp & Hp' & Hpre)|(Hi & Hp & [Hpre|(Hpre & Hpre' & Hr)])].
    + left. apply sumn_lt with t; auto.
      * intros i Hin. rewrite Hp'. destruct (Nat.eq_dec i t) as [->|Hne].
        -- rewrite supd_same, Hp, Hpre, Hi. cbn [length pre]. lia.
        -- rewrite supd_diff, (Ho i Hne) by auto. lia.
      * rewrite Hp', supd_same, Hp, Hpre, Hi. cbn [length pre]. lia.
    + left. rewrite Hp. apply sumn_lt with t; [auto| |lia]. intros i Hin.
      destruct (Nat.eq_dec i t) as [->|Hne]; [lia|]. rewrite (Ho i Hne). lia.
    + right. rewrite Hp. split.
      * apply sumn_eq. intros i Hin. destruct (Nat.eq_dec i t) as [->|Hne]; [lia|]. now rewrite (Ho i Hne).
      * left. apply sumn_lt with t; [auto| |auto]. intros i Hin.
        destruct (Nat.eq_dec i t) as [->|Hne]; [lia|]. rewrite (Ho i Hne).
        exact (rank_other fx (qb s) Ls (m_emit c l) Ls' i V V' HA).
Qed.

Lemma scan_down n m s Ls u stop s' : qinv s Ls -> quiet n m s -> qstep fx (QScan u stop) s = QOk s' ->
  exists Ls', qinv s' Ls' /\ quiet n m s' /\ lt3 (meas n m s' Ls') (meas n m s Ls).
Proof.
  intros Q (Q1 & Q2) E. cbn [qstep] in E. exists Ls.
  pose proof (scan_keeps fx s Ls u stop Q) as Hk. rewrite E in Hk. destruct Hk as (Q' & Hb).
  pose proof (q_base _ _ _ Q) as V. split; [auto|].
  assert (Hc : (forall v, v <> u -> qth s' v = qth s v /\ qq s' v = qq s v) /\ u < m /\
    length (qq s' u) * (room3 Ls + 3) + qrank Ls (qth s' u) < length (qq s u) * (room3 Ls + 3) + qrank Ls (qth s u)).
  { pose proof (q_scan _ _ _ Q u) as Hu. unfold qpc_ok in Hu.
    assert (Hm : qth s u <> QIdle \/ qq s u <> [] -> u < m).
    { intros Hx. destruct (le_lt_dec m u) as [Hn|]; [|auto]. destruct (Q2 u Hn). tauto. }
    unfold scanr_step in E.
    destruct (qth s u) as [|lo hi|lo hi|lo hi a|lo hi a ie acc|lo hi acc] eqn:Eu; cbn [qbounds] in Hu.
    - destruct (qq s u) as [|[lo hi] q] eqn:Eq; [discriminate|]. injection E as <-.
      cbn [qth qq]. rewrite !supd_same. split; [intros v Hv; now rewrite !supd_diff|].
      split; [apply Hm; right; discriminate|]. cbn [length qrank]. lia.
    - destruct (canS (qb s) 0); [|discriminate]. injection E as <-. cbn [q_goto qth qq]. rewrite supd_same.
      split; [intros v Hv; now rewrite supd_diff|]. split; [apply Hm; left; discriminate|]. cbn [qrank]. lia.
    - destruct (mch (qb s) (mrt (qb s))); [|discriminate]. cbn [qbind] in E.
      destruct (canS (qb s) (mrt (qb s))); [|discriminate]. injection E as <-. cbn [q_goto qth qq]. rewrite supd_same.
      split; [intros v Hv; now rewrite supd_diff|]. split; [apply Hm; left; discriminate|]. cbn [qrank].
      pose proof (hgt_le Ls (mrt (qb s))). unfold room3. lia.
    - destruct Hu as (V1 & V2 & i1 & _ & Hb0). cbn [qbody] in Hb0.
      destruct (mch (qb s) a) as [d|] eqn:Ea; [|discriminate]. cbn [qbind] in E.
      destruct Hb0 as (_ & _ & [[_ Hx]|[_ Hp]]); [discriminate|].
      destruct (mn_inner d) eqn:Ei.
      + destruct (descend d lo) as [c|] eqn:Ed; [|discriminate]. cbn [qbind] in E.
        destruct (mch (qb s) c) as [dc|] eqn:Ec; [|discriminate]. cbn [qbind] in E.
        destruct (canS (qb s) c); [|discriminate]. injection E as <-. cbn [q_goto qth qq]. rewrite supd_same.
        split; [intros v Hv; now rewrite supd_diff|]. split; [apply Hm; left; discriminate|]. cbn [qrank].
        assert (Hpar : parent Ls a c).
        { unfold descend in Ed. destruct lo as [[key cl]|].
          - destruct (routep d key) as [[pos b]|] eqn:Er; [|discriminate]. injection Ed as <-.
            destruct (key_child fx (qb s) Ls V a d key) as (pos' & b' & db & E1 & E2 & E3 & E4); auto; [eapply V1; eauto|].
            congruence.
          - destruct (first_child fx (qb s) Ls V a d) as (b & db & E1 & E2 & E3 & E4); auto. congruence. }
        pose proof (parent_hgt _ _ (v_tree _ _ _ V) (nodup_tree fx _ _ V) _ _ Hpar). lia.
      + unfold arrive in E. destruct (first_pos d lo) as [pos|]; [|discriminate].
        destruct (mn_endpos d hi) as [[ie e]|]; [|discriminate].
        destruct (leaf_recs d pos (e - pos)) as [l|]; [|discriminate]. cbn [qbind] in E. injection E as <-.
        cbn [q_goto qth qq]. rewrite supd_same.
        split; [intros v Hv; now rewrite supd_diff|]. split; [apply Hm; left; discriminate|]. cbn [qrank].
        pose proof (rest_le a (last Ls [])). lia.
    - destruct Hu as (V1 & V2 & i1 & _ & (d & Ea & Ei & _)). rewrite Ea in E. cbn [qbind] in E.
      destruct stop.
      { injection E as <-. cbn [q_goto qth qq]. rewrite supd_same.
        split; [intros v Hv; now rewrite supd_diff|]. split; [apply Hm; left; discriminate|]. cbn [qrank]. lia. }
      destruct ie.
      { injection E as <-. cbn [q_goto qth qq]. rewrite supd_same.
        split; [intros v Hv; now rewrite supd_diff|]. split; [apply Hm; left; discriminate|]. cbn [qrank]. lia. }
      destruct (mn_next d) as [b|] eqn:En; [|discriminate]. cbn [qbind] in E.
      destruct (find_leaf fx (qb s) Ls V a d Ea Ei) as (L1 & n0 & L2 & HL).
      destruct (next_leaf fx (qb s) Ls V a d L1 n0 L2 b HL En) as (nb & L2' & db & EL2 & Eb & Eib & HLb & Ehi).
      rewrite Eb in E. cbn [qbind] in E. destruct (canS (qb s) b); [|discriminate].
      unfold arrive in E. destruct (first_pos db None) as [pos|]; [|discriminate].
      destruct (mn_endpos db hi) as [[ie e]|]; [|discriminate].
      destruct (leaf_recs db pos (e - pos)) as [l|]; [|discriminate]. cbn [qbind] in E. injection E as <-.
      cbn [q_goto qth qq]. rewrite supd_same.
      split; [intros v Hv; now rewrite supd_diff|]. split; [apply Hm; left; discriminate|]. cbn [qrank].
      rewrite (leaf_rest _ _ _ _ _ _ _ V HL), (leaf_rest _ _ _ _ _ _ _ V HLb), EL2. cbn [length]. lia.
    - injection E as <-. cbn [qth qq]. rewrite supd_same.
      split; [intros v Hv; now rewrite supd_diff|]. split; [apply Hm; left; discriminate|]. cbn [qrank]. lia. }
  destruct Hc as (Ho & Hm & Hlt). split.
  - split; [now rewrite Hb|]. intros v Hv. assert (Hvu : v <> u) by lia. destruct (Ho v Hvu) as (-> & ->). auto.
  - unfold meas, lt3. rewrite Hb. right. split; [auto|]. right. split; [auto|]. unfold mC.
    apply sumn_lt with u; auto. intros i Hi. destruct (Nat.eq_dec i u) as [->|Hne]; [lia|].
    destruct (Ho i Hne) as (-> & ->). lia.
Qed.

Lemma step_down n m s Ls v s' : qinv s Ls -> quiet n m s -> qstep fx v s = QOk s' ->
  exists Ls', qinv s' Ls' /\ quiet n m s' /\ lt3 (meas n m s' Ls') (meas n m s Ls).
Proof. destruct v; [apply call_down|apply scan_down]. Qed.

(** ** Who is left *)
Lemma first_busy (f : nat -> bool) n : (exists t, t < n /\ f t = true) \/ (forall t, t < n -> f t = false).
Proof.
  induction n as [|n IH]; [right; lia|]. destruct IH as [(t & Ht & Hf)|IH].
  - left. exists t. split; [lia|auto].
  - destruct (f n) eqn:E; [left; exists n; auto|]. right. intros t Ht.
    destruct (Nat.eq_dec t n) as [->|]; [auto|]. apply IH. lia.
Qed.
Definition mbusy (s : qcfg) (t : tid) : bool := match mth (qb s) t, mpg (qb s) t with MIdle, [] => false | _, _ => true end.
Definition qbusy (s : qcfg) (u : tid) : bool := match qth s u, qq s u with QIdle, [] => false | _, _ => true end.

(** The moves that have to be offered again and again. *)
Definition asks (n m : nat) (v : qmove) : Prop :=
  match v with QCall t => t < n | QScan u stop => u < m /\ stop = false end.

Lemma some_ask n m s Ls : qinv s Ls -> quiet n m s ->
  all_done s \/ exists v, asks n m v /\ qstep fx v s <> QBlock.
Proof.
  intros Q (Q1 & Q2).
  assert (Hin : (exists v, in_call s v) -> exists v, asks n m v /\ qstep fx v s <> QBlock).
  { intros (v & Hv). destruct (qprogress fx s Ls Q v Hv) as (w & Hw & Hs & Hst). exists w. split; [|auto].
    destruct w as [t|u [|]]; cbn in *; [|tauto|].
    - destruct (le_lt_dec n t) as [Hn|]; [|auto]. destruct (Q1 t Hn). congruence.
    - split; [|auto]. destruct (le_lt_dec m u) as [Hn|]; [|auto]. destruct (Q2 u Hn). congruence. }
  destruct (first_busy (mbusy s) n) as [(t & Ht & Hf)|Hn].
  { right. unfold mbusy in Hf. destruct (mth (qb s) t) eqn:E;
      try (apply Hin; exists (QCall t); cbn; congruence).
    destruct (mpg (qb s) t) as [|c cs] eqn:Ep; [discriminate|]. exists (QCall t). split; [exact Ht|].
    cbn [qstep]. unfold mstepr. rewrite E, Ep. discriminate. }
  destruct (first_busy (qbusy s) m) as [(u & Hu & Hf)|Hm].
  { right. unfold qbusy in Hf. destruct (qth s u) eqn:E;
      try (apply Hin; exists (QScan u false); cbn; congruence).
    destruct (qq s u) as [|[lo hi] cs] eqn:Ep; [discriminate|]. exists (QScan u false). split; [cbn; auto|].
    cbn [qstep]. unfold scanr_step. rewrite E, Ep. discriminate. }
  left. split.
  - intros t. destruct (le_lt_dec n t) as [Ht|Ht]; [now apply Q1|]. specialize (Hn t Ht). unfold mbusy in Hn.
    destruct (mth (qb s) t), (mpg (qb s) t); try discriminate. auto.
  - intros u. destruct (le_lt_dec m u) as [Hu|Hu]; [now apply Q2|]. specialize (Hm u Hu). unfold qbusy in Hm.
    destruct (qth s u), (qq s u); try discriminate. auto.
Qed.

(** [sched] offers every one of these moves again and again. *)
Definition fair (n m : nat) (sched : nat -> qmove) : Prop :=
  forall v, asks n m v -> forall i, exists j, i <= j /\ sched j = v.

Theorem fair_done n m sched : fair n m sched -> forall s Ls i, qinv s Ls -> quiet n m s ->
  exists k, match qrun fx s (map sched (seq i k)) with
            | Some s' => all_done s'
            | None => fx = false
            end.
Proof.
  intros HF s Ls. remember (meas n m s Ls) as x eqn:Ex. revert s Ls Ex.
  induction x as [x IH] using (well_founded_induction lt3_wf). intros s Ls -> i Q HQ.
  destruct (some_ask n m s Ls Q HQ) as [Hd|(v & Hv & Hs)]; [exists 0; exact Hd|].
  destruct (HF v Hv i) as (j & Hj & Ej).
  assert (Hd : exists d, i + d = j) by (exists (j - i); lia). destruct Hd as (d & Hd). clear Hj.
  revert i Hd. induction d as [|d IHd]; intros i Hd.
  - assert (i = j) by lia. subst i. destruct (qstep fx v s) as [s'| |] eqn:E; [|congruence|].
    + destruct (step_down n m s Ls v s' Q HQ E) as (Ls' & Q' & HQ' & Hlt).
      destruct (IH _ Hlt s' Ls' eq_refl (S j) Q' HQ') as (k & Hk).
      exists (S k). cbn [seq map qrun]. now rewrite Ej, E.
    + exists 1. cbn [seq map qrun]. rewrite Ej, E. exact (proj1 (qundef fx v s Ls Q E)).
  - destruct (qstep fx (sched i) s) as [s'| |] eqn:E.
    + destruct (step_down n m s Ls (sched i) s' Q HQ E) as (Ls' & Q' & HQ' & Hlt).
      destruct (IH _ Hlt s' Ls' eq_refl (S i) Q' HQ') as (k & Hk).
      exists (S k). cbn [seq map qrun]. now rewrite E.
    + destruct (IHd (S i) ltac:(lia)) as (k & Hk). exists (S k). cbn [seq map qrun]. now rewrite E.
    + exists 1. cbn [seq map qrun]. rewrite E. exact (proj1 (qundef fx _ s Ls Q E)).
Qed.

(** ** What has been answered *)
Definition is_ans (t : tid) (e : marked event) : bool :=
  match e with Ev (ERes u _) => Nat.eqb u t | _ => false end.
Definition is_end (u : tid) (e : marked event) : bool :=
  match e with Mk (MEnd v _) => Nat.eqb v u | _ => false end.
Definition mbusy1 (p : mpc) : nat := match p with MIdle => 0 | _ => 1 end.
Definition qbusy1 (p : qpc) : nat := match p with QIdle => 0 | _ => 1 end.

Definition nans (t : tid) (h : list (marked event)) : nat := length (filter (is_ans t) h).
Definition nend (u : tid) (h : list (marked event)) : nat := length (filter (is_end u) h).

Lemma count_call rd t s l s' x : mstepr fx rd t s = KOk l s' ->
  nans x (mevents [Ev l]) + length (mpg s' x) + mbusy1 (mth s' x) = length (mpg s x) + mbusy1 (mth s x).
Proof.
  intros H. unfold mstepr in H.
  assert (Hs : forall p, mbusy1 (mth s t) = mbusy1 p -> mbusy1 (supd (mth s) t p x) = mbusy1 (mth s x)).
  { intros p Hp. unfold supd. destruct (Nat.eqb_spec x t) as [->|]; auto. }
  destruct (mth s t) eqn:E; cbv zeta in H;
    repeat match type of H with
    | kbind ?o _ = KOk _ _ => destruct o; [cbn [kbind] in H | discriminate H]
    | (if ?b then _ else _) = KOk _ _ => destruct b
    | KBlock = _ => discriminate H
    | match ?l with [] => _ | _ :: _ => _ end = KOk _ _ => destruct l eqn:?
    end; try discriminate H; injection H as <- <-.
  1: { cbn. unfold supd. destruct (Nat.eqb_spec x t) as [->|]; [|lia]. rewrite E, Heql0. destruct (is_read c); cbn; lia. }
  all: repeat match goal with |- context [if ?b then _ else _] => destruct b end;
    cbn [m_goto m_x m_root m_free m_own m_set m_new m_lockS m_unlockS mth mpg];
    unfold m_clean; repeat match goal with |- context [match ?o with None => _ | _ => _ end] => destruct o end;
    cbn [m_set mth mpg mevents nans filter is_ans length].
  all: try (rewrite Hs by reflexivity; cbn; lia).
  cbn. rewrite (Nat.eqb_sym t x). unfold supd. destruct (Nat.eqb_spec x t) as [->|]; cbn; [rewrite E|]; cbn; lia.
Qed.

Lemma nans_app t a b : nans t (a ++ b) = nans t a + nans t b.
Proof. unfold nans. now rewrite filter_app, app_length. Qed.
Lemma nend_app t a b : nend t (a ++ b) = nend t a + nend t b.
Proof. unfold nend. now rewrite filter_app, app_length. Qed.

(** Answers, plus what is still to be done, are as many as the calls. *)
Definition calls_kept (prog : tid -> list call) (s : qcfg) : Prop := forall t,
  nans t (qhistory s) + length (mpg (qb s) t) + mbusy1 (mth (qb s) t) = length (prog t).
Definition scans_kept (scans : tid -> list (bound * bound)) (u : tid) (s : qcfg) : Prop :=
  nend u (qhistory s) + length (qq s u) + qbusy1 (qth s u) = length (scans u).

Lemma scanr_log u stop s s' : scanr_step u stop s = QOk s' ->
  qb s' = qb s /\ (forall t, nans t (qhistory s') = nans t (qhistory s)) /\
  forall v, (v <> u \/ stop = false) ->
    nend v (qhistory s') + length (qq s' v) + qbusy1 (qth s' v) =
    nend v (qhistory s) + length (qq s v) + qbusy1 (qth s v).
Proof.
  intros E. unfold scanr_step in E.
  assert (Hgo : forall h p, (stop = false -> qbusy1 p = qbusy1 (qth s u)) -> s' = q_goto s u h p ->
    qb s' = qb s /\ (forall t, nans t (qhistory s') = nans t (qhistory s)) /\
    forall v, (v <> u \/ stop = false) ->
      nend v (qhistory s') + length (qq s' v) + qbusy1 (qth s' v) =
      nend v (qhistory s) + length (qq s v) + qbusy1 (qth s v)).
  { intros h p Hp ->. split; [reflexivity|]. split; [reflexivity|]. intros v Hv. unfold qhistory. cbn [q_goto qlg qq qth].
    unfold supd. destruct (Nat.eqb_spec v u) as [->|]; [|reflexivity]. destruct Hv as [|Hv]; [congruence|].
    now rewrite (Hp Hv). }
  destruct (qth s u) as [|lo hi|lo hi|lo hi a|lo hi a ie acc|lo hi acc] eqn:Eu.
  - destruct (qq s u) as [|[lo hi] q] eqn:Eq; [discriminate|]. injection E as <-.
    split; [reflexivity|]. unfold qhistory. cbn [qlg qq qth]. rewrite mevents_app. cbn [mevents].
    split; [intros t; rewrite nans_app; cbn; lia|]. intros v _. rewrite nend_app. cbn [nend filter is_end length].
    unfold supd. destruct (Nat.eqb_spec v u) as [->|]; [rewrite Eu, Eq; cbn; lia|cbn; lia].
  - destruct (canS (qb s) 0); [|discriminate]. injection E as <-. eapply Hgo; [|reflexivity]. reflexivity.
  - destruct (mch (qb s) (mrt (qb s))); [|discriminate]. cbn [qbind] in E.
    destruct (canS (qb s) (mrt (qb s))); [|discriminate]. injection E as <-. eapply Hgo; [|reflexivity]. reflexivity.
  - destruct (mch (qb s) a) as [d|] eqn:Ea; [|discriminate]. cbn [qbind] in E. destruct (mn_inner d) eqn:Ei.
    + destruct (descend d lo) as [c|] eqn:Ed; [|discriminate]. cbn [qbind] in E.
      destruct (mch (qb s) c) as [dc|] eqn:Ec; [|discriminate]. cbn [qbind] in E.
      destruct (canS (qb s) c); [|discriminate]. injection E as <-. eapply Hgo; [|reflexivity]. reflexivity.
    + unfold arrive in E. destruct (first_pos d lo) as [pos|]; [|discriminate].
      destruct (mn_endpos d hi) as [[ie e]|]; [|discriminate].
      destruct (leaf_recs d pos (e - pos)) as [l|]; [|discriminate]. cbn [qbind] in E. injection E as <-.
      eapply Hgo; [|reflexivity]. reflexivity.
  - destruct (mch (qb s) a) as [d|] eqn:Ea; [|discriminate]. cbn [qbind] in E.
    destruct stop; [injection E as <-; eapply Hgo; [|reflexivity]; discriminate|].
    destruct ie; [injection E as <-; eapply Hgo; [|reflexivity]; reflexivity|].
    destruct (mn_next d) as [b|] eqn:En; [|discriminate]. cbn [qbind] in E.
    destruct (mch (qb s) b) as [db|]; [|discriminate]. cbn [qbind] in E. destruct (canS (qb s) b); [|discriminate].
    unfold arrive in E. destruct (first_pos db None) as [pos|]; [|discriminate].
    destruct (mn_endpos db hi) as [[ie e]|]; [|discriminate].
    destruct (leaf_recs db pos (e - pos)) as [l|]; [|discriminate]. cbn [qbind] in E. injection E as <-.
    eapply Hgo; [|reflexivity]. reflexivity.
  - injection E as <-. split; [reflexivity|]. unfold qhistory. cbn [qlg qq qth]. rewrite mevents_app. cbn [mevents].
    split; [intros t; rewrite nans_app; cbn; lia|]. intros v _. rewrite nend_app. unfold nend at 2. cbn [filter is_end].
    rewrite (Nat.eqb_sym u v). unfold supd. destruct (Nat.eqb_spec v u) as [->|]; [rewrite Eu|]; cbn; lia.
Qed.

Lemma kept_step prog scans u v s s' : qstep fx v s = QOk s' -> calls_kept prog s ->
  calls_kept prog s' /\ (v <> QScan u true -> scans_kept scans u s -> scans_kept scans u s').
Proof.
  intros E Hc. destruct v as [t|w stop]; cbn [qstep] in E.
  - destruct (mstepr fx (qrd s) t (qb s)) as [l c| |] eqn:Es; try discriminate. injection E as <-. split.
    + intros x. pose proof (count_call _ _ _ _ _ x Es) as Hx. specialize (Hc x). unfold qhistory in *.
      cbn [qlg qb m_emit mpg mth]. rewrite mevents_app, nans_app. lia.
    + intros _ Hs. unfold scans_kept, qhistory in *. cbn [qlg qq qth]. rewrite mevents_app, nend_app.
      enough (nend u (mevents [Ev l]) = 0) by lia. destruct l; reflexivity.
  - destruct (scanr_log w stop s s' E) as (Hb & Ha & He). split.
    + intros x. rewrite Hb, Ha. apply Hc.
    + intros Hne Hs. unfold scans_kept in *. rewrite He; [auto|].
      destruct stop; [|now right]. left. congruence.
Qed.

Lemma kept_run prog scans u : forall sched s s', qrun fx s sched = Some s' -> calls_kept prog s ->
  calls_kept prog s' /\ (~ In (QScan u true) sched -> scans_kept scans u s -> scans_kept scans u s').
Proof.
  induction sched as [|v sched IH]; intros s s' E Hc; cbn [qrun] in E.
  - injection E as <-. auto.
  - destruct (qstep fx v s) as [s1| |] eqn:Es; [|apply IH in E; auto; cbn; tauto|discriminate].
    destruct (kept_step prog scans u v s s1 Es Hc) as (H1 & H2). destruct (IH _ _ E H1) as (H3 & H4).
    split; [auto|]. cbn. intros Hn Hs. apply H4; [tauto|]. apply H2; [|auto]. intros ->. tauto.
Qed.

(** From a fresh tree. *)
Theorem fair_answered n m sched prog scans :
  (forall t c, In c (prog t) -> mvalid (call_key c)) ->
  (forall u lo hi, In (lo, hi) (scans u) -> mvb lo /\ mvb hi) ->
  (forall t, n <= t -> prog t = []) -> (forall u, m <= u -> scans u = []) -> fair n m sched ->
  exists k, match qrun fx (qinit prog scans) (map sched (seq 0 k)) with
            | Some s => all_done s /\ (forall t, nans t (qhistory s) = length (prog t)) /\
                (forall u, (forall i, sched i <> QScan u true) -> nend u (qhistory s) = length (scans u))
            | None => fx = false
            end.
Proof.
  intros Hp Hq Hn Hm HF. destruct (qinit_inv fx prog scans Hp Hq) as (Ls & Q).
  destruct (fair_done n m sched HF (qinit prog scans) Ls 0 Q) as (k & Hk).
  { split; cbn; auto. }
  exists k. destruct (qrun fx (qinit prog scans) (map sched (seq 0 k))) as [s|] eqn:E; [|auto].
  split; [auto|]. destruct Hk as (D1 & D2). split.
  - intros t. destruct (kept_run prog scans 0 _ _ _ E) as (H1 & _); [intros x; cbn; lia|].
    specialize (H1 t). destruct (D1 t) as (E1 & E2). rewrite E1, E2 in H1. cbn in H1. lia.
  - intros u Hu. destruct (kept_run prog scans u _ _ _ E) as (_ & H2); [intros x; cbn; lia|].
    assert (Hs : scans_kept scans u s).
    { apply H2; [|unfold scans_kept; cbn; lia]. intros Hi. apply in_map_iff in Hi as (i & Hi & _). now apply (Hu i). }
    unfold scans_kept in Hs. destruct (D2 u) as (E1 & E2). rewrite E1, E2 in Hs. cbn in Hs. lia.
Qed.

End MTermMain.
