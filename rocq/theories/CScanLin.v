(** From justified traces with correct scans to scan-linearizable histories.

    The linearization points of the calls are placed as in ConcLin.v; in addition, for every
    moment of the trace there is a place in the history with points that lies between the
    same marks and at which the map is the same.
    This file is proof-side only: no definition here models code. *)
From Coq Require Import List Arith Bool Lia.
From Verif Require Import Params Mem Common Spec ConcSpec ScanSpec SLIface TreeState ConcModel
  ConcLin CScanModel.
Import ListNotations.

Section CScanLin.
Context {P : Params}.

Fixpoint mks {A : Type} (l : list (marked A)) : list mark :=
  match l with
  | [] => []
  | Ev _ :: l' => mks l'
  | Mk m :: l' => m :: mks l'
  end.

Lemma mks_app {A} (a b : list (marked A)) : mks (a ++ b) = mks a ++ mks b.
Proof. induction a as [|[]]; cbn; auto. now f_equal. Qed.
Lemma unmark_app {A} (a b : list (marked A)) : unmark (a ++ b) = unmark a ++ unmark b.
Proof. induction a as [|[]]; cbn; auto. now f_equal. Qed.
Lemma merase_app a b : merase (a ++ b) = merase a ++ merase b.
Proof. induction a as [|[[]|]]; cbn; auto; now f_equal. Qed.
Lemma mevents_app a b : mevents (a ++ b) = mevents a ++ mevents b.
Proof. induction a as [|[[]|]]; cbn; auto; now f_equal. Qed.
Lemma mks_merase x : mks (merase x) = mks x.
Proof. induction x as [|[[]|]]; cbn; auto; now f_equal. Qed.
Lemma mks_mevents x : mks (mevents x) = mks x.
Proof. induction x as [|[[]|]]; cbn; auto; now f_equal. Qed.
Lemma mks_in {A} (l : list (marked A)) m : In (Mk m) l <-> In m (mks l).
Proof.
  induction l as [|[a|m'] l IH]; cbn; [tauto| |].
  - rewrite <- IH. split; [intros [H|H]; [discriminate|auto]|auto].
  - rewrite <- IH. split; intros [H|H]; auto; left; congruence.
Qed.

(** A mark of a sequence splits it. *)
Lemma mks_split {A} (l : list (marked A)) : forall a m b,
  mks l = a ++ m :: b -> exists l1 l2, l = l1 ++ Mk m :: l2 /\ mks l1 = a /\ mks l2 = b.
Proof.
  induction l as [|[e|m'] l IH]; intros a m b H; cbn in H.
  - now destruct a.
  - destruct (IH _ _ _ H) as (l1 & l2 & -> & H1 & H2). exists (Ev e :: l1), l2. auto.
  - destruct a as [|m1 a]; cbn in H.
    + injection H as -> <-. exists [], l. auto.
    + injection H as -> H. destruct (IH _ _ _ H) as (l1 & l2 & -> & H1 & H2).
      exists (Mk m1 :: l1), l2. cbn. split; auto. split; auto. now f_equal.
Qed.

Lemma app_cmp {A} (a b c d : list A) : a ++ b = c ++ d ->
  (exists z, c = a ++ z /\ b = z ++ d) \/ (exists z, a = c ++ z /\ d = z ++ b).
Proof.
  revert c d. induction a as [|x a IH]; intros c d H.
  - left. exists c. auto.
  - destruct c as [|y c]; cbn in H.
    + right. exists (x :: a). auto.
    + injection H as <- H. destruct (IH _ _ H) as [(z & -> & ->)|(z & -> & ->)]; [left|right];
        eexists; split; reflexivity.
Qed.

Lemma map_after_xfin x : forall m f, map_after m f x = fst (xfin m f x).
Proof. induction x as [|[] x IH]; intros; cbn; auto. destruct (f t); auto. Qed.

Context (m0 : amap).

Notation xf x := (xfin m0 f0 (unmark x)).

Definition msplit (T : list (marked label)) (x : list (marked xevent)) (p : nat) : Prop :=
  exists x1 x2, x = x1 ++ x2 /\ mks x1 = mks (firstn p T) /\
    fst (xf x1) = effs m0 (unmark (firstn p T)) /\
    forall t c i, tstat (unmark T) t = TCalled c i -> i <= length (unmark (firstn p T)) ->
      snd (xf x1) t = Called c /\ noev t (unmark x2).

Record mgood (T : list (marked label)) (x : list (marked xevent)) : Prop := {
  mg_erase : merase x = mevents T;
  mg_legal : legal m0 f0 (unmark x);
  mg_map : fst (xf x) = effs m0 (unmark T);
  mg_stat : forall t, snd (xf x) t = strip (tstat (unmark T) t);
  mg_split : forall p, p <= length T -> msplit T x p;
}.

Lemma unmark_snoc {A} (T : list (marked A)) l : unmark (T ++ [Ev l]) = unmark T ++ [l].
Proof. now rewrite unmark_app. Qed.
Lemma firstn_all_snoc {A} (T : list A) e : firstn (S (length T)) (T ++ [e]) = T ++ [e].
Proof. apply firstn_all2. rewrite app_length. cbn. lia. Qed.
Lemma unmark_len {A} (T : list (marked A)) p : length (unmark (firstn p T)) <= length (unmark T).
Proof.
  rewrite <- (firstn_skipn p T) at 2. rewrite unmark_app, app_length. lia.
Qed.
Lemma unmark_at {A} (T : list (marked A)) : forall j, j <= length (unmark T) ->
  exists p, p <= length T /\ unmark (firstn p T) = firstn j (unmark T).
Proof.
  induction T as [|[a|m] T IH]; intros j Hj; cbn in Hj.
  - exists 0. replace j with 0 by lia. auto.
  - destruct j as [|j].
    + exists 0. cbn. split; auto. lia.
    + destruct (IH j ltac:(lia)) as (p & Hp & E). exists (S p). cbn. rewrite E. split; auto. lia.
  - destruct (IH j Hj) as (p & Hp & E). exists (S p). cbn. rewrite E. split; auto. lia.
Qed.

(** Appending one event at the end. *)
Lemma mgood_snoc T x l e :
  mgood T x ->
  erase [e] = events [l] -> legal (fst (xf x)) (snd (xf x)) [e] ->
  fst (xfin (fst (xf x)) (snd (xf x)) [e]) = eff (effs m0 (unmark T)) l ->
  (forall t, snd (xfin (fst (xf x)) (snd (xf x)) [e]) t =
             strip (tnext (length (unmark T)) (tstat (unmark T)) l t)) ->
  (forall t c i, tnext (length (unmark T)) (tstat (unmark T)) l t = TCalled c i ->
     i <= length (unmark T) -> tstat (unmark T) t = TCalled c i /\ ev_tid e <> t) ->
  mgood (T ++ [Ev l]) (x ++ [Ev e]).
Proof.
  intros G He Hl Hm Hs Hc. constructor.
  - rewrite merase_app, mevents_app, (mg_erase _ _ G). f_equal.
    clear -He. destruct e, l; cbn in *; congruence.
  - rewrite unmark_snoc. apply legal_app. split; auto. apply (mg_legal _ _ G).
  - rewrite !unmark_snoc, xfin_app, effs_snoc. exact Hm.
  - intros t. rewrite !unmark_snoc, xfin_app, tstat_snoc. apply Hs.
  - intros p Hp. rewrite app_length in Hp. cbn in Hp.
    destruct (Nat.eq_dec p (S (length T))) as [->|Hne].
    + exists (x ++ [Ev e]), []. split; [now rewrite app_nil_r|]. rewrite firstn_all_snoc. split; [|split].
      * rewrite !mks_app. cbn. rewrite <- (mks_merase x), (mg_erase _ _ G). now rewrite mks_mevents.
      * rewrite !unmark_snoc, xfin_app, effs_snoc. exact Hm.
      * intros t c i Ht Hi. rewrite unmark_snoc, xfin_app. rewrite unmark_snoc in Ht.
        rewrite Hs, <- tstat_snoc, Ht. split; [reflexivity|]. intros ? [].
    + destruct (mg_split _ _ G p ltac:(lia)) as (x1 & x2 & -> & H0 & H1 & H2).
      exists x1, (x2 ++ [Ev e]). split; [now rewrite app_assoc|]. rewrite firstn_snoc by lia.
      split; [auto|]. split; [exact H1|].
      intros t c i Ht Hi. rewrite unmark_snoc, tstat_snoc in Ht.
      pose proof (unmark_len T p).
      destruct (Hc t c i Ht ltac:(lia)) as [A B].
      destruct (H2 t c i A Hi) as [C D]. split; auto. rewrite unmark_snoc. apply noev_app. split; auto.
      intros ? [<-|[]]; auto.
Qed.

Lemma mgood_mark T x m : mgood T x -> mgood (T ++ [Mk m]) (x ++ [Mk m]).
Proof.
  intros G.
  assert (U : forall A (y : list (marked A)), unmark (y ++ [Mk m]) = unmark y).
  { intros. rewrite unmark_app. cbn. apply app_nil_r. }
  constructor; rewrite ?U.
  - now rewrite merase_app, mevents_app, (mg_erase _ _ G).
  - apply (mg_legal _ _ G).
  - apply (mg_map _ _ G).
  - apply (mg_stat _ _ G).
  - intros p Hp. rewrite app_length in Hp. cbn in Hp.
    destruct (Nat.eq_dec p (S (length T))) as [->|Hne].
    + exists (x ++ [Mk m]), []. split; [now rewrite app_nil_r|]. rewrite firstn_all_snoc, !U. split; [|split].
      * rewrite !mks_app. cbn. rewrite <- (mks_merase x), (mg_erase _ _ G). now rewrite mks_mevents.
      * apply (mg_map _ _ G).
      * intros t c i Ht Hi. rewrite (mg_stat _ _ G), Ht. split; [reflexivity|]. intros ? [].
    + destruct (mg_split _ _ G p ltac:(lia)) as (x1 & x2 & -> & H0 & H1 & H2).
      exists x1, (x2 ++ [Mk m]). split; [now rewrite app_assoc|]. rewrite firstn_snoc by lia.
      rewrite !U. auto.
Qed.

Lemma mgood_tau T x : mgood T x -> mgood (T ++ [Ev LTau]) x.
Proof.
  intros G. constructor.
  - rewrite mevents_app. cbn. rewrite app_nil_r. apply (mg_erase _ _ G).
  - apply (mg_legal _ _ G).
  - rewrite unmark_snoc, effs_snoc. apply (mg_map _ _ G).
  - intros t. rewrite unmark_snoc, tstat_snoc. apply (mg_stat _ _ G).
  - intros p Hp. rewrite app_length in Hp. cbn in Hp.
    destruct (Nat.eq_dec p (S (length T))) as [->|Hne].
    + exists x, []. split; [now rewrite app_nil_r|]. rewrite firstn_all_snoc, unmark_snoc. split; [|split].
      * rewrite !mks_app. cbn. rewrite app_nil_r, <- (mks_merase x), (mg_erase _ _ G). now rewrite mks_mevents.
      * rewrite effs_snoc. apply (mg_map _ _ G).
      * intros t c i Ht Hi. rewrite tstat_snoc in Ht. cbn in Ht.
        rewrite (mg_stat _ _ G), Ht. split; [reflexivity|]. intros ? [].
    + destruct (mg_split _ _ G p ltac:(lia)) as (x1 & x2 & -> & H0 & H1 & H2).
      exists x1, x2. split; auto. rewrite firstn_snoc by lia. split; [auto|]. split; [exact H1|].
      intros t c i Ht Hi. rewrite unmark_snoc, tstat_snoc in Ht. cbn in Ht. eauto.
Qed.

(** Inserting the linearization point of a call that changes nothing. *)
Lemma mgood_obs T x t c r i j :
  mgood T x -> tstat (unmark T) t = TCalled c i -> i <= j <= length (unmark T) ->
  spec_step (effs m0 (firstn j (unmark T))) c = (effs m0 (firstn j (unmark T)), r) ->
  exists x', mgood (T ++ [Ev (LObs t c r)]) x'.
Proof.
  intros G Ht Hij Hsp.
  destruct (unmark_at T j ltac:(lia)) as (p & Hp & Ep).
  destruct (mg_split _ _ G p Hp) as (x1 & x2 & Hx & H0 & H1 & H2).
  rewrite Ep in H1, H2.
  destruct (H2 t c i Ht ltac:(rewrite firstn_length; lia)) as [Hf Hn].
  exists (x1 ++ Ev (XLin t) :: x2).
  set (f1 := snd (xf x1)) in *. set (m1 := fst (xf x1)) in *.
  rewrite <- H1 in Hsp.
  assert (Hm1 : fst (spec_step m1 c) = m1) by now rewrite Hsp.
  assert (Hr : snd (spec_step m1 c) = r) by now rewrite Hsp.
  assert (Hag : agree_but t f1 (supd f1 t (Done r))).
  { intros u Hu. now rewrite supd_diff. }
  assert (Hstep : forall z, xf (x1 ++ Ev (XLin t) :: z) = xfin m1 (supd f1 t (Done r)) (unmark z)).
  { intros z. rewrite unmark_app, xfin_app. cbn [xfin unmark]. fold m1 f1. rewrite Hf, Hm1, Hr. reflexivity. }
  assert (Hbase : forall z, xf (x1 ++ z) = xfin m1 f1 (unmark z)).
  { intros z. now rewrite unmark_app, xfin_app. }
  pose proof (mg_legal _ _ G) as HL. rewrite Hx, unmark_app in HL. apply legal_app in HL as [HL1 HL2].
  fold m1 f1 in HL2.
  destruct (xfin_agree t (unmark x2) m1 f1 (supd f1 t (Done r)) Hn Hag) as (A & B & C & D).
  constructor.
  - rewrite mevents_app. cbn. rewrite app_nil_r, <- (mg_erase _ _ G), Hx, !merase_app. reflexivity.
  - rewrite unmark_app. apply legal_app. split; auto. cbn. exists c. fold m1 f1. rewrite Hm1, Hr. split; auto.
  - rewrite Hstep, unmark_snoc, effs_snoc. cbn. rewrite <- A, <- Hbase, <- Hx. apply (mg_map _ _ G).
  - intros u. rewrite Hstep, unmark_snoc, tstat_snoc. cbn. destruct (Nat.eq_dec u t) as [->|Hu].
    + rewrite C, !supd_same. reflexivity.
    + rewrite (supd_diff (tstat _)) by auto.
      rewrite <- (B u Hu), <- Hbase, <- Hx. apply (mg_stat _ _ G).
  - intros p' Hp'. rewrite app_length in Hp'. cbn in Hp'.
    destruct (Nat.eq_dec p' (S (length T))) as [->|Hne].
    + exists (x1 ++ Ev (XLin t) :: x2), []. split; [now rewrite app_nil_r|]. rewrite firstn_all_snoc.
      rewrite unmark_snoc. split; [|split].
      * rewrite !mks_app. cbn. rewrite app_nil_r, <- mks_app, <- Hx.
        rewrite <- (mks_merase x), (mg_erase _ _ G). now rewrite mks_mevents.
      * rewrite Hstep, effs_snoc. cbn. rewrite <- A, <- Hbase, <- Hx. apply (mg_map _ _ G).
      * intros u c' i' Hu Hi'. rewrite tstat_snoc in Hu. cbn in Hu.
        destruct (Nat.eq_dec u t) as [->|Hne]; [rewrite supd_same in Hu; discriminate|].
        rewrite supd_diff in Hu by auto. split; [|intros ? []].
        rewrite Hstep, <- (B u Hne), <- Hbase, <- Hx, (mg_stat _ _ G), Hu. reflexivity.
    + destruct (mg_split _ _ G p' ltac:(lia)) as (y1 & y2 & Hy & K0 & K1 & K2).
      assert (Hcmp : (exists z, y1 = x1 ++ z /\ x2 = z ++ y2) \/ (exists z, x1 = y1 ++ z /\ y2 = z ++ x2)).
      { rewrite Hx in Hy. now apply app_cmp. }
      assert (Hothers : forall u c' i', tstat (unmark (T ++ [Ev (LObs t c r)])) u = TCalled c' i' ->
        u <> t /\ tstat (unmark T) u = TCalled c' i').
      { intros u c' i' Hu. rewrite unmark_snoc, tstat_snoc in Hu. cbn in Hu.
        destruct (Nat.eq_dec u t) as [->|Hut]; [rewrite supd_same in Hu; discriminate|].
        rewrite supd_diff in Hu by auto. auto. }
      unfold msplit. rewrite firstn_snoc by lia.
      destruct Hcmp as [(z & -> & Hz)|(z & Hz & ->)].
      * exists (x1 ++ Ev (XLin t) :: z), y2. split; [now rewrite <- app_assoc, Hz|].
        assert (Hnz : noev t (unmark z)).
        { rewrite Hz, unmark_app in Hn. apply noev_app in Hn. tauto. }
        destruct (xfin_agree t (unmark z) m1 f1 (supd f1 t (Done r)) Hnz Hag) as (A' & B' & C' & D').
        split; [|split].
        -- rewrite mks_app in *. cbn. exact K0.
        -- rewrite Hstep, <- A', <- Hbase. exact K1.
        -- intros u c' i' Hu Hi'. destruct (Hothers _ _ _ Hu) as [Hut Hu'].
           destruct (K2 u c' i' Hu' Hi') as [E1 E2]. split; auto.
           rewrite Hstep, <- (B' u Hut), <- Hbase. exact E1.
      * exists y1, (z ++ Ev (XLin t) :: x2). split; [now rewrite Hz, <- app_assoc|]. split; [auto|]. split.
        -- exact K1.
        -- intros u c' i' Hu Hi'. destruct (Hothers _ _ _ Hu) as [Hut Hu'].
           destruct (K2 u c' i' Hu' Hi') as [E1 E2]. split; auto.
           rewrite unmark_app in E2. rewrite unmark_app. cbn.
           apply noev_app in E2 as [E2 E3]. apply noev_app. split; auto.
           apply noev_cons. cbn. auto.
Qed.

Lemma mgood_event T x l : mgood T x -> justified m0 (unmark T) l -> exists x', mgood (T ++ [Ev l]) x'.
Proof.
  intros G HJ. destruct l; cbn in HJ.
  - exists (x ++ [Ev (XInv t c)]). apply mgood_snoc; auto.
    + cbn. split; auto. now rewrite (mg_stat _ _ G), HJ.
    + cbn. apply (mg_map _ _ G).
    + intros u. cbn. unfold supd. destruct (u =? t); auto. apply (mg_stat _ _ G).
    + intros u c' i Hu Hi. cbn in *. unfold supd in Hu. destruct (u =? t) eqn:E.
      * injection Hu as <- <-. lia.
      * split; auto. apply Nat.eqb_neq in E. auto.
  - destruct HJ as ((i & Hi) & ->). exists (x ++ [Ev (XLin t)]).
    assert (Hf : snd (xf x) t = Called c) by now rewrite (mg_stat _ _ G), Hi.
    apply mgood_snoc; auto.
    + cbn. exists c. auto.
    + cbn. rewrite Hf. cbn. now rewrite (mg_map _ _ G).
    + intros u. cbn. rewrite Hf. cbn. rewrite (mg_map _ _ G).
      unfold supd. destruct (u =? t); auto. apply (mg_stat _ _ G).
    + intros u c' i' Hu Hi'. cbn in *. unfold supd in Hu. destruct (u =? t) eqn:E; [discriminate|].
      split; auto. apply Nat.eqb_neq in E. auto.
  - destruct HJ as (i & j & H1 & H2 & H3). eapply mgood_obs; eauto.
  - exists (x ++ [Ev (XRes t r)]). apply mgood_snoc; auto.
    + cbn. split; auto. now rewrite (mg_stat _ _ G), HJ.
    + cbn. apply (mg_map _ _ G).
    + intros u. cbn. unfold supd. destruct (u =? t); auto. apply (mg_stat _ _ G).
    + intros u c' i Hu Hi. cbn in *. unfold supd in Hu. destruct (u =? t) eqn:E; [discriminate|].
      split; auto. apply Nat.eqb_neq in E. auto.
  - exists x. now apply mgood_tau.
Qed.

Lemma jtrace_last tr l : jtrace m0 (tr ++ [l]) -> jtrace m0 tr /\ justified m0 tr l.
Proof.
  intros H. remember (tr ++ [l]) as y eqn:E. destruct H as [|tr' l' H H'].
  - now destruct tr.
  - apply app_inj_tail in E as [-> ->]. auto.
Qed.

Lemma jtrace_mgood T : jtrace m0 (unmark T) -> exists x, mgood T x.
Proof.
  induction T as [|[l|m] T IH] using rev_ind; intros J.
  - exists []. constructor; cbn; auto.
    intros p Hp. exists [], []. replace p with 0 by lia. cbn. repeat split; auto; discriminate.
  - rewrite unmark_snoc in J. apply jtrace_last in J as [J HJ]. destruct (IH J) as (x & G).
    eapply mgood_event; eauto.
  - rewrite unmark_app in J. cbn in J. rewrite app_nil_r in J. destruct (IH J) as (x & G).
    eexists. eapply mgood_mark; eauto.
Qed.

(** Every complete scan of a trace is right. *)
Definition trace_right (T : list (marked label)) : Prop :=
  forall T1 u lo hi T2 rs T3,
    T = T1 ++ Mk (MBeg u lo hi) :: T2 ++ Mk (MEnd u rs) :: T3 -> no_mark u T2 ->
    scan_result (fun M => exists y z, T2 = y ++ z /\ M = effs m0 (unmark (T1 ++ y))) lo hi rs.

Lemma mks_len_app {A} (a b : list (marked A)) : length (mks a) <= length (mks (a ++ b)).
Proof. rewrite mks_app, app_length. lia. Qed.

Theorem trace_scans T : jtrace m0 (unmark T) -> trace_right T ->
  scan_linearizable m0 (mevents T).
Proof.
  intros J R. destruct (jtrace_mgood T J) as (x & G). exists x.
  split; [apply (mg_erase _ _ G)|]. split; [apply (mg_legal _ _ G)|].
  intros x1 u lo hi x2 rs x3 Hx Hno.
  assert (EM : mks T = mks x1 ++ MBeg u lo hi :: mks x2 ++ MEnd u rs :: mks x3).
  { rewrite <- (mks_mevents T), <- (mg_erase _ _ G), mks_merase, Hx.
    rewrite mks_app. cbn. rewrite mks_app. reflexivity. }
  destruct (mks_split T _ _ _ EM) as (T1 & T' & HT & E1 & E2).
  destruct (mks_split T' _ _ _ E2) as (T2 & T3 & -> & E3 & E4).
  assert (HnoT : no_mark u T2).
  { intros m Hm. apply Hno. apply mks_in. rewrite <- E3. now apply mks_in. }
  destruct (R _ _ _ _ _ _ _ HT HnoT) as (R1 & R2 & R3).
  (* every moment of the scan in the trace is one in the history *)
  assert (Key : forall y z, T2 = y ++ z -> exists y' z', x2 = y' ++ z' /\
    map_after m0 (fun _ => Idle) (unmark (x1 ++ y')) = effs m0 (unmark (T1 ++ y))).
  { intros y z Hyz.
    assert (Hfst : firstn (length (T1 ++ Mk (MBeg u lo hi) :: y)) T = T1 ++ Mk (MBeg u lo hi) :: y).
    { rewrite HT, Hyz.
      replace (T1 ++ Mk (MBeg u lo hi) :: (y ++ z) ++ Mk (MEnd u rs) :: T3)
        with ((T1 ++ Mk (MBeg u lo hi) :: y) ++ (z ++ Mk (MEnd u rs) :: T3))
        by (cbn; rewrite <- !app_assoc; reflexivity).
      rewrite firstn_app, firstn_all, Nat.sub_diag. cbn [firstn]. apply app_nil_r. }
    destruct (mg_split _ _ G (length (T1 ++ Mk (MBeg u lo hi) :: y))) as (w1 & w2 & Hw & W0 & W1 & _).
    { rewrite <- Hfst at 1. rewrite firstn_length. lia. }
    rewrite Hfst in W0, W1. rewrite mks_app in W0. cbn in W0. rewrite E1 in W0.
    assert (Ly : length (mks y) <= length (mks x2)).
    { rewrite <- E3, Hyz. apply mks_len_app. }
    assert (L1 : length (mks w1) = length (mks x1) + S (length (mks y))).
    { rewrite W0, app_length. reflexivity. }
    rewrite Hx in Hw. destruct (app_cmp _ _ _ _ Hw) as [(z1 & -> & Hz1)|(z1 & -> & _)].
    2: { pose proof (mks_len_app w1 z1). lia. }
    destruct z1 as [|e z1].
    { rewrite app_nil_r in L1. lia. }
    cbn in Hz1. injection Hz1 as <- Hz1.
    symmetry in Hz1. destruct (app_cmp _ _ _ _ Hz1) as [(z2 & -> & Hz2)|(z2 & -> & Hz2)].
    - exists z1, z2. split; auto. rewrite map_after_xfin. fold f0.
      rewrite !unmark_app in W1. cbn in W1. rewrite !unmark_app. rewrite <- W1. reflexivity.
    - destruct z2 as [|e z2].
      + exists x2, []. split; [now rewrite app_nil_r|]. rewrite map_after_xfin. fold f0.
        rewrite !unmark_app in W1. cbn in W1. rewrite unmark_app, app_nil_r in W1.
        rewrite !unmark_app. rewrite <- W1. reflexivity.
      + cbn in Hz2. injection Hz2 as <- _.
        rewrite mks_app in L1. cbn in L1. rewrite mks_app in L1. cbn in L1.
        rewrite app_length in L1. cbn in L1. rewrite app_length in L1. cbn in L1. lia. }
  split; [exact R1|]. split.
  - intros k v Hk. destruct (R2 k v Hk) as (A & B & M & (y & z & Hyz & ->) & HM).
    split; auto. split; auto. destruct (Key y z Hyz) as (y' & z' & E & EM').
    exists (map_after m0 (fun _ => Idle) (unmark (x1 ++ y'))). split; eauto. now rewrite EM'.
  - intros k Ha Hb Hall. apply R3; auto. intros M (y & z & Hyz & ->).
    destruct (Key y z Hyz) as (y' & z' & E & EM'). rewrite <- EM'. apply Hall. eauto.
Qed.

End CScanLin.
