(** From justified traces to linearizable histories.

    A trace is justified when every updating call changes the map in one step of its own,
    and every other result was right at some moment of its call, possibly in the past.
    This file is proof-side only: no definition here models code. *)
From Coq Require Import List Arith Bool Lia.
From Verif Require Import Params Mem Common Spec ConcSpec SLIface TreeState ConcModel.
Import ListNotations.

Section ConcLin.
Context {P : Params}.

Lemma supd_same {A} (f : tid -> A) t x : supd f t x t = x.
Proof. unfold supd. now rewrite Nat.eqb_refl. Qed.
Lemma supd_diff {A} (f : tid -> A) t x u : u <> t -> supd f t x u = f u.
Proof. intros H. unfold supd. apply Nat.eqb_neq in H. now rewrite H. Qed.

(** The map after a trace. *)
Definition eff (m : amap) (l : label) : amap :=
  match l with LEff _ c _ => fst (spec_step m c) | _ => m end.
Definition effs (m : amap) (tr : list label) : amap := fold_left eff tr m.

(** The status of a thread after a trace; a pending call carries the time of its start. *)
Inductive tst :=
| TIdle
| TCalled (c : call) (i : nat)
| TDone (r : ret).

Definition tnext (n : nat) (f : tid -> tst) (l : label) : tid -> tst :=
  match l with
  | LInv t c => supd f t (TCalled c (S n))
  | LEff t _ r | LObs t _ r => supd f t (TDone r)
  | LRes t _ => supd f t TIdle
  | LTau => f
  end.

Fixpoint tstat_from (n : nat) (f : tid -> tst) (tr : list label) : tid -> tst :=
  match tr with
  | [] => f
  | l :: tr' => tstat_from (S n) (tnext n f l) tr'
  end.
Definition tstat (tr : list label) : tid -> tst := tstat_from 0 (fun _ => TIdle) tr.

Lemma tstat_from_app a : forall n f b,
  tstat_from n f (a ++ b) = tstat_from (n + length a) (tstat_from n f a) b.
Proof.
  induction a as [|l a IH]; intros; cbn.
  - now rewrite Nat.add_0_r.
  - rewrite IH. f_equal. lia.
Qed.

Lemma tstat_snoc tr l : tstat (tr ++ [l]) = tnext (length tr) (tstat tr) l.
Proof. unfold tstat. now rewrite tstat_from_app. Qed.

Lemma effs_snoc m tr l : effs m (tr ++ [l]) = eff (effs m tr) l.
Proof. unfold effs. now rewrite fold_left_app. Qed.

Lemma tstat_le tr t c i : tstat tr t = TCalled c i -> i <= length tr.
Proof.
  revert t c i. induction tr as [|l tr IH] using rev_ind; intros t c i.
  - discriminate.
  - rewrite tstat_snoc, app_length. cbn [length].
    destruct l; cbn; unfold supd; try destruct (t =? t0) eqn:E; try discriminate;
      try (intros H; apply IH in H; lia).
    intros [= <- <-]. lia.
Qed.

Context (m0 : amap).

Definition justified (tr : list label) (l : label) : Prop :=
  match l with
  | LInv t c => tstat tr t = TIdle
  | LEff t c r => (exists i, tstat tr t = TCalled c i) /\ r = snd (spec_step (effs m0 tr) c)
  | LObs t c r => exists i j, tstat tr t = TCalled c i /\ i <= j <= length tr /\
      spec_step (effs m0 (firstn j tr)) c = (effs m0 (firstn j tr), r)
  | LRes t r => tstat tr t = TDone r
  | LTau => True
  end.

Inductive jtrace : list label -> Prop :=
| jt_nil : jtrace []
| jt_snoc tr l : jtrace tr -> justified tr l -> jtrace (tr ++ [l]).

(** The state reached by a legal extended history. *)
Fixpoint xfin (m : amap) (f : tid -> status) (x : list xevent) : amap * (tid -> status) :=
  match x with
  | [] => (m, f)
  | XInv t c :: x' => xfin m (supd f t (Called c)) x'
  | XLin t :: x' =>
      match f t with
      | Called c => xfin (fst (spec_step m c)) (supd f t (Done (snd (spec_step m c)))) x'
      | _ => xfin m f x'
      end
  | XRes t r :: x' => xfin m (supd f t Idle) x'
  end.

Lemma xfin_app x1 : forall m f x2,
  xfin m f (x1 ++ x2) = xfin (fst (xfin m f x1)) (snd (xfin m f x1)) x2.
Proof.
  induction x1 as [|e x1 IH]; intros; cbn; auto.
  destruct e; auto. destruct (f t); auto.
Qed.

Lemma legal_app x1 : forall m f x2,
  legal m f (x1 ++ x2) <-> legal m f x1 /\ legal (fst (xfin m f x1)) (snd (xfin m f x1)) x2.
Proof.
  induction x1 as [|e x1 IH]; intros; cbn; [tauto|].
  destruct e; cbn.
  - rewrite IH. tauto.
  - split.
    + intros (c & Hc & H). apply IH in H as [H1 H2]. rewrite Hc. split; eauto.
    + intros ((c & Hc & H1) & H2). rewrite Hc in H2. exists c. split; auto. apply IH. auto.
  - rewrite IH. tauto.
Qed.

Definition ev_tid (e : xevent) : tid :=
  match e with XInv t _ => t | XLin t => t | XRes t _ => t end.
Definition noev (t : tid) (x : list xevent) : Prop := forall e, In e x -> ev_tid e <> t.

Lemma noev_cons t e x : noev t (e :: x) <-> ev_tid e <> t /\ noev t x.
Proof.
  unfold noev. split.
  - intros H. split; [apply H; now left | intros; apply H; now right].
  - intros [H1 H2] e' [<-|]; auto.
Qed.
Lemma noev_app t x y : noev t (x ++ y) <-> noev t x /\ noev t y.
Proof.
  unfold noev. split.
  - intros H. split; intros; apply H; apply in_or_app; auto.
  - intros [H1 H2] e He. apply in_app_or in He as []; auto.
Qed.

Definition agree_but (t : tid) (f g : tid -> status) : Prop := forall u, u <> t -> f u = g u.

Lemma agree_supd t f g u x : u <> t -> agree_but t f g -> agree_but t (supd f u x) (supd g u x).
Proof.
  intros Hu H w Hw. unfold supd. destruct (w =? u); auto.
Qed.

Lemma xfin_agree t x : forall m f g, noev t x -> agree_but t f g ->
  fst (xfin m f x) = fst (xfin m g x) /\ agree_but t (snd (xfin m f x)) (snd (xfin m g x)) /\
  snd (xfin m g x) t = g t /\ (legal m f x -> legal m g x).
Proof.
  induction x as [|e x IH]; intros m f g Hn Ha; cbn; [auto|].
  apply noev_cons in Hn as [He Hn]. destruct e; cbn in He.
  - destruct (IH m (supd f t0 (Called c)) (supd g t0 (Called c)) Hn (agree_supd _ _ _ _ _ He Ha))
      as (A & B & C & D).
    rewrite <- (Ha t0 He). repeat split; auto; try tauto.
    rewrite C. rewrite supd_diff; auto.
  - rewrite <- (Ha t0 He). destruct (f t0) eqn:E.
    + destruct (IH m f g Hn Ha) as (A & B & C & D). repeat split; auto.
      intros (c & Hc & _). discriminate.
    + destruct (IH (fst (spec_step m c)) (supd f t0 (Done (snd (spec_step m c))))
                  (supd g t0 (Done (snd (spec_step m c)))) Hn (agree_supd _ _ _ _ _ He Ha))
        as (A & B & C & D).
      repeat split; auto.
      * rewrite C. rewrite supd_diff; auto.
      * intros (c' & Hc & H). injection Hc as <-. exists c. split; auto.
    + destruct (IH m f g Hn Ha) as (A & B & C & D). repeat split; auto.
      intros (c & Hc & _). discriminate.
  - destruct (IH m (supd f t0 Idle) (supd g t0 Idle) Hn (agree_supd _ _ _ _ _ He Ha))
      as (A & B & C & D).
    rewrite <- (Ha t0 He). repeat split; auto; try tauto.
    rewrite C. rewrite supd_diff; auto.
Qed.

Definition strip (s : tst) : status :=
  match s with TIdle => Idle | TCalled c _ => Called c | TDone r => Done r end.

Definition f0 : tid -> status := fun _ => Idle.

Definition splitat (tr : list label) (x : list xevent) (j : nat) : Prop :=
  exists x1 x2, x = x1 ++ x2 /\ fst (xfin m0 f0 x1) = effs m0 (firstn j tr) /\
    forall t c i, tstat tr t = TCalled c i -> i <= j ->
      snd (xfin m0 f0 x1) t = Called c /\ noev t x2.

Record good (tr : list label) (x : list xevent) : Prop := {
  g_erase : erase x = events tr;
  g_legal : legal m0 f0 x;
  g_map : fst (xfin m0 f0 x) = effs m0 tr;
  g_stat : forall t, snd (xfin m0 f0 x) t = strip (tstat tr t);
  g_split : forall j, j <= length tr -> splitat tr x j;
}.

Lemma events_app a b : events (a ++ b) = events a ++ events b.
Proof. induction a as [|l a IH]; cbn; auto. destruct l; cbn; rewrite ?IH; auto. Qed.
Lemma erase_app a b : erase (a ++ b) = erase a ++ erase b.
Proof. induction a as [|l a IH]; cbn; auto. destruct l; cbn; rewrite ?IH; auto. Qed.

Lemma firstn_snoc {A} j (l : list A) x : j <= length l -> firstn j (l ++ [x]) = firstn j l.
Proof. intros H. rewrite firstn_app. replace (j - length l) with 0 by lia. cbn. apply app_nil_r. Qed.

(** Appending one event at the end. *)
Lemma good_snoc tr x l e :
  good tr x ->
  erase [e] = events [l] -> legal (fst (xfin m0 f0 x)) (snd (xfin m0 f0 x)) [e] ->
  fst (xfin (fst (xfin m0 f0 x)) (snd (xfin m0 f0 x)) [e]) = eff (effs m0 tr) l ->
  (forall t, snd (xfin (fst (xfin m0 f0 x)) (snd (xfin m0 f0 x)) [e]) t =
             strip (tnext (length tr) (tstat tr) l t)) ->
  (forall t c i, tnext (length tr) (tstat tr) l t = TCalled c i -> i <= length tr ->
     tstat tr t = TCalled c i /\ ev_tid e <> t) ->
  good (tr ++ [l]) (x ++ [e]).
Proof.
  intros G He Hl Hm Hs Hc. constructor.
  - now rewrite erase_app, events_app, (g_erase _ _ G), He.
  - apply legal_app. split; auto. apply (g_legal _ _ G).
  - rewrite xfin_app, effs_snoc. exact Hm.
  - intros t. rewrite xfin_app, tstat_snoc. apply Hs.
  - intros j Hj. rewrite app_length in Hj. cbn in Hj.
    destruct (Nat.eq_dec j (S (length tr))) as [->|Hne].
    + exists (x ++ [e]), []. split; [now rewrite app_nil_r|]. split.
      * rewrite xfin_app. rewrite firstn_all2 by (rewrite app_length; cbn; lia).
        rewrite effs_snoc. exact Hm.
      * intros t c i Ht Hi. rewrite xfin_app. rewrite Hs, <- tstat_snoc, Ht. split; [reflexivity|].
        intros ? [].
    + destruct (g_split _ _ G j ltac:(lia)) as (x1 & x2 & -> & H1 & H2).
      exists x1, (x2 ++ [e]). split; [now rewrite app_assoc|]. split.
      * rewrite firstn_snoc by lia. exact H1.
      * intros t c i Ht Hi. rewrite tstat_snoc in Ht. destruct (Hc t c i Ht ltac:(lia)) as [A B].
        destruct (H2 t c i A Hi) as [C D]. split; auto. apply noev_app. split; auto.
        intros ? [<-|[]]; auto.
Qed.

Lemma good_tau tr x : good tr x -> good (tr ++ [LTau]) x.
Proof.
  intros G. constructor.
  - rewrite events_app. cbn. rewrite app_nil_r. apply (g_erase _ _ G).
  - apply (g_legal _ _ G).
  - rewrite effs_snoc. apply (g_map _ _ G).
  - intros t. rewrite tstat_snoc. apply (g_stat _ _ G).
  - intros j Hj. rewrite app_length in Hj. cbn in Hj.
    destruct (Nat.eq_dec j (S (length tr))) as [->|Hne].
    + exists x, []. split; [now rewrite app_nil_r|]. split.
      * rewrite firstn_all2 by (rewrite app_length; cbn; lia).
        rewrite effs_snoc. apply (g_map _ _ G).
      * intros t c i Ht Hi. rewrite tstat_snoc in Ht. cbn in Ht.
        rewrite (g_stat _ _ G), Ht. split; [reflexivity|]. intros ? [].
    + destruct (g_split _ _ G j ltac:(lia)) as (x1 & x2 & -> & H1 & H2).
      exists x1, x2. split; auto. split.
      * rewrite firstn_snoc by lia. exact H1.
      * intros t c i Ht Hi. rewrite tstat_snoc in Ht. cbn in Ht. eauto.
Qed.

(** Inserting the linearization point of a call that changes nothing. *)
Lemma good_obs tr x t c r i j :
  good tr x -> tstat tr t = TCalled c i -> i <= j <= length tr ->
  spec_step (effs m0 (firstn j tr)) c = (effs m0 (firstn j tr), r) ->
  exists x', good (tr ++ [LObs t c r]) x'.
Proof.
  intros G Ht Hij Hsp.
  destruct (g_split _ _ G j ltac:(lia)) as (x1 & x2 & Hx & H1 & H2).
  destruct (H2 t c i Ht ltac:(lia)) as [Hf Hn].
  exists (x1 ++ XLin t :: x2).
  set (f1 := snd (xfin m0 f0 x1)) in *. set (m1 := fst (xfin m0 f0 x1)) in *.
  rewrite <- H1 in Hsp.
  assert (Hm1 : fst (spec_step m1 c) = m1) by now rewrite Hsp.
  assert (Hr : snd (spec_step m1 c) = r) by now rewrite Hsp.
  assert (Hag : agree_but t f1 (supd f1 t (Done r))).
  { intros u Hu. now rewrite supd_diff. }
  assert (Hstep : forall z, xfin m0 f0 (x1 ++ XLin t :: z) = xfin m1 (supd f1 t (Done r)) z).
  { intros z. rewrite xfin_app. cbn [xfin]. fold m1 f1. rewrite Hf, Hm1, Hr. reflexivity. }
  assert (Hbase : forall z, xfin m0 f0 (x1 ++ z) = xfin m1 f1 z).
  { intros z. now rewrite xfin_app. }
  pose proof (g_legal _ _ G) as HL. rewrite Hx in HL. apply legal_app in HL as [HL1 HL2].
  fold m1 f1 in HL2.
  destruct (xfin_agree t x2 m1 f1 (supd f1 t (Done r)) Hn Hag) as (A & B & C & D).
  constructor.
  - rewrite events_app. cbn. rewrite app_nil_r, <- (g_erase _ _ G), Hx, !erase_app. reflexivity.
  - apply legal_app. split; auto. cbn. exists c. fold m1 f1. rewrite Hm1, Hr. split; auto.
  - rewrite Hstep, effs_snoc. cbn. rewrite <- A, <- Hbase, <- Hx. apply (g_map _ _ G).
  - intros u. rewrite Hstep, tstat_snoc. cbn. destruct (Nat.eq_dec u t) as [->|Hu].
    + rewrite C, !supd_same. reflexivity.
    + rewrite (supd_diff (tstat tr)) by auto.
      rewrite <- (B u Hu), <- Hbase, <- Hx. apply (g_stat _ _ G).
  - intros j' Hj'. rewrite app_length in Hj'. cbn in Hj'.
    destruct (Nat.eq_dec j' (S (length tr))) as [->|Hne].
    + exists (x1 ++ XLin t :: x2), []. split; [now rewrite app_nil_r|]. split.
      * rewrite firstn_all2 by (rewrite app_length; cbn; lia).
        rewrite Hstep, effs_snoc. cbn. rewrite <- A, <- Hbase, <- Hx. apply (g_map _ _ G).
      * intros u c' i' Hu Hi'. rewrite tstat_snoc in Hu. cbn in Hu.
        destruct (Nat.eq_dec u t) as [->|Hne]; [rewrite supd_same in Hu; discriminate|].
        rewrite supd_diff in Hu by auto. split; [|intros ? []].
        rewrite Hstep, <- (B u Hne), <- Hbase, <- Hx, (g_stat _ _ G), Hu. reflexivity.
    + destruct (g_split _ _ G j' ltac:(lia)) as (y1 & y2 & Hy & K1 & K2).
      assert (Hcmp : (exists z, y1 = x1 ++ z /\ x2 = z ++ y2) \/ (exists z, x1 = y1 ++ z /\ y2 = z ++ x2)).
      { rewrite Hx in Hy. clear -Hy. revert y1 y2 Hy. induction x1 as [|a x1 IH]; intros y1 y2 Hy.
        - left. exists y1. auto.
        - destruct y1 as [|b y1]; cbn in Hy.
          + right. exists (a :: x1). auto.
          + injection Hy as <- Hy. destruct (IH _ _ Hy) as [(z & -> & ->)|(z & -> & ->)]; [left|right]; eexists; split; reflexivity. }
      assert (Hothers : forall u c' i', tstat (tr ++ [LObs t c r]) u = TCalled c' i' -> u <> t /\ tstat tr u = TCalled c' i').
      { intros u c' i' Hu. rewrite tstat_snoc in Hu. cbn in Hu.
        destruct (Nat.eq_dec u t) as [->|Hut]; [rewrite supd_same in Hu; discriminate|].
        rewrite supd_diff in Hu by auto. auto. }
      destruct Hcmp as [(z & -> & Hz)|(z & Hz & ->)].
      * exists (x1 ++ XLin t :: z), y2. split; [now rewrite <- app_assoc, Hz|].
        assert (Hnz : noev t z).
        { rewrite Hz in Hn. apply noev_app in Hn. tauto. }
        destruct (xfin_agree t z m1 f1 (supd f1 t (Done r)) Hnz Hag) as (A' & B' & C' & D').
        split.
        -- rewrite firstn_snoc by lia. rewrite Hstep, <- A', <- Hbase. exact K1.
        -- intros u c' i' Hu Hi'. destruct (Hothers _ _ _ Hu) as [Hut Hu'].
           destruct (K2 u c' i' Hu' Hi') as [E1 E2]. split; auto.
           rewrite Hstep, <- (B' u Hut), <- Hbase. exact E1.
      * exists y1, (z ++ XLin t :: x2). split; [now rewrite Hz, <- app_assoc|]. split.
        -- rewrite firstn_snoc by lia. exact K1.
        -- intros u c' i' Hu Hi'. destruct (Hothers _ _ _ Hu) as [Hut Hu'].
           destruct (K2 u c' i' Hu' Hi') as [E1 E2]. split; auto.
           apply noev_app in E2 as [E2 E3]. apply noev_app. split; auto.
           apply noev_cons. cbn. auto.
Qed.

Lemma jtrace_good tr : jtrace tr -> exists x, good tr x.
Proof.
  induction 1 as [|tr l J (x & G) HJ].
  - exists []. constructor; cbn; auto.
    intros j Hj. exists [], []. split; auto. split; [destruct j; reflexivity|].
    intros t c i Ht. discriminate.
  - destruct l; cbn in HJ.
    + exists (x ++ [XInv t c]). apply good_snoc; auto.
      * cbn. split; auto. now rewrite (g_stat _ _ G), HJ.
      * cbn. apply (g_map _ _ G).
      * intros u. cbn. unfold supd. destruct (u =? t); auto. apply (g_stat _ _ G).
      * intros u c' i Hu Hi. cbn in *. unfold supd in Hu. destruct (u =? t) eqn:E.
        -- injection Hu as <- <-. lia.
        -- split; auto. apply Nat.eqb_neq in E. auto.
    + destruct HJ as ((i & Hi) & ->). exists (x ++ [XLin t]).
      assert (Hf : snd (xfin m0 f0 x) t = Called c) by now rewrite (g_stat _ _ G), Hi.
      apply good_snoc; auto.
      * cbn. exists c. auto.
      * cbn. rewrite Hf. cbn. now rewrite (g_map _ _ G).
      * intros u. cbn. rewrite Hf. cbn. rewrite (g_map _ _ G).
        unfold supd. destruct (u =? t); auto. apply (g_stat _ _ G).
      * intros u c' i' Hu Hi'. cbn in *. unfold supd in Hu. destruct (u =? t) eqn:E; [discriminate|].
        split; auto. apply Nat.eqb_neq in E. auto.
    + destruct HJ as (i & j & H1 & H2 & H3). eapply good_obs; eauto.
    + exists (x ++ [XRes t r]). apply good_snoc; auto.
      * cbn. split; auto. now rewrite (g_stat _ _ G), HJ.
      * cbn. apply (g_map _ _ G).
      * intros u. cbn. unfold supd. destruct (u =? t); auto. apply (g_stat _ _ G).
      * intros u c' i Hu Hi. cbn in *. unfold supd in Hu. destruct (u =? t) eqn:E; [discriminate|].
        split; auto. apply Nat.eqb_neq in E. auto.
    + exists x. now apply good_tau.
Qed.

Theorem jtrace_linearizable tr : jtrace tr -> linearizable m0 (events tr).
Proof.
  intros J. destruct (jtrace_good tr J) as (x & G). exists x. split.
  - apply (g_erase _ _ G).
  - apply (g_legal _ _ G).
Qed.

End ConcLin.
