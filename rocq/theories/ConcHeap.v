(** The pages of the concurrent single-layer trees: how each kind of change preserves the
    heap part of the invariant.  Proof-side only: no definition here models code. *)
From Coq Require Import List Arith Bool Lia Sorted.
From Verif Require Import Params Mem Common Spec ConcSpec NodeAbs SLIface TreeState Levels
  ConcModel ConcLin ConcInv.
Import ListNotations.

Section ConcHeap.
Context {P : Params} {O : OrdLaws P} {N : SLOps P} {L : SLLaws P N} (m0 : amap).

Notation heap_ok := (heap_ok m0).

Lemma upd_same (h : addr -> option nd) a o : upd h a o a = o.
Proof. unfold upd. now rewrite Nat.eqb_refl. Qed.
Lemma upd_diff (h : addr -> option nd) a o x : x <> a -> upd h a o x = h x.
Proof. intros H. unfold upd. apply Nat.eqb_neq in H. now rewrite H. Qed.

(** ** Where dead nodes lead *)

Lemma final_fun G a f : final G a f -> forall g, final G a g -> f = g.
Proof.
  induction 1; intros g Hg; inversion Hg; subst; try congruence.
  assert (b = b0) by congruence. subst. auto.
Qed.

Lemma final_live G a f : final G a f -> dd G f = None \/ tg G f = None.
Proof. induction 1; auto. Qed.

Lemma final_total h fr G tr a : heap_ok h fr G tr -> a < fr ->
  exists f, final G a f /\ f < fr /\ lv G f = lv G a /\ ele (lo G f) (lo G a).
Proof.
  intros H Ha.
  assert (Hn : forall n a, a < fr -> (forall T, dd G a = Some T -> length tr - T <= n) ->
    exists f, final G a f /\ f < fr /\ lv G f = lv G a /\ ele (lo G f) (lo G a)).
  { clear a Ha. induction n as [|n IH]; intros a Ha Hl.
    - destruct (dd G a) as [T|] eqn:E.
      + destruct (h_btd _ _ _ _ _ H a T Ha E). specialize (Hl T eq_refl). lia.
      + exists a. repeat split; auto using fin_live, ele_refl.
    - destruct (dd G a) as [T|] eqn:E.
      + pose proof (h_tg _ _ _ _ _ H a T Ha E) as Ht.
        destruct (tg G a) as [l|] eqn:El.
        * destruct Ht as (H1 & H2 & H3 & H4).
          destruct (IH l H1) as (f & F1 & F2 & F3 & F4).
          { intros T' HT'. specialize (Hl T eq_refl). rewrite HT' in H4. cbn in H4.
            destruct (h_btd _ _ _ _ _ H l T' H1 HT'). lia. }
          exists f. repeat split; auto.
          -- eapply fin_tg; eauto.
          -- congruence.
          -- eapply ele_trans; eauto. now apply elt_ele.
        * exists a. repeat split; auto using ele_refl. eapply fin_root; eauto.
      + exists a. repeat split; auto using fin_live, ele_refl. }
  apply (Hn (length tr) a Ha). intros; lia.
Qed.

Lemma final_props h fr G tr a f : heap_ok h fr G tr -> a < fr -> final G a f ->
  f < fr /\ lv G f = lv G a /\ ele (lo G f) (lo G a).
Proof.
  intros H Ha Hf. destruct (final_total _ _ _ _ _ H Ha) as (g & G1 & G2).
  now rewrite (final_fun _ _ _ Hf _ G1).
Qed.

Lemma gone_final G a f : final G a f -> (gone G a <-> dd G f <> None).
Proof.
  induction 1.
  - split; [|congruence]. inversion 1; congruence.
  - split; [congruence|]. intros _. eapply gone_root; eauto.
  - rewrite <- IHfinal. split.
    + inversion 1; congruence.
    + intros Hb. eapply gone_tg; eauto.
Qed.

Lemma gone_dead G a : gone G a -> dd G a <> None.
Proof. inversion 1; congruence. Qed.

(** A node that ended in a removed root died no later than that root. *)
Lemma gone_end h fr G tr a : heap_ok h fr G tr -> a < fr -> gone G a ->
  exists T d Td, dd G a = Some T /\ d < fr /\ dd G d = Some Td /\ tg G d = None /\
    lv G d = lv G a /\ T <= Td.
Proof.
  intros H Ha Hg. induction Hg as [a T H1 H2|a T b H1 H2 Hb IH].
  - exists T, a, T. repeat split; auto.
  - pose proof (h_tg _ _ _ _ _ H a T Ha H1) as Ht. rewrite H2 in Ht.
    destruct Ht as (B1 & B2 & B3 & B4).
    destruct (IH B1) as (T' & d & Td & D1 & D2 & D3 & D4 & D5 & D6).
    rewrite D1 in B4. cbn in B4.
    exists T, d, Td. repeat split; auto; try congruence; lia.
Qed.

(** Nodes on the same or a higher level that existed when [a] was still there are gone too. *)
Lemma gone_above h fr G tr a y : heap_ok h fr G tr -> a < fr -> gone G a -> y < fr ->
  dle (Some (bt G y)) (dd G a) -> lv G a <= lv G y -> gone G y.
Proof.
  intros H Ha Hg Hy Hb Hl.
  destruct (gone_end _ _ _ _ _ H Ha Hg) as (T & d & Td & D1 & D2 & D3 & D4 & D5 & D6).
  pose proof (h_tg _ _ _ _ _ H d Td D2 D3) as Ht. rewrite D4 in Ht.
  destruct Ht as (_ & _ & Ht). rewrite D1 in Hb. cbn in Hb. apply Ht; auto; lia.
Qed.

Lemma lowr_trans h fr G tr x y z : heap_ok h fr G tr -> y < fr ->
  lowr G x y -> lowr G y z -> lowr G x z.
Proof.
  intros H Hy H1 H2 f g Hf Hg.
  destruct (final_total _ _ _ _ _ H Hy) as (e & E & _).
  eapply ele_trans; [apply (H1 f e)|apply (H2 e g)]; auto.
Qed.

Lemma lowr_live h fr G tr x y : heap_ok h fr G tr -> x < fr -> dd G y = None ->
  ele (lo G x) (lo G y) -> lowr G x y.
Proof.
  intros H Hx Hy Hl f g Hf Hg.
  destruct (final_props _ _ _ _ _ _ H Hx Hf) as (_ & _ & E).
  rewrite (final_fun _ _ _ Hg y) by (now apply fin_live). eapply ele_trans; eauto.
Qed.

Lemma lowr_tg_l G x b y T : dd G x = Some T -> tg G x = Some b -> lowr G x y -> lowr G b y.
Proof. intros H1 H2 H f g Hf Hg. apply H; auto. eapply fin_tg; eauto. Qed.
Lemma lowr_tg_r G x b y T : dd G x = Some T -> tg G x = Some b -> lowr G y x -> lowr G y b.
Proof. intros H1 H2 H f g Hf Hg. apply H; auto. eapply fin_tg; eauto. Qed.

Lemma lowr_root h fr G tr x y : heap_ok h fr G tr -> x < fr -> gone G x -> lowr G x y.
Proof.
  intros H Hx Hg f g Hf _.
  destruct (final_props _ _ _ _ _ _ H Hx Hf) as (F1 & _).
  apply (gone_final _ _ _ Hf) in Hg. destruct (dd G f) as [T|] eqn:E; [|congruence].
  destruct (final_live _ _ _ Hf) as [|Ht]; [congruence|].
  pose proof (h_tg _ _ _ _ _ H f T F1 E) as H1. rewrite Ht in H1.
  destruct H1 as (-> & _). apply ele_neg.
Qed.

(** ** Growth of the ghost data *)

Record gle (fr n : nat) (G G' : gh) : Prop := {
  g_lv : forall a, a < fr -> lv G' a = lv G a;
  g_lo : forall a, a < fr -> lo G' a = lo G a;
  g_bt : forall a, a < fr -> bt G' a = bt G a;
  g_dd : forall a, a < fr -> dd G' a = dd G a \/ (dd G a = None /\ dd G' a = Some n);
  g_tg : forall a, a < fr -> dd G a <> None -> tg G' a = tg G a;
  g_lowr : forall x a, x < fr -> a < fr -> (lv G x = lv G a \/ lv G x = S (lv G a)) ->
    lowr G x a -> lowr G' x a;
}.

Lemma gle_dead fr n G G' a T : gle fr n G G' -> a < fr -> dd G a = Some T -> dd G' a = Some T.
Proof. intros H Ha E. destruct (g_dd _ _ _ _ H a Ha) as [->|[? _]]; congruence. Qed.

Lemma gle_alive fr n G G' a : gle fr n G G' -> a < fr -> dd G' a = None -> dd G a = None.
Proof. intros H Ha E. destruct (g_dd _ _ _ _ H a Ha) as [<-|[? _]]; congruence. Qed.

Lemma gle_dle fr n G G' i a : gle fr n G G' -> a < fr -> i <= n ->
  dle (Some i) (dd G a) -> dle (Some i) (dd G' a).
Proof. intros H Ha Hi E. destruct (g_dd _ _ _ _ H a Ha) as [->|[? ->]]; auto. Qed.

Lemma gone_mono h fr G tr n G' a : heap_ok h fr G tr -> gle fr n G G' -> a < fr ->
  gone G a -> gone G' a.
Proof.
  intros H Hg Ha Hx. induction Hx as [a T H1 H2|a T b H1 H2 Hb IH].
  - eapply gone_root; [eapply gle_dead; eauto|]. rewrite (g_tg _ _ _ _ Hg); auto. congruence.
  - pose proof (h_tg _ _ _ _ _ H a T Ha H1) as Ht. rewrite H2 in Ht.
    eapply gone_tg; [eapply gle_dead; eauto| |apply IH; tauto].
    rewrite (g_tg _ _ _ _ Hg); auto. congruence.
Qed.

Lemma entries_ext G G' a : lo G' a = lo G a -> av G' a = av G a ->
  entries_of G' a = entries_of G a.
Proof. unfold entries_of. now intros -> ->. Qed.

Lemma node_ok_ext h fr fr' G G' tr a d :
  heap_ok h fr G tr -> gle fr (length tr) G G' -> fr <= fr' -> a < fr ->
  av G' a = av G a ->
  (forall c, (lv G a <> 0 /\ In c (map snd (entries_of G a))) \/ a_next (av G a) = Some c ->
     dd G c = None -> dd G' c <> None -> dd G' a <> None) ->
  node_ok fr G a d -> node_ok fr' G' a d.
Proof.
  intros H Hg Hfr Ha Hav Hedge Hn.
  assert (Hdle : forall c, c < fr ->
    (lv G a <> 0 /\ In c (map snd (entries_of G a))) \/ a_next (av G a) = Some c ->
    dle (dd G a) (dd G c) -> dle (dd G' a) (dd G' c)).
  { intros c Hc Hin Hd. specialize (Hedge c Hin).
    destruct (g_dd _ _ _ _ Hg c Hc) as [E|[E1 E2]].
    - rewrite E. destruct (g_dd _ _ _ _ Hg a Ha) as [E'|[E1' E2']].
      + now rewrite E'.
      + rewrite E2'. rewrite E1' in Hd. destruct (dd G c); [destruct Hd|exact I].
    - rewrite E2. destruct (g_dd _ _ _ _ Hg a Ha) as [E'|[E1' E2']].
      + rewrite E' in *. destruct (dd G a) as [T|] eqn:Ea.
        * cbn. destruct (h_btd _ _ _ _ _ H a T Ha Ea). lia.
        * exfalso. apply Hedge; auto. rewrite E2. congruence.
      + rewrite E2'. cbn. lia. }
  destruct Hn as [n1 n2 n3 n4 n5 n6 n7 n8 n9 n10 n11].
  constructor; unfold hi in *; rewrite ?Hav, ?(g_lo _ _ _ _ Hg a Ha), ?(g_lv _ _ _ _ Hg a Ha) in *;
    auto.
  - intros Hl e c Hin.
    rewrite (entries_ext G G') in Hin by (auto; apply (g_lo _ _ _ _ Hg a Ha)).
    destruct (n10 Hl e c Hin) as (C1 & C2 & C3 & C4 & C5).
    rewrite (g_lv _ _ _ _ Hg c C1), (g_lo _ _ _ _ Hg c C1).
    repeat split; auto; try lia.
    + apply Hdle; auto. left. split; auto. apply (in_map snd) in Hin. exact Hin.
    + apply (g_lowr _ _ _ _ Hg); auto.
  - destruct (a_next (av G a)) as [b|] eqn:Eb; auto.
    destruct n11 as (k & K1 & K2 & K3 & K4 & K5 & K6 & K7).
    exists k. rewrite (g_lv _ _ _ _ Hg b K3), (g_lo _ _ _ _ Hg b K3), (g_bt _ _ _ _ Hg b K3).
    repeat split; auto; try lia.
    + apply (gle_dle fr (length tr) G); auto. now apply (h_bt _ _ _ _ _ H).
    + apply (g_lowr _ _ _ _ Hg); auto.
Qed.

(** ** Setting the contents of one node *)

Definition seta (G : gh) (a : addr) (A : anode) : gh :=
  Gh (lv G) (lo G) (bt G) (dd G) (tg G) (fun x => if Nat.eqb x a then A else av G x).

Lemma av_seta_same G a A : av (seta G a A) a = A.
Proof. cbn. now rewrite Nat.eqb_refl. Qed.
Lemma av_seta_diff G a A x : x <> a -> av (seta G a A) x = av G x.
Proof. intros H. cbn. apply Nat.eqb_neq in H. now rewrite H. Qed.

Lemma final_ext G G' : dd G' = dd G -> tg G' = tg G -> forall a f, final G a f -> final G' a f.
Proof.
  intros E1 E2 a f H. induction H.
  - apply fin_live. congruence.
  - eapply fin_root; [rewrite E1|rewrite E2]; eauto.
  - eapply fin_tg; [rewrite E1|rewrite E2|]; eauto.
Qed.

Lemma lowr_ext G G' x a : dd G' = dd G -> tg G' = tg G -> lo G' = lo G ->
  lowr G x a -> lowr G' x a.
Proof.
  intros E1 E2 E3 H f g Hf Hg. rewrite E3.
  apply H; eapply final_ext; try eassumption; congruence.
Qed.

Lemma gle_same fr n G G' : lv G' = lv G -> lo G' = lo G -> bt G' = bt G -> dd G' = dd G ->
  tg G' = tg G -> gle fr n G G'.
Proof.
  intros E1 E2 E3 E4 E5. constructor; intros; try congruence.
  - left. congruence.
  - eapply lowr_ext; eauto.
Qed.

Lemma gle_seta fr n G a A : gle fr n G (seta G a A).
Proof. now apply gle_same. Qed.
Lemma gle_refl fr n G : gle fr n G G.
Proof. now apply gle_same. Qed.

Lemma gone_ext G G' a : dd G' = dd G -> tg G' = tg G -> gone G a -> gone G' a.
Proof.
  intros E1 E2 H. induction H.
  - eapply gone_root; [rewrite E1|rewrite E2]; eauto.
  - eapply gone_tg; [rewrite E1|rewrite E2|]; eauto.
Qed.

Lemma live_not_removed h fr G tr a d : heap_ok h fr G tr -> h a = Some d -> dd G a = None ->
  nd_removed d = false.
Proof.
  intros H Ha Hd. destruct (nd_removed d) eqn:E; auto.
  now apply (h_dead _ _ _ _ _ H a d Ha) in E as (? & _).
Qed.

Lemma live_node h fr G tr a : heap_ok h fr G tr -> a < fr -> dd G a = None ->
  exists d, h a = Some d /\ nd_removed d = false /\ node_ok fr G a d.
Proof.
  intros H Ha Hd. destruct (h_some _ _ _ _ _ H a Ha) as [d E].
  pose proof (live_not_removed _ _ _ _ _ _ H E Hd) as Hr.
  exists d. split; [auto|]. split; [auto|]. eapply h_node; eauto.
Qed.

Lemma elt_hi_lo h fr G tr a : heap_ok h fr G tr -> a < fr -> dd G a = None ->
  elt (lo G a) (hi G a).
Proof.
  intros H Ha Hd. destruct (live_node _ _ _ _ _ H Ha Hd) as (d & _ & _ & Hn). apply (n_rng _ _ _ _ Hn).
Qed.

(** Two nodes of the tree on one level that share a point are the same. *)
Lemma same_point h fr G tr a b (e : ext) : heap_ok h fr G tr ->
  a < fr -> b < fr -> dd G a = None -> dd G b = None -> lv G a = lv G b ->
  ele (lo G a) e -> elt e (hi G a) -> ele (lo G b) e -> elt e (hi G b) -> a = b.
Proof.
  intros H Ha Hb Da Db Hl A1 A2 B1 B2.
  destruct (Nat.eq_dec a b) as [|Hne]; auto. exfalso.
  destruct (h_disj _ _ _ _ _ H a b Ha Hb Da Db Hl Hne) as [E|E].
  - apply (elt_irrefl e). eapply elt_ele_trans; [exact A2|]. eapply ele_trans; eauto.
  - apply (elt_irrefl e). eapply elt_ele_trans; [exact B2|]. eapply ele_trans; eauto.
Qed.

Lemma same_lo h fr G tr a b : heap_ok h fr G tr ->
  a < fr -> b < fr -> dd G a = None -> dd G b = None -> lv G a = lv G b ->
  lo G a = lo G b -> a = b.
Proof.
  intros H Ha Hb Da Db Hl E.
  eapply (same_point _ _ _ _ a b (lo G a) H); eauto using ele_refl, elt_hi_lo.
  - rewrite E. apply ele_refl.
  - rewrite E. eauto using elt_hi_lo.
Qed.

Lemma mapat_snoc tr l i : i <= length tr -> mapat m0 (tr ++ [l]) i = mapat m0 tr i.
Proof.
  intros H. unfold mapat. rewrite firstn_app. replace (i - length tr) with 0 by lia.
  cbn. now rewrite app_nil_r.
Qed.

Lemma heap_seta h fr G tr l a A d' :
  heap_ok h fr G tr -> a < fr -> dd G a = None ->
  node_ok fr (seta G a A) a d' -> a_high A = a_high (av G a) ->
  nd_removed d' = false ->
  (lv G a = 0 -> forall k, inrange G a k ->
     assoc k (live (a_slots A)) = effs m0 (tr ++ [l]) k) ->
  (forall k, lv G a <> 0 \/ ~ inrange G a k -> effs m0 (tr ++ [l]) k = effs m0 tr k) ->
  heap_ok (upd h a (Some d')) fr (seta G a A) (tr ++ [l]).
Proof.
  intros H Ha Hd Hn Hh Hr Hc1 Hc2.
  assert (Hhi : forall x, hi (seta G a A) x = hi G x).
  { intros x. unfold hi, hia. cbn. destruct (x =? a) eqn:E; auto.
    apply Nat.eqb_eq in E. subst. now rewrite Hh. }
  assert (Hir : forall x k, inrange (seta G a A) x k <-> inrange G x k).
  { intros x k. unfold inrange. rewrite Hhi. tauto. }
  assert (Hlen : length (tr ++ [l]) = S (length tr)) by (rewrite app_length; cbn; lia).
  constructor.
  - intros x Hx. destruct (Nat.eq_dec x a) as [->|E].
    + rewrite upd_same. eauto.
    + rewrite upd_diff by auto. apply (h_some _ _ _ _ _ H x Hx).
  - intros x d. destruct (Nat.eq_dec x a) as [->|E]; auto.
    rewrite upd_diff by auto. apply (h_none _ _ _ _ _ H x).
  - intros x d. destruct (Nat.eq_dec x a) as [->|E].
    + rewrite upd_same. intros [= <-] _. auto.
    + rewrite upd_diff by auto. intros Hx Hrx.
      eapply node_ok_ext; eauto using gle_seta.
      * eapply h_none; eauto.
      * now apply av_seta_diff.
      * eapply h_node; eauto.
  - intros x d. destruct (Nat.eq_dec x a) as [->|E].
    + rewrite upd_same. intros [= <-] ?. exfalso. congruence.
    + rewrite upd_diff by auto. apply (h_dead _ _ _ _ _ H x).
  - intros x Hx. rewrite Hlen. cbn. pose proof (h_bt _ _ _ _ _ H x Hx). lia.
  - intros x T Hx HT. rewrite Hlen. cbn in *. pose proof (h_btd _ _ _ _ _ H x T Hx HT). lia.
  - intros x T Hx HT. cbn in HT. pose proof (h_tg _ _ _ _ _ H x T Hx HT) as Ht. cbn.
    destruct (tg G x); auto. destruct Ht as (T1 & T2 & T3). repeat split; auto.
    intros y Hy1 Hy2 Hy3. eapply gone_ext; [..|apply T3]; auto.
  - exact (h_key _ _ _ _ _ H).
  - intros x y. rewrite !Hhi. apply (h_disj _ _ _ _ _ H).
  - intros x Hx Hdx Hlx k Hk. apply Hir in Hk. cbn in Hdx, Hlx.
    destruct (Nat.eq_dec x a) as [->|E].
    + rewrite av_seta_same. auto.
    + rewrite av_seta_diff by auto. rewrite (h_cont _ _ _ _ _ H x Hx Hdx Hlx k Hk).
      symmetry. apply Hc2. destruct (Nat.eq_dec (lv G a) 0) as [E0|]; [|tauto]. right.
      intros Hka. apply E. destruct Hk, Hka.
      eapply (same_point _ _ _ _ x a (Key k) H); eauto. congruence.
  - intros x d T Hx Hrx HT Hlx k Hk. apply Hir in Hk. cbn in HT, Hlx.
    assert (E : x <> a) by (intros ->; congruence).
    rewrite upd_diff in Hx by auto. rewrite av_seta_diff by auto.
    assert (Hxf : x < fr) by (eapply h_none; eauto).
    destruct (h_btd _ _ _ _ _ H x T Hxf HT). rewrite mapat_snoc by lia.
    eapply h_stale; eauto.
  - intros b d T r Hb Hrb HT. cbn in HT.
    assert (E : b <> a) by (intros ->; congruence).
    rewrite upd_diff in Hb by auto. rewrite Hhi. cbn. apply (h_sdisj _ _ _ _ _ H b d T r Hb Hrb HT).
Qed.

Lemma seta_id G a x : av (seta G a (av G a)) x = av G x.
Proof. cbn. destruct (x =? a) eqn:E; auto. apply Nat.eqb_eq in E. now subst. Qed.

(** Nothing but the trace changes. *)
Lemma heap_tick h fr G tr l : heap_ok h fr G tr -> effs m0 (tr ++ [l]) = effs m0 tr ->
  heap_ok h fr G (tr ++ [l]).
Proof.
  intros H He.
  assert (Hlen : length (tr ++ [l]) = S (length tr)) by (rewrite app_length; cbn; lia).
  destruct H as [h1 h2 h3 h4 h5 h6 h7 h8 h9 h10 h11 h12]. constructor; auto.
  - intros a Ha. rewrite Hlen. specialize (h5 a Ha). lia.
  - intros a T Ha HT. rewrite Hlen. specialize (h6 a T Ha HT). lia.
  - intros a Ha. rewrite He. auto.
  - intros a d T Ha Hr HT. rewrite mapat_snoc; eauto.
    assert (Hf : a < fr) by eauto. specialize (h6 a T Hf HT). lia.
Qed.

(** The page changes but stands for the same contents. *)
Lemma heap_rep h fr G tr l a d' : heap_ok h fr G tr -> a < fr -> dd G a = None ->
  rep d' (av G a) -> effs m0 (tr ++ [l]) = effs m0 tr ->
  heap_ok (upd h a (Some d')) fr G (tr ++ [l]).
Proof.
  intros H Ha Hd Hrep He. apply heap_tick; auto.
  destruct (live_node _ _ _ _ _ H Ha Hd) as (d & E1 & E2 & E3).
  assert (Hr : nd_removed d' = false).
  { destruct (L_hdr _ _ Hrep) as (_ & -> & _). apply (n_rem _ _ _ _ E3). }
  destruct H as [h1 h2 h3 h4 h5 h6 h7 h8 h9 h10 h11 h12]. constructor; auto.
  - intros x Hx. destruct (Nat.eq_dec x a) as [->|E]; [rewrite upd_same; eauto|].
    rewrite upd_diff by auto. auto.
  - intros x y. destruct (Nat.eq_dec x a) as [->|E]; auto. rewrite upd_diff by auto. eauto.
  - intros x y. destruct (Nat.eq_dec x a) as [->|E].
    + rewrite upd_same. intros [= <-] _. destruct E3. constructor; auto.
    + rewrite upd_diff by auto. auto.
  - intros x y. destruct (Nat.eq_dec x a) as [->|E].
    + rewrite upd_same. intros [= <-] ?. exfalso. congruence.
    + rewrite upd_diff by auto. auto.
  - intros x y T Hx Hry HT.
    assert (E : x <> a) by (intros ->; congruence). rewrite upd_diff in Hx by auto. eauto.
  - intros x y T r Hx Hry HT.
    assert (E : x <> a) by (intros ->; congruence). rewrite upd_diff in Hx by auto. eauto.
Qed.

(** ** Leaf updates *)

Lemma node_ok_leaf h fr G tr a d d' A extra : heap_ok h fr G tr -> a < fr -> lv G a = 0 ->
  node_ok fr G a d -> rep d' A -> same_frame (av G a) A -> leaf_ok (a_slots A) ->
  incl (keys_of (a_slots A)) (extra ++ keys_of (a_slots (av G a))) ->
  (forall k, In k extra -> inrange G a k) ->
  node_ok fr (seta G a A) a d'.
Proof.
  intros H Ha Hl Hn Hrep (F1 & F2 & F3 & F4 & F5) Hok Hincl Hex.
  destruct Hn as [n1 n2 n3 n4 n5 n6 n7 n8 n9 n10 n11].
  assert (Hhi : hi (seta G a A) a = hi G a).
  { unfold hi, hia. rewrite av_seta_same. now rewrite F5. }
  constructor; rewrite ?av_seta_same, ?Hhi; cbn [lv lo bt dd tg seta]; auto; try congruence.
  - rewrite F1, n3, Hl. exact Hok.
  - intros k Hk. rewrite F4. auto.
  - intros _ k Hk. apply Hincl in Hk. apply in_app_or in Hk as [Hk|Hk].
    + apply (Hex k Hk).
    + auto.
  - rewrite F3, F5. destruct (a_next (av G a)); auto.
    destruct n11 as (k & K1 & K2 & K3 & K4 & K5 & K6 & K7). exists k. repeat split; auto.
    now apply (lowr_ext G).
Qed.

(** ** Entries of inner nodes *)

Lemma in_sent e c sl : In (e, c) (map sent sl) -> Forall inner_slotk sl ->
  exists s k, In s sl /\ e = Key k /\ s_key s = Some k /\ s_pay s = PP c.
Proof.
  intros H Hf. apply in_map_iff in H as (s & E & Hin).
  rewrite Forall_forall in Hf. destruct (Hf s Hin) as (_ & k & x & K1 & K2).
  unfold sent, skey, skid in E. rewrite K1, K2 in E. inversion E; subst. eauto 6.
Qed.

Lemma entry_key sl k : Forall inner_slotk sl -> In k (keys_of sl) ->
  exists c, In (Key k, c) (map sent sl).
Proof.
  intros Hf Hk. apply in_keys_of in Hk as (s & Hs & E).
  rewrite Forall_forall in Hf. destruct (Hf s Hs) as (_ & k' & x & K1 & K2).
  exists x. apply in_map_iff. exists s. split; auto. unfold sent, skey, skid.
  rewrite K2, E. reflexivity.
Qed.

(** The entries of an inner node of the tree. *)
Lemma entry_range fr G a d e c : node_ok fr G a d -> lv G a <> 0 ->
  In (e, c) (entries_of G a) ->
  (e = lo G a \/ exists k, e = Key k /\ In k (keys_of (tl (a_slots (av G a))))) /\
  ele (lo G a) e /\ elt e (hi G a).
Proof.
  intros Hn Hl Hin. pose proof (n_body _ _ _ _ Hn) as Hb.
  rewrite (n_inner _ _ _ _ Hn) in Hb. apply Nat.eqb_neq in Hl as Hl'. rewrite Hl' in Hb. cbn in Hb.
  unfold entries_of in Hin. unfold inner_ok in Hb.
  destruct (a_slots (av G a)) as [|s sl] eqn:E; [destruct Hb|].
  destruct Hb as (B1 & B2 & B3). cbn in Hin. destruct Hin as [Hin|Hin].
  - inversion Hin; subst. split; [auto|]. split; [apply ele_refl|apply (n_rng _ _ _ _ Hn)].
  - destruct (in_sent _ _ _ Hin B2) as (s' & k & S1 & -> & S2 & S3).
    assert (Hk : In k (keys_of sl)) by (apply in_keys_of; eauto).
    pose proof (n_seps _ _ _ _ Hn Hl k) as Hs. rewrite E in Hs. cbn in Hs. specialize (Hs Hk).
    split; [right; exists k; auto|]. destruct Hs. split; auto. now apply elt_ele.
Qed.

End ConcHeap.
