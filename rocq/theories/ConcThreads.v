(** The threads of the concurrent single-layer trees: what a thread knows survives the steps
    of the others.  Proof-side only: no definition here models code. *)
From Coq Require Import List Arith Bool Lia Sorted.
From Verif Require Import Params Mem Common Spec ConcSpec NodeAbs SLIface TreeState Levels
  ConcModel ConcLin ConcInv ConcHeap ConcSmo.
Import ListNotations.

Section ConcThreads.
Context {P : Params} {O : OrdLaws P} {N : SLOps P} {L : SLLaws P N} (m0 : amap).

Notation heap_ok := (heap_ok m0).
Notation inv := (ConcInv.inv m0).

Lemma stk_in s G : forall stk a z, stk_ok s G a stk -> In z stk -> z < cfr s.
Proof.
  induction stk as [|x rest IH]; intros a z Hs Hz; [destruct Hz|].
  cbn [stk_ok] in Hs. destruct Hs as [Hs|(H1 & _ & _ & _ & H2)].
  - now apply Hs.
  - destruct Hz as [<-|Hz]; eauto.
Qed.

(** The steps after which the node [a] is no longer part of the tree. *)
Definition kills (p : pc) (a : addr) : Prop :=
  match p with PMrg1 _ _ r _ => a = r | PShrL _ q => a = q | _ => False end.

(** [k] is the key of a slot of some leaf; the step carries out a call for [k]. *)
Definition leaf_key (s : cfg) (G : gh) (k : K) : Prop :=
  exists b, b < cfr s /\ dd G b = None /\ lv G b = 0 /\ In k (keys_of (a_slots (av G b))).
Definition new_key (s s' : cfg) (k : K) : Prop :=
  exists t c r, tr s' = tr s ++ [LEff t c r] /\ call_key c = k.

Record gext (s s' : cfg) (G G' : gh) : Prop := {
  x_fr : cfr s <= cfr s';
  x_gle : gle (cfr s) (length (tr s)) G G';
  x_dead : forall a, deadroot s a -> deadroot s' a;
  x_die : forall a, a < cfr s' -> dd G' a <> None ->
    (a < cfr s /\ dd G a <> None) \/ exists t, kills (th s t) a;
  x_keys : forall a k, a < cfr s' -> dd G' a = None -> lv G' a = 0 ->
    In k (keys_of (a_slots (av G' a))) -> leaf_key s G k \/ new_key s s' k;
}.

Section Ext.
Variables (s s' : cfg) (G G' : gh).
Hypothesis H : heap_ok (ch s) (cfr s) G (tr s).
Hypothesis X : gext s s' G G'.

Let Hg := x_gle _ _ _ _ X.

Lemma ext_gone a : a < cfr s -> gone G a -> gone G' a.
Proof. intros. eapply gone_mono; eauto. Qed.

Lemma ext_all_gone stk : all_gone s G stk -> all_gone s' G' stk.
Proof.
  intros Ha z Hz. destruct (Ha z Hz). split; [|now apply ext_gone].
  pose proof (x_fr _ _ _ _ X). lia.
Qed.

Lemma ext_stk : forall stk a, a < cfr s -> stk_ok s G a stk -> stk_ok s' G' a stk.
Proof.
  induction stk as [|x rest IH]; intros a Ha Hs; [now left|].
  assert (Hin' : forall z, In z (x :: rest) -> z < cfr s) by (intros; eapply stk_in; eauto).
  cbn [stk_ok] in *. destruct Hs as [Hs|(H1 & H2 & H3 & H4 & H5)].
  - left. now apply ext_all_gone.
  - right. rewrite (g_lv _ _ _ _ Hg x), (g_lv _ _ _ _ Hg a) by auto. repeat split; auto.
    + pose proof (x_fr _ _ _ _ X). lia.
    + apply (g_lowr _ _ _ _ Hg); auto.
    + intros z Hz. specialize (Hin' z Hz). destruct (H4 z Hz) as [Q|Q].
      * left. now apply ext_gone.
      * right. rewrite (g_bt _ _ _ _ Hg z) by auto. eapply gle_dle; eauto.
        now apply (h_bt _ _ _ _ _ H).
Qed.

Lemma ext_lives a : lives s G a -> dd G' a = dd G a -> lives s' G' a.
Proof. intros (H1 & H2) E. split; [pose proof (x_fr _ _ _ _ X); lia|congruence]. Qed.

Lemma ext_lt a : a < cfr s -> a < cfr s'.
Proof. pose proof (x_fr _ _ _ _ X). lia. Qed.
End Ext.

Record oext (t : tid) (s s' : cfg) (G G' : gh) : Prop := {
  o_six : forall a u, u <> t -> six s a = Some u -> six s' a = Some u;
  o_page : forall a u, u <> t -> six s a = Some u -> a < cfr s ->
    ch s' a = ch s a /\ av G' a = av G a /\ dd G' a = dd G a;
  o_claim : forall u r, u <> t -> In r (claims (th s u)) -> r < cfr s ->
    dd G' r = dd G r /\ (noentry s G r -> noentry s' G' r);
  o_stat : forall u, u <> t -> tstat (tr s') u = tstat (tr s) u;
  o_th : forall u, u <> t -> th s' u = th s u;
}.

Section Other.
Variables (u : tid) (s s' : cfg) (G G' : gh) (q : pc).
Hypothesis H : heap_ok (ch s) (cfr s) G (tr s).
Hypothesis X : gext s s' G G'.
Hypothesis Hsix : forall a, six s a = Some u -> six s' a = Some u.
Hypothesis Hpg : forall a, six s a = Some u -> a < cfr s ->
  ch s' a = ch s a /\ av G' a = av G a /\ dd G' a = dd G a.
Hypothesis Hclm : forall r, In r (claims q) -> r < cfr s ->
  dd G' r = dd G r /\ (noentry s G r -> noentry s' G' r).
Hypothesis Hstat : tstat (tr s') u = tstat (tr s) u.

Let Hg := x_gle _ _ _ _ X.

Lemma oth_owns a : owns s u a -> owns s' u a.
Proof. apply Hsix. Qed.

Lemma oth_lives a : owns s u a -> lives s G a -> lives s' G' a.
Proof.
  intros Ho Hl. eapply ext_lives; eauto.
  apply (Hpg a Ho). apply Hl.
Qed.

Lemma oth_av a : owns s u a -> a < cfr s -> av G' a = av G a.
Proof. intros Ho Hl. apply (Hpg a Ho Hl). Qed.

Lemma oth_page a Q : owns s u a -> a < cfr s -> page_is s a Q -> page_is s' a Q.
Proof.
  intros Ho Hl (d & D1 & D2). exists d. split; auto.
  now rewrite (proj1 (Hpg a Ho Hl)).
Qed.

Lemma oth_inrange a k : owns s u a -> a < cfr s -> inrange G a k -> inrange G' a k.
Proof.
  intros Ho Hl. unfold inrange, hi. rewrite (oth_av a Ho Hl), (g_lo _ _ _ _ Hg a Hl). auto.
Qed.

Lemma oth_keyfree a k : owns s u a -> a < cfr s -> key_free G a k -> key_free G' a k.
Proof. intros Ho Hl. unfold key_free. now rewrite (oth_av a Ho Hl). Qed.

Lemma oth_pending r sep : In r (claims q) -> pending s G r sep -> pending s' G' r sep.
Proof.
  intros Hc (H1 & H2 & H3). destruct (Hclm r Hc (proj1 H1)) as (C1 & C2).
  split; [eapply ext_lives; eauto|]. split; auto. now rewrite (g_lo _ _ _ _ Hg r (proj1 H1)).
Qed.

Lemma oth_pair l r : pair_ok s G u l r -> pair_ok s' G' u l r.
Proof.
  intros (H1 & H2 & H3 & H4 & H5).
  split; [now apply oth_owns|]. split; [now apply oth_owns|].
  split; [now apply oth_lives|]. split; [now apply oth_lives|].
  now rewrite (oth_av l H1 (proj1 H3)).
Qed.

Lemma oth_mergeable l r : pair_ok s G u l r -> mergeable s l r -> mergeable s' l r.
Proof.
  intros (H1 & H2 & H3 & H4 & H5) (dl & dr & D1 & D2 & D3). exists dl, dr.
  rewrite (proj1 (Hpg l H1 (proj1 H3))),
          (proj1 (Hpg r H2 (proj1 H4))). auto.
Qed.

Lemma oth_up up : up_ok s G u up -> up_ok s' G' u up.
Proof.
  destruct up as [[p stk]|]; cbn; auto. intros (H1 & H2 & H3 & H4).
  split; [now apply oth_owns|]. split; [now apply oth_lives|].
  rewrite (g_lv _ _ _ _ Hg p (proj1 H2)). split; auto.
  eapply ext_stk; eauto. apply H2.
Qed.

Lemma oth_kont k key target : (forall r, In r (kclaims k) -> In r (claims q)) ->
  kont_ok s G u k key target -> kont_ok s' G' u k key target.
Proof.
  intros Hc. destruct k as [l r sep|node l]; cbn in *.
  - intros (-> & -> & H3 & H4 & H5). split; [auto|]. split; [auto|]. split.
    + apply oth_pending; auto.
    + split; [eapply ext_lt; eauto|].
      rewrite (g_lv _ _ _ _ Hg l H4), (g_lv _ _ _ _ Hg r (proj1 (proj1 H3))). auto.
  - intros (H1 & H2). split; [now apply oth_pair|].
    destruct H1 as (_ & _ & _ & H1 & _). now rewrite (g_lo _ _ _ _ Hg target (proj1 H1)).
Qed.

Lemma oth_lv a : a < cfr s -> lv G' a = lv G a.
Proof. apply (g_lv _ _ _ _ Hg). Qed.

Lemma pc_ok_keep : pc_ok s G u q -> pc_ok s' G' u q.
Proof.
  enough (W : forall p0, q = p0 -> pc_ok s G u p0 -> pc_ok s' G' u p0) by auto.
  intros p0 E.
  pose proof oth_owns as A1. pose proof oth_lives as A2. pose proof oth_inrange as A3.
  pose proof oth_keyfree as A4. pose proof oth_page as A5. pose proof oth_pending as A6.
  pose proof oth_pair as A7. pose proof (ext_lt _ _ _ _ X) as A8.
  destruct p0 as [ |c|c a stk|c a stk|c a r sep stk|c a r x sep stk|rt a r x sep stk
    |rt stk x l r sep|rt stk p r sep|rt stk p pr r psep sep|rt stk p pr x r psep sep
    |rt stk l r sep|rt stk l r sep|rt k stk key target|rt k a stk key target
    |rt stk node l|rt stk x l r del|rt l r up|rt r m up|rt p|rt p|rt p|rt p|rt];
    cbn [pc_ok]; auto.
  - (* PDesc *)
    intros (H1 & H2 & H3). split; [auto|]. split; [eapply ext_lt; eauto|].
    destruct H3 as [H3|(H3 & H4 & H5)]; [left; now apply (x_dead _ _ _ _ X)|right].
    rewrite (g_lo _ _ _ _ Hg a H2). split; [auto|]. split; [|eapply ext_stk; eauto].
    rewrite Hstat. intros i Hi. eapply gle_dle; eauto.
    eapply tstat_le; eauto.
  - (* PSplit *)
    intros (H1 & H2 & H3 & H4 & H5 & H6 & H7 & H8 & H9). pose proof (proj1 H4) as H4'.
    rewrite oth_lv by auto.
    repeat (split; [solve [eauto]|]).
    eapply ext_stk; eauto.
  - (* PValid *)
    assert (C0 : In r (claims q)) by (rewrite E; now left).
    intros (H1 & H2 & H3 & H4 & H5 & H6 & H7 & H8 & H9 & H10 & H11 & H12 & H13 & H14).
    destruct H3 as (P1 & P2 & P3 & P4 & P5).
    pose proof (proj1 P3) as P3'. pose proof (proj1 P4) as P4'.
    assert (Hp : pair_ok s G u a r) by (unfold pair_ok; auto).
    rewrite !oth_lv by auto. rewrite (g_lo _ _ _ _ Hg a P3'). unfold hi in *.
    rewrite (oth_av a P1 P3'), (oth_av r P2 P4').
    repeat (split; [solve [eauto]|]).
    eapply ext_stk; eauto.
  - (* PRetry *)
    assert (C0 : In r (claims q)) by (rewrite E; now left).
    intros (H1 & H2 & H3 & H4 & H5 & H6 & H7 & H8 & H9 & H10 & H11 & H12 & H13).
    pose proof (proj1 H4) as H4'. pose proof (proj1 (proj1 H12)) as H12'.
    rewrite !oth_lv by auto.
    repeat (split; [solve [eauto]|]).
    eapply ext_stk; eauto.
  - (* PSep *)
    assert (C0 : In r (claims q)) by (rewrite E; now left).
    intros (H1 & H2 & H3 & H4). pose proof (proj1 (proj1 H3)) as H3'.
    rewrite !oth_lv by auto.
    repeat (split; [solve [eauto]|]). eapply ext_stk; eauto.
  - (* PComp *)
    assert (C0 : In r (claims q)) by (rewrite E; now left).
    intros (H1 & H2 & H3 & H4 & top & rest & H5 & H6 & H7 & H8 & H9).
    pose proof (proj1 (proj1 H1)) as H1'. rewrite !oth_lv by auto.
    repeat (split; [solve [eauto]|]).
    exists top, rest. rewrite !oth_lv by auto.
    split; [auto|]. split; [eauto using ext_lt|]. split; [auto|]. split.
    + destruct H8 as [H8|H8]; [left; eapply ext_gone; eauto|right].
      rewrite (g_bt _ _ _ _ Hg top H6). eapply gle_dle; eauto. now apply (h_bt _ _ _ _ _ H).
    + eapply ext_stk; eauto.
  - (* PCompSplit *)
    assert (C0 : In r (claims q)) by (rewrite E; now left).
    intros (H1 & H2 & H3 & H4 & H5 & H6 & H7). pose proof (proj1 (proj1 H1)) as H1'.
    pose proof (proj1 H3) as H3'. rewrite !oth_lv by auto.
    repeat (split; [solve [eauto]|]).
    eapply ext_stk; eauto.
  - (* PCompValid *)
    intros (H1 & H2 & H3 & H4 & H5 & H6 & H7 & H8 & H9 & H10 & H11).
    pose proof (proj1 (proj1 H1)) as H1'.
    destruct H3 as (P1 & P2 & P3 & P4 & P5).
    pose proof (proj1 P3) as P3'. pose proof (proj1 P4) as P4'.
    assert (Hp : pair_ok s G u p pr) by (unfold pair_ok; auto).
    rewrite !oth_lv by auto. rewrite (g_lo _ _ _ _ Hg p P3'). unfold hi in *.
    rewrite (oth_av p P1 P3'), (oth_av pr P2 P4').
    assert (C1 : In pr (claims q)) by (rewrite E; now left).
    assert (C2 : In r (claims q)) by (rewrite E; right; now left).
    repeat (split; [solve [eauto]|]).
    eapply ext_stk; eauto.
  - (* PCompIns *)
    intros (H1 & H2 & H3 & H4 & H5 & H6 & H7 & H8 & H9 & H10 & H11).
    pose proof (proj1 (proj1 H1)) as H1'. pose proof (proj1 (proj1 H2)) as H2'.
    pose proof (proj1 H4) as H4'. rewrite !oth_lv by auto.
    assert (C1 : In pr (claims q)) by (rewrite E; now left).
    assert (C2 : In r (claims q)) by (rewrite E; right; now left).
    repeat (split; [solve [eauto]|]).
    eapply ext_stk; eauto.
  - (* PTry *)
    assert (C0 : In r (claims q)) by (rewrite E; now left).
    intros (H1 & H2 & H3 & H4). pose proof (proj1 (proj1 H1)) as H1'. rewrite !oth_lv by auto.
    repeat (split; [solve [eauto]|]). eapply ext_all_gone; eauto.
  - (* PTrySt *)
    assert (C0 : In r (claims q)) by (rewrite E; now left).
    intros (H1 & H2 & H3 & H4). pose proof (proj1 (proj1 H1)) as H1'. rewrite !oth_lv by auto.
    repeat (split; [solve [eauto]|]). eapply ext_all_gone; eauto.
  - (* PFindRoot *)
    intros (H1 & H2). split; [|eapply ext_all_gone; eauto]. apply oth_kont; auto. now rewrite E.
  - (* PFind *)
    intros (H1 & H2 & H3).
    assert (Ht : target < cfr s).
    { destruct k as [l r sep|node l]; cbn in H1.
      - destruct H1 as (-> & _ & H1 & _). apply H1.
      - destruct H1 as ((_ & _ & _ & H1 & _) & _). apply H1. }
    split; [apply oth_kont; auto; now rewrite E|]. split; [eauto using ext_lt|].
    destruct H3 as [H3|(H3 & H4 & H5 & H6)]; [left; now apply (x_dead _ _ _ _ X)|right].
    rewrite !oth_lv, (g_lo _ _ _ _ Hg a H2), (g_bt _ _ _ _ Hg target Ht) by auto.
    split; [auto|]. split; [auto|]. split; [|eapply ext_stk; eauto].
    eapply gle_dle; eauto. now apply (h_bt _ _ _ _ _ H).
  - (* PMerge *)
    intros (H1 & H2 & H3). pose proof (proj1 H2) as H2'.
    split; [now apply oth_owns|]. split; [now apply oth_lives|].
    rewrite (oth_av l H1 H2').
    destruct H3 as [(b & B1 & B2)|(H3 & H4)]; [left; exists b; split; auto; now apply oth_owns|right].
    split; auto. eapply ext_stk; eauto.
  - (* PMergeAt *)
    intros (H1 & H2 & H3 & H4 & H5).
    assert (Hr : r < cfr s) by (destruct H1 as (_ & _ & _ & H1 & _); apply H1).
    split; [now apply oth_pair|]. split; [now apply oth_mergeable|].
    rewrite (g_lo _ _ _ _ Hg r Hr). split; [auto|]. split; [eauto using ext_lt|].
    eapply ext_stk; eauto.
  - (* PMrg1 *)
    intros (H1 & H2 & H3 & H4 & H5).
    assert (Hr : r < cfr s) by (destruct H1 as (_ & _ & _ & H1 & _); apply H1).
    split; [now apply oth_pair|]. split; [now apply oth_mergeable|]. split.
    { apply Hclm; auto; rewrite E; now left. }
    split; [now apply oth_up|]. destruct up as [[p stk]|]; auto.
    rewrite !oth_lv; auto. apply H4.
  - (* PMrg2 *)
    intros (H1 & H2 & H3 & H4 & H5 & H6 & H7 & H8 & H9).
    destruct (Hpg r H1 H2) as (_ & _ & Q).
    rewrite Q, (g_tg _ _ _ _ Hg r H2 H3), (g_lv _ _ _ _ Hg r H2).
    repeat (split; [solve [eauto]|]). now apply oth_up.
  - (* PShr *)
    intros (H1 & H2 & H3). rewrite oth_lv by apply H2. eauto using oth_owns, oth_lives.
  - (* PShrL *)
    intros (H1 & H2 & H3 & H4 & H5). rewrite oth_lv, (oth_av p H1 (proj1 H2)) by apply H2.
    repeat (split; [solve [eauto]|]). assumption.
  - intros (H1 & H2). eauto using oth_owns, oth_lives.
Qed.

End Other.

Lemma pc_ok_other t u s s' G G' : heap_ok (ch s) (cfr s) G (tr s) -> gext s s' G G' ->
  oext t s s' G G' -> u <> t -> pc_ok s G u (th s u) -> pc_ok s' G' u (th s' u).
Proof.
  intros H X OX Hu. rewrite (o_th _ _ _ _ _ OX u Hu). apply pc_ok_keep; auto.
  - intros a. apply (o_six _ _ _ _ _ OX). auto.
  - intros a Ha. now apply (o_page _ _ _ _ _ OX a u).
  - intros r Hr. now apply (o_claim _ _ _ _ _ OX u r).
  - now apply (o_stat _ _ _ _ _ OX).
Qed.

(** A step of the thread itself that changes nothing but its program counter. *)
Lemma pc_ok_same t s s' G p : heap_ok (ch s) (cfr s) G (tr s) -> gext s s' G G ->
  ch s' = ch s -> cfr s' = cfr s -> (forall a, six s a = Some t -> six s' a = Some t) ->
  tstat (tr s') t = tstat (tr s) t -> pc_ok s G t p -> pc_ok s' G t p.
Proof.
  intros H X E1 E2 E3 E4. apply pc_ok_keep; auto.
  - intros a _ _. now rewrite E1.
  - intros r _ _. split; auto. unfold noentry, lives. now rewrite E2.
Qed.

(** ** Positions *)

Section Pos.
Variables (s : cfg) (G : gh).
Hypothesis H : heap_ok (ch s) (cfr s) G (tr s).

Lemma bt_dd a : a < cfr s -> dle (Some (bt G a)) (dd G a).
Proof.
  intros Ha. destruct (dd G a) as [T|] eqn:E; cbn; auto.
  now apply (h_btd _ _ _ _ _ H a T Ha E).
Qed.

Lemma dle_trans i x y : dle (Some i) x -> dle x y -> dle (Some i) y.
Proof. destruct x, y; cbn; auto; try lia; tauto. Qed.

Lemma dlt_dle i T y : dle (Some i) (Some T) -> dlt T y -> dle (Some i) y.
Proof. destruct y; cbn; auto; lia. Qed.

Lemma gone_stk : forall stk a, a < cfr s -> gone G a -> stk_ok s G a stk -> all_gone s G stk.
Proof.
  induction stk as [|x rest IH]; intros a Ha Hg Hs; [intros z []|].
  pose proof (stk_in _ _ _ _ x Hs (or_introl eq_refl)) as Hx.
  cbn [stk_ok] in Hs. destruct Hs as [Hs|(H1 & H2 & H3 & H4 & H5)]; auto.
  assert (Q : gone G x).
  { destruct (H4 x (or_introl eq_refl)) as [Q|Q]; auto.
    eapply (gone_above _ _ _ _ _ a); eauto. lia. }
  intros z [<-|Hz]; [auto|]. apply (IH x); auto.
Qed.

(** Moving to the right. *)
Definition right_of (a b : addr) : Prop :=
  b < cfr s /\ lv G b = lv G a /\ (forall i, dle (Some i) (dd G a) -> dle (Some i) (dd G b)) /\
  lowr G a b /\ (gone G a -> gone G b).

Lemma right_stk a b stk : a < cfr s -> right_of a b -> stk_ok s G a stk -> stk_ok s G b stk.
Proof.
  intros Ha (H1 & H2 & H3 & H4 & H5) Hs. destruct stk as [|x rest]; [now left|].
  pose proof (stk_in _ _ _ _ x Hs (or_introl eq_refl)) as Hx.
  cbn [stk_ok] in *. destruct Hs as [Hs|(K1 & K2 & K3 & K4 & K5)]; [now left|right].
  split; [auto|]. split; [congruence|]. split; [eapply (lowr_trans _ _ _ _ _ _ a); eauto|].
  split; auto. intros z Hz. destruct (K4 z Hz); auto.
Qed.

Lemma right_tg a b T : a < cfr s -> dd G a = Some T -> tg G a = Some b ->
  right_of a b /\ elt (lo G b) (lo G a).
Proof.
  intros Ha H1 H2. pose proof (h_tg _ _ _ _ _ H a T Ha H1) as Q. rewrite H2 in Q.
  destruct Q as (Q1 & Q2 & Q3 & Q4). repeat split; auto.
  - rewrite H1. intros i Hi. eapply dlt_dle; eauto.
  - intros f g F1 F2. assert (final G a g) by (eapply fin_tg; eauto).
    rewrite (final_fun _ _ _ F1 _ H0). apply ele_refl.
  - intros Hg. inversion Hg; subst; congruence.
Qed.

Lemma right_next a b d : a < cfr s -> node_ok (cfr s) G a d -> a_next (av G a) = Some b ->
  right_of a b /\ exists k, a_high (av G a) = Some k /\ lo G b = Key k.
Proof.
  intros Ha Hn E. pose proof (n_next _ _ _ _ Hn) as Q. rewrite E in Q.
  destruct Q as (k & Q1 & Q2 & Q3 & Q4 & Q5 & Q6 & Q7). split; [|eauto].
  repeat split; auto.
  - intros i Hi. eapply dle_trans; eauto.
  - intros Hg. eapply (gone_above _ _ _ _ _ a); eauto. lia.
Qed.

(** What the range check of a node says. *)
Lemma cov_cases a d k : ch s a = Some d ->
  (nd_removed d = true /\ covers d k = Some false /\ nd_next d = tg G a /\
   (tg G a = None -> nd_inner d = true) /\ exists T, dd G a = Some T) \/
  (nd_removed d = false /\ node_ok (cfr s) G a d /\ nd_inner d = negb (lv G a =? 0) /\
   nd_next d = a_next (av G a) /\
   ((covers d k = Some true /\ elt (Key k) (hi G a)) \/
    (covers d k = Some false /\ exists b h, a_next (av G a) = Some b /\
       a_high (av G a) = Some h /\ lo G b = Key h /\ ele (Key h) (Key k)))).
Proof.
  intros E. unfold covers. destruct (nd_removed d) eqn:R.
  - left. destruct (h_dead _ _ _ _ _ H a d E R) as (Q1 & Q2 & Q3 & _).
    repeat split; auto. destruct (dd G a); eauto. tauto.
  - right. pose proof (h_node _ _ _ _ _ H a d E R) as Hn.
    destruct (L_hdr _ _ (n_rep _ _ _ _ Hn)) as (I1 & I2 & I3 & I4).
    split; [auto|]. split; [auto|]. split; [rewrite I1; apply (n_inner _ _ _ _ Hn)|].
    split; [auto|]. rewrite (L_comphigh _ _ k (n_rep _ _ _ _ Hn)).
    pose proof (n_next _ _ _ _ Hn) as Hx. unfold hi, hia.
    destruct (a_high (av G a)) as [h|] eqn:Eh.
    + destruct (ltb k h) eqn:El; [left; split; auto|right].
      split; auto. destruct (a_next (av G a)) as [b|]; [|discriminate].
      destruct Hx as (k' & [= <-] & Q & _). exists b, h. repeat split; auto.
      unfold ele. cbn. unfold klt. rewrite El. discriminate.
    + left. split; auto. exact I.
Qed.

Lemma walk_next a d k b : ch s a = Some d -> a < cfr s -> covers d k = Some false ->
  nd_next d = Some b -> right_of a b /\ (ele (lo G a) (Key k) -> ele (lo G b) (Key k)).
Proof.
  intros E Ha Hc Hb.
  destruct (cov_cases a d k E) as [(_ & _ & Q1 & _ & T & Q2)|(_ & Q1 & _ & Q2 & [[Q3 _]|(_ & b' & h & Q3 & Q4 & Q5 & Q6)])].
  - rewrite Q1 in Hb. destruct (right_tg a b T Ha Q2 Hb) as [R1 R2]. split; auto.
    intros. eapply ele_trans; [apply elt_ele|]; eauto.
  - congruence.
  - assert (b' = b) by congruence. subst b'. split.
    + now destruct (right_next a b d Ha Q1 Q3).
    + intros _. now rewrite Q5.
Qed.

Lemma walk_end a d k : ch s a = Some d -> covers d k = Some false -> nd_next d = None ->
  nd_removed d = true /\ nd_inner d = true /\ deadroot s a /\ gone G a.
Proof.
  intros E Hc Hb.
  destruct (cov_cases a d k E) as [(R & _ & Q1 & Q0 & T & Q2)|(_ & Q1 & _ & Q2 & [[Q3 _]|(_ & b' & h & Q3 & Q4 & Q5 & Q6)])].
  - rewrite Q1 in Hb. repeat split; auto; [exists d; rewrite Q1; auto|].
    eapply gone_root; eauto.
  - congruence.
  - congruence.
Qed.

Lemma childp_ok a d k : node_ok (cfr s) G a d -> lv G a <> 0 -> kvalid k ->
  ele (lo G a) (Key k) ->
  exists e c, childp d k = Some c /\ In (e, c) (entries_of G a) /\ ele e (Key k).
Proof.
  intros Hn Hl Hk Hlo. destruct (node_inner _ _ _ _ Hn Hl) as [Hi Hb].
  pose proof (n_rep _ _ _ _ Hn) as Hr.
  destruct (L_search_inner d _ k Hr Hi Hb Hk) as (rc & pos & Hs & Hspec & _).
  destruct Hspec as (l1 & sl & l2 & Hsl & -> & Hle & Hlt).
  assert (Hkid : exists c, s_pay sl = PP c /\ skid sl = c).
  { unfold inner_ok in Hb. rewrite Hsl in Hb. unfold skid. destruct l1 as [|s0 l1]; cbn in Hb.
    - destruct Hb as ((_ & c & Hc) & _). rewrite Hc. eauto.
    - destruct Hb as (_ & Hb & _). rewrite Forall_app in Hb. destruct Hb as [_ Hb].
      inversion Hb as [|? ? (_ & k1 & c & _ & Hc) _]; subst. rewrite Hc. eauto. }
  destruct Hkid as (c & Hc & Hkc).
  assert (Hch : childp d k = Some c).
  { unfold childp. rewrite Hs. eapply L_child; eauto. rewrite Hsl. apply nth_error_mid. }
  unfold entries_of. rewrite Hsl. destruct l1 as [|s0 l1].
  - exists (lo G a), c. split; [auto|]. split; [|auto]. left. cbn. congruence.
  - destruct Hle as (k1 & Hk1 & Hle); [discriminate|].
    exists (Key k1), c. split; [auto|]. split; [|now apply kle_ele].
    cbn [app ents]. right. apply in_map_iff. exists sl. split.
    + unfold sent, skey. now rewrite Hk1, Hkc.
    + apply in_or_app. right. now left.
Qed.

Lemma walk_down a d k stk : ch s a = Some d -> a < cfr s -> covers d k = Some true ->
  lv G a <> 0 -> kvalid k -> ele (lo G a) (Key k) ->
  exists c, childp d k = Some c /\ c < cfr s /\ lv G a = S (lv G c) /\
    ele (lo G c) (Key k) /\ (forall i, dle (Some i) (dd G a) -> dle (Some i) (dd G c)) /\
    (stk_ok s G a stk -> stk_ok s G c (a :: stk)).
Proof.
  intros E Ha Hc Hl Hk Hlo.
  destruct (cov_cases a d k E) as [(_ & Q & _)|(_ & Hn & _)]; [congruence|].
  destruct (childp_ok a d k Hn Hl Hk Hlo) as (e & c & C1 & C2 & C3).
  destruct (n_kids _ _ _ _ Hn Hl e c C2) as (K1 & K2 & K3 & K4 & K5).
  exists c. split; [auto|]. split; [auto|]. split; [auto|]. split; [congruence|]. split.
  { intros i Hi. eapply dle_trans; eauto. }
  intros Hs. cbn [stk_ok]. right. split; [auto|]. split; [auto|]. split; [auto|]. split; auto.
  intros z [<-|Hz].
  - right. eapply dle_trans; eauto. now apply bt_dd.
  - destruct stk as [|x rest]; [destruct Hz|]. cbn [stk_ok] in Hs.
    destruct Hs as [Hs|(_ & _ & _ & Hs & _)].
    + left. now apply Hs.
    + destruct (Hs z Hz); auto. right. eapply dle_trans; eauto.
Qed.

(** Replacing the nearest node above [r] by its right sibling. *)
Lemma right_top r x b rest : lives s G r -> x < cfr s -> right_of x b ->
  (ele (lo G b) (lo G r)) -> stk_ok s G r (x :: rest) -> stk_ok s G r (b :: rest).
Proof.
  intros Hr Hx Hb Hlo Hs. pose proof Hb as (B1 & B2 & B3 & B4 & B5).
  cbn [stk_ok] in *. destruct Hs as [Hs|(K1 & K2 & K3 & K4 & K5)].
  - left. intros z [<-|Hz].
    + split; auto. apply B5. apply Hs. now left.
    + apply Hs. now right.
  - right. split; [auto|]. split; [congruence|].
    split; [eapply lowr_live; eauto; apply Hr|].
    split; [|eapply (right_stk x); eauto].
    intros z Hz. right. now rewrite (proj2 Hr).
Qed.

(** The node found above a pending one is its parent-to-be. *)
Lemma above_live r x rest : lives s G r -> lives s G x -> stk_ok s G r (x :: rest) ->
  lv G x = S (lv G r) /\ ele (lo G x) (lo G r) /\ stk_ok s G x rest.
Proof.
  intros Hr Hx Hs. cbn [stk_ok] in Hs. destruct Hs as [Hs|(K1 & K2 & K3 & K4 & K5)].
  - exfalso. destruct (Hs x (or_introl eq_refl)) as [_ Q]. apply gone_dead in Q.
    apply Q. apply Hx.
  - repeat split; auto. apply K3; apply fin_live; [apply Hx|apply Hr].
Qed.

Lemma pend_range r sep x d : pending s G r sep -> lives s G x -> ch s x = Some d ->
  lv G x = S (lv G r) -> ele (lo G x) (Key sep) -> elt (Key sep) (hi G x) ->
  elt (lo G x) (Key sep) /\ ~ In sep (keys_of (tl (a_slots (av G x)))).
Proof.
  intros (Hr & Hlo & Hne) Hx E Hlv H1 H2.
  assert (Hl : lv G x <> 0) by lia.
  pose proof (h_node _ _ _ _ _ H x d E (live_not_removed _ _ _ _ _ _ _ H E (proj2 Hx))) as Hn.
  assert (Hkid : forall e c, In (e, c) (entries_of G x) -> e <> Key sep).
  { intros e c Hin ->. destruct (n_kids _ _ _ _ Hn Hl _ _ Hin) as (K1 & K2 & K3 & K4 & _).
    rewrite (proj2 Hx) in K4.
    assert (Hcd : dd G c = None) by (destruct (dd G c); [destruct K4|reflexivity]).
    assert (c = r).
    { eapply same_lo; eauto; try apply Hr; try lia. congruence. }
    subst c. eapply Hne; eauto. }
  split.
  - destruct (ele_cases _ _ H1) as [Q|Q]; auto. exfalso.
    destruct (first_kid _ _ _ _ Hn Hl) as (c & Hc). eapply Hkid; eauto.
  - intros Hin. destruct (node_inner _ _ _ _ Hn Hl) as [_ Hb].
    destruct (a_slots (av G x)) as [|s0 sl] eqn:Es; [destruct Hin|].
    cbn in Hb. destruct Hb as (_ & Hb & _). cbn [tl] in Hin.
    destruct (entry_key sl sep Hb Hin) as (c & Hc).
    apply (Hkid (Key sep) c); auto. unfold entries_of. rewrite Es. now right.
Qed.

End Pos.

(** ** One step *)

Lemma lstat_other l t tr0 :
  match l with LInv u _ | LEff u _ _ | LObs u _ _ | LRes u _ => u = t | LTau => True end ->
  forall u, u <> t -> tstat (tr0 ++ [l]) u = tstat tr0 u.
Proof.
  intros Hl u Hu. rewrite tstat_snoc. destruct l; cbn; subst; auto; now rewrite supd_diff.
Qed.

Lemma claims_ok s G u r : heap_ok (ch s) (cfr s) G (tr s) -> pc_ok s G u (th s u) ->
  In r (claims (th s u)) ->
  lives s G r /\ noentry s G r /\ exists k, lo G r = Key k.
Proof.
  intros H Hp Hc.
  assert (Hpend : forall r sep, pending s G r sep ->
    lives s G r /\ noentry s G r /\ exists k, lo G r = Key k) by (intros ? ? (?&?&?); eauto).
  assert (Hk : forall k key target, kont_ok s G u k key target -> In r (kclaims k) ->
    lives s G r /\ noentry s G r /\ exists k, lo G r = Key k).
  { intros [l r0 sep|] key target; cbn; [|tauto].
    intros (_ & _ & Q & _) [<-|[]]. now apply (Hpend _ sep). }
  destruct (th s u); cbn [claims pc_ok] in *;
    try (eapply Hk; [apply Hp|exact Hc]);
    repeat (destruct Hc as [<-|Hc]); try solve [destruct Hc];
    try solve [eapply Hpend; apply Hp].
  all: try solve [match goal with psep : K |- _ => apply (Hpend _ psep); tauto end].
  - destruct Hp as ((_ & _ & Hl & Hr & E) & _ & Q & _). split; auto. split; auto.
    destruct (live_node _ _ _ _ _ _ H (proj1 Hl) (proj2 Hl)) as (d & _ & _ & Hn).
    pose proof (n_next _ _ _ _ Hn) as Hx. rewrite E in Hx.
    destruct Hx as (k & _ & Hx & _). eauto.
Qed.

Lemma inv_step t s G s' G' l :
  inv s G -> heap_ok (ch s') (cfr s') G' (tr s') -> tr s' = tr s ++ [l] ->
  gext s s' G G' -> oext t s s' G G' -> pc_ok s' G' t (th s' t) ->
  pc_stat (th s' t) (tstat (tr s') t) ->
  (forall r, In r (claims (th s' t)) -> In r (claims (th s t)) \/
     forall u, u <> t -> ~ In r (claims (th s u))) ->
  (exists R, root_ok s' G' R) -> stale_ok s' G' -> justified m0 (tr s) l ->
  (forall a, cfr s' <= a -> six s' a = None) ->
  (forall u c, In c (pg s' u) -> In c (pg s u)) -> inv s' G' /\ gext s s' G G'.
Proof.
  intros I HH Htr X OX Hpc Hst Hcl HR HS Hj Hf Hp. split; [|exact X].
  pose proof (i_heap _ _ _ I) as H.
  constructor; auto.
  - intros u. destruct (Nat.eq_dec u t) as [->|Hu]; auto.
    eapply pc_ok_other; eauto. apply (i_pc _ _ _ I).
  - assert (Q : forall u, u <> t -> forall r, In r (claims (th s' t)) -> ~ In r (claims (th s u))).
    { intros u Hu r Hr. destruct (Hcl r Hr) as [Q|Q]; auto.
      apply (i_claims _ _ _ I t u); auto. }
    intros u v Huv r Hr Hr'.
    destruct (Nat.eq_dec u t) as [->|Hu]; destruct (Nat.eq_dec v t) as [->|Hv]; try congruence.
    + rewrite (o_th _ _ _ _ _ OX v) in Hr' by auto. eapply Q; eauto.
    + rewrite (o_th _ _ _ _ _ OX u) in Hr by auto. eapply Q; eauto.
    + rewrite (o_th _ _ _ _ _ OX v) in Hr' by auto. rewrite (o_th _ _ _ _ _ OX u) in Hr by auto.
      eapply (i_claims _ _ _ I u v); eauto.
  - intros u. destruct (Nat.eq_dec u t) as [->|Hu]; auto.
    rewrite (o_th _ _ _ _ _ OX u), (o_stat _ _ _ _ _ OX u) by auto. apply (i_stat _ _ _ I).
  - rewrite Htr. constructor; auto. apply (i_trace _ _ _ I).
  - intros u c Hc. apply (i_prog _ _ _ I u c). auto.
Qed.

Lemma root_same t s G s' G' R : root_ok s G R -> gext s s' G G' -> croot s' = croot s ->
  dd G' R = None -> (forall y, lives s' G' y -> lv G' y <= lv G R) ->
  (forall u, u <> t -> th s' u = th s u) ->
  (forall p, ~ shrinking (th s t) p) -> (forall p, ~ shrinking (th s' t) p) ->
  root_ok s' G' R.
Proof.
  intros HR X Hc Hd Ht Hth Hn1 Hn2. pose proof (x_gle _ _ _ _ X) as Hg.
  pose proof (r_live _ _ _ HR) as HL. pose proof (x_fr _ _ _ _ X) as Hf.
  pose proof (r_alloc _ _ _ HR) as Ha.
  constructor.
  - split; auto. destruct HL. lia.
  - rewrite (g_lo _ _ _ _ Hg R (proj1 HL)). apply (r_lo _ _ _ HR).
  - intros y Hy. rewrite (g_lv _ _ _ _ Hg R (proj1 HL)). auto.
  - rewrite Hc. destruct (r_cur _ _ _ HR) as [Q|(Q1 & Q2 & u & Q3)]; auto. right.
    split; [now apply (x_dead _ _ _ _ X)|].
    rewrite (g_lv _ _ _ _ Hg R (proj1 HL)), (g_lv _ _ _ _ Hg (croot s) Ha). split; auto.
    exists u. rewrite Hth; auto. intros ->. eapply Hn1; eauto.
  - intros u p Hu. destruct (Nat.eq_dec u t) as [->|Hne]; [now apply Hn2 in Hu|].
    rewrite Hth in Hu by auto. eapply (r_shr _ _ _ HR); eauto.
  - intros u r p Hu. rewrite Hc. destruct (Nat.eq_dec u t) as [->|Hne].
    + exfalso. apply (Hn2 p). right. eauto.
    + rewrite Hth in Hu by auto. eapply (r_st _ _ _ HR); eauto.
  - rewrite Hc. lia.
Qed.

Lemma stale_same t s G s' G' : stale_ok s G -> oext t s s' G G' ->
  (forall r a m up, th s t <> PMrg2 r a m up) ->
  (forall a d T, ch s' a = Some d -> nd_removed d = false -> dd G' a = Some T ->
     ch s a = Some d /\ dd G a = Some T) ->
  stale_ok s' G'.
Proof.
  intros HS OX Hn Hc a d T H1 H2 H3. destruct (Hc a d T H1 H2 H3) as (Q1 & Q2).
  destruct (HS a d T Q1 H2 Q2) as (u & r & m & up & U1 & U2).
  assert (u <> t) by (intros ->; eapply Hn; eauto).
  exists u, r, m, up. rewrite (o_th _ _ _ _ _ OX u) by auto. split; auto.
  now apply (o_six _ _ _ _ _ OX).
Qed.

(** Steps that change the contents of at most one page [a], and neither the root pointer nor
    the set of pages. *)
Record mod1 (t : tid) (s s' : cfg) (G G' : gh) (l : label) (a : addr) : Prop := {
  m_tr : tr s' = tr s ++ [l];
  m_cfr : cfr s' = cfr s;
  m_croot : croot s' = croot s;
  m_lv : lv G' = lv G;
  m_lo : lo G' = lo G;
  m_bt : bt G' = bt G;
  m_dd : dd G' = dd G;
  m_tg : tg G' = tg G;
  m_rest : forall x, x <> a -> av G' x = av G x /\ ch s' x = ch s x;
  m_page : (av G' a = av G a /\ ch s' a = ch s a) \/
    (dd G a = None /\ (six s a = None \/ six s a = Some t));
  m_six : forall b u, u <> t -> six s b = Some u -> six s' b = Some u;
  m_fresh : forall b, cfr s <= b -> six s' b = None;
  m_ent : forall u r, u <> t -> In r (claims (th s u)) -> lv G a <> 0 -> forall e,
    In (e, r) (entries_of G' a) -> In (e, r) (entries_of G a);
  m_th : forall u, u <> t -> th s' u = th s u;
  m_lab : match l with LInv u _ | LEff u _ _ | LObs u _ _ | LRes u _ => u = t | LTau => True end;
  m_pg : forall u c, In c (pg s' u) -> In c (pg s u);
  m_keys : forall k, lv G a = 0 -> In k (keys_of (a_slots (av G' a))) ->
    In k (keys_of (a_slots (av G a))) \/ exists u c r, l = LEff u c r /\ call_key c = k;
}.

Lemma mod1_gext t s s' G G' l a : inv s G -> mod1 t s s' G G' l a -> gext s s' G G'.
Proof.
  intros I M. constructor.
  - rewrite (m_cfr _ _ _ _ _ _ _ M). auto.
  - apply gle_same; apply M.
  - intros x (d & D1 & D2 & D3). exists d. split; auto.
    destruct (Nat.eq_dec x a) as [->|Hx]; [|now rewrite (proj2 (m_rest _ _ _ _ _ _ _ M x Hx))].
    destruct (m_page _ _ _ _ _ _ _ M) as [[_ Q]|[Q _]]; [congruence|].
    exfalso. destruct (h_dead _ _ _ _ _ (i_heap _ _ _ I) a d D1 D2) as (Q1 & _). congruence.
  - intros x Hx. rewrite (m_cfr _ _ _ _ _ _ _ M) in Hx. rewrite (m_dd _ _ _ _ _ _ _ M). auto.
  - intros x k Hx. rewrite (m_cfr _ _ _ _ _ _ _ M) in Hx.
    rewrite (m_dd _ _ _ _ _ _ _ M), (m_lv _ _ _ _ _ _ _ M). intros Hd Hl Hk.
    destruct (Nat.eq_dec x a) as [->|Hxa].
    + destruct (m_keys _ _ _ _ _ _ _ M k Hl Hk) as [Q|(u & c & r & -> & Q)].
      * left. exists a. auto.
      * right. exists u, c, r. split; [apply M|auto].
    + left. exists x. rewrite (proj1 (m_rest _ _ _ _ _ _ _ M x Hxa)) in Hk. auto.
Qed.

Lemma mod1_oext t s s' G G' l a : inv s G -> mod1 t s s' G G' l a -> oext t s s' G G'.
Proof.
  intros I M. constructor.
  - apply M.
  - intros b u Hu Hb Hlt. rewrite (m_dd _ _ _ _ _ _ _ M).
    destruct (Nat.eq_dec b a) as [->|Hx].
    + destruct (m_page _ _ _ _ _ _ _ M) as [[Q1 Q2]|[_ [Q|Q]]]; [auto|congruence|congruence].
    + destruct (m_rest _ _ _ _ _ _ _ M b Hx). auto.
  - intros u r Hu Hr Hlt. rewrite (m_dd _ _ _ _ _ _ _ M). split; auto.
    intros Hn p Hp Hl e c Hin ->. unfold lives in Hp.
    rewrite (m_cfr _ _ _ _ _ _ _ M), (m_dd _ _ _ _ _ _ _ M) in Hp.
    rewrite (m_lv _ _ _ _ _ _ _ M) in Hl.
    apply (Hn p Hp Hl e r); auto. destruct (Nat.eq_dec p a) as [->|Hx].
    + eapply (m_ent _ _ _ _ _ _ _ M); eauto.
    + rewrite entries_ext with (G := G) in Hin; auto.
      * now rewrite (m_lo _ _ _ _ _ _ _ M).
      * now apply (m_rest _ _ _ _ _ _ _ M).
  - intros u Hu. rewrite (m_tr _ _ _ _ _ _ _ M). eapply lstat_other; eauto.
    apply (m_lab _ _ _ _ _ _ _ M).
  - apply M.
Qed.

Lemma mod1_inv t s s' G G' l a : inv s G -> mod1 t s s' G G' l a ->
  heap_ok (ch s') (cfr s') G' (tr s') ->
  pc_ok s' G' t (th s' t) -> pc_stat (th s' t) (tstat (tr s') t) ->
  (forall r, In r (claims (th s' t)) -> In r (claims (th s t)) \/
     forall u, u <> t -> ~ In r (claims (th s u))) ->
  (forall p, ~ shrinking (th s t) p) -> (forall p, ~ shrinking (th s' t) p) ->
  (forall r a m up, th s t <> PMrg2 r a m up) ->
  justified m0 (tr s) l -> inv s' G' /\ gext s s' G G'.
Proof.
  intros I M HH Hpc Hst Hcl Hs1 Hs2 Hm Hj.
  pose proof (mod1_gext _ _ _ _ _ _ _ I M) as X. pose proof (mod1_oext _ _ _ _ _ _ _ I M) as OX.
  eapply (inv_step t s G s' G' l); eauto; try apply M.
  - destruct (i_root _ _ _ I) as (R & HR). exists R.
    eapply root_same; eauto; try apply M.
    + rewrite (m_dd _ _ _ _ _ _ _ M). apply (r_live _ _ _ HR).
    + intros y. unfold lives. rewrite (m_cfr _ _ _ _ _ _ _ M), (m_dd _ _ _ _ _ _ _ M),
        (m_lv _ _ _ _ _ _ _ M). apply (r_top _ _ _ HR).
  - eapply stale_same; eauto; [apply (i_stale _ _ _ I)|].
    intros x d T H1 H2 H3. rewrite (m_dd _ _ _ _ _ _ _ M) in H3. split; auto.
    destruct (Nat.eq_dec x a) as [->|Hx].
    + destruct (m_page _ _ _ _ _ _ _ M) as [[Q1 Q2]|[Q _]]; congruence.
    + now rewrite <- (proj2 (m_rest _ _ _ _ _ _ _ M x Hx)).
  - rewrite (m_cfr _ _ _ _ _ _ _ M). apply M.
Qed.

End ConcThreads.
