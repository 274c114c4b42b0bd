(** The structure modifications of the concurrent single-layer trees preserve the heap part
    of the invariant.  Proof-side only: no definition here models code. *)
From Coq Require Import List Arith Bool Lia Sorted.
From Verif Require Import Params Mem Common Spec ConcSpec NodeAbs SLIface TreeState Levels
  ConcModel ConcLin ConcInv ConcHeap.
Import ListNotations.

Section ConcSmo.
Context {P : Params} {O : OrdLaws P} {N : SLOps P} {L : SLLaws P N} (m0 : amap).

Notation heap_ok := (heap_ok m0).

Lemma lowr_live2 G x y : dd G x = None -> dd G y = None -> ele (lo G x) (lo G y) -> lowr G x y.
Proof.
  intros Hx Hy Hl f g Hf Hg.
  rewrite (final_fun _ _ _ Hf x), (final_fun _ _ _ Hg y) by (now apply fin_live). auto.
Qed.

Lemma node_inner fr G a d : node_ok fr G a d -> lv G a <> 0 ->
  a_inner (av G a) = true /\ inner_ok (a_slots (av G a)).
Proof.
  intros Hn Hl. pose proof (n_body _ _ _ _ Hn) as Hb. rewrite (n_inner _ _ _ _ Hn) in *.
  apply Nat.eqb_neq in Hl. rewrite Hl in *. auto.
Qed.

Lemma node_leaf fr G a d : node_ok fr G a d -> lv G a = 0 ->
  a_inner (av G a) = false /\ leaf_ok (a_slots (av G a)).
Proof.
  intros Hn Hl. pose proof (n_body _ _ _ _ Hn) as Hb. rewrite (n_inner _ _ _ _ Hn) in *.
  apply Nat.eqb_eq in Hl. rewrite Hl in *. auto.
Qed.

(** ** Inserting an entry *)

Lemma ents_insert l l1 s n l2 x :
  In x (ents l (l1 ++ s :: n :: l2)) <-> In x (ents l (l1 ++ s :: l2)) \/ x = sent n.
Proof.
  destruct l1 as [|s0 l1]; cbn.
  - intuition.
  - rewrite !map_app. cbn. rewrite !in_app_iff. cbn. intuition.
Qed.

Lemma inner_ok_insert l1 s l2 sep r : inner_ok (l1 ++ s :: l2) ->
  (l1 <> [] -> exists k, s_key s = Some k /\ klt k sep) ->
  (forall k, In k (keys_of l2) -> klt sep k) ->
  inner_ok (l1 ++ s :: Slot (Some sep) (PP r) false :: l2).
Proof.
  intros Hok H1 H2.
  assert (Hn : inner_slotk (Slot (Some sep) (PP r) false)) by (split; [reflexivity|do 2 eexists; split; reflexivity]).
  destruct l1 as [|s0 l1]; cbn in *.
  - destruct Hok as (A & B & C). split; [exact A|]. split; [constructor; auto|].
    unfold keys_of. cbn. constructor; auto. apply Forall_forall. auto.
  - destruct (H1 ltac:(discriminate)) as (ks & K1 & K2).
    destruct Hok as (A & B & C). apply Forall_app in B as (B1 & B2). inversion B2; subst.
    split; [exact A|]. split.
    + apply Forall_app. split; auto.
    + rewrite !keys_of_app in *. cbn in *. unfold key1 at 1 in C. unfold key1 at 1.
      rewrite K1 in *. cbn in *.
      apply SS_app in C as (C1 & C2 & C3). inversion C2 as [|? ? C4 C5]; subst.
      apply SS_app. split; [auto|]. split.
      * constructor; [constructor; auto; apply Forall_forall; auto|].
        constructor; auto.
      * intros x y Hx Hy. destruct Hy as [<-|[<-|Hy]].
        -- apply C3; auto. now left.
        -- eapply klt_trans; [apply (C3 x ks)|]; auto. now left.
        -- apply C3; auto. now right.
Qed.

Lemma keys_insert l1 s n l2 k sep r : n = Slot (Some sep) (PP r) false ->
  In k (keys_of (tl (l1 ++ s :: n :: l2))) -> k = sep \/ In k (keys_of (tl (l1 ++ s :: l2))).
Proof.
  intros ->. destruct l1 as [|s0 l1]; cbn [tl app].
  - cbn. intuition.
  - rewrite !keys_of_app, !in_app_iff. cbn. rewrite !in_app_iff. cbn. intuition.
Qed.

Lemma heap_ins h fr G tr a d d' A r sep l1 s l2 :
  heap_ok h fr G tr -> h a = Some d -> dd G a = None -> lv G a = S (lv G r) ->
  r < fr -> dd G r = None -> lo G r = Key sep ->
  elt (lo G a) (Key sep) -> elt (Key sep) (hi G a) ->
  rep d' A -> same_frame (av G a) A ->
  a_slots (av G a) = l1 ++ s :: l2 ->
  (l1 <> [] -> exists k, s_key s = Some k /\ klt k sep) ->
  (forall k, In k (keys_of l2) -> klt sep k) ->
  a_slots A = l1 ++ s :: Slot (Some sep) (PP r) false :: l2 ->
  heap_ok (upd h a (Some d')) fr (seta G a A) (tr ++ [LTau]) /\
  (forall x, In x (entries_of (seta G a A) a) <-> In x (entries_of G a) \/ x = (Key sep, r)).
Proof.
  intros H Ha Hd Hl Hr Hdr Hlr Hs1 Hs2 Hrep (F1 & F2 & F3 & F4 & F5) Es Ho1 Ho2 EA.
  assert (Haf : a < fr) by (eapply h_none; eauto).
  assert (Hrm : nd_removed d = false) by (eapply live_not_removed; eauto).
  pose proof (h_node _ _ _ _ _ H a d Ha Hrm) as Hn.
  assert (Hl0 : lv G a <> 0) by lia.
  destruct (node_inner _ _ _ _ Hn Hl0) as (Hin & Hok).
  assert (Hent : forall x, In x (entries_of (seta G a A) a) <->
                           In x (entries_of G a) \/ x = (Key sep, r)).
  { intros x. unfold entries_of. rewrite av_seta_same. cbn [lo seta]. rewrite EA, Es.
    apply ents_insert. }
  split; auto.
  assert (Hhi : hi (seta G a A) a = hi G a).
  { unfold hi, hia. rewrite av_seta_same. now rewrite F5. }
  apply heap_seta; auto.
  - destruct Hn as [n1 n2 n3 n4 n5 n6 n7 n8 n9 n10 n11].
    constructor; rewrite ?av_seta_same, ?Hhi; cbn [lv lo bt dd tg seta]; auto; try congruence.
    + rewrite F1, Hin. cbn [body_ok]. rewrite EA. rewrite Es in Hok. now apply inner_ok_insert.
    + intros k Hk. rewrite F4. auto.
    + intros _ k Hk. destruct (n8 Hl0 k Hk) as (s' & sl & S1 & S2).
      rewrite EA. rewrite Es in S1. destruct l1 as [|x l1]; cbn in *.
      * inversion S1; subst. eauto.
      * inversion S1; subst. eauto.
    + intros _ k Hk. rewrite EA in Hk. eapply keys_insert in Hk; [|reflexivity].
      destruct Hk as [->|Hk]; auto. apply n9; auto. now rewrite Es.
    + intros _ e c Hec. apply Hent in Hec as [Hec|Hec].
      * destruct (n10 Hl0 e c Hec) as (C1 & C2 & C3 & C4 & C5). repeat split; auto.
        now apply (lowr_ext G).
      * inversion Hec; subst. repeat split; auto.
        -- now rewrite Hdr, Hd.
        -- apply lowr_live2; auto. cbn. rewrite Hlr. now apply elt_ele.
    + rewrite F3, F5. destruct (a_next (av G a)); auto.
      destruct n11 as (k & K1 & K2 & K3 & K4 & K5 & K6 & K7). exists k. repeat split; auto.
      now apply (lowr_ext G).
  - destruct (L_hdr _ _ Hrep) as (_ & -> & _). rewrite F2. apply (n_rem _ _ _ _ Hn).
  - intros Hz. congruence.
  - intros k _. now rewrite effs_snoc.
Qed.

(** ** Removing an entry *)

Lemma ents_delete l l1 s l2 x : l1 <> [] ->
  In x (ents l (l1 ++ s :: l2)) <-> In x (ents l (l1 ++ l2)) \/ x = sent s.
Proof.
  destruct l1 as [|s0 l1]; [congruence|]. intros _. cbn. rewrite !map_app. cbn.
  rewrite !in_app_iff. cbn. intuition.
Qed.

Lemma inner_ok_delete l1 s l2 : l1 <> [] -> inner_ok (l1 ++ s :: l2) -> inner_ok (l1 ++ l2).
Proof.
  destruct l1 as [|s0 l1]; [congruence|]. intros _. cbn. intros (A & B & C).
  apply Forall_app in B as (B1 & B2). inversion B2; subst.
  rewrite !keys_of_app in *. cbn in C. apply SS_app in C as (C1 & C2 & C3).
  apply SS_app in C2 as (C4 & C5 & C6).
  split; [exact A|]. split.
  - apply Forall_app. auto.
  - apply SS_app. repeat split; auto. intros x y Hx Hy. apply C3; auto.
    apply in_or_app. auto.
Qed.

Lemma heap_del h fr G tr a d d' A r sep l1 s l2 :
  heap_ok h fr G tr -> h a = Some d -> dd G a = None -> lv G a = S (lv G r) ->
  r < fr -> dd G r = None -> lo G r = Key sep -> 
  rep d' A -> same_frame (av G a) A ->
  a_slots (av G a) = l1 ++ s :: l2 -> l1 <> [] -> s_key s = Some sep ->
  a_slots A = l1 ++ l2 ->
  heap_ok (upd h a (Some d')) fr (seta G a A) (tr ++ [LTau]) /\
  (forall x, In x (entries_of (seta G a A) a) -> In x (entries_of G a)) /\
  (forall e c, In (e, c) (entries_of (seta G a A) a) -> c <> r) /\
  In (Key sep, r) (entries_of G a).
Proof.
  intros H Ha Hd Hl Hr Hdr Hlr Hrep (F1 & F2 & F3 & F4 & F5) Es Hne Hk EA.
  assert (Haf : a < fr) by (eapply h_none; eauto).
  assert (Hrm : nd_removed d = false) by (eapply live_not_removed; eauto).
  pose proof (h_node _ _ _ _ _ H a d Ha Hrm) as Hn.
  assert (Hl0 : lv G a <> 0) by lia.
  destruct (node_inner _ _ _ _ Hn Hl0) as (Hin & Hok).
  assert (Hent : forall x, In x (entries_of G a) <->
     In x (entries_of (seta G a A) a) \/ x = sent s).
  { intros x. unfold entries_of. rewrite av_seta_same. cbn [lo seta]. rewrite EA, Es.
    now apply ents_delete. }
  assert (Hsk : sent s = (Key sep, r)).
  { assert (Hs : In (sent s) (entries_of G a)) by (apply Hent; now right).
    assert (Hs' := Hs). unfold sent in *. unfold skey in *. rewrite Hk in *.
    destruct (n_kids _ _ _ _ Hn Hl0 _ _ Hs) as (C1 & C2 & C3 & C4 & C5).
    f_equal. rewrite Hd in C4. eapply same_lo; eauto.
    - destruct (dd G (skid s)); [destruct C4|auto].
    - lia.
    - congruence. }
  assert (Hno : forall e c, In (e, c) (entries_of (seta G a A) a) -> c <> r).
  { intros e c Hec ->.
    assert (Hec' : In (e, r) (entries_of G a)) by (apply Hent; auto).
    destruct (n_kids _ _ _ _ Hn Hl0 _ _ Hec') as (_ & _ & C3 & _).
    rewrite Hlr in C3. subst e.
    unfold entries_of in Hec. rewrite av_seta_same, EA in Hec. cbn [lo seta] in Hec.
    rewrite Es in Hok. destruct l1 as [|s0 l1]; [congruence|]. cbn in Hec, Hok.
    destruct Hok as (O1 & O2 & O3).
    assert (Hsep : In sep (keys_of (l1 ++ s :: l2))).
    { apply in_keys_of. exists s. split; auto. apply in_or_app. right. now left. }
    destruct Hec as [Hec|Hec].
    - inversion Hec as [[E1 E2]]. pose proof (n_seps _ _ _ _ Hn Hl0 sep) as Hs.
      rewrite Es in Hs. cbn in Hs. specialize (Hs Hsep) as (Hs & _).
      rewrite E1 in Hs. now apply elt_irrefl in Hs.
    - apply Forall_app in O2 as (O4 & O5). inversion O5; subst.
      rewrite map_app in Hec. apply in_app_or in Hec.
      rewrite keys_of_app in O3. cbn in O3. unfold key1 at 1 in O3. rewrite Hk in O3.
      cbn in O3. apply SS_app in O3 as (P1 & P2 & P3). inversion P2 as [|? ? P4 P5]; subst.
      destruct Hec as [Hec|Hec].
      + destruct (in_sent _ _ _ Hec O4) as (s' & k & S1 & S2 & S3 & _). inversion S2; subst.
        apply (klt_irrefl k). apply P3; [apply in_keys_of; eauto|now left].
      + destruct (in_sent _ _ _ Hec H3) as (s' & k & S1 & S2 & S3 & _). inversion S2; subst.
        rewrite Forall_forall in P5. apply (klt_irrefl k). apply P5. apply in_keys_of; eauto. }
  split; [|split; [|split]]; auto.
  2: { intros x Hx. apply Hent. auto. }
  2: { apply Hent. auto. }
  assert (Hhi : hi (seta G a A) a = hi G a).
  { unfold hi, hia. rewrite av_seta_same. now rewrite F5. }
  apply heap_seta; auto.
  - destruct Hn as [n1 n2 n3 n4 n5 n6 n7 n8 n9 n10 n11].
    constructor; rewrite ?av_seta_same, ?Hhi; cbn [lv lo bt dd tg seta]; auto; try congruence.
    + rewrite F1, Hin. cbn [body_ok]. rewrite EA. rewrite Es in Hok. eapply inner_ok_delete; eauto.
    + intros k Hk'. rewrite F4. auto.
    + intros _ k Hk'. destruct (n8 Hl0 k Hk') as (s' & sl & S1 & S2).
      rewrite EA. rewrite Es in S1. destruct l1 as [|x l1]; cbn in *; [congruence|].
      inversion S1; subst. eauto.
    + intros _ k Hk'. apply n9; auto. rewrite EA in Hk'. rewrite Es.
      destruct l1 as [|x l1]; [congruence|]. cbn [tl app] in *.
      rewrite keys_of_app in *. cbn. rewrite !in_app_iff in *. tauto.
    + intros _ e c Hec. assert (Hec' : In (e, c) (entries_of G a)) by (apply Hent; auto).
      destruct (n10 Hl0 e c Hec') as (C1 & C2 & C3 & C4 & C5). repeat split; auto.
      now apply (lowr_ext G).
    + rewrite F3, F5. destruct (a_next (av G a)); auto.
      destruct n11 as (k & K1 & K2 & K3 & K4 & K5 & K6 & K7). exists k. repeat split; auto.
      now apply (lowr_ext G).
  - destruct (L_hdr _ _ Hrep) as (_ & -> & _). rewrite F2. apply (n_rem _ _ _ _ Hn).
  - intros Hz. congruence.
  - intros k _. now rewrite effs_snoc.
Qed.

(** ** A new node *)

Definition newg (G : gh) (r : addr) (h : nat) (e : ext) (b : nat) : gh :=
  Gh (fun x => if x =? r then h else lv G x) (fun x => if x =? r then e else lo G x)
     (fun x => if x =? r then b else bt G x) (fun x => if x =? r then None else dd G x)
     (fun x => if x =? r then None else tg G x) (av G).

Lemma newg_old G r h e b x : x <> r ->
  lv (newg G r h e b) x = lv G x /\ lo (newg G r h e b) x = lo G x /\
  bt (newg G r h e b) x = bt G x /\ dd (newg G r h e b) x = dd G x /\
  tg (newg G r h e b) x = tg G x.
Proof. intros H. cbn. apply Nat.eqb_neq in H. now rewrite H. Qed.
Lemma newg_new G r h e b :
  lv (newg G r h e b) r = h /\ lo (newg G r h e b) r = e /\
  bt (newg G r h e b) r = b /\ dd (newg G r h e b) r = None /\
  tg (newg G r h e b) r = None.
Proof. cbn. now rewrite Nat.eqb_refl. Qed.

Lemma final_newg h fr G tr v e b a f : heap_ok h fr G tr -> a < fr ->
  final (newg G fr v e b) a f -> final G a f.
Proof.
  intros H Ha Hf. remember (newg G fr v e b) as G'.
  induction Hf as [a E|a T E1 E2|a T b' f E1 E2 Hf IH]; subst;
    destruct (newg_old G fr v e b a ltac:(lia)) as (_ & _ & _ & D & T').
  - apply fin_live. congruence.
  - apply (fin_root _ _ T); congruence.
  - rewrite D in E1. rewrite T' in E2. pose proof (h_tg _ _ _ _ _ H a T Ha E1) as Ht.
    rewrite E2 in Ht. eapply fin_tg; eauto. apply IH; auto. tauto.
Qed.

Lemma gle_newg h fr G tr n v e b : heap_ok h fr G tr -> gle fr n G (newg G fr v e b).
Proof.
  intros H. constructor; intros; try (now apply newg_old; lia).
  - left. apply newg_old. lia.
  - intros f g Hf Hg.
    apply (final_newg _ _ _ _ _ _ _ _ _ H) in Hf; auto.
    apply (final_newg _ _ _ _ _ _ _ _ _ H) in Hg; auto.
    destruct (final_props _ _ _ _ _ _ _ H H0 Hf) as (F1 & _).
    destruct (final_props _ _ _ _ _ _ _ H H1 Hg) as (F2 & _).
    destruct (newg_old G fr v e b f ltac:(lia)) as (_ & -> & _).
    destruct (newg_old G fr v e b g ltac:(lia)) as (_ & -> & _). auto.
Qed.

Lemma gle_seta_r fr n G G' a A : gle fr n G G' -> gle fr n G (seta G' a A).
Proof.
  intros [g1 g2 g3 g4 g5 g6]. constructor; auto.
  intros x y Hx Hy Hl Hlr. apply (lowr_ext G'); auto.
Qed.

(** Fields of the heap invariant that survive any growth by a new node. *)
Lemma h_tg_newg h fr G tr v e G' : heap_ok h fr G tr ->
  gle fr (length tr) G G' ->
  (forall x, x < fr -> dd G' x = dd G x) ->
  lv G' fr = v -> lo G' fr = e -> bt G' fr = S (length tr) -> dd G' fr = None ->
  forall a T, a < S fr -> dd G' a = Some T ->
    match tg G' a with
    | Some l => l < S fr /\ lv G' l = lv G' a /\ elt (lo G' l) (lo G' a) /\ dlt T (dd G' l)
    | None => lo G' a = NegInf /\ lv G' a <> 0 /\
        forall y, y < S fr -> bt G' y <= T -> lv G' a <= lv G' y -> gone G' y
    end.
Proof.
  intros H Hg Hdd Hv He Hb Hd a T Ha HT.
  assert (Haf : a < fr). { destruct (Nat.eq_dec a fr) as [->|]; [congruence|lia]. }
  rewrite Hdd in HT by auto. pose proof (h_tg _ _ _ _ _ H a T Haf HT) as Ht.
  rewrite (g_tg _ _ _ _ Hg a Haf) by congruence.
  rewrite (g_lv _ _ _ _ Hg a Haf), (g_lo _ _ _ _ Hg a Haf).
  destruct (tg G a) as [l|].
  - destruct Ht as (T1 & T2 & T3 & T4).
    rewrite (g_lv _ _ _ _ Hg l T1), (g_lo _ _ _ _ Hg l T1), Hdd by auto. auto.
  - destruct Ht as (T1 & T2 & T3). repeat split; auto.
    intros y Hy Hby Hly.
    assert (Hyf : y < fr).
    { destruct (Nat.eq_dec y fr) as [->|]; [|lia].
      destruct (h_btd _ _ _ _ _ H a T Haf HT). lia. }
    rewrite (g_bt _ _ _ _ Hg y Hyf) in Hby. rewrite (g_lv _ _ _ _ Hg y Hyf) in Hly.
    eapply gone_mono; eauto.
Qed.

(** ** Splits *)

Definition splitg (G : gh) (fr n a : addr) (sep : K) (A1 A2 : anode) : gh :=
  seta (seta (newg G fr (lv G a) (Key sep) (S n)) a A1) fr A2.

Lemma splitg_facts h fr G tr a sep A1 A2 : heap_ok h fr G tr -> a < fr ->
  let G' := splitg G fr (length tr) a sep A1 A2 in
  gle fr (length tr) G G' /\
  (forall x, x < fr -> dd G' x = dd G x) /\
  lv G' fr = lv G a /\ lo G' fr = Key sep /\ bt G' fr = S (length tr) /\ dd G' fr = None /\
  av G' a = A1 /\ av G' fr = A2 /\ (forall x, x <> a -> x <> fr -> av G' x = av G x).
Proof.
  intros H Ha G'. subst G'. unfold splitg.
  destruct (newg_new G fr (lv G a) (Key sep) (S (length tr))) as (N1 & N2 & N3 & N4 & N5).
  split; [|split; [|repeat split]]; auto.
  - apply gle_seta_r, gle_seta_r. eapply gle_newg; eauto.
  - intros x Hx. apply newg_old. lia.
  - rewrite av_seta_diff by lia. apply av_seta_same.
  - apply av_seta_same.
  - intros x H1 H2. rewrite !av_seta_diff by auto. reflexivity.
Qed.

Lemma heap_split h fr G tr a d l' r' sep s1 s2 :
  heap_ok h fr G tr -> h a = Some d -> dd G a = None ->
  let A := av G a in
  let A1 := ANode (a_inner A) (a_removed A) (Some fr) (a_low A) (Some sep) s1 in
  let A2 := ANode (a_inner A) false (a_next A) (Some sep) (a_high A) s2 in
  rep l' A1 -> rep r' A2 -> split_spec A sep s1 s2 -> kvalid sep ->
  let G' := splitg G fr (length tr) a sep A1 A2 in
  heap_ok (upd (upd h fr (Some r')) a (Some l')) (S fr) G' (tr ++ [LTau]) /\
  elt (lo G a) (Key sep) /\ elt (Key sep) (hi G a) /\
  (forall x, In x (entries_of G' a) -> lv G a <> 0 -> In x (entries_of G a)) /\
  (forall x, In x (entries_of G' fr) -> lv G a <> 0 -> In x (entries_of G a)) /\
  (forall k, inrange G a k -> In k (keys_of (s1 ++ s2)) -> In k (keys_of (a_slots A))).
Proof.
  intros H Ha Hd A A1 A2 R1 R2 Hsp Hkv G'.
  assert (Haf : a < fr) by (eapply h_none; eauto).
  assert (Hrm : nd_removed d = false) by (eapply live_not_removed; eauto).
  pose proof (h_node _ _ _ _ _ H a d Ha Hrm) as Hn.
  destruct (splitg_facts _ _ _ _ a sep A1 A2 H Haf) as (Hg & Hdd & Hlv & Hlo & Hbt & Hdr & Va & Vr & Vx).
  fold G' in Hg, Hdd, Hlv, Hlo, Hbt, Hdr, Va, Vr, Vx. clearbody G'.
  destruct Hsp as (Hsin & Hsp). fold A in Hsin, Hsp.
  assert (Hrange : elt (lo G a) (Key sep) /\ elt (Key sep) (hi G a)).
  { destruct (Nat.eq_dec (lv G a) 0) as [E|E].
    - destruct (node_leaf _ _ _ _ Hn E) as (I & Hok). fold A in I, Hok. rewrite I in Hsp.
      destruct Hsp as (_ & _ & _ & _ & _ & _ & _ & k0 & K1 & K2).
      split; [|apply (n_leaf _ _ _ _ Hn E sep Hsin)].
      eapply ele_elt_trans; [apply (n_leaf _ _ _ _ Hn E k0 K1)|exact K2].
    - destruct (node_inner _ _ _ _ Hn E) as (I & Hok). fold A in I, Hok. rewrite I in Hsp.
      destruct Hsp as (S1 & S2 & s0 & tl0 & S3 & S4).
      apply (n_seps _ _ _ _ Hn E). fold A. rewrite S1. destruct s1; [congruence|]. cbn.
      apply in_keys_of. exists s0. split; auto. apply in_or_app. right. rewrite S3. now left. }
  destruct Hrange as (Hr1 & Hr2).
  assert (He1 : forall x, In x (entries_of G' a) -> lv G a <> 0 -> In x (entries_of G a)).
  { intros x Hx E. destruct (node_inner _ _ _ _ Hn E) as (I & Hok). fold A in I, Hok.
    rewrite I in Hsp. destruct Hsp as (S1 & S2 & s0 & tl0 & S3 & S4).
    unfold entries_of in *. rewrite Va in Hx. rewrite (g_lo _ _ _ _ Hg a Haf) in Hx.
    fold A. rewrite S1. destruct s1; [congruence|]. cbn in *. rewrite map_app.
    destruct Hx; auto. right. apply in_or_app. auto. }
  assert (He2 : forall x, In x (entries_of G' fr) -> lv G a <> 0 -> In x (entries_of G a)).
  { intros x Hx E. destruct (node_inner _ _ _ _ Hn E) as (I & Hok). fold A in I, Hok.
    rewrite I in Hsp. destruct Hsp as (S1 & S2 & s0 & tl0 & S3 & S4).
    unfold entries_of in *. rewrite Vr, Hlo in Hx. cbn [a_slots A2] in Hx. rewrite S3 in Hx.
    fold A. rewrite S1. destruct s1; [congruence|]. cbn in *. rewrite map_app, S3.
    right. apply in_or_app. right. cbn. destruct Hx as [<-|Hx]; auto. left.
    unfold sent, skey. now rewrite S4. }
  assert (Hks : forall k, inrange G a k -> In k (keys_of (s1 ++ s2)) -> In k (keys_of (a_slots A))).
  { intros k _ Hk. destruct (a_inner A) eqn:I.
    - destruct Hsp as (-> & _). auto.
    - destruct Hsp as (_ & _ & _ & I1 & I2 & _). rewrite keys_of_app in Hk.
      apply in_app_or in Hk as [Hk|Hk]; auto. }
  split; [|auto].
  assert (Hha : hi G' a = Key sep) by (unfold hi, hia; now rewrite Va).
  assert (Hhr : hi G' fr = hi G a) by (unfold hi, hia; now rewrite Vr).
  assert (Hhx : forall x, x <> a -> x <> fr -> hi G' x = hi G x).
  { intros x X1 X2. unfold hi, hia. now rewrite Vx. }
  assert (Hlen : length (tr ++ [@LTau P]) = S (length tr)) by (rewrite app_length; cbn; lia).
  pose proof (g_lv _ _ _ _ Hg) as GL. pose proof (g_lo _ _ _ _ Hg) as GO.
  pose proof (g_bt _ _ _ _ Hg) as GB.
  assert (Hlive : forall c, In c (map snd (entries_of G a)) -> lv G a <> 0 -> dd G' c = None).
  { intros c Hc E. apply in_map_iff in Hc as ((e & c') & <- & Hc). cbn.
    destruct (n_kids _ _ _ _ Hn E e c' Hc) as (C1 & C2 & C3 & C4 & C5).
    rewrite Hdd by auto. rewrite Hd in C4. destruct (dd G c'); [destruct C4|auto]. }
  assert (Na : node_ok (S fr) G' a l').
  { constructor; rewrite ?Va, ?Hha, ?(GL a Haf), ?(GO a Haf); cbn [A1 a_inner a_removed a_next a_low a_high a_slots]; auto.
    - apply (n_rem _ _ _ _ Hn).
    - apply (n_inner _ _ _ _ Hn).
    - fold A. destruct (a_inner A) eqn:I; cbn.
      + destruct Hsp as (S1 & S2 & _). pose proof (n_body _ _ _ _ Hn) as Hb. fold A in Hb.
        rewrite I, S1 in Hb. destruct s1 as [|s0 s1]; [congruence|]. cbn in Hb |- *.
        destruct Hb as (B1 & B2 & B3). apply Forall_app in B2 as (B2 & _).
        rewrite keys_of_app in B3. apply SS_app in B3 as (B3 & _). auto.
      + tauto.
    - apply (n_low _ _ _ _ Hn).
    - intros E k Hk. destruct (node_leaf _ _ _ _ Hn E) as (I & _). fold A in I. rewrite I in Hsp.
      destruct Hsp as (_ & _ & _ & I1 & _ & I3 & _). split.
      + apply (n_leaf _ _ _ _ Hn E k). apply I1. auto.
      + apply I3. auto.
    - intros E k Hk. destruct (n_head _ _ _ _ Hn E k Hk) as (s0 & sl & Q1 & Q2).
      destruct (node_inner _ _ _ _ Hn E) as (I & _). fold A in I, Q1. rewrite I in Hsp.
      destruct Hsp as (S1 & S2 & _). rewrite S1 in Q1. destruct s1 as [|x s1]; [congruence|].
      cbn in Q1. inversion Q1; subst. eauto.
    - intros E k Hk. destruct (node_inner _ _ _ _ Hn E) as (I & Hok). fold A in I, Hok.
      rewrite I in Hsp. destruct Hsp as (S1 & S2 & s0 & tl0 & S3 & S4).
      rewrite S1 in Hok. destruct s1 as [|x s1]; [congruence|]. cbn in Hok, Hk.
      split.
      + apply (n_seps _ _ _ _ Hn E). fold A. rewrite S1. cbn [tl app]. rewrite keys_of_app.
        apply in_or_app. auto.
      + destruct Hok as (_ & _ & Hss). rewrite keys_of_app in Hss.
        apply SS_app in Hss as (_ & _ & Hss). apply (Hss k sep); auto.
        apply in_keys_of. exists s0. rewrite S3. split; auto. now left.
    - intros E e c Hec.
      destruct (n_kids _ _ _ _ Hn E e c (He1 _ Hec E)) as (C1 & C2 & C3 & C4 & C5).
      rewrite (GL c C1), (GO c C1), !Hdd by auto. repeat split; auto.
      apply (g_lowr _ _ _ _ Hg); auto.
    - exists sep. rewrite Hlo, Hlv, Hdr. repeat split; auto.
      + rewrite Hdd, Hd by auto. exact I.
      + rewrite Hdd, Hd by auto. exact I.
      + apply lowr_live2; auto.
        * now rewrite Hdd.
        * rewrite Hlo, (GO a Haf). now apply elt_ele. }
  assert (Nr : node_ok (S fr) G' fr r').
  { constructor; rewrite ?Vr, ?Hhr, ?Hlv, ?Hlo; cbn [A2 a_inner a_removed a_next a_low a_high a_slots]; auto.
    - apply (n_inner _ _ _ _ Hn).
    - fold A. destruct (a_inner A) eqn:I; cbn.
      + destruct Hsp as (S1 & S2 & s0 & tl0 & S3 & S4). pose proof (n_body _ _ _ _ Hn) as Hb.
        fold A in Hb. rewrite I, S1, S3 in Hb. destruct s1 as [|y s1]; [congruence|].
        cbn in Hb. destruct Hb as (B1 & B2 & B3). apply Forall_app in B2 as (_ & B2).
        inversion B2 as [|? ? B4 B5]; subst. rewrite keys_of_app in B3. cbn in B3.
        apply SS_app in B3 as (_ & B3 & _). apply SS_app in B3 as (_ & B3 & _).
        cbn. repeat split; auto.
        * apply B4.
        * destruct B4 as (_ & k & c & _ & B4). eauto.
      + tauto.
    - congruence.
    - intros E k Hk. destruct (node_leaf _ _ _ _ Hn E) as (I & _). fold A in I. rewrite I in Hsp.
      destruct Hsp as (_ & _ & _ & _ & I2 & _ & I4 & _). split.
      + apply kle_ele. apply I4. auto.
      + apply (n_leaf _ _ _ _ Hn E k). apply I2. auto.
    - intros E k Hk. destruct (node_inner _ _ _ _ Hn E) as (I & _). fold A in I. rewrite I in Hsp.
      destruct Hsp as (S1 & S2 & s0 & tl0 & S3 & S4). exists s0, tl0. split; auto. congruence.
    - intros E k Hk. destruct (node_inner _ _ _ _ Hn E) as (I & Hok). fold A in I, Hok.
      rewrite I in Hsp. destruct Hsp as (S1 & S2 & s0 & tl0 & S3 & S4).
      rewrite S1, S3 in Hok. rewrite S3 in Hk. cbn in Hk.
      destruct s1 as [|x s1]; [congruence|]. cbn in Hok.
      split.
      + destruct Hok as (_ & _ & Hss). rewrite keys_of_app in Hss.
        apply SS_app in Hss as (_ & Hss & _). cbn in Hss. unfold key1 at 1 in Hss.
        rewrite S4 in Hss. cbn in Hss. inversion Hss as [|? ? Q1 Q2]; subst.
        rewrite Forall_forall in Q2. now apply Q2.
      + apply (n_seps _ _ _ _ Hn E). fold A. rewrite S1, S3. cbn [tl app]. rewrite keys_of_app. cbn.
        apply in_or_app. right. apply in_or_app. auto.
    - intros E e c Hec. pose proof (He2 _ Hec E) as Hec'.
      destruct (n_kids _ _ _ _ Hn E e c Hec') as (C1 & C2 & C3 & C4 & C5).
      assert (Hdc : dd G' c = None).
      { apply Hlive; auto. apply (in_map snd) in Hec'. exact Hec'. }
      rewrite (GL c C1), (GO c C1), Hdc, Hdr. repeat split; auto.
      apply lowr_live2; auto. rewrite Hlo, (GO c C1), C3.
      destruct (node_inner _ _ _ _ Hn E) as (I & Hok). fold A in I, Hok.
      rewrite I in Hsp. destruct Hsp as (S1 & S2 & s0 & tl0 & S3 & S4).
      unfold entries_of in Hec. rewrite Vr, Hlo in Hec. cbn [A2 a_slots] in Hec. rewrite S3 in Hec.
      cbn in Hec. destruct Hec as [Hec|Hec]; [inversion Hec; apply ele_refl|].
      rewrite S1, S3 in Hok. destruct s1 as [|x s1]; [congruence|]. cbn in Hok.
      destruct Hok as (_ & Hf & Hss). apply Forall_app in Hf as (_ & Hf).
      inversion Hf as [|? ? F1 F2]; subst.
      destruct (in_sent _ _ _ Hec F2) as (s' & k & Q1 & -> & Q2 & Q3).
      rewrite keys_of_app in Hss. apply SS_app in Hss as (_ & Hss & _). cbn in Hss.
      unfold key1 at 1 in Hss. rewrite S4 in Hss. cbn in Hss.
      inversion Hss as [|? ? Q4 Q5]; subst. rewrite Forall_forall in Q5.
      apply elt_ele. apply Q5. apply in_keys_of. eauto.
    - pose proof (n_next _ _ _ _ Hn) as Hx. fold A in Hx.
      destruct (a_next A) as [b|]; auto.
      destruct Hx as (k & K1 & K2 & K3 & K4 & K5 & K6 & K7).
      assert (Hdb : dd G' b = None).
      { rewrite Hdd by auto. rewrite Hd in K5. destruct (dd G b); [destruct K5|auto]. }
      exists k. rewrite (GL b K3), (GO b K3), Hdb, Hdr. repeat split; auto.
      apply lowr_live2; auto. rewrite Hlo, (GO b K3), K2.
      apply elt_ele. unfold hi, hia in Hr2. fold A in Hr2. now rewrite K1 in Hr2. }
  constructor.
  - intros x Hx. destruct (Nat.eq_dec x a) as [->|E1]; [rewrite upd_same; eauto|].
    rewrite upd_diff by auto. destruct (Nat.eq_dec x fr) as [->|E2]; [rewrite upd_same; eauto|].
    rewrite upd_diff by auto. apply (h_some _ _ _ _ _ H). lia.
  - intros x y. destruct (Nat.eq_dec x a) as [->|E1]; [intros; lia|].
    rewrite upd_diff by auto. destruct (Nat.eq_dec x fr) as [->|E2]; [intros; lia|].
    rewrite upd_diff by auto. intros Hx. apply (h_none _ _ _ _ _ H) in Hx. lia.
  - intros x y. destruct (Nat.eq_dec x a) as [->|E1]; [rewrite upd_same; intros [= <-]; auto|].
    rewrite upd_diff by auto. destruct (Nat.eq_dec x fr) as [->|E2].
    { rewrite upd_same; intros [= <-]; auto. }
    rewrite upd_diff by auto. intros Hx Hrx.
    assert (Hxf : x < fr) by (eapply h_none; eauto).
    apply (node_ok_ext _ _ _ _ _ _ _ _ _ H Hg); auto.
    + intros c Hc Hdc Hdc'. exfalso. apply Hdc'. rewrite Hdd; auto.
      pose proof (h_node _ _ _ _ _ H x y Hx Hrx) as Hnx.
      destruct Hc as [[Hz Hc]|Hc].
      * apply in_map_iff in Hc as ((e & c') & <- & Hc). apply (n_kids _ _ _ _ Hnx Hz _ _ Hc).
      * pose proof (n_next _ _ _ _ Hnx) as Hnn. rewrite Hc in Hnn.
        destruct Hnn as (k & _ & _ & K3 & _). auto.
    + eapply h_node; eauto.
  - intros x y. destruct (Nat.eq_dec x a) as [->|E1].
    { rewrite upd_same; intros [= <-] Hq. exfalso. destruct (L_hdr _ _ R1) as (_ & Q & _).
      cbn in Q. pose proof (n_rem _ _ _ _ Hn). unfold A in Q. congruence. }
    rewrite upd_diff by auto. destruct (Nat.eq_dec x fr) as [->|E2].
    { rewrite upd_same; intros [= <-] Hq. exfalso. destruct (L_hdr _ _ R2) as (_ & Q & _).
      cbn in Q. congruence. }
    rewrite upd_diff by auto. intros Hx Hrx.
    assert (Hxf : x < fr) by (eapply h_none; eauto).
    destruct (h_dead _ _ _ _ _ H x y Hx Hrx) as (D1 & D2 & D3 & D4).
    rewrite Hdd, (g_tg _ _ _ _ Hg), (g_lv _ _ _ _ Hg) by auto. auto.
  - intros x Hx. rewrite Hlen. destruct (Nat.eq_dec x fr) as [->|E2]; [lia|].
    rewrite GB by lia. pose proof (h_bt _ _ _ _ _ H x ltac:(lia)). lia.
  - intros x T Hx HT. rewrite Hlen. destruct (Nat.eq_dec x fr) as [->|E2]; [congruence|].
    rewrite GB by lia. rewrite Hdd in HT by lia.
    pose proof (h_btd _ _ _ _ _ H x T ltac:(lia) HT). lia.
  - eapply h_tg_newg; eauto.
  - intros x k Hx Hk. destruct (Nat.eq_dec x fr) as [->|E2].
    + rewrite Hlo in Hk. assert (sep = k) by congruence. now subst.
    + rewrite GO in Hk by lia. apply (h_key _ _ _ _ _ H x k); auto; lia.
  - intros x y Hx Hy Dx Dy Hxy Hne.
    assert (Hgen : forall z, z < fr -> z <> a -> dd G z = None -> lv G z = lv G a ->
       (ele (hi G' z) (lo G a)) \/ (ele (hi G a) (lo G z))).
    { intros z Hz1 Hz2 Hz3 Hz4. rewrite Hhx by lia.
      destruct (h_disj _ _ _ _ _ H z a); auto. }
    destruct (Nat.eq_dec x fr) as [->|Ex]; destruct (Nat.eq_dec y fr) as [->|Ey]; [lia| | |].
    + rewrite Hhr, Hlo. rewrite GO by lia. rewrite Hlv, GL in Hxy by lia.
      rewrite Hdd in Dy by lia.
      destruct (Nat.eq_dec y a) as [->|Eya].
      * right. rewrite Hha. apply ele_refl.
      * destruct (Hgen y ltac:(lia) Eya Dy ltac:(lia)) as [Q|Q]; [right|left]; auto.
        eapply ele_trans; eauto. now apply elt_ele.
    + rewrite Hhr, Hlo. rewrite GO by lia. rewrite Hlv, GL in Hxy by lia.
      rewrite Hdd in Dx by lia.
      destruct (Nat.eq_dec x a) as [->|Exa].
      * left. rewrite Hha. apply ele_refl.
      * destruct (Hgen x ltac:(lia) Exa Dx ltac:(lia)) as [Q|Q]; [left|right]; auto.
        eapply ele_trans; eauto. now apply elt_ele.
    + rewrite !GO by lia. rewrite !GL in Hxy by lia. rewrite Hdd in Dx, Dy by lia.
      destruct (Nat.eq_dec x a) as [->|Exa]; destruct (Nat.eq_dec y a) as [->|Eya]; [lia| | |].
      * destruct (Hgen y ltac:(lia) Eya Dy ltac:(lia)) as [Q|Q]; [right; auto|left].
        rewrite Hha. eapply ele_trans; [|exact Q]. now apply elt_ele.
      * destruct (Hgen x ltac:(lia) Exa Dx ltac:(lia)) as [Q|Q]; [left; auto|right].
        rewrite Hha. eapply ele_trans; [|exact Q]. now apply elt_ele.
      * rewrite !Hhx by lia. apply (h_disj _ _ _ _ _ H); auto; lia.
  - intros x Hx Dx Lx k Hk. rewrite effs_snoc. cbn [eff].
    assert (Hleaf : lv G a = 0 -> live (a_slots A) = live s1 ++ live s2 /\
              (forall k, In k (keys_of s1) -> klt k sep) /\ (forall k, In k (keys_of s2) -> kle sep k)).
    { intros E. destruct (node_leaf _ _ _ _ Hn E) as (I & _). fold A in I. rewrite I in Hsp. tauto. }
    destruct (Nat.eq_dec x fr) as [->|Ex].
    + rewrite Hlv in Lx. destruct (Hleaf Lx) as (E1 & E2 & E3). rewrite Vr. cbn [A2 a_slots].
      destruct Hk as (Hk1 & Hk2). rewrite Hlo in Hk1. rewrite Hhr in Hk2.
      rewrite <- (h_cont _ _ _ _ _ H a Haf Hd Lx k).
      * fold A. rewrite E1. rewrite assoc_app_l; auto. intros k' Hk' ->.
        apply in_map_iff in Hk' as ((k'' & v) & Eq & Hk'). cbn in Eq. subst.
        apply live_key_in in Hk'. apply E2 in Hk'. now apply Hk1.
      * split; auto. eapply ele_trans; eauto. now apply elt_ele.
    + rewrite GL in Lx by lia. rewrite Hdd in Dx by lia.
      destruct (Nat.eq_dec x a) as [->|Exa].
      * destruct (Hleaf Lx) as (E1 & E2 & E3). rewrite Va. cbn [A1 a_slots].
        destruct Hk as (Hk1 & Hk2). rewrite GO in Hk1 by lia. rewrite Hha in Hk2.
        rewrite <- (h_cont _ _ _ _ _ H a Haf Hd Lx k).
        -- fold A. rewrite E1. rewrite assoc_app_r; auto. intros k' Hk' ->.
           apply in_map_iff in Hk' as ((k'' & v) & Eq & Hk'). cbn in Eq. subst.
           apply live_key_in in Hk'. apply E3 in Hk'. apply kle_ele in Hk'. now apply Hk'.
        -- split; auto. eapply elt_trans; eauto.
      * rewrite Vx by auto. apply (h_cont _ _ _ _ _ H); auto; try lia.
        destruct Hk as (Hk1 & Hk2). rewrite GO in Hk1 by lia. rewrite Hhx in Hk2 by auto.
        split; auto.
  - intros x y T Hx Hrx HT Lx k Hk.
    assert (E1 : x <> a). { intros ->. rewrite Hdd in HT by auto. congruence. }
    assert (E2 : x <> fr) by (intros ->; congruence).
    rewrite !upd_diff in Hx by auto. assert (Hxf : x < fr) by (eapply h_none; eauto).
    rewrite Hdd in HT by auto. rewrite GL in Lx by auto. rewrite Vx by auto.
    destruct Hk as (Hk1 & Hk2). rewrite GO in Hk1 by lia. rewrite Hhx in Hk2 by auto.
    destruct (h_btd _ _ _ _ _ H x T Hxf HT). rewrite mapat_snoc by lia.
    eapply (h_stale _ _ _ _ _ H); eauto. split; auto.
  - intros x y T z Hx Hrx HT Hz Dz Lz Bz.
    assert (E1 : x <> a). { intros ->. rewrite Hdd in HT by auto. congruence. }
    assert (E2 : x <> fr) by (intros ->; congruence).
    rewrite !upd_diff in Hx by auto. assert (Hxf : x < fr) by (eapply h_none; eauto).
    rewrite Hdd in HT by auto.
    assert (Hzf : z < fr).
    { destruct (Nat.eq_dec z fr) as [->|]; [|lia]. destruct (h_btd _ _ _ _ _ H x T Hxf HT). lia. }
    rewrite !GO, Hhx by lia. rewrite !GL in Lz by lia. rewrite Hdd in Dz by lia.
    rewrite GB in Bz by lia. eapply (h_sdisj _ _ _ _ _ H); eauto.
Qed.

(** ** A new root *)

Definition rootg (G : gh) (fr n l : addr) (A : anode) : gh :=
  seta (newg G fr (S (lv G l)) NegInf (S n)) fr A.

Lemma rootg_facts h fr G tr l A : heap_ok h fr G tr ->
  let G' := rootg G fr (length tr) l A in
  gle fr (length tr) G G' /\
  (forall x, x < fr -> dd G' x = dd G x) /\
  lv G' fr = S (lv G l) /\ lo G' fr = NegInf /\ bt G' fr = S (length tr) /\ dd G' fr = None /\
  av G' fr = A /\ (forall x, x <> fr -> av G' x = av G x).
Proof.
  intros H G'. subst G'. unfold rootg.
  destruct (newg_new G fr (S (lv G l)) NegInf (S (length tr))) as (N1 & N2 & N3 & N4 & N5).
  split; [|split; [|repeat split]]; auto.
  - apply gle_seta_r. eapply gle_newg; eauto.
  - intros x Hx. apply newg_old. lia.
  - apply av_seta_same.
  - intros x H1. now rewrite av_seta_diff by auto.
Qed.

Lemma heap_newroot h fr G tr l r sep n s0 :
  heap_ok h fr G tr -> l < fr -> r < fr -> dd G l = None -> dd G r = None ->
  lv G l = lv G r -> lo G l = NegInf -> lo G r = Key sep ->
  (forall y, y < fr -> dd G y = None -> lv G y <= lv G l) ->
  let A := ANode true false None None None
             [Slot s0 (PP l) false; Slot (Some sep) (PP r) false] in
  rep n A ->
  let G' := rootg G fr (length tr) l A in
  heap_ok (upd h fr (Some n)) (S fr) G' (tr ++ [LTau]) /\
  (forall e c, In (e, c) (entries_of G' fr) -> c = l \/ c = r).
Proof.
  intros H Hl Hr Dl Dr Hlv Ol Or Htop A Hrep G'.
  destruct (rootg_facts _ _ _ _ l A H) as (Hg & Hdd & Hlv' & Hlo & Hbt & Hdr & Va & Vx).
  fold G' in Hg, Hdd, Hlv', Hlo, Hbt, Hdr, Va, Vx. clearbody G'.
  assert (Hent : entries_of G' fr = [(NegInf, l); (Key sep, r)]).
  { unfold entries_of. rewrite Va, Hlo. reflexivity. }
  split.
  2: { intros e c. rewrite Hent. cbn. intros [E|[E|[]]]; inversion E; auto. }
  assert (Hha : hi G' fr = PosInf) by (unfold hi, hia; now rewrite Va).
  assert (Hhx : forall x, x <> fr -> hi G' x = hi G x).
  { intros x X1. unfold hi, hia. now rewrite Vx. }
  assert (Hlen : length (tr ++ [@LTau P]) = S (length tr)) by (rewrite app_length; cbn; lia).
  pose proof (g_lv _ _ _ _ Hg) as GL. pose proof (g_lo _ _ _ _ Hg) as GO.
  pose proof (g_bt _ _ _ _ Hg) as GB.
  assert (Nr : node_ok (S fr) G' fr n).
  { constructor; rewrite ?Va, ?Hha, ?Hlv', ?Hlo; cbn [A a_inner a_removed a_next a_low a_high a_slots]; auto; try congruence.
    - cbn [body_ok inner_ok]. split; [|split].
      + split; [reflexivity|eexists; reflexivity].
      + constructor; [|constructor]. split; [reflexivity|do 2 eexists; split; reflexivity].
      + cbn. constructor; constructor.
    - exact I.
    - intros _ k Hk. cbn in Hk. split; exact I.
    - intros _ e c Hec. rewrite Hent in Hec. cbn in Hec.
      destruct Hec as [E|[E|[]]]; inversion E; subst; rewrite GL, GO, Hdr, Hdd by auto.
      + repeat split; auto. { rewrite Dl. exact I. }
        apply lowr_live2; auto; [rewrite Hdd; auto|]. rewrite Hlo. apply ele_neg.
      + repeat split; auto. { rewrite Dr. exact I. }
        apply lowr_live2; auto; [rewrite Hdd; auto|]. rewrite Hlo. apply ele_neg. }
  constructor.
  - intros x Hx. destruct (Nat.eq_dec x fr) as [->|E2]; [rewrite upd_same; eauto|].
    rewrite upd_diff by auto. apply (h_some _ _ _ _ _ H). lia.
  - intros x y. destruct (Nat.eq_dec x fr) as [->|E2]; [intros; lia|].
    rewrite upd_diff by auto. intros Hx. apply (h_none _ _ _ _ _ H) in Hx. lia.
  - intros x y. destruct (Nat.eq_dec x fr) as [->|E2].
    { rewrite upd_same; intros [= <-]; auto. }
    rewrite upd_diff by auto. intros Hx Hrx.
    assert (Hxf : x < fr) by (eapply h_none; eauto).
    apply (node_ok_ext _ _ _ _ _ _ _ _ _ H Hg); auto.
    + intros c Hc Hdc Hdc'. exfalso. apply Hdc'. rewrite Hdd; auto.
      pose proof (h_node _ _ _ _ _ H x y Hx Hrx) as Hnx.
      destruct Hc as [[Hz Hc]|Hc].
      * apply in_map_iff in Hc as ((e & c') & <- & Hc). apply (n_kids _ _ _ _ Hnx Hz _ _ Hc).
      * pose proof (n_next _ _ _ _ Hnx) as Hnn. rewrite Hc in Hnn.
        destruct Hnn as (k & _ & _ & K3 & _). auto.
    + eapply h_node; eauto.
  - intros x y. destruct (Nat.eq_dec x fr) as [->|E2].
    { rewrite upd_same; intros [= <-] Hq. exfalso. destruct (L_hdr _ _ Hrep) as (_ & Q & _).
      cbn in Q. congruence. }
    rewrite upd_diff by auto. intros Hx Hrx.
    assert (Hxf : x < fr) by (eapply h_none; eauto).
    destruct (h_dead _ _ _ _ _ H x y Hx Hrx) as (D1 & D2 & D3 & D4).
    rewrite Hdd, (g_tg _ _ _ _ Hg), (g_lv _ _ _ _ Hg) by auto. auto.
  - intros x Hx. rewrite Hlen. destruct (Nat.eq_dec x fr) as [->|E2]; [lia|].
    rewrite GB by lia. pose proof (h_bt _ _ _ _ _ H x ltac:(lia)). lia.
  - intros x T Hx HT. rewrite Hlen. destruct (Nat.eq_dec x fr) as [->|E2]; [congruence|].
    rewrite GB by lia. rewrite Hdd in HT by lia.
    pose proof (h_btd _ _ _ _ _ H x T ltac:(lia) HT). lia.
  - eapply h_tg_newg; eauto.
  - intros x k Hx Hk. destruct (Nat.eq_dec x fr) as [->|E2].
    + congruence.
    + rewrite GO in Hk by lia. apply (h_key _ _ _ _ _ H x k); auto; lia.
  - intros x y Hx Hy Dx Dy Hxy Hne.
    destruct (Nat.eq_dec x fr) as [->|Ex]; destruct (Nat.eq_dec y fr) as [->|Ey]; [lia| | |].
    + rewrite Hlv', GL in Hxy by lia. rewrite Hdd in Dy by lia.
      specialize (Htop y ltac:(lia) Dy). lia.
    + rewrite Hlv', GL in Hxy by lia. rewrite Hdd in Dx by lia.
      specialize (Htop x ltac:(lia) Dx). lia.
    + rewrite !GO by lia. rewrite !GL in Hxy by lia. rewrite Hdd in Dx, Dy by lia.
      rewrite !Hhx by lia. apply (h_disj _ _ _ _ _ H); auto; lia.
  - intros x Hx Dx Lx k Hk. rewrite effs_snoc. cbn [eff].
    destruct (Nat.eq_dec x fr) as [->|Ex]; [lia|].
    rewrite GL in Lx by lia. rewrite Hdd in Dx by lia. rewrite Vx by auto.
    apply (h_cont _ _ _ _ _ H); auto; try lia.
    destruct Hk as (Hk1 & Hk2). rewrite GO in Hk1 by lia. rewrite Hhx in Hk2 by auto.
    split; auto.
  - intros x y T Hx Hrx HT Lx k Hk.
    assert (E2 : x <> fr) by (intros ->; congruence).
    rewrite !upd_diff in Hx by auto. assert (Hxf : x < fr) by (eapply h_none; eauto).
    rewrite Hdd in HT by auto. rewrite GL in Lx by auto. rewrite Vx by auto.
    destruct Hk as (Hk1 & Hk2). rewrite GO in Hk1 by lia. rewrite Hhx in Hk2 by auto.
    destruct (h_btd _ _ _ _ _ H x T Hxf HT). rewrite mapat_snoc by lia.
    eapply (h_stale _ _ _ _ _ H); eauto. split; auto.
  - intros x y T z Hx Hrx HT Hz Dz Lz Bz.
    assert (E2 : x <> fr) by (intros ->; congruence).
    rewrite !upd_diff in Hx by auto. assert (Hxf : x < fr) by (eapply h_none; eauto).
    rewrite Hdd in HT by auto.
    assert (Hzf : z < fr).
    { destruct (Nat.eq_dec z fr) as [->|]; [|lia]. destruct (h_btd _ _ _ _ _ H x T Hxf HT). lia. }
    rewrite !GO, Hhx by lia. rewrite !GL in Lz by lia. rewrite Hdd in Dz by lia.
    rewrite GB in Bz by lia. eapply (h_sdisj _ _ _ _ _ H); eauto.
Qed.

(** ** The end of a node *)

Definition killg (G : gh) (r n : addr) (t : option addr) : gh :=
  Gh (lv G) (lo G) (bt G) (fun x => if x =? r then Some n else dd G x)
     (fun x => if x =? r then t else tg G x) (av G).

Lemma killg_same G r n t : dd (killg G r n t) r = Some n /\ tg (killg G r n t) r = t.
Proof. cbn. now rewrite Nat.eqb_refl. Qed.
Lemma killg_diff G r n t x : x <> r ->
  dd (killg G r n t) x = dd G x /\ tg (killg G r n t) x = tg G x.
Proof. intros H. cbn. apply Nat.eqb_neq in H. now rewrite H. Qed.

Lemma final_merge G r n l a f : dd G r = None -> dd G l = None -> l <> r -> final G a f ->
  final (killg G r n (Some l)) a (if f =? r then l else f).
Proof.
  intros Dr Dl Hne Hf. destruct (killg_same G r n (Some l)) as (K1 & K2).
  assert (Hl : final (killg G r n (Some l)) l l).
  { apply fin_live. rewrite (proj1 (killg_diff _ _ _ _ _ Hne)). auto. }
  induction Hf as [a E|a T E1 E2|a T b f E1 E2 Hf IH].
  - destruct (Nat.eqb_spec a r) as [->|Ha].
    + eapply fin_tg; eauto.
    + apply fin_live. now rewrite (proj1 (killg_diff _ _ _ _ _ Ha)).
  - destruct (Nat.eqb_spec a r) as [->|Ha]; [congruence|].
    destruct (killg_diff G r n (Some l) a Ha) as (Q1 & Q2).
    apply (fin_root _ _ T); congruence.
  - assert (Ha : a <> r) by congruence.
    destruct (killg_diff G r n (Some l) a Ha) as (Q1 & Q2).
    apply (fin_tg _ _ T b); congruence.
Qed.

Lemma final_rmroot G r n a f : dd G r = None -> final G a f -> final (killg G r n None) a f.
Proof.
  intros Dr Hf. destruct (killg_same G r n None) as (K1 & K2).
  induction Hf as [a E|a T E1 E2|a T b f E1 E2 Hf IH].
  - destruct (Nat.eq_dec a r) as [->|Ha].
    + eapply fin_root; eauto.
    + apply fin_live. now rewrite (proj1 (killg_diff _ _ _ _ _ Ha)).
  - assert (Ha : a <> r) by congruence. destruct (killg_diff G r n None a Ha) as (Q1 & Q2).
    apply (fin_root _ _ T); congruence.
  - assert (Ha : a <> r) by congruence. destruct (killg_diff G r n None a Ha) as (Q1 & Q2).
    apply (fin_tg _ _ T b); congruence.
Qed.

Lemma first_kid fr G a d : node_ok fr G a d -> lv G a <> 0 ->
  exists c, In (lo G a, c) (entries_of G a).
Proof.
  intros Hn Hl. destruct (node_inner _ _ _ _ Hn Hl) as (_ & Hok).
  unfold entries_of. destruct (a_slots (av G a)) as [|s sl]; [destruct Hok|].
  exists (skid s). now left.
Qed.

(** A node of the tree left of [r] lies left of its left sibling [l], or is [l]. *)
Lemma left_of h fr G tr l r c : heap_ok h fr G tr ->
  l < fr -> r < fr -> c < fr -> dd G l = None -> dd G r = None -> dd G c = None ->
  lv G l = lv G r -> lv G c = lv G r -> hi G l = lo G r -> c <> r ->
  ele (lo G c) (lo G r) -> ele (lo G c) (lo G l).
Proof.
  intros H Hl Hr Hc Dl Dr Dc L1 L2 Hh Hne Hle.
  destruct (Nat.eq_dec c l) as [->|Hcl]; [apply ele_refl|].
  destruct (ele_cases _ _ Hle) as [Hlt|E].
  2: { exfalso. apply Hne. eapply same_lo; eauto. }
  destruct (h_disj _ _ _ _ _ H c l Hc Hl Dc Dl ltac:(congruence) Hcl) as [Q|Q].
  - apply elt_ele. eapply elt_ele_trans; [|exact Q]. eapply elt_hi_lo; eauto.
  - exfalso. rewrite Hh in Q. apply (elt_irrefl (lo G c)). eapply elt_ele_trans; eauto.
Qed.

Lemma gle_merge h fr G tr l r n : heap_ok h fr G tr ->
  l < fr -> r < fr -> dd G l = None -> dd G r = None -> l <> r ->
  lv G l = lv G r -> hi G l = lo G r ->
  (forall p, p < fr -> dd G p = None -> lv G p <> 0 ->
     forall e c, In (e, c) (entries_of G p) -> c <> r) ->
  gle fr n G (killg G r n (Some l)).
Proof.
  intros H Hl Hr Dl Dr Hne Hlv Hh Hno. constructor; auto.
  - intros a Ha. destruct (Nat.eq_dec a r) as [->|E].
    + right. split; auto. apply killg_same.
    + left. apply killg_diff. auto.
  - intros a Ha Hd. apply killg_diff. congruence.
  - intros x a Hx Ha Hlx Hlow f' g' Hf' Hg'.
    destruct (final_total _ _ _ _ _ _ H Hx) as (f & F1 & F2 & F3 & F4).
    destruct (final_total _ _ _ _ _ _ H Ha) as (g & G1 & G2 & G3 & G4).
    rewrite (final_fun _ _ _ Hf' _ (final_merge G r n l x f Dr Dl Hne F1)).
    rewrite (final_fun _ _ _ Hg' _ (final_merge G r n l a g Dr Dl Hne G1)).
    specialize (Hlow f g F1 G1). cbn [lo killg].
    assert (Hlr : elt (lo G l) (lo G r)) by (rewrite <- Hh; eapply elt_hi_lo; eauto).
    destruct (Nat.eqb_spec g r) as [->|Eg]; destruct (Nat.eqb_spec f r) as [->|Ef]; auto.
    + apply ele_refl.
    + destruct (dd G f) as [T|] eqn:Df.
      { destruct (final_live _ _ _ F1) as [|Et]; [congruence|].
        pose proof (h_tg _ _ _ _ _ H f T F2 Df) as Ht. rewrite Et in Ht.
        destruct Ht as (-> & _). apply ele_neg. }
      destruct Hlx as [Hlx|Hlx].
      * eapply left_of; eauto. congruence.
      * destruct (live_node _ _ _ _ _ _ H F2 Df) as (d & D1 & D2 & D3).
        assert (Hf0 : lv G f <> 0) by lia.
        destruct (first_kid _ _ _ _ D3 Hf0) as (c & Hc).
        destruct (n_kids _ _ _ _ D3 Hf0 _ _ Hc) as (C1 & C2 & C3 & C4 & C5).
        rewrite <- C3 in *. apply (left_of h fr G tr l r c H); auto.
        -- rewrite Df in C4. destruct (dd G c); [destruct C4|auto].
        -- lia.
        -- apply (Hno f F2 Df Hf0 _ _ Hc).
    + apply elt_ele. eapply elt_ele_trans; eauto.
Qed.

Lemma gle_rmroot h fr G tr r n : heap_ok h fr G tr -> dd G r = None ->
  gle fr n G (killg G r n None).
Proof.
  intros H Dr. constructor; auto.
  - intros a Ha. destruct (Nat.eq_dec a r) as [->|E].
    + right. split; auto. apply killg_same.
    + left. apply killg_diff. auto.
  - intros a Ha Hd. apply killg_diff. congruence.
  - intros x a Hx Ha Hlx Hlow f' g' Hf' Hg'.
    destruct (final_total _ _ _ _ _ _ H Hx) as (f & F1 & _).
    destruct (final_total _ _ _ _ _ _ H Ha) as (g & G1 & _).
    rewrite (final_fun _ _ _ Hf' _ (final_rmroot G r n x f Dr F1)).
    rewrite (final_fun _ _ _ Hg' _ (final_rmroot G r n a g Dr G1)). apply Hlow; auto.
Qed.

Lemma heap_rmroot h fr G tr p d d' :
  heap_ok h fr G tr -> h p = Some d -> dd G p = None -> lv G p <> 0 -> lo G p = NegInf ->
  a_next (av G p) = None ->
  (forall y, y < fr -> dd G y = None -> lv G y <= lv G p) ->
  nd_removed d' = true -> nd_next d' = None -> nd_inner d' = true ->
  heap_ok (upd h p (Some d')) fr (killg G p (length tr) None) (tr ++ [LTau]).
Proof.
  intros H Hp Dp Lp Op Np Htop R1 R2 R3.
  assert (Hpf : p < fr) by (eapply h_none; eauto).
  assert (Hrm : nd_removed d = false) by (eapply live_not_removed; eauto).
  pose proof (h_node _ _ _ _ _ H p d Hp Hrm) as Hn.
  pose proof (gle_rmroot _ _ _ _ p (length tr) H Dp) as Hg.
  destruct (killg_same G p (length tr) None) as (K1 & K2).
  assert (Kx : forall x, x <> p -> dd (killg G p (length tr) None) x = dd G x)
    by (intros; now apply killg_diff).
  assert (Hlen : length (tr ++ [@LTau P]) = S (length tr)) by (rewrite app_length; cbn; lia).
  assert (Honly : forall y, y < fr -> dd G y = None -> lv G p <= lv G y -> y = p).
  { intros y Hy Dy Ly. specialize (Htop y Hy Dy).
    destruct (Nat.eq_dec y p) as [|E]; auto. exfalso.
    pose proof (n_next _ _ _ _ Hn) as Hnn. rewrite Np in Hnn.
    destruct (h_disj _ _ _ _ _ H y p Hy Hpf Dy Dp ltac:(lia) E) as [Q|Q].
    - rewrite Op in Q. apply Q. eapply ele_elt_trans; [apply ele_neg|eapply elt_hi_lo; eauto].
    - unfold hi, hia in Q. rewrite Hnn in Q. apply Q.
      eapply elt_ele_trans; [eapply elt_hi_lo; eauto|apply ele_pos]. }
  constructor.
  - intros x Hx. destruct (Nat.eq_dec x p) as [->|E]; [rewrite upd_same; eauto|].
    rewrite upd_diff by auto. now apply (h_some _ _ _ _ _ H).
  - intros x y. destruct (Nat.eq_dec x p) as [->|E]; auto.
    rewrite upd_diff by auto. apply (h_none _ _ _ _ _ H).
  - intros x y. destruct (Nat.eq_dec x p) as [->|E].
    { rewrite upd_same. intros [= <-] ?. congruence. }
    rewrite upd_diff by auto. intros Hx Hrx.
    assert (Hxf : x < fr) by (eapply h_none; eauto).
    pose proof (h_node _ _ _ _ _ H x y Hx Hrx) as Hnx.
    apply (node_ok_ext _ _ _ _ _ _ _ _ _ H Hg); auto.
    intros c Hc Dc Dc'. destruct (Nat.eq_dec c p) as [->|Ec]; [|rewrite Kx in Dc' by auto; congruence].
    rewrite Kx by auto. intros Dx. destruct Hc as [[Hz Hc]|Hc].
    + apply in_map_iff in Hc as ((e & c') & E' & Hc). cbn in E'. subst c'.
      destruct (n_kids _ _ _ _ Hnx Hz _ _ Hc) as (_ & C2 & _).
      specialize (Htop x Hxf Dx). lia.
    + pose proof (n_next _ _ _ _ Hnx) as Hnn. rewrite Hc in Hnn.
      destruct Hnn as (k & _ & K & _). congruence.
  - intros x y. destruct (Nat.eq_dec x p) as [->|E].
    { rewrite upd_same. intros [= <-] _. rewrite K1, K2. repeat split; auto; [congruence|].
      cbn [lv killg]. destruct (Nat.eqb_spec (lv G p) 0); [tauto|auto]. }
    rewrite upd_diff by auto. intros Hx Hrx.
    destruct (killg_diff G p (length tr) None x E) as (Q1 & Q2). rewrite Q1, Q2.
    apply (h_dead _ _ _ _ _ H x y Hx Hrx).
  - intros x Hx. rewrite Hlen. cbn. pose proof (h_bt _ _ _ _ _ H x Hx). lia.
  - intros x T Hx HT. rewrite Hlen. cbn [bt killg].
    destruct (Nat.eq_dec x p) as [->|E].
    + rewrite K1 in HT. inversion HT; subst. pose proof (h_bt _ _ _ _ _ H p Hx). lia.
    + rewrite Kx in HT by auto. pose proof (h_btd _ _ _ _ _ H x T Hx HT). lia.
  - intros x T Hx HT. cbn [lo lv bt killg]. destruct (Nat.eq_dec x p) as [->|E].
    + rewrite K1 in HT. inversion HT; subst. rewrite K2. repeat split; auto.
      intros y Hy _ Ly. destruct (final_total _ _ _ _ _ _ H Hy) as (f & F1 & F2 & F3 & _).
      pose proof (final_rmroot G p (length tr) y f Dp F1) as F1'.
      apply (gone_final _ _ _ F1'). destruct (Nat.eq_dec f p) as [->|Ef]; [congruence|].
      rewrite Kx by auto. intros Df. apply Ef. apply Honly; auto. lia.
    + rewrite Kx in HT by auto. pose proof (h_tg _ _ _ _ _ H x T Hx HT) as Ht.
      rewrite (proj2 (killg_diff G p (length tr) None x E)).
      destruct (tg G x) as [z|].
      * destruct Ht as (T1 & T2 & T3 & T4). repeat split; auto.
        destruct (Nat.eq_dec z p) as [->|Ez]; [|now rewrite Kx].
        rewrite K1. cbn. pose proof (h_btd _ _ _ _ _ H x T Hx HT). lia.
      * destruct Ht as (T1 & T2 & T3). repeat split; auto.
        intros y Hy Hb Ly. eapply gone_mono; eauto.
  - exact (h_key _ _ _ _ _ H).
  - intros x y Hx Hy Dx Dy.
    assert (x <> p) by congruence. assert (y <> p) by congruence.
    rewrite Kx in Dx, Dy by auto. apply (h_disj _ _ _ _ _ H); auto.
  - intros x Hx Dx Lx k Hk. rewrite effs_snoc. cbn [eff].
    assert (x <> p) by congruence. rewrite Kx in Dx by auto.
    apply (h_cont _ _ _ _ _ H x Hx Dx Lx k Hk).
  - intros x y T Hx Hrx HT Lx k Hk.
    destruct (Nat.eq_dec x p) as [->|E].
    { rewrite upd_same in Hx. inversion Hx; subst. congruence. }
    rewrite upd_diff in Hx by auto. rewrite Kx in HT by auto.
    assert (Hxf : x < fr) by (eapply h_none; eauto).
    destruct (h_btd _ _ _ _ _ H x T Hxf HT). rewrite mapat_snoc by lia.
    apply (h_stale _ _ _ _ _ H x y T Hx Hrx HT Lx k Hk).
  - intros x y T z Hx Hrx HT Hz Dz.
    destruct (Nat.eq_dec x p) as [->|E].
    { rewrite upd_same in Hx. inversion Hx; subst. congruence. }
    rewrite upd_diff in Hx by auto. rewrite Kx in HT by auto.
    assert (z <> p) by congruence. rewrite Kx in Dz by auto.
    apply (h_sdisj _ _ _ _ _ H x y T z Hx Hrx HT Hz Dz).
Qed.

(** The page of a dead node gets its removed flag. *)
Lemma heap_flag h fr G tr r d m : heap_ok h fr G tr -> h r = Some d -> dd G r <> None ->
  nd_removed m = true -> nd_next m = tg G r -> tg G r <> None ->
  nd_inner m = negb (lv G r =? 0) ->
  heap_ok (upd h r (Some m)) fr G (tr ++ [LTau]).
Proof.
  intros H Hr Dr R1 R2 R3 R4. apply heap_tick; [|now rewrite effs_snoc].
  assert (Hrf : r < fr) by (eapply h_none; eauto).
  destruct H as [h1 h2 h3 h4 h5 h6 h7 h8 h9 h10 h11 h12]. constructor; auto.
  - intros x Hx. destruct (Nat.eq_dec x r) as [->|E]; [rewrite upd_same; eauto|].
    rewrite upd_diff by auto. auto.
  - intros x y. destruct (Nat.eq_dec x r) as [->|E]; auto. rewrite upd_diff by auto. eauto.
  - intros x y. destruct (Nat.eq_dec x r) as [->|E].
    + rewrite upd_same. intros [= <-] ?. congruence.
    + rewrite upd_diff by auto. auto.
  - intros x y. destruct (Nat.eq_dec x r) as [->|E].
    + rewrite upd_same. intros [= <-] ?. repeat split; auto.
    + rewrite upd_diff by auto. auto.
  - intros x y T Hx Hry HT. destruct (Nat.eq_dec x r) as [->|E].
    + rewrite upd_same in Hx. inversion Hx; subst. congruence.
    + rewrite upd_diff in Hx by auto. eauto.
  - intros x y T z Hx Hry HT. destruct (Nat.eq_dec x r) as [->|E].
    + rewrite upd_same in Hx. inversion Hx; subst. congruence.
    + rewrite upd_diff in Hx by auto. eauto.
Qed.

(** ** Merges *)

Definition mergeg (G : gh) (n l r : addr) (A : anode) : gh := seta (killg G r n (Some l)) l A.

Lemma heap_merge h fr G tr l r dl dr l' s :
  heap_ok h fr G tr -> h l = Some dl -> h r = Some dr -> dd G l = None -> dd G r = None ->
  a_next (av G l) = Some r ->
  (forall p, p < fr -> dd G p = None -> lv G p <> 0 ->
     forall e c, In (e, c) (entries_of G p) -> c <> r) ->
  let A := ANode (a_inner (av G l)) (a_removed (av G l)) (a_next (av G r)) (a_low (av G l))
             (a_high (av G r)) s in
  rep l' A -> merge_spec (av G l) (av G r) s ->
  let G' := mergeg G (length tr) l r A in
  heap_ok (upd h l (Some l')) fr G' (tr ++ [LTau]) /\
  gle fr (length tr) G G' /\ l <> r /\
  (forall x, lv G l <> 0 -> In x (entries_of G' l) -> In x (entries_of G l) \/ In x (entries_of G r)).
Proof.
  intros H Hl Hr Dl Dr Nl Hno A Hrep Hms G'.
  assert (Hlf : l < fr) by (eapply h_none; eauto).
  assert (Hrf : r < fr) by (eapply h_none; eauto).
  assert (Rl : nd_removed dl = false) by (eapply live_not_removed; eauto).
  assert (Rr : nd_removed dr = false) by (eapply live_not_removed; eauto).
  pose proof (h_node _ _ _ _ _ H l dl Hl Rl) as Hnl.
  pose proof (h_node _ _ _ _ _ H r dr Hr Rr) as Hnr.
  pose proof (n_next _ _ _ _ Hnl) as Hx. rewrite Nl in Hx.
  destruct Hx as (h0 & X1 & X2 & _ & X4 & _ & _ & _).
  assert (Hh : hi G l = lo G r) by (unfold hi, hia; rewrite X1; auto).
  assert (Hlr : elt (lo G l) (lo G r)) by (rewrite <- Hh; eapply elt_hi_lo; eauto).
  assert (Hne : l <> r). { intros ->. now apply elt_irrefl in Hlr. }
  assert (Hg0 : gle fr (length tr) G (killg G r (length tr) (Some l))) by (eapply gle_merge; eauto).
  assert (Hg : gle fr (length tr) G G') by (now apply gle_seta_r).
  assert (Kr : dd G' r = Some (length tr) /\ tg G' r = Some l) by (apply killg_same).
  destruct Kr as (K1 & K2).
  assert (Kx : forall x, x <> r -> dd G' x = dd G x /\ tg G' x = tg G x)
    by (intros; now apply killg_diff).
  assert (Va : av G' l = A) by apply av_seta_same.
  assert (Vx : forall x, x <> l -> av G' x = av G x)
    by (intros x E; unfold G', mergeg; now rewrite av_seta_diff).
  assert (GL : forall x, lv G' x = lv G x) by reflexivity.
  assert (GO : forall x, lo G' x = lo G x) by reflexivity.
  assert (GB : forall x, bt G' x = bt G x) by reflexivity.
  clearbody G'.
  assert (Hlen : length (tr ++ [@LTau P]) = S (length tr)) by (rewrite app_length; cbn; lia).
  assert (Hhl : hi G' l = hi G r) by (unfold hi, hia; now rewrite Va).
  assert (Hhx : forall x, x <> l -> hi G' x = hi G x) by (intros x E; unfold hi; now rewrite Vx).
  assert (Hinn : a_inner (av G l) = a_inner (av G r)).
  { rewrite (n_inner _ _ _ _ Hnl), (n_inner _ _ _ _ Hnr). now rewrite X4. }
  assert (Hslots : lv G l <> 0 -> s = a_slots (av G l) ++ a_slots (av G r)).
  { intros E. destruct (node_inner _ _ _ _ Hnl E) as (I & _). unfold merge_spec in Hms.
    now rewrite I in Hms. }
  assert (Hentr : lv G l <> 0 -> entries_of G' l = entries_of G l ++ entries_of G r).
  { intros E. unfold entries_of. rewrite Va, GO. cbn [A a_slots]. rewrite Hslots by auto.
    destruct (node_inner _ _ _ _ Hnl E) as (_ & Ok1).
    destruct (n_head _ _ _ _ Hnr ltac:(lia) h0 X2) as (s0 & sl & Q1 & Q2).
    rewrite Q1. destruct (a_slots (av G l)) as [|x sl']; [destruct Ok1|].
    cbn. rewrite map_app. cbn. f_equal. f_equal. f_equal.
    unfold sent, skey. now rewrite Q2, X2. }
  assert (Hentin : forall x, lv G l <> 0 -> In x (entries_of G' l) -> In x (entries_of G l) \/ In x (entries_of G r)).
  { intros x E Hx. rewrite Hentr in Hx by auto. now apply in_app_or. }
  assert (Hlr' : lv G r = lv G l) by auto.
  assert (Hkr : forall k, lv G r = 0 -> In k (keys_of (a_slots (av G r))) -> elt (lo G l) (Key k) /\ elt (Key k) (hi G r)).
  { intros k E Hk. destruct (n_leaf _ _ _ _ Hnr E k Hk). split; auto. eapply elt_ele_trans; eauto. }
  split; [|auto].
  assert (Nl' : node_ok fr G' l l').
  { constructor; rewrite ?Va, ?Hhl, ?GL, ?GO; cbn [A a_inner a_removed a_next a_low a_high a_slots]; auto.
    - apply (n_rem _ _ _ _ Hnl).
    - apply (n_inner _ _ _ _ Hnl).
    - unfold merge_spec in Hms. destruct (a_inner (av G l)) eqn:I; [|cbn; tauto].
      subst s. assert (E : lv G l <> 0).
      { intros E. destruct (node_leaf _ _ _ _ Hnl E). congruence. }
      destruct (node_inner _ _ _ _ Hnl E) as (_ & Ok1).
      destruct (node_inner _ _ _ _ Hnr ltac:(lia)) as (_ & Ok2).
      destruct (n_head _ _ _ _ Hnr ltac:(lia) h0 X2) as (s0 & sl & Q1 & Q2).
      pose proof (n_seps _ _ _ _ Hnl E) as Sl. pose proof (n_seps _ _ _ _ Hnr ltac:(lia)) as Sr.
      cbn [body_ok]. rewrite Q1 in *. destruct (a_slots (av G l)) as [|x sl']; [destruct Ok1|].
      cbn [tl app inner_ok] in *. destruct Ok1 as (B1 & B2 & B3). destruct Ok2 as (B4 & B5 & B6).
      split; [exact B1|]. split.
      + apply Forall_app. split; auto. constructor; auto. destruct B4 as (B4 & c & B7).
        split; auto. exists h0, c. auto.
      + rewrite keys_of_app. cbn. unfold key1 at 1. rewrite Q2. cbn.
        apply SS_app. split; [auto|]. split.
        * constructor; auto. apply Forall_forall. intros k Hk.
          destruct (Sr k Hk) as (Sr' & _). rewrite X2 in Sr'. exact Sr'.
        * intros a b Ha Hb. destruct (Sl a Ha) as (_ & Sl'). rewrite Hh, X2 in Sl'.
          destruct Hb as [<-|Hb]; [exact Sl'|]. destruct (Sr b Hb) as (Sr' & _).
          rewrite X2 in Sr'. eapply klt_trans; eauto.
    - apply (n_low _ _ _ _ Hnl).
    - eapply elt_trans; [exact Hlr|]. eapply elt_hi_lo; eauto.
    - intros E k Hk. destruct (node_leaf _ _ _ _ Hnl E) as (I & _). unfold merge_spec in Hms.
      rewrite I in Hms. destruct Hms as (_ & _ & Hi). apply Hi in Hk.
      apply in_app_or in Hk as [Hk|Hk].
      + destruct (n_leaf _ _ _ _ Hnl E k Hk) as (Q1 & Q2). split; auto. rewrite Hh in Q2.
        eapply elt_trans; [exact Q2|]. eapply elt_hi_lo; eauto.
      + destruct (Hkr k ltac:(lia) Hk). split; auto. now apply elt_ele.
    - intros E k Hk. destruct (n_head _ _ _ _ Hnl E k Hk) as (s0 & sl & Q1 & Q2).
      rewrite Hslots, Q1 by auto. cbn. eauto.
    - intros E k Hk. rewrite Hslots in Hk by auto.
      destruct (node_inner _ _ _ _ Hnl E) as (_ & Ok1).
      pose proof (n_seps _ _ _ _ Hnl E) as Sl. pose proof (n_seps _ _ _ _ Hnr ltac:(lia)) as Sr.
      destruct (n_head _ _ _ _ Hnr ltac:(lia) h0 X2) as (s0 & sl & Q1 & Q2).
      rewrite Q1 in *.
      destruct (a_slots (av G l)) as [|x sl']; [destruct Ok1|]. cbn [tl app] in *.
      rewrite keys_of_app in Hk. cbn in Hk. unfold key1 at 1 in Hk. rewrite Q2 in Hk.
      apply in_app_or in Hk as [Hk|[<-|Hk]].
      + destruct (Sl k Hk) as (S1 & S2). split; auto. rewrite Hh in S2.
        eapply elt_trans; [exact S2|]. eapply elt_hi_lo; eauto.
      + rewrite <- X2. split; auto. eapply elt_hi_lo; eauto.
      + destruct (Sr k Hk) as (S1 & S2). split; auto. eapply elt_trans; eauto.
    - intros E e c Hec. apply Hentin in Hec; auto. destruct Hec as [Hec|Hec].
      + destruct (n_kids _ _ _ _ Hnl E e c Hec) as (C1 & C2 & C3 & C4 & C5).
        assert (c <> r) by (intros ->; lia).
        rewrite (GL c), (GO c), (proj1 (Kx c ltac:(auto))), (proj1 (Kx l ltac:(auto))).
        repeat split; auto. apply (g_lowr _ _ _ _ Hg); auto.
      + destruct (n_kids _ _ _ _ Hnr ltac:(lia) e c Hec) as (C1 & C2 & C3 & C4 & C5).
        assert (c <> r) by (intros ->; lia).
        assert (Dc : dd G c = None). { rewrite Dr in C4. destruct (dd G c); [destruct C4|auto]. }
        rewrite (GL c), (GO c), (proj1 (Kx c ltac:(auto))), (proj1 (Kx l ltac:(auto))), Dc, Dl.
        repeat split; auto; try lia. apply lowr_live2.
        * now rewrite (proj1 (Kx l ltac:(auto))).
        * now rewrite (proj1 (Kx c ltac:(auto))).
        * rewrite !GO, C3. destruct (entry_range _ _ _ _ _ _ Hnr ltac:(lia) Hec) as (_ & Q & _).
          eapply ele_trans; [|exact Q]. now apply elt_ele.
    - pose proof (n_next _ _ _ _ Hnr) as Hx. destruct (a_next (av G r)) as [b|]; auto.
      destruct Hx as (k & Y1 & Y2 & Y3 & Y4 & Y5 & Y6 & Y7).
      assert (Hbr : elt (lo G r) (lo G b)).
      { rewrite Y2. pose proof (n_rng _ _ _ _ Hnr) as Q. unfold hi, hia in Q. now rewrite Y1 in Q. }
      assert (b <> r). { intros ->. now apply elt_irrefl in Hbr. }
      assert (Db : dd G b = None). { rewrite Dr in Y5. destruct (dd G b); [destruct Y5|auto]. }
      exists k. rewrite (GL b), (GO b), (proj1 (Kx b ltac:(auto))), (proj1 (Kx l ltac:(auto))), Db, Dl.
      repeat split; auto; try lia. apply lowr_live2.
      + now rewrite (proj1 (Kx l ltac:(auto))).
      + now rewrite (proj1 (Kx b ltac:(auto))).
      + rewrite !GO. apply elt_ele. eapply elt_trans; eauto. }
  constructor.
  - intros x Hx. destruct (Nat.eq_dec x l) as [->|E]; [rewrite upd_same; eauto|].
    rewrite upd_diff by auto. now apply (h_some _ _ _ _ _ H).
  - intros x y. destruct (Nat.eq_dec x l) as [->|E]; auto.
    rewrite upd_diff by auto. apply (h_none _ _ _ _ _ H).
  - intros x y. destruct (Nat.eq_dec x l) as [->|E]; [rewrite upd_same; intros [= <-]; auto|].
    rewrite upd_diff by auto. intros Hx Hrx.
    assert (Hxf : x < fr) by (eapply h_none; eauto).
    pose proof (h_node _ _ _ _ _ H x y Hx Hrx) as Hnx.
    apply (node_ok_ext _ _ _ _ _ _ _ _ _ H Hg); auto.
    intros c Hc Dc Dc'. destruct (Nat.eq_dec c r) as [->|Ec].
    2: { rewrite (proj1 (Kx c Ec)) in Dc'. congruence. }
    destruct (Nat.eq_dec x r) as [->|Exr]; [congruence|].
    rewrite (proj1 (Kx x Exr)). intros Dx. destruct Hc as [[Hz Hc]|Hc].
    + apply in_map_iff in Hc as ((e & c') & E' & Hc). cbn in E'. subst c'.
      exact (Hno x Hxf Dx Hz _ _ Hc eq_refl).
    + pose proof (n_next _ _ _ _ Hnx) as Hnn. rewrite Hc in Hnn.
      destruct Hnn as (k & Y1 & Y2 & _ & Y4 & _).
      assert (Hhx' : hi G x = lo G r) by (unfold hi, hia; now rewrite Y1).
      pose proof (elt_hi_lo _ _ _ _ _ _ H Hxf Dx) as Q1. pose proof (elt_hi_lo _ _ _ _ _ _ H Hlf Dl) as Q2.
      destruct (h_disj _ _ _ _ _ H x l Hxf Hlf Dx Dl ltac:(congruence) E) as [Q|Q]; apply Q;
        congruence.
  - intros x y. destruct (Nat.eq_dec x l) as [->|E].
    { rewrite upd_same. intros [= <-] Hq. exfalso. destruct (L_hdr _ _ Hrep) as (_ & Q & _).
      cbn in Q. pose proof (n_rem _ _ _ _ Hnl). congruence. }
    rewrite upd_diff by auto. intros Hx Hrx.
    assert (Exr : x <> r) by (intros ->; congruence).
    destruct (Kx x Exr) as (Q1 & Q2). rewrite Q1, Q2, ?GL.
    apply (h_dead _ _ _ _ _ H x y Hx Hrx).
  - intros x Hx. rewrite Hlen, GB. pose proof (h_bt _ _ _ _ _ H x Hx). lia.
  - intros x T Hx HT. rewrite Hlen, GB.
    destruct (Nat.eq_dec x r) as [->|E].
    + rewrite K1 in HT. inversion HT; subst. pose proof (h_bt _ _ _ _ _ H r Hx). lia.
    + rewrite (proj1 (Kx x E)) in HT. pose proof (h_btd _ _ _ _ _ H x T Hx HT). lia.
  - intros x T Hx HT. destruct (Nat.eq_dec x r) as [->|E].
    + rewrite K1 in HT. inversion HT; subst. rewrite K2, !GL, !GO. repeat split; auto.
      rewrite (proj1 (Kx l Hne)), Dl. exact I.
    + rewrite (proj1 (Kx x E)) in HT. pose proof (h_tg _ _ _ _ _ H x T Hx HT) as Ht.
      rewrite (proj2 (Kx x E)).
      destruct (tg G x) as [z|].
      * destruct Ht as (T1 & T2 & T3 & T4). rewrite !GL, !GO. repeat split; auto.
        destruct (Nat.eq_dec z r) as [->|Ez]; [|now rewrite (proj1 (Kx z Ez))].
        rewrite K1. cbn. pose proof (h_btd _ _ _ _ _ H x T Hx HT). lia.
      * destruct Ht as (T1 & T2 & T3). rewrite !GL, !GO. repeat split; auto.
        intros y Hy Hb Ly. rewrite GB in Hb. rewrite GL in Ly. eapply gone_mono; eauto.
  - intros x k. rewrite GO. apply (h_key _ _ _ _ _ H).
  - assert (Hgen : forall x, x < fr -> dd G x = None -> lv G x = lv G l -> x <> l -> x <> r ->
      ele (hi G x) (lo G l) \/ ele (hi G r) (lo G x)).
    { intros x Hx Dx Lx E1 E2.
      destruct (h_disj _ _ _ _ _ H x l Hx Hlf Dx Dl Lx E1) as [Q|Q]; auto.
      destruct (h_disj _ _ _ _ _ H x r Hx Hrf Dx Dr ltac:(congruence) E2) as [Q'|Q']; auto.
      exfalso. rewrite Hh in Q. pose proof (elt_hi_lo _ _ _ _ _ _ H Hx Dx) as Q2.
      apply (elt_irrefl (lo G x)). eapply elt_ele_trans; [exact Q2|]. eapply ele_trans; eauto. }
    intros x y Hx Hy Dx Dy Hxy Hxne. rewrite !GL in Hxy. rewrite !GO.
    assert (Exr : x <> r) by congruence. assert (Eyr : y <> r) by congruence.
    rewrite (proj1 (Kx x Exr)) in Dx. rewrite (proj1 (Kx y Eyr)) in Dy.
    destruct (Nat.eq_dec x l) as [->|Exl]; destruct (Nat.eq_dec y l) as [->|Eyl]; [lia| | |].
    + rewrite Hhl, Hhx by auto. destruct (Hgen y Hy Dy ltac:(lia) Eyl Eyr); auto.
    + rewrite Hhl, Hhx by auto. destruct (Hgen x Hx Dx ltac:(lia) Exl Exr); auto.
    + rewrite !Hhx by auto. apply (h_disj _ _ _ _ _ H); auto.
  - intros x Hx Dx Lx k (Hk1 & Hk2). rewrite effs_snoc. cbn [eff].
    assert (Exr : x <> r) by congruence. rewrite (proj1 (Kx x Exr)) in Dx.
    rewrite GL in Lx. rewrite GO in Hk1.
    destruct (Nat.eq_dec x l) as [->|Exl].
    + rewrite Va. cbn [A a_slots]. destruct (node_leaf _ _ _ _ Hnl Lx) as (I & _).
      unfold merge_spec in Hms. rewrite I in Hms. destruct Hms as (_ & E & _). rewrite E.
      rewrite Hhl in Hk2. destruct (elt_dec (Key k) (lo G r)) as [Q|Q].
      * rewrite assoc_app_r.
        -- apply (h_cont _ _ _ _ _ H l Hlf Dl Lx). split; auto. now rewrite Hh.
        -- intros k' Hk' ->. apply in_map_iff in Hk' as ((k'' & v) & Eq & Hk'). cbn in Eq. subst.
           apply live_key_in in Hk'. destruct (n_leaf _ _ _ _ Hnr ltac:(lia) k Hk') as (Q1 & _).
           now apply Q1.
      * rewrite assoc_app_l.
        -- apply (h_cont _ _ _ _ _ H r Hrf Dr ltac:(lia)). split; auto.
        -- intros k' Hk' ->. apply in_map_iff in Hk' as ((k'' & v) & Eq & Hk'). cbn in Eq. subst.
           apply live_key_in in Hk'. destruct (n_leaf _ _ _ _ Hnl ltac:(lia) k Hk') as (_ & Q1).
           rewrite Hh in Q1. now apply Q.
    + rewrite Vx by auto. rewrite Hhx in Hk2 by auto. apply (h_cont _ _ _ _ _ H x Hx Dx Lx). split; auto.
  - intros x y T Hx Hrx HT Lx k (Hk1 & Hk2).
    assert (Exl : x <> l). { intros ->. rewrite (proj1 (Kx l Hne)) in HT. congruence. }
    rewrite upd_diff in Hx by auto. rewrite GL in Lx. rewrite GO in Hk1. rewrite Hhx in Hk2 by auto.
    assert (Hxf : x < fr) by (eapply h_none; eauto). rewrite Vx by auto.
    destruct (Nat.eq_dec x r) as [->|E].
    + rewrite K1 in HT. inversion HT; subst. rewrite mapat_snoc by lia. unfold mapat.
      rewrite firstn_all. apply (h_cont _ _ _ _ _ H r Hrf Dr Lx). split; auto.
    + rewrite (proj1 (Kx x E)) in HT. destruct (h_btd _ _ _ _ _ H x T Hxf HT).
      rewrite mapat_snoc by lia. apply (h_stale _ _ _ _ _ H x y T Hx Hrx HT Lx). split; auto.
  - intros x y T z Hx Hrx HT Hz Dz Lz Bz. rewrite !GO. rewrite !GL in Lz. rewrite GB in Bz.
    assert (Exl : x <> l). { intros ->. rewrite (proj1 (Kx l Hne)) in HT. congruence. }
    assert (Ezr : z <> r) by congruence. rewrite (proj1 (Kx z Ezr)) in Dz.
    rewrite upd_diff in Hx by auto. rewrite Hhx by auto.
    destruct (Nat.eq_dec x r) as [->|E].
    + intros (Q1 & Q2). apply Ezr.
      apply (same_point _ _ _ _ _ z r (lo G z) H); auto using ele_refl. eapply elt_hi_lo; eauto.
    + rewrite (proj1 (Kx x E)) in HT. apply (h_sdisj _ _ _ _ _ H x y T z Hx Hrx HT Hz Dz Lz Bz).
Qed.

End ConcSmo.
