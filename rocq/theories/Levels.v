(** The tree invariant, stated on levels.

    A level is the list of the nodes at one height, from left to right.  A tree is the
    leaf level and a list of inner levels, each of which refers to the level below it.
    This file is proof-side only: no definition here models code. *)
From Coq Require Import List Arith Bool Lia Sorted.
From Verif Require Import Params Mem Common Spec NodeAbs.
Import ListNotations.

(** ** Keys extended with both infinities *)
Inductive ext {P : Params} := NegInf | Key (k : K) | PosInf.

Section Levels.
Context {P : Params} {O : OrdLaws P}.

Definition elt (x y : ext) : Prop :=
  match x, y with
  | NegInf, NegInf => False
  | NegInf, _ => True
  | Key a, Key b => klt a b
  | Key _, PosInf => True
  | _, _ => False
  end.
Definition ele (x y : ext) : Prop := ~ elt y x.

Lemma elt_irrefl x : ~ elt x x.
Proof. destruct x; cbn; auto. apply klt_irrefl. Qed.

Lemma elt_trans x y z : elt x y -> elt y z -> elt x z.
Proof. destruct x, y, z; cbn; try tauto. apply klt_trans. Qed.

Lemma elt_cases x y : elt x y \/ x = y \/ elt y x.
Proof.
  destruct x as [|a|], y as [|b|]; cbn; auto.
  destruct (klt_cases a b) as [|[->|]]; auto.
Qed.

Lemma elt_dec x y : {elt x y} + {ele y x}.
Proof.
  unfold ele. destruct x as [|a|], y as [|b|]; cbn; auto.
  unfold klt. destruct (ltb a b); auto.
Qed.

Lemma ele_cases x y : ele x y -> elt x y \/ x = y.
Proof. unfold ele. destruct (elt_cases x y) as [|[|]]; tauto. Qed.

Lemma ele_refl x : ele x x.
Proof. apply elt_irrefl. Qed.

Lemma elt_ele x y : elt x y -> ele x y.
Proof. intros H1 H2. exact (elt_irrefl _ (elt_trans _ _ _ H1 H2)). Qed.

Lemma ele_elt_trans x y z : ele x y -> elt y z -> elt x z.
Proof. intros H1 H2. destruct (ele_cases _ _ H1) as [H| ->]; auto. eapply elt_trans; eauto. Qed.

Lemma elt_ele_trans x y z : elt x y -> ele y z -> elt x z.
Proof. intros H1 H2. destruct (ele_cases _ _ H2) as [H| <-]; auto. eapply elt_trans; eauto. Qed.

Lemma ele_trans x y z : ele x y -> ele y z -> ele x z.
Proof.
  intros H1 H2. destruct (ele_cases _ _ H1) as [H| ->]; auto.
  apply elt_ele. eapply elt_ele_trans; eauto.
Qed.

Lemma elt_not_eq x y : elt x y -> x <> y.
Proof. intros H ->. exact (elt_irrefl _ H). Qed.

Lemma kle_ele a b : kle a b <-> ele (Key a) (Key b).
Proof. unfold ele. cbn. apply kle_not_lt. Qed.

Lemma not_elt_pos x : ~ elt PosInf x.
Proof. destruct x; cbn; auto. Qed.
Lemma not_elt_neg x : ~ elt x NegInf.
Proof. destruct x; cbn; auto. Qed.
Lemma ele_neg x : ele NegInf x.
Proof. apply not_elt_neg. Qed.
Lemma ele_pos x : ele x PosInf.
Proof. apply not_elt_pos. Qed.

(** ** Levels *)
Definition lvl := list (addr * anode).

Definition hi_ext (n : anode) : ext :=
  match a_high n with Some k => Key k | None => PosInf end.

Definition kid (s : slot) : addr := match s_pay s with PP a => a | PV _ => 0 end.
Definition key_ext (s : slot) : ext := match s_key s with Some k => Key k | None => NegInf end.

(** Routing entries of an inner node whose range starts at [lo]. *)
Definition kent (s : slot) : ext * addr := (key_ext s, kid s).
Definition sents (lo : ext) (sl : list slot) : list (ext * addr) :=
  match sl with
  | [] => []
  | s :: tl => (lo, kid s) :: map kent tl
  end.

(** The keys that must lie in a node's range. *)
Definition rkeys (inner : bool) (sl : list slot) : list K :=
  if inner then keys_of (tl sl) else keys_of sl.

(** A node at its place: [sl] says that lowest keys are tracked and that inner nodes are
    linked to their siblings (the single-layer variants). *)
Record node_wf (sl inner : bool) (lo : ext) (n : anode) : Prop := {
  nw_inner : a_inner n = inner;
  nw_alive : a_removed n = false;
  nw_body : body_ok inner (a_slots n);
  nw_range : elt lo (hi_ext n);
  nw_lo : forall k, In k (rkeys inner (a_slots n)) ->
          if inner then elt lo (Key k) else ele lo (Key k);
  nw_hi : forall k, In k (rkeys inner (a_slots n)) -> elt (Key k) (hi_ext n);
  nw_first : inner = true -> forall x, lo = Key x -> kat (a_slots n) 0 = Some x;
  nw_low : sl = true -> forall x, lo = Key x -> a_low n = Some x;
}.

Definition first_addr (L : lvl) (nx : option addr) : option addr :=
  match L with [] => nx | (b, _) :: _ => Some b end.

(** A run of nodes covering [lo, hi), whose last node points to [nx]. *)
Fixpoint seg (sl inner : bool) (lo : ext) (L : lvl) (hi : ext) (nx : option addr) : Prop :=
  match L with
  | [] => lo = hi
  | (a, n) :: L' =>
      node_wf sl inner lo n /\
      (sl = true \/ inner = false -> a_next n = first_addr L' nx) /\
      seg sl inner (hi_ext n) L' hi nx
  end.

Definition level (sl inner : bool) (L : lvl) : Prop := seg sl inner NegInf L PosInf None.

Fixpoint lasthi (lo : ext) (L : lvl) : ext :=
  match L with [] => lo | (_, n) :: L' => lasthi (hi_ext n) L' end.

(** What the parent level must say about a level, and what an inner level says. *)
Fixpoint entries (lo : ext) (L : lvl) : list (ext * addr) :=
  match L with [] => [] | (a, n) :: L' => (lo, a) :: entries (hi_ext n) L' end.
Fixpoint kents (lo : ext) (L : lvl) : list (ext * addr) :=
  match L with [] => [] | (a, n) :: L' => sents lo (a_slots n) ++ kents (hi_ext n) L' end.

(** The records of a leaf level. *)
Definition recs (L : lvl) : list (K * V) := flat_map (fun p => live (a_slots (snd p))) L.

Lemma recs_app L1 L2 : recs (L1 ++ L2) = recs L1 ++ recs L2.
Proof. apply flat_map_app. Qed.

Lemma seg_app sl inner lo L1 L2 hi nx :
  seg sl inner lo (L1 ++ L2) hi nx <->
  seg sl inner lo L1 (lasthi lo L1) (first_addr L2 nx) /\ seg sl inner (lasthi lo L1) L2 hi nx.
Proof.
  revert lo. induction L1 as [|[a n] L1 IH]; intros lo; cbn [app seg lasthi].
  - tauto.
  - rewrite IH. replace (first_addr (L1 ++ L2) nx) with (first_addr L1 (first_addr L2 nx)).
    + tauto.
    + destruct L1 as [|[b m] L1]; reflexivity.
Qed.

Lemma seg_lasthi sl inner lo L hi nx : seg sl inner lo L hi nx -> lasthi lo L = hi.
Proof.
  revert lo. induction L as [|[a n] L IH]; intros lo; cbn; auto. intros (_ & _ & H). auto.
Qed.

Lemma lasthi_app lo L1 L2 : lasthi lo (L1 ++ L2) = lasthi (lasthi lo L1) L2.
Proof. revert lo. induction L1 as [|[a n] L1 IH]; intros lo; cbn; auto. Qed.

Lemma entries_app lo L1 L2 : entries lo (L1 ++ L2) = entries lo L1 ++ entries (lasthi lo L1) L2.
Proof. revert lo. induction L1 as [|[a n] L1 IH]; intros lo; cbn; auto. now rewrite IH. Qed.

Lemma kents_app lo L1 L2 : kents lo (L1 ++ L2) = kents lo L1 ++ kents (lasthi lo L1) L2.
Proof.
  revert lo. induction L1 as [|[a n] L1 IH]; intros lo; cbn; auto.
  now rewrite IH, app_assoc.
Qed.

Lemma entries_addrs lo L : map snd (entries lo L) = map fst L.
Proof. revert lo. induction L as [|[a n] L IH]; intros lo; cbn; auto. now rewrite IH. Qed.

(** *** Order facts *)
Lemma seg_ele sl inner lo L hi nx : seg sl inner lo L hi nx -> ele lo hi.
Proof.
  revert lo. induction L as [|[a n] L IH]; intros lo; cbn.
  - intros ->. apply ele_refl.
  - intros (H1 & _ & H2). apply elt_ele. eapply elt_ele_trans; [apply (nw_range _ _ _ _ H1)|auto].
Qed.

Lemma seg_elt sl inner lo L hi nx : seg sl inner lo L hi nx -> L <> [] -> elt lo hi.
Proof.
  destruct L as [|[a n] L]; [congruence|]. intros (H1 & _ & H2) _.
  eapply elt_ele_trans; [apply (nw_range _ _ _ _ H1)|]. eapply seg_ele; eauto.
Qed.

Definition eok (E : list (ext * addr)) : Prop := StronglySorted elt (map fst E).

Lemma seg_entries sl inner lo L hi nx : seg sl inner lo L hi nx ->
  eok (entries lo L) /\ (forall e, In e (entries lo L) -> ele lo (fst e) /\ elt (fst e) hi).
Proof.
  unfold eok. revert lo. induction L as [|[a n] L IH]; intros lo H; cbn.
  - split; [constructor | tauto].
  - assert (Hlt : elt lo hi) by (eapply seg_elt; eauto; discriminate).
    destruct H as (H1 & _ & H2). destruct (IH _ H2) as [H3 H4].
    pose proof (nw_range _ _ _ _ H1) as Hr. split.
    + constructor; auto. apply Forall_forall. intros x Hx.
      apply in_map_iff in Hx as (e & <- & He).
      eapply elt_ele_trans; [exact Hr|]. apply H4; auto.
    + intros e [<-|He]; cbn; [split; auto; apply ele_refl|].
      destruct (H4 e He). split; auto. apply elt_ele. eapply elt_ele_trans; eauto.
Qed.

Lemma inner_keys sl lo n s : node_wf sl true lo n -> In s (tl (a_slots n)) ->
  exists k, s_key s = Some k /\ key_ext s = Key k /\ elt lo (Key k) /\ elt (Key k) (hi_ext n).
Proof.
  intros H Hs. pose proof (nw_body _ _ _ _ H) as Hb. cbn in Hb.
  destruct (a_slots n) as [|s0 tl0] eqn:E; [destruct Hb|]. cbn [tl] in Hs.
  destruct Hb as (_ & Hb & _). rewrite Forall_forall in Hb.
  destruct (Hb s Hs) as (_ & k & a & Hk & _). exists k. unfold key_ext. rewrite Hk.
  assert (Hin : In k (rkeys true (a_slots n))).
  { unfold rkeys. rewrite E. cbn [tl]. apply in_keys_of. eauto. }
  repeat split; auto.
  - exact (nw_lo _ _ _ _ H k Hin).
  - exact (nw_hi _ _ _ _ H k Hin).
Qed.

Lemma kents_map_sorted tl0 : Forall inner_slotk tl0 -> StronglySorted klt (keys_of tl0) ->
  StronglySorted elt (map fst (map kent tl0)).
Proof.
  induction tl0 as [|s tl0 IH]; cbn; intros H1 H2; [constructor|].
  inversion H1 as [|? ? (_ & k & a & Hk & Ha) H3]; subst.
  unfold key1 in H2. rewrite Hk in H2. cbn in H2. apply StronglySorted_inv in H2 as [H2 H4].
  constructor; auto. apply Forall_forall. intros x Hx.
  apply in_map_iff in Hx as (e & <- & He). apply in_map_iff in He as (s' & <- & Hs').
  rewrite Forall_forall in H3. destruct (H3 s' Hs') as (_ & k' & a' & Hk' & _).
  cbn. unfold key_ext. rewrite Hk, Hk'. cbn.
  rewrite Forall_forall in H4. apply H4. apply in_keys_of. eauto.
Qed.

Lemma node_sents sl lo n : node_wf sl true lo n ->
  eok (sents lo (a_slots n)) /\
  (forall e, In e (sents lo (a_slots n)) -> ele lo (fst e) /\ elt (fst e) (hi_ext n)).
Proof.
  intros H. pose proof (inner_keys sl lo n) as HK.
  pose proof (nw_body _ _ _ _ H) as Hb. pose proof (nw_range _ _ _ _ H) as Hr. cbn in Hb.
  destruct (a_slots n) as [|s0 tl0] eqn:E; [destruct Hb|]. cbn [tl] in HK.
  destruct Hb as (_ & Hb1 & Hb2). unfold eok. cbn. split.
  - constructor; [now apply kents_map_sorted|]. apply Forall_forall. intros x Hx.
    apply in_map_iff in Hx as (e & <- & He). apply in_map_iff in He as (s' & <- & Hs').
    destruct (HK s' H Hs') as (k & Hk & Hk' & H1 & H2). cbn. now rewrite Hk'.
  - intros e [<-|He]; cbn; [split; auto; apply ele_refl|].
    apply in_map_iff in He as (s' & <- & Hs').
    destruct (HK s' H Hs') as (k & Hk & Hk' & H1 & H2). cbn. rewrite Hk'.
    split; auto. now apply elt_ele.
Qed.

Lemma seg_kents sl lo L hi nx : seg sl true lo L hi nx ->
  eok (kents lo L) /\ (forall e, In e (kents lo L) -> ele lo (fst e) /\ elt (fst e) hi).
Proof.
  unfold eok. revert lo. induction L as [|[a n] L IH]; intros lo H; cbn.
  - split; [constructor | tauto].
  - destruct H as (H1 & _ & H2). destruct (IH _ H2) as [H3 H4].
    destruct (node_sents _ _ _ H1) as [H5 H6].
    pose proof (nw_range _ _ _ _ H1) as Hr. pose proof (seg_ele _ _ _ _ _ _ H2) as Hle.
    rewrite map_app. split.
    + apply SS_app. split; [exact H5|]. split; auto. intros x y Hx Hy.
      apply in_map_iff in Hx as (e & <- & He). apply in_map_iff in Hy as (e' & <- & He').
      eapply elt_ele_trans; [apply H6; auto | apply H4; auto].
    + intros e He. apply in_app_or in He as [He|He].
      * destruct (H6 e He). split; auto. eapply elt_ele_trans; eauto.
      * destruct (H4 e He). split; auto. apply elt_ele. eapply elt_ele_trans; eauto.
Qed.

(** Looking a key up in a level. *)
Fixpoint fnd (lo : ext) (k : K) (L : lvl) : addr :=
  match L with
  | [] => 0
  | (a, n) :: L' => if elt_dec (Key k) (hi_ext n) then a else fnd (hi_ext n) k L'
  end.

Definition in_range (lo : ext) (k : K) (hi : ext) : Prop := ele lo (Key k) /\ elt (Key k) hi.

Lemma seg_find sl inner lo L hi nx k : seg sl inner lo L hi nx -> in_range lo k hi ->
  exists L1 a n L2, L = L1 ++ (a, n) :: L2 /\ fnd lo k L = a /\
    in_range (lasthi lo L1) k (hi_ext n).
Proof.
  revert lo. induction L as [|[a n] L IH]; intros lo H [Hlo Hhi]; cbn in H.
  - subst. exfalso. apply (Hlo Hhi).
  - destruct H as (H1 & _ & H2). cbn. destruct (elt_dec (Key k) (hi_ext n)) as [Hd|Hd].
    + exists [], a, n, L. repeat split; auto.
    + destruct (IH _ H2) as (L1 & b & m & L2 & -> & Hf & Hr); [split; auto|].
      exists ((a, n) :: L1), b, m, L2. auto.
Qed.

Lemma fnd_mid sl inner lo L1 a n L2 hi nx k :
  seg sl inner lo (L1 ++ (a, n) :: L2) hi nx -> in_range (lasthi lo L1) k (hi_ext n) ->
  fnd lo k (L1 ++ (a, n) :: L2) = a.
Proof.
  revert lo. induction L1 as [|[b m] L1 IH]; intros lo H [H1 H2]; cbn in *.
  - destruct (elt_dec (Key k) (hi_ext n)); [auto | exfalso; auto].
  - destruct H as (_ & _ & H). destruct (elt_dec (Key k) (hi_ext m)) as [Hd|Hd].
    + exfalso. apply seg_app in H as [H _]. apply seg_ele in H.
      apply (elt_irrefl (Key k)). eapply elt_ele_trans; [exact Hd|]. eapply ele_trans; eauto.
    + apply IH; auto. split; auto.
Qed.

(** Splits of a sorted entry list at a key are unique. *)
Lemma eok_split_unique E1 e E2 F1 f F2 (x : ext) :
  eok (E1 ++ e :: E2) -> E1 ++ e :: E2 = F1 ++ f :: F2 ->
  ele (fst e) x -> (forall y, In y E2 -> elt x (fst y)) ->
  ele (fst f) x -> (forall y, In y F2 -> elt x (fst y)) ->
  E1 = F1 /\ e = f /\ E2 = F2.
Proof.
  revert F1. induction E1 as [|a E1 IH]; intros [|b F1] Hok Heq H1 H2 H3 H4; cbn in *.
  - inv Heq. auto.
  - inv Heq. exfalso. apply H3. apply H2. apply in_or_app. right. now left.
  - inv Heq. exfalso. apply H1. apply H4. apply in_or_app. right. now left.
  - inv Heq. unfold eok in Hok. cbn in Hok. apply StronglySorted_inv in Hok as [Hok _].
    destruct (IH F1 Hok H5 H1 H2 H3 H4) as (-> & -> & ->). auto.
Qed.

(** Inserting a new entry behind the one it was split from. *)
Definition ins_at (E : list (ext * addr)) (sep : K) (r : addr) (E' : list (ext * addr)) : Prop :=
  exists E1 e E2, E = E1 ++ e :: E2 /\ E' = E1 ++ e :: (Key sep, r) :: E2 /\
    elt (fst e) (Key sep) /\ (forall y, In y E2 -> elt (Key sep) (fst y)).

Lemma ins_at_fun E sep r E' E'' : eok E -> ins_at E sep r E' -> ins_at E sep r E'' -> E' = E''.
Proof.
  intros Hok (E1 & e & E2 & -> & -> & H1 & H2) (F1 & f & F2 & H3 & -> & H4 & H5).
  destruct (eok_split_unique E1 e E2 F1 f F2 (Key sep)) as (-> & -> & ->); auto using elt_ele.
Qed.

Lemma ins_at_pre E sep r E' E0 : (forall y, In y E0 -> True) ->
  ins_at E sep r E' -> ins_at (E0 ++ E) sep r (E0 ++ E').
Proof.
  intros _ (E1 & e & E2 & -> & -> & H). exists (E0 ++ E1), e, E2.
  rewrite <- !app_assoc. auto.
Qed.

Lemma ins_at_post E sep r E' E0 : (forall y, In y E0 -> elt (Key sep) (fst y)) ->
  ins_at E sep r E' -> ins_at (E ++ E0) sep r (E' ++ E0).
Proof.
  intros H0 (E1 & e & E2 & -> & -> & H & H'). exists E1, e, (E2 ++ E0).
  rewrite <- !app_assoc. repeat split; auto.
  intros y Hy. apply in_app_or in Hy as [Hy|Hy]; auto.
Qed.

Lemma ins_at_ok E sep r E' : eok E -> ins_at E sep r E' -> eok E'.
Proof.
  unfold eok. intros H (E1 & e & E2 & -> & -> & H1 & H2).
  rewrite map_app in *. cbn [map fst] in *. apply SS_app in H as (A & B & C).
  apply StronglySorted_inv in B as [B1 B2]. apply SS_app. split; auto. split.
  - constructor; [constructor; auto|].
    + apply Forall_forall. intros x Hx. apply in_map_iff in Hx as (y & <- & Hy). auto.
    + constructor; auto.
  - intros x y Hx [<-|[<-|Hy]]; auto.
    + apply C; auto. now left.
    + eapply elt_trans; [|exact H1]. apply C; auto. now left.
    + apply C; auto. now right.
Qed.

(** An inserted child becomes an inserted entry. *)
Lemma sents_insert sl lo n l1 s l2 sep r :
  node_wf sl true lo n -> a_slots n = l1 ++ s :: l2 ->
  (l1 <> [] -> exists k, s_key s = Some k /\ klt k sep) ->
  (forall k, In k (keys_of l2) -> klt sep k) ->
  elt lo (Key sep) ->
  ins_at (sents lo (l1 ++ s :: l2)) sep r
         (sents lo (l1 ++ s :: Slot (Some sep) (PP r) false :: l2)).
Proof.
  intros Hwf Hsl H1 H2 Hlo.
  assert (HL2 : forall y, In y (map kent l2) -> elt (Key sep) (fst y)).
  { intros y Hy. apply in_map_iff in Hy as (t & <- & Ht).
    destruct (inner_keys _ _ _ t Hwf) as (k & Hk & Hk' & _ & _).
    - rewrite Hsl. destruct l1; cbn; auto. apply in_or_app. right. now right.
    - cbn. rewrite Hk'. cbn. apply H2. apply in_keys_of. eauto. }
  destruct l1 as [|s0 l1]; cbn [app sents].
  - exists [], (lo, kid s), (map kent l2). cbn. auto.
  - rewrite map_app. cbn [map]. rewrite map_app. cbn [map].
    exists ((lo, kid s0) :: map kent l1), (kent s), (map kent l2).
    repeat split; auto. cbn. unfold key_ext.
    destruct H1 as (k & Hk & Hlt); [discriminate|]. rewrite Hk. exact Hlt.
Qed.

(** Where a routing entry sits in an inner level. *)
Lemma sents_split lo sl0 E1 x l E2 : sents lo sl0 = E1 ++ (x, l) :: E2 ->
  exists s1 s s2, sl0 = s1 ++ s :: s2 /\ E1 = sents lo s1 /\ E2 = map kent s2 /\ kid s = l /\
    (s1 = [] -> x = lo) /\ (s1 <> [] -> x = key_ext s).
Proof.
  destruct sl0 as [|s0 tl0]; cbn; [destruct E1; discriminate|].
  destruct E1 as [|e E1]; cbn; intros H; inv H.
  - exists [], s0, tl0. repeat split; auto. congruence.
  - apply map_eq_app in H2 as (s1 & s2 & -> & <- & H2).
    destruct s2 as [|s s2]; [discriminate|]. cbn in H2. inv H2.
    exists (s0 :: s1), s, s2. repeat split; auto; congruence.
Qed.

Lemma kents_split lo L E1 x l E2 : kents lo L = E1 ++ (x, l) :: E2 ->
  exists L1 p n L2 s1 s s2, L = L1 ++ (p, n) :: L2 /\ a_slots n = s1 ++ s :: s2 /\
    E1 = kents lo L1 ++ sents (lasthi lo L1) s1 /\ E2 = map kent s2 ++ kents (hi_ext n) L2 /\
    kid s = l /\ (s1 = [] -> x = lasthi lo L1) /\ (s1 <> [] -> x = key_ext s).
Proof.
  revert lo E1. induction L as [|[p n] L IH]; intros lo E1 H; cbn in H.
  - destruct E1; discriminate.
  - assert (Hc : (exists F2, sents lo (a_slots n) = E1 ++ (x, l) :: F2 /\
                             E2 = F2 ++ kents (hi_ext n) L) \/
                 (exists F1, E1 = sents lo (a_slots n) ++ F1 /\
                             kents (hi_ext n) L = F1 ++ (x, l) :: E2)).
    { clear IH. revert H. generalize (sents lo (a_slots n)) as A. intros A. revert E1.
      induction A as [|a A IH]; intros E1 H; cbn in H.
      - right. exists E1. auto.
      - destruct E1 as [|e E1]; cbn in H; inv H.
        + left. exists A. auto.
        + destruct (IH E1 H2) as [(F2 & -> & ->)|(F1 & -> & H3)].
          * left. exists F2. auto.
          * right. exists F1. auto. }
    destruct Hc as [(F2 & H1 & ->)|(F1 & -> & H1)].
    + destruct (sents_split _ _ _ _ _ _ H1) as (s1 & s & s2 & A & B & C & D & E & F).
      exists [], p, n, L, s1, s, s2. cbn. subst. auto 10.
    + destruct (IH _ _ H1) as (L1 & q & m & L2 & s1 & s & s2 & -> & B & C & D & E & F & G).
      exists ((p, n) :: L1), q, m, L2, s1, s, s2. cbn. subst. rewrite <- app_assoc. auto 10.
Qed.

(** ** Towers: the inner levels above a level with entries [E] *)
Fixpoint tower (sl : bool) (E : list (ext * addr)) (U : list lvl) (root : addr) : Prop :=
  match U with
  | [] => E = [(NegInf, root)]
  | L :: U' => level sl true L /\ kents NegInf L = E /\ tower sl (entries NegInf L) U' root
  end.

(** The whole tree. *)
Definition tree (sl : bool) (leafs : lvl) (U : list lvl) (root : addr) : Prop :=
  level sl false leafs /\ tower sl (entries NegInf leafs) U root.

(** Where a key's record must be. *)
Lemma recs_keys sl lo L hi nx k : seg sl false lo L hi nx -> In k (map fst (recs L)) ->
  in_range lo k hi.
Proof.
  revert lo. induction L as [|[a n] L IH]; intros lo H Hk; cbn in *; [tauto|].
  destruct H as (H1 & _ & H2). rewrite map_app in Hk. apply in_app_or in Hk as [Hk|Hk].
  - apply live_keys_incl in Hk. split; [exact (nw_lo _ _ _ _ H1 _ Hk)|].
    eapply elt_ele_trans; [exact (nw_hi _ _ _ _ H1 _ Hk)|]. eapply seg_ele; eauto.
  - destruct (IH _ H2 Hk) as [H3 H4]. split; auto.
    eapply ele_trans; [|exact H3]. apply elt_ele, (nw_range _ _ _ _ H1).
Qed.

Lemma recs_sorted sl lo L hi nx : seg sl false lo L hi nx -> ksorted (recs L).
Proof.
  unfold ksorted. revert lo. induction L as [|[a n] L IH]; intros lo H; cbn; [constructor|].
  destruct H as (H1 & _ & H2). rewrite map_app. apply SS_app. split; [|split].
  - apply live_sorted. apply (nw_body _ _ _ _ H1).
  - eauto.
  - intros x y Hx Hy. destruct (recs_keys _ _ _ _ _ _ H2 Hy) as [H3 _].
    apply live_keys_incl in Hx. pose proof (nw_hi _ _ _ _ H1 _ Hx) as H4.
    exact (elt_ele_trans _ _ _ H4 H3).
Qed.

Lemma assoc_app k (l1 l2 : list (K * V)) :
  assoc k (l1 ++ l2) = match assoc k l1 with Some v => Some v | None => assoc k l2 end.
Proof.
  induction l1 as [|[k' v'] l1 IH]; cbn; auto. now destruct (keqb k k').
Qed.

Lemma recs_mid sl L1 a n L2 k : level sl false (L1 ++ (a, n) :: L2) ->
  in_range (lasthi NegInf L1) k (hi_ext n) ->
  assoc k (recs L1) = None /\ assoc k (recs L2) = None.
Proof.
  intros H [H1 H2]. apply seg_app in H as [HA HB]. destruct HB as (HB1 & _ & HB2).
  split; apply assoc_none; intros Hin.
  - destruct (recs_keys _ _ _ _ _ _ HA Hin) as [_ H3]. exact (H1 H3).
  - destruct (recs_keys _ _ _ _ _ _ HB2 Hin) as [H3 _]. exact (H3 H2).
Qed.

Lemma recs_assoc sl L1 a n L2 k : level sl false (L1 ++ (a, n) :: L2) ->
  in_range (lasthi NegInf L1) k (hi_ext n) ->
  assoc k (recs (L1 ++ (a, n) :: L2)) = assoc k (live (a_slots n)).
Proof.
  intros H Hr. destruct (recs_mid _ _ _ _ _ _ H Hr) as [HA HB].
  rewrite recs_app. change (recs ((a, n) :: L2)) with (live (a_slots n) ++ recs L2).
  rewrite assoc_app, HA, assoc_app, HB.
  now destruct (assoc k (live (a_slots n))).
Qed.

(** Replacing a node by one with the same frame. *)
Lemma seg_replace sl inner lo L1 a n n' L2 hi nx :
  seg sl inner lo (L1 ++ (a, n) :: L2) hi nx ->
  node_wf sl inner (lasthi lo L1) n' -> a_next n' = a_next n -> a_high n' = a_high n ->
  seg sl inner lo (L1 ++ (a, n') :: L2) hi nx.
Proof.
  intros H Hw H1 H2. apply seg_app in H as [HA HB]. apply seg_app. split.
  - exact HA.
  - cbn in *. destruct HB as (HB1 & HB2 & HB3). rewrite H1. unfold hi_ext in *. rewrite H2. auto.
Qed.

Lemma hi_ext_eq n n' : a_high n' = a_high n -> hi_ext n' = hi_ext n.
Proof. unfold hi_ext. now intros ->. Qed.

Lemma entries_replace lo L1 a n n' L2 : a_high n' = a_high n ->
  entries lo (L1 ++ (a, n') :: L2) = entries lo (L1 ++ (a, n) :: L2).
Proof. intros H. rewrite !entries_app. cbn. now rewrite (hi_ext_eq _ _ H). Qed.

(** Splitting a node. *)
Lemma seg_split sl inner lo L1 a n b n1 n2 L2 hi nx :
  seg sl inner lo (L1 ++ (a, n) :: L2) hi nx ->
  node_wf sl inner (lasthi lo L1) n1 -> node_wf sl inner (hi_ext n1) n2 ->
  (sl = true \/ inner = false -> a_next n1 = Some b) ->
  (sl = true \/ inner = false -> a_next n2 = a_next n) -> a_high n2 = a_high n ->
  seg sl inner lo (L1 ++ (a, n1) :: (b, n2) :: L2) hi nx.
Proof.
  intros H Hw1 Hw2 H1 H2 H3. apply seg_app in H as [HA HB]. apply seg_app. split.
  - exact HA.
  - cbn in *. destruct HB as (HB1 & HB2 & HB3). rewrite (hi_ext_eq _ _ H3).
    do 4 (split; [auto; intros Hc; rewrite H2, HB2; auto|]). auto.
Qed.

(** Merging two neighbours. *)
Lemma seg_merge sl inner lo L1 a n b m n' L2 hi nx :
  seg sl inner lo (L1 ++ (a, n) :: (b, m) :: L2) hi nx ->
  node_wf sl inner (lasthi lo L1) n' ->
  (sl = true \/ inner = false -> a_next n' = a_next m) -> a_high n' = a_high m ->
  seg sl inner lo (L1 ++ (a, n') :: L2) hi nx.
Proof.
  intros H Hw1 H1 H2. apply seg_app in H as [HA HB]. apply seg_app. split.
  - exact HA.
  - cbn in *. destruct HB as (HB1 & HB2 & HB3 & HB4 & HB5). rewrite (hi_ext_eq _ _ H2).
    do 2 (split; [auto; intros Hc; rewrite H1, HB4; auto|]). auto.
Qed.

Lemma level_ne sl inner L : level sl inner L -> L <> [].
Proof. intros H ->. discriminate H. Qed.

Lemma seg_wf sl inner lo L1 a n L2 hi nx : seg sl inner lo (L1 ++ (a, n) :: L2) hi nx ->
  node_wf sl inner (lasthi lo L1) n /\
  (sl = true \/ inner = false -> a_next n = first_addr L2 nx) /\
  seg sl inner (hi_ext n) L2 hi nx.
Proof. intros H. now apply seg_app in H as [_ H]. Qed.

(** Well-formedness of the two halves of a split. *)
Lemma node_wf_in sl inner lo n k : node_wf sl inner lo n -> In k (rkeys inner (a_slots n)) ->
  in_range lo k (hi_ext n).
Proof.
  intros H Hk. split; [|exact (nw_hi _ _ _ _ H _ Hk)].
  pose proof (nw_lo _ _ _ _ H _ Hk). destruct inner; auto. now apply elt_ele.
Qed.

End Levels.
