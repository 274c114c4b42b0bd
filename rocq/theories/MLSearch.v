(** Multi-layer trees: how one step of a descent finds its child, and what a split, a
    merge or a clean-up of that child does to the two levels involved. *)
From Coq Require Import List Arith Bool Lia Sorted.
From Verif Require Import Params Mem Common Spec NodeAbs SLIface MLIface TreeState Levels TreeHeap
  LevelOps SLModel SLSearch SLSplit SLMerge MLModel.
Import ListNotations.

(** Releasing a page. *)
Lemma hinv_release {P : Params} {W : Leak} {ND} (R : ND -> anode -> Prop) h f g F1 a n F2 :
  hinv R h f g (F1 ++ (a, n) :: F2) -> hinv R (upd h a None) f g (F1 ++ F2).
Proof.
  intros H. pose proof (hi_nodup _ _ _ _ _ H) as Hn. rewrite map_app in Hn. cbn in Hn.
  rewrite <- app_assoc in Hn. cbn in Hn. apply NoDup_mid in Hn as [Hn1 Hn2].
  split.
  - rewrite map_app, <- app_assoc. exact Hn2.
  - intros b. unfold upd. destruct (b =? a) eqn:E.
    + apply Nat.eqb_eq in E. subst. split; [congruence|]. intros Hin. exfalso. apply Hn1.
      now rewrite map_app, <- app_assoc in Hin.
    + apply Nat.eqb_neq in E. rewrite (hi_dom _ _ _ _ _ H). rewrite !map_app. cbn.
      rewrite !in_app_iff. cbn. assert (a <> b) by congruence. tauto.
  - intros b Hb. unfold upd in Hb. destruct (b =? a) eqn:E; [congruence|].
    now apply (hi_fresh _ _ _ _ _ H).
  - intros b m Hin. rewrite upd_diff by (eapply hinv_neq; eauto).
    apply (hi_rep _ _ _ _ _ H). apply in_app_or in Hin as [Hin|Hin]; apply in_or_app; cbn; auto.
Qed.

Section MLSearch.
Context {P : Params} {O : OrdLaws P} {N : MLOps P} {LW : MLLaws P N} {W : Leak}.
Notation hinv := (@hinv P W mn mrep).

Implicit Types (h : addr -> option mn) (l : list (addr * lmode)) (g : list addr).

Lemma mb_tlock {A} m (k : unit -> M mn A) h r f l g : may_lock l 0 m = true ->
  mbind (tlock m) k (St h r f l g) = k tt (St h r f ((0, m) :: l) g).
Proof. intros H. unfold mbind, tlock, tree_latch. cbn [hp rt fr lk gb]. now rewrite H. Qed.
Lemma mb_tunlock {A} m (k : unit -> M mn A) h r f l g : holds l 0 m = true ->
  mbind (tunlock m) k (St h r f l g) = k tt (St h r f (unhold l 0 m) g).
Proof. intros H. unfold mbind, tunlock, tree_latch. cbn [hp rt fr lk gb]. now rewrite H. Qed.
Lemma mb_tupgrade {A} (k : unit -> M mn A) h r f l g : holds l 0 LSIX = true ->
  holds l 0 LS = false ->
  mbind tupgrade k (St h r f l g) = k tt (St h r f ((0, LX) :: unhold l 0 LSIX) g).
Proof. intros H1 H2. unfold mbind, tupgrade, tree_latch. cbn [hp rt fr lk gb]. now rewrite H1, H2. Qed.
Lemma mb_tdowngrade {A} (k : unit -> M mn A) h r f l g : holds l 0 LX = true ->
  mbind tdowngrade k (St h r f l g) = k tt (St h r f ((0, LSIX) :: unhold l 0 LX) g).
Proof. intros H1. unfold mbind, tdowngrade, tree_latch. cbn [hp rt fr lk gb]. now rewrite H1. Qed.
Lemma mb_free {A} a (k : unit -> M mn A) h r f l g : h a <> None ->
  mbind (free_page a) k (St h r f l g) =
  k tt (St (upd h a None) r f (filter (fun p => negb (Nat.eqb (fst p) a)) l) g).
Proof. intros H. unfold mbind, free_page. cbn [hp rt fr lk gb]. destruct (h a); congruence. Qed.

(** ** A parent, and the child responsible for a key *)
Record ctx (inner : bool) (k : K) (L1 : lvl) (p : addr) (n : anode) (L2 : lvl)
           (s1 : list slot) (s : slot) (s2 : list slot)
           (C1 : lvl) (c : addr) (m : anode) (C2 : lvl) : Prop := {
  cx_L : level false true (L1 ++ (p, n) :: L2);
  cx_C : level false inner (C1 ++ (c, m) :: C2);
  cx_sl : a_slots n = s1 ++ s :: s2;
  cx_E1 : entries NegInf C1 = kents NegInf L1 ++ sents (lasthi NegInf L1) s1;
  cx_E2 : entries (hi_ext m) C2 = map kent s2 ++ kents (hi_ext n) L2;
  cx_kid : kid s = c;
  cx_x1 : s1 = [] -> lasthi NegInf C1 = lasthi NegInf L1;
  cx_x2 : s1 <> [] -> lasthi NegInf C1 = key_ext s;
  cx_rp : in_range (lasthi NegInf L1) k (hi_ext n);
  cx_rc : in_range (lasthi NegInf C1) k (hi_ext m);
}.

Definition kidp (s : slot) (c : addr) : Prop := s_pay s = PP c.

Lemma inner_kid sl lo n s : node_wf sl true lo n -> In s (a_slots n) -> s_pay s = PP (kid s).
Proof.
  intros H Hs. pose proof (nw_body _ _ _ _ H) as Hb. cbn in Hb. unfold inner_ok in Hb.
  unfold kid. destruct (a_slots n) as [|s0 tl0]; [destruct Hs|].
  destruct Hb as ((_ & c & Hc) & Hb & _). destruct Hs as [->|Hs].
  - now rewrite Hc.
  - rewrite Forall_forall in Hb. destruct (Hb s Hs) as (_ & k1 & c1 & _ & Hc1). now rewrite Hc1.
Qed.

Lemma sents_length lo (l0 : list slot) : length (sents lo l0) = length l0.
Proof. destruct l0; cbn; auto. now rewrite map_length. Qed.

(** The routing key of a slot after [s1] in a node whose range starts at [lo]. *)
Definition xkey (lo : ext) (s1 : list slot) (s : slot) : ext :=
  match s1 with [] => lo | _ => key_ext s end.

Lemma sents_mid lo s1 s s2 :
  sents lo (s1 ++ s :: s2) = sents lo s1 ++ (xkey lo s1 s, kid s) :: map kent s2.
Proof. destruct s1; cbn; auto. now rewrite map_app. Qed.

Lemma in_tl_mid {A} (s1 : list A) s s2 x : In x s2 -> In x (tl (s1 ++ s :: s2)).
Proof. destruct s1; cbn; auto. intros. apply in_or_app. right. now right. Qed.

Lemma in_tl_mid' {A} (s1 : list A) s s2 : s1 <> [] -> In s (tl (s1 ++ s :: s2)).
Proof. destruct s1; cbn; [congruence|]. intros. apply in_or_app. right. now left. Qed.

Lemma nil_dec {A} (l0 : list A) : l0 = [] \/ l0 <> [].
Proof. destruct l0; [now left | right; discriminate]. Qed.

Lemma lvl_find sl inner L k : level sl inner L ->
  exists L1 a n L2, L = L1 ++ (a, n) :: L2 /\ fnd NegInf k L = a /\
    in_range (lasthi NegInf L1) k (hi_ext n).
Proof. intros H. eapply seg_find; eauto. split; [apply ele_neg | exact I]. Qed.

Lemma ctx_find inner L C k : level false true L -> level false inner C ->
  kents NegInf L = entries NegInf C ->
  exists L1 p n L2 s1 s s2 C1 c m C2, L = L1 ++ (p, n) :: L2 /\ C = C1 ++ (c, m) :: C2 /\
    ctx inner k L1 p n L2 s1 s s2 C1 c m C2.
Proof.
  intros HL HC HE. destruct (lvl_find _ _ _ k HC) as (C1 & c & m & C2 & -> & Hfc & Hrc).
  assert (HE' := HE). rewrite entries_app in HE'. cbn [entries] in HE'.
  destruct (seg_wf _ _ _ _ _ _ _ _ _ HC) as (_ & _ & Hseg).
  destruct (parent_of false L _ _ _ _ k HL HE')
    as (L1 & p & n & L2 & s1 & s & s2 & -> & Hsl & HE1 & HE2 & Hkid & Hx1 & Hx2 & _ & Hr & _).
  - apply Hrc.
  - intros y Hy. destruct (seg_entries _ _ _ _ _ _ Hseg) as [_ HB]. destruct (HB y Hy) as [HB' _].
    eapply elt_ele_trans; [apply Hrc|exact HB'].
  - exists L1, p, n, L2, s1, s, s2, C1, c, m, C2. split; auto. split; auto. split; auto.
Qed.

Section Ctx.
Context (inner : bool) (k : K) (L1 : lvl) (p : addr) (n : anode) (L2 : lvl)
        (s1 : list slot) (s : slot) (s2 : list slot) (C1 : lvl) (c : addr) (m : anode) (C2 : lvl).
Context (CX : ctx inner k L1 p n L2 s1 s s2 C1 c m C2).

Let lo := lasthi NegInf L1.
Let lc := lasthi NegInf C1.

Lemma cx_wp : node_wf false true lo n.
Proof. apply (seg_wf _ _ _ _ _ _ _ _ _ (cx_L _ _ _ _ _ _ _ _ _ _ _ _ _ CX)). Qed.
Lemma cx_wc : node_wf false inner lc m.
Proof. apply (seg_wf _ _ _ _ _ _ _ _ _ (cx_C _ _ _ _ _ _ _ _ _ _ _ _ _ CX)). Qed.

Lemma cx_fp : fnd NegInf k (L1 ++ (p, n) :: L2) = p.
Proof. eapply fnd_mid; apply CX. Qed.
Lemma cx_fc : fnd NegInf k (C1 ++ (c, m) :: C2) = c.
Proof. eapply fnd_mid; apply CX. Qed.

Lemma cx_x : xkey lo s1 s = lc.
Proof.
  pose proof (cx_x1 _ _ _ _ _ _ _ _ _ _ _ _ _ CX) as X1.
  pose proof (cx_x2 _ _ _ _ _ _ _ _ _ _ _ _ _ CX) as X2. fold lc lo in X1, X2. clearbody lo lc. clear CX.
  unfold xkey. destruct s1; [now rewrite X1 | rewrite X2 by discriminate; auto].
Qed.

Lemma cx_lole : ele lo lc.
Proof.
  rewrite <- cx_x. unfold xkey. destruct (nil_dec s1) as [->|E]; [apply ele_refl|].
  assert (Hi : In s (tl (a_slots n))).
  { rewrite (cx_sl _ _ _ _ _ _ _ _ _ _ _ _ _ CX). now apply in_tl_mid'. }
  destruct (inner_keys false lo n s cx_wp Hi) as (k1 & _ & -> & Hk & _).
  clear - O E Hk. destruct s1; [congruence|]. now apply elt_ele.
Qed.

Lemma cx_kents : kents NegInf (L1 ++ (p, n) :: L2) = entries NegInf (C1 ++ (c, m) :: C2).
Proof.
  rewrite kents_app, entries_app. cbn [kents entries].
  rewrite (cx_E1 _ _ _ _ _ _ _ _ _ _ _ _ _ CX), (cx_E2 _ _ _ _ _ _ _ _ _ _ _ _ _ CX).
  rewrite (cx_sl _ _ _ _ _ _ _ _ _ _ _ _ _ CX). fold lo lc. rewrite <- !app_assoc. f_equal.
  rewrite sents_mid, cx_x, (cx_kid _ _ _ _ _ _ _ _ _ _ _ _ _ CX), <- app_assoc. reflexivity.
Qed.

Lemma cx_hi_le : ele (hi_ext m) (hi_ext n).
Proof.
  pose proof (seg_wf _ _ _ _ _ _ _ _ _ (cx_C _ _ _ _ _ _ _ _ _ _ _ _ _ CX)) as (_ & _ & HsC).
  pose proof (seg_wf _ _ _ _ _ _ _ _ _ (cx_L _ _ _ _ _ _ _ _ _ _ _ _ _ CX)) as (_ & _ & HsL).
  pose proof (cx_E2 _ _ _ _ _ _ _ _ _ _ _ _ _ CX) as E2.
  assert (Hik : forall s', In s' s2 -> exists k1, s_key s' = Some k1 /\ key_ext s' = Key k1 /\
    elt lo (Key k1) /\ elt (Key k1) (hi_ext n)).
  { intros s' Hs'. apply (inner_keys false lo n s' cx_wp).
    rewrite (cx_sl _ _ _ _ _ _ _ _ _ _ _ _ _ CX). now apply in_tl_mid. }
  clear CX. destruct s2 as [|s' t].
  - cbn in E2. destruct L2 as [|[q nq] L2'].
    + cbn in HsL. rewrite HsL. apply ele_pos.
    + cbn [kents] in E2. destruct HsL as (Hwq & _ & _). pose proof (nw_body _ _ _ _ Hwq) as Hb. cbn in Hb.
      destruct (a_slots nq) as [|u ?]; [destruct Hb|].
      destruct C2 as [|[r' m'] C2']; [discriminate|]. cbn in E2. inv E2. rewrite H0. apply ele_refl.
  - destruct C2 as [|[r' m'] C2']; [discriminate|]. cbn in E2. inv E2. rewrite H0.
    destruct (Hik s') as (k1 & _ & -> & _ & Hk); [now left|]. now apply elt_ele.
Qed.

(** The search in the parent leads to the child. *)
Lemma cx_search d : mrep d n -> mvalid k ->
  exists rc, mn_search d k = Some (rc, length s1) /\ mn_child d (length s1) = Some c.
Proof.
  intros H2 Hk. pose proof (nw_body _ _ _ _ cx_wp) as Hb. cbn in Hb.
  destruct (M_search_inner d n k H2 (nw_inner _ _ _ _ cx_wp) Hb Hk) as (rc & pos & Hs & Hspec & _).
  destruct Hspec as (l1 & s' & l2 & Hsl & -> & Hle & Hlt).
  pose proof (cx_sl _ _ _ _ _ _ _ _ _ _ _ _ _ CX) as Hsl'.
  assert (Hlen : length l1 = length s1).
  { assert (HE : sents lo (a_slots n) = sents lo l1 ++ (xkey lo l1 s', kid s') :: map kent l2).
    { rewrite Hsl. apply sents_mid. }
    assert (HE' : sents lo (a_slots n) = sents lo s1 ++ (lc, c) :: map kent s2).
    { rewrite Hsl', sents_mid, cx_x, (cx_kid _ _ _ _ _ _ _ _ _ _ _ _ _ CX). reflexivity. }
    destruct (node_sents _ _ _ cx_wp) as [Hok _]. fold lo in Hok. rewrite HE in Hok.
    rewrite HE in HE'.
    destruct (eok_split_unique _ _ _ _ _ _ (Key k) Hok HE') as (E1 & _ & _).
    - cbn [fst]. unfold xkey. destruct l1; [apply CX|]. destruct Hle as (k1 & Hk1 & Hle); [discriminate|].
      unfold key_ext. rewrite Hk1. now apply kle_ele.
    - intros y Hy. apply in_map_iff in Hy as (t & <- & Ht).
      destruct (inner_keys _ _ _ t cx_wp) as (k' & Hk1 & Hk' & _ & _).
      + rewrite Hsl. destruct l1; cbn; auto. apply in_or_app. right. now right.
      + cbn. rewrite Hk'. cbn. apply Hlt. apply in_keys_of. eauto.
    - apply CX.
    - intros y Hy. pose proof (seg_wf _ _ _ _ _ _ _ _ _ (cx_C _ _ _ _ _ _ _ _ _ _ _ _ _ CX)) as (_ & _ & HsC).
      destruct (seg_entries _ _ _ _ _ _ HsC) as [_ HB].
      destruct (HB y) as [HB' _].
      { rewrite (cx_E2 _ _ _ _ _ _ _ _ _ _ _ _ _ CX). apply in_or_app. auto. }
      eapply elt_ele_trans; [apply (proj2 (cx_rc _ _ _ _ _ _ _ _ _ _ _ _ _ CX))|exact HB'].
    - apply (f_equal (@length _)) in E1. now rewrite !sents_length in E1. }
  rewrite Hlen in Hs. exists rc. split; auto.
  eapply M_child; eauto.
  - apply (nw_inner _ _ _ _ cx_wp).
  - rewrite Hsl'. apply nth_error_mid.
  - rewrite <- (cx_kid _ _ _ _ _ _ _ _ _ _ _ _ _ CX). eapply inner_kid; [apply cx_wp|].
    rewrite Hsl'. apply in_or_app. right. now left.
Qed.

Lemma route_ok d h r f l g : h p = Some d -> mrep d n -> mvalid k ->
  route p k (St h r f l g) = Ok (length s1, c) (St h r f l g).
Proof.
  intros H1 H2 H3. destruct (cx_search d H2 H3) as (rc & Hs & Hc).
  unfold route. rewrite (mb_getn p d) by auto. rewrite (mb_lift _ _ _ _ Hs). cbv beta iota.
  rewrite (mb_lift _ _ _ _ Hc). reflexivity.
Qed.

(** Clean-up of the child. *)
Lemma ctx_refresh m' : refreshed m m' ->
  ctx inner k L1 p n L2 s1 s s2 C1 c m' C2 /\
  hi_ext m' = hi_ext m /\
  entries NegInf (C1 ++ (c, m') :: C2) = entries NegInf (C1 ++ (c, m) :: C2) /\
  (inner = true -> kents NegInf (C1 ++ (c, m') :: C2) = kents NegInf (C1 ++ (c, m) :: C2)) /\
  recs (C1 ++ (c, m') :: C2) = recs (C1 ++ (c, m) :: C2).
Proof.
  unfold refreshed. pose proof cx_wc as Hwc. rewrite (nw_inner _ _ _ _ Hwc). intros Hu.
  assert (Hi : (inner = true /\ m' = m) \/ (inner = false /\ leaf_upd m m' [] (live (a_slots m)))).
  { clear - Hu. destruct inner; auto. }
  destruct Hi as [[Hi ->]|[Hi Hu']].
  - split; [exact CX|]. auto.
  - pose proof Hwc as Hwl. rewrite Hi in Hwl.
    destruct (node_wf_leaf_upd _ _ _ _ _ _ Hwl Hu') as (Hw & Hnx & Hh & Hlive).
    { intros ? []. }
    assert (Hw' : node_wf false inner lc m') by (rewrite Hi; exact Hw).
    assert (He := hi_ext_eq _ _ Hh). split.
    + pose proof CX as CX'. destruct CX'. split; auto.
      * eapply (seg_replace _ _ _ _ _ m); eauto. 
      * now rewrite He.
      * now rewrite He.
    + split; auto. split; [now apply entries_replace|]. split; [congruence|].
      rewrite !recs_app. f_equal. cbn [recs flat_map snd]. now rewrite Hlive.
Qed.

(** The child is split: [r] takes the upper half. *)
Lemma ctx_split n' ml mr r sep :
  node_wf false inner lc ml -> a_high ml = Some sep ->
  node_wf false inner (Key sep) mr -> a_high mr = a_high m ->
  (inner = false -> a_next ml = Some r /\ a_next mr = a_next m) ->
  same_frame n n' -> a_slots n' = s1 ++ s :: Slot (Some sep) (PP r) false :: s2 ->
  level false true (L1 ++ (p, n') :: L2) /\
  level false inner (C1 ++ (c, ml) :: (r, mr) :: C2) /\
  kents NegInf (L1 ++ (p, n') :: L2) = entries NegInf (C1 ++ (c, ml) :: (r, mr) :: C2) /\
  entries NegInf (L1 ++ (p, n') :: L2) = entries NegInf (L1 ++ (p, n) :: L2) /\
  fnd NegInf k (C1 ++ (c, ml) :: (r, mr) :: C2) = (if ltb k sep then c else r).
Proof.
  intros Hw1 Hh1 Hw2 Hh2 Hnx Hfr Hsl'.
  pose proof (cx_sl _ _ _ _ _ _ _ _ _ _ _ _ _ CX) as Hsl.
  assert (He1 : hi_ext ml = Key sep) by (unfold hi_ext; now rewrite Hh1).
  assert (He2 : hi_ext mr = hi_ext m) by now apply hi_ext_eq.
  assert (Hlo : elt lc (Key sep)) by (rewrite <- He1; apply (nw_range _ _ _ _ Hw1)).
  assert (Hhi : elt (Key sep) (hi_ext m)) by (rewrite <- He2; apply (nw_range _ _ _ _ Hw2)).
  assert (Hs1 : s1 <> [] -> exists k1, s_key s = Some k1 /\ klt k1 sep).
  { intros Hne. destruct (inner_keys false lo n s cx_wp) as (k1 & Hk1 & Hk2 & _).
    - rewrite Hsl. now apply in_tl_mid'.
    - exists k1. split; auto. pose proof (cx_x2 _ _ _ _ _ _ _ _ _ _ _ _ _ CX Hne) as Hx. fold lc in Hx.
      rewrite Hx, Hk2 in Hlo. exact Hlo. }
  assert (Hs2 : forall k1, In k1 (keys_of s2) -> klt sep k1).
  { intros k1 Hk1. apply in_keys_of in Hk1 as (t & Ht & Hkt).
    pose proof (seg_wf _ _ _ _ _ _ _ _ _ (cx_C _ _ _ _ _ _ _ _ _ _ _ _ _ CX)) as (_ & _ & HsC).
    destruct (seg_entries _ _ _ _ _ _ HsC) as [_ HB]. destruct (HB (kent t)) as [HB' _].
    { rewrite (cx_E2 _ _ _ _ _ _ _ _ _ _ _ _ _ CX). apply in_or_app. left. now apply in_map. }
    pose proof (elt_ele_trans _ _ _ Hhi HB') as Hx. unfold kent, key_ext in Hx. cbn [fst] in Hx. rewrite Hkt in Hx.
    exact Hx. }
  assert (Hlosep : elt lo (Key sep)) by (eapply ele_elt_trans; [apply cx_lole|auto]).
  assert (Hsephi : elt (Key sep) (hi_ext n)) by (eapply elt_ele_trans; [exact Hhi|apply cx_hi_le]).
  assert (Hwn : node_wf false true lo n').
  { eapply node_wf_insert_child; eauto; [apply cx_wp|]. split; auto. now apply elt_ele. }
  assert (Fh : a_high n' = a_high n) by apply Hfr.
  assert (Fn : a_next n' = a_next n) by apply Hfr.
  assert (HC' : level false inner (C1 ++ (c, ml) :: (r, mr) :: C2)).
  { apply (seg_split _ _ _ C1 c m r ml mr C2); auto.
    - apply (cx_C _ _ _ _ _ _ _ _ _ _ _ _ _ CX).
    - rewrite He1. exact Hw2.
    - intros [E|E]; [discriminate|]. now apply Hnx.
    - intros [E|E]; [discriminate|]. now apply Hnx. }
  split; [|split; [|split; [|split]]].
  - eapply seg_replace; eauto. apply CX.
  - exact HC'.
  - pose proof cx_kents as HE.
    assert (Hok : eok (kents NegInf (L1 ++ (p, n) :: L2))) by (eapply seg_kents; apply CX).
    eapply ins_at_fun; [exact Hok| |].
    + rewrite !kents_app. cbn [kents]. rewrite (hi_ext_eq _ _ Fh), Hsl, Hsl'. fold lo.
      apply ins_at_pre; auto. apply ins_at_post.
      * intros y Hy. pose proof (seg_wf _ _ _ _ _ _ _ _ _ (cx_L _ _ _ _ _ _ _ _ _ _ _ _ _ CX)) as (_ & _ & HsL).
        destruct (seg_kents _ _ _ _ _ HsL) as [_ HB]. destruct (HB y Hy) as [HB' _].
        eapply elt_ele_trans; [exact Hsephi|exact HB'].
      * apply (sents_insert false lo n); auto. apply cx_wp.
    + rewrite HE, !entries_app. cbn [entries]. rewrite He1, He2. fold lc.
      exists (entries NegInf C1), (lc, c), (entries (hi_ext m) C2). split; auto. split; auto. split; [exact Hlo|].
      intros y Hy. pose proof (seg_wf _ _ _ _ _ _ _ _ _ (cx_C _ _ _ _ _ _ _ _ _ _ _ _ _ CX)) as (_ & _ & HsC).
      destruct (seg_entries _ _ _ _ _ _ HsC) as [_ HB]. destruct (HB y Hy) as [HB' _].
      eapply elt_ele_trans; [exact Hhi|exact HB'].
  - now apply entries_replace.
  - destruct (cx_rc _ _ _ _ _ _ _ _ _ _ _ _ _ CX) as [R1 R2]. fold lc in R1.
    destruct (ltb k sep) eqn:Ek.
    + eapply fnd_mid; eauto. split; auto. rewrite He1. exact Ek.
    + replace (C1 ++ (c, ml) :: (r, mr) :: C2) with ((C1 ++ [(c, ml)]) ++ (r, mr) :: C2) by now rewrite <- app_assoc.
      eapply (fnd_mid false inner NegInf (C1 ++ [(c, ml)]) r mr C2 PosInf None).
      * rewrite <- app_assoc. exact HC'.
      * rewrite lasthi_app. cbn [lasthi]. rewrite He1, He2. split; auto. now apply kle_ele.
Qed.

(** The child is merged with its right neighbour. *)
Lemma ctx_merge n' m' r m2 C2' s' s2' :
  C2 = (r, m2) :: C2' -> s2 = s' :: s2' ->
  node_wf false inner lc m' -> a_high m' = a_high m2 ->
  (inner = false -> a_next m' = a_next m2) ->
  same_frame n n' -> a_slots n' = s1 ++ s :: s2' ->
  level false true (L1 ++ (p, n') :: L2) /\
  level false inner (C1 ++ (c, m') :: C2') /\
  kents NegInf (L1 ++ (p, n') :: L2) = entries NegInf (C1 ++ (c, m') :: C2') /\
  entries NegInf (L1 ++ (p, n') :: L2) = entries NegInf (L1 ++ (p, n) :: L2) /\
  fnd NegInf k (C1 ++ (c, m') :: C2') = c.
Proof.
  intros HC2 Hs2 Hw1 Hh Hnx Hfr Hsl'.
  pose proof (cx_sl _ _ _ _ _ _ _ _ _ _ _ _ _ CX) as Hsl.
  assert (He : hi_ext m' = hi_ext m2) by now apply hi_ext_eq.
  assert (Fh : a_high n' = a_high n) by apply Hfr.
  assert (Fn : a_next n' = a_next n) by apply Hfr.
  assert (Hwn : node_wf false true lo n').
  { eapply (node_wf_delete_child false lo n n' (s1 ++ [s]) s' s2'); eauto.
    - apply cx_wp.
    - rewrite Hsl, Hs2, <- app_assoc. reflexivity.
    - intros E. now apply app_eq_nil in E.
    - now rewrite <- app_assoc. }
  assert (HC' : level false inner (C1 ++ (c, m') :: C2')).
  { apply (seg_merge _ _ _ C1 c m r m2 m' C2'); auto.
    - pose proof (cx_C _ _ _ _ _ _ _ _ _ _ _ _ _ CX) as HC. rewrite HC2 in HC. exact HC.
    - intros [E|E]; [discriminate|auto]. }
  pose proof (cx_E2 _ _ _ _ _ _ _ _ _ _ _ _ _ CX) as E2. rewrite HC2, Hs2 in E2. cbn in E2.
  injection E2 as E2a E2b E2.
  split; [|split; [|split; [|split]]].
  - eapply seg_replace; eauto. apply CX.
  - exact HC'.
  - rewrite kents_app, entries_app. cbn [kents entries].
    rewrite (cx_E1 _ _ _ _ _ _ _ _ _ _ _ _ _ CX), He, (hi_ext_eq _ _ Fh), E2.
    rewrite Hsl'. fold lo lc. rewrite <- !app_assoc. f_equal.
    rewrite sents_mid, cx_x, (cx_kid _ _ _ _ _ _ _ _ _ _ _ _ _ CX), <- app_assoc. reflexivity.
  - now apply entries_replace.
  - eapply fnd_mid; eauto. destruct (cx_rc _ _ _ _ _ _ _ _ _ _ _ _ _ CX) as [R1 R2]. split; auto.
    eapply elt_trans; [exact R2|].
    pose proof (seg_wf _ _ _ _ _ _ _ _ _ (cx_C _ _ _ _ _ _ _ _ _ _ _ _ _ CX)) as (_ & _ & HsC).
    rewrite HC2 in HsC. destruct HsC as (Hw2 & _). rewrite He. apply (nw_range _ _ _ _ Hw2).
Qed.

End Ctx.

(** ** Levels from the top down *)
Fixpoint mdn (L : lvl) (D : list lvl) : Prop :=
  match D with
  | [] => level false false L
  | L' :: D' => level false true L /\ kents NegInf L = entries NegInf L' /\ mdn L' D'
  end.

Definition innerb (D : list lvl) : bool := match D with [] => false | _ => true end.

Lemma mdn_level L D : mdn L D -> level false (innerb D) L.
Proof. destruct D; cbn; tauto. Qed.

Lemma mdn_replace L L' D : mdn L D -> level false (innerb D) L' ->
  (innerb D = true -> kents NegInf L' = kents NegInf L) -> mdn L' D.
Proof.
  destruct D; cbn; auto. intros (H1 & H2 & H3) HL HE. rewrite HE by auto. auto.
Qed.

Lemma mtower_dn U D L root : mdn L D -> tower false (entries NegInf L) U root ->
  exists top D', rev U ++ L :: D = top :: D' /\ entries NegInf top = [(NegInf, root)] /\ mdn top D'.
Proof.
  revert D L. induction U as [|L' U IH]; intros D L HD HT; cbn in HT.
  - exists L, D. auto.
  - destruct HT as (H1 & H2 & H3).
    destruct (IH (L :: D) L') as (top & D' & E1 & E2 & E3); auto.
    + cbn. auto.
    + exists top, D'. repeat split; auto. cbn. rewrite <- app_assoc. exact E1.
Qed.

Lemma mtree_dn leafs U root : tree false leafs U root ->
  exists top D, rev (leafs :: U) = top :: D /\ mdn top D /\ length D = length U /\
    entries NegInf top = [(NegInf, root)] /\ (forall k, fnd NegInf k top = root).
Proof.
  intros [H1 H2]. destruct (mtower_dn U [] leafs root H1 H2) as (top & D & E1 & E2 & E3).
  exists top, D. cbn [rev]. repeat split; auto.
  - apply (f_equal (@length _)) in E1. rewrite app_length, rev_length in E1. cbn in E1. lia.
  - intros k. destruct top as [|[a n] [|[b m] top]]; cbn in E2; try discriminate.
    inv E2. pose proof (mdn_level _ _ E3) as Hl. destruct Hl as (_ & _ & Hl). cbn in *.
    rewrite Hl. destruct (elt_dec (Key k) PosInf) as [|H]; auto. exfalso. apply H. exact I.
Qed.

Lemma last_cons (L : lvl) D L0 : last (L :: D) L0 = last D L.
Proof.
  revert L L0. induction D as [|x D IH]; intros L L0; [reflexivity|].
  change (last (L :: x :: D) L0) with (last (x :: D) L0). now rewrite !IH.
Qed.

(** And back. *)
Lemma mdn_tree D : forall top, mdn top D ->
  forall U root, tower false (entries NegInf top) U root ->
  exists leafs U', leafs = last D top /\ tree false leafs U' root /\
    length U' = length D + length U /\
    (forall x, In x (leafs ++ concat U') <-> In x (top ++ concat D ++ concat U)) /\
    rev (leafs :: U') = rev U ++ top :: D.
Proof.
  induction D as [|L D IH]; intros top HD U root HT.
  - exists top, U. cbn [last mdn] in *. split; auto. split; [split; auto|]. split; auto. split; [|reflexivity].
    intros x. reflexivity.
  - destruct HD as (H1 & H2 & H3).
    destruct (IH L H3 (top :: U) root) as (leafs & U' & E1 & HT' & Hlen & Hin & Hrev).
    { cbn. auto. }
    exists leafs, U'. split; [|split; [|split; [|split]]]; auto.
    + rewrite E1. symmetry. apply last_cons.
    + cbn in *. lia.
    + intros x. rewrite Hin. cbn [concat]. rewrite !in_app_iff. tauto.
    + rewrite Hrev. cbn [rev]. rewrite <- app_assoc. reflexivity.
Qed.

(** ** Read-only descents *)
Section Reads.
Context (k : K) (h : addr -> option mn) (r f : addr) (g : list addr) (F : lvl).
Context (HF : hinv h f g F) (Hk : mvalid k) (H0 : h 0 = None).

Lemma page_of L a n L1 L2 : incl L F -> L = L1 ++ (a, n) :: L2 ->
  exists d, h a = Some d /\ mrep d n.
Proof. intros Hi ->. apply (hinv_get _ _ _ _ _ _ _ HF). apply Hi, in_or_app. right. now left. Qed.

Lemma page_neq L a n L1 L2 L' a' n' L1' L2' : incl L F -> incl L' F ->
  L = L1 ++ (a, n) :: L2 -> L' = L1' ++ (a', n') :: L2' -> a_inner n <> a_inner n' -> a <> a'.
Proof.
  intros Hi Hi' -> -> Hne <-.
  assert (A : In (a, n) F) by (apply Hi, in_or_app; right; now left).
  assert (B : In (a, n') F) by (apply Hi', in_or_app; right; now left).
  apply Hne. pose proof (hi_nodup _ _ _ _ _ HF) as Hn.
  assert (Hn' : NoDup (map fst F)).
  { clear - Hn. induction (map fst F) as [|x l IH]; [constructor|]. cbn in Hn.
    apply NoDup_cons_iff in Hn as [H1 H2]. constructor; auto. rewrite in_app_iff in H1. tauto. }
  clear - Hn' A B. revert Hn' A B. generalize F. intros F0. induction F0 as [|[b x] F0 IH]; intros Hn' A B; [destruct A|]. cbn in Hn'.
  apply NoDup_cons_iff in Hn' as [H1 H2]. destruct A as [A|A], B as [B|B].
  - congruence.
  - inv A. exfalso. apply H1. now apply (in_map fst) in B.
  - inv B. exfalso. apply H1. now apply (in_map fst) in A.
  - auto.
Qed.

Lemma not_zero a d : h a = Some d -> a <> 0.
Proof. intros H ->. congruence. Qed.

End Reads.

End MLSearch.
