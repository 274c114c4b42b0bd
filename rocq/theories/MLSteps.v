(** Multi-layer trees: one step of a writer's descent, for both variants. *)
From Coq Require Import List Arith Bool Lia Sorted Permutation.
From Verif Require Import Params Mem Common Spec NodeAbs SLIface MLIface TreeState Levels TreeHeap
  LevelOps SLModel SLSearch SLSplit SLMerge MLModel MLSearch.
Import ListNotations.

Lemma hinv_perm {P : Params} {W : Leak} {ND} (R : ND -> anode -> Prop) h f g F F' :
  Permutation F F' -> hinv R h f g F -> hinv R h f g F'.
Proof.
  intros Hp H.
  assert (Hq : Permutation (map fst F ++ g ++ leaked) (map fst F' ++ g ++ leaked)).
  { apply Permutation_app_tail. now apply Permutation_map. }
  split.
  - eapply Permutation_NoDup; [exact Hq|]. apply (hi_nodup _ _ _ _ _ H).
  - intros a. rewrite (hi_dom _ _ _ _ _ H). split; intros Hin.
    + eapply Permutation_in; eauto.
    + eapply Permutation_in; [symmetry|]; eauto.
  - apply (hi_fresh _ _ _ _ _ H).
  - intros a n Hin. apply (hi_rep _ _ _ _ _ H). eapply Permutation_in; [symmetry|]; eauto.
Qed.

(** Bring all single elements to the front of both sides. *)
Ltac pfront :=
  repeat (rewrite <- app_assoc || rewrite <- app_comm_cons || rewrite app_nil_r || cbn [app concat]);
  repeat rewrite <- Permutation_middle.

Section MLSteps.
Context {P : Params} {O : OrdLaws P} {N : MLOps P} {LW : MLLaws P N} {WK : Leak}.
Notation hinv := (@hinv P WK mn mrep).

Implicit Types (h : addr -> option mn) (g : list addr).

Definition roomat h (a : addr) : Prop := exists d, h a = Some d /\ mroom d.

(** What a step does to the level of the node it leaves and to the level it enters. *)
Record stepres (inner : bool) (L C L' C' : lvl) : Prop := {
  sr_L : level false true L';
  sr_C : level false inner C';
  sr_E : kents NegInf L' = entries NegInf C';
  sr_top : entries NegInf L' = entries NegInf L;
  sr_k : inner = true -> kents NegInf C' = kents NegInf C;
  sr_r : inner = false -> recs C' = recs C;
}.

Definition cleaned h (c : addr) (o : option mn) : addr -> option mn :=
  match o with None => h | Some d => upd h c (Some d) end.

Lemma cleaned_same h c o d : h c = Some d -> cleaned h c o c = Some (after d o).
Proof. destruct o; cbn; intros H; auto. apply upd_same. Qed.
Lemma cleaned_diff h c o x : x <> c -> cleaned h c o x = h x.
Proof. destruct o; cbn; intros H; auto. now apply upd_diff. Qed.
Lemma cleaned_hinv h f g F1 c m m' F2 o d : h c = Some d -> mrep (after d o) m' -> (o = None -> m' = m) ->
  hinv h f g (F1 ++ (c, m) :: F2) -> hinv (cleaned h c o) f g (F1 ++ (c, m') :: F2).
Proof.
  intros Hc Hr Ho H. destruct o as [d'|]; cbn in *.
  - eapply hinv_set; eauto.
  - now rewrite Ho.
Qed.

(** [None] from NeedSplit/NeedMerge means that the node is as before; the abstract node may
    still be read differently, so it is kept equal here. *)
Lemma hinv_rerep h f g F1 c m m' F2 d : h c = Some d -> mrep d m' ->
  hinv h f g (F1 ++ (c, m) :: F2) -> hinv h f g (F1 ++ (c, m') :: F2).
Proof.
  intros Hc Hr H. eapply hinv_ext; [|eapply (hinv_set _ h f g F1 c m m' F2 d); eauto].
  intros a. unfold upd. destruct (a =? c) eqn:E; auto. apply Nat.eqb_eq in E. congruence.
Qed.

Lemma cleaned_hinv' h f g F1 c m m' F2 o d : h c = Some d -> mrep (after d o) m' ->
  hinv h f g (F1 ++ (c, m) :: F2) -> hinv (cleaned h c o) f g (F1 ++ (c, m') :: F2).
Proof.
  intros Hc Hr H. destruct o as [d'|]; cbn in *.
  - eapply hinv_set; eauto.
  - eapply hinv_rerep; eauto.
Qed.

Section Core.
Context (inner : bool) (k : K) (L1 : lvl) (p : addr) (n : anode) (L2 : lvl)
        (s1 : list slot) (s : slot) (s2 : list slot) (C1 : lvl) (c : addr) (m : anode) (C2 : lvl).
Context (CX : ctx inner k L1 p n L2 s1 s s2 C1 c m C2).
Context (dp dc : mn) (Hdp : mrep dp n) (Hdc : mrep dc m).

Lemma cx_body : body_ok (a_inner m) (a_slots m).
Proof. pose proof (cx_wc _ _ _ _ _ _ _ _ _ _ _ _ _ CX) as H. rewrite (nw_inner _ _ _ _ H). apply (nw_body _ _ _ _ H). Qed.

Lemma split_core_hi f : mroom dp -> msplit_ok dc ->
  exists l' r' sep dp' n' ml mr,
    mn_inner dc = inner /\ mn_split dc f (mn_new inner) = Some (l', r') /\
    mn_highkey l' = Some sep /\ mn_comphigh l' k = Some (ltb k sep) /\
    mn_insert_child dp f sep (length s1) = Some dp' /\
    mrep dp' n' /\ mrep l' ml /\ mrep r' mr /\ mroom l' /\ mroom r' /\
    stepres inner (L1 ++ (p, n) :: L2) (C1 ++ (c, m) :: C2)
                  (L1 ++ (p, n') :: L2) (C1 ++ (c, ml) :: (f, mr) :: C2) /\
    fnd NegInf k (C1 ++ (c, ml) :: (f, mr) :: C2) = (if ltb k sep then c else f) /\
    a_high mr = a_high m.
Proof.
  intros Hroom Hsp.
  pose proof (cx_wc _ _ _ _ _ _ _ _ _ _ _ _ _ CX) as Hwc.
  pose proof (cx_wp _ _ _ _ _ _ _ _ _ _ _ _ _ CX) as Hwp.
  assert (Hin := nw_inner _ _ _ _ Hwc).
  destruct (M_split dc m f Hdc cx_body Hsp)
    as (l' & r' & sep & t1 & t2 & lw1 & lw2 & Hs & Hl & Hr & Hspec & Hvs & Hrl & Hrr & _).
  rewrite Hin in Hs, Hl, Hr.
  destruct (M_insert_child dp n s1 s s2 f sep Hdp (nw_inner _ _ _ _ Hwp)
              (cx_sl _ _ _ _ _ _ _ _ _ _ _ _ _ CX) Hvs Hroom)
    as (dp' & n' & Hic & Hrp & Hfr & Hsl').
  set (ml := ANode inner (a_removed m) (if inner then a_next m else Some f) lw1 (Some sep) t1) in *.
  set (mr := ANode inner false (if inner then None else a_next m) lw2 (a_high m) t2) in *.
  assert (Hwc' : node_wf false (a_inner m) (lasthi NegInf C1) m) by (rewrite Hin; exact Hwc).
  destruct (node_wf_split false (lasthi NegInf C1) m sep t1 t2
              (if inner then a_next m else Some f) (if inner then None else a_next m) lw1 lw2
              Hwc' Hspec) as [Hw1 Hw2]; try discriminate.
  rewrite Hin in Hw1, Hw2.
  destruct (ctx_split _ _ _ _ _ _ _ _ _ _ _ _ _ CX n' ml mr f sep) as (A1 & A2 & A3 & A4 & A5); auto.
  { intros ->. split; reflexivity. }
  exists l', r', sep, dp', n', ml, mr.
  split; [now rewrite (proj1 (M_hdr _ _ Hdc))|]. split; [auto|].
  split; [eapply M_highkey; eauto; reflexivity|].
  split; [rewrite (M_comphigh _ _ k Hl); reflexivity|].
  do 6 (split; [assumption|]). split; [|split; [exact A5|reflexivity]].
  split; auto.
  - intros ->. rewrite !kents_app. f_equal. cbn [kents]. change (hi_ext ml) with (Key sep).
    change (hi_ext mr) with (hi_ext m). cbn [ml mr a_slots].
    rewrite (sents_split_spec false _ m sep t1 t2 Hwc Hin Hspec). now rewrite <- app_assoc.
  - intros ->. rewrite !recs_app. f_equal. cbn [recs flat_map snd ml mr a_slots].
    rewrite (live_split_spec m sep t1 t2 Hin Hspec). now rewrite <- app_assoc.
Qed.

Lemma split_core f : mroom dp -> msplit_ok dc ->
  exists l' r' sep dp' n' ml mr,
    mn_inner dc = inner /\ mn_split dc f (mn_new inner) = Some (l', r') /\
    mn_highkey l' = Some sep /\ mn_comphigh l' k = Some (ltb k sep) /\
    mn_insert_child dp f sep (length s1) = Some dp' /\
    mrep dp' n' /\ mrep l' ml /\ mrep r' mr /\ mroom l' /\ mroom r' /\
    stepres inner (L1 ++ (p, n) :: L2) (C1 ++ (c, m) :: C2)
                  (L1 ++ (p, n') :: L2) (C1 ++ (c, ml) :: (f, mr) :: C2) /\
    fnd NegInf k (C1 ++ (c, ml) :: (f, mr) :: C2) = (if ltb k sep then c else f).
Proof.
  intros H1 H2.
  destruct (split_core_hi f H1 H2) as (l' & r' & sep & dp' & n' & ml & mr & A).
  exists l', r', sep, dp', n', ml, mr. tauto.
Qed.

(** Whether the child has a right neighbour below the same parent. *)
Lemma right_core :
  (mn_rc dp = length s1 + 1 /\ s2 = []) \/
  (exists r m2 C2' s' s2', mn_rc dp <> length s1 + 1 /\ s2 = s' :: s2' /\ C2 = (r, m2) :: C2' /\
     mn_child dp (length s1 + 1) = Some r).
Proof.
  pose proof (cx_wp _ _ _ _ _ _ _ _ _ _ _ _ _ CX) as Hwp.
  pose proof (cx_sl _ _ _ _ _ _ _ _ _ _ _ _ _ CX) as Hsl.
  pose proof (cx_E2 _ _ _ _ _ _ _ _ _ _ _ _ _ CX) as E2.
  destruct (M_hdr _ _ Hdp) as (_ & _ & _ & Hrc). rewrite Hsl, app_length in Hrc. cbn [length] in Hrc.
  assert (Hs2 : s2 = [] \/ exists s' t, s2 = s' :: t).
  { clear. destruct s2; [now left | right; eauto]. }
  destruct Hs2 as [Hs2|(s' & t & Hs2)].
  - left. rewrite Hs2 in Hrc. cbn in Hrc. split; [lia|auto].
  - right. rewrite Hs2 in E2, Hrc. cbn [length] in Hrc.
    assert (HC2 : exists r m2 C2', C2 = (r, m2) :: C2').
    { clear - E2. destruct C2 as [|[r m2] C2']; [discriminate|eauto]. }
    destruct HC2 as (r & m2 & C2' & HC2). rewrite HC2 in E2. cbn in E2. injection E2 as Ek Er _.
    exists r, m2, C2', s', t. split; [lia|]. split; [auto|]. split; [auto|].
    eapply (M_child dp n (length s1 + 1) s').
    + exact Hdp.
    + apply (nw_inner _ _ _ _ Hwp).
    + rewrite Hsl, Hs2. rewrite nth_error_app2 by lia.
      replace (length s1 + 1 - length s1) with 1 by lia. reflexivity.
    + rewrite Er. eapply inner_kid; [exact Hwp|]. rewrite Hsl, Hs2. apply in_or_app. right. right. now left.
Qed.

Lemma merge_core_hi dr r m2 C2' s' s2' : mrep dr m2 -> C2 = (r, m2) :: C2' -> s2 = s' :: s2' ->
  mn_can_merge dc dr = true ->
  exists l' dp' n' m', mn_merge dc dr = Some l' /\ mn_delete_child dp (length s1) = Some dp' /\
    mrep dp' n' /\ mrep l' m' /\ mroom l' /\
    stepres inner (L1 ++ (p, n) :: L2) (C1 ++ (c, m) :: C2)
                  (L1 ++ (p, n') :: L2) (C1 ++ (c, m') :: C2') /\
    fnd NegInf k (C1 ++ (c, m') :: C2') = c /\ a_high m' = a_high m2.
Proof.
  intros Hdr HC2 Hs2 Hcm.
  pose proof (cx_wc _ _ _ _ _ _ _ _ _ _ _ _ _ CX) as Hwc.
  pose proof (cx_wp _ _ _ _ _ _ _ _ _ _ _ _ _ CX) as Hwp.
  pose proof (cx_sl _ _ _ _ _ _ _ _ _ _ _ _ _ CX) as Hsl. rewrite Hs2 in Hsl.
  assert (Hin := nw_inner _ _ _ _ Hwc).
  pose proof (seg_wf _ _ _ _ _ _ _ _ _ (cx_C _ _ _ _ _ _ _ _ _ _ _ _ _ CX)) as (_ & _ & HsC).
  assert (Hne : C2 <> []) by (rewrite HC2; discriminate).
  destruct (hi_key _ _ _ _ _ Hwc HsC Hne) as (hk & Hh & He).
  rewrite HC2 in HsC. destruct HsC as (Hw2 & _ & _). rewrite He in Hw2.
  assert (Hin2 := nw_inner _ _ _ _ Hw2).
  destruct (M_merge dc m dr m2 hk Hdc Hdr) as (l' & t & lw & Hm & Hl & Hspec & Hrm); auto.
  - congruence.
  - apply cx_body.
  - rewrite Hin2. apply (nw_body _ _ _ _ Hw2).
  - intros k1 Hk1 Hi. assert (Hi' : inner = false) by congruence.
    pose proof (nw_hi _ _ _ _ Hwc k1) as Hx. rewrite Hi', He in Hx. apply Hx. exact Hk1.
  - intros k1 Hk1 Hi. assert (Hi' : inner = false) by congruence.
    pose proof (nw_lo _ _ _ _ Hw2 k1) as Hx. rewrite Hi' in Hx. apply kle_ele. apply Hx. exact Hk1.
  - rewrite Hin in Hl.
    assert (Hb : inner_ok (a_slots n)) by apply (nw_body _ _ _ _ Hwp).
    destruct (M_delete_child dp n s1 s s' s2' Hdp (nw_inner _ _ _ _ Hwp) Hb Hsl)
      as (dp' & n' & Hd & Hrp & Hfr & Hsl').
    pose proof (node_wf_merge false inner _ m m2 hk t (if inner then a_next m else a_next m2) lw
                  Hwc Hh Hw2 Hspec) as Hwm.
    set (m' := ANode inner (a_removed m) (if inner then a_next m else a_next m2) lw (a_high m2) t) in *.
    destruct (ctx_merge _ _ _ _ _ _ _ _ _ _ _ _ _ CX n' m' r m2 C2' s' s2')
      as (A1 & A2 & A3 & A4 & A5); auto.
    { apply Hwm. discriminate. }
    { now intros ->. }
    exists l', dp', n', m'. do 5 (split; [assumption|]). split; [|split; [exact A5|reflexivity]].
    split; auto; unfold merge_spec in Hspec; rewrite Hin in Hspec.
    + intros Hi. rewrite Hi in *. rewrite HC2, !kents_app. f_equal. cbn [kents].
      change (hi_ext m') with (hi_ext m2). cbn [m' a_slots]. rewrite Hspec, He.
      rewrite (sents_merge false _ m m2 hk Hwc Hw2). now rewrite <- app_assoc.
    + intros Hi. rewrite Hi in *. rewrite HC2, !recs_app. f_equal. cbn [recs flat_map snd m' a_slots].
      destruct Hspec as (_ & Hlv & _). rewrite Hlv. now rewrite <- app_assoc.
Qed.

Lemma merge_core dr r m2 C2' s' s2' : mrep dr m2 -> C2 = (r, m2) :: C2' -> s2 = s' :: s2' ->
  mn_can_merge dc dr = true ->
  exists l' dp' n' m', mn_merge dc dr = Some l' /\ mn_delete_child dp (length s1) = Some dp' /\
    mrep dp' n' /\ mrep l' m' /\ mroom l' /\
    stepres inner (L1 ++ (p, n) :: L2) (C1 ++ (c, m) :: C2)
                  (L1 ++ (p, n') :: L2) (C1 ++ (c, m') :: C2') /\
    fnd NegInf k (C1 ++ (c, m') :: C2') = c.
Proof.
  intros H1 H2 H3 H4.
  destruct (merge_core_hi dr r m2 C2' s' s2' H1 H2 H3 H4) as (l' & dp' & n' & m' & A).
  exists l', dp', n', m'. tauto.
Qed.

Lemma stepres_none m' : refreshed m m' ->
  ctx inner k L1 p n L2 s1 s s2 C1 c m' C2 /\
  stepres inner (L1 ++ (p, n) :: L2) (C1 ++ (c, m) :: C2)
                (L1 ++ (p, n) :: L2) (C1 ++ (c, m') :: C2).
Proof.
  intros Hr. destruct (ctx_refresh _ _ _ _ _ _ _ _ _ _ _ _ _ CX m' Hr) as (CX' & A1 & A2 & A3 & A4).
  split; [exact CX'|]. split; auto.
  - apply CX.
  - apply (cx_C _ _ _ _ _ _ _ _ _ _ _ _ _ CX').
  - apply (cx_kents _ _ _ _ _ _ _ _ _ _ _ _ _ CX').
Qed.

End Core.

Lemma stepres_trans inner L C L1 C1 L2 C2 : stepres inner L C L1 C1 -> stepres inner L1 C1 L2 C2 ->
  stepres inner L C L2 C2.
Proof.
  intros [A1 A2 A3 A4 A5 A6] [B1 B2 B3 B4 B5 B6]. split; auto; try congruence.
  - intros E. now rewrite B5, A5.
  - intros E. now rewrite B6, A6.
Qed.


(** ** Pages after a step *)
Lemma hinv_two h f g p n c m R : hinv h f g ((p, n) :: (c, m) :: R) -> p <> c.
Proof.
  intros H. apply not_eq_sym. eapply (hinv_neq _ h f g [] p n); [exact H|]. now left.
Qed.

Lemma heap_split h f g p n c m R new dp' n' l' ml r' mr :
  hinv h f g ((p, n) :: (c, m) :: R) -> mrep dp' n' -> mrep l' ml -> mrep r' mr ->
  hinv (upd (upd (upd (upd h f (Some new)) f (Some r')) c (Some l')) p (Some dp')) (S f) g
       ((p, n') :: (c, ml) :: (f, mr) :: R).
Proof.
  intros H H1 H2 H3.
  assert (Ha : hinv (upd h f (Some r')) (S f) g ((p, n) :: (c, m) :: (f, mr) :: R)).
  { apply (hinv_new _ h f g [(p, n); (c, m)] mr R); auto. }
  assert (Hb : hinv (upd (upd h f (Some new)) f (Some r')) (S f) g ((p, n) :: (c, m) :: (f, mr) :: R)).
  { eapply hinv_ext; [|exact Ha]. intros x. unfold upd. now destruct (x =? f). }
  apply (hinv_set _ _ _ _ [] p n n'); auto.
  apply (hinv_set _ _ _ _ [(p, n)] c m ml); auto.
Qed.

Lemma heap_merge_free h f g p n c m r m2 R dp' n' l' m' :
  hinv h f g ((p, n) :: (c, m) :: (r, m2) :: R) -> mrep dp' n' -> mrep l' m' ->
  hinv (upd (upd (upd h c (Some l')) p (Some dp')) r None) f g ((p, n') :: (c, m') :: R).
Proof.
  intros H H1 H2. apply (hinv_release _ _ _ _ [(p, n'); (c, m')] r m2 R). cbn [app].
  apply (hinv_set _ _ _ _ [] p n n'); auto.
  apply (hinv_set _ _ _ _ [(p, n)] c m m'); auto.
Qed.

Lemma heap_merge_retire h f g p n c m r m2 R dr dp' n' l' m' :
  hinv h f g ((p, n) :: (c, m) :: (r, m2) :: R) -> mrep dp' n' -> mrep l' m' ->
  hinv (upd (upd (upd h c (Some l')) r (Some dr)) p (Some dp')) f (r :: g) ((p, n') :: (c, m') :: R).
Proof.
  intros H H1 H2. apply (hinv_set _ _ _ _ [] p n n'); auto. cbn [app].
  apply (hinv_retire _ _ _ _ [(p, n); (c, m')] r m2 R). cbn [app].
  apply (hinv_set _ _ _ _ [(p, n)] c m m'); auto.
Qed.


(** ** The root *)
Lemma last_ne (D : list lvl) (X Y : lvl) : D <> [] -> last D X = last D Y.
Proof.
  induction D as [|a D IH]; [congruence|]. intros _. destruct D as [|b D]; [reflexivity|].
  change (last (b :: D) X = last (b :: D) Y). apply IH. discriminate.
Qed.

Lemma innerb_true D : innerb D = true -> D <> [].
Proof. destruct D; [discriminate|]. intros _. discriminate. Qed.

Lemma top_single top root : entries NegInf top = [(NegInf, root)] -> exists n, top = [(root, n)].
Proof.
  destruct top as [|[a n] [|[b m] top]]; cbn; intros H; inv H. eauto.
Qed.

Lemma lvl_one inner root n : level false inner [(root, n)] -> node_wf false inner NegInf n /\ hi_ext n = PosInf.
Proof. intros (H1 & _ & H2). cbn in H2. auto. Qed.

Lemma root_core k root nr D dr f : mdn [(root, nr)] D -> mrep dr nr -> msplit_ok dr ->
  exists l' r' sep ml mr dn nn,
    mn_split dr f (mn_new (innerb D)) = Some (l', r') /\ mn_inner dr = innerb D /\
    mn_highkey l' = Some sep /\ mn_comphigh l' k = Some (ltb k sep) /\
    mn_root2 sep root f = Some dn /\ mrep dn nn /\ mrep l' ml /\ mrep r' mr /\
    mroom l' /\ mroom r' /\
    mdn [(S f, nn)] ([(root, ml); (f, mr)] :: D) /\
    recs (last D [(root, ml); (f, mr)]) = recs (last D [(root, nr)]) /\
    fnd NegInf k [(root, ml); (f, mr)] = (if ltb k sep then root else f).
Proof.
  intros HD Hr Hsp. pose proof (mdn_level _ _ HD) as HL. destruct (lvl_one _ _ _ HL) as [Hw Hhi].
  set (inner := innerb D) in *.
  assert (Hin := nw_inner _ _ _ _ Hw).
  assert (Hb : body_ok (a_inner nr) (a_slots nr)) by (rewrite Hin; apply (nw_body _ _ _ _ Hw)).
  destruct (M_split dr nr f Hr Hb Hsp)
    as (l' & r' & sep & t1 & t2 & lw1 & lw2 & Hs & Hl & Hrr & Hspec & Hvs & Hrm1 & Hrm2 & _).
  rewrite Hin in Hs, Hl, Hrr.
  destruct (M_root2 sep root f Hvs) as (dn & s0 & Hn & Hrn).
  set (ml := ANode inner (a_removed nr) (if inner then a_next nr else Some f) lw1 (Some sep) t1) in *.
  set (mr := ANode inner false (if inner then None else a_next nr) lw2 (a_high nr) t2) in *.
  set (nn := ANode true false None None None
               [Slot s0 (PP root) false; Slot (Some sep) (PP f) false]) in *.
  assert (Hw' : node_wf false (a_inner nr) NegInf nr) by (rewrite Hin; exact Hw).
  destruct (node_wf_split false NegInf nr sep t1 t2
              (if inner then a_next nr else Some f) (if inner then None else a_next nr) lw1 lw2
              Hw' Hspec) as [Hw1 Hw2]; try discriminate.
  rewrite Hin in Hw1, Hw2.
  assert (Hlv : level false inner [(root, ml); (f, mr)]).
  { apply (seg_split false inner NegInf [] root nr f ml mr []); auto.
    - intros [E|E]; [discriminate|]. unfold ml. now rewrite E.
    - intros [E|E]; [discriminate|]. unfold mr. now rewrite E. }
  exists l', r', sep, ml, mr, dn, nn.
  split; [auto|]. split; [now rewrite (proj1 (M_hdr _ _ Hr))|].
  split; [eapply M_highkey; eauto; reflexivity|].
  split; [rewrite (M_comphigh _ _ k Hl); reflexivity|].
  do 6 (split; [assumption|]).
  split; [|split].
  - split; [|split].
    + split; [apply root2_wf|]. split; [auto|]. reflexivity.
    + cbn. unfold hi_ext. reflexivity.
    + eapply mdn_replace; [exact HD|exact Hlv|]. intros Hi. fold inner in Hi. cbn [kents].
      change (hi_ext ml) with (Key sep). cbn [ml mr a_slots]. rewrite !app_nil_r.
      symmetry. apply (sents_split_spec false NegInf nr sep t1 t2); auto; [now rewrite <- Hi | now rewrite Hin].
  - destruct D as [|C D'].
    + cbn [last recs flat_map snd ml mr a_slots]. rewrite !app_nil_r.
      symmetry. apply (live_split_spec nr sep t1 t2); auto.
    + f_equal. apply last_ne. discriminate.
  - cbn [fnd]. change (hi_ext ml) with (Key sep).
    destruct (elt_dec (Key k) (Key sep)) as [E|E]; destruct (ltb k sep) eqn:E2; auto.
    + cbn in E. unfold klt in E. congruence.
    + exfalso. apply E. exact E2.
    + change (hi_ext mr) with (hi_ext nr). rewrite Hhi.
      destruct (elt_dec (Key k) PosInf) as [|E3]; auto. exfalso. apply E3. exact I.
Qed.

(** An inner root with a single child. *)
Lemma shrink_core root nr D dr : mdn [(root, nr)] D -> mrep dr nr -> mn_rc dr <= 1 -> mn_inner dr = true ->
  mn_rc dr = 1 /\
  exists c mc D', D = [(c, mc)] :: D' /\ mn_child dr 0 = Some c /\ mdn [(c, mc)] D'.
Proof.
  intros HD Hr Hrc Hin. destruct (M_hdr _ _ Hr) as (Hi & _ & _ & Hlen).
  pose proof (lvl_one _ _ _ (mdn_level _ _ HD)) as [Hw _].
  assert (Ht : innerb D = true).
  { rewrite <- (nw_inner _ _ _ _ Hw). congruence. }
  destruct D as [|C D']; [discriminate|]. cbn [innerb] in *. destruct HD as (H1 & H2 & H3).
  pose proof (nw_body _ _ _ _ Hw) as Hb. cbn in Hb.
  destruct (a_slots nr) as [|s0 [|s1 t]] eqn:Es; [destruct Hb| |cbn in Hlen; lia].
  split; [exact Hlen|]. cbn [kents] in H2. rewrite Es in H2. cbn in H2.
  destruct C as [|[c mc] [|? ?]]; cbn in H2; inv H2; [|now destruct p].
  exists (kid s0), mc, D'. split; auto. split; auto.
  eapply (M_child dr nr 0 s0); auto.
  - apply (nw_inner _ _ _ _ Hw).
  - now rewrite Es.
  - eapply inner_kid; [exact Hw|]. rewrite Es. now left.
Qed.

(** From a top-down view back to a tree. *)
Lemma perm_concat_rev (l : list lvl) : Permutation (concat (rev l)) (concat l).
Proof.
  induction l as [|a l IH]; cbn; auto. rewrite concat_app. cbn. rewrite app_nil_r.
  rewrite IH. apply Permutation_app_comm.
Qed.

Lemma mdn_to_tree top D root h f g : mdn top D -> entries NegInf top = [(NegInf, root)] ->
  hinv h f g (top ++ concat D) ->
  exists leafs U, leafs = last D top /\ tree false leafs U root /\ length U = length D /\
    hinv h f g (leafs ++ concat U).
Proof.
  intros HD HE HF. destruct (mdn_tree D top HD [] root) as (leafs & U & E1 & HT & Hlen & _ & Hrev).
  - exact HE.
  - exists leafs, U. split; [auto|]. split; [auto|]. split; [rewrite Hlen; cbn; lia|].
    eapply hinv_perm; [|exact HF]. cbn [app rev] in Hrev.
    change (leafs ++ concat U) with (concat (leafs :: U)). rewrite <- (perm_concat_rev (leafs :: U)).
    cbn [rev]. rewrite Hrev. reflexivity.
Qed.

Lemma tree_to_mdn leafs U root h f g : tree false leafs U root -> hinv h f g (leafs ++ concat U) ->
  exists nr D, mdn [(root, nr)] D /\ hinv h f g ([(root, nr)] ++ concat D) /\
    last D [(root, nr)] = leafs /\ length D = length U.
Proof.
  intros HT HF. destruct (mtree_dn _ _ _ HT) as (top & D & Hrev & HD & Hlen & HE & _).
  destruct (top_single _ _ HE) as (nr & ->). exists nr, D. split; auto. split; [|split; auto].
  - eapply hinv_perm; [|exact HF]. change (leafs ++ concat U) with (concat (leafs :: U)).
    rewrite <- (perm_concat_rev (leafs :: U)), Hrev. reflexivity.
  - apply (f_equal (fun l => last l [])) in Hrev. cbn [rev] in Hrev. rewrite last_last in Hrev.
    rewrite Hrev. symmetry. apply last_cons.
Qed.

End MLSteps.
