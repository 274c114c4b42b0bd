(** The optimistic multi-layer tree: its searches. *)
From Coq Require Import List Arith Bool Lia Sorted Permutation.
From Verif Require Import Params Mem Common Spec NodeAbs SLIface MLIface TreeState Levels TreeHeap
  LevelOps SLModel SLSearch SLSplit SLMerge WalkProofs MLModel MLSearch MLSteps.
Import ListNotations.

Section MLOpt.
Context {P : Params} {O : OrdLaws P} {N : MLOps P} {LW : MLLaws P N} {WK : Leak}.
Notation hinv := (@hinv P WK mn mrep).

Implicit Types (h : addr -> option mn) (g : list addr).

Lemma oml_clean_ok c o d h r f g : h c = Some d ->
  oml_clean c o (St h r f [] g) = Ok tt (St (cleaned h c o) r f [] g).
Proof.
  intros Hc. destruct o as [d'|]; [|reflexivity]. cbn [oml_clean cleaned]. apply mb_tail.
  rewrite mb_assoc, mb_lock; [|congruence|lks].
  rewrite mb_assoc, mb_setn by congruence.
  rewrite mb_unlock; [|hget; congruence|lks]. lkn. reflexivity.
Qed.

Lemma refreshed_body inner lo m m' : node_wf false inner lo m -> refreshed m m' ->
  node_wf false inner lo m' /\ a_next m' = a_next m /\ a_high m' = a_high m /\
  (inner = true -> m' = m) /\ (inner = false -> live (a_slots m') = live (a_slots m)).
Proof.
  intros Hw Href. unfold refreshed in Href. rewrite (nw_inner _ _ _ _ Hw) in Href. destruct inner.
  - subst. split; [auto|]. split; [auto|]. split; [auto|]. split; [auto|discriminate].
  - destruct (node_wf_leaf_upd _ _ _ _ _ _ Hw Href) as (A & B & C & D); [intros ? []|].
    split; [auto|]. split; [auto|]. split; [auto|]. split; [discriminate|auto].
Qed.

Lemma wf_body inner lo m : node_wf false inner lo m -> body_ok (a_inner m) (a_slots m).
Proof. intros H. rewrite (nw_inner _ _ _ _ H). apply (nw_body _ _ _ _ H). Qed.

Lemma refreshed_trans m m1 m2 : refreshed m m1 -> refreshed m1 m2 -> refreshed m m2.
Proof.
  unfold refreshed. intros H1 H2. destruct (a_inner m) eqn:E.
  - subst m1. now rewrite E in H2.
  - destruct H1 as ((F1 & F2 & F3 & F4 & F5) & Hok & Hl & Hi). rewrite F1, E in H2.
    destruct H2 as ((G1 & G2 & G3 & G4 & G5) & Hok2 & Hl2 & Hi2).
    split; [repeat split; congruence|]. split; [auto|]. split; [congruence|]. 
    intros x Hx. apply Hi2 in Hx. apply in_app_or in Hx as [[]|Hx]. apply Hi in Hx. exact Hx.
Qed.

(** CheckNodeStatus of a live node. *)
Lemma oml_status_ok inner lo c d m h r f g : h c = Some d -> mrep d m -> node_wf false inner lo m ->
  exists rc h' d' m', oml_status c (St h r f [] g) = Ok rc (St h' r f [] g) /\
    h' c = Some d' /\ (forall x, x <> c -> h' x = h x) /\
    (forall F1 F2, hinv h f g (F1 ++ (c, m) :: F2) -> hinv h' f g (F1 ++ (c, m') :: F2)) /\
    mrep d' m' /\ refreshed m m' /\
    ((rc = kNeedSplit /\ msplit_ok d') \/ ((rc = kNeedMerge \/ rc = kCompleted) /\ mroom d')).
Proof.
  intros Hc Hr Hw. destruct (M_need_split d m Hr (wf_body _ _ _ Hw)) as (b & o & m1 & Hs & A1 & A2 & A3 & A4).
  unfold oml_status. destruct (M_hdr _ _ Hr) as (_ & Hrm & _). rewrite (nw_alive _ _ _ _ Hw) in Hrm.
  assert (Hc1 := cleaned_same h c o d Hc).
  assert (HF1 : forall F1 F2, hinv h f g (F1 ++ (c, m) :: F2) ->
                  hinv (cleaned h c o) f g (F1 ++ (c, m1) :: F2)).
  { intros F1 F2. now apply cleaned_hinv' with (d := d). }
  destruct b.
  - exists kNeedSplit, (cleaned h c o), (after d o), m1. split.
    { rewrite (mb_getn c d) by auto. rewrite Hrm. unfold oml_check_smos.
      rewrite (mb_getn c d) by auto. rewrite (mb_lift _ _ _ _ Hs). cbv beta iota.
      erewrite mb_ok by (eapply oml_clean_ok; eauto). reflexivity. }
    split; [auto|]. split; [intros; now apply cleaned_diff|]. split; [auto|]. split; [auto|]. split; [auto|].
    left. auto.
  - destruct (refreshed_body _ _ _ _ Hw A2) as (Hw1 & _).
    destruct (M_need_merge (after d o) m1 A1 (wf_body _ _ _ Hw1)) as (b2 & o2 & m2 & Hs2 & B1 & B2 & B3).
    assert (Hc2 := cleaned_same (cleaned h c o) c o2 _ Hc1).
    exists (if b2 then kNeedMerge else kCompleted), (cleaned (cleaned h c o) c o2), (after (after d o) o2), m2.
    split.
    { rewrite (mb_getn c d) by auto. rewrite Hrm. unfold oml_check_smos.
      rewrite (mb_getn c d) by auto. rewrite (mb_lift _ _ _ _ Hs). cbv beta iota.
      erewrite mb_ok by (eapply oml_clean_ok; eauto). cbv beta iota.
      rewrite (mb_getn c (after d o)) by auto. rewrite (mb_lift _ _ _ _ Hs2). cbv beta iota.
      erewrite mb_ok by (eapply oml_clean_ok; eauto). reflexivity. }
    split; [auto|]. split; [intros; rewrite !cleaned_diff; auto|].
    split.
    { intros F1 F2 HF. apply HF1 in HF. eapply cleaned_hinv'; eauto. }
    split; [auto|]. split; [eapply refreshed_trans; eauto|].
    right. split; [destruct b2; auto|]. auto.
Qed.

Section Step.
Context (k : K) (Hk : mvalid k).

Lemma oml_in_node_ok inner lo a d n h r f l g : h a = Some d -> mrep d n -> node_wf false inner lo n ->
  elt (Key k) (hi_ext n) -> oml_in_node d k (St h r f l g) = Ok true (St h r f l g).
Proof.
  intros Ha Hr Hw Hhi. unfold oml_in_node. destruct (M_hdr _ _ Hr) as (_ & Hrm & _).
  rewrite Hrm, (nw_alive _ _ _ _ Hw), (M_comphigh _ _ k Hr). unfold hi_ext in Hhi.
  destruct (a_high n) as [hk|]; [|reflexivity]. cbn in Hhi. unfold klt in Hhi. now rewrite Hhi.
Qed.

Lemma oml_step fu inner L C Fo h r f g :
  level false true L -> level false inner C -> kents NegInf L = entries NegInf C ->
  hinv h f g (Fo ++ L ++ C) -> roomat h (fnd NegInf k L) ->
  exists L' C' h' f' g',
    oml_down_write (S fu) (fnd NegInf k L) k (St h r f [] g) =
    oml_down_write fu (fnd NegInf k C') k (St h' r f' [] g') /\
    stepres inner L C L' C' /\ hinv h' f' g' (Fo ++ L' ++ C') /\
    roomat h' (fnd NegInf k C').
Proof.
  intros HL HC HE HF Hroom.
  destruct (ctx_find inner L C k HL HC HE)
    as (L1 & p & n & L2 & s1 & s & s2 & C1 & c & m & C2 & -> & -> & CX).
  rewrite (cx_fp _ _ _ _ _ _ _ _ _ _ _ _ _ CX) in *.
  destruct Hroom as (dp & Hdp & Hrp).
  set (R := Fo ++ L1 ++ L2 ++ C1 ++ C2).
  assert (HP : forall x y, Permutation (Fo ++ (L1 ++ (p, x) :: L2) ++ C1 ++ (c, y) :: C2)
                             ((p, x) :: (c, y) :: R)).
  { intros x y. unfold R. pfront. apply perm_swap || reflexivity. }
  assert (HF2 := hinv_perm _ _ _ _ _ _ (HP n m) HF).
  assert (Hpc := hinv_two _ _ _ _ _ _ _ _ HF2).
  assert (Hmp : mrep dp n).
  { destruct (hinv_get _ _ _ _ _ p n HF2) as (d & E & Hd); [now left|]. congruence. }
  destruct (hinv_get _ _ _ _ _ c m HF2) as (dc & Hdc & Hmc); [right; now left|].
  assert (Hcp : c <> p) by congruence.
  assert (Hwp := cx_wp _ _ _ _ _ _ _ _ _ _ _ _ _ CX).
  assert (Hwc := cx_wc _ _ _ _ _ _ _ _ _ _ _ _ _ CX).
  cbn [oml_down_write]. rewrite (mb_getn p dp) by auto.
  rewrite (proj1 (M_hdr _ _ Hmp)), (nw_inner _ _ _ _ Hwp).
  erewrite mb_ok by (eapply oml_in_node_ok; eauto; apply (proj2 (cx_rp _ _ _ _ _ _ _ _ _ _ _ _ _ CX))).
  cbv beta iota.
  erewrite mb_ok by (eapply route_ok; eauto). cbv beta iota.
  destruct (oml_status_ok inner _ c dc m h r f g Hdc Hmc Hwc)
    as (rc & h1 & dc1 & m1 & E1 & Hd1c & Hh1 & HFh & Hm1 & Href & Hrc).
  erewrite mb_ok by exact E1. clear E1.
  assert (Hd1p : h1 p = Some dp) by (rewrite Hh1; auto).
  assert (HF3 : hinv h1 f g ((p, n) :: (c, m1) :: R)) by (apply (HFh [(p, n)] R); exact HF2).
  destruct (stepres_none _ _ _ _ _ _ _ _ _ _ _ _ _ CX m1 Href) as [CX1 SR1].
  assert (Hnone : mroom dc1 -> exists L' C' h' f' g',
      oml_down_write fu c k (St h1 r f [] g) =
      oml_down_write fu (fnd NegInf k C') k (St h' r f' [] g') /\
      stepres inner (L1 ++ (p, n) :: L2) (C1 ++ (c, m) :: C2) L' C' /\
      hinv h' f' g' (Fo ++ L' ++ C') /\ roomat h' (fnd NegInf k C')).
  { intros Hrm. exists (L1 ++ (p, n) :: L2), (C1 ++ (c, m1) :: C2), h1, f, g.
    rewrite (cx_fc _ _ _ _ _ _ _ _ _ _ _ _ _ CX1). split; [reflexivity|]. split; [exact SR1|].
    split; [eapply hinv_perm; [symmetry; apply HP|exact HF3]|]. exists dc1. auto. }
  destruct Hrc as [[-> Hsp]|[[-> | ->] Hrm]].
  - (* split *)
    destruct (split_core _ _ _ _ _ _ _ _ _ _ _ _ _ CX1 dp dc1 Hmp Hm1 f Hrp Hsp)
      as (l' & r' & sep & dp' & n' & ml & mr & Ei & Es & Eh & Ecm & Eic & Rp & Rl & Rr & Hrl & Hrr & SR2 & Hfnd).
    pose proof (hinv_fresh_none _ _ _ _ _ HF3) as Hfn.
    assert (Hpf : p <> f) by congruence. assert (Hcf : c <> f) by congruence.
    unfold oml_split. rewrite !mb_assoc. rewrite mb_lock; [|congruence|lks].
    rewrite !mb_assoc. rewrite mb_lock; [|congruence|lks].
    unfold oml_node_split. rewrite !mb_assoc, (mb_getn c dc1) by auto.
    rewrite !mb_assoc, mb_alloc, Ei.
    rewrite !mb_assoc, mb_lock; [|hget; congruence|lks].
    rewrite !mb_assoc, (mb_getn f (mn_new inner)) by hgo.
    rewrite !mb_assoc, (mb_lift _ _ _ _ Es). cbv beta iota.
    rewrite !mb_assoc, mb_setn by (hget; congruence).
    rewrite !mb_assoc, mb_upgrade; [|hget; congruence|lks|lks]. lkn.
    rewrite !mb_assoc, mb_setn by (hget; congruence).
    rewrite mb_ret. unfold oml_valid_split. rewrite !mb_assoc, (mb_getn c l') by hgo.
    rewrite !mb_assoc, (mb_lift _ _ _ _ Eh).
    pose proof (heap_split h1 f g p n c m1 R (mn_new inner) dp' n' l' ml r' mr HF3 Rp Rl Rr) as HF4.
    exists (L1 ++ (p, n') :: L2), (C1 ++ (c, ml) :: (f, mr) :: C2).
    assert (Hst : stepres inner (L1 ++ (p, n) :: L2) (C1 ++ (c, m) :: C2)
                    (L1 ++ (p, n') :: L2) (C1 ++ (c, ml) :: (f, mr) :: C2))
      by (eapply stepres_trans; eauto).
    assert (HF5 : hinv (upd (upd (upd (upd h1 f (Some (mn_new inner))) f (Some r')) c (Some l')) p (Some dp'))
                    (S f) g (Fo ++ (L1 ++ (p, n') :: L2) ++ C1 ++ (c, ml) :: (f, mr) :: C2)).
    { eapply hinv_perm; [|exact HF4]. unfold R. pfront. reflexivity. }
    rewrite Hfnd. exists (upd (upd (upd (upd h1 f (Some (mn_new inner))) f (Some r')) c (Some l')) p (Some dp')), (S f), g.
    split.
    { destruct (ltb k sep).
      - rewrite !mb_assoc, mb_unlock; [|hget; congruence|lks]. lkn.
        rewrite !mb_assoc, mb_unlock; [|hget; congruence|lks]. lkn. rewrite mb_ret. cbv beta iota.
        rewrite !mb_assoc, (mb_getn p dp) by hgo.
        rewrite !mb_assoc, mb_upgrade; [|hget; congruence|lks|lks]. lkn.
        rewrite !mb_assoc, (mb_lift _ _ _ _ Eic).
        rewrite !mb_assoc, mb_setn by (hget; congruence).
        rewrite !mb_assoc, mb_unlock; [|hget; congruence|lks]. lkn. reflexivity.
      - rewrite !mb_assoc, mb_unlock; [|hget; congruence|lks]. lkn.
        rewrite !mb_assoc, mb_unlock; [|hget; congruence|lks]. lkn. rewrite mb_ret. cbv beta iota.
        rewrite !mb_assoc, (mb_getn p dp) by hgo.
        rewrite !mb_assoc, mb_upgrade; [|hget; congruence|lks|lks]. lkn.
        rewrite !mb_assoc, (mb_lift _ _ _ _ Eic).
        rewrite !mb_assoc, mb_setn by (hget; congruence).
        rewrite !mb_assoc, mb_unlock; [|hget; congruence|lks]. lkn. reflexivity. }
    split; [exact Hst|]. split; [exact HF5|].
    destruct (ltb k sep); [exists l' | exists r']; (split; [hgo|auto]).
  - (* merge *)
    unfold oml_merge. rewrite !mb_assoc. rewrite mb_lock; [|congruence|lks].
    rewrite !mb_assoc. rewrite mb_lock; [|congruence|lks].
    rewrite !mb_assoc, (mb_getn p dp) by auto.
    destruct (right_core _ _ _ _ _ _ _ _ _ _ _ _ _ CX1 dp Hmp)
      as [[Hrc _]|(q & mq & C2' & s' & s2' & Hrc & Hs2 & HC2 & Hq)].
    + rewrite Hrc, Nat.eqb_refl. rewrite !mb_assoc. rewrite mb_unlock; [|congruence|lks]. lkn.
      rewrite mb_unlock; [|congruence|lks]. lkn. apply Hnone. auto.
    + rewrite (proj2 (Nat.eqb_neq _ _)) by congruence.
      rewrite !mb_assoc, (mb_lift _ _ _ _ Hq).
      set (R' := Fo ++ L1 ++ L2 ++ C1 ++ C2').
      assert (HF5 : hinv h1 f g ((p, n) :: (c, m1) :: (q, mq) :: R')).
      { eapply hinv_perm; [|exact HF3]. unfold R, R'. rewrite HC2. pfront.
        do 2 apply perm_skip. reflexivity. }
      destruct (hinv_get _ _ _ _ _ q mq HF5) as (dq & Hdq & Hmq); [right; right; now left|].
      assert (Hqp : q <> p).
      { eapply (hinv_neq _ h1 f g [] p n); [exact HF5|]. right. now left. }
      assert (Hqc : q <> c).
      { eapply (hinv_neq _ h1 f g [(p, n)] c m1); [exact HF5|]. right. now left. }
      rewrite !mb_assoc, mb_lock; [|congruence|lks].
      rewrite !mb_assoc, (mb_getn c dc1) by auto. rewrite !mb_assoc, (mb_getn q dq) by auto.
      destruct (mn_can_merge dc1 dq) eqn:Ecm.
      * destruct (merge_core _ _ _ _ _ _ _ _ _ _ _ _ _ CX1 dp dc1 Hmp Hm1 dq q mq C2' s' s2' Hmq HC2 Hs2 Ecm)
          as (l' & dp' & n' & m' & Em & Ed & Rp & Rl & Hrm' & SR3 & Hfnd).
        rewrite !mb_assoc, mb_upgrade; [|congruence|lks|lks]. lkn.
        rewrite !mb_assoc, (mb_lift _ _ _ _ Em).
        rewrite !mb_assoc, mb_setn by congruence.
        rewrite !mb_assoc, mb_unlock; [|hget; congruence|lks]. lkn.
        rewrite !mb_assoc, mb_upgrade; [|hget; congruence|lks|lks]. lkn.
        rewrite !mb_assoc, mb_setn by (hget; congruence).
        rewrite !mb_assoc, mb_unlock; [|hget; congruence|lks]. lkn.
        rewrite !mb_assoc, mb_upgrade; [|hget; congruence|lks|lks]. lkn.
        rewrite !mb_assoc, (mb_lift _ _ _ _ Ed).
        rewrite !mb_assoc, mb_setn by (hget; congruence).
        rewrite !mb_assoc, mb_unlock; [|hget; congruence|lks]. lkn.
        rewrite mb_garbage.
        exists (L1 ++ (p, n') :: L2), (C1 ++ (c, m') :: C2').
        rewrite Hfnd. do 3 eexists. split; [reflexivity|].
        split; [eapply stepres_trans; eauto|].
        split.
        { eapply hinv_perm; [|exact (heap_merge_retire h1 f g p n c m1 q mq R' (mn_mark_removed c dq) dp' n' l' m' HF5 Rp Rl)].
          unfold R'. pfront. reflexivity || apply perm_swap. }
        exists l'. split; [hgo|auto].
      * rewrite !mb_assoc, mb_unlock; [|congruence|lks]. lkn.
        rewrite !mb_assoc. rewrite mb_unlock; [|congruence|lks]. lkn.
        rewrite mb_unlock; [|congruence|lks]. lkn. apply Hnone. auto.
  - apply Hnone. auto.
Qed.

Lemma oml_down_ok : forall D L fu Fo h r f g, mdn L D -> hinv h f g (Fo ++ L ++ concat D) ->
  roomat h (fnd NegInf k L) -> length D < fu ->
  exists L' D' h' f' g',
    oml_down_write fu (fnd NegInf k L) k (St h r f [] g) =
      Ok (fnd NegInf k (last D' L')) (St h' r f' [] g') /\
    mdn L' D' /\ length D' = length D /\ entries NegInf L' = entries NegInf L /\
    recs (last D' L') = recs (last D L) /\ hinv h' f' g' (Fo ++ L' ++ concat D') /\
    roomat h' (fnd NegInf k (last D' L')).
Proof.
  induction D as [|C D IH]; intros L fu Fo h r f g HD HF Hroom Hfu;
    (destruct fu as [|fu]; [lia|]).
  - cbn [mdn] in HD. destruct (lvl_find _ _ _ k HD) as (L1 & p & n & L2 & -> & Hfnd & Hrng).
    cbn [concat] in HF. rewrite app_nil_r in HF.
    exists (L1 ++ (p, n) :: L2), [], h, f, g. cbn [last]. rewrite Hfnd in *.
    destruct (hinv_get _ _ _ _ _ p n HF) as (d & Hd & Hr).
    { apply in_or_app. right. apply in_or_app. right. now left. }
    destruct (seg_wf _ _ _ _ _ _ _ _ _ HD) as (Hw & _).
    split.
    { cbn [oml_down_write]. rewrite (mb_getn p d) by auto.
      now rewrite (proj1 (M_hdr _ _ Hr)), (nw_inner _ _ _ _ Hw). }
    split; [exact HD|]. split; [auto|]. split; [auto|]. split; [auto|].
    split; [cbn [concat]; rewrite app_nil_r; exact HF|]. auto.
  - destruct HD as (HL & HE & HD).
    destruct (oml_step fu (innerb D) L C (Fo ++ concat D) h r f g) as
      (L' & C' & h1 & f1 & g1 & E1 & SR & HF1 & Hroom1); auto.
    + now apply mdn_level.
    + eapply hinv_perm; [|exact HF]. cbn [concat]. rewrite <- !app_assoc. apply Permutation_app_head.
      rewrite app_assoc. rewrite (Permutation_app_comm (concat D)). now rewrite <- app_assoc.
    + assert (HD' : mdn C' D).
      { eapply mdn_replace; [exact HD|apply SR|]. intros E. now apply (sr_k _ _ _ _ _ SR). }
      destruct (IH C' fu (Fo ++ L') h1 r f1 g1 HD') as
        (C'' & D'' & h2 & f2 & g2 & E2 & HD2 & Hlen & HE2 & Hrecs & HF2 & Hroom2); auto.
      * eapply hinv_perm; [|exact HF1]. rewrite <- !app_assoc. apply Permutation_app_head.
        rewrite (Permutation_app_comm (concat D)), <- app_assoc. reflexivity.
      * cbn in Hfu. lia.
      * exists L', (C'' :: D''), h2, f2, g2. rewrite !last_cons. rewrite E1, E2. split; [reflexivity|].
        split; [cbn [mdn]; rewrite HE2; split; [apply SR|split; [apply SR|auto]]|].
        split; [cbn; lia|]. split; [apply SR|]. split.
        { rewrite Hrecs. destruct D as [|X D]; [|f_equal; now apply last_ne].
          cbn [last]. now apply (sr_r _ _ _ _ _ SR). }
        split; [cbn [concat]; rewrite <- app_assoc in HF2; exact HF2|]. auto.
Qed.

Lemma fnd_root inner root nr : level false inner [(root, nr)] -> fnd NegInf k [(root, nr)] = root.
Proof.
  intros H. cbn [fnd]. rewrite (proj2 (lvl_one _ _ _ H)).
  destruct (elt_dec (Key k) PosInf) as [|E3]; auto. exfalso. apply E3. exact I.
Qed.

Lemma refresh_top root n1 n2 D : mdn [(root, n1)] D -> refreshed n1 n2 ->
  mdn [(root, n2)] D /\ recs (last D [(root, n2)]) = recs (last D [(root, n1)]).
Proof.
  intros HD Href. pose proof (lvl_one _ _ _ (mdn_level _ _ HD)) as [Hw _].
  destruct (refreshed_body _ _ _ _ Hw Href) as (Hw2 & Hnx & Hh & Hin & Hleaf).
  destruct D as [|X D]; cbn [innerb] in *.
  - split.
    + cbn [mdn]. apply (seg_replace false false NegInf [] root n1 n2 []); auto.
    + cbn [last recs flat_map snd]. now rewrite Hleaf.
  - rewrite Hin by auto. auto.
Qed.

(** GetRootForWrite. *)
Lemma oml_root_write_ok : forall D root nr fu h f g, mdn [(root, nr)] D ->
  hinv h f g ([(root, nr)] ++ concat D) -> length D < fu ->
  exists U L D' h' root' f' g',
    oml_root_write fu k (St h root f [] g) = Ok (fnd NegInf k L) (St h' root' f' [] g') /\
    ((U = [] /\ entries NegInf L = [(NegInf, root')]) \/
     (exists T, U = [T] /\ level false true T /\ kents NegInf T = entries NegInf L /\
        entries NegInf T = [(NegInf, root')])) /\
    mdn L D' /\ hinv h' f' g' (concat U ++ L ++ concat D') /\
    recs (last D' L) = recs (last D [(root, nr)]) /\ length D' <= length D /\
    roomat h' (fnd NegInf k L).
Proof.
  induction D as [D IH0] using (well_founded_ind (well_founded_ltof _ (@length lvl))).
  assert (IH : forall D0, length D0 < length D -> _) by (intros D0; exact (IH0 D0)). clear IH0.
  intros root nr fu h f g HD HF Hfu. destruct fu as [|fu]; [lia|].
  destruct (hinv_get _ _ _ _ _ root nr HF) as (d0 & Hd0 & Hm0); [now left|].
  pose proof (lvl_one _ _ _ (mdn_level _ _ HD)) as [Hw0 _].
  cbn [oml_root_write]. rewrite mb_getroot.
  destruct (oml_status_ok _ _ root d0 nr h root f g Hd0 Hm0 Hw0)
    as (rc & h1 & d1 & n1 & E1 & Hd1 & Hh1 & HFh & Hm1 & Href & Hrc).
  erewrite mb_ok by exact E1. clear E1.
  assert (HF1 : hinv h1 f g ([(root, n1)] ++ concat D)) by (apply (HFh [] (concat D)); exact HF).
  destruct (refresh_top _ _ _ _ HD Href) as [HD1 Hrecs1].
  assert (HfL := fnd_root _ _ _ (mdn_level _ _ HD1)).
  assert (Hnone : mroom d1 -> exists U L D' h' root' f' g',
    mret root (St h1 root f [] g) = Ok (fnd NegInf k L) (St h' root' f' [] g') /\
    ((U = [] /\ entries NegInf L = [(NegInf, root')]) \/
     (exists T, U = [T] /\ level false true T /\ kents NegInf T = entries NegInf L /\
        entries NegInf T = [(NegInf, root')])) /\
    mdn L D' /\ hinv h' f' g' (concat U ++ L ++ concat D') /\
    recs (last D' L) = recs (last D [(root, nr)]) /\ length D' <= length D /\
    roomat h' (fnd NegInf k L)).
  { intros Hrm. exists [], [(root, n1)], D, h1, root, f, g. rewrite HfL. split; [reflexivity|].
    split; [left; auto|]. split; [auto|]. split; [exact HF1|]. split; [auto|]. split; [auto|].
    exists d1. auto. }
  destruct Hrc as [[-> Hsp]|[[-> | ->] Hrm]].
  - (* root split *)
    destruct (root_core k root n1 D d1 f HD1 Hm1 Hsp)
      as (l' & r' & sep & ml & mr & dn & nn & Es & Ei & Eh & Ecm & Er2 & Rn & Rl & Rr & Hrl & Hrr & HD3 & Hrecs3 & Hfnd).
    pose proof (hinv_fresh_none _ _ _ _ _ HF1) as Hfn.
    assert (Hrf : root <> f) by congruence. assert (Hrf2 : root <> S f).
    { assert (root < f); [|lia]. apply (hi_fresh _ _ _ _ _ HF1). congruence. }
    assert (Hff : f <> S f) by lia.
    exists [[(S f, nn)]], [(root, ml); (f, mr)], D,
      (upd (upd (upd (upd h1 f (Some (mn_new (innerb D)))) f (Some r')) root (Some l')) (S f) (Some dn)),
      (S f), (S (S f)), g.
    split.
    { unfold oml_root_split. rewrite !mb_assoc. rewrite mb_lock; [|congruence|lks].
      rewrite !mb_assoc, mb_getroot, Nat.eqb_refl. unfold oml_node_split.
      rewrite !mb_assoc, (mb_getn root d1) by auto.
      rewrite !mb_assoc, mb_alloc, Ei.
      rewrite !mb_assoc, mb_lock; [|hget; congruence|lks].
      rewrite !mb_assoc, (mb_getn f (mn_new (innerb D))) by hgo.
      rewrite !mb_assoc, (mb_lift _ _ _ _ Es). cbv beta iota.
      rewrite !mb_assoc, mb_setn by (hget; congruence).
      rewrite !mb_assoc, mb_upgrade; [|hget; congruence|lks|lks]. lkn.
      rewrite !mb_assoc, mb_setn by (hget; congruence).
      rewrite mb_ret. rewrite !mb_assoc, (mb_getn root l') by hgo.
      rewrite !mb_assoc, (mb_lift _ _ _ _ Eh), !mb_assoc, (mb_lift _ _ _ _ Er2), !mb_assoc, mb_alloc.
      rewrite !mb_assoc, mb_setroot.
      unfold oml_valid_split. rewrite !mb_assoc, (mb_getn root l') by hgo.
      rewrite !mb_assoc, (mb_lift _ _ _ _ Eh). rewrite Hfnd. destruct (ltb k sep).
      - rewrite !mb_assoc, mb_unlock; [|hget; congruence|lks]. lkn.
        rewrite !mb_assoc, mb_unlock; [|hget; congruence|lks]. lkn. reflexivity.
      - rewrite !mb_assoc, mb_unlock; [|hget; congruence|lks]. lkn.
        rewrite !mb_assoc, mb_unlock; [|hget; congruence|lks]. lkn. reflexivity. }
    destruct HD3 as (B1 & B2 & B3). split; [right; eauto 10|]. split; [auto|].
    split.
    { cbn [concat]. rewrite app_nil_r. apply (hinv_new _ _ (S f) g [] nn). 2: exact Rn. cbn [app].
      apply (hinv_set _ _ _ _ [] root n1 ml); auto. cbn [app].
      apply (hinv_ext _ (upd h1 f (Some r'))).
      - intros x. unfold upd. now destruct (x =? f).
      - apply (hinv_new _ h1 f g [(root, n1)] mr (concat D)); auto. }
    split; [congruence|]. split; [auto|]. rewrite Hfnd.
    destruct (ltb k sep); [exists l' | exists r']; (split; [hgo|auto]).
  - (* maybe shrink *)
    unfold oml_shrink. rewrite !mb_assoc, (mb_getn root d1) by auto.
    destruct (Nat.ltb 1 (mn_rc d1) || negb (mn_inner d1)) eqn:E.
    + rewrite mb_ret. now apply Hnone.
    + apply orb_false_iff in E as [E1 E2]. apply Nat.ltb_ge in E1. apply negb_false_iff in E2.
      destruct (shrink_core _ _ _ _ HD1 Hm1 E1 E2) as (_ & c & mc & D' & -> & Hc & HD').
      assert (HF2 : hinv h1 f g ((root, n1) :: (c, mc) :: concat D')) by exact HF1.
      assert (Hrc := hinv_two _ _ _ _ _ _ _ _ HF2).
      rewrite !mb_assoc, mb_lock; [|congruence|lks].
      rewrite !mb_assoc, mb_getroot, Nat.eqb_refl.
      rewrite !mb_assoc, mb_garbage.
      rewrite !mb_assoc, mb_upgrade; [|congruence|lks|lks]. lkn.
      rewrite !mb_assoc, (mb_lift _ _ _ _ Hc).
      rewrite !mb_assoc, mb_setn by congruence.
      rewrite !mb_assoc, mb_unlock; [|hget; congruence|lks]. lkn.
      rewrite !mb_assoc, mb_setroot, mb_ret.
      destruct (IH D' ltac:(cbn; lia) c mc fu (upd h1 root (Some (mn_remove_root d1))) f (root :: g) HD')
        as (U & L & D2 & h' & root' & f' & g' & A1 & A2 & A3 & A4 & A5 & A6 & A7).
      * apply (hinv_retire _ h1 f g [] root n1). exact HF2.
      * cbn in Hfu. lia.
      * exists U, L, D2, h', root', f', g'. split; [exact A1|]. split; [exact A2|]. split; [exact A3|].
        split; [exact A4|]. split; [|split; [cbn; lia|exact A7]].
        rewrite A5. f_equal. symmetry. apply (last_cons [(c, mc)] D').
  - now apply Hnone.
Qed.

(** SearchLeafNodeForWrite. *)
Lemma oml_search_write_ok leafs U root fu h f g : tree false leafs U root ->
  hinv h f g (leafs ++ concat U) -> length U < fu ->
  exists leafs' U' h' root' f' g',
    oml_search_write fu k (St h root f [] g) = Ok (fnd NegInf k leafs') (St h' root' f' [] g') /\
    tree false leafs' U' root' /\ hinv h' f' g' (leafs' ++ concat U') /\
    recs leafs' = recs leafs /\ length U' <= S (length U) /\ roomat h' (fnd NegInf k leafs').
Proof.
  intros HT HF Hfu. destruct (tree_to_mdn _ _ _ _ _ _ HT HF) as (nr & D & HD & HFD & Hlast & Hlen).
  destruct (oml_root_write_ok D root nr fu h f g HD HFD ltac:(lia))
    as (U1 & L & D1 & h1 & r1 & f1 & g1 & E1 & Htop & HD1 & HF1 & Hrecs1 & Hlen1 & Hroom1).
  destruct (oml_down_ok D1 L fu (concat U1) h1 r1 f1 g1 HD1 HF1 Hroom1 ltac:(lia))
    as (L' & D' & h' & f' & g' & E2 & HD2 & Hlen2 & HE2 & Hrecs2 & HF2 & Hroom2).
  unfold oml_search_write. erewrite mb_ok by exact E1. rewrite E2.
  assert (Hfin : exists leafs' U', leafs' = last D' L' /\ tree false leafs' U' r1 /\
     length U' <= S (length U) /\ hinv h' f' g' (leafs' ++ concat U')).
  { destruct Htop as [[-> HE]|(T & -> & HT1 & HT2 & HT3)].
    - destruct (mdn_to_tree L' D' r1 h' f' g' HD2) as (leafs' & U' & A1 & A2 & A3 & A4).
      + congruence.
      + exact HF2.
      + exists leafs', U'. split; [auto|]. split; [auto|]. split; [lia|auto].
    - destruct (mdn_to_tree T (L' :: D') r1 h' f' g') as (leafs' & U' & A1 & A2 & A3 & A4).
      + cbn [mdn]. rewrite HE2. auto.
      + auto.
      + cbn [concat] in *. rewrite app_nil_r in HF2. exact HF2.
      + exists leafs', U'. rewrite last_cons in A1. split; [auto|]. split; [auto|].
        split; [cbn in A3; lia|auto]. }
  destruct Hfin as (leafs' & U' & -> & A2 & A3 & A4).
  exists (last D' L'), U', h', r1, f', g'. split; [reflexivity|]. do 2 (split; [assumption|]).
  split; [congruence|]. auto.
Qed.

(** ** Searches that only read *)
Lemma oml_read_down h r f g F l : hinv h f g F ->
  forall D L fu, mdn L D -> incl (L ++ concat D) F -> length D < fu ->
  oml_search_read fu (fnd NegInf k L) k (St h r f l g) =
  Ok (fnd NegInf k (last D L)) (St h r f l g).
Proof.
  intros HF. induction D as [|C D IH]; intros L fu HD Hi Hfu; (destruct fu as [|fu]; [lia|]); cbn [oml_search_read].
  - cbn [mdn] in HD. destruct (lvl_find _ _ _ k HD) as (L1 & p & n & L2 & EL & Hfp & _). cbn [last].
    rewrite Hfp. subst L. destruct (hinv_get _ _ _ _ _ p n HF) as (d & Hd & Hr).
    { apply Hi. apply in_or_app. left. apply in_or_app. right. now left. }
    destruct (seg_wf _ _ _ _ _ _ _ _ _ HD) as (Hw & _).
    rewrite (mb_getn p d) by auto. now rewrite (proj1 (M_hdr _ _ Hr)), (nw_inner _ _ _ _ Hw).
  - destruct HD as (HL & HE & HD). pose proof (mdn_level _ _ HD) as HC.
    destruct (ctx_find _ L C k HL HC HE)
      as (L1 & p & n & L2 & s1 & s & s2 & C1 & c & m & C2 & -> & -> & CX).
    rewrite (cx_fp _ _ _ _ _ _ _ _ _ _ _ _ _ CX), last_cons.
    assert (Hfc := cx_fc _ _ _ _ _ _ _ _ _ _ _ _ _ CX).
    assert (Hwp := cx_wp _ _ _ _ _ _ _ _ _ _ _ _ _ CX).
    destruct (hinv_get _ _ _ _ _ p n HF) as (dp & Hdp & Hmp).
    { apply Hi. apply in_or_app. left. apply in_or_app. right. now left. }
    rewrite (mb_getn p dp) by auto. rewrite (proj1 (M_hdr _ _ Hmp)), (nw_inner _ _ _ _ Hwp).
    erewrite mb_ok by (eapply oml_in_node_ok; eauto; apply (proj2 (cx_rp _ _ _ _ _ _ _ _ _ _ _ _ _ CX))).
    cbv beta iota.
    erewrite mb_ok by (eapply route_ok; eauto). cbv beta iota.
    pose proof (IH (C1 ++ (c, m) :: C2) fu HD) as HI. rewrite Hfc in HI. apply HI.
    + intros x Hx. apply Hi. apply in_or_app. right. exact Hx.
    + cbn in Hfu. lia.
Qed.

Lemma oml_search_read_ok leafs U root fu h f g l : tree false leafs U root ->
  hinv h f g (leafs ++ concat U) -> length U < fu ->
  oml_search_read fu root k (St h root f l g) = Ok (fnd NegInf k leafs) (St h root f l g).
Proof.
  intros HT HF Hfu. destruct (tree_to_mdn _ _ _ _ _ _ HT HF) as (nr & D & HD & HFD & Hlast & Hlen).
  pose proof (oml_read_down h root f g _ l HFD D [(root, nr)] fu HD (incl_refl _) ltac:(lia)) as E.
  rewrite (fnd_root _ _ _ (mdn_level _ _ HD)), Hlast in E. exact E.
Qed.

Lemma oml_leaf_ok fu leafs h r f g l F : level false false leafs -> hinv h f g F -> incl leafs F -> 0 < fu ->
  oml_leaf fu (fnd NegInf k leafs) k (St h r f l g) = Ok (fnd NegInf k leafs) (St h r f l g).
Proof.
  intros HL HF Hi Hfu. destruct fu as [|fu]; [lia|].
  destruct (lvl_find _ _ _ k HL) as (L1 & p & n & L2 & EL & -> & Hrng). subst leafs.
  destruct (hinv_get _ _ _ _ _ p n HF) as (d & Hd & Hr).
  { apply Hi. apply in_or_app. right. now left. }
  destruct (seg_wf _ _ _ _ _ _ _ _ _ HL) as (Hw & _).
  unfold oml_leaf. cbn [oml_check_range]. rewrite !mb_assoc, (mb_getn p d) by auto.
  rewrite mb_assoc. erewrite mb_ok by (eapply oml_in_node_ok; eauto; apply (proj2 Hrng)).
  reflexivity.
Qed.

End Step.
End MLOpt.
