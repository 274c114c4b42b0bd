(** The pessimistic multi-layer tree: its searches. *)
From Coq Require Import List Arith Bool Lia Sorted Permutation.
From Verif Require Import Params Mem Common Spec NodeAbs SLIface MLIface TreeState Levels TreeHeap
  LevelOps SLModel SLSearch SLSplit SLMerge WalkProofs MLModel MLSearch MLSteps.
Import ListNotations.

Section MLPess.
Context {P : Params} {O : OrdLaws P} {N : MLOps P} {LW : MLLaws P N} {WK : Leak}.
Notation hinv := (@hinv P WK mn mrep).

Implicit Types (h : addr -> option mn) (g : list addr).

Lemma pml_clean_ok c q o d h r f g : h c = Some d -> c <> q ->
  pml_clean c o (St h r f [(c, LSIX); (q, LSIX)] g) =
  Ok tt (St (cleaned h c o) r f [(c, LSIX); (q, LSIX)] g).
Proof.
  intros Hc Hq. destruct o as [d'|]; [|reflexivity]. cbn [pml_clean cleaned]. apply mb_tail.
  rewrite mb_assoc, mb_upgrade; [|congruence|lks|lks]. lkn.
  rewrite mb_assoc, mb_setn by congruence.
  rewrite mb_downgrade; [|hget; congruence|lks]. lkn. reflexivity.
Qed.

Lemma pml_need_split_ok c q d m h r f g : h c = Some d -> mrep d m -> c <> q ->
  body_ok (a_inner m) (a_slots m) ->
  exists b o m', pml_need_split c (St h r f [(c, LSIX); (q, LSIX)] g) =
      Ok b (St (cleaned h c o) r f [(c, LSIX); (q, LSIX)] g) /\
    mrep (after d o) m' /\ refreshed m m' /\
    (b = true -> msplit_ok (after d o)) /\ (b = false -> mroom (after d o)).
Proof.
  intros Hc Hr Hq Hb. destruct (M_need_split d m Hr Hb) as (b & o & m' & Hs & H1 & H2 & H3 & H4).
  exists b, o, m'. split; [|auto]. unfold pml_need_split. apply mb_tail.
  rewrite mb_assoc, (mb_getn c d) by auto. rewrite mb_assoc, (mb_lift _ _ _ _ Hs). cbv beta iota.
  rewrite mb_assoc. erewrite mb_ok by (eapply pml_clean_ok; eauto). reflexivity.
Qed.

Lemma pml_need_merge_ok c q d m h r f g : h c = Some d -> mrep d m -> c <> q ->
  body_ok (a_inner m) (a_slots m) ->
  exists b o m', pml_need_merge c (St h r f [(c, LSIX); (q, LSIX)] g) =
      Ok b (St (cleaned h c o) r f [(c, LSIX); (q, LSIX)] g) /\
    mrep (after d o) m' /\ refreshed m m' /\ (mroom d -> mroom (after d o)).
Proof.
  intros Hc Hr Hq Hb. destruct (M_need_merge d m Hr Hb) as (b & o & m' & Hs & H1 & H2 & H3).
  exists b, o, m'. split; [|auto]. unfold pml_need_merge. apply mb_tail.
  rewrite mb_assoc, (mb_getn c d) by auto. rewrite mb_assoc, (mb_lift _ _ _ _ Hs). cbv beta iota.
  rewrite mb_assoc. erewrite mb_ok by (eapply pml_clean_ok; eauto). reflexivity.
Qed.

Section Step.
Context (k : K) (Hk : mvalid k).

(** One step from a node with room to the child responsible for the key. *)
Lemma pml_step fu inner L C Fo h r f g :
  level false true L -> level false inner C -> kents NegInf L = entries NegInf C ->
  hinv h f g (Fo ++ L ++ C) -> h 0 = None -> 0 < f -> roomat h (fnd NegInf k L) ->
  exists L' C' h' f',
    pml_down_write (S fu) (fnd NegInf k L) k (St h r f [(fnd NegInf k L, LSIX)] g) =
    pml_down_write fu (fnd NegInf k C') k (St h' r f' [(fnd NegInf k C', LSIX)] g) /\
    stepres inner L C L' C' /\ hinv h' f' g (Fo ++ L' ++ C') /\ h' 0 = None /\ 0 < f' /\
    roomat h' (fnd NegInf k C').
Proof.
  intros HL HC HE HF H0 Hf0 Hroom.
  destruct (ctx_find inner L C k HL HC HE)
    as (L1 & p & n & L2 & s1 & s & s2 & C1 & c & m & C2 & -> & -> & CX).
  rewrite (cx_fp _ _ _ _ _ _ _ _ _ _ _ _ _ CX) in *.
  destruct Hroom as (dp & Hdp & Hrp).
  set (R := Fo ++ L1 ++ L2 ++ C1 ++ C2).
  assert (HP : forall x y, Permutation (Fo ++ (L1 ++ (p, x) :: L2) ++ C1 ++ (c, y) :: C2)
                             ((p, x) :: (c, y) :: R)).
  { intros x y. unfold R. pfront. apply perm_swap || reflexivity. }
  assert (HF2 := hinv_perm _ _ _ _ _ _ (HP n m) HF).
  assert (Hpc := hinv_two _ _ _ _ _ _ _ _ HF2).
  assert (Hmp : mrep dp n).
  { destruct (hinv_get _ _ _ _ _ p n HF2) as (d & E & Hd); [now left|]. congruence. }
  destruct (hinv_get _ _ _ _ _ c m HF2) as (dc & Hdc & Hmc); [right; now left|].
  assert (Hp0 : p <> 0) by congruence. assert (Hc0 : c <> 0) by congruence.
  assert (Hf1 : f <> 0) by lia.
  assert (Hcp : c <> p) by congruence.
  cbn [pml_down_write]. rewrite (mb_getn p dp) by auto.
  rewrite (proj1 (M_hdr _ _ Hmp)), (nw_inner _ _ _ _ (cx_wp _ _ _ _ _ _ _ _ _ _ _ _ _ CX)).
  erewrite mb_ok by (eapply route_ok; eauto). cbv beta iota.
  rewrite mb_lock; [|congruence|lks].
  destruct (pml_need_split_ok c p dc m h r f g Hdc Hmc Hcp (cx_body _ _ _ _ _ _ _ _ _ _ _ _ _ CX))
    as (b & o & m1 & E1 & Hm1 & Href & Hb1 & Hb2).
  erewrite mb_ok by exact E1. clear E1.
  set (h1 := cleaned h c o).
  assert (Hd1c : h1 c = Some (after dc o)) by now apply cleaned_same.
  assert (Hd1p : h1 p = Some dp) by (unfold h1; rewrite cleaned_diff; auto).
  assert (Hd10 : h1 0 = None) by (unfold h1; rewrite cleaned_diff; auto).
  assert (HF3 : hinv h1 f g ((p, n) :: (c, m1) :: R)).
  { apply (cleaned_hinv' h f g [(p, n)] c m m1 R o dc); auto. }
  set (dc1 := after dc o) in *. clearbody h1 dc1. clear o.
  destruct (stepres_none _ _ _ _ _ _ _ _ _ _ _ _ _ CX m1 Href) as [CX1 SR1].
  destruct b.
  - (* split *)
    destruct (split_core _ _ _ _ _ _ _ _ _ _ _ _ _ CX1 dp dc1 Hmp Hm1 f Hrp (Hb1 eq_refl))
      as (l' & r' & sep & dp' & n' & ml & mr & Ei & Es & Eh & Ecm & Eic & Rp & Rl & Rr & Hrl & Hrr & SR2 & Hfnd).
    pose proof (hinv_fresh_none _ _ _ _ _ HF3) as Hfn.
    assert (Hpf : p <> f) by congruence. assert (Hcf : c <> f) by congruence.
    unfold pml_split. rewrite !mb_assoc. rewrite mb_upgrade; [|congruence|lks|lks]. lkn.
    unfold pml_node_split. rewrite !mb_assoc, (mb_getn c dc1) by auto.
    rewrite !mb_assoc, mb_alloc, Ei.
    rewrite !mb_assoc, (mb_getn f (mn_new inner)) by hgo.
    rewrite !mb_assoc, (mb_lift _ _ _ _ Es). cbv beta iota.
    rewrite !mb_assoc, mb_setn by (hget; congruence).
    rewrite !mb_assoc, mb_upgrade; [|hget; congruence|lks|lks]. lkn.
    rewrite !mb_assoc, mb_setn by (hget; congruence).
    rewrite !mb_assoc, mb_downgrade; [|hget; congruence|lks]. lkn.
    rewrite !mb_assoc, mb_lock; [|hget; congruence|lks].
    rewrite mb_ret. rewrite !mb_assoc, (mb_getn c l') by hgo.
    rewrite !mb_assoc, (mb_lift _ _ _ _ Eh).
    rewrite !mb_assoc, (mb_getn p dp) by hgo.
    rewrite !mb_assoc, (mb_lift _ _ _ _ Eic).
    rewrite !mb_assoc, mb_setn by (hget; congruence).
    rewrite !mb_assoc, mb_unlock; [|hget; congruence|lks]. lkn.
    rewrite mb_ret. unfold pml_valid_split. rewrite !mb_assoc, (mb_getn c l') by hgo.
    rewrite !mb_assoc, (mb_lift _ _ _ _ Ecm).
    pose proof (heap_split h1 f g p n c m1 R (mn_new inner) dp' n' l' ml r' mr HF3 Rp Rl Rr) as HF4.
    exists (L1 ++ (p, n') :: L2), (C1 ++ (c, ml) :: (f, mr) :: C2).
    assert (Hst : stepres inner (L1 ++ (p, n) :: L2) (C1 ++ (c, m) :: C2)
                    (L1 ++ (p, n') :: L2) (C1 ++ (c, ml) :: (f, mr) :: C2))
      by (eapply stepres_trans; eauto).
    assert (HF5 : hinv (upd (upd (upd (upd h1 f (Some (mn_new inner))) f (Some r')) c (Some l')) p (Some dp'))
                    (S f) g (Fo ++ (L1 ++ (p, n') :: L2) ++ C1 ++ (c, ml) :: (f, mr) :: C2)).
    { eapply hinv_perm; [|exact HF4]. unfold R. pfront. reflexivity. }
    rewrite Hfnd. destruct (ltb k sep).
    + rewrite !mb_assoc, mb_unlock; [|hget; congruence|lks]. lkn. rewrite mb_ret.
      do 2 eexists. split; [reflexivity|]. split; [exact Hst|]. split; [exact HF5|].
      split; [hgo|]. split; [lia|]. exists l'. split; [hgo|auto].
    + rewrite !mb_assoc, mb_unlock; [|hget; congruence|lks]. lkn. rewrite mb_ret.
      do 2 eexists. split; [reflexivity|]. split; [exact Hst|]. split; [exact HF5|].
      split; [hgo|]. split; [lia|]. exists r'. split; [hgo|auto].
  - (* no split *)
    destruct (pml_need_merge_ok c p dc1 m1 h1 r f g Hd1c Hm1 Hcp (cx_body _ _ _ _ _ _ _ _ _ _ _ _ _ CX1))
      as (bm & o2 & m2 & E2 & Hm2 & Href2 & Hroom2).
    erewrite mb_ok by exact E2. clear E2. specialize (Hroom2 (Hb2 eq_refl)).
    set (h2 := cleaned h1 c o2).
    assert (Hd2c : h2 c = Some (after dc1 o2)) by now apply cleaned_same.
    assert (Hd2p : h2 p = Some dp) by (unfold h2; rewrite cleaned_diff; auto).
    assert (Hd20 : h2 0 = None) by (unfold h2; rewrite cleaned_diff; auto).
    assert (HF4 : hinv h2 f g ((p, n) :: (c, m2) :: R)).
    { apply (cleaned_hinv' h1 f g [(p, n)] c m1 m2 R o2 dc1); auto. }
    set (dc2 := after dc1 o2) in *. clearbody h2 dc2. clear o2.
    destruct (stepres_none _ _ _ _ _ _ _ _ _ _ _ _ _ CX1 m2 Href2) as [CX2 SR2].
    assert (SR : stepres inner (L1 ++ (p, n) :: L2) (C1 ++ (c, m) :: C2)
                   (L1 ++ (p, n) :: L2) (C1 ++ (c, m2) :: C2)) by (eapply stepres_trans; eauto).
    assert (Hnone : exists L' C' h' f',
      pml_down_write fu c k (St h2 r f [(c, LSIX)] g) =
      pml_down_write fu (fnd NegInf k C') k (St h' r f' [(fnd NegInf k C', LSIX)] g) /\
      stepres inner (L1 ++ (p, n) :: L2) (C1 ++ (c, m) :: C2) L' C' /\
      hinv h' f' g (Fo ++ L' ++ C') /\ h' 0 = None /\ 0 < f' /\ roomat h' (fnd NegInf k C')).
    { exists (L1 ++ (p, n) :: L2), (C1 ++ (c, m2) :: C2), h2, f.
      rewrite (cx_fc _ _ _ _ _ _ _ _ _ _ _ _ _ CX2). split; [reflexivity|]. split; [exact SR|].
      split; [eapply hinv_perm; [symmetry; apply HP|exact HF4]|]. split; [auto|]. split; [auto|].
      exists dc2. auto. }
    destruct bm.
    + unfold pml_merge. rewrite !mb_assoc, (mb_getn p dp) by auto.
      destruct (right_core _ _ _ _ _ _ _ _ _ _ _ _ _ CX2 dp Hmp)
        as [[Hrc _]|(q & mq & C2' & s' & s2' & Hrc & Hs2 & HC2 & Hq)].
      * rewrite Hrc, Nat.eqb_refl. rewrite mb_unlock; [|congruence|lks]. lkn. exact Hnone.
      * rewrite (proj2 (Nat.eqb_neq _ _)) by congruence.
        rewrite !mb_assoc, (mb_lift _ _ _ _ Hq).
        set (R' := Fo ++ L1 ++ L2 ++ C1 ++ C2').
        assert (HF5 : hinv h2 f g ((p, n) :: (c, m2) :: (q, mq) :: R')).
        { eapply hinv_perm; [|exact HF4]. unfold R, R'. rewrite HC2. pfront.
          do 2 apply perm_skip. reflexivity. }
        destruct (hinv_get _ _ _ _ _ q mq HF5) as (dq & Hdq & Hmq); [right; right; now left|].
        assert (Hqp : q <> p).
        { eapply (hinv_neq _ h2 f g [] p n); [exact HF5|]. right. now left. }
        assert (Hqc : q <> c).
        { eapply (hinv_neq _ h2 f g [(p, n)] c m2); [exact HF5|]. right. now left. }
        assert (Hq0 : q <> 0) by congruence.
        rewrite !mb_assoc, mb_lock; [|congruence|lks].
        rewrite !mb_assoc, (mb_getn c dc2) by auto. rewrite !mb_assoc, (mb_getn q dq) by auto.
        destruct (mn_can_merge dc2 dq) eqn:Ecm.
        -- destruct (merge_core _ _ _ _ _ _ _ _ _ _ _ _ _ CX2 dp dc2 Hmp Hm2 dq q mq C2' s' s2' Hmq HC2 Hs2 Ecm)
             as (l' & dp' & n' & m' & Em & Ed & Rp & Rl & Hrm & SR3 & Hfnd).
           rewrite !mb_assoc, mb_upgrade; [|congruence|lks|lks]. lkn.
           rewrite !mb_assoc, mb_upgrade; [|congruence|lks|lks]. lkn.
           rewrite !mb_assoc, mb_upgrade; [|congruence|lks|lks]. lkn.
           rewrite !mb_assoc, (mb_lift _ _ _ _ Em).
           rewrite !mb_assoc, mb_setn by congruence.
           rewrite !mb_assoc, mb_downgrade; [|hget; congruence|lks]. lkn.
           rewrite !mb_assoc, (mb_lift _ _ _ _ Ed).
           rewrite !mb_assoc, mb_setn by (hget; congruence).
           rewrite !mb_assoc, mb_unlock; [|hget; congruence|lks]. lkn.
           rewrite mb_free by (hget; congruence).
           cbn [filter fst]. neqb. cbn [negb].
           exists (L1 ++ (p, n') :: L2), (C1 ++ (c, m') :: C2').
           rewrite Hfnd. do 2 eexists. split; [reflexivity|].
           split; [eapply stepres_trans; eauto|].
           split.
           { eapply hinv_perm; [|exact (heap_merge_free h2 f g p n c m2 q mq R' dp' n' l' m' HF5 Rp Rl)].
             unfold R'. pfront. reflexivity || apply perm_swap. }
           split; [hgo|]. split; [lia|]. exists l'. split; [hgo|auto].
        -- rewrite !mb_assoc, mb_unlock; [|congruence|lks]. lkn.
           rewrite mb_unlock; [|congruence|lks]. lkn. exact Hnone.
    + rewrite mb_unlock; [|congruence|lks]. lkn. exact Hnone.
Qed.

(** The descent to the leaf. *)
Lemma pml_down_ok : forall D L fu Fo h r f g, mdn L D -> hinv h f g (Fo ++ L ++ concat D) ->
  h 0 = None -> 0 < f -> roomat h (fnd NegInf k L) -> length D < fu ->
  exists L' D' h' f',
    pml_down_write fu (fnd NegInf k L) k (St h r f [(fnd NegInf k L, LSIX)] g) =
      Ok (fnd NegInf k (last D' L')) (St h' r f' [(fnd NegInf k (last D' L'), LX)] g) /\
    mdn L' D' /\ length D' = length D /\ entries NegInf L' = entries NegInf L /\
    recs (last D' L') = recs (last D L) /\ hinv h' f' g (Fo ++ L' ++ concat D') /\
    h' 0 = None /\ 0 < f' /\ roomat h' (fnd NegInf k (last D' L')).
Proof.
  induction D as [|C D IH]; intros L fu Fo h r f g HD HF H0 Hf Hroom Hfu;
    (destruct fu as [|fu]; [lia|]).
  - cbn [mdn] in HD. destruct (lvl_find _ _ _ k HD) as (L1 & p & n & L2 & -> & Hfnd & Hrng).
    cbn [concat] in HF. rewrite app_nil_r in HF.
    exists (L1 ++ (p, n) :: L2), [], h, f. cbn [last]. rewrite Hfnd in *.
    destruct (hinv_get _ _ _ _ _ p n HF) as (d & Hd & Hr).
    { apply in_or_app. right. apply in_or_app. right. now left. }
    destruct (seg_wf _ _ _ _ _ _ _ _ _ HD) as (Hw & _).
    split.
    { cbn [pml_down_write]. rewrite (mb_getn p d) by auto.
      rewrite (proj1 (M_hdr _ _ Hr)), (nw_inner _ _ _ _ Hw).
      rewrite mb_upgrade; [|congruence|lks|lks]. lkn. reflexivity. }
    split; [exact HD|]. split; [auto|]. split; [auto|]. split; [auto|].
    split; [cbn [concat]; rewrite app_nil_r; exact HF|]. auto.
  - destruct HD as (HL & HE & HD).
    destruct (pml_step fu (innerb D) L C (Fo ++ concat D) h r f g) as
      (L' & C' & h1 & f1 & E1 & SR & HF1 & H01 & Hf1 & Hroom1); auto.
    + now apply mdn_level.
    + eapply hinv_perm; [|exact HF]. cbn [concat]. rewrite <- !app_assoc. apply Permutation_app_head.
      rewrite app_assoc. rewrite (Permutation_app_comm (concat D)). now rewrite <- app_assoc.
    + assert (HD' : mdn C' D).
      { eapply mdn_replace; [exact HD|apply SR|]. intros E. now apply (sr_k _ _ _ _ _ SR). }
      destruct (IH C' fu (Fo ++ L') h1 r f1 g HD') as
        (C'' & D'' & h2 & f2 & E2 & HD2 & Hlen & HE2 & Hrecs & HF2 & H02 & Hf2 & Hroom2); auto.
      * eapply hinv_perm; [|exact HF1]. rewrite <- !app_assoc. apply Permutation_app_head.
        rewrite (Permutation_app_comm (concat D)), <- app_assoc. reflexivity.
      * cbn in Hfu. lia.
      * exists L', (C'' :: D''), h2, f2. rewrite !last_cons. rewrite E1, E2. split; [reflexivity|].
        split; [cbn [mdn]; rewrite HE2; split; [apply SR|split; [apply SR|auto]]|].
        split; [cbn; lia|]. split; [apply SR|]. split.
        { rewrite Hrecs. destruct D as [|X D]; [|f_equal; now apply last_ne].
          cbn [last]. now apply (sr_r _ _ _ _ _ SR). }
        split; [cbn [concat]; rewrite <- app_assoc in HF2; exact HF2|]. auto.
Qed.

(** The root. *)
Definition two (a b : addr) (l : list (addr * lmode)) : Prop :=
  l = [(a, LSIX); (b, LSIX)] \/ l = [(b, LSIX); (a, LSIX)].

Lemma pml_shrink_ok : forall D root nr fu h f g l, mdn [(root, nr)] D ->
  hinv h f g ([(root, nr)] ++ concat D) -> h 0 = None -> two root 0 l -> length D < fu ->
  exists h' root' nr' D' l',
    pml_shrink fu (St h root f l g) = Ok tt (St h' root' f l' g) /\
    mdn [(root', nr')] D' /\ hinv h' f g ([(root', nr')] ++ concat D') /\ h' 0 = None /\
    two root' 0 l' /\ last D' [(root', nr')] = last D [(root, nr)] /\ length D' <= length D.
Proof.
  induction D as [|C D IH]; intros root nr fu h f g l HD HF H0 Hl Hfu;
    (destruct fu as [|fu]; [lia|]).
  - destruct (hinv_get _ _ _ _ _ root nr HF) as (d & Hd & Hr); [now left|].
    pose proof (lvl_one _ _ _ (mdn_level _ _ HD)) as [Hw _].
    exists h, root, nr, [], l. split; [|auto 10].
    cbn [pml_shrink]. rewrite mb_getroot, (mb_getn root d) by auto.
    rewrite (proj1 (M_hdr _ _ Hr)), (nw_inner _ _ _ _ Hw). cbn [innerb]. now rewrite andb_false_r.
  - destruct (hinv_get _ _ _ _ _ root nr HF) as (d & Hd & Hr); [now left|].
    assert (Hr0 : root <> 0) by congruence.
    cbn [pml_shrink]. rewrite mb_getroot, (mb_getn root d) by auto.
    destruct (Nat.eqb (mn_rc d) 1 && mn_inner d) eqn:E.
    + apply andb_true_iff in E as [E1 E2]. apply Nat.eqb_eq in E1.
      destruct (shrink_core _ _ _ _ HD Hr ltac:(lia) E2) as (_ & c & mc & D' & ED & Hc & HD').
      injection ED as -> <-.
      assert (HF2 : hinv h f g ((root, nr) :: (c, mc) :: concat D)) by exact HF.
      assert (Hrc := hinv_two _ _ _ _ _ _ _ _ HF2).
      destruct (hinv_get _ _ _ _ _ c mc HF2) as (dc & Hdc & Hmc); [right; now left|].
      assert (Hc0 : c <> 0) by congruence.
      assert (Hstep : (tupgrade;;; c0 <- mlift (mn_child d 0);; lock LSIX c0;;; free_page root;;;
                       setroot c0;;; tdowngrade;;; pml_shrink fu) (St h root f l g) =
                      pml_shrink fu (St (upd h root None) c f [(0, LSIX); (c, LSIX)] g)).
      { destruct Hl as [->| ->];
          (rewrite mb_tupgrade; [|lks|lks]; lkn;
           rewrite (mb_lift _ _ _ _ Hc);
           rewrite mb_lock; [|congruence|lks];
           rewrite mb_free by congruence; cbn [filter fst]; neqb; cbn [negb];
           rewrite mb_setroot; rewrite mb_tdowngrade; [|lks]; lkn; reflexivity). }
      rewrite Hstep.
      destruct (IH c mc fu (upd h root None) f g [(0, LSIX); (c, LSIX)]) as
        (h' & root' & nr' & D' & l' & A1 & A2 & A3 & A4 & A5 & A6 & A7); auto.
      * apply (hinv_release _ h f g [] root nr). exact HF2.
      * now rewrite upd_diff by auto.
      * now right.
      * cbn in Hfu. lia.
      * exists h', root', nr', D', l'. rewrite last_cons. cbn [length]. split; [auto|]. split; [auto|]. split; [auto|].
        split; [auto|]. split; [auto|]. split; [auto|lia].
    + exists h, root, nr, (C :: D), l. split; [reflexivity|]. auto 10.
Qed.

Lemma pml_root_split_ok D root nr dr h f g l : mdn [(root, nr)] D ->
  hinv h f g ([(root, nr)] ++ concat D) -> h 0 = None -> 0 < f -> two root 0 l ->
  h root = Some dr -> mrep dr nr -> msplit_ok dr ->
  exists T L h',
    pml_root_split k (St h root f l g) =
      Ok (fnd NegInf k L) (St h' (S f) (S (S f)) [(0, LSIX); (fnd NegInf k L, LSIX)] g) /\
    level false true T /\ kents NegInf T = entries NegInf L /\ entries NegInf T = [(NegInf, S f)] /\
    mdn L D /\ hinv h' (S (S f)) g (T ++ L ++ concat D) /\ h' 0 = None /\
    recs (last D L) = recs (last D [(root, nr)]) /\ roomat h' (fnd NegInf k L).
Proof.
  intros HD HF H0 Hf Hl Hd Hm Hsp.
  destruct (root_core k root nr D dr f HD Hm Hsp)
    as (l' & r' & sep & ml & mr & dn & nn & Es & Ei & Eh & Ecm & Er2 & Rn & Rl & Rr & Hrl & Hrr & HD3 & Hrecs3 & Hfnd).
  pose proof (hinv_fresh_none _ _ _ _ _ HF) as Hfn.
  assert (Hr0 : root <> 0) by congruence.
  assert (Hrf : root <> f) by congruence. assert (Hrf2 : root <> S f).
  { assert (root < f); [|lia]. apply (hi_fresh _ _ _ _ _ HF). congruence. }
  assert (Hff : f <> S f) by lia. assert (Hf0 : f <> 0) by lia. assert (HSf0 : S f <> 0) by lia.
  exists [(S f, nn)], [(root, ml); (f, mr)],
    (upd (upd (upd (upd h f (Some (mn_new (innerb D)))) f (Some r')) root (Some l')) (S f) (Some dn)).
  split.
  { unfold pml_root_split. apply mb_tail. rewrite !mb_assoc.
    assert (Hup : forall (A : Type) (kk : unit -> M mn A),
              mbind tupgrade kk (St h root f l g) = kk tt (St h root f [(0, LX); (root, LSIX)] g)).
    { intros A kk. destruct Hl as [->| ->]; (rewrite mb_tupgrade; [|lks|lks]; lkn; reflexivity). }
    rewrite Hup. rewrite !mb_assoc, mb_getroot. unfold pml_node_split.
    rewrite !mb_assoc, (mb_getn root dr) by auto.
    rewrite !mb_assoc, mb_alloc, Ei.
    rewrite !mb_assoc, (mb_getn f (mn_new (innerb D))) by hgo.
    rewrite !mb_assoc, (mb_lift _ _ _ _ Es). cbv beta iota.
    rewrite !mb_assoc, mb_setn by (hget; congruence).
    rewrite !mb_assoc, mb_upgrade; [|hget; congruence|lks|lks]. lkn.
    rewrite !mb_assoc, mb_setn by (hget; congruence).
    rewrite !mb_assoc, mb_downgrade; [|hget; congruence|lks]. lkn.
    rewrite !mb_assoc, mb_lock; [|hget; congruence|lks].
    rewrite mb_ret. rewrite !mb_assoc, (mb_getn root l') by hgo.
    rewrite !mb_assoc, (mb_lift _ _ _ _ Eh), !mb_assoc, (mb_lift _ _ _ _ Er2), !mb_assoc, mb_alloc.
    rewrite !mb_assoc, mb_setroot, !mb_assoc.
    rewrite mb_tdowngrade; [|lks]. lkn.
    unfold pml_valid_split. rewrite !mb_assoc, (mb_getn root l') by hgo.
    rewrite !mb_assoc, (mb_lift _ _ _ _ Ecm). rewrite Hfnd. destruct (ltb k sep).
    - rewrite !mb_assoc, mb_unlock; [|hget; congruence|lks]. lkn. reflexivity.
    - rewrite !mb_assoc, mb_unlock; [|hget; congruence|lks]. lkn. reflexivity. }
  destruct HD3 as (B1 & B2 & B3). split; [auto|]. split; [auto|]. split; [auto|]. split; [auto|].
  split.
  { apply (hinv_new _ _ (S f) g [] nn). 2: exact Rn. cbn [app].
    apply (hinv_set _ _ _ _ [] root nr ml); auto. cbn [app].
    apply (hinv_ext _ (upd h f (Some r'))).
    - intros x. unfold upd. now destruct (x =? f).
    - apply (hinv_new _ h f g [(root, nr)] mr (concat D)); auto. }
  split; [hgo|]. split; [auto|]. rewrite Hfnd.
  destruct (ltb k sep); [exists l' | exists r']; (split; [hgo|auto]).
Qed.

Lemma pml_root_write_ok D root nr fu h f g : mdn [(root, nr)] D ->
  hinv h f g ([(root, nr)] ++ concat D) -> h 0 = None -> 0 < f -> length D < fu ->
  exists U L D' h' root' f',
    pml_root_write fu k (St h root f [] g) =
      Ok (fnd NegInf k L) (St h' root' f' [(fnd NegInf k L, LSIX)] g) /\
    ((U = [] /\ entries NegInf L = [(NegInf, root')]) \/
     (exists T, U = [T] /\ level false true T /\ kents NegInf T = entries NegInf L /\
        entries NegInf T = [(NegInf, root')])) /\
    mdn L D' /\ hinv h' f' g (concat U ++ L ++ concat D') /\ h' 0 = None /\ 0 < f' /\
    recs (last D' L) = recs (last D [(root, nr)]) /\ length D' <= length D /\
    roomat h' (fnd NegInf k L).
Proof.
  intros HD HF H0 Hf Hfu.
  destruct (hinv_get _ _ _ _ _ root nr HF) as (d0 & Hd0 & _); [now left|].
  assert (Hr00 : root <> 0) by congruence.
  unfold pml_root_write. rewrite mb_tlock by lks. rewrite mb_getroot, mb_lock; [|congruence|lks].
  destruct (pml_shrink_ok D root nr fu h f g [(root, LSIX); (0, LSIX)] HD HF H0 (or_introl eq_refl) Hfu)
    as (h1 & r1 & n1 & D1 & l1 & E1 & HD1 & HF1 & H01 & Hl1 & Hlast & Hlen1).
  erewrite mb_ok by exact E1. rewrite mb_getroot. clear E1.
  pose proof (lvl_one _ _ _ (mdn_level _ _ HD1)) as [Hw1 _].
  destruct (hinv_get _ _ _ _ _ r1 n1 HF1) as (d1 & Hd1 & Hm1); [now left|].
  assert (Hr10 : r1 <> 0) by congruence.
  assert (Hb1 : body_ok (a_inner n1) (a_slots n1))
    by (rewrite (nw_inner _ _ _ _ Hw1); apply (nw_body _ _ _ _ Hw1)).
  assert (Hns : exists b o m' l2, pml_need_split r1 (St h1 r1 f l1 g) = Ok b (St (cleaned h1 r1 o) r1 f l2 g) /\
    mrep (after d1 o) m' /\ refreshed n1 m' /\
    (b = true -> msplit_ok (after d1 o)) /\ (b = false -> mroom (after d1 o)) /\ two r1 0 l2).
  { destruct Hl1 as [->| ->].
    - destruct (pml_need_split_ok r1 0 d1 n1 h1 r1 f g) as (b & o & m' & E & A1 & A2 & A3 & A4); auto.
      exists b, o, m', [(r1, LSIX); (0, LSIX)]. unfold two. auto 10.
    - destruct (M_need_split d1 n1 Hm1 Hb1) as (b & o & m' & Hs & A1 & A2 & A3 & A4).
      exists b, o, m', (match o with None => [(0, LSIX); (r1, LSIX)] | _ => [(r1, LSIX); (0, LSIX)] end).
      split; [|unfold two; destruct o; auto 10].
      unfold pml_need_split. apply mb_tail.
      rewrite mb_assoc, (mb_getn r1 d1) by auto. rewrite mb_assoc, (mb_lift _ _ _ _ Hs). cbv beta iota.
      rewrite mb_assoc. destruct o as [d'|]; [|reflexivity]. cbn [pml_clean cleaned].
      rewrite mb_assoc, mb_upgrade; [|congruence|lks|lks]. lkn.
      rewrite mb_assoc, mb_setn by congruence.
      rewrite mb_downgrade; [|hget; congruence|lks]. lkn. reflexivity. }
  destruct Hns as (b & o & n2 & l2 & E2 & Hm2 & Href & Hsp & Hrm & Hl2).
  erewrite mb_ok by exact E2. clear E2.
  set (h2 := cleaned h1 r1 o).
  assert (Hd2 : h2 r1 = Some (after d1 o)) by now apply cleaned_same.
  assert (H02 : h2 0 = None) by (unfold h2; rewrite cleaned_diff; auto).
  assert (HF2 : hinv h2 f g ([(r1, n2)] ++ concat D1)).
  { apply (cleaned_hinv' h1 f g [] r1 n1 n2 (concat D1) o d1); auto. }
  set (d2 := after d1 o) in *. clearbody h2 d2. clear o.
  assert (HD2 : mdn [(r1, n2)] D1 /\ recs (last D1 [(r1, n2)]) = recs (last D1 [(r1, n1)])).
  { unfold refreshed in Href. rewrite (nw_inner _ _ _ _ Hw1) in Href.
    destruct D1 as [|X D1]; cbn [innerb] in *.
    - destruct (node_wf_leaf_upd _ _ _ _ _ _ Hw1 Href) as (Hw & Hnx & Hh & Hlive); [intros ? []|].
      split.
      + cbn [mdn]. apply (seg_replace false false NegInf [] r1 n1 n2 []); auto.
      + cbn [last recs flat_map snd]. now rewrite Hlive.
    - now subst n2. }
  destruct HD2 as [HD2 Hrecs2].
  destruct b.
  - destruct (pml_root_split_ok D1 r1 n2 d2 h2 f g l2 HD2 HF2 H02 Hf Hl2 Hd2 Hm2 (Hsp eq_refl))
      as (T & L & h3 & E3 & B1 & B2 & B3 & HD3 & HF3 & H03 & Hrecs3 & Hroom3).
    erewrite mb_ok by exact E3. clear E3.
    assert (HfL : fnd NegInf k L <> 0). { destruct Hroom3 as (dd & Hdd & _). congruence. }
    rewrite mb_tunlock by lks. lkn.
    exists [T], L, D1, h3, (S f), (S (S f)). split; [reflexivity|].
    split; [right; exists T; auto|]. split; [auto|]. split; [cbn [concat]; rewrite app_nil_r; exact HF3|].
    split; [auto|]. split; [lia|]. split; [congruence|]. auto.
  - rewrite mb_ret.
    assert (HfL : fnd NegInf k [(r1, n2)] = r1).
    { cbn [fnd]. rewrite (proj2 (lvl_one _ _ _ (mdn_level _ _ HD2))).
      destruct (elt_dec (Key k) PosInf) as [|E3]; auto. exfalso. apply E3. exact I. }
    exists [], [(r1, n2)], D1, h2, r1, f. rewrite HfL. split.
    { destruct Hl2 as [->| ->]; (rewrite mb_tunlock by lks; lkn; reflexivity). }
    split; [left; auto|]. split; [auto|]. split; [exact HF2|]. split; [auto|]. split; [auto|].
    split; [congruence|]. split; [auto|]. exists d2. auto.
Qed.

(** SearchLeafNodeForWrite. *)
Lemma pml_search_write_ok leafs U root fu h f g : tree false leafs U root ->
  hinv h f g (leafs ++ concat U) -> h 0 = None -> 0 < f -> length U < fu ->
  exists leafs' U' h' root' f',
    pml_search_write fu k (St h root f [] g) =
      Ok (fnd NegInf k leafs') (St h' root' f' [(fnd NegInf k leafs', LX)] g) /\
    tree false leafs' U' root' /\ hinv h' f' g (leafs' ++ concat U') /\ h' 0 = None /\ 0 < f' /\
    recs leafs' = recs leafs /\ length U' <= S (length U) /\ roomat h' (fnd NegInf k leafs').
Proof.
  intros HT HF H0 Hf Hfu. destruct (tree_to_mdn _ _ _ _ _ _ HT HF) as (nr & D & HD & HFD & Hlast & Hlen).
  destruct (pml_root_write_ok D root nr fu h f g HD HFD H0 Hf ltac:(lia))
    as (U1 & L & D1 & h1 & r1 & f1 & E1 & Htop & HD1 & HF1 & H01 & Hf1 & Hrecs1 & Hlen1 & Hroom1).
  destruct (pml_down_ok D1 L fu (concat U1) h1 r1 f1 g HD1 HF1 H01 Hf1 Hroom1 ltac:(lia))
    as (L' & D' & h' & f' & E2 & HD2 & Hlen2 & HE2 & Hrecs2 & HF2 & H02 & Hf2 & Hroom2).
  unfold pml_search_write. erewrite mb_ok by exact E1. rewrite E2.
  assert (Hfin : exists leafs' U', leafs' = last D' L' /\ tree false leafs' U' r1 /\
     length U' <= S (length U) /\ hinv h' f' g (leafs' ++ concat U')).
  { destruct Htop as [[-> HE]|(T & -> & HT1 & HT2 & HT3)].
    - destruct (mdn_to_tree L' D' r1 h' f' g HD2) as (leafs' & U' & A1 & A2 & A3 & A4).
      + congruence.
      + exact HF2.
      + exists leafs', U'. split; [auto|]. split; [auto|]. split; [lia|auto].
    - destruct (mdn_to_tree T (L' :: D') r1 h' f' g) as (leafs' & U' & A1 & A2 & A3 & A4).
      + cbn [mdn]. rewrite HE2. auto.
      + auto.
      + cbn [concat] in *. rewrite app_nil_r in HF2. exact HF2.
      + exists leafs', U'. rewrite last_cons in A1. split; [auto|]. split; [auto|].
        split; [cbn in A3; lia|auto]. }
  destruct Hfin as (leafs' & U' & -> & A2 & A3 & A4).
  exists (last D' L'), U', h', r1, f'. split; [reflexivity|]. do 4 (split; [assumption|]).
  split; [congruence|]. auto.
Qed.

(** ** Searches that only read *)
Section Reads.
Context (h : addr -> option mn) (r f : addr) (g : list addr) (F : lvl).
Context (HF : hinv h f g F) (H0 : h 0 = None).

Lemma pml_down_read_ok : forall D L fu, mdn L D -> incl (L ++ concat D) F -> NoDup (map fst (L ++ concat D)) ->
  length D < fu ->
  pml_down_read fu (fnd NegInf k L) k (St h r f [(fnd NegInf k L, LS)] g) =
  Ok (fnd NegInf k (last D L)) (St h r f [(fnd NegInf k (last D L), LS)] g).
Proof.
  induction D as [|C D IH]; intros L fu HD Hi Hnd Hfu; (destruct fu as [|fu]; [lia|]); cbn [pml_down_read].
  - cbn [mdn] in HD. destruct (lvl_find _ _ _ k HD) as (L1 & p & n & L2 & EL & Hfp & _). cbn [last].
    rewrite Hfp. subst L. destruct (hinv_get _ _ _ _ _ p n HF) as (d & Hd & Hr).
    { apply Hi. apply in_or_app. left. apply in_or_app. right. now left. }
    destruct (seg_wf _ _ _ _ _ _ _ _ _ HD) as (Hw & _).
    rewrite (mb_getn p d) by auto. rewrite (proj1 (M_hdr _ _ Hr)), (nw_inner _ _ _ _ Hw).
    reflexivity.
  - destruct HD as (HL & HE & HD). pose proof (mdn_level _ _ HD) as HC.
    destruct (ctx_find _ L C k HL HC HE)
      as (L1 & p & n & L2 & s1 & s & s2 & C1 & c & m & C2 & -> & -> & CX).
    rewrite (cx_fp _ _ _ _ _ _ _ _ _ _ _ _ _ CX), last_cons.
    assert (Hfc := cx_fc _ _ _ _ _ _ _ _ _ _ _ _ _ CX).
    destruct (hinv_get _ _ _ _ _ p n HF) as (dp & Hdp & Hmp).
    { apply Hi. apply in_or_app. left. apply in_or_app. right. now left. }
    destruct (hinv_get _ _ _ _ _ c m HF) as (dc & Hdc & Hmc).
    { apply Hi. apply in_or_app. right. cbn [concat]. apply in_or_app. left. apply in_or_app. right. now left. }
    assert (Hpc : p <> c).
    { intros ->. rewrite map_app in Hnd. apply NoDup_app_inv in Hnd as (_ & _ & Hnd).
      apply (Hnd c); [rewrite map_app; apply in_or_app; right; now left|].
      cbn [concat]. rewrite !map_app. apply in_or_app. left. apply in_or_app. right. now left. }
    rewrite (mb_getn p dp) by auto.
    rewrite (proj1 (M_hdr _ _ Hmp)), (nw_inner _ _ _ _ (cx_wp _ _ _ _ _ _ _ _ _ _ _ _ _ CX)).
    erewrite mb_ok by (eapply route_ok; eauto). cbv beta iota.
    rewrite mb_lock; [|congruence|lks]. rewrite mb_unlock; [|congruence|lks]. lkn.
    pose proof (IH (C1 ++ (c, m) :: C2) fu HD) as HI. rewrite Hfc in HI. apply HI.
    + intros x Hx. apply Hi. apply in_or_app. right. exact Hx.
    + rewrite map_app in Hnd. apply NoDup_app_inv in Hnd. tauto.
    + cbn in Hfu. lia.
Qed.

Definition hda (L : lvl) : addr := match L with [] => 0 | (a, _) :: _ => a end.

Lemma pml_down_left_ok : forall D L fu, mdn L D -> incl (L ++ concat D) F -> NoDup (map fst (L ++ concat D)) ->
  length D < fu ->
  pml_down_left fu (hda L) (St h r f [(hda L, LS)] g) =
  Ok (hda (last D L)) (St h r f [(hda (last D L), LS)] g).
Proof.
  induction D as [|C D IH]; intros L fu HD Hi Hnd Hfu; (destruct fu as [|fu]; [lia|]); cbn [pml_down_left].
  - cbn [mdn] in HD. destruct L as [|[p n] L2]; [cbn in HD; discriminate|]. cbn [hda last].
    destruct (hinv_get _ _ _ _ _ p n HF) as (d & Hd & Hr); [apply Hi; now left|].
    destruct HD as (Hw & _). rewrite (mb_getn p d) by auto.
    now rewrite (proj1 (M_hdr _ _ Hr)), (nw_inner _ _ _ _ Hw).
  - destruct HD as (HL & HE & HD). pose proof (mdn_level _ _ HD) as HC.
    destruct L as [|[p n] L2]; [cbn in HL; discriminate|].
    destruct C as [|[c m] C2]; [cbn in HC; discriminate|]. rewrite last_cons. cbn [hda].
    destruct (hinv_get _ _ _ _ _ p n HF) as (dp & Hdp & Hmp); [apply Hi; now left|].
    destruct (hinv_get _ _ _ _ _ c m HF) as (dc & Hdc & Hmc).
    { apply Hi. apply in_or_app. right. now left. }
    assert (Hpc : p <> c).
    { intros ->. rewrite map_app in Hnd. apply NoDup_app_inv in Hnd as (_ & _ & Hnd).
      apply (Hnd c); now left. }
    destruct HL as (Hw & _ & _). pose proof (nw_body _ _ _ _ Hw) as Hb. cbn in Hb.
    assert (Hch : mn_child dp 0 = Some c).
    { cbn [kents entries] in HE. destruct (a_slots n) as [|s0 t] eqn:Es; [destruct Hb|].
      cbn in HE. injection HE as Hkid _. eapply (M_child dp n 0 s0); auto.
      - apply (nw_inner _ _ _ _ Hw).
      - now rewrite Es.
      - rewrite <- Hkid. eapply inner_kid; [exact Hw|]. rewrite Es. now left. }
    rewrite (mb_getn p dp) by auto. rewrite (proj1 (M_hdr _ _ Hmp)), (nw_inner _ _ _ _ Hw).
    rewrite (mb_lift _ _ _ _ Hch).
    rewrite mb_lock; [|congruence|lks]. rewrite mb_unlock; [|congruence|lks]. lkn.
    apply (IH ((c, m) :: C2)); auto.
    + intros x Hx. apply Hi. apply in_or_app. right. exact Hx.
    + rewrite map_app in Hnd. apply NoDup_app_inv in Hnd. tauto.
    + cbn in Hfu. lia.
Qed.

End Reads.

Lemma pml_root_read_ok h r f g : h r <> None -> h 0 = None ->
  pml_root_read (St h r f [] g) = Ok r (St h r f [(r, LS)] g).
Proof.
  intros H H0. assert (Hr : r <> 0) by congruence. unfold pml_root_read.
  rewrite mb_tlock by lks. rewrite mb_getroot. rewrite mb_lock; [|auto|lks].
  rewrite mb_tunlock by lks. lkn. reflexivity.
Qed.

Lemma hinv_F_nodup h f g F : hinv h f g F -> NoDup (map fst F).
Proof. intros H. pose proof (hi_nodup _ _ _ _ _ H) as Hn. apply NoDup_app_inv in Hn. tauto. Qed.

Lemma pml_search_read_ok leafs U root fu h f g : tree false leafs U root ->
  hinv h f g (leafs ++ concat U) -> h 0 = None -> length U < fu ->
  (r <- pml_root_read ;; pml_down_read fu r k) (St h root f [] g) =
  Ok (fnd NegInf k leafs) (St h root f [(fnd NegInf k leafs, LS)] g).
Proof.
  intros HT HF H0 Hfu. destruct (tree_to_mdn _ _ _ _ _ _ HT HF) as (nr & D & HD & HFD & Hlast & Hlen).
  destruct (hinv_get _ _ _ _ _ root nr HFD) as (d & Hd & _); [now left|].
  erewrite mb_ok by (apply pml_root_read_ok; congruence).
  assert (HfL : fnd NegInf k [(root, nr)] = root).
  { cbn [fnd]. rewrite (proj2 (lvl_one _ _ _ (mdn_level _ _ HD))).
    destruct (elt_dec (Key k) PosInf) as [|E3]; auto. exfalso. apply E3. exact I. }
  pose proof (pml_down_read_ok h root f g _ HFD D [(root, nr)] fu HD (incl_refl _)
                (hinv_F_nodup _ _ _ _ HFD) ltac:(lia)) as E.
  rewrite HfL, Hlast in E. exact E.
Qed.

Lemma pml_search_left_ok leafs U root fu h f g : tree false leafs U root ->
  hinv h f g (leafs ++ concat U) -> h 0 = None -> length U < fu ->
  (r <- pml_root_read ;; pml_down_left fu r) (St h root f [] g) =
  Ok (hda leafs) (St h root f [(hda leafs, LS)] g).
Proof.
  intros HT HF H0 Hfu. destruct (tree_to_mdn _ _ _ _ _ _ HT HF) as (nr & D & HD & HFD & Hlast & Hlen).
  destruct (hinv_get _ _ _ _ _ root nr HFD) as (d & Hd & _); [now left|].
  erewrite mb_ok by (apply pml_root_read_ok; congruence).
  pose proof (pml_down_left_ok h root f g _ HFD D [(root, nr)] fu HD (incl_refl _)
                (hinv_F_nodup _ _ _ _ HFD) ltac:(lia)) as E.
  rewrite Hlast in E. exact E.
Qed.

End Step.
End MLPess.
