(** Splits of the single-layer trees: HalfSplit, GetValidSplitNode and CompleteSplit keep
    the tree well formed. *)
From Coq Require Import List Arith Bool Lia Sorted.
From Verif Require Import Params Mem Common Spec NodeAbs SLIface TreeState Levels TreeHeap
  LevelOps SLModel SLSearch.
Import ListNotations.

Ltac bnd t := erewrite mb_ok by t; cbv beta iota.
Ltac fassoc := rewrite <- ?app_assoc; cbn [app]; rewrite <- ?app_assoc; cbn [app]; reflexivity.

Section SLSplit.
Context {P : Params} {O : OrdLaws P} {N : SLOps P} {LW : SLLaws P N} {W : Leak} (osl : bool).
Notation hinv := (@hinv P W nd rep).

Lemma half_split_ok inner lo h r f g F1 p d n F2 :
  hinv h f g (F1 ++ (p, n) :: F2) -> h p = Some d -> rep d n -> node_wf true inner lo n ->
  splittable d ->
  exists sep s1 s2 l' r' h',
    let n1 := ANode inner false (Some f) (a_low n) (Some sep) s1 in
    let n2 := ANode inner false (a_next n) (Some sep) (a_high n) s2 in
    half_split p (St h r f [(p, LSIX)] g) = Ok f (St h' r (S f) [(p, LSIX); (f, LSIX)] g) /\
    hinv h' (S f) g (F1 ++ (p, n1) :: (f, n2) :: F2) /\
    h' p = Some l' /\ h' f = Some r' /\ p <> f /\
    rep l' n1 /\ rep r' n2 /\ room l' /\ room r' /\ kvalid sep /\ split_spec n sep s1 s2 /\
    node_wf true inner lo n1 /\ node_wf true inner (Key sep) n2.
Proof.
  intros HF Hp Hrep Hwf Hsp.
  assert (Hin := nw_inner _ _ _ _ Hwf). assert (Hal := nw_alive _ _ _ _ Hwf).
  assert (Hbody := nw_body _ _ _ _ Hwf). rewrite <- Hin in Hbody.
  destruct (L_split d n f Hrep Hbody Hsp)
    as (l' & r' & sep & s1 & s2 & Hs & Hl & Hr & Hspec & Hkv & Hrl & Hrr & _).
  rewrite Hin, Hal in *.
  assert (Hpf : p <> f).
  { assert (p < f); [|lia]. apply (hi_fresh _ _ _ _ _ HF). congruence. }
  exists sep, s1, s2, l', r'.
  eexists. cbn zeta. split; [|split].
  - unfold half_split. rewrite (mb_getn p d) by auto.
    destruct (L_hdr _ _ Hrep) as (E & _). rewrite E, Hin. rewrite mb_alloc.
    rewrite (mb_getn f (nd_new inner)) by apply upd_same.
    rewrite (mb_lift _ _ _ _ Hs). cbv beta iota.
    rewrite mb_lock; [|rewrite upd_same; congruence|lks].
    rewrite mb_setn by (rewrite upd_same; congruence).
    rewrite mb_upgrade; [|hget; congruence|lks|lks]. lkn.
    rewrite mb_setn by (hget; congruence).
    rewrite mb_downgrade; [|hget; congruence|lks]. lkn. reflexivity.
  - assert (H1 : hinv (upd h f (Some r')) (S f) g
       (F1 ++ (p, n) :: (f, ANode inner false (a_next n) (Some sep) (a_high n) s2) :: F2)).
    { eapply hinv_eq; [|eapply (hinv_new _ _ _ _ (F1 ++ [(p, n)]) _ F2)]; eauto.
      - fassoc.
      - eapply hinv_eq; [|exact HF]. fassoc. }
    eapply hinv_set; [|exact Hl]. eapply hinv_ext; [|exact H1].
    intros a. unfold upd. destruct (a =? f); auto.
  - rewrite upd_same. split; auto. rewrite upd_diff by auto. rewrite upd_same. split; auto.
    split; auto.
    assert (Hw2 : node_wf true (a_inner n) lo n) by now rewrite Hin.
    destruct (node_wf_split true lo n sep s1 s2 (Some f) (a_next n) (a_low n) (Some sep) Hw2)
      as [A B]; auto. rewrite Hin in A, B. rewrite Hal in A. auto 10.
Qed.

Lemma valid_split_left p q k h r f g d n sep : h p = Some d -> rep d n -> a_next n = Some q ->
  h q <> None -> p <> q -> a_high n = Some sep -> klt k sep ->
  valid_split_node p k (St h r f [(p, LSIX); (q, LSIX)] g) = Ok p (St h r f [(p, LSIX)] g).
Proof.
  intros H1 H2 H3 H4 H5 H6 H7. unfold valid_split_node. rewrite (mb_getn p d) by auto.
  rewrite (mb_lift _ _ _ _ (L_comphigh _ _ k H2)), H6.
  destruct (L_hdr _ _ H2) as (_ & _ & E & _). rewrite E, H3. unfold klt in H7. rewrite H7.
  rewrite mb_unlock by (auto; lks). lkn. reflexivity.
Qed.

Lemma valid_split_right p q k h r f g d n sep : h p = Some d -> rep d n -> a_next n = Some q ->
  h q <> None -> p <> q -> a_high n = Some sep -> kle sep k ->
  valid_split_node p k (St h r f [(p, LSIX); (q, LSIX)] g) = Ok q (St h r f [(q, LSIX)] g).
Proof.
  intros H1 H2 H3 H4 H5 H6 H7. unfold valid_split_node. rewrite (mb_getn p d) by auto.
  rewrite (mb_lift _ _ _ _ (L_comphigh _ _ k H2)), H6.
  destruct (L_hdr _ _ H2) as (_ & _ & E & _). rewrite E, H3. unfold kle in H7. rewrite H7.
  rewrite mb_unlock by (try congruence; lks). lkn. reflexivity.
Qed.

(** Keys other than those of the routing entries. *)
Lemma fresh_sep sl lo n sep : node_wf sl true lo n ->
  (forall e, In e (sents lo (a_slots n)) -> fst e <> Key sep) ->
  ~ In sep (keys_of (tl (a_slots n))).
Proof.
  intros Hwf He Hin. apply in_keys_of in Hin as (s & Hs & Hk).
  apply (He (kent s)).
  - destruct (a_slots n); [destruct Hs|]. cbn in *. right. now apply in_map.
  - cbn. unfold key_ext. now rewrite Hk.
Qed.

(** One InsertChild into a latched, well-formed inner node with a fresh separator. *)
Lemma insert_child_ok lo d n r sep : rep d n -> node_wf true true lo n ->
  (forall e, In e (sents lo (a_slots n)) -> fst e <> Key sep) ->
  kvalid sep -> elt lo (Key sep) -> elt (Key sep) (hi_ext n) ->
  exists rc d' n', nd_insert_child d r sep = Some (rc, d') /\ rep d' n' /\
    ((rc = kCompleted /\ node_wf true true lo n' /\ a_high n' = a_high n /\ a_next n' = a_next n /\
      a_low n' = a_low n /\
      ins_at (sents lo (a_slots n)) sep r (sents lo (a_slots n'))) \/
     (rc = kNeedSplit /\ n' = n /\ splittable d' /\ ~ room d)).
Proof.
  intros H1 H2 H3 H4 H5 H6.
  destruct (L_insert_child d n r sep H1 (nw_inner _ _ _ _ H2) (nw_body _ _ _ _ H2) H4)
    as (rc & d' & n' & Hi & Hr & Hf & Hc); [eapply fresh_sep; eauto|].
  exists rc, d', n'. split; auto. split; auto.
  destruct Hc as [(-> & l1 & s & l2 & Hsl & HA & HB & HC) | (-> & -> & Hs & Hn)].
  - left. split; auto. split; [|].
    + eapply node_wf_insert_child; eauto. split; auto. now apply elt_ele.
    + destruct Hf as (_ & _ & F3 & F4 & F5). repeat (split; auto).
      rewrite Hsl, HC. eapply sents_insert; eauto.
  - right. auto.
Qed.

Lemma E_not_sep E1 (x : ext) (l : addr) E2 sep : eok (E1 ++ (x, l) :: E2) -> elt x (Key sep) ->
  (forall y, In y E2 -> elt (Key sep) (fst y)) ->
  forall e, In e (E1 ++ (x, l) :: E2) -> fst e <> Key sep.
Proof.
  intros Hok Hx HE2 e He. unfold eok in Hok. rewrite map_app in Hok. cbn in Hok.
  apply SS_app in Hok as (_ & _ & Hok).
  apply in_app_or in He as [He|[<-|He]]; cbn.
  - apply elt_not_eq. eapply elt_trans; [|exact Hx]. apply Hok; [now apply in_map | now left].
  - now apply elt_not_eq.
  - intros E. apply (elt_irrefl (Key sep)). rewrite <- E at 2. auto.
Qed.

Lemma complete_split_ok : forall U fu E1 x l E2 sep r k0 D h root f g,
  tower true (E1 ++ (x, l) :: E2) U root ->
  elt x (Key sep) -> (forall y, In y E2 -> elt (Key sep) (fst y)) ->
  ele x (Key k0) -> (forall y, In y E2 -> elt (Key k0) (fst y)) ->
  kvalid sep -> hinv h f g (D ++ concat U) -> length U + 2 <= fu ->
  exists h' root' f' U',
    complete_split osl fu (map (fnd NegInf k0) U) None l r sep (St h root f [] g) =
      Ok tt (St h' root' f' [] g) /\
    tower true (E1 ++ (x, l) :: (Key sep, r) :: E2) U' root' /\
    hinv h' f' g (D ++ concat U') /\ length U' <= S (length U).
Proof.
  induction U as [|L U IH]; intros fu E1 x l E2 sep r k0 D h root f g HT Hx HE2 Hx0 HE20 Hkv HF Hfu;
    (destruct fu as [|fu]; [lia|]).
  - (* the root was split *)
    cbn in HT. destruct E1 as [|? [|? ?]]; try discriminate.
    cbn in HT. inv HT.
    destruct (L_root2 sep root r Hkv) as (n & s0 & Hn & Hrep).
    cbn [complete_split map]. unfold try_root_split.
    rewrite mb_assoc, mb_getroot, Nat.eqb_refl.
    rewrite mb_assoc, (mb_lift _ _ _ _ Hn).
    rewrite mb_assoc, mb_alloc, mb_assoc, mb_setroot, mb_ret.
    set (nn := ANode true false None None None
                [Slot s0 (PP root) false; Slot (Some sep) (PP r) false]) in *.
    exists (upd h f (Some n)), f, (S f), [[(f, nn)]]. split; [reflexivity|].
    split; [|split].
    + cbn [tower]. split; [|split; reflexivity].
      split; [|split; [auto | reflexivity]]. apply root2_wf.
    + eapply hinv_new; auto.
    + cbn. lia.
  - (* the parent level exists *)
    cbn [tower] in HT. destruct HT as (HL & HE & HT).
    destruct (parent_of true L E1 x l E2 k0 HL HE Hx0 HE20)
      as (L1 & p & n & L2 & s1 & s & s2 & -> & Hsl & HE1' & HE2' & Hkid & Hx1 & Hx2 & Hwf & Hr0 & Hfnd & Hlox).
    destruct (seg_wf _ _ _ _ _ _ _ _ _ HL) as (_ & Hnext & Hseg).
    set (lo := lasthi NegInf L1) in *.
    assert (Hlosep : elt lo (Key sep)) by (eapply ele_elt_trans; eauto).
    assert (Hsephi : elt (Key sep) (hi_ext n)).
    { eapply right_bound; eauto. intros y Hy. apply HE2. rewrite HE2'. apply in_or_app. auto. }
    assert (HFe : hinv h f g ((D ++ L1) ++ (p, n) :: (L2 ++ concat U))).
    { eapply hinv_eq; [|exact HF]. cbn [concat]. fassoc. }
    destruct (hinv_get _ _ _ _ _ p n HFe) as (d & Hd & Hrep); [apply in_or_app; right; now left|].
    cbn [map]. rewrite Hfnd. cbn [complete_split].
    bnd ltac:(eapply check_write_here; eauto; try lks; [apply (nw_alive _ _ _ _ Hwf)]).
    rewrite (mb_getn p d) by auto.
    assert (Hok : eok (E1 ++ (x, l) :: E2)) by (rewrite <- HE; eapply seg_kents; eauto).
    pose proof (E_not_sep _ _ _ _ sep Hok Hx HE2) as Hns. rewrite <- HE in Hns.
    assert (Hns' : forall e, In e (sents lo (a_slots n)) -> fst e <> Key sep).
    { intros e He. apply Hns. rewrite kents_app. apply in_or_app. right. cbn [kents].
      apply in_or_app. now left. }
    destruct (insert_child_ok lo d n r sep Hrep Hwf Hns' Hkv Hlosep Hsephi)
      as (rc & d' & n' & Hi & Hrep' & [(-> & Hwf' & Hh' & Hnx' & Hlw' & Hins) | (-> & -> & Hspl & Hnr)]).
    + (* the child fits *)
      rewrite (mb_lift _ _ _ _ Hi). cbv beta iota.
      rewrite mb_upgrade by (try congruence; lks). lkn.
      rewrite mb_setn by congruence.
      exists (upd h p (Some d')), root, f, ((L1 ++ (p, n') :: L2) :: U).
      split; [|split; [|split]].
      * apply mb_tail. rewrite mb_unlock; [|rewrite upd_same; congruence|lks]. lkn. reflexivity.
      * cbn [tower]. split; [eapply seg_replace; eauto|].
        rewrite (entries_replace _ _ _ n) by auto. split; auto.
        assert (HI : ins_at (kents NegInf (L1 ++ (p, n) :: L2)) sep r
                            (kents NegInf (L1 ++ (p, n') :: L2))).
        { rewrite !kents_app. cbn [kents]. rewrite (hi_ext_eq _ _ Hh'). fold lo.
          apply ins_at_pre; auto. apply ins_at_post; auto. intros y Hy. apply HE2. rewrite HE2'.
          apply in_or_app. auto. }
        rewrite HE in HI. eapply ins_at_fun; [exact Hok|exact HI|].
        exists E1, (x, l), E2. auto.
      * eapply hinv_eq; [|eapply hinv_set; [exact HFe|exact Hrep']]. cbn [concat]. fassoc.
      * cbn. lia.
    + (* the parent is full: split it *)
      rewrite (mb_lift _ _ _ _ Hi). cbv beta iota.
      rewrite mb_setn by congruence.
      assert (HF1 : hinv (upd h p (Some d')) f g ((D ++ L1) ++ (p, n) :: (L2 ++ concat U)))
        by (eapply hinv_set; eauto).
      destruct (half_split_ok true lo (upd h p (Some d')) root f g (D ++ L1) p d' n (L2 ++ concat U))
        as (sep' & t1 & t2 & l' & r' & h1 & Hhs & HF2 & Hl' & Hr' & Hpf & Hrl & Hrr & Hrooml & Hroomr & Hkv' & Hspec & Hw1 & Hw2);
        auto; [apply upd_same|].
      bnd ltac:(exact Hhs).
      set (n1 := ANode true false (Some f) (a_low n) (Some sep') t1) in *.
      set (n2 := ANode true false (a_next n) (Some sep') (a_high n) t2) in *.
      assert (Hcat : sents lo (a_slots n) = sents lo t1 ++ sents (Key sep') t2).
      { eapply sents_split_spec; eauto. apply (nw_inner _ _ _ _ Hwf). }
      assert (Hlosep' : elt lo (Key sep')) by apply (nw_range _ _ _ _ Hw1).
      assert (Hsephi' : elt (Key sep') (hi_ext n)) by exact (nw_range _ _ _ _ Hw2).
      assert (Hnseq : sep <> sep').
      { intros ->. pose proof (nw_body _ _ _ _ Hw2) as Hb2. cbn in Hb2.
        destruct t2 as [|t0 t2]; [destruct Hb2|]. apply (Hns' (Key sep', kid t0)); auto.
        rewrite Hcat. apply in_or_app. right. now left. }
      (* the outcome of inserting into the proper half *)
      assert (HX : exists tgt, exists h2 m1 m2,
        (forall (kk : addr -> M nd unit),
         mbind (valid_split_node p sep) kk (St h1 root (S f) [(p, LSIX); (f, LSIX)] g) =
         kk tgt (St h1 root (S f) [(tgt, LSIX)] g)) /\
        (exists dt dt', h1 tgt = Some dt /\ nd_insert_child dt r sep = Some (kCompleted, dt') /\
           h2 = upd h1 tgt (Some dt') /\ nd_sepkey dt' (tgt =? p) = Some sep') /\
        hinv h2 (S f) g (D ++ (L1 ++ (p, m1) :: (f, m2) :: L2) ++ concat U) /\
        level true true (L1 ++ (p, m1) :: (f, m2) :: L2) /\
        hi_ext m1 = Key sep' /\ hi_ext m2 = hi_ext n /\
        ins_at (sents lo (a_slots n)) sep r (sents lo (a_slots m1) ++ sents (Key sep') (a_slots m2))).
      { destruct (klt_cases sep sep') as [Hlt|[He|Hlt]]; [|congruence|].
        - destruct (insert_child_ok lo l' n1 r sep Hrl Hw1)
            as (rc & dt & m & Hi2 & Hrm & [(-> & Hwm & Hhm & Hnxm & Hlwm & Hinsm) | (_ & _ & _ & HH)]);
            [|exact Hkv|exact Hlosep|exact Hlt| |tauto].
          { intros e He. apply Hns'. rewrite Hcat. apply in_or_app. auto. }
          exists p, (upd h1 p (Some dt)), m, n2.
          split; [|split; [|split; [|split; [|split; [|split]]]]].
          + intros kk. erewrite mb_ok; [reflexivity|].
            eapply valid_split_left; eauto; try reflexivity; congruence.
          + exists l', dt. repeat split; auto. rewrite Nat.eqb_refl.
            eapply L_sepkey_l; eauto.
          + eapply hinv_eq; [|eapply (hinv_set _ _ _ _ _ p n1 m); [exact HF2|exact Hrm]]. fassoc.
          + eapply seg_split; eauto.
            rewrite (hi_ext_eq n1 m Hhm). exact Hw2.
          + rewrite (hi_ext_eq n1 m Hhm). reflexivity.
          + reflexivity.
          + rewrite Hcat. apply ins_at_post; auto.
            intros y Hy. destruct (node_sents _ _ _ Hw2) as [_ HB].
            destruct (HB y Hy) as [HB' _]. eapply elt_ele_trans; [|exact HB']. exact Hlt.
        - destruct (insert_child_ok (Key sep') r' n2 r sep Hrr Hw2)
            as (rc & dt & m & Hi2 & Hrm & [(-> & Hwm & Hhm & Hnxm & Hlwm & Hinsm) | (_ & _ & _ & HH)]);
            [|exact Hkv|exact Hlt|exact Hsephi| |tauto].
          { intros e He. apply Hns'. rewrite Hcat. apply in_or_app. auto. }
          exists f, (upd h1 f (Some dt)), n1, m.
          split; [|split; [|split; [|split; [|split; [|split]]]]].
          + intros kk. erewrite mb_ok; [reflexivity|].
            eapply valid_split_right; eauto; try reflexivity; try congruence. now apply klt_kle.
          + exists r', dt. repeat split; auto. rewrite (proj2 (Nat.eqb_neq f p)) by congruence.
            eapply L_sepkey_r; eauto.
          + eapply hinv_eq; [|eapply (hinv_set _ _ _ _ ((D ++ L1) ++ [(p, n1)]) f n2 m)]; [| |exact Hrm].
            * fassoc.
            * eapply hinv_eq; [|exact HF2]. fassoc.
          + eapply seg_split; eauto.
          + reflexivity.
          + rewrite (hi_ext_eq n2 m Hhm). reflexivity.
          + rewrite Hcat. apply ins_at_pre; auto. }
      destruct HX as (tgt & h2 & m1 & m2 & Hval & (dt & dt' & Hdt & Hi2 & -> & Hsk) & HF3 & HL' & Hh1 & Hh2 & Hins).
      rewrite Hval. rewrite (mb_getn tgt dt) by auto. rewrite (mb_lift _ _ _ _ Hi2). cbv beta iota.
      rewrite mb_assoc. rewrite mb_upgrade by (try congruence; lks). lkn.
      rewrite mb_assoc. rewrite mb_setn by congruence.
      rewrite mb_unlock; [|rewrite upd_same; congruence|lks]. lkn.
      rewrite (mb_getn tgt dt') by apply upd_same. rewrite (mb_lift _ _ _ _ Hsk).
      rewrite entries_app in HT. cbn [entries] in HT.
      destruct (IH fu (entries NegInf L1) lo p (entries (hi_ext n) L2) sep' f k0
                  (D ++ (L1 ++ (p, m1) :: (f, m2) :: L2)) (upd h1 tgt (Some dt')) root (S f) g)
        as (h3 & root' & f' & U' & HA & HB & HC & HD); auto.
      * intros y Hy. destruct (seg_entries _ _ _ _ _ _ Hseg) as [_ HB].
        destruct (HB y Hy) as [HB' _]. eapply elt_ele_trans; eauto.
      * apply Hr0.
      * intros y Hy. destruct (seg_entries _ _ _ _ _ _ Hseg) as [_ HB].
        destruct (HB y Hy) as [HB' _]. eapply elt_ele_trans; [apply Hr0|exact HB'].
      * eapply hinv_eq; [|exact HF3]. fassoc.
      * cbn in Hfu. lia.
      * exists h3, root', f', ((L1 ++ (p, m1) :: (f, m2) :: L2) :: U').
        split; [exact HA|]. split; [|split].
        -- cbn [tower]. split; auto. split.
           ++ assert (HI : ins_at (kents NegInf (L1 ++ (p, n) :: L2)) sep r
                                  (kents NegInf (L1 ++ (p, m1) :: (f, m2) :: L2))).
              { rewrite !kents_app. cbn [kents]. rewrite Hh1, Hh2. fold lo.
                apply ins_at_pre; auto. rewrite (app_assoc (sents lo (a_slots m1))).
                apply ins_at_post; auto. intros y Hy. apply HE2. rewrite HE2'.
                apply in_or_app. auto. }
              rewrite HE in HI. eapply ins_at_fun; [exact Hok|exact HI|].
              exists E1, (x, l), E2. auto.
           ++ rewrite entries_app. cbn [entries]. rewrite Hh1, Hh2. exact HB.
        -- eapply hinv_eq; [|exact HC]. cbn [concat]. fassoc.
        -- cbn. lia.
Qed.

End SLSplit.
