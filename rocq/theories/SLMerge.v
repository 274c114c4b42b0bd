(** Merges of the single-layer trees keep the tree well formed. *)
From Coq Require Import List Arith Bool Lia Sorted.
From Verif Require Import Params Mem Common Spec NodeAbs SLIface TreeState Levels TreeHeap
  LevelOps SLModel SLSearch SLSplit.
Import ListNotations.

Section SLMerge.
Context {P : Params} {O : OrdLaws P} {N : SLOps P} {LW : SLLaws P N} {W : Leak} (osl : bool).
Notation hinv := (@hinv P W nd rep).

Lemma hi_key sl inner lo n L2 : node_wf sl inner lo n -> seg sl inner (hi_ext n) L2 PosInf None ->
  L2 <> [] -> exists del, a_high n = Some del /\ hi_ext n = Key del.
Proof.
  intros H H1 H2. assert (H3 := seg_elt _ _ _ _ _ _ H1 H2). unfold hi_ext in *.
  destruct (a_high n); eauto. cbn in H3. tauto.
Qed.

(** Node::Merge of two latched neighbours. *)
Lemma do_merge_ok inner lo h root f g pre F1 l n r m F2 del d1 d2 :
  hinv h f g (F1 ++ (l, n) :: (r, m) :: F2) -> h l = Some d1 -> h r = Some d2 ->
  rep d1 n -> rep d2 m ->
  node_wf true inner lo n -> a_high n = Some del -> node_wf true inner (Key del) m ->
  nd_can_merge d1 d2 = true ->
  (pre = [] \/ exists p, pre = [(p, LSIX)] /\ p <> l /\ p <> r) ->
  exists h' s,
    let n' := ANode inner false (a_next m) (a_low n) (a_high m) s in
    do_merge l r (St h root f (pre ++ [(r, LSIX); (l, LSIX)]) g) = Ok tt (St h' root f pre (r :: g)) /\
    hinv h' f (r :: g) (F1 ++ (l, n') :: F2) /\ node_wf true inner lo n' /\
    merge_spec n m s /\ (forall p d, p <> l -> p <> r -> h p = Some d -> h' p = Some d).
Proof.
  intros HF H1 H2 R1 R2 W1 Hdel W2 Hcm Hpre.
  assert (Hlr : l <> r).
  { intros ->. eapply (hinv_neq _ _ _ _ (F1) r n ((r, m) :: F2)); eauto. apply in_or_app. right. now left. }
  destruct (L_merge l d1 n d2 m R1 R2) as (l' & r' & s & Hm & Hrep & Hsp & Hrr & Hrn); auto.
  { now rewrite (nw_inner _ _ _ _ W1), (nw_inner _ _ _ _ W2). }
  { rewrite (nw_inner _ _ _ _ W1). apply (nw_body _ _ _ _ W1). }
  { rewrite (nw_inner _ _ _ _ W2). apply (nw_body _ _ _ _ W2). }
  { exists del. split; auto. split; [now apply (nw_low _ _ _ _ W2)|]. split.
    - intros k Hk Hi. rewrite (nw_inner _ _ _ _ W1) in Hi. subst inner.
      pose proof (nw_hi _ _ _ _ W1 k Hk) as H. unfold hi_ext in H. rewrite Hdel in H. exact H.
    - intros k Hk. apply kle_ele. pose proof (nw_lo _ _ _ _ W2) as HL. destruct inner.
      + pose proof (nw_first _ _ _ _ W2 eq_refl del eq_refl) as Hf. unfold rkeys in HL.
        destruct (a_slots m) as [|u tl0]; [destruct Hk|]. rewrite keys_of_cons in Hk.
        apply in_app_or in Hk as [Hk|Hk].
        * unfold kat in Hf. cbn [nth_error] in Hf. unfold key1 in Hk. rewrite Hf in Hk.
          destruct Hk as [<-|[]]. apply ele_refl.
        * apply elt_ele. apply HL. exact Hk.
      + apply HL. exact Hk. }
  rewrite (nw_inner _ _ _ _ W1), (nw_alive _ _ _ _ W1) in Hrep.
  exists (upd (upd h l (Some l')) r (Some r')), s. cbn zeta. split; [|split; [|split; [|split]]].
  - unfold do_merge. rewrite (mb_getn l d1), (mb_getn r d2) by auto.
    rewrite (mb_lift _ _ _ _ Hm). cbv beta iota.
    destruct Hpre as [->|(p & -> & Hp1 & Hp2)]; cbn [app].
    + rewrite mb_upgrade by (try congruence; lks). lkn.
      rewrite mb_setn by congruence.
      rewrite mb_unlock; [|hget; congruence|lks]. lkn.
      rewrite mb_upgrade; [|hget; congruence|lks|lks]. lkn.
      rewrite mb_setn by (hget; congruence).
      rewrite mb_unlock; [|hget; congruence|lks]. lkn. reflexivity.
    + rewrite mb_upgrade by (try congruence; lks). lkn.
      rewrite mb_setn by congruence.
      rewrite mb_unlock; [|hget; congruence|lks]. lkn.
      rewrite mb_upgrade; [|hget; congruence|lks|lks]. lkn.
      rewrite mb_setn by (hget; congruence).
      rewrite mb_unlock; [|hget; congruence|lks]. lkn. reflexivity.
  - eapply hinv_eq; [|eapply (hinv_retire _ _ _ _ (F1 ++ [(l, _)]) r m F2)].
    + fassoc.
    + eapply hinv_eq; [|eapply hinv_set; [exact HF|exact Hrep]]. fassoc.
  - pose proof (node_wf_merge true inner lo n m del s (a_next m) (a_low n) W1 Hdel W2 Hsp (fun _ => eq_refl)) as X.
    now rewrite (nw_alive _ _ _ _ W1) in X.
  - auto.
  - intros p d Hp1 Hp2 Hp. rewrite !upd_diff; auto.
Qed.

Lemma entries_cons2 lo L a1 a2 E1 E2 (x y : ext) :
  entries lo L = E1 ++ (x, a1) :: (y, a2) :: E2 -> length L = length E1 + 2 + length E2.
Proof.
  intros H. rewrite <- (map_length fst L), <- (entries_addrs lo L), map_length, H.
  rewrite app_length. cbn. lia.
Qed.

Lemma entries_single lo L1 a n L2 x r : entries lo (L1 ++ (a, n) :: L2) = [(x, r)] ->
  L1 = [] /\ L2 = [] /\ a = r /\ lo = x.
Proof.
  destruct L1 as [|[b m] L1]; cbn [app entries]; intros H.
  - inv H. destruct L2 as [|[? ?] ?]; [auto | discriminate].
  - inv H. destruct L1 as [|[? ?] ?]; discriminate.
Qed.

Lemma sents_delete lo l1 s l2 : l1 <> [] ->
  sents lo (l1 ++ s :: l2) = sents lo l1 ++ kent s :: map kent l2 /\
  sents lo (l1 ++ l2) = sents lo l1 ++ map kent l2.
Proof. destruct l1; [congruence|]. intros _. cbn. now rewrite !map_app. Qed.

Lemma merge_ok : forall U fu inner C k0 D h root f g,
  level true inner C -> tower true (entries NegInf C) U root ->
  hinv h f g (D ++ C ++ concat U) -> length U + 3 <= fu ->
  exists h' root' g' C' U',
    merge osl fu (map (fnd NegInf k0) U) None (fnd NegInf k0 C)
      (St h root f [(fnd NegInf k0 C, LSIX)] g) = Ok tt (St h' root' f [] g') /\
    level true inner C' /\ tower true (entries NegInf C') U' root' /\
    hinv h' f g' (D ++ C' ++ concat U') /\ recs C' = recs C /\
    (inner = true -> kents NegInf C' = kents NegInf C) /\ length U' <= length U.
Proof.
  induction U as [|L U IH]; intros fu inner C k0 D h root f g HC HT HF Hfu;
    (destruct fu as [|fu]; [lia|]);
    destruct (level_find _ _ k0 HC) as (C1 & l & n & C2 & -> & -> & Hr0);
    destruct (seg_wf _ _ _ _ _ _ _ _ _ HC) as (Hwn & Hnx & Hseg).
  - (* the root: it has no sibling *)
    cbn [tower] in HT. apply entries_single in HT as (-> & -> & -> & _).
    destruct (hinv_get _ _ _ _ _ root n HF) as (d & Hd & Hrep).
    { apply in_or_app. right. now left. }
    cbn [merge map]. unfold mergeable_sibling. rewrite mb_assoc, (mb_getn root d) by auto.
    destruct (L_hdr _ _ Hrep) as (_ & _ & E & _). rewrite E, Hnx by auto. cbn [first_addr].
    rewrite mb_assoc, mb_unlock by (try congruence; lks). lkn. rewrite mb_ret.
    exists h, root, g, [(root, n)], []. split; [reflexivity|]. repeat (split; [now auto|]). auto.
  - assert (HFe : hinv h f g ((D ++ C1) ++ (l, n) :: (C2 ++ concat (L :: U)))).
    { eapply hinv_eq; [|exact HF]. fassoc. }
    destruct (hinv_get _ _ _ _ _ l n HFe) as (d1 & Hd1 & R1); [apply in_or_app; right; now left|].
    assert (Hstay : forall m, m = merge osl (S fu) (map (fnd NegInf k0) (L :: U)) None l
              (St h root f [(l, LSIX)] g) -> m = Ok tt (St h root f [] g) ->
       exists h' root' g' C' U', merge osl (S fu) (map (fnd NegInf k0) (L :: U)) None l
              (St h root f [(l, LSIX)] g) = Ok tt (St h' root' f [] g') /\
       level true inner C' /\ tower true (entries NegInf C') U' root' /\
       hinv h' f g' (D ++ C' ++ concat U') /\ recs C' = recs (C1 ++ (l, n) :: C2) /\
       (inner = true -> kents NegInf C' = kents NegInf (C1 ++ (l, n) :: C2)) /\
       length U' <= length (L :: U)).
    { intros m -> Hm. exists h, root, g, (C1 ++ (l, n) :: C2), (L :: U). rewrite Hm. auto 10. }
    destruct C2 as [|[r m] C2].
    { (* rightmost node *)
      apply (Hstay _ eq_refl). cbn [merge map]. unfold mergeable_sibling.
      rewrite mb_assoc, (mb_getn l d1) by auto.
      destruct (L_hdr _ _ R1) as (_ & _ & E & _). rewrite E, Hnx by auto. cbn [first_addr].
      rewrite mb_assoc, mb_unlock by (try congruence; lks). lkn. reflexivity. }
    destruct (hi_key _ _ _ _ _ Hwn Hseg) as (del & Hdel & Hhi); [discriminate|].
    assert (Hseg' := Hseg). cbn [seg] in Hseg'. destruct Hseg' as (Hwm & Hnxm & Hseg2).
    rewrite Hhi in Hwm.
    destruct (hinv_get _ _ _ _ _ r m HFe) as (d2 & Hd2 & R2).
    { apply in_or_app. right. right. now left. }
    assert (Hlr : l <> r).
    { intros ->. eapply (hinv_neq _ _ _ _ (D ++ C1) r n); eauto.
      apply in_or_app. right. now left. }
    destruct (nd_can_merge d1 d2) eqn:Ecm.
    2:{ apply (Hstay _ eq_refl). cbn [merge map]. unfold mergeable_sibling.
      rewrite mb_assoc, (mb_getn l d1) by auto.
      destruct (L_hdr _ _ R1) as (_ & _ & E & _). rewrite E, Hnx by auto. cbn [first_addr].
      rewrite mb_assoc, mb_lock by (try congruence; lks).
      rewrite mb_assoc, (mb_getn r d2) by auto. rewrite Ecm.
      rewrite mb_assoc, mb_unlock by (try congruence; lks). lkn.
      rewrite mb_assoc, mb_unlock by (try congruence; lks). lkn. reflexivity. }
    cbn [tower] in HT. destruct HT as (HL & HE & HT).
    rewrite entries_app in HE. cbn [entries] in HE. rewrite Hhi in HE.
    set (lo := lasthi NegInf C1) in *.
    assert (Hkd : kvalid del) by exact (L_kvalid_high _ _ _ R1 Hdel).
    destruct (parent_of true L (entries NegInf C1) lo l ((Key del, r) :: entries (hi_ext m) C2) k0 HL HE)
      as (L1 & p & np & L2 & s1 & s & s2 & -> & Hsl & HE1' & HE2' & Hkid & Hx1 & Hx2 & Hwf & Hrp & Hfnd & Hlox).
    { apply Hr0. }
    { intros y [<-|Hy].
      - cbn [fst]. rewrite <- Hhi. apply Hr0.
      - destruct (seg_entries _ _ _ _ _ _ Hseg2) as [_ HB]. destruct (HB y Hy) as [HB' _].
        eapply elt_ele_trans; [|exact HB']. eapply elt_trans; [apply Hr0|]. rewrite Hhi.
        apply (nw_range _ _ _ _ Hwm). }
    destruct (seg_wf _ _ _ _ _ _ _ _ _ HL) as (_ & Hnxp & Hsegp).
    assert (HFp : hinv h f g ((D ++ (C1 ++ (l, n) :: (r, m) :: C2) ++ L1) ++ (p, np) :: (L2 ++ concat U))).
    { eapply hinv_eq; [|exact HF]. cbn [concat]. fassoc. }
    destruct (hinv_get _ _ _ _ _ p np HFp) as (dp & Hdp & Rp); [apply in_or_app; right; now left|].
    assert (Hpl : p <> l).
    { apply not_eq_sym. eapply (hinv_neq _ _ _ _ _ p np); eauto. apply in_or_app. left.
      apply in_or_app. right. apply in_or_app. left. apply in_or_app. right. now left. }
    assert (Hpr : p <> r).
    { apply not_eq_sym. eapply (hinv_neq _ _ _ _ _ p np); eauto. apply in_or_app. left.
      apply in_or_app. right. apply in_or_app. left. apply in_or_app. right. right. now left. }
    set (lop := lasthi NegInf L1) in *.
    (* run to the parent latch *)
    assert (Hrun : forall q dq rc dq', 
      check_write (S fu) p del (St h root f [(r, LSIX); (l, LSIX)] g) =
        Ok (Some q) (St h root f [(q, LSIX); (r, LSIX); (l, LSIX)] g) ->
      h q = Some dq -> nd_delete_child dq del = Some (rc, dq') ->
      merge osl (S fu) (map (fnd NegInf k0) ((L1 ++ (p, np) :: L2) :: U)) None l
        (St h root f [(l, LSIX)] g) =
      match rc with
      | kCompleted => upgradeX q ;;; setn q dq' ;;; unlock LX q ;;; do_merge l r
      | kAbortMerge => unlock LSIX q ;;; unlock LSIX l ;;; unlock LSIX r
      | kNeedRetry => unlock LSIX q ;;; merge osl fu (map (fnd NegInf k0) U) (Some q) l
      | _ => upgradeX q ;;; setn q dq' ;;; downgradeSIX q ;;; do_merge l r ;;;
             match map (fnd NegInf k0) U with
             | [] => try_shrink (S fu) q
             | _ => merge osl fu (map (fnd NegInf k0) U) None q
             end
      end (St h root f [(q, LSIX); (r, LSIX); (l, LSIX)] g)).
    { intros q dq rc dq' Hcw Hq Hdc. cbn [merge map]. unfold mergeable_sibling.
      rewrite mb_assoc, (mb_getn l d1) by auto.
      destruct (L_hdr _ _ R1) as (_ & _ & E & _). rewrite E, Hnx by auto. cbn [first_addr].
      rewrite mb_assoc, mb_lock by (try congruence; lks).
      rewrite mb_assoc, (mb_getn r d2) by auto. rewrite Ecm. rewrite mb_ret.
      rewrite (mb_getn l d1) by auto. rewrite (mb_lift _ _ _ _ (L_highkey _ _ _ R1 Hdel)).
      rewrite Hfnd. bnd ltac:(exact Hcw). rewrite (mb_getn q dq) by auto.
      rewrite (mb_lift _ _ _ _ Hdc). cbv beta iota. destruct rc; reflexivity. }
    destruct s2 as [|s' s2].
    { (* r is the first child of the next parent: the merge is given up *)
      cbn [map app] in HE2'. destruct L2 as [|[q nq] L2]; [discriminate|].
      cbn [kents] in HE2'. assert (Hsegq := Hsegp). cbn [seg] in Hsegq.
      destruct Hsegq as (Hwq & _ & _). pose proof (nw_body _ _ _ _ Hwq) as Hbq. cbn in Hbq.
      assert (Hhip : hi_ext np = Key del).
      { destruct (a_slots nq) as [|u ?]; [destruct Hbq|]. cbn in HE2'. now inv HE2'. }
      rewrite Hhip in Hwq.
      destruct (hinv_get _ _ _ _ _ q nq HFp) as (dq & Hdq & Rq).
      { apply in_or_app. right. right. now left. }
      assert (Hql : q <> l).
      { intros ->. refine (hinv_neq _ _ _ _ _ l n _ l nq HFe _ eq_refl). cbn [concat].
        apply in_or_app. right. right. apply in_or_app. right. apply in_or_app. left.
        apply in_or_app. right. right. now left. }
      assert (Hqr : q <> r).
      { intros ->. 
        assert (HFr : hinv h f g ((D ++ C1 ++ [(l, n)]) ++ (r, m) :: (C2 ++ concat ((L1 ++ (p, np) :: (r, nq) :: L2) :: U)))).
        { eapply hinv_eq; [|exact HF]. cbn [concat]. fassoc. }
        refine (hinv_neq _ _ _ _ _ r m _ r nq HFr _ eq_refl). cbn [concat].
        apply in_or_app. right. apply in_or_app. right. apply in_or_app. left.
        apply in_or_app. right. right. now left. }
      destruct (L_delete_child dq nq del Rq (nw_inner _ _ _ _ Hwq) Hbq Hkd)
        as (rc & dq' & nq' & Hdc & _ & _ & Hcase).
      assert (Habort : rc = kAbortMerge).
      { assert (Hgt : forall k, In k (keys_of (tl (a_slots nq))) -> klt del k)
          by (intros k Hk; exact (nw_lo _ _ _ _ Hwq k Hk)).
        destruct Hcase as [(_ & l1 & t & l2 & Hs & Hne & Hk & _) | [(-> & _) | (_ & _ & _ & k & Hk & Hle)]]; auto.
        - exfalso. apply (klt_irrefl del). apply Hgt. rewrite Hs. destruct l1; [congruence|]. cbn [app tl].
          apply in_keys_of. exists t. split; auto. apply in_or_app. right. now left.
        - exfalso. apply (klt_irrefl del). eapply klt_le_trans; eauto. }
      subst rc. apply (Hstay _ eq_refl).
      refine (eq_trans (Hrun q dq kAbortMerge dq' _ Hdq Hdc) _).
      { assert (Hfu2 : exists fu2, fu = S fu2) by (destruct fu; [cbn in Hfu; lia|eauto]).
          destruct Hfu2 as [fu2 ->].
          apply (check_write_right fu2 p q del h root f _ g dp np dq nq);
            first [ assumption | lks | exact (nw_alive _ _ _ _ Hwf) | exact (nw_alive _ _ _ _ Hwq)
                  | exact (nw_range _ _ _ _ Hwq) | rewrite Hhip; apply ele_refl
                  | rewrite Hnxp by auto; reflexivity ]. }
      rewrite mb_unlock by (try congruence; lks). lkn.
      rewrite mb_unlock by (try congruence; lks). lkn.
      apply mb_tail. rewrite mb_unlock by (try congruence; lks). lkn. reflexivity. }
    (* r is a child of the same parent *)
    cbn [map app] in HE2'. injection HE2' as Hks Hkidr HE2''.
    assert (Hs' : s_key s' = Some del /\ In s' (tl (a_slots np))).
    { assert (Hin : In s' (tl (a_slots np))).
      { rewrite Hsl. destruct s1; cbn [app tl]; [now left|]. apply in_or_app. right. right. now left. }
      split; auto. destruct (inner_keys _ _ _ _ Hwf Hin) as (k & Hk & Hke & _ & _).
      rewrite Hke in Hks. inv Hks. auto. }
    destruct Hs' as [Hkey' Hintl].
    assert (Hdelhi : elt (Key del) (hi_ext np)).
    { apply (nw_hi _ _ _ _ Hwf). unfold rkeys. apply in_keys_of. eauto. }
    destruct (L_delete_child dp np del Rp (nw_inner _ _ _ _ Hwf) (nw_body _ _ _ _ Hwf) Hkd)
      as (rc & dp' & np' & Hdc & Rp' & Hfr & Hcase).
    destruct Hcase as [(Hrc & l1 & t & l2 & Hs & Hne & Hkt & Hsl') | [(_ & _ & Hgt) | (_ & _ & Hni & _)]].
    2:{ exfalso. apply (klt_irrefl del). apply Hgt. apply in_keys_of. eauto. }
    2:{ exfalso. apply Hni. apply in_keys_of. eauto. }
    assert (Hwp' : node_wf true true lop np') by (eapply node_wf_delete_child; eauto).
    destruct Hfr as (_ & _ & Fnx & Flw & Fhi).
    assert (Hsents : sents lop (a_slots np') = sents lop s1 ++ (lo, l) :: map kent s2).
    { rewrite Hsl'. destruct (sents_delete lop l1 t l2 Hne) as [Ha Hb]. rewrite Hb.
      assert (Hc : sents lop (a_slots np) = (sents lop s1 ++ [(lo, l)]) ++ (Key del, r) :: map kent s2).
      { rewrite Hsl. destruct s1 as [|s0 s1].
        - cbn. rewrite (Hx1 eq_refl), Hkid. unfold kent at 1, key_ext. now rewrite Hkey', <- Hkidr.
        - cbn [app sents]. rewrite map_app. cbn [map]. rewrite <- app_assoc. cbn [app].
          unfold kent at 2 3. rewrite <- (Hx2 ltac:(discriminate)), Hkid.
          unfold key_ext at 1. now rewrite Hkey', <- Hkidr. }
      rewrite Hs, Ha in Hc.
      assert (Hok : eok (sents lop l1 ++ kent t :: map kent l2)).
      { rewrite <- Ha, <- Hs. eapply node_sents; eauto. }
      assert (Hkt' : key_ext t = Key del) by (unfold key_ext; now rewrite Hkt).
      assert (Hgt1 : forall y, In y (map kent l2) -> elt (Key del) (fst y)).
      { unfold eok in Hok. rewrite map_app in Hok. apply SS_app in Hok as (_ & Hok & _).
        cbn in Hok. apply StronglySorted_inv in Hok as [_ Hok]. rewrite Forall_forall in Hok.
        intros y Hy. rewrite <- Hkt'. apply Hok. now apply in_map. }
      assert (Hgt2 : forall y, In y (map kent s2) -> elt (Key del) (fst y)).
      { rewrite Hc in Hok. unfold eok in Hok. rewrite map_app in Hok. apply SS_app in Hok as (_ & Hok & _).
        cbn in Hok. apply StronglySorted_inv in Hok as [_ Hok]. rewrite Forall_forall in Hok.
        intros y Hy. apply Hok. now apply in_map. }
      destruct (eok_split_unique _ _ _ _ _ _ (Key del) Hok Hc) as (E1 & _ & E2); auto.
      - cbn [kent fst]. rewrite Hkt'. apply ele_refl.
      - apply ele_refl.
      - rewrite E1, E2, <- app_assoc. reflexivity. }
    assert (Hcw : check_write (S fu) p del (St h root f [(r, LSIX); (l, LSIX)] g) =
        Ok (Some p) (St h root f [(p, LSIX); (r, LSIX); (l, LSIX)] g)).
    { eapply check_write_here; eauto; try lks. apply (nw_alive _ _ _ _ Hwf). }
    pose proof (Hrun p dp rc dp' Hcw Hdp Hdc) as HMG. clear Hrun Hstay.
    match goal with |- context [merge osl (S fu) ?st None l ?s0] =>
      set (MG := merge osl (S fu) st None l s0) in * end.
    match type of HMG with ?X = _ => change X with MG in HMG end. rewrite HMG. clear HMG MG.
    (* the parent without r, then the merged node *)
    assert (HF1 : hinv (upd h p (Some dp')) f g ((D ++ C1) ++ (l, n) :: (r, m) :: (C2 ++ concat ((L1 ++ (p, np') :: L2) :: U)))).
    { eapply hinv_eq; [|eapply hinv_set; [exact HFp|exact Rp']]. cbn [concat]. fassoc. }
    assert (HX : forall pre, (pre = [] \/ pre = [(p, LSIX)]) -> exists h' n',
       do_merge l r (St (upd h p (Some dp')) root f (pre ++ [(r, LSIX); (l, LSIX)]) g) =
         Ok tt (St h' root f pre (r :: g)) /\
       hinv h' f (r :: g) ((D ++ (C1 ++ (l, n') :: C2) ++ L1) ++ (p, np') :: (L2 ++ concat U)) /\
       level true inner (C1 ++ (l, n') :: C2) /\
       entries NegInf (C1 ++ (l, n') :: C2) = entries NegInf C1 ++ (lo, l) :: entries (hi_ext m) C2 /\
       recs (C1 ++ (l, n') :: C2) = recs (C1 ++ (l, n) :: (r, m) :: C2) /\
       (inner = true -> kents NegInf (C1 ++ (l, n') :: C2) = kents NegInf (C1 ++ (l, n) :: (r, m) :: C2)) /\
       h' p = Some dp' /\ a_inner n' = inner /\ (inner = true -> 2 <= length (a_slots n'))).
    { intros pre Hpre.
      destruct (do_merge_ok inner lo (upd h p (Some dp')) root f g pre (D ++ C1) l n r m
                  (C2 ++ concat ((L1 ++ (p, np') :: L2) :: U)) del d1 d2)
        as (h' & sl & Hdm & HF2 & Hwn' & Hms & Hfrm); auto; try (hget; auto; fail).
      { destruct Hpre as [->| ->]; [now left|]. right. exists p. auto. }
      set (n' := ANode inner false (a_next m) (a_low n) (a_high m) sl) in *.
      exists h', n'. split; [exact Hdm|].
      assert (Hhm : hi_ext n' = hi_ext m) by reflexivity.
      split; [eapply hinv_eq; [|exact HF2]; cbn [concat]; fassoc|].
      split; [eapply seg_merge; eauto; reflexivity|].
      split; [rewrite entries_app; cbn [entries]; now rewrite Hhm|].
      unfold merge_spec in Hms. rewrite (nw_inner _ _ _ _ Hwn) in Hms.
      assert (Hinm := nw_body _ _ _ _ Hwm). assert (Hinn := nw_body _ _ _ _ Hwn).
      split; [|split; [|split; [|split]]].
      - rewrite !recs_app. f_equal.
        change (live sl ++ recs C2 = live (a_slots n) ++ live (a_slots m) ++ recs C2).
        rewrite app_assoc. f_equal. destruct inner.
        + rewrite Hms, live_app. reflexivity.
        + apply Hms.
      - intros ->. rewrite !kents_app. f_equal. cbn [kents]. rewrite Hhm, Hhi, app_assoc. f_equal.
        cbn [a_slots n']. rewrite Hms. eapply sents_merge; eauto.
      - apply Hfrm; auto. apply upd_same.
      - reflexivity.
      - intros ->. cbn [a_slots n']. rewrite Hms, app_length. cbn in Hinm, Hinn.
        destruct (a_slots n); [destruct Hinn|]. destruct (a_slots m); [destruct Hinm|].
        cbn [length]. lia. }
    assert (HL' : level true true (L1 ++ (p, np') :: L2)) by (eapply seg_replace; eauto).
    assert (HkL' : kents NegInf (L1 ++ (p, np') :: L2) = entries NegInf C1 ++ (lo, l) :: entries (hi_ext m) C2).
    { rewrite kents_app. cbn [kents]. fold lop. rewrite Hsents, (hi_ext_eq _ _ Fhi).
      rewrite HE1', HE2''. rewrite <- !app_assoc. reflexivity. }
    assert (HT' : tower true (entries NegInf (L1 ++ (p, np') :: L2)) U root)
      by (rewrite (entries_replace _ _ _ np) by auto; exact HT).
    destruct Hrc as [-> | ->].
    + (* no further merging *)
      rewrite mb_upgrade by (try congruence; lks). lkn.
      rewrite mb_setn by congruence.
      rewrite mb_unlock; [|hget; congruence|lks]. lkn.
      destruct (HX [] (or_introl eq_refl)) as (h' & n' & Hdm & HF2 & HC' & HE' & Hrecs & Hkents & _).
      exists h', root, (r :: g), (C1 ++ (l, n') :: C2), ((L1 ++ (p, np') :: L2) :: U).
      split; [exact Hdm|]. split; auto. split; [|split; [|split; [|split]]]; auto.
      * cbn [tower]. rewrite HE'. auto.
      * eapply hinv_eq; [|exact HF2]. cbn [concat]. fassoc.
    + (* the parent may be merged, too *)
      rewrite mb_upgrade by (try congruence; lks). lkn.
      rewrite mb_setn by congruence.
      rewrite mb_downgrade; [|hget; congruence|lks]. lkn.
      destruct (HX [(p, LSIX)] (or_intror eq_refl)) as (h' & n' & Hdm & HF2 & HC' & HE' & Hrecs & Hkents & Hp' & Hin' & Hrc').
      bnd ltac:(exact Hdm).
      destruct U as [|L0 U].
      * (* the parent is the root *)
        cbn [map]. assert (HTr := HT'). cbn [tower] in HTr.
        apply entries_single in HTr as (-> & -> & -> & _).
        unfold try_shrink. rewrite mb_getroot, (mb_getn root dp') by auto. rewrite Nat.eqb_refl.
        destruct (L_hdr _ _ Rp') as (_ & _ & _ & Hrcp). rewrite Hrcp.
        destruct (length (a_slots np') =? 1) eqn:Elen; cbn [andb].
        -- (* it has a single child left: the tree shrinks *)
           apply Nat.eqb_eq in Elen.
           assert (Hsl1 : sents NegInf (a_slots np') = entries NegInf (C1 ++ (l, n') :: C2)).
           { cbn [app kents] in HkL'. rewrite app_nil_r in HkL'. now rewrite HkL', HE'. }
           destruct (a_slots np') as [|u [|]] eqn:Esl; try discriminate Elen.
           cbn [sents map] in Hsl1.
           assert (HC1 : C1 = [] /\ C2 = []).
           { apply (f_equal (@length _)) in Hsl1.
             rewrite <- (map_length snd (entries _ _)), entries_addrs, map_length, app_length in Hsl1.
             cbn in Hsl1. destruct C1, C2; cbn in Hsl1; try lia. auto. }
           destruct HC1 as [-> ->]. cbn in Hsl1. injection Hsl1 as Hkidu.
           assert (Hpay : s_pay u = PP l).
           { pose proof (nw_body _ _ _ _ Hwp') as Hb. cbn in Hb. rewrite Esl in Hb.
             destruct Hb as ((_ & c & Hc) & _). unfold kid in Hkidu. rewrite Hc in *. congruence. }
           cbn [app concat] in HF2.
           destruct (hinv_get _ _ _ _ _ l n' HF2) as (dl & Hdl & Rl).
           { apply in_or_app. left. apply in_or_app. right. now left. }
           cbn [remove_roots]. rewrite mb_assoc, mb_garbage.
           rewrite mb_assoc, (mb_getn root dp') by auto.
           rewrite mb_assoc, mb_upgrade by (try congruence; lks). lkn.
           assert (Hchild : nd_child dp' 0 = Some l).
           { eapply L_child; eauto. apply (nw_inner _ _ _ _ Hwp'). rewrite Esl. reflexivity. }
           rewrite mb_assoc, (mb_lift _ _ _ _ Hchild).
           rewrite mb_assoc, mb_lock by (try congruence; lks).
           rewrite mb_assoc, mb_setn by congruence.
           rewrite mb_assoc, mb_unlock; [|hget; congruence|lks]. lkn.
           rewrite mb_assoc, (mb_getn l dl) by (hget; auto).
           destruct (L_hdr _ _ Rl) as (Ein & _ & _ & Erc). rewrite Erc, Ein, Hin'.
           assert (Hcond : (length (a_slots n') =? 1) && inner = false).
           { destruct inner; [|apply andb_false_r]. specialize (Hrc' eq_refl).
             apply andb_false_iff. left. apply Nat.eqb_neq. lia. }
           rewrite Hcond, mb_ret, mb_setroot.
           exists (upd h' root (Some (nd_remove_root dp'))), l, (root :: r :: g), [(l, n')], [].
           split; [apply mb_tail; rewrite mb_unlock; [|hget; congruence|lks]; lkn; reflexivity|].
           cbn [app] in *. split; auto. split; [|split; [|split; [|split]]]; auto.
           ++ eapply hinv_eq; [|eapply hinv_retire; exact HF2]. cbn [concat]. fassoc.
           ++ cbn. lia.
        -- exists h', root, (r :: g), (C1 ++ (l, n') :: C2), ([] ++ [(root, np')] :: []).
           split; [apply mb_tail; rewrite mb_unlock by (try congruence; lks); lkn; reflexivity|].
           split; auto. split; [|split; [|split; [|split]]]; auto.
           ++ cbn [tower app]. split; auto. split; auto. rewrite HE'. exact HkL'.
           ++ eapply hinv_eq; [|exact HF2]. cbn [concat app]. fassoc.
      * (* go on with the parent *)
        assert (Hfp' : fnd NegInf k0 (L1 ++ (p, np') :: L2) = p).
        { eapply fnd_mid; eauto. destruct Hrp as [Hrp1 Hrp2]. split; auto.
          now rewrite (hi_ext_eq _ _ Fhi). }
        change (map (fnd NegInf k0) (L0 :: U)) with (fnd NegInf k0 L0 :: map (fnd NegInf k0) U).
        cbv beta iota.
        destruct (IH fu true (L1 ++ (p, np') :: L2) k0 (D ++ C1 ++ (l, n') :: C2) h' root f (r :: g))
          as (h2 & root' & g' & L' & U' & HA & HB & HCC & HD & HE2 & HG & HH); auto.
        -- eapply hinv_eq; [|exact HF2]. fassoc.
        -- cbn in *. lia.
        -- rewrite Hfp' in HA. cbn [map] in HA.
           exists h2, root', g', (C1 ++ (l, n') :: C2), (L' :: U').
           split; [exact HA|]. split; auto. split; [|split; [|split; [|split]]]; auto.
           ++ cbn [tower]. split; auto. split; auto. rewrite HE', HG; auto.
           ++ eapply hinv_eq; [|exact HD]. cbn [concat]. fassoc.
           ++ cbn in *. lia.
Qed.

End SLMerge.
