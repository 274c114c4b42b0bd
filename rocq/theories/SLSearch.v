(** Searches and key-range checks of the single-layer trees, on well-formed trees. *)
From Coq Require Import List Arith Bool Lia Sorted.
From Verif Require Import Params Mem Common Spec NodeAbs SLIface TreeState Levels TreeHeap SLModel.
Import ListNotations.

Section SLSearch.
Context {P : Params} {O : OrdLaws P} {N : SLOps P} {LW : SLLaws P N} {W : Leak}.
Notation hinv := (@hinv P W nd rep).

Lemma in_node_yes d n k (s : st nd) : rep d n -> a_removed n = false -> elt (Key k) (hi_ext n) ->
  in_node d k s = Ok true s.
Proof.
  intros H1 H2 H3. unfold in_node. destruct (L_hdr _ _ H1) as (_ & E & _). rewrite E, H2.
  rewrite (L_comphigh _ _ k H1). unfold hi_ext in H3.
  destruct (a_high n); cbn in H3; [unfold klt in H3; rewrite H3|]; reflexivity.
Qed.

Lemma in_node_no d n k (s : st nd) : rep d n -> a_removed n = false -> ele (hi_ext n) (Key k) ->
  in_node d k s = Ok false s.
Proof.
  intros H1 H2 H3. unfold in_node. destruct (L_hdr _ _ H1) as (_ & E & _). rewrite E, H2.
  rewrite (L_comphigh _ _ k H1). unfold hi_ext, ele in H3.
  destruct (a_high n); cbn in H3; [|tauto]. unfold klt in H3.
  destruct (ltb k k0); [tauto | reflexivity].
Qed.

Lemma check_write_here fu a k h r f l g d n : h a = Some d -> rep d n -> a_removed n = false ->
  elt (Key k) (hi_ext n) -> may_lock l a LSIX = true ->
  check_write (S fu) a k (St h r f l g) = Ok (Some a) (St h r f ((a, LSIX) :: l) g).
Proof.
  intros H1 H2 H3 H4 H5. cbn [check_write].
  rewrite mb_lock by (auto; congruence). rewrite (mb_getn a d) by auto.
  erewrite mb_ok by (apply (in_node_yes d n); auto). reflexivity.
Qed.

Lemma check_write_right fu a b k h r f l g d n d' n' :
  h a = Some d -> rep d n -> a_removed n = false -> ele (hi_ext n) (Key k) ->
  may_lock l a LSIX = true -> a_next n = Some b ->
  h b = Some d' -> rep d' n' -> a_removed n' = false -> elt (Key k) (hi_ext n') ->
  may_lock l b LSIX = true ->
  check_write (S (S fu)) a k (St h r f l g) = Ok (Some b) (St h r f ((b, LSIX) :: l) g).
Proof.
  intros H1 H2 H3 H4 H5 H6 H7 H8 H9 H10 H11. remember (S fu) as fu'. cbn [check_write].
  rewrite mb_lock by (auto; congruence). rewrite (mb_getn a d) by auto.
  erewrite mb_ok by (apply (in_node_no d n); auto). cbv beta iota.
  rewrite mb_unlock by (try congruence; lks). lkn.
  destruct (L_hdr _ _ H2) as (_ & _ & E & _). rewrite E, H6. subst fu'.
  eapply check_write_here; eauto.
Qed.

Lemma check_read_here fu a k h r f l g d n : h a = Some d -> rep d n -> a_removed n = false ->
  elt (Key k) (hi_ext n) -> may_lock l a LS = true ->
  check_read (S fu) a k (St h r f l g) = Ok (Some a) (St h r f ((a, LS) :: l) g).
Proof.
  intros H1 H2 H3 H4 H5. cbn [check_read].
  rewrite mb_lock by (auto; congruence). rewrite (mb_getn a d) by auto.
  erewrite mb_ok by (apply (in_node_yes d n); auto). reflexivity.
Qed.

Lemma check_range_here fu a k h r f l g d n : h a = Some d -> rep d n -> a_removed n = false ->
  elt (Key k) (hi_ext n) ->
  check_range (S fu) a k (St h r f l g) = Ok (Some a) (St h r f l g).
Proof.
  intros H1 H2 H3 H4. cbn [check_range]. rewrite (mb_getn a d) by auto.
  erewrite mb_ok by (apply (in_node_yes d n); auto). reflexivity.
Qed.

(** A child search in an inner node yields the routing entry responsible for the key. *)
Lemma child_of_ok a k h r f l g d n lo : h a = Some d -> rep d n -> node_wf true true lo n ->
  kvalid k -> ele lo (Key k) ->
  exists E1 e E2, sents lo (a_slots n) = E1 ++ e :: E2 /\ ele (fst e) (Key k) /\
    (forall y, In y E2 -> elt (Key k) (fst y)) /\
    child_of a k (St h r f l g) = Ok (snd e) (St h r f l g).
Proof.
  intros H1 H2 H3 Hk Hlo. pose proof (nw_body _ _ _ _ H3) as Hb. cbn in Hb.
  destruct (L_search_inner d n k H2 (nw_inner _ _ _ _ H3) Hb Hk) as (rc & pos & Hs & Hspec & _).
  destruct Hspec as (l1 & s & l2 & Hsl & -> & Hle & Hlt).
  assert (Hkid : exists c, s_pay s = PP c /\ kid s = c).
  { unfold inner_ok in Hb. rewrite Hsl in Hb. unfold kid. destruct l1 as [|s0 l1]; cbn in Hb.
    - destruct Hb as ((_ & c & Hc) & _). rewrite Hc. eauto.
    - destruct Hb as (_ & Hb & _). rewrite Forall_app in Hb. destruct Hb as [_ Hb].
      inversion Hb as [|? ? (_ & k1 & c & _ & Hc) _]; subst. rewrite Hc. eauto. }
  destruct Hkid as (c & Hc & Hkc).
  assert (Hch : child_of a k (St h r f l g) = Ok c (St h r f l g)).
  { unfold child_of. rewrite (mb_getn a d) by auto. rewrite (mb_lift _ _ _ _ Hs).
    rewrite (L_child d n (length l1) s c H2 (nw_inner _ _ _ _ H3)); auto.
    rewrite Hsl. apply nth_error_mid. }
  assert (HL2 : forall y, In y (map kent l2) -> elt (Key k) (fst y)).
  { intros y Hy. apply in_map_iff in Hy as (t & <- & Ht).
    destruct (inner_keys _ _ _ t H3) as (k' & Hk1 & Hk' & _ & _).
    - rewrite Hsl. destruct l1; cbn; auto. apply in_or_app. right. now right.
    - cbn. rewrite Hk'. cbn. apply Hlt. apply in_keys_of. eauto. }
  rewrite Hsl. destruct l1 as [|s0 l1]; cbn [app sents].
  - exists [], (lo, kid s), (map kent l2). cbn [app fst snd]. rewrite Hkc. auto.
  - rewrite map_app. cbn [map].
    exists ((lo, kid s0) :: map kent l1), (kent s), (map kent l2).
    repeat split; auto; cbn [kent fst snd].
    + destruct Hle as (k1 & Hk1 & Hle); [discriminate|]. unfold key_ext. rewrite Hk1.
      now apply kle_ele.
    + now rewrite Hkc.
Qed.

(** ... which is the node of the level below that is responsible for it. *)
Lemma child_of_fnd sl' inner' L1 a n L2 M k h r f l g d :
  level true true (L1 ++ (a, n) :: L2) -> level sl' inner' M ->
  kents NegInf (L1 ++ (a, n) :: L2) = entries NegInf M ->
  in_range (lasthi NegInf L1) k (hi_ext n) -> kvalid k ->
  h a = Some d -> rep d n ->
  child_of a k (St h r f l g) = Ok (fnd NegInf k M) (St h r f l g).
Proof.
  intros HL HM HE [Hr1 Hr2] Hk H1 H2.
  destruct (seg_wf _ _ _ _ _ _ _ _ _ HL) as (Hwf & _ & Hseg).
  destruct (child_of_ok a k h r f l g d n _ H1 H2 Hwf Hk Hr1) as (E1 & e & E2 & Hs & He & HE2 & Hc).
  rewrite Hc. f_equal.
  destruct (seg_find _ _ _ _ _ _ k HM) as (M1 & b & m & M2 & -> & -> & [Hb1 Hb2]).
  { split; [apply ele_neg | exact I]. }
  destruct (seg_wf _ _ _ _ _ _ _ _ _ HM) as (Hwm & _ & Hsegm).
  destruct (seg_kents _ _ _ _ _ HL) as [Hok _].
  rewrite kents_app in HE, Hok. cbn [kents] in HE, Hok. rewrite Hs in HE, Hok.
  rewrite entries_app in HE. cbn [entries] in HE.
  rewrite <- app_assoc in HE, Hok. cbn [app] in HE, Hok. rewrite app_assoc in HE, Hok.
  destruct (eok_split_unique _ _ _ _ _ _ (Key k) Hok HE) as (_ & -> & _); auto.
  - intros y Hy. apply in_app_or in Hy as [Hy|Hy]; auto.
    destruct (seg_kents _ _ _ _ _ Hseg) as [_ Hb]. destruct (Hb y Hy) as [Hb' _].
    exact (elt_ele_trans _ _ _ Hr2 Hb').
  - intros y Hy. destruct (seg_entries _ _ _ _ _ _ Hsegm) as [_ Hb].
    destruct (Hb y Hy) as [Hb' _]. exact (elt_ele_trans _ _ _ Hb2 Hb').
Qed.

(** Levels from the top down. *)
Fixpoint dn (L : lvl) (D : list lvl) : Prop :=
  match D with
  | [] => level true false L
  | L' :: D' => level true true L /\ kents NegInf L = entries NegInf L' /\ dn L' D'
  end.

Lemma dn_level L D : dn L D -> exists inner, level true inner L /\ (inner = false <-> D = []).
Proof.
  destruct D; cbn.
  - intros H. exists false. tauto.
  - intros (H & _). exists true. split; auto. split; discriminate.
Qed.

Lemma tower_dn U D L root : dn L D -> tower true (entries NegInf L) U root ->
  exists top D', rev U ++ L :: D = top :: D' /\ entries NegInf top = [(NegInf, root)] /\ dn top D'.
Proof.
  revert D L. induction U as [|L' U IH]; intros D L HD HT; cbn in HT.
  - exists L, D. auto.
  - destruct HT as (H1 & H2 & H3).
    destruct (IH (L :: D) L') as (top & D' & E1 & E2 & E3); auto.
    + cbn. auto.
    + exists top, D'. repeat split; auto. cbn. rewrite <- app_assoc. exact E1.
Qed.

Lemma tree_dn leafs U root : tree true leafs U root ->
  exists top D, rev (leafs :: U) = top :: D /\ dn top D /\ length D = length U /\
    (forall k, fnd NegInf k top = root).
Proof.
  intros [H1 H2]. destruct (tower_dn U [] leafs root H1 H2) as (top & D & E1 & E2 & E3).
  exists top, D. cbn [rev]. repeat split; auto.
  - apply (f_equal (@length _)) in E1. rewrite app_length, rev_length in E1. cbn in E1. lia.
  - intros k. destruct top as [|[a n] [|[b m] top]]; cbn in E2; try discriminate.
    inv E2. destruct (dn_level _ _ E3) as (i & Hl & _). destruct Hl as (_ & _ & Hl). cbn in *.
    rewrite Hl. destruct (elt_dec (Key k) PosInf) as [|H]; auto. exfalso. apply H. exact I.
Qed.

Lemma level_find inner L k : level true inner L ->
  exists L1 a n L2, L = L1 ++ (a, n) :: L2 /\ fnd NegInf k L = a /\
    in_range (lasthi NegInf L1) k (hi_ext n).
Proof. intros H. eapply seg_find; eauto. split; [apply ele_neg | exact I]. Qed.

Definition covers (F : lvl) (Ls : list lvl) : Prop := forall L, In L Ls -> incl L F.

Lemma covers_cons F L Ls : covers F (L :: Ls) <-> incl L F /\ covers F Ls.
Proof.
  unfold covers. cbn. split; [intros H; split; auto|]. intros [H1 H2] M [<-|H]; auto.
Qed.

Section Search.
Context (k : K) (h : addr -> option nd) (r f : addr) (g : list addr) (F : lvl).
Context (HF : hinv h f g F) (Hk : kvalid k).

Ltac at_node HL :=
  let L1 := fresh "L1" in let a := fresh "a" in let n := fresh "n" in let L2 := fresh "L2" in
  let Hr := fresh "Hr" in
  destruct (level_find _ _ k HL) as (L1 & a & n & L2 & -> & -> & Hr);
  destruct (seg_wf _ _ _ _ _ _ _ _ _ HL) as (Hwf & _ & _);
  match goal with Hin : incl (L1 ++ (a, n) :: L2) F |- _ =>
    destruct (hinv_get _ _ _ _ _ a n HF) as (d & Hd & Hrep);
      [apply Hin, in_or_app; right; now left|]
  end.

Lemma psl_search_read_ok D : forall L fu, dn L D -> covers F (L :: D) -> length D + 1 <= fu ->
  psl_search_read fu (fnd NegInf k L) k (St h r f [] g) =
  Ok (fnd NegInf k (last D L)) (St h r f [(fnd NegInf k (last D L), LS)] g).
Proof.
  induction D as [|L' D IH]; intros L fu HD HC Hfu; (destruct fu as [|fu]; [lia|]);
    apply covers_cons in HC as [HC1 HC]; cbn [psl_search_read].
  - cbn [last]. cbn in HD. at_node HD.
    erewrite mb_ok by (eapply check_read_here; eauto; try lks;
                       [apply (nw_alive _ _ _ _ Hwf) | apply Hr]); cbv beta iota.
    rewrite (mb_getn a d) by auto. destruct (L_hdr _ _ Hrep) as (E & _). rewrite E, (nw_inner _ _ _ _ Hwf).
    reflexivity.
  - destruct HD as (HL & HE & HD). assert (HD' := HD).
    apply dn_level in HD' as (inner & HL' & _). 
    assert (Hlast : last (L' :: D) L = last D L') by (clear; revert L'; induction D; cbn; auto; destruct D; auto).
    rewrite Hlast. at_node HL.
    erewrite mb_ok by (eapply check_read_here; eauto; try lks;
                       [apply (nw_alive _ _ _ _ Hwf) | apply Hr]); cbv beta iota.
    rewrite (mb_getn a d) by auto. destruct (L_hdr _ _ Hrep) as (E & _). rewrite E, (nw_inner _ _ _ _ Hwf).
    erewrite mb_ok by (eapply child_of_fnd; eauto); cbv beta iota.
    rewrite mb_unlock by (try congruence; lks). lkn.
    apply IH; auto. cbn in Hfu. lia.
Qed.

Lemma osl_search_ok D : forall L fu, dn L D -> covers F (L :: D) -> length D + 1 <= fu ->
  osl_search fu (fnd NegInf k L) k (St h r f [] g) =
  Ok (fnd NegInf k (last D L)) (St h r f [] g).
Proof.
  induction D as [|L' D IH]; intros L fu HD HC Hfu; (destruct fu as [|fu]; [lia|]);
    apply covers_cons in HC as [HC1 HC]; cbn [osl_search].
  - cbn [last]. cbn in HD. at_node HD.
    rewrite (mb_getn a d) by auto. destruct (L_hdr _ _ Hrep) as (E & _). rewrite E, (nw_inner _ _ _ _ Hwf).
    reflexivity.
  - destruct HD as (HL & HE & HD). assert (HD' := HD).
    apply dn_level in HD' as (inner & HL' & _). 
    assert (Hlast : last (L' :: D) L = last D L') by (clear; revert L'; induction D; cbn; auto; destruct D; auto).
    rewrite Hlast. at_node HL.
    rewrite (mb_getn a d) by auto. destruct (L_hdr _ _ Hrep) as (E & _). rewrite E, (nw_inner _ _ _ _ Hwf).
    erewrite mb_ok by (eapply check_range_here; eauto;
                       [apply (nw_alive _ _ _ _ Hwf) | apply Hr]); cbv beta iota.
    erewrite mb_ok by (eapply child_of_fnd; eauto); cbv beta iota.
    apply IH; auto. cbn in Hfu. lia.
Qed.

Lemma psl_search_write_ok D : forall L fu stack, dn L D -> covers F (L :: D) -> length D + 1 <= fu ->
  psl_search_write fu (fnd NegInf k L) stack k (St h r f [] g) =
  Ok (rev (map (fnd NegInf k) (L :: D)) ++ stack) (St h r f [(fnd NegInf k (last D L), LSIX)] g).
Proof.
  induction D as [|L' D IH]; intros L fu stack HD HC Hfu; (destruct fu as [|fu]; [lia|]);
    apply covers_cons in HC as [HC1 HC]; cbn [psl_search_write].
  - cbn [last map rev app]. cbn in HD. at_node HD.
    rewrite (mb_getn a d) by auto. destruct (L_hdr _ _ Hrep) as (E & _). rewrite E, (nw_inner _ _ _ _ Hwf).
    erewrite mb_ok by (eapply check_write_here; eauto; try lks;
                       [apply (nw_alive _ _ _ _ Hwf) | apply Hr]); cbv beta iota.
    reflexivity.
  - destruct HD as (HL & HE & HD). assert (HD' := HD).
    apply dn_level in HD' as (inner & HL' & _). 
    assert (Hlast : last (L' :: D) L = last D L') by (clear; revert L'; induction D; cbn; auto; destruct D; auto).
    rewrite Hlast. cbn [map rev]. at_node HL.
    rewrite (mb_getn a d) by auto. destruct (L_hdr _ _ Hrep) as (E & _). rewrite E, (nw_inner _ _ _ _ Hwf).
    erewrite mb_ok by (eapply check_read_here; eauto; try lks;
                       [apply (nw_alive _ _ _ _ Hwf) | apply Hr]); cbv beta iota.
    erewrite mb_ok by (eapply child_of_fnd; eauto); cbv beta iota.
    rewrite mb_unlock by (try congruence; lks). lkn.
    rewrite IH; auto. 2:{ cbn in Hfu. lia. }
    cbn [map rev]. rewrite <- !app_assoc. reflexivity.
Qed.

Lemma osl_search_write_ok D : forall L fu stack, dn L D -> covers F (L :: D) -> length D + 1 <= fu ->
  osl_search_write fu (fnd NegInf k L) stack k (St h r f [] g) =
  Ok (rev (map (fnd NegInf k) (L :: D)) ++ stack) (St h r f [] g).
Proof.
  induction D as [|L' D IH]; intros L fu stack HD HC Hfu; (destruct fu as [|fu]; [lia|]);
    apply covers_cons in HC as [HC1 HC]; cbn [osl_search_write].
  - cbn [last map rev app]. cbn in HD. at_node HD.
    rewrite (mb_getn a d) by auto. destruct (L_hdr _ _ Hrep) as (E & _). rewrite E, (nw_inner _ _ _ _ Hwf).
    reflexivity.
  - destruct HD as (HL & HE & HD). assert (HD' := HD).
    apply dn_level in HD' as (inner & HL' & _). 
    cbn [map rev]. at_node HL.
    rewrite (mb_getn a d) by auto. destruct (L_hdr _ _ Hrep) as (E & _). rewrite E, (nw_inner _ _ _ _ Hwf).
    erewrite mb_ok by (eapply check_range_here; eauto;
                       [apply (nw_alive _ _ _ _ Hwf) | apply Hr]); cbv beta iota.
    erewrite mb_ok by (eapply child_of_fnd; eauto); cbv beta iota.
    rewrite IH; auto. 2:{ cbn in Hfu. lia. }
    cbn [map rev]. rewrite <- !app_assoc. reflexivity.
Qed.

End Search.

(** Searches from the root of a whole tree. *)
Section FromRoot.
Context (leafs : lvl) (U : list lvl) (h : addr -> option nd) (r f : addr) (g : list addr).
Context (HT : tree true leafs U r) (HF : hinv h f g (leafs ++ concat U)).

Lemma tree_covers : covers (leafs ++ concat U) (leafs :: U).
Proof.
  intros L [<-|HL] x Hx; apply in_or_app; [now left | right].
  apply in_concat. eauto.
Qed.

Lemma rev_last {A} (x : A) l y l' : rev (x :: l) = y :: l' -> last l' y = x.
Proof.
  intros H. assert (H1 : last (y :: l') y = x) by (rewrite <- H; cbn; apply last_last).
  destruct l'; cbn in *; auto.
Qed.

Lemma psl_read_leaf fu k : kvalid k -> length U + 1 <= fu ->
  psl_search_read fu r k (St h r f [] g) =
  Ok (fnd NegInf k leafs) (St h r f [(fnd NegInf k leafs, LS)] g).
Proof.
  intros Hk Hfu. destruct (tree_dn _ _ _ HT) as (top & D & E & HD & Hlen & Hroot).
  rewrite <- (Hroot k) at 1.
  erewrite psl_search_read_ok; eauto; try lia.
  - now rewrite (rev_last _ _ _ _ E).
  - rewrite <- E. intros L HL. apply tree_covers. now apply in_rev.
Qed.

Lemma osl_read_leaf fu k : kvalid k -> length U + 1 <= fu ->
  osl_search fu r k (St h r f [] g) = Ok (fnd NegInf k leafs) (St h r f [] g).
Proof.
  intros Hk Hfu. destruct (tree_dn _ _ _ HT) as (top & D & E & HD & Hlen & Hroot).
  rewrite <- (Hroot k) at 1.
  erewrite osl_search_ok; eauto; try lia.
  - now rewrite (rev_last _ _ _ _ E).
  - rewrite <- E. intros L HL. apply tree_covers. now apply in_rev.
Qed.

Lemma search_write_ok osl fu k : kvalid k -> length U + 1 <= fu ->
  search_write osl fu k (St h r f [] g) =
  Ok (fnd NegInf k leafs :: map (fnd NegInf k) U)
     (St h r f (if osl then [] else [(fnd NegInf k leafs, LSIX)]) g).
Proof.
  intros Hk Hfu. destruct (tree_dn _ _ _ HT) as (top & D & E & HD & Hlen & Hroot).
  unfold search_write. rewrite mb_getroot.
  assert (Hc : covers (leafs ++ concat U) (top :: D)).
  { rewrite <- E. intros L HL. apply tree_covers. now apply in_rev. }
  assert (Hst : rev (map (fnd NegInf k) (top :: D)) ++ [] =
                fnd NegInf k leafs :: map (fnd NegInf k) U).
  { rewrite app_nil_r, <- map_rev, <- E, rev_involutive. reflexivity. }
  rewrite <- Hst, <- (rev_last _ _ _ _ E).
  destruct osl; rewrite <- (Hroot k) at 1.
  - erewrite osl_search_write_ok; eauto; lia.
  - erewrite psl_search_write_ok; eauto; lia.
Qed.

End FromRoot.

End SLSearch.
