(** The separators inner nodes hold for their children. *)
From Coq Require Import List Arith Bool Lia Sorted.
From Verif Require Import Params Mem Common Spec ConcSpec NodeAbs SLIface TreeState Levels
  ConcModel ConcLin ConcInv ConcHeap ConcSmo ConcThreads.
Import ListNotations.

Section ConcSeps.
Context {P : Params} {O : OrdLaws P} {N : SLOps P} {L : SLLaws P N}.

(** C17 of one state.  [m] is a node whose right neighbour is [r] and which ends at [h], so
    [h] is the smallest key [r] is responsible for; [n] is an inner node with [r] among its
    children (other than the first one, for which it needs no separator).  Then [h] is the
    smallest key that [n] routes to [r]. *)
Definition seps_right (s : cfg) : Prop :=
  forall p n i r l m h,
    ch s p = Some n -> nd_removed n = false -> nd_inner n = true ->
    S i < nd_rc n -> nd_child n (S i) = Some r ->
    ch s l = Some m -> nd_removed m = false -> nd_next m = Some r -> nd_highkey m = Some h ->
    childp n h = Some r /\
    forall key, kvalid key -> ltb key h = true -> childp n key <> Some r.

Lemma split_same {A} (a a' : list A) x x' b b' : length a = length a' ->
  a ++ x :: b = a' ++ x' :: b' -> a = a' /\ x = x' /\ b = b'.
Proof.
  revert a'. induction a as [|y a IH]; intros [|y' a']; cbn; try discriminate.
  - intros _ [= -> ->]. auto.
  - intros [= Q] [= -> E]. destruct (IH a' Q E) as (-> & -> & ->). auto.
Qed.

Lemma sorted_lt (l1 l2 : list K) x y : StronglySorted klt (l1 ++ l2) -> In x l1 -> In y l2 -> klt x y.
Proof.
  induction l1 as [|z l1 IH]; cbn; [tauto|]. intros Hs [<-|Hx] Hy.
  - inversion Hs as [|? ? _ Hf]; subst. rewrite Forall_forall in Hf. apply Hf, in_or_app. auto.
  - inversion Hs; subst. auto.
Qed.

Lemma inv_seps m0 s G : inv m0 s G -> seps_right s.
Proof.
  intros I p n i r l m h Ep Rp Ip Hi Hc El Rl Hnx Hh.
  pose proof (i_heap _ _ _ I) as H.
  pose proof (h_node _ _ _ _ _ H p n Ep Rp) as Hn.
  pose proof (h_node _ _ _ _ _ H l m El Rl) as Hm.
  destruct (L_hdr _ _ (n_rep _ _ _ _ Hn)) as (I1 & _ & _ & I4).
  destruct (L_hdr _ _ (n_rep _ _ _ _ Hm)) as (_ & _ & J3 & _).
  assert (Hlv : lv G p <> 0).
  { intros Z. rewrite I1, (n_inner _ _ _ _ Hn), Z in Ip. discriminate. }
  destruct (node_inner _ _ _ _ Hn Hlv) as (Hin & Hb).
  (* the low end of r *)
  pose proof (n_next _ _ _ _ Hm) as Q. rewrite <- J3, Hnx in Q.
  destruct Q as (h' & Q1 & Q2 & _).
  rewrite (L_highkey _ _ _ (n_rep _ _ _ _ Hm) Q1) in Hh. injection Hh as ->.
  assert (Hkv : kvalid h) by (eapply L_kvalid_high; [apply (n_rep _ _ _ _ Hm)|exact Q1]).
  (* the slot *)
  destruct (nth_error (a_slots (av G p)) (S i)) as [sl|] eqn:En.
  2:{ apply nth_error_None in En. lia. }
  destruct (nth_error_split _ _ En) as (b1 & b2 & Eb & Lb).
  destruct b1 as [|s0 b1]; [discriminate|]. cbn in Lb. injection Lb as Lb.
  assert (Hk : forall sx, In sx (tl (a_slots (av G p))) -> inner_slotk sx).
  { intros sx Hx. unfold inner_ok in Hb. rewrite Eb in Hb, Hx. cbn in Hb, Hx.
    destruct Hb as (_ & Hb & _). rewrite Forall_forall in Hb. auto. }
  assert (Hsl : inner_slotk sl).
  { apply Hk. rewrite Eb. cbn. apply in_or_app. right. now left. }
  destruct Hsl as (_ & k1 & c1 & K1 & C1).
  assert (c1 = r).
  { pose proof (L_child n (av G p) (S i) sl c1 (n_rep _ _ _ _ Hn) Hin En C1). congruence. }
  subst c1.
  assert (Hent : In (Key k1, r) (entries_of G p)).
  { unfold entries_of. rewrite Eb. cbn [app ents]. right. apply in_map_iff. exists sl. split.
    - unfold sent, skey, skid. now rewrite K1, C1.
    - apply in_or_app. right. now left. }
  destruct (n_kids _ _ _ _ Hn Hlv _ _ Hent) as (_ & _ & Hlo & _).
  rewrite Q2 in Hlo. injection Hlo as <-.
  assert (Hsep : elt (lo G p) (Key h)).
  { apply (n_seps _ _ _ _ Hn Hlv h). apply in_keys_of. exists sl. split; auto.
    rewrite Eb. cbn. apply in_or_app. right. now left. }
  assert (Hsort : StronglySorted klt (keys_of (tl (a_slots (av G p))))).
  { unfold inner_ok in Hb. rewrite Eb in Hb |- *. cbn in Hb |- *. apply Hb. }
  (* what a search finds *)
  assert (Hfind : forall key, kvalid key -> exists l1 sx l2 c, a_slots (av G p) = l1 ++ sx :: l2 /\
    (l1 <> [] -> exists ks, s_key sx = Some ks /\ kle ks key) /\
    (forall k, In k (keys_of l2) -> klt key k) /\ s_pay sx = PP c /\ childp n key = Some c).
  { intros key Hv.
    destruct (L_search_inner n _ key (n_rep _ _ _ _ Hn) Hin Hb Hv) as (rc & pos & Hs & Hspec & _).
    destruct Hspec as (l1 & sx & l2 & Hsx & -> & Hle & Hlt).
    assert (Hkid : exists c, s_pay sx = PP c).
    { destruct l1 as [|y l1].
      - unfold inner_ok in Hb. rewrite Hsx in Hb. cbn in Hb. destruct Hb as ((_ & c & Hx) & _). eauto.
      - destruct (Hk sx) as (_ & ? & c & _ & Hx); [|eauto]. rewrite Hsx. cbn. apply in_or_app.
        right. now left. }
    destruct Hkid as (c & Hx). exists l1, sx, l2, c. split; [auto|]. split; [auto|].
    split; [auto|]. split; [auto|]. unfold childp. rewrite Hs. eapply L_child; eauto.
    - apply (n_rep _ _ _ _ Hn).
    - rewrite Hsx. apply nth_error_mid. }
  split.
  - destruct (Hfind h Hkv) as (l1 & sx & l2 & c & E1 & E2 & E3 & E4 & E5). rewrite E5.
    rewrite Eb in E1.
    assert (Hlen : length (s0 :: b1) = length l1).
    { destruct (Nat.lt_trichotomy (length (s0 :: b1)) (length l1)) as [Hlt|[Heq|Hlt]]; auto; exfalso.
      - (* sl is before sx *)
        destruct l1 as [|y l1]; [cbn in Hlt; lia|]. injection E1 as <- E1.
        destruct E2 as (ks & F1 & F2); [discriminate|].
        rewrite Eb in Hsort. cbn [app tl] in Hsort. rewrite E1 in Hsort.
        assert (Hin1 : In sl l1).
        { apply (nth_error_In l1 (length b1)). cbn in Hlt.
          rewrite <- (nth_error_app1 l1 (sx :: l2)) by lia. rewrite <- E1. apply nth_error_mid. }
        rewrite keys_of_app in Hsort.
        assert (klt h ks).
        { apply (sorted_lt _ _ _ _ Hsort); apply in_keys_of; eauto. exists sx. split; auto. now left. }
        unfold kle, klt in *. congruence.
      - (* sl is after sx *)
        assert (Hin2 : In sl l2).
        { apply (nth_error_In l2 (length (s0 :: b1) - length l1 - 1)).
          assert (Hn2 : nth_error (l1 ++ sx :: l2) (length (s0 :: b1)) = Some sl)
            by (rewrite <- E1; apply (nth_error_mid (s0 :: b1))).
          rewrite nth_error_app2 in Hn2 by lia.
          destruct (length (s0 :: b1) - length l1) as [|j] eqn:Ej; [lia|]. cbn in Hn2.
          now rewrite Nat.sub_succ, Nat.sub_0_r. }
        assert (klt h h) by (apply E3; apply in_keys_of; eauto).
        unfold klt in *. rewrite ltb_irrefl in *. discriminate. }
    apply split_same in E1 as (_ & <- & _); auto. congruence.
  - intros key Hv Hlt Habs.
    destruct (Hfind key Hv) as (l1 & sx & l2 & c & E1 & E2 & E3 & E4 & E5).
    assert (c = r) by congruence. subst c.
    destruct l1 as [|y l1].
    + assert (Hent2 : In (lo G p, r) (entries_of G p)).
      { unfold entries_of. rewrite E1. cbn. left. unfold skid. now rewrite E4. }
      destruct (n_kids _ _ _ _ Hn Hlv _ _ Hent2) as (_ & _ & Hlo & _).
      rewrite <- Hlo, Q2 in Hsep. cbn in Hsep. unfold klt in Hsep. now rewrite ltb_irrefl in Hsep.
    + destruct E2 as (ks & F1 & F2); [discriminate|].
      assert (Hent2 : In (Key ks, r) (entries_of G p)).
      { unfold entries_of. rewrite E1. cbn [app ents]. right. apply in_map_iff. exists sx. split.
        - unfold sent, skey, skid. now rewrite F1, E4.
        - apply in_or_app. right. now left. }
      destruct (n_kids _ _ _ _ Hn Hlv _ _ Hent2) as (_ & _ & Hlo & _).
      rewrite Q2 in Hlo. injection Hlo as <-. unfold kle in F2. congruence.
Qed.

End ConcSeps.
