(** How splits, merges, and child insertions and removals act on well-formed nodes and
    levels.  Proof-side only. *)
From Coq Require Import List Arith Bool Lia Sorted.
From Verif Require Import Params Mem Common Spec NodeAbs SLIface Levels.
Import ListNotations.

Section LevelOps.
Context {P : Params} {O : OrdLaws P}.

Lemma keys_of_cons s l : keys_of (s :: l) = key1 s ++ keys_of l.
Proof. reflexivity. Qed.

Lemma inner_ok_app s1 s0 s2 : s1 <> [] ->
  inner_ok (s1 ++ s0 :: s2) ->
  inner_ok s1 /\ inner_ok (s0 :: s2) /\
  exists k, s_key s0 = Some k /\ (forall x, In x (keys_of (tl s1)) -> klt x k) /\
            (forall x, In x (keys_of s2) -> klt k x).
Proof.
  destruct s1 as [|t s1]; [congruence|]. intros _ H. cbn [app inner_ok] in H.
  destruct H as (H1 & H2 & H3). rewrite Forall_app in H2. destruct H2 as [H2 H4].
  inversion H4 as [|? ? (H5 & k & c & Hk & Hc) H6]; subst.
  rewrite keys_of_app, keys_of_cons in H3. unfold key1 in H3. rewrite Hk in H3. cbn [app] in H3.
  apply SS_app in H3 as (H7 & H8 & H9). apply StronglySorted_inv in H8 as [H8 H10].
  rewrite Forall_forall in H10.
  split; [cbn; auto|]. split.
  - cbn. split; [split; eauto|]. auto.
  - exists k. repeat split; auto. cbn [tl]. intros x Hx. apply H9; auto. now left.
Qed.

(** Both halves of a split are well formed. *)
Lemma node_wf_split sl lo n sep s1 s2 nx1 nx2 lw1 lw2 :
  node_wf sl (a_inner n) lo n -> split_spec n sep s1 s2 ->
  (sl = true -> lw1 = a_low n) -> (sl = true -> lw2 = Some sep) ->
  node_wf sl (a_inner n) lo (ANode (a_inner n) (a_removed n) nx1 lw1 (Some sep) s1) /\
  node_wf sl (a_inner n) (Key sep) (ANode (a_inner n) false nx2 lw2 (a_high n) s2).
Proof.
  intros H (Hsep & Hs) Hl1 Hl2. destruct (a_inner n) eqn:Ein.
  - destruct Hs as (Hsl & Hne & s0 & tl0 & -> & Hk).
    pose proof (nw_body _ _ _ _ H) as Hb. cbn in Hb. rewrite Hsl in Hb.
    destruct (inner_ok_app _ _ _ Hne Hb) as (Hb1 & Hb2 & k & Hk' & Hlt1 & Hlt2).
    rewrite Hk in Hk'. inv Hk'.
    assert (Htl : tl (s1 ++ s0 :: tl0) = tl s1 ++ s0 :: tl0) by (destruct s1; [congruence|auto]).
    assert (HR : forall x, In x (keys_of (tl s1)) \/ x = k \/ In x (keys_of tl0) ->
                 In x (rkeys true (a_slots n))).
    { intros x Hx. unfold rkeys. rewrite Hsl, Htl, keys_of_app, keys_of_cons, !in_app_iff.
      unfold key1. rewrite Hk. cbn. intuition. }
    split; split; cbn [a_inner a_removed a_slots a_high a_low body_ok rkeys hi_ext]; auto.
    + apply (nw_alive _ _ _ _ H).
    + apply (nw_lo _ _ _ _ H). auto.
    + intros x Hx. apply (nw_lo _ _ _ _ H). auto.
    + intros _ x Hx. pose proof (nw_first _ _ _ _ H eq_refl x Hx) as Hf. rewrite Hsl in Hf.
      destruct s1; [congruence|]. exact Hf.
    + intros E x Hx. rewrite (Hl1 E). now apply (nw_low _ _ _ _ H).
    + apply (nw_hi _ _ _ _ H k). auto.
    + intros x Hx. cbn [tl] in Hx. change (elt (Key x) (hi_ext n)). apply (nw_hi _ _ _ _ H). auto.
    + intros _ x Hx. inv Hx. unfold kat. cbn. auto.
    + intros E x Hx. inv Hx. auto.
  - destruct Hs as (Hlive & Hok1 & Hok2 & Hi1 & Hi2 & Hlt & Hle & k0 & Hk0 & Hlt0).
    split; split; cbn [a_inner a_removed a_slots a_high a_low body_ok rkeys hi_ext]; auto.
    + apply (nw_alive _ _ _ _ H).
    + eapply ele_elt_trans; [apply (nw_lo _ _ _ _ H k0 Hk0)|exact Hlt0].
    + intros x Hx. apply (nw_lo _ _ _ _ H). apply Hi1. auto.
    + discriminate.
    + intros E x Hx. rewrite (Hl1 E). now apply (nw_low _ _ _ _ H).
    + apply (nw_hi _ _ _ _ H sep). auto.
    + intros x Hx. apply kle_ele. auto.
    + intros x Hx. apply (nw_hi _ _ _ _ H). apply Hi2. auto.
    + discriminate.
    + intros E x Hx. inv Hx. auto.
Qed.

(** Splitting an inner node keeps its routing entries. *)
Lemma sents_split_spec sl lo n sep s1 s2 : node_wf sl true lo n -> a_inner n = true ->
  split_spec n sep s1 s2 ->
  sents lo (a_slots n) = sents lo s1 ++ sents (Key sep) s2.
Proof.
  intros H Hin (_ & Hs). rewrite Hin in Hs. destruct Hs as (Hsl & Hne & s0 & tl0 & -> & Hk).
  rewrite Hsl. destruct s1; [congruence|]. cbn. rewrite map_app. cbn.
  unfold kent at 2, key_ext. now rewrite Hk.
Qed.

Lemma live_split_spec n sep s1 s2 : a_inner n = false -> split_spec n sep s1 s2 ->
  live (a_slots n) = live s1 ++ live s2.
Proof. intros Hin (_ & Hs). rewrite Hin in Hs. tauto. Qed.

(** Child insertion. *)
Lemma node_wf_insert_child sl lo n n' l1 s l2 sep r :
  node_wf sl true lo n -> same_frame n n' -> a_slots n = l1 ++ s :: l2 ->
  (l1 <> [] -> exists k, s_key s = Some k /\ klt k sep) ->
  (forall k, In k (keys_of l2) -> klt sep k) ->
  a_slots n' = l1 ++ s :: Slot (Some sep) (PP r) false :: l2 ->
  in_range lo sep (hi_ext n) -> elt lo (Key sep) ->
  node_wf sl true lo n'.
Proof.
  intros H (F1 & F2 & F3 & F4 & F5) Hsl H1 H2 Hsl' [_ Hr] Hlo.
  pose proof (nw_body _ _ _ _ H) as Hb. cbn in Hb. rewrite Hsl in Hb.
  assert (Hr' : hi_ext n' = hi_ext n) by now apply hi_ext_eq.
  assert (Hkeys : forall x, In x (rkeys true (a_slots n')) -> x = sep \/ In x (rkeys true (a_slots n))).
  { intros x. unfold rkeys. rewrite Hsl, Hsl'. destruct l1 as [|t l1]; cbn [app tl].
    - rewrite keys_of_cons. cbn. intuition.
    - rewrite !keys_of_app, !keys_of_cons. rewrite !in_app_iff. cbn. intuition. }
  split.
  - now rewrite F1, (nw_inner _ _ _ _ H).
  - now rewrite F2, (nw_alive _ _ _ _ H).
  - cbn. rewrite Hsl'. destruct l1 as [|t l1]; cbn [app inner_ok] in *.
    + destruct Hb as (B1 & B2 & B3). split; auto. split.
      * constructor; auto. split; eauto. cbn. eauto.
      * rewrite keys_of_cons. cbn. constructor; auto. apply Forall_forall. auto.
    + destruct Hb as (B1 & B2 & B3). split; auto.
      rewrite Forall_app in B2. destruct B2 as [B2 B4]. split.
      * apply Forall_app. split; auto. inv B4. constructor; auto. constructor; auto.
        split; eauto. cbn. eauto.
      * destruct H1 as (k & Hk & Hlt); [discriminate|].
        rewrite !keys_of_app, !keys_of_cons in *. unfold key1 at 1. unfold key1 at 1 in B3.
        rewrite Hk in *. cbn [app s_key key1] in *.
        apply SS_app in B3 as (B5 & B6 & B7). apply StronglySorted_inv in B6 as [B6 B8].
        rewrite Forall_forall in B8.
        apply SS_app. split; auto. split.
        -- constructor.
           ++ constructor; auto. apply Forall_forall. auto.
           ++ constructor; auto. apply Forall_forall. auto.
        -- intros x y Hx [<-|[<-|Hy]].
           ++ apply B7; auto. now left.
           ++ eapply klt_trans; [|exact Hlt]. apply B7; auto. now left.
           ++ apply B7; auto. now right.
  - rewrite Hr'. apply (nw_range _ _ _ _ H).
  - intros k Hk. apply Hkeys in Hk as [->|Hk]; auto. apply (nw_lo _ _ _ _ H); auto.
  - intros k Hk. rewrite Hr'. apply Hkeys in Hk as [->|Hk]; auto. apply (nw_hi _ _ _ _ H); auto.
  - intros _ x Hx. pose proof (nw_first _ _ _ _ H eq_refl x Hx) as Hf.
    rewrite Hsl in Hf. rewrite Hsl'. destruct l1; exact Hf.
  - intros E x Hx. rewrite F4. now apply (nw_low _ _ _ _ H).
Qed.

(** Child removal. *)
Lemma node_wf_delete_child sl lo n n' l1 s l2 :
  node_wf sl true lo n -> same_frame n n' -> a_slots n = l1 ++ s :: l2 -> l1 <> [] ->
  a_slots n' = l1 ++ l2 -> node_wf sl true lo n'.
Proof.
  intros H (F1 & F2 & F3 & F4 & F5) Hsl Hne Hsl'.
  pose proof (nw_body _ _ _ _ H) as Hb. cbn in Hb. rewrite Hsl in Hb.
  assert (Hr' : hi_ext n' = hi_ext n) by now apply hi_ext_eq.
  destruct l1 as [|t l1]; [congruence|]. cbn [app] in *.
  assert (Hkeys : forall x, In x (rkeys true (a_slots n')) -> In x (rkeys true (a_slots n))).
  { intros x. unfold rkeys. rewrite Hsl, Hsl'. cbn [tl].
    rewrite !keys_of_app, keys_of_cons, !in_app_iff. tauto. }
  split.
  - now rewrite F1, (nw_inner _ _ _ _ H).
  - now rewrite F2, (nw_alive _ _ _ _ H).
  - cbn. rewrite Hsl'. cbn [inner_ok] in *. destruct Hb as (B1 & B2 & B3). split; auto.
    rewrite Forall_app in B2. destruct B2 as [B2 B4]. split.
    + apply Forall_app. split; auto. now inv B4.
    + rewrite !keys_of_app, keys_of_cons in *.
      apply SS_app in B3 as (B5 & B6 & B7). apply SS_app in B6 as (B8 & B9 & B10).
      apply SS_app. split; auto. split; auto. intros x y Hx Hy. apply B7; auto.
      apply in_or_app. auto.
  - rewrite Hr'. apply (nw_range _ _ _ _ H).
  - intros k Hk. apply (nw_lo _ _ _ _ H); auto.
  - intros k Hk. rewrite Hr'. apply (nw_hi _ _ _ _ H); auto.
  - intros _ x Hx. pose proof (nw_first _ _ _ _ H eq_refl x Hx) as Hf.
    rewrite Hsl in Hf. now rewrite Hsl'.
  - intros E x Hx. rewrite F4. now apply (nw_low _ _ _ _ H).
Qed.

(** Leaf update. *)
Lemma node_wf_leaf_upd sl lo n n' extra recs0 :
  node_wf sl false lo n -> leaf_upd n n' extra recs0 ->
  (forall k, In k extra -> in_range lo k (hi_ext n)) ->
  node_wf sl false lo n' /\ a_next n' = a_next n /\ a_high n' = a_high n /\ live (a_slots n') = recs0.
Proof.
  intros H ((F1 & F2 & F3 & F4 & F5) & Hok & Hlive & Hinc) Hex.
  assert (Hr' : hi_ext n' = hi_ext n) by now apply hi_ext_eq.
  split; [|auto]. split.
  - now rewrite F1, (nw_inner _ _ _ _ H).
  - now rewrite F2, (nw_alive _ _ _ _ H).
  - exact Hok.
  - rewrite Hr'. apply (nw_range _ _ _ _ H).
  - intros k Hk. apply Hinc in Hk. apply in_app_or in Hk as [Hk|Hk]; [now apply Hex|].
    apply (nw_lo _ _ _ _ H); auto.
  - intros k Hk. rewrite Hr'. apply Hinc in Hk. apply in_app_or in Hk as [Hk|Hk]; [now apply Hex|].
    apply (nw_hi _ _ _ _ H); auto.
  - discriminate.
  - intros E x Hx. rewrite F4. now apply (nw_low _ _ _ _ H).
Qed.

(** Merge of two neighbours. *)
Lemma node_wf_merge sl inner lo al ar h s nx lw :
  node_wf sl inner lo al -> a_high al = Some h -> node_wf sl inner (Key h) ar ->
  merge_spec al ar s -> (sl = true -> lw = a_low al) ->
  node_wf sl inner lo (ANode inner (a_removed al) nx lw (a_high ar) s).
Proof.
  intros Hl Hh Hr Hm Hlw. unfold merge_spec in Hm. rewrite (nw_inner _ _ _ _ Hl) in Hm.
  assert (Hhi : hi_ext al = Key h) by (unfold hi_ext; now rewrite Hh).
  assert (Hrng : elt lo (hi_ext ar)).
  { eapply elt_trans; [apply (nw_range _ _ _ _ Hl)|]. rewrite Hhi. apply (nw_range _ _ _ _ Hr). }
  destruct inner.
  - subst s. pose proof (nw_body _ _ _ _ Hl) as Bl. pose proof (nw_body _ _ _ _ Hr) as Br.
    cbn in Bl, Br. pose proof (nw_first _ _ _ _ Hr eq_refl h eq_refl) as Hf.
    pose proof (nw_hi _ _ _ _ Hl) as Hi. pose proof (nw_lo _ _ _ _ Hl) as Hlo'.
    pose proof (nw_hi _ _ _ _ Hr) as Hi2. pose proof (nw_lo _ _ _ _ Hr) as Hlo2.
    pose proof (nw_first _ _ _ _ Hl eq_refl) as Hf1.
    rewrite Hhi in Hi. unfold rkeys in *.
    destruct (a_slots al) as [|t l1]; [destruct Bl|].
    destruct (a_slots ar) as [|u l2]; [destruct Br|]. unfold kat in *. cbn [nth_error] in Hf. cbn [tl] in *.
    assert (Hkeys : forall x, In x (keys_of (l1 ++ u :: l2)) ->
              In x (keys_of l1) \/ x = h \/ In x (keys_of l2)).
    { intros x. rewrite keys_of_app, keys_of_cons, !in_app_iff. unfold key1. rewrite Hf. cbn.
      intuition. }
    destruct Bl as (Bl1 & Bl2 & Bl3). destruct Br as (Br1 & Br2 & Br3).
    split; cbn [a_inner a_removed a_slots a_high a_low body_ok rkeys hi_ext app tl]; auto.
    + apply (nw_alive _ _ _ _ Hl).
    + cbn [inner_ok]. split; auto. split.
      * apply Forall_app. split; auto. constructor; auto.
        destruct Br1 as (D & c & Hc). split; eauto.
      * rewrite keys_of_app, keys_of_cons. unfold key1. rewrite Hf. cbn [app].
        apply SS_app. split; auto. split.
        -- constructor; auto. apply Forall_forall. intros x Hx. exact (Hlo2 x Hx).
        -- intros x y Hx [<-|Hy]; [exact (Hi x Hx)|].
           eapply klt_trans; [exact (Hi x Hx)|exact (Hlo2 y Hy)].
    + intros x Hx. apply Hkeys in Hx as [Hx|[->|Hx]].
      * now apply Hlo'.
      * rewrite <- Hhi. apply (nw_range _ _ _ _ Hl).
      * eapply elt_trans; [apply (nw_range _ _ _ _ Hl)|]. rewrite Hhi. now apply Hlo2.
    + intros x Hx. apply Hkeys in Hx as [Hx|[->|Hx]].
      * eapply elt_trans; [exact (Hi x Hx)|]. apply (nw_range _ _ _ _ Hr).
      * apply (nw_range _ _ _ _ Hr).
      * now apply Hi2.
    + intros E x Hx. rewrite (Hlw E). now apply (nw_low _ _ _ _ Hl).
  - destruct Hm as (Hok & Hlive & Hinc).
    assert (Hk : forall x, In x (keys_of s) -> In x (keys_of (a_slots al)) \/ In x (keys_of (a_slots ar))).
    { intros x Hx. apply Hinc in Hx. now apply in_app_or in Hx. }
    split; cbn [a_inner a_removed a_slots a_high a_low body_ok rkeys hi_ext app tl]; auto.
    + apply (nw_alive _ _ _ _ Hl).
    + intros x Hx. apply Hk in Hx as [Hx|Hx].
      * apply (nw_lo _ _ _ _ Hl x Hx).
      * apply elt_ele. eapply elt_ele_trans; [apply (nw_range _ _ _ _ Hl)|]. rewrite Hhi.
        apply (nw_lo _ _ _ _ Hr x Hx).
    + intros x Hx. apply Hk in Hx as [Hx|Hx].
      * eapply elt_trans; [apply (nw_hi _ _ _ _ Hl x Hx)|]. rewrite Hhi. apply (nw_range _ _ _ _ Hr).
      * apply (nw_hi _ _ _ _ Hr x Hx).
    + discriminate.
    + intros E x Hx. rewrite (Hlw E). now apply (nw_low _ _ _ _ Hl).
Qed.

Lemma sents_merge sl lo al ar h : node_wf sl true lo al -> node_wf sl true (Key h) ar ->
  sents lo (a_slots al ++ a_slots ar) = sents lo (a_slots al) ++ sents (Key h) (a_slots ar).
Proof.
  intros Hl Hr. pose proof (nw_body _ _ _ _ Hl) as Bl. pose proof (nw_body _ _ _ _ Hr) as Br.
  cbn in Bl, Br. pose proof (nw_first _ _ _ _ Hr eq_refl h eq_refl) as Hf.
  destruct (a_slots al) as [|t l1]; [destruct Bl|].
  destruct (a_slots ar) as [|u l2]; [destruct Br|]. cbn. rewrite map_app. cbn.
  unfold kat in Hf. cbn in Hf. unfold kent at 2, key_ext. now rewrite Hf.
Qed.

(** A new root above two nodes. *)
Lemma root2_wf sl s0 l r sep nx lw :
  node_wf sl true NegInf (ANode true false nx lw None
    [Slot s0 (PP l) false; Slot (Some sep) (PP r) false]).
Proof.
  split; cbn [a_inner a_removed a_slots a_high a_low]; auto; try discriminate.
  - cbn. split; [split; cbn; eauto|]. split.
    + constructor; [|constructor]. split; cbn; eauto.
    + constructor; constructor.
  - exact I.
  - cbn. auto.
  - cbn. auto.
Qed.

(** A bound on everything to the right of a node bounds the node. *)
Lemma right_bound sl L2 n x : seg sl true (hi_ext n) L2 PosInf None ->
  (forall y, In y (kents (hi_ext n) L2) -> elt (Key x) (fst y)) -> elt (Key x) (hi_ext n).
Proof.
  destruct L2 as [|[b m] L2]; cbn [seg kents].
  - intros ->. exact (fun _ => I).
  - intros (Hwf & _) H. pose proof (nw_body _ _ _ _ Hwf) as Hb. cbn in Hb.
    destruct (a_slots m) as [|s0 tl0]; [destruct Hb|].
    specialize (H (hi_ext n, kid s0)). cbn in H. apply H. now left.
Qed.

(** Everything an [ins_at] needs to know about a parent level. *)
Lemma parent_of sl L E1 x l E2 k0 :
  level sl true L -> kents NegInf L = E1 ++ (x, l) :: E2 ->
  ele x (Key k0) -> (forall y, In y E2 -> elt (Key k0) (fst y)) ->
  exists L1 p n L2 s1 s s2, L = L1 ++ (p, n) :: L2 /\ a_slots n = s1 ++ s :: s2 /\
    E1 = kents NegInf L1 ++ sents (lasthi NegInf L1) s1 /\
    E2 = map kent s2 ++ kents (hi_ext n) L2 /\ kid s = l /\
    (s1 = [] -> x = lasthi NegInf L1) /\ (s1 <> [] -> x = key_ext s) /\
    node_wf sl true (lasthi NegInf L1) n /\ in_range (lasthi NegInf L1) k0 (hi_ext n) /\
    fnd NegInf k0 L = p /\ ele (lasthi NegInf L1) x.
Proof.
  intros HL HE Hx Hk.
  destruct (kents_split _ _ _ _ _ _ HE) as (L1 & p & n & L2 & s1 & s & s2 & -> & Hsl & HE1 & HE2 & Hkid & Hx1 & Hx2).
  destruct (seg_wf _ _ _ _ _ _ _ _ _ HL) as (Hwf & Hnext & Hseg).
  assert (Hlox : ele (lasthi NegInf L1) x).
  { destruct s1 as [|t s1].
    - rewrite Hx1 by auto. apply ele_refl.
    - rewrite Hx2 by discriminate. destruct (inner_keys _ _ _ s Hwf) as (k & _ & Hk' & H1 & _).
      + rewrite Hsl. cbn. apply in_or_app. right. now left.
      + rewrite Hk'. now apply elt_ele. }
  assert (Hr : in_range (lasthi NegInf L1) k0 (hi_ext n)).
  { split; [eapply ele_trans; eauto|]. eapply right_bound; eauto.
    intros y Hy. apply Hk. rewrite HE2. apply in_or_app. auto. }
  exists L1, p, n, L2, s1, s, s2. do 9 (split; [solve [auto]|]). split; auto.
  eapply fnd_mid; eauto.
Qed.

End LevelOps.
