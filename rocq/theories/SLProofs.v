(** The single-layer trees refine the abstract map. *)
From Coq Require Import List Arith Bool Lia Sorted.
From Verif Require Import Params Mem Common Spec NodeAbs SLIface TreeState Levels TreeHeap
  LevelOps SLModel SLSearch SLSplit SLMerge.
Import ListNotations.

Section SLProofs.
Context {P : Params} {O : OrdLaws P} {N : SLOps P} {LW : SLLaws P N} {W : Leak} (osl : bool).
Notation hinv := (@hinv P W nd rep).

(** The state represents the map [m], no latch is held, and there are at most [H] inner
    levels. *)
Definition sl_inv (H : nat) (s : st nd) (m : amap) : Prop :=
  exists leafs U, tree true leafs U (rt s) /\ hinv (hp s) (fr s) (gb s) (leafs ++ concat U) /\
    lk s = [] /\ length U <= H /\ forall k, assoc k (recs leafs) = m k.

Lemma assoc_mid_upsert key v A B C k :
  assoc key A = None ->
  assoc k (A ++ upsert key v B ++ C) = if keqb k key then Some v else assoc k (A ++ B ++ C).
Proof.
  intros H. rewrite !assoc_app, assoc_upsert. destruct (keqb k key) eqn:E; auto.
  apply keqb_eq in E. subst. now rewrite H.
Qed.

Lemma assoc_mid_remove key A B C k :
  assoc key A = None -> assoc key C = None ->
  assoc k (A ++ remove_key key B ++ C) = if keqb k key then None else assoc k (A ++ B ++ C).
Proof.
  intros H H'. rewrite !assoc_app, assoc_remove. destruct (keqb k key) eqn:E; auto.
  apply keqb_eq in E. subst. now rewrite H, H'.
Qed.

Lemma recs_mid_eq L1 (a : addr) n L2 : recs (L1 ++ (a, n) :: L2) = recs L1 ++ live (a_slots n) ++ recs L2.
Proof. rewrite recs_app. reflexivity. Qed.

(** Finding the leaf of a key in a good state. *)
Lemma at_leaf leafs U root h f g key :
  tree true leafs U root -> hinv h f g (leafs ++ concat U) ->
  exists L1 a n L2 d, leafs = L1 ++ (a, n) :: L2 /\ fnd NegInf key leafs = a /\
    in_range (lasthi NegInf L1) key (hi_ext n) /\ node_wf true false (lasthi NegInf L1) n /\
    h a = Some d /\ rep d n /\ hinv h f g (L1 ++ (a, n) :: (L2 ++ concat U)) /\
    assoc key (recs L1) = None /\ assoc key (recs L2) = None /\
    a_inner n = false /\ leaf_ok (a_slots n) /\ a_removed n = false /\
    assoc key (recs leafs) = assoc key (live (a_slots n)).
Proof.
  intros [HL HT] HF. destruct (level_find _ _ key HL) as (L1 & a & n & L2 & -> & Hf & Hr).
  destruct (seg_wf _ _ _ _ _ _ _ _ _ HL) as (Hwf & _ & _).
  assert (HFe : hinv h f g (L1 ++ (a, n) :: (L2 ++ concat U))).
  { eapply hinv_eq; [|exact HF]. fassoc. }
  destruct (hinv_get _ _ _ _ _ a n HFe) as (d & Hd & Hrep); [apply in_or_app; right; now left|].
  destruct (recs_mid _ _ _ _ _ _ HL Hr) as [HA HB].
  exists L1, a, n, L2, d. repeat (split; [first [solve [auto] | lia]|]).
  split; [exact (nw_inner _ _ _ _ Hwf)|]. split; [exact (nw_body _ _ _ _ Hwf)|].
  split; [exact (nw_alive _ _ _ _ Hwf)|].
  eapply recs_assoc; eauto.
Qed.

(** Replacing a leaf. *)
Lemma leaf_set L1 a n n' L2 U root h f g d' extra recs0 :
  tree true (L1 ++ (a, n) :: L2) U root -> hinv h f g (L1 ++ (a, n) :: (L2 ++ concat U)) ->
  node_wf true false (lasthi NegInf L1) n -> leaf_upd n n' extra recs0 ->
  (forall k, In k extra -> in_range (lasthi NegInf L1) k (hi_ext n)) -> rep d' n' ->
  tree true (L1 ++ (a, n') :: L2) U root /\
  hinv (upd h a (Some d')) f g ((L1 ++ (a, n') :: L2) ++ concat U) /\
  recs (L1 ++ (a, n') :: L2) = recs L1 ++ recs0 ++ recs L2.
Proof.
  intros [HL HT] HF Hwf Hu Hex Hrep.
  destruct (node_wf_leaf_upd _ _ _ _ _ _ Hwf Hu Hex) as (Hwf' & Hnx & Hhi & Hlive).
  split; [split|split].
  - eapply seg_replace; eauto.
  - rewrite (entries_replace _ _ _ n); auto.
  - eapply hinv_eq; [|eapply hinv_set; eauto]. fassoc.
  - rewrite recs_mid_eq, Hlive. reflexivity.
Qed.

(** Splitting a leaf and inserting the record. *)
Lemma split_and_retry_ok fu op2 key v L1 a n L2 U root h f g d :
  (forall d n, rep d n -> a_inner n = false -> leaf_ok (a_slots n) -> kvalid key -> room d ->
     ~ In key (keys_of (a_slots n)) ->
     exists d' n', op2 d key v = Some (kCompleted, d') /\ rep d' n' /\
       leaf_upd n n' [key] (upsert key v (live (a_slots n)))) ->
  tree true (L1 ++ (a, n) :: L2) U root -> hinv h f g (L1 ++ (a, n) :: (L2 ++ concat U)) ->
  h a = Some d -> rep d n -> splittable d -> in_range (lasthi NegInf L1) key (hi_ext n) ->
  kvalid key -> ~ In key (keys_of (a_slots n)) -> length U + 2 <= fu ->
  exists h' root' f' leafs' U',
    split_and_retry osl fu op2 a (map (fnd NegInf key) U) key v (St h root f [(a, LSIX)] g) =
      Ok tt (St h' root' f' [] g) /\
    tree true leafs' U' root' /\ hinv h' f' g (leafs' ++ concat U') /\
    recs leafs' = recs L1 ++ upsert key v (live (a_slots n)) ++ recs L2 /\
    length U' <= S (length U).
Proof.
  intros Hop [HL HT] HF Hd Hrep Hspl Hr Hkv Hni Hfu.
  destruct (seg_wf _ _ _ _ _ _ _ _ _ HL) as (Hwf & Hnext & Hseg).
  set (lo := lasthi NegInf L1) in *.
  destruct (half_split_ok false lo h root f g L1 a d n (L2 ++ concat U) HF Hd Hrep Hwf Hspl)
    as (sep & t1 & t2 & l' & r' & h1 & Hhs & HF2 & Hl' & Hr' & Hpf & Hrl & Hrr & Hrooml & Hroomr & Hkv' & Hspec & Hw1 & Hw2).
  unfold split_and_retry. bnd ltac:(exact Hhs).
  set (n1 := ANode false false (Some f) (a_low n) (Some sep) t1) in *.
  set (n2 := ANode false false (a_next n) (Some sep) (a_high n) t2) in *.
  pose proof (live_split_spec n sep t1 t2 (nw_inner _ _ _ _ Hwf) Hspec) as Hcat.
  assert (Hinc : incl (keys_of t1) (keys_of (a_slots n)) /\ incl (keys_of t2) (keys_of (a_slots n)) /\
                 (forall k, In k (keys_of t1) -> klt k sep) /\ (forall k, In k (keys_of t2) -> kle sep k)).
  { destruct Hspec as (_ & Hs). rewrite (nw_inner _ _ _ _ Hwf) in Hs. tauto. }
  destruct Hinc as (Hi1 & Hi2 & Hb1 & Hb2).
  assert (HX : exists tgt, exists h2 m1 m2,
        (forall (kk : addr -> M nd unit),
         mbind (valid_split_node a key) kk (St h1 root (S f) [(a, LSIX); (f, LSIX)] g) =
         kk tgt (St h1 root (S f) [(tgt, LSIX)] g)) /\
        (exists dt dt', h1 tgt = Some dt /\ op2 dt key v = Some (kCompleted, dt') /\
           h2 = upd h1 tgt (Some dt') /\ nd_sepkey dt' (tgt =? a) = Some sep) /\
        hinv h2 (S f) g ((L1 ++ (a, m1) :: (f, m2) :: L2) ++ concat U) /\
        level true false (L1 ++ (a, m1) :: (f, m2) :: L2) /\
        hi_ext m1 = Key sep /\ hi_ext m2 = hi_ext n /\
        live (a_slots m1) ++ live (a_slots m2) = upsert key v (live (a_slots n))).
  { destruct (klt_le_dec key sep) as [Hlt|Hle].
    - destruct (Hop l' n1 Hrl eq_refl (nw_body _ _ _ _ Hw1) Hkv Hrooml) as (dt & m & Ho & Hrm & Hu).
      { intros Hin. apply Hni, Hi1. exact Hin. }
      destruct (node_wf_leaf_upd _ _ _ _ _ _ Hw1 Hu) as (Hwm & Hnxm & Hhm & Hlm).
      { intros k [<-|[]]. split; [apply Hr | exact Hlt]. }
      assert (Hlwm : a_low m = a_low n1) by apply Hu.
      exists a, (upd h1 a (Some dt)), m, n2.
      split; [|split; [|split; [|split; [|split; [|split]]]]].
      + intros kk. erewrite mb_ok; [reflexivity|].
        eapply valid_split_left; eauto; try reflexivity; congruence.
      + exists l', dt. repeat split; auto. rewrite Nat.eqb_refl. eapply L_sepkey_l; eauto.
      + eapply hinv_eq; [|eapply (hinv_set _ _ _ _ _ a n1 m); [exact HF2|exact Hrm]]. fassoc.
      + eapply seg_split; eauto. rewrite (hi_ext_eq n1 m Hhm). exact Hw2.
      + rewrite (hi_ext_eq n1 m Hhm). reflexivity.
      + reflexivity.
      + rewrite Hlm. cbn [a_slots n1 n2]. rewrite Hcat. symmetry. apply upsert_app_r.
        intros k Hk. apply live_keys_incl in Hk. eapply klt_le_trans; eauto.
    - destruct (Hop r' n2 Hrr eq_refl (nw_body _ _ _ _ Hw2) Hkv Hroomr) as (dt & m & Ho & Hrm & Hu).
      { intros Hin. apply Hni, Hi2. exact Hin. }
      destruct (node_wf_leaf_upd _ _ _ _ _ _ Hw2 Hu) as (Hwm & Hnxm & Hhm & Hlm).
      { intros k [<-|[]]. split; [now apply kle_ele | apply Hr]. }
      assert (Hlwm : a_low m = a_low n2) by apply Hu.
      exists f, (upd h1 f (Some dt)), n1, m.
      split; [|split; [|split; [|split; [|split; [|split]]]]].
      + intros kk. erewrite mb_ok; [reflexivity|].
        eapply valid_split_right; eauto; try reflexivity; congruence.
      + exists r', dt. repeat split; auto. rewrite (proj2 (Nat.eqb_neq f a)) by congruence.
        eapply L_sepkey_r; eauto.
      + eapply hinv_eq; [|eapply (hinv_set _ _ _ _ (L1 ++ [(a, n1)]) f n2 m)]; [| |exact Hrm].
        * fassoc.
        * eapply hinv_eq; [|exact HF2]. fassoc.
      + eapply seg_split; eauto.
      + reflexivity.
      + rewrite (hi_ext_eq n2 m Hhm). reflexivity.
      + rewrite Hlm. cbn [a_slots n1 n2]. rewrite Hcat. symmetry. apply upsert_app.
        intros k Hk. apply live_keys_incl in Hk. eapply klt_le_trans; eauto. }
  destruct HX as (tgt & h2 & m1 & m2 & Hval & (dt & dt' & Hdt & Ho & -> & Hsk) & HF3 & HL' & Hh1 & Hh2 & Hlive).
  rewrite Hval. rewrite (mb_getn tgt dt) by auto. rewrite (mb_lift _ _ _ _ Ho). cbv beta iota.
  cbn [finish_write].
  rewrite mb_assoc. rewrite mb_upgrade by (try congruence; lks). lkn.
  rewrite mb_assoc. rewrite mb_setn by congruence.
  rewrite mb_unlock; [|rewrite upd_same; congruence|lks]. lkn.
  rewrite (mb_getn tgt dt') by apply upd_same. rewrite (mb_lift _ _ _ _ Hsk).
  rewrite entries_app in HT. cbn [entries] in HT.
  destruct (complete_split_ok osl U fu (entries NegInf L1) lo a (entries (hi_ext n) L2) sep f key
              (L1 ++ (a, m1) :: (f, m2) :: L2) (upd h1 tgt (Some dt')) root (S f) g)
    as (h3 & root' & f' & U' & HA & HB & HC & HD); auto.
  * exact (nw_range _ _ _ _ Hw1).
  * intros y Hy. destruct (seg_entries _ _ _ _ _ _ Hseg) as [_ HB].
    destruct (HB y Hy) as [HB' _]. eapply elt_ele_trans; [|exact HB'].
    exact (nw_range _ _ _ _ Hw2).
  * apply Hr.
  * intros y Hy. destruct (seg_entries _ _ _ _ _ _ Hseg) as [_ HB].
    destruct (HB y Hy) as [HB' _]. eapply elt_ele_trans; [apply Hr|exact HB'].
  * exists h3, root', f', (L1 ++ (a, m1) :: (f, m2) :: L2), U'.
    split; [exact HA|]. split; [|split; [|split]]; auto.
    -- split; auto. rewrite entries_app. cbn [entries]. rewrite Hh1, Hh2. exact HB.
    -- rewrite recs_app. change (recs ((a, m1) :: (f, m2) :: L2)) with
         (live (a_slots m1) ++ live (a_slots m2) ++ recs L2).
       rewrite (app_assoc (live (a_slots m1))), Hlive. reflexivity.
Qed.

(** ** The calls *)

Lemma sl_read_ok H s m key fu : sl_inv H s m -> kvalid key -> H + 1 <= fu ->
  sl_read osl fu key s = Ok (RPayload (m key)) s.
Proof.
  intros (leafs & U & HT & HF & Hlk & HU & Hm) Hk Hfu.
  destruct s as [h root f l g]. cbn [hp rt fr lk gb] in *. subst l.
  destruct (at_leaf _ _ _ _ _ _ key HT HF)
    as (L1 & a & n & L2 & d & HLe & Ha & Hr & Hwf & Hd & Hrep & HFe & HA & HB & Hin & Hok & Hal & Hassoc).
  unfold sl_read. rewrite mb_getroot. destruct osl.
  - bnd ltac:(eapply osl_read_leaf; eauto; lia). rewrite Ha.
    destruct fu as [|fu]; [lia|].
    bnd ltac:(eapply check_range_here; eauto; apply Hr).
    rewrite (mb_getn a d) by auto. rewrite (mb_lift _ _ _ _ (L_read d n key Hrep Hin Hok Hk)).
    now rewrite <- Hm, Hassoc.
  - bnd ltac:(eapply psl_read_leaf; eauto; lia). rewrite Ha.
    rewrite (mb_getn a d) by auto. rewrite (mb_lift _ _ _ _ (L_read d n key Hrep Hin Hok Hk)).
    rewrite mb_unlock by (try congruence; lks). lkn.
    now rewrite <- Hm, Hassoc.
Qed.

Lemma map_upsert L1 a n L2 key v leafs' m (HA : assoc key (recs L1) = None)
  (Hm : forall k, assoc k (recs (L1 ++ (a, n) :: L2)) = m k)
  (Hrecs : recs leafs' = recs L1 ++ upsert key v (live (a_slots n)) ++ recs L2) :
  forall k, assoc k (recs leafs') = amap_set m key (Some v) k.
Proof.
  intros k. rewrite Hrecs, assoc_mid_upsert by auto. unfold amap_set.
  destruct (keqb k key); auto. rewrite <- Hm, recs_mid_eq. reflexivity.
Qed.

Lemma sl_write_ok H s m key v fu : sl_inv H s m -> kvalid key -> H + 2 <= fu ->
  exists s', sl_write osl fu key v s = Ok RSuccess s' /\ sl_inv (S H) s' (amap_set m key (Some v)).
Proof.
  intros (leafs & U & HT & HF & Hlk & HU & Hm) Hk Hfu.
  destruct s as [h root f l g]. cbn [hp rt fr lk gb] in *. subst l.
  destruct (at_leaf _ _ _ _ _ _ key HT HF)
    as (L1 & a & n & L2 & d & -> & Ha & Hr & Hwf & Hd & Hrep & HFe & HA & HB & Hin & Hok & Hal & Hassoc).
  unfold sl_write. bnd ltac:(eapply search_write_ok; eauto; lia). rewrite Ha. cbn [pop].
  rewrite mb_ret.
  assert (Hlock : forall (kk : option addr -> M nd ret),
    mbind (if osl then check_write fu a key else mret (Some a)) kk
      (St h root f (if osl then [] else [(a, LSIX)]) g) =
    kk (Some a) (St h root f [(a, LSIX)] g)).
  { intros kk. destruct osl; [|reflexivity]. destruct fu as [|fu]; [lia|].
    bnd ltac:(eapply check_write_here; eauto; try lks; apply Hr). reflexivity. }
  rewrite Hlock. rewrite (mb_getn a d) by auto.
  destruct (L_write d n key v Hrep Hin Hok Hk) as (rc & d' & n' & Hw & Hrep' & [(-> & Hu)|(-> & Hu & Hni & Hspl)]).
  - rewrite (mb_lift _ _ _ _ Hw). cbv beta iota. cbn [finish_write].
    rewrite mb_assoc, mb_upgrade by (try congruence; lks). lkn.
    rewrite mb_assoc, mb_setn by congruence.
    rewrite mb_unlock; [|rewrite upd_same; congruence|lks]. lkn.
    eexists. split; [reflexivity|].
    destruct (leaf_set L1 a n n' L2 U root h f g d' [key] _ HT HFe Hwf Hu) as (A & B & C); auto.
    { intros k [<-|[]]. auto. }
    exists (L1 ++ (a, n') :: L2), U. cbn [hp rt fr lk gb]. repeat (split; [first [solve [auto] | lia]|]).
    exact (map_upsert L1 a n L2 key v _ m HA Hm ltac:(eassumption)).
  - rewrite (mb_lift _ _ _ _ Hw). cbv beta iota. cbn [finish_write].
    rewrite mb_setn by congruence.
    destruct (leaf_set L1 a n n' L2 U root h f g d' [] _ HT HFe Hwf Hu) as (A & B & C); auto.
    { intros k []. }
    assert (Hwf' := node_wf_leaf_upd _ _ _ _ _ _ Hwf Hu (fun k (H : In k []) => match H with end)).
    destruct Hwf' as (Hwf' & Hnx' & Hhi' & Hlive').
    destruct (split_and_retry_ok fu nd_write2 key v L1 a n' L2 U root (upd h a (Some d')) f g d')
      as (h' & root' & f' & leafs' & U' & HE & HT' & HF' & Hrecs & HU'); auto.
    { intros d0 n0 X1 X2 X3 X4 X5 X6. apply L_write2; auto. }
    { eapply hinv_eq; [|exact B]. fassoc. }
    { apply upd_same. }
    { now rewrite (hi_ext_eq _ _ Hhi'). }
    { lia. }
    bnd ltac:(exact HE). eexists. split; [reflexivity|].
    exists leafs', U'. cbn [hp rt fr lk gb]. repeat (split; [first [solve [auto] | lia]|]).
    rewrite Hlive' in Hrecs. exact (map_upsert L1 a n L2 key v _ m HA Hm ltac:(eassumption)).
Qed.

Lemma leaf_for_update_ok fu a key h root f g d n :
  h a = Some d -> rep d n -> a_removed n = false -> elt (Key key) (hi_ext n) -> 1 <= fu ->
  leaf_for_update osl fu a key (St h root f (if osl then [] else [(a, LSIX)]) g) =
  Ok a (St h root f (if osl then [] else [(a, LSIX)]) g).
Proof.
  intros Hd Hrep Hal Hr Hfu. unfold leaf_for_update. destruct osl; [|reflexivity].
  destruct fu as [|fu]; [lia|]. bnd ltac:(eapply check_range_here; eauto). reflexivity.
Qed.

Lemma leave_ok {A} a h root f g (kk : unit -> M nd A) : h a <> None ->
  mbind (leave osl a) kk (St h root f (if osl then [] else [(a, LSIX)]) g) =
  kk tt (St h root f [] g).
Proof.
  intros Hd. unfold leave. destruct osl; [reflexivity|].
  rewrite mb_unlock by (auto; lks). lkn. reflexivity.
Qed.

Lemma amap_set_same (m : amap) key k : amap_set m key (m key) k = m k.
Proof.
  unfold amap_set. destruct (keqb k key) eqn:E; auto. apply keqb_eq in E. now subst.
Qed.

(** Nothing changes (but the bytes of the leaf may). *)
Lemma sl_inv_mono H H' s m m' : sl_inv H s m -> H <= H' -> amap_eq m m' -> sl_inv H' s m'.
Proof.
  intros (leafs & U & A & B & C & D & E) Hle Hm. exists leafs, U. repeat (split; [auto; lia|]).
  intros k. rewrite E. apply Hm.
Qed.

Lemma sl_insert_ok H s m key v fu : sl_inv H s m -> kvalid key -> H + 2 <= fu ->
  exists s', sl_insert osl fu key v s = Ok (snd (spec_step m (CInsert key v))) s' /\
    sl_inv (S H) s' (fst (spec_step m (CInsert key v))).
Proof.
  intros Hinv Hk Hfu. assert (Hinv0 := Hinv).
  destruct Hinv as (leafs & U & HT & HF & Hlk & HU & Hm).
  destruct s as [h root f l g]. cbn [hp rt fr lk gb] in *. subst l.
  destruct (at_leaf _ _ _ _ _ _ key HT HF)
    as (L1 & a & n & L2 & d & -> & Ha & Hr & Hwf & Hd & Hrep & HFe & HA & HB & Hin & Hok & Hal & Hassoc).
  rewrite Hm in Hassoc.
  unfold sl_insert. bnd ltac:(eapply search_write_ok; eauto; lia). rewrite Ha. cbn [pop].
  rewrite mb_ret.
  bnd ltac:(eapply (leaf_for_update_ok fu a key); eauto; [apply Hr|lia]).
  rewrite (mb_getn a d) by auto.
  assert (Hlock : forall (kk : unit -> M nd ret),
    mbind (if osl then lock LSIX a else mret tt) kk
      (St h root f (if osl then [] else [(a, LSIX)]) g) =
    kk tt (St h root f [(a, LSIX)] g)).
  { intros kk. destruct osl; [|reflexivity]. rewrite mb_lock by (try congruence; lks). reflexivity. }
  destruct (L_insert d n key v Hrep Hin Hok Hk)
    as (rc & d' & n' & Hw & Hrep' & [(-> & Hu & Hex)|[(-> & Hnone & Hu)|(-> & Hnone & Hu & Hni & Hspl)]]).
  - rewrite (mb_lift _ _ _ _ Hw). cbv beta iota. rewrite leave_ok by congruence.
    cbn [spec_step]. rewrite Hassoc. destruct (assoc key (live (a_slots n))) eqn:E; [|congruence].
    cbn [fst snd]. eexists. split; [reflexivity|].
    eapply sl_inv_mono; [exact Hinv0|lia|]. intros k. reflexivity.
  - rewrite (mb_lift _ _ _ _ Hw). cbv beta iota. rewrite Hlock. cbn [finish_write].
    rewrite mb_assoc, mb_upgrade by (try congruence; lks). lkn.
    rewrite mb_assoc, mb_setn by congruence.
    rewrite mb_unlock; [|rewrite upd_same; congruence|lks]. lkn.
    cbn [spec_step]. rewrite Hassoc, Hnone. cbn [fst snd].
    eexists. split; [reflexivity|].
    destruct (leaf_set L1 a n n' L2 U root h f g d' [key] _ HT HFe Hwf Hu) as (A & B & C); auto.
    { intros k [<-|[]]. auto. }
    exists (L1 ++ (a, n') :: L2), U. cbn [hp rt fr lk gb]. repeat (split; [first [solve [auto] | lia]|]).
    exact (map_upsert L1 a n L2 key v _ m HA Hm ltac:(eassumption)).
  - rewrite (mb_lift _ _ _ _ Hw). cbv beta iota. rewrite Hlock. cbn [finish_write].
    rewrite mb_setn by congruence.
    destruct (leaf_set L1 a n n' L2 U root h f g d' [] _ HT HFe Hwf Hu) as (A & B & C); auto.
    { intros k []. }
    assert (Hwf' := node_wf_leaf_upd _ _ _ _ _ _ Hwf Hu (fun k (H : In k []) => match H with end)).
    destruct Hwf' as (Hwf' & Hnx' & Hhi' & Hlive').
    destruct (split_and_retry_ok fu nd_insert2 key v L1 a n' L2 U root (upd h a (Some d')) f g d')
      as (h' & root' & f' & leafs' & U' & HE & HT' & HF' & Hrecs & HU'); auto.
    { intros d0 n0 X1 X2 X3 X4 X5 X6. apply L_insert2; auto. }
    { eapply hinv_eq; [|exact B]. fassoc. }
    { apply upd_same. }
    { now rewrite (hi_ext_eq _ _ Hhi'). }
    { lia. }
    bnd ltac:(exact HE). cbn [spec_step]. rewrite Hassoc, Hnone. cbn [fst snd].
    eexists. split; [reflexivity|].
    exists leafs', U'. cbn [hp rt fr lk gb]. repeat (split; [first [solve [auto] | lia]|]).
    rewrite Hlive' in Hrecs. exact (map_upsert L1 a n L2 key v _ m HA Hm ltac:(eassumption)).
Qed.

Lemma sl_update_ok H s m key v fu : sl_inv H s m -> kvalid key -> H + 2 <= fu ->
  exists s', sl_update osl fu key v s = Ok (snd (spec_step m (CUpdate key v))) s' /\
    sl_inv (S H) s' (fst (spec_step m (CUpdate key v))).
Proof.
  intros Hinv Hk Hfu. assert (Hinv0 := Hinv).
  destruct Hinv as (leafs & U & HT & HF & Hlk & HU & Hm).
  destruct s as [h root f l g]. cbn [hp rt fr lk gb] in *. subst l.
  destruct (at_leaf _ _ _ _ _ _ key HT HF)
    as (L1 & a & n & L2 & d & -> & Ha & Hr & Hwf & Hd & Hrep & HFe & HA & HB & Hin & Hok & Hal & Hassoc).
  rewrite Hm in Hassoc.
  unfold sl_update.
  assert (Hs : (if osl then mbind getroot (fun r => osl_search fu r key)
                else mbind (search_write osl fu key) (fun stack => mbind (pop stack) (fun p => match p with (a, _) => mret a end)))
               (St h root f [] g) = Ok a (St h root f (if osl then [] else [(a, LSIX)]) g)).
  { destruct osl eqn:Eo.
    - rewrite mb_getroot. rewrite <- Ha. eapply osl_read_leaf; eauto. lia.
    - bnd ltac:(eapply search_write_ok; eauto; lia). rewrite Ha. reflexivity. }
  bnd ltac:(exact Hs).
  bnd ltac:(eapply (leaf_for_update_ok fu a key); eauto; [apply Hr|lia]).
  rewrite (mb_getn a d) by auto.
  assert (Hlock : forall (kk : unit -> M nd ret),
    mbind (if osl then lock LX a else upgradeX a) kk
      (St h root f (if osl then [] else [(a, LSIX)]) g) =
    kk tt (St h root f [(a, LX)] g)).
  { intros kk. destruct osl.
    - rewrite mb_lock by (try congruence; lks). reflexivity.
    - rewrite mb_upgrade by (try congruence; lks). lkn. reflexivity. }
  destruct (L_update d n key v Hrep Hin Hok Hk)
    as (rc & d' & n' & Hw & Hrep' & [(-> & Hex & Hu)|(-> & Hnone & Hu)]).
  - rewrite (mb_lift _ _ _ _ Hw). cbv beta iota. rewrite Hlock.
    rewrite mb_setn by congruence.
    rewrite mb_unlock; [|rewrite upd_same; congruence|lks]. lkn.
    cbn [spec_step]. rewrite Hassoc. destruct (assoc key (live (a_slots n))) eqn:E; [|congruence].
    cbn [fst snd]. eexists. split; [reflexivity|].
    destruct (leaf_set L1 a n n' L2 U root h f g d' [] _ HT HFe Hwf Hu) as (A & B & C); auto.
    { intros k []. }
    exists (L1 ++ (a, n') :: L2), U. cbn [hp rt fr lk gb]. repeat (split; [first [solve [auto] | lia]|]).
    exact (map_upsert L1 a n L2 key v _ m HA Hm ltac:(eassumption)).
  - rewrite (mb_lift _ _ _ _ Hw). cbv beta iota. rewrite leave_ok by congruence.
    cbn [spec_step]. rewrite Hassoc, Hnone. cbn [fst snd]. eexists. split; [reflexivity|].
    eapply sl_inv_mono; [exact Hinv0|lia|]. intros k. reflexivity.
Qed.

Lemma map_remove L1 a n L2 key leafs' m (HA : assoc key (recs L1) = None)
  (HB : assoc key (recs L2) = None)
  (Hm : forall k, assoc k (recs (L1 ++ (a, n) :: L2)) = m k)
  (Hrecs : recs leafs' = recs L1 ++ remove_key key (live (a_slots n)) ++ recs L2) :
  forall k, assoc k (recs leafs') = amap_set m key None k.
Proof.
  intros k. rewrite Hrecs, assoc_mid_remove by auto. unfold amap_set.
  destruct (keqb k key); auto. rewrite <- Hm, recs_mid_eq. reflexivity.
Qed.

Lemma sl_delete_ok H s m key fu : sl_inv H s m -> kvalid key -> H + 3 <= fu ->
  exists s', sl_delete osl fu key s = Ok (snd (spec_step m (CDelete key))) s' /\
    sl_inv (S H) s' (fst (spec_step m (CDelete key))).
Proof.
  intros Hinv Hk Hfu. assert (Hinv0 := Hinv).
  destruct Hinv as (leafs & U & HT & HF & Hlk & HU & Hm).
  destruct s as [h root f l g]. cbn [hp rt fr lk gb] in *. subst l.
  destruct (at_leaf _ _ _ _ _ _ key HT HF)
    as (L1 & a & n & L2 & d & -> & Ha & Hr & Hwf & Hd & Hrep & HFe & HA & HB & Hin & Hok & Hal & Hassoc).
  rewrite Hm in Hassoc.
  unfold sl_delete. bnd ltac:(eapply search_write_ok; eauto; lia). rewrite Ha. cbn [pop].
  rewrite mb_ret.
  bnd ltac:(eapply (leaf_for_update_ok fu a key); eauto; [apply Hr|lia]).
  rewrite (mb_getn a d) by auto.
  assert (Hlock : forall (kk : unit -> M nd ret),
    mbind (if osl then lock LX a else upgradeX a) kk
      (St h root f (if osl then [] else [(a, LSIX)]) g) =
    kk tt (St h root f [(a, LX)] g)).
  { intros kk. destruct osl.
    - rewrite mb_lock by (try congruence; lks). reflexivity.
    - rewrite mb_upgrade by (try congruence; lks). lkn. reflexivity. }
  destruct (L_delete d n key Hrep Hin Hok Hk)
    as (rc & d' & n' & Hw & Hrep' & [(Hrc & Hex & Hu)|(-> & Hnone & Hu)]).
  - destruct (leaf_set L1 a n n' L2 U root h f g d' [] _ HT HFe Hwf Hu) as (A & B & C); auto.
    { intros k []. }
    cbn [spec_step]. rewrite Hassoc. destruct (assoc key (live (a_slots n))) eqn:E; [|congruence].
    cbn [fst snd].
    rewrite (mb_lift _ _ _ _ Hw). cbv beta iota.
    destruct Hrc as [-> | ->].
    + rewrite Hlock. rewrite mb_setn by congruence.
      rewrite mb_unlock; [|rewrite upd_same; congruence|lks]. lkn.
      eexists. split; [reflexivity|].
      exists (L1 ++ (a, n') :: L2), U. cbn [hp rt fr lk gb]. repeat (split; [first [solve [auto] | lia]|]).
      exact (map_remove L1 a n L2 key _ m HA HB Hm ltac:(eassumption)).
    + rewrite Hlock. rewrite mb_setn by congruence.
      rewrite mb_downgrade; [|rewrite upd_same; congruence|lks]. lkn.
      assert (Hwf' := node_wf_leaf_upd _ _ _ _ _ _ Hwf Hu (fun k (H : In k []) => match H with end)).
      destruct Hwf' as (Hwf' & Hnx' & Hhi' & Hlive').
      assert (Hfnd : fnd NegInf key (L1 ++ (a, n') :: L2) = a).
      { destruct A as [A _]. eapply fnd_mid; eauto. now rewrite (hi_ext_eq _ _ Hhi'). }
      destruct A as [A1 A2].
      destruct (merge_ok osl U fu false (L1 ++ (a, n') :: L2) key [] (upd h a (Some d')) root f g)
        as (h' & root' & g' & C' & U' & HE & HC' & HT' & HF' & Hrecs & _ & HU'); auto.
      { lia. }
      rewrite Hfnd in HE. bnd ltac:(exact HE).
      eexists. split; [reflexivity|].
      exists C', U'. cbn [hp rt fr lk gb]. cbn [app] in HF'.
      split; [split; auto|]. repeat (split; [first [solve [auto] | lia]|]).
      rewrite Hrecs. exact (map_remove L1 a n L2 key _ m HA HB Hm ltac:(eassumption)).
  - rewrite (mb_lift _ _ _ _ Hw). cbv beta iota. rewrite leave_ok by congruence.
    cbn [spec_step]. rewrite Hassoc, Hnone. cbn [fst snd]. eexists. split; [reflexivity|].
    eapply sl_inv_mono; [exact Hinv0|lia|]. intros k. reflexivity.
Qed.

Lemma sl_call_ok H s m c fu : sl_inv H s m -> kvalid (call_key c) -> H + 3 <= fu ->
  exists s', sl_call osl fu c s = Ok (snd (spec_step m c)) s' /\
    sl_inv (S H) s' (fst (spec_step m c)).
Proof.
  intros Hi Hk Hfu. destruct c; cbn [call_key] in Hk; cbn [sl_call].
  - exists s. split; [apply (sl_read_ok H); auto; lia|]. eapply sl_inv_mono; eauto. intros k'. reflexivity.
  - apply (sl_write_ok H); auto. lia.
  - apply (sl_insert_ok H); auto. lia.
  - apply (sl_update_ok H); auto. lia.
  - apply (sl_delete_ok H); auto.
Qed.

Lemma sl_inv_init : leaked = [] -> sl_inv 0 sl_init amap_empty.
Proof.
  intros HW. exists [(0, ANode false false None None None [])], []. cbn [sl_init hp rt fr lk gb].
  split; [|split; [|split; [auto|split; [auto|auto]]]].
  - split; [|reflexivity]. split; [|split; [auto|reflexivity]].
    split; cbn; try (intros; tauto); auto; try discriminate.
    split; constructor.
  - unfold TreeHeap.hinv. rewrite HW. split.
    + cbn. constructor; [cbn; tauto | constructor].
    + intros a. cbn. destruct (Nat.eqb_spec a 0); split; intros; try congruence; auto.
      destruct H as [H|[]]. congruence.
    + intros a. cbn. destruct (Nat.eqb_spec a 0); intros H; [lia|congruence].
    + intros a n [Hin|[]]. inv Hin. cbn. eexists. split; [reflexivity|]. apply L_root0.
Qed.

Lemma sl_inv_gc H s m : sl_inv H s m -> sl_inv H (free_garbage s) m.
Proof.
  intros (leafs & U & A & B & C & D & E). exists leafs, U. cbn [free_garbage hp rt fr lk gb].
  repeat (split; [first [solve [auto] | lia]|]). split; [now apply hinv_gc|]. auto.
Qed.

Lemma sl_run_ok es : forall H s m fu, sl_inv H s m ->
  (forall c, In c (calls_of es) -> kvalid (call_key c)) -> H + length es + 3 <= fu ->
  exists s', sl_run osl fu es s = Ok (snd (spec_run m (calls_of es))) s' /\
    sl_inv (H + length es) s' (fst (spec_run m (calls_of es))).
Proof.
  induction es as [|[c|] es IH]; intros H s m fu Hi Hk Hfu; cbn [sl_run calls_of spec_run length].
  - exists s. split; [reflexivity|]. cbn. eapply sl_inv_mono; eauto; [lia|]. intros k; reflexivity.
  - cbn [calls_of length] in *. destruct (sl_call_ok H s m c fu Hi) as (s1 & H1 & H2); [apply Hk; now left|lia|].
    bnd ltac:(exact H1). destruct (spec_step m c) as [m1 r] eqn:Es. cbn [fst snd] in *.
    destruct (IH (S H) s1 m1 fu H2) as (s2 & H3 & H4); [intros; apply Hk; now right|lia|].
    bnd ltac:(exact H3). destruct (spec_run m1 (calls_of es)) as [m2 rs] eqn:Er. cbn [fst snd] in *.
    exists s2. split; [reflexivity|]. eapply sl_inv_mono; eauto; [lia|]. intros k; reflexivity.
  - cbn [calls_of length] in *. destruct (IH (S H) (free_garbage s) m fu) as (s2 & H3 & H4); auto; [|lia|].
    + apply sl_inv_gc. eapply sl_inv_mono; eauto. intros k; reflexivity.
    + exists s2. split; auto. eapply sl_inv_mono; eauto; [lia|]. intros k; reflexivity.
Qed.

End SLProofs.
