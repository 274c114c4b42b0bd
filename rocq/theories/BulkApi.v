(** Sessions with Bulkload, for any lawful node layout. *)
From Coq Require Import List Arith Bool Lia Sorted Permutation.
From Verif Require Import Params Mem Common Spec NodeAbs SLIface MLIface BaseIface TreeState Levels
  TreeHeap SLModel SLProofs SLScan SLApi WalkModel WalkProofs IterModel IterProofs SLScanModel
  MLModel MLProofs MLScanModel MLApi BulkModel BulkProofs.
Import ListNotations.

Section Gen.
Context {P : Params} {O : OrdLaws P} {ND : Type} {B : BulkOps P ND}.

(** A load for which the code works: strictly ascending keys of valid lengths, and either
    at least as many entries as workers (two or more), or more than one leaf holds. *)
Definition good_load (valid : K -> Prop) (l : list (K * V)) (t : nat) : Prop :=
  l = [] \/ (StronglySorted klt (map fst l) /\ (forall e, In e l -> valid (fst e)) /\ wide (pvs l) t).

Definition good_event (valid : K -> Prop) (e : bevent) : Prop :=
  match e with
  | VCall c => valid (call_key c)
  | VGC => True
  | VLoad l t => good_load valid l t
  end.

Lemma amap_of_assoc l k : amap_of l k = assoc k l.
Proof. induction l as [|[x v] l IH]; [reflexivity|]. cbn. unfold amap_set. now rewrite IH. Qed.

Context (J : nat -> st ND -> amap -> Prop) (valid : K -> Prop) (callf : nat -> call -> M ND ret).
Hypothesis J_mono : forall H H' s m, J H s m -> H <= H' -> J H' s m.
Hypothesis J_call : forall H s m c fu, J H s m -> valid (call_key c) -> H + 3 <= fu ->
  exists s', callf fu c s = Ok (snd (spec_step m c)) s' /\ J (S H) s' (fst (spec_step m c)).
Hypothesis J_gc : forall H s m, J H s m -> J H (free_garbage s) m.
Hypothesis J_load : forall H s m l t fu, J H s m -> l <> [] -> good_load valid l t -> length l <= fu ->
  exists s', bulkload fu l t s = Ok tt s' /\ J (2 * length l) s' (amap_of l).

Lemma bk_run_ok es : forall H s m fu, J H s m -> Forall (good_event valid) es -> H + bcost es + 3 <= fu ->
  exists s', bk_run callf fu es s = Ok (snd (spec_brun m (bcalls_of es))) s' /\
    J (H + bcost es) s' (fst (spec_brun m (bcalls_of es))).
Proof.
  induction es as [|e es IH]; intros H s m fu HJ Hg Hfu.
  - exists s. cbn. split; [reflexivity|]. eapply J_mono; eauto. lia.
  - apply Forall_cons_iff in Hg as [Hg1 Hg]. destruct e as [c| |l t]; cbn [bk_run bcalls_of spec_brun bcost] in *.
    + destruct (J_call H s m c fu HJ Hg1) as (s1 & H1 & H2); [lia|]. rewrite (mb_ok _ _ _ _ _ H1).
      cbn [spec_bstep]. destruct (spec_step m c) as [m1 r] eqn:Es. cbn [fst snd] in *.
      destruct (IH (S H) s1 m1 fu H2 Hg) as (s2 & H3 & H4); [lia|]. rewrite (mb_ok _ _ _ _ _ H3).
      destruct (spec_brun m1 (bcalls_of es)) as [m2 rs]. cbn [fst snd] in *.
      exists s2. split; [reflexivity|]. eapply J_mono; eauto. lia.
    + destruct (IH H (free_garbage s) m fu) as (s2 & H3 & H4); auto.
    + destruct l as [|e0 l].
      * cbn [spec_bstep]. unfold bulkload. rewrite mb_ret.
        destruct (IH H s m fu HJ Hg) as (s2 & H3 & H4); [cbn in Hfu; lia|]. rewrite (mb_ok _ _ _ _ _ H3).
        destruct (spec_brun m (bcalls_of es)) as [m2 rs]. cbn [fst snd] in *.
        exists s2. split; [reflexivity|exact H4].
      * destruct (J_load H s m (e0 :: l) t fu HJ) as (s1 & H1 & H2); [discriminate|exact Hg1|lia|].
        rewrite (mb_ok _ _ _ _ _ H1). cbn [spec_bstep].
        destruct (IH _ s1 _ fu H2 Hg) as (s2 & H3 & H4); [lia|]. rewrite (mb_ok _ _ _ _ _ H3).
        destruct (spec_brun (amap_of (e0 :: l)) (bcalls_of es)) as [m2 rs]. cbn [fst snd] in *.
        exists s2. split; [reflexivity|]. eapply J_mono; eauto. lia.
Qed.

End Gen.

Lemma sorted_ext {P : Params} {O : OrdLaws P} (l l' : list (K * V)) :
  StronglySorted klt (map fst l) -> StronglySorted klt (map fst l') ->
  (forall k v, In (k, v) l <-> In (k, v) l') -> l = l'.
Proof.
  revert l'. induction l as [|[k v] l IH]; intros [|[k' v'] l'] H1 H2 Hin.
  - reflexivity.
  - exfalso. apply (Hin k' v'). now left.
  - exfalso. apply (Hin k v). now left.
  - cbn in H1, H2. apply StronglySorted_inv in H1 as [H3 H4]. apply StronglySorted_inv in H2 as [H5 H6].
    rewrite Forall_forall in *.
    assert (E : k = k' /\ v = v').
    { destruct (proj1 (Hin k v) (or_introl eq_refl)) as [E|E]; [inv E; auto|].
      destruct (proj2 (Hin k' v') (or_introl eq_refl)) as [E'|E']; [inv E'; auto|].
      exfalso. apply (klt_irrefl k). eapply klt_trans.
      - apply H4. apply (in_map fst) in E'. exact E'.
      - apply H6. apply (in_map fst) in E. exact E. }
    destruct E as [-> ->]. f_equal. apply IH; auto. intros x y. specialize (Hin x y). split; intros Hx.
    + destruct (proj1 Hin (or_intror Hx)) as [E|E]; auto. inv E. exfalso.
      apply (klt_irrefl x). apply H4. apply (in_map fst) in Hx. exact Hx.
    + destruct (proj2 Hin (or_intror Hx)) as [E|E]; auto. inv E. exfalso.
      apply (klt_irrefl x). apply H6. apply (in_map fst) in Hx. exact Hx.
Qed.

Lemma scan_all {P : Params} {O : OrdLaws P} l l' : StronglySorted klt (map fst l) ->
  is_scan (amap_of l) None None l' -> l' = l.
Proof.
  intros Hs [Hs' Hin]. apply sorted_ext; auto. intros k v. rewrite Hin, amap_of_assoc. cbn.
  rewrite (assoc_in k v l) by exact Hs. tauto.
Qed.


Lemma depth_pages {P : Params} {N : BaseOps P} {BL : BaseLaws P N} {W : Leak} sl (s : st bn) leafs U a :
  holds_tree sl s leafs U -> In a (map fst (leafs ++ concat U)) <-> exists d, at_depth s d a.
Proof.
  intros HHT. split.
  - intros Ha. assert (Ha' : In a (map fst (concat (rev U ++ [leafs])))).
    { apply in_map_iff in Ha as (x & <- & Hx). apply in_map. apply in_concat.
      apply in_app_iff in Hx as [Hx|Hx].
      - exists leafs. split; auto. apply in_or_app. right. now left.
      - apply in_concat in Hx as (y & Hy & Hx). exists y. split; auto. apply in_or_app. left. now apply in_rev in Hy. }
    apply in_map_iff in Ha' as (x & <- & Hx). apply in_concat in Hx as (y & Hy & Hx).
    apply (In_nth _ _ []) in Hy as (d & Hd & <-). exists d.
    apply (at_depth_levels _ _ _ _ _ _ HHT). now apply in_map.
  - intros (d & Hd). apply (at_depth_levels _ _ _ _ _ _ HHT) in Hd.
    apply in_map_iff in Hd as (x & <- & Hx). apply in_map.
    destruct (nth_in_or_default d (rev U ++ [leafs]) []) as [Hy|Hy]; [|unfold lvl in *; rewrite Hy in Hx; destruct Hx].
    apply in_app_iff in Hy as [Hy|Hy].
    + apply in_or_app. right. apply in_concat. eexists. split; [|exact Hx]. now apply in_rev.
    + apply in_or_app. left. destruct Hy as [Hy|[]]. rewrite Hy. exact Hx.
Qed.

(** Moving the old tree's pages into the leaked ones. *)
Lemma leak_move {P : Params} {ND : Type} (R : ND -> anode -> Prop) h f g lk0 (Fold F : lvl) :
  hinv0 R h f (map fst Fold ++ g ++ lk0) F ->
  hinv (W := {| leaked := map fst Fold ++ lk0 |}) R h f g F.
Proof.
  intros [B1 B2 B3 B4].
  assert (Hp : Permutation (map fst F ++ map fst Fold ++ g ++ lk0) (map fst F ++ g ++ map fst Fold ++ lk0)).
  { apply Permutation_app_head. apply Permutation_app_swap_app. }
  split; cbn [leaked]; auto.
  - eapply Permutation_NoDup; [exact Hp|exact B1].
  - intros a. rewrite B2. split; apply Permutation_in; [exact Hp|now apply Permutation_sym].
Qed.

Section SL.
Context {P : Params} {O : OrdLaws P} {N : SLOps P} {L : SLLaws P N} (B : BulkOps P nd)
  (BL : BulkLaws P nd B true rep kvalid) (osl : bool).
#[local] Existing Instance B.
#[local] Existing Instance BL.
#[local] Existing Instance bsl.
#[local] Existing Instance bll.

Definition sl_brun (fuel : nat) (es : list bevent) : M nd (list ret) := bk_run (sl_call osl) fuel es.

Definition JS (H : nat) (s : st nd) (m : amap) : Prop := exists W : Leak, sl_inv (W := W) H s m.

(** The state after a load, with the old pages as the leaked ones. *)
Lemma sl_load (W : Leak) H s m l t fu : sl_inv (W := W) H s m -> l <> [] -> good_load kvalid l t ->
  length l <= fu -> exists s' W', bulkload fu l t s = Ok tt s' /\
    sl_inv (W := W') (2 * length l) s' (amap_of l) /\ gb s' = gb s /\
    (forall a, In a (leaked (Leak := W')) <-> (In a (leaked (Leak := W)) \/ exists d, at_depth s d a)).
Proof.
  intros Hi Hne Hg Hfu. destruct Hg as [Hg|(Hs & Hv & Hw)]; [congruence|].
  pose proof Hi as Hi'.
  destruct Hi as (leafs & U & A & A2 & A3 & A4 & A5).
  destruct s as [h r f l0 g]. cbn [hp rt fr lk gb] in *. subst l0.
  destruct (bulkload_ok true rep kvalid fu l t (g ++ leaked) (leafs ++ concat U) r [] g h f Hne Hs Hv Hw Hfu A2)
    as (h' & f' & root & leafs' & U' & E & HT & Hr & HU & Hh & _).
  exists (St h' root f' [] g), {| leaked := map fst (leafs ++ concat U) ++ leaked |}.
  split; [exact E|]. split; [|split; [reflexivity|]].
  - exists leafs', U'. cbn [hp rt fr lk gb]. split; [exact HT|]. split; [now apply leak_move|].
    split; [reflexivity|]. split; [exact HU|]. intros k. now rewrite Hr, amap_of_assoc.
  - intros a. cbn [leaked]. rewrite in_app_iff.
    rewrite (@depth_pages P bsl bll W true (St h r f [] g) leafs U a); [tauto|].
    split; [exact A|exact A2].
Qed.

Lemma sl_brun_ok es fu : Forall (good_event kvalid) es -> bcost es + 3 <= fu ->
  exists s, sl_brun fu es sl_init = Ok (snd (spec_brun amap_empty (bcalls_of es))) s /\
    JS (bcost es) s (fst (spec_brun amap_empty (bcalls_of es))).
Proof.
  intros Hg Hfu. apply (bk_run_ok JS kvalid (sl_call osl)) with (H := 0); auto.
  - intros H H' s m [W Hi] Hle. exists W. eapply sl_inv_mono; eauto. intros k; reflexivity.
  - intros H s m c fu' [W Hi] Hk Hfu'. destruct (sl_call_ok osl H s m c fu' Hi Hk Hfu') as (s' & E & Hi').
    exists s'. split; [exact E|]. exists W. exact Hi'.
  - intros H s m [W Hi]. exists W. now apply sl_inv_gc.
  - intros H s m l t fu' [W Hi] Hne Hgl Hl. destruct (sl_load W H s m l t fu' Hi Hne Hgl Hl) as (s' & W' & E & Hi' & _).
    exists s'. split; [exact E|]. exists W'. exact Hi'.
  - exists no_leak. now apply sl_inv_init.
Qed.

Lemma sl_b_run H s m es fu : JS H s m -> keys_valid es -> H + length es + 3 <= fu ->
  exists s', sl_run osl fu es s = Ok (snd (spec_run m (calls_of es))) s' /\
    JS (H + length es) s' (fst (spec_run m (calls_of es))).
Proof.
  intros [W Hi] Hk Hfu. destruct (sl_run_ok osl es H s m fu Hi Hk Hfu) as (s' & A & A2).
  exists s'. split; [exact A|]. exists W. exact A2.
Qed.

Lemma sl_b_load H s m l t fu : JS H s m -> l <> [] -> good_load kvalid l t -> length l <= fu ->
  exists s', bulkload fu l t s = Ok tt s' /\ JS (2 * length l) s' (amap_of l).
Proof.
  intros [W Hi] Hne Hg Hfu. destruct (sl_load W H s m l t fu Hi Hne Hg Hfu) as (s' & W' & A & A2 & _).
  exists s'. split; [exact A|]. exists W'. exact A2.
Qed.

Lemma JS_init : JS 0 sl_init amap_empty.
Proof. exists no_leak. now apply sl_inv_init. Qed.

Lemma sl_b_scan H s m lo hi : JS H s m -> bound_valid lo -> bound_valid hi ->
  exists l F, is_scan m lo hi l /\ forall fu limit, F <= fu ->
    sl_scan osl fu lo hi limit s = Ok (firstn limit l) s.
Proof. intros [W Hi]. eapply api_scan; eauto. Qed.

Lemma sl_b_read H s m k fu : JS H s m -> kvalid k -> H + 2 <= fu ->
  sl_call osl fu (CRead k) s = Ok (RPayload (m k)) s.
Proof. intros [W Hi] Hk Hfu. cbn [sl_call]. eapply sl_read_ok; eauto. lia. Qed.

(** What Bulkload does to a tree reached by calls, followed by the destructor. *)
Lemma sl_b_leak es l t fu rs s : keys_valid es -> length es + 3 <= fu -> sl_run osl fu es sl_init = Ok rs s ->
  l <> [] -> good_load kvalid l t -> 2 * length l + 1 <= fu ->
  exists s1 s2, bulkload fu l t s = Ok tt s1 /\ sl_destroy fu s1 = Ok tt s2 /\
    (forall k, kvalid k -> sl_call osl (fu + 2) (CRead k) s1 = Ok (RPayload (amap_of l k)) s1) /\
    forall a, hp s2 a <> None <-> exists d, at_depth s d a.
Proof.
  intros Hk Hfu Hr Hne Hg Hfu2. destruct (api_reached osl _ _ _ _ Hk Hfu Hr) as [_ Hi].
  destruct (sl_load _ _ _ _ l t fu Hi Hne Hg) as (s1 & W' & E & Hi' & _ & HW); [lia|].
  destruct (api_destroy_leak _ _ _ fu Hi') as (s2 & E2 & H2 & _); [lia|].
  exists s1, s2. split; [exact E|]. split; [exact E2|]. split.
  - intros k Hk'. cbn [sl_call]. eapply sl_read_ok; eauto. lia.
  - intros a. rewrite H2, HW. cbn [leaked no_leak]. cbn [In]. tauto.
Qed.

End SL.

Section ML.
Context {P : Params} {O : OrdLaws P} {N : MLOps P} {L : MLLaws P N} (B : BulkOps P mn)
  (BL : BulkLaws P mn B false mrep mvalid) (oml : bool).
#[local] Existing Instance B.
#[local] Existing Instance BL.
#[local] Existing Instance bml.
#[local] Existing Instance bmll.

Definition ml_brun (fuel : nat) (es : list bevent) : M mn (list ret) := bk_run (ml_call oml) fuel es.

Definition JM (H : nat) (s : st mn) (m : amap) : Prop := exists W : Leak, ml_inv (WK := W) oml H s m.

Lemma ml_load (W : Leak) H s m l t fu : ml_inv (WK := W) oml H s m -> l <> [] -> good_load mvalid l t ->
  length l <= fu -> exists s' W', bulkload fu l t s = Ok tt s' /\
    ml_inv (WK := W') oml (2 * length l) s' (amap_of l) /\ gb s' = gb s /\
    (forall a, In a (leaked (Leak := W')) <-> (In a (leaked (Leak := W)) \/ exists d, at_depth s d a)).
Proof.
  intros Hi Hne Hg Hfu. destruct Hg as [Hg|(Hs & Hv & Hw)]; [congruence|].
  destruct Hi as (leafs & U & A & A2 & A3 & A4 & A5 & A6).
  destruct s as [h r f l0 g]. cbn [hp rt fr lk gb] in *. subst l0.
  destruct (bulkload_ok false mrep mvalid fu l t (g ++ leaked) (leafs ++ concat U) r [] g h f Hne Hs Hv Hw Hfu A2)
    as (h' & f' & root & leafs' & U' & E & HT & Hr & HU & Hh & Hgr).
  exists (St h' root f' [] g), {| leaked := map fst (leafs ++ concat U) ++ leaked |}.
  split; [exact E|]. split; [|split; [reflexivity|]].
  - exists leafs', U'. cbn [hp rt fr lk gb]. split; [exact HT|]. split; [now apply leak_move|].
    split; [reflexivity|]. split.
    { intros Ho. destruct (A4 Ho) as [X Y]. destruct Hgr as [G1 G2]. split; [now apply G2|lia]. }
    split; [exact HU|]. intros k. now rewrite Hr, amap_of_assoc.
  - intros a. cbn [leaked]. rewrite in_app_iff.
    rewrite (@depth_pages P bml bmll W false (St h r f [] g) leafs U a); [tauto|].
    split; [exact A|exact A2].
Qed.

Lemma ml_brun_ok es fu : Forall (good_event mvalid) es -> bcost es + 3 <= fu ->
  exists s, ml_brun fu es ml_init = Ok (snd (spec_brun amap_empty (bcalls_of es))) s /\
    JM (bcost es) s (fst (spec_brun amap_empty (bcalls_of es))).
Proof.
  intros Hg Hfu. apply (bk_run_ok JM mvalid (ml_call oml)) with (H := 0); auto.
  - intros H H' s m [W Hi] Hle. exists W. eapply ml_inv_mono; eauto. intros k; reflexivity.
  - intros H s m c fu' [W Hi] Hk Hfu'. destruct (ml_call_ok oml H s m c fu' Hi Hk) as (s' & E & Hi'); [lia|].
    exists s'. split; [exact E|]. exists W. exact Hi'.
  - intros H s m [W Hi]. exists W. now apply ml_inv_gc.
  - intros H s m l t fu' [W Hi] Hne Hgl Hl. destruct (ml_load W H s m l t fu' Hi Hne Hgl Hl) as (s' & W' & E & Hi' & _).
    exists s'. split; [exact E|]. exists W'. exact Hi'.
  - exists no_leak. now apply ml_inv_init.
Qed.

Lemma ml_b_run H s m es fu : JM H s m -> mkeys_valid es -> H + length es + 3 <= fu ->
  exists s', ml_run oml fu es s = Ok (snd (spec_run m (calls_of es))) s' /\
    JM (H + length es) s' (fst (spec_run m (calls_of es))).
Proof.
  intros [W Hi] Hk Hfu. destruct (ml_run_ok oml es H s m fu Hi Hk Hfu) as (s' & A & A2).
  exists s'. split; [exact A|]. exists W. exact A2.
Qed.

Lemma ml_b_load H s m l t fu : JM H s m -> l <> [] -> good_load mvalid l t -> length l <= fu ->
  exists s', bulkload fu l t s = Ok tt s' /\ JM (2 * length l) s' (amap_of l).
Proof.
  intros [W Hi] Hne Hg Hfu. destruct (ml_load W H s m l t fu Hi Hne Hg Hfu) as (s' & W' & A & A2 & _).
  exists s'. split; [exact A|]. exists W'. exact A2.
Qed.

Lemma JM_init : JM 0 ml_init amap_empty.
Proof. exists no_leak. now apply ml_inv_init. Qed.

Lemma ml_b_scan H s m lo hi : JM H s m -> mbound_valid lo -> mbound_valid hi ->
  exists l F, is_scan m lo hi l /\ forall fu limit, F <= fu ->
    ml_scan oml fu lo hi limit s = Ok (firstn limit l) s.
Proof. intros [W Hi]. eapply ml_scan_ok; eauto. Qed.

Lemma ml_b_read H s m k fu : JM H s m -> mvalid k -> H + 2 <= fu ->
  ml_call oml fu (CRead k) s = Ok (RPayload (m k)) s.
Proof. intros [W Hi] Hk Hfu. eapply ml_read_ok; eauto. lia. Qed.

Lemma ml_b_leak es l t fu rs s : mkeys_valid es -> length es + 3 <= fu -> ml_run oml fu es ml_init = Ok rs s ->
  l <> [] -> good_load mvalid l t -> 2 * length l + 1 <= fu ->
  exists s1 s2, bulkload fu l t s = Ok tt s1 /\ ml_destroy fu s1 = Ok tt s2 /\
    (forall k, mvalid k -> ml_call oml (fu + 2) (CRead k) s1 = Ok (RPayload (amap_of l k)) s1) /\
    forall a, hp s2 a <> None <-> exists d, at_depth s d a.
Proof.
  intros Hk Hfu Hr Hne Hg Hfu2. destruct (mapi_reached oml _ _ _ _ Hk Hfu Hr) as [_ Hi].
  destruct (ml_load _ _ _ _ l t fu Hi Hne Hg) as (s1 & W' & E & Hi' & _ & HW); [lia|].
  destruct (mapi_destroy_leak oml _ _ _ fu Hi') as (s2 & E2 & H2 & _); [lia|].
  exists s1, s2. split; [exact E|]. split; [exact E2|]. split.
  - intros k Hk'. eapply ml_read_ok; eauto. lia.
  - intros a. rewrite H2, HW. cbn [leaked no_leak]. cbn [In]. tauto.
Qed.

End ML.
