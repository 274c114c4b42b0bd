(** Scans, walks and session-level facts about the multi-layer trees, for any lawful node layout. *)
From Coq Require Import List Arith Bool Lia Sorted.
From Verif Require Import Params Mem Common Spec NodeAbs SLIface MLIface BaseIface TreeState Levels
  TreeHeap LevelOps SLModel SLSearch SLSplit SLProofs SLApi WalkModel WalkProofs IterModel IterProofs
  MLModel MLSearch MLSteps MLPess MLOpt MLProofs MLScanModel.
Import ListNotations.

Section MLApi.
Context {P : Params} {O : OrdLaws P} {N : MLOps P} {L : MLLaws P N} {WK : Leak} (oml : bool).
#[local] Instance bml : BaseOps P := base_of_ml N.
#[local] Instance bmll : BaseLaws P bml := base_laws_of_ml N L.

Definition mbound_valid (b : bound) : Prop := forall k c, b = Some (k, c) -> mvalid k.
Definition mkeys_valid (es : list event) : Prop := forall c, In c (calls_of es) -> mvalid (call_key c).

Lemma ml_holds_tree H s m : ml_inv oml H s m ->
  exists leafs U, holds_tree false (s : st bn) leafs U /\ lk s = [] /\ length U <= H /\
    forall k, assoc k (recs leafs) = m k.
Proof.
  intros (leafs & U & A & B & C & D & E & F). exists leafs, U. split; [split; [exact A|exact B]|]. auto.
Qed.

Lemma ml_nodup_leafs (s : st bn) leafs U : holds_tree false s leafs U ->
  NoDup (map fst leafs) /\ forall b m, In (b, m) leafs -> exists d, hp s b = Some d /\ mrep d m.
Proof.
  intros [HT HF]. split.
  - pose proof (hi_nodup _ _ _ _ _ HF) as Hnd. rewrite map_app, <- app_assoc in Hnd.
    apply NoDup_app_inv in Hnd. tauto.
  - intros b m Hb. apply (hi_rep _ _ _ _ _ HF). apply in_or_app. auto.
Qed.

Lemma hda_eq (L0 : lvl) a n L2 : L0 = (a, n) :: L2 -> hda L0 = a.
Proof. now intros ->. Qed.

Lemma ml_scan_all H s m : ml_inv oml H s m ->
  exists sc F, forall lo hi, mbound_valid lo -> mbound_valid hi ->
    is_scan m lo hi (sc lo hi) /\ forall fu limit, F <= fu ->
    ml_scan oml fu lo hi limit s = Ok (firstn limit (sc lo hi)) s.
Proof.
  intros Hinv. destruct (ml_holds_tree _ _ _ Hinv) as (leafs & U & HHT & Hlk & HU & Hm).
  destruct (ml_nodup_leafs _ _ _ HHT) as [Hnd Hh].
  exists (fun lo hi => fbelow hi (fabove lo (recs leafs))), (weight leafs + length U + 1).
  intros lo hi Hlo Hhi.
  destruct (HHT) as [[HL HTw] HF].
  split; [apply is_scan_filter; auto; eapply recs_sorted; eauto|].
  assert (H0 : oml = false -> hp s 0 = None) by (destruct Hinv as (? & ? & _ & _ & _ & Hz & _); intros Ho; apply Hz, Ho).
  intros fu limit Hfu. unfold ml_scan, ml_scan_leaf.
  destruct s as [h r f l g]. cbn [hp rt fr lk gb] in *. subst l.
  destruct lo as [[key c]|].
  - assert (Hk : mvalid key) by (eapply Hlo; reflexivity).
    destruct (lvl_find false false leafs key HL) as (L1 & a & n & L2 & E & Ha & Hr).
    assert (Hs : (if oml then (r0 <- getroot ;; oml_search_read fu r0 key)
                  else (r0 <- pml_root_read ;; pml_down_read fu r0 key)) (St h r f [] g) =
                 Ok a (St h r f (if oml then [] else [(a, LS)]) g)).
    { clear Hinv. destruct oml.
      - rewrite mb_getroot. rewrite <- Ha. eapply oml_search_read_ok; eauto; [split; eauto|lia].
      - rewrite <- Ha. eapply pml_search_read_ok; eauto; [split; eauto|lia]. }
    rewrite (mb_ok _ _ _ _ _ Hs). subst leafs.
    apply (@scan_from_ok P O bml bmll false oml (Some (key, c)) hi limit h r f g L1 a n L2 fu); auto; [|lia].
    split; auto.
  - destruct (@leftmost_leaf P bml bmll _ false false (St h r f [] g) leafs U fu HHT eq_refl) as (a & n & L2 & E & Hs); [lia|].
    cbn [rt] in Hs.
    assert (Hs' : (if oml then (r0 <- getroot ;; leftmost false fu r0)
                   else (r0 <- pml_root_read ;; pml_down_left fu r0)) (St h r f [] g) =
                 Ok a (St h r f (if oml then [] else [(a, LS)]) g)).
    { clear Hinv. destruct oml; [rewrite mb_getroot; exact Hs|].
      rewrite <- (hda_eq _ _ _ _ E). eapply pml_search_left_ok; eauto; [split; eauto|lia]. }
    rewrite (mb_ok _ _ _ _ _ Hs'). subst leafs.
    apply (@scan_from_ok P O bml bmll false oml None hi limit h r f g [] a n L2 fu); auto.
    + reflexivity.
    + cbn [app]. lia.
Qed.

Lemma ml_scan_ok H s m lo hi : ml_inv oml H s m -> mbound_valid lo -> mbound_valid hi ->
  exists l F, is_scan m lo hi l /\ forall fu limit, F <= fu ->
    ml_scan oml fu lo hi limit s = Ok (firstn limit l) s.
Proof.
  intros Hinv Hlo Hhi. destruct (ml_scan_all H s m Hinv) as (sc & F & A). exists (sc lo hi), F. auto.
Qed.

Lemma mapi_run es fu : mkeys_valid es -> length es + 3 <= fu ->
  exists s, ml_run oml fu es ml_init = Ok (snd (spec_run amap_empty (calls_of es))) s /\
    ml_inv (WK := no_leak) oml (length es) s (fst (spec_run amap_empty (calls_of es))).
Proof.
  intros Hk Hfu. destruct (ml_run_ok (WK := no_leak) oml es 0 ml_init amap_empty fu) as (s & A & B); [now apply ml_inv_init|exact Hk|lia|].
  exists s. auto.
Qed.

Lemma mapi_reached es fu rs s : mkeys_valid es -> length es + 3 <= fu -> ml_run oml fu es ml_init = Ok rs s ->
  rs = snd (spec_run amap_empty (calls_of es)) /\
  ml_inv (WK := no_leak) oml (length es) s (fst (spec_run amap_empty (calls_of es))).
Proof.
  intros Hk Hfu Hr. destruct (mapi_run es fu Hk Hfu) as (s' & A & B). rewrite Hr in A. inv A. auto.
Qed.

Lemma mapi_step H s m c fu : ml_inv oml H s m -> mvalid (call_key c) -> H + 3 <= fu ->
  exists s', ml_call oml fu c s = Ok (snd (spec_step m c)) s' /\ lk s' = [] /\
    forall k fu', mvalid k -> H + 2 <= fu' -> ml_call oml fu' (CRead k) s' = Ok (RPayload (fst (spec_step m c) k)) s'.
Proof.
  intros Hi Hk Hfu. destruct (ml_call_ok oml H s m c fu Hi Hk ltac:(lia)) as (s' & A & B).
  exists s'. split; auto. split; [destruct B as (? & ? & ? & ? & E & _); exact E|].
  intros k fu' Hk' Hfu'. eapply ml_read_ok; eauto. lia.
Qed.

Lemma mapi_destroy_leak H s m fu : ml_inv oml H s m -> H < fu ->
  exists s', ml_destroy fu s = Ok tt s' /\ (forall a, hp s' a <> None <-> In a leaked) /\ gb s' = [].
Proof.
  intros Hi Hfu. destruct (ml_holds_tree _ _ _ Hi) as (leafs & U & HT & Hlk & HU & _).
  eapply (@destroy_ok P bml bmll); eauto. lia.
Qed.

Lemma at_depth_ext (s s' : st bn) d a : hp s' = hp s -> rt s' = rt s -> at_depth s d a -> at_depth s' d a.
Proof.
  intros E1 E2 H. induction H as [|d a n i c H IH E I R C].
  - rewrite <- E2. constructor.
  - eapply ad_child; eauto. now rewrite E1.
Qed.

Lemma mapi_stats H s m fu : ml_inv oml H s m -> H < fu ->
  exists sd D, ml_statistics oml fu s = Ok sd s /\ length sd = S D /\
    (forall d a, at_depth s d a -> d <= D) /\
    forall k c u v, nth_error sd k = Some (c, u, v) ->
      exists l, NoDup l /\ (forall a, In a l <-> at_depth s k a) /\ c = length l /\
        v = c * page /\ u = uses (hp s) l /\ u <= v.
Proof.
  intros Hi Hfu. destruct (ml_holds_tree _ _ _ Hi) as (leafs & U & HT & Hlk & HU & _).
  destruct s as [h r f l g]. cbn [lk] in Hlk. subst l.
  assert (Hd : forall d a, at_depth (St h r f [] g : st bn) d a -> d <= length U)
    by (intros d a Hd; eapply (@depth_leaf P bml bmll); eauto).
  unfold ml_statistics. clear Hi. destruct oml.
  - destruct (@statistics_ok P bml bmll _ false _ leafs U fu HT) as (sd & A & B & C);
      [lia|intros a; reflexivity|]. exists sd, (length U). auto.
  - destruct (@statistics_ok P bml bmll _ false (St h r f [(0, LS)] g) leafs U fu HT) as (sd & A & B & C);
      [lia|intros a; destruct a; reflexivity|]. exists sd, (length U).
    split; [|split; [auto|split; [auto|]]].
    + rewrite mb_tlock by reflexivity. rewrite (mb_ok _ _ _ _ _ A).
      rewrite mb_tunlock by reflexivity. reflexivity.
    + intros k c u v Hn. destruct (C k c u v Hn) as (l & C1 & C2 & C3). exists l.
      split; [auto|]. split; [|exact C3]. intros a. rewrite C2.
      split; apply at_depth_ext; reflexivity.
Qed.

(** Leaves in chain order hold ascending keys. *)
Lemma ml_chain_keys (s : st bn) leafs L1 a n L2 b m L3 na nb i j ka kb : level false false leafs ->
  (forall b m, In (b, m) leafs -> exists d, hp s b = Some d /\ brep d m) ->
  leafs = L1 ++ (a, n) :: L2 ++ (b, m) :: L3 ->
  hp s a = Some na -> hp s b = Some nb -> i < bn_rc na -> j < bn_rc nb ->
  bn_key na i = Some ka -> bn_key nb j = Some kb -> klt ka kb.
Proof.
  intros HL Hh E Ha Hb Hi Hj Hka Hkb. subst leafs.
  destruct (Hh a n) as (da & Hda & Hra); [apply in_or_app; right; now left|].
  destruct (Hh b m) as (db & Hdb & Hrb); [apply in_or_app; right; right; apply in_or_app; right; now left|].
  rewrite Ha in Hda. inv Hda. rewrite Hb in Hdb. inv Hdb.
  destruct (B_hdr _ _ Hra) as (_ & _ & _ & Ea). destruct (B_hdr _ _ Hrb) as (_ & _ & _ & Eb).
  rewrite Ea in Hi. rewrite Eb in Hj.
  destruct (seg_wf _ _ _ _ _ _ _ _ _ HL) as (Hwa & _ & HS).
  destruct (seg_wf _ _ _ _ _ _ _ _ _ HS) as (Hwb & _ & _).
  apply seg_app in HS as [HS _].
  destruct (nth_error_ex _ _ Hi) as [sa Hsa]. destruct (nth_error_ex _ _ Hj) as [sb Hsb].
  destruct (B_record _ _ _ _ Hra (nw_inner _ _ _ _ Hwa) (nw_body _ _ _ _ Hwa) Hsa) as (_ & Ka & _).
  destruct (B_record _ _ _ _ Hrb (nw_inner _ _ _ _ Hwb) (nw_body _ _ _ _ Hwb) Hsb) as (_ & Kb & _).
  assert (Hina : In ka (keys_of (a_slots n))).
  { apply in_keys_of. exists sa. split; [eapply nth_error_In; eauto|congruence]. }
  assert (Hinb : In kb (keys_of (a_slots m))).
  { apply in_keys_of. exists sb. split; [eapply nth_error_In; eauto|congruence]. }
  pose proof (nw_hi _ _ _ _ Hwa ka Hina) as H1. pose proof (nw_lo _ _ _ _ Hwb kb Hinb) as H2. cbn in H2.
  apply seg_ele in HS.
  exact (elt_ele_trans (Key ka) _ (Key kb) H1 (ele_trans _ _ _ HS H2)).
Qed.

Lemma mapi_balance H s m : ml_inv oml H s m ->
  exists D a l, (forall d x, at_depth s d x -> (is_leaf s x <-> d = D)) /\
    leftmost_path s (rt s) a /\ chain s a l /\ NoDup l /\
    (forall x, In x l <-> at_depth s D x) /\
    (forall l1 x l2 y l3 nx ny i j kx ky, l = l1 ++ x :: l2 ++ y :: l3 ->
       hp s x = Some nx -> hp s y = Some ny -> i < bn_rc nx -> j < bn_rc ny ->
       bn_key nx i = Some kx -> bn_key ny j = Some ky -> klt kx ky).
Proof.
  intros Hi. destruct (ml_holds_tree _ _ _ Hi) as (leafs & U & HT & Hlk & HU & _).
  destruct (@chain_ok P bml bmll _ false s leafs U HT) as (a & C1 & C2).
  destruct (ml_nodup_leafs _ _ _ HT) as [Hnd Hh].
  exists (length U), a, (map fst leafs). split; [|split; [auto|split; [auto|split; [auto|split]]]].
  - intros d x Hd. eapply (@depth_leaf P bml bmll); eauto.
  - intros x. rewrite (@at_depth_levels P bml bmll _ false s leafs U) by auto.
    rewrite app_nth2 by (rewrite rev_length; lia). now rewrite rev_length, Nat.sub_diag.
  - intros l1 x l2 y l3 nx ny i j kx ky E. apply map_fst_split in E as (L1 & n & L2 & E & <- & E2).
    apply map_fst_split in E2 as (L3 & n' & L4 & -> & <- & <-).
    destruct HT as [[HL _] _]. intros. eapply ml_chain_keys; eauto.
Qed.

(** Every node of the tree represents some well-formed node. *)
Lemma mapi_rep H s m d a n : ml_inv oml H s m -> at_depth s d a -> hp s a = Some n -> exists x, mrep n x.
Proof.
  intros Hi Hd Hn. destruct (ml_holds_tree _ _ _ Hi) as (leafs & U & HT & Hlk & HU & _).
  apply (@at_depth_levels P bml bmll _ false s leafs U) in Hd; auto.
  apply in_map_iff in Hd as ([a' x] & <- & Hin). destruct HT as [_ HF].
  destruct (hi_rep _ _ _ _ _ HF a' x) as (dd & H1 & H2).
  - destruct (Nat.lt_ge_cases d (length (rev U ++ [leafs]))) as [Hk'|Hk'].
    + eapply Permutation.Permutation_in; [apply concat_rev_perm|]. apply in_concat. eexists. split; [|exact Hin].
      apply nth_In. auto.
    + rewrite nth_overflow in Hin by auto. destruct Hin.
  - assert (E : Some dd = Some n) by (etransitivity; [symmetry; exact H1|exact Hn]). inv E. exists x. exact H2.
Qed.

(** Every node of the tree is well formed at its place, and so is its right neighbour. *)
Lemma mapi_wf H s m d a n : ml_inv oml H s m -> at_depth s d a -> hp s a = Some n ->
  exists lo x, mrep n x /\ node_wf false (a_inner x) lo x /\
  forall b, a_inner x = false -> a_next x = Some b -> exists n' y h, hp s b = Some n' /\ mrep n' y /\ a_high x = Some h /\
    node_wf false (a_inner x) (Key h) y /\ a_inner y = a_inner x.
Proof.
  intros Hi Hd Hn. destruct (ml_holds_tree _ _ _ Hi) as (leafs & U & HT & Hlk & HU & _).
  apply (@at_depth_levels P bml bmll _ false s leafs U) in Hd; auto.
  apply in_map_iff in Hd as ([a' x] & <- & Hin). destruct HT as [HT HF].
  destruct (Nat.lt_ge_cases d (length (rev U ++ [leafs]))) as [Hk'|Hk']; [|rewrite nth_overflow in Hin by auto; destruct Hin].
  set (LV := nth d (rev U ++ [leafs]) []) in *.
  assert (HinL : forall c z, In (c, z) LV -> exists dd, hp s c = Some dd /\ mrep dd z).
  { intros c z Hc. destruct (hi_rep _ _ _ _ _ HF c z) as (dd & H1 & H2); [|exists dd; split; [exact H1|exact H2]].
    eapply Permutation.Permutation_in; [apply concat_rev_perm|]. apply in_concat. exists LV. split; [|exact Hc].
    apply nth_In. auto. }
  assert (HL : exists inner, level false inner LV).
  { assert (In LV (rev U ++ [leafs])) as HLin by (apply nth_In; auto).
    destruct HT as [T1 T2]. apply in_app_or in HLin as [HLin|[<-|[]]]; [|eauto]. apply in_rev in HLin.
    exists true. clearbody LV. clear - T2 HLin. revert T2. generalize (entries NegInf leafs). induction U as [|M U IH]; intros E T; [destruct HLin|].
    destruct T as (T1 & _ & T2). destruct HLin as [<-|Hin]; eauto. }
  destruct HL as (inner & HL). apply in_split in Hin as (L1 & L2 & EL). rewrite EL in HL.
  unfold level in HL. apply seg_app in HL as [_ HL]. cbn [seg] in HL. destruct HL as (W & Hnx & HR).
  destruct (HinL a' x) as (dd & H1 & H2); [rewrite EL; apply in_or_app; right; now left|].
  assert (E : Some dd = Some n) by (etransitivity; [symmetry; exact H1|exact Hn]). inv E.
  pose proof (nw_inner _ _ _ _ W) as Ei.
  exists (lasthi NegInf L1), x. rewrite Ei. split; [exact H2|]. split; [exact W|].
  intros b Hlf Hb. rewrite Hnx in Hb by auto. destruct L2 as [|[b' y] L2]; [discriminate|]. cbn in Hb. inv Hb.
  cbn [seg] in HR. destruct HR as (Wy & _ & _).
  destruct (HinL b y) as (db & G1 & G2); [rewrite EL; apply in_or_app; right; right; now left|].
  pose proof (nw_inner _ _ _ _ Wy). pose proof (nw_range _ _ _ _ Wy) as Hr. unfold hi_ext in Wy, Hr.
  destruct (a_high x) as [h|]; [|destruct Hr].
  exists db, y, h. auto 6.
Qed.

End MLApi.

Lemma mapi_destroy {P : Params} {N : MLOps P} {L : MLLaws P N} (oml : bool) H s m fu : ml_inv (WK := no_leak) oml H s m -> H < fu ->
  exists s', ml_destroy fu s = Ok tt s' /\ (forall a, hp s' a = None) /\ gb s' = [].
Proof.
  intros Hi Hfu. destruct (mapi_destroy_leak (WK := no_leak) oml H s m fu Hi Hfu) as (s' & A & B & C).
  exists s'. split; [auto|]. split; [|auto]. intros a. specialize (B a). destruct (hp s' a); auto.
  destruct (proj1 B). discriminate.
Qed.
