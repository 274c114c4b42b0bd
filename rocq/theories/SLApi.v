(** Session-level facts about the single-layer trees, for any lawful node layout. *)
From Coq Require Import List Arith Bool Lia Sorted.
From Verif Require Import Params Mem Common Spec NodeAbs SLIface BaseIface TreeState Levels
  TreeHeap LevelOps SLModel SLSearch SLProofs WalkModel WalkProofs IterModel IterProofs SLScanModel SLScan.
Import ListNotations.

Section SLApi.
Context {P : Params} {O : OrdLaws P} {N : SLOps P} {L : SLLaws P N} {WK : Leak} (osl : bool).
#[local] Existing Instance bsl.
#[local] Existing Instance bll.

Definition keys_valid (es : list event) : Prop := forall c, In c (calls_of es) -> kvalid (call_key c).

Lemma api_run es fu : keys_valid es -> length es + 3 <= fu ->
  exists s, sl_run osl fu es sl_init = Ok (snd (spec_run amap_empty (calls_of es))) s /\
    sl_inv (W := no_leak) (length es) s (fst (spec_run amap_empty (calls_of es))).
Proof.
  intros Hk Hfu. destruct (sl_run_ok (W := no_leak) osl es 0 sl_init amap_empty fu) as (s & A & B); [now apply sl_inv_init|exact Hk|lia|].
  exists s. auto.
Qed.

Lemma api_reached es fu rs s : keys_valid es -> length es + 3 <= fu -> sl_run osl fu es sl_init = Ok rs s ->
  rs = snd (spec_run amap_empty (calls_of es)) /\
  sl_inv (W := no_leak) (length es) s (fst (spec_run amap_empty (calls_of es))).
Proof.
  intros Hk Hfu Hr. destruct (api_run es fu Hk Hfu) as (s' & A & B). rewrite Hr in A. inv A. auto.
Qed.

(** Every further call, stated on the reads of the state. *)
Lemma api_step H s m c fu : sl_inv H s m -> kvalid (call_key c) -> H + 3 <= fu ->
  exists s', sl_call osl fu c s = Ok (snd (spec_step m c)) s' /\ lk s' = [] /\
    forall k fu', kvalid k -> H + 2 <= fu' -> sl_call osl fu' (CRead k) s' = Ok (RPayload (fst (spec_step m c) k)) s'.
Proof.
  intros Hi Hk Hfu. destruct (sl_call_ok osl H s m c fu Hi Hk Hfu) as (s' & A & B).
  exists s'. split; auto. split; [destruct B as (? & ? & ? & ? & E & _); exact E|].
  intros k fu' Hk' Hfu'. cbn [sl_call]. eapply sl_read_ok; eauto. lia.
Qed.

Lemma api_scan H s m lo hi : sl_inv H s m -> bound_valid lo -> bound_valid hi ->
  exists l F, is_scan m lo hi l /\ forall fu limit, F <= fu ->
    sl_scan osl fu lo hi limit s = Ok (firstn limit l) s.
Proof. apply sl_scan_ok. Qed.

Lemma api_destroy_leak H s m fu : sl_inv H s m -> H < fu ->
  exists s', sl_destroy fu s = Ok tt s' /\ (forall a, hp s' a <> None <-> In a leaked) /\ gb s' = [].
Proof.
  intros Hi Hfu. destruct (sl_holds_tree _ _ _ Hi) as (leafs & U & HT & Hlk & HU & _).
  eapply (@destroy_ok P bsl bll); eauto. lia.
Qed.

Lemma api_stats H s m fu : sl_inv H s m -> H < fu ->
  exists sd D, sl_statistics fu s = Ok sd s /\ length sd = S D /\
    (forall d a, at_depth s d a -> d <= D) /\
    forall k c u v, nth_error sd k = Some (c, u, v) ->
      exists l, NoDup l /\ (forall a, In a l <-> at_depth s k a) /\ c = length l /\
        v = c * page /\ u = uses (hp s) l /\ u <= v.
Proof.
  intros Hi Hfu. destruct (sl_holds_tree _ _ _ Hi) as (leafs & U & HT & Hlk & HU & _).
  destruct (@statistics_ok P bsl bll _ true s leafs U fu HT) as (sd & A & B & C).
  - lia.
  - intros a. clear -Hlk. destruct s. cbn in *. subst. reflexivity.
  - exists sd, (length U). split; auto. split; auto. split; auto.
    intros d a Hd. eapply (@depth_leaf P bsl bll); eauto.
Qed.

(** Leaves in chain order hold ascending keys. *)
Lemma chain_keys (s : st bn) leafs L1 a n L2 b m L3 na nb i j ka kb : level true false leafs ->
  (forall b m, In (b, m) leafs -> exists d, hp s b = Some d /\ brep d m) ->
  leafs = L1 ++ (a, n) :: L2 ++ (b, m) :: L3 ->
  hp s a = Some na -> hp s b = Some nb -> i < bn_rc na -> j < bn_rc nb ->
  bn_key na i = Some ka -> bn_key nb j = Some kb -> klt ka kb.
Proof.
  intros HL Hh E Ha Hb Hi Hj Hka Hkb. subst leafs.
  destruct (Hh a n) as (da & Hda & Hra); [apply in_or_app; right; now left|].
  destruct (Hh b m) as (db & Hdb & Hrb); [apply in_or_app; right; right; apply in_or_app; right; now left|].
  rewrite Ha in Hda. inv Hda. rewrite Hb in Hdb. inv Hdb.
  destruct (B_hdr _ _ Hra) as (_ & _ & _ & Ea). destruct (B_hdr _ _ Hrb) as (_ & _ & _ & Eb).
  rewrite Ea in Hi. rewrite Eb in Hj.
  destruct (seg_wf _ _ _ _ _ _ _ _ _ HL) as (Hwa & _ & HS).
  destruct (seg_wf _ _ _ _ _ _ _ _ _ HS) as (Hwb & _ & _).
  apply seg_app in HS as [HS _].
  destruct (nth_error_ex _ _ Hi) as [sa Hsa]. destruct (nth_error_ex _ _ Hj) as [sb Hsb].
  destruct (B_record _ _ _ _ Hra (nw_inner _ _ _ _ Hwa) (nw_body _ _ _ _ Hwa) Hsa) as (_ & Ka & _).
  destruct (B_record _ _ _ _ Hrb (nw_inner _ _ _ _ Hwb) (nw_body _ _ _ _ Hwb) Hsb) as (_ & Kb & _).
  assert (Hina : In ka (keys_of (a_slots n))).
  { apply in_keys_of. exists sa. split; [eapply nth_error_In; eauto|congruence]. }
  assert (Hinb : In kb (keys_of (a_slots m))).
  { apply in_keys_of. exists sb. split; [eapply nth_error_In; eauto|congruence]. }
  pose proof (nw_hi _ _ _ _ Hwa ka Hina) as H1. pose proof (nw_lo _ _ _ _ Hwb kb Hinb) as H2. cbn in H2.
  apply seg_ele in HS.
  exact (elt_ele_trans (Key ka) _ (Key kb) H1 (ele_trans _ _ _ HS H2)).
Qed.

Lemma map_fst_split (l : lvl) l1 x l2 : map fst l = l1 ++ x :: l2 ->
  exists L1 n L2, l = L1 ++ (x, n) :: L2 /\ map fst L1 = l1 /\ map fst L2 = l2.
Proof.
  revert l1. induction l as [|[a n] l IH]; intros [|y l1] H; cbn in H; try discriminate; inv H.
  - exists [], n, l. auto.
  - destruct (IH _ H2) as (L1 & m & L2 & -> & <- & <-). exists ((y, n) :: L1), m, L2. auto.
Qed.

Lemma api_balance H s m : sl_inv H s m ->
  exists D a l, (forall d x, at_depth s d x -> (is_leaf s x <-> d = D)) /\
    leftmost_path s (rt s) a /\ chain s a l /\ NoDup l /\
    (forall x, In x l <-> at_depth s D x) /\
    (forall l1 x l2 y l3 nx ny i j kx ky, l = l1 ++ x :: l2 ++ y :: l3 ->
       hp s x = Some nx -> hp s y = Some ny -> i < bn_rc nx -> j < bn_rc ny ->
       bn_key nx i = Some kx -> bn_key ny j = Some ky -> klt kx ky).
Proof.
  intros Hi. destruct (sl_holds_tree _ _ _ Hi) as (leafs & U & HT & Hlk & HU & _).
  destruct (@chain_ok P bsl bll _ true s leafs U HT) as (a & C1 & C2).
  destruct (nodup_leafs _ _ _ HT) as [Hnd Hh].
  exists (length U), a, (map fst leafs). split; [|split; [auto|split; [auto|split; [auto|split]]]].
  - intros d x Hd. eapply (@depth_leaf P bsl bll); eauto.
  - intros x. rewrite (@at_depth_levels P bsl bll _ true s leafs U) by auto.
    rewrite app_nth2 by (rewrite rev_length; lia). now rewrite rev_length, Nat.sub_diag.
  - intros l1 x l2 y l3 nx ny i j kx ky E. apply map_fst_split in E as (L1 & n & L2 & E & <- & E2).
    apply map_fst_split in E2 as (L3 & n' & L4 & -> & <- & <-).
    destruct HT as [[HL _] _]. intros. eapply chain_keys; eauto.
Qed.

(** Every node of the tree represents some well-formed node. *)
Lemma api_rep H s m d a n : sl_inv H s m -> at_depth s d a -> hp s a = Some n -> exists x, rep n x.
Proof.
  intros Hi Hd Hn. destruct (sl_holds_tree _ _ _ Hi) as (leafs & U & HT & Hlk & HU & _).
  apply (@at_depth_levels P bsl bll _ true s leafs U) in Hd; auto.
  apply in_map_iff in Hd as ([a' x] & <- & Hin). destruct HT as [_ HF].
  destruct (hi_rep _ _ _ _ _ HF a' x) as (dd & H1 & H2).
  - destruct (Nat.lt_ge_cases d (length (rev U ++ [leafs]))) as [Hk'|Hk'].
    + eapply Permutation.Permutation_in; [apply concat_rev_perm|]. apply in_concat. eexists. split; [|exact Hin].
      apply nth_In. auto.
    + rewrite nth_overflow in Hin by auto. destruct Hin.
  - assert (E : Some dd = Some n) by (etransitivity; [symmetry; exact H1|exact Hn]). inv E. exists x. exact H2.
Qed.

(** Every node of the tree is well formed at its place, and so is its right neighbour. *)
Lemma api_wf H s m d a n : sl_inv H s m -> at_depth s d a -> hp s a = Some n ->
  exists lo x, rep n x /\ node_wf true (a_inner x) lo x /\
  forall b, a_next x = Some b -> exists n' y h, hp s b = Some n' /\ rep n' y /\ a_high x = Some h /\
    node_wf true (a_inner x) (Key h) y /\ a_inner y = a_inner x.
Proof.
  intros Hi Hd Hn. destruct (sl_holds_tree _ _ _ Hi) as (leafs & U & HT & Hlk & HU & _).
  apply (@at_depth_levels P bsl bll _ true s leafs U) in Hd; auto.
  apply in_map_iff in Hd as ([a' x] & <- & Hin). destruct HT as [HT HF].
  destruct (Nat.lt_ge_cases d (length (rev U ++ [leafs]))) as [Hk'|Hk']; [|rewrite nth_overflow in Hin by auto; destruct Hin].
  set (LV := nth d (rev U ++ [leafs]) []) in *.
  assert (HinL : forall c z, In (c, z) LV -> exists dd, hp s c = Some dd /\ rep dd z).
  { intros c z Hc. destruct (hi_rep _ _ _ _ _ HF c z) as (dd & H1 & H2); [|exists dd; split; [exact H1|exact H2]].
    eapply Permutation.Permutation_in; [apply concat_rev_perm|]. apply in_concat. exists LV. split; [|exact Hc].
    apply nth_In. auto. }
  assert (HL : exists inner, level true inner LV).
  { assert (In LV (rev U ++ [leafs])) as HLin by (apply nth_In; auto).
    destruct HT as [T1 T2]. apply in_app_or in HLin as [HLin|[<-|[]]]; [|eauto]. apply in_rev in HLin.
    exists true. clearbody LV. clear - T2 HLin. revert T2. generalize (entries NegInf leafs). induction U as [|M U IH]; intros E T; [destruct HLin|].
    destruct T as (T1 & _ & T2). destruct HLin as [<-|Hin]; eauto. }
  destruct HL as (inner & HL). apply in_split in Hin as (L1 & L2 & EL). rewrite EL in HL.
  unfold level in HL. apply seg_app in HL as [_ HL]. cbn [seg] in HL. destruct HL as (W & Hnx & HR).
  destruct (HinL a' x) as (dd & H1 & H2); [rewrite EL; apply in_or_app; right; now left|].
  assert (E : Some dd = Some n) by (etransitivity; [symmetry; exact H1|exact Hn]). inv E.
  pose proof (nw_inner _ _ _ _ W) as Ei.
  exists (lasthi NegInf L1), x. rewrite Ei. split; [exact H2|]. split; [exact W|].
  intros b Hb. rewrite Hnx in Hb by auto. destruct L2 as [|[b' y] L2]; [discriminate|]. cbn in Hb. inv Hb.
  cbn [seg] in HR. destruct HR as (Wy & _ & _).
  destruct (HinL b y) as (db & G1 & G2); [rewrite EL; apply in_or_app; right; right; now left|].
  pose proof (nw_inner _ _ _ _ Wy). pose proof (nw_range _ _ _ _ Wy) as Hr. unfold hi_ext in Wy, Hr.
  destruct (a_high x) as [h|]; [|destruct Hr].
  exists db, y, h. auto 6.
Qed.

End SLApi.

Lemma api_destroy {P : Params} {N : SLOps P} {L : SLLaws P N} H s m fu : sl_inv (W := no_leak) H s m -> H < fu ->
  exists s', sl_destroy fu s = Ok tt s' /\ (forall a, hp s' a = None) /\ gb s' = [].
Proof.
  intros Hi Hfu. destruct (api_destroy_leak (WK := no_leak) H s m fu Hi Hfu) as (s' & A & B & C).
  exists s'. split; [auto|]. split; [|auto]. intros a. specialize (B a). destruct (hp s' a); auto.
  destruct (proj1 B). discriminate.
Qed.
