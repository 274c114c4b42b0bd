(** Scans of the single-layer trees deliver the abstract map's records in range. *)
From Coq Require Import List Arith Bool Lia Sorted.
From Verif Require Import Params Mem Common Spec NodeAbs SLIface BaseIface TreeState Levels
  TreeHeap LevelOps SLModel SLSearch SLProofs WalkModel WalkProofs IterModel IterProofs SLScanModel.
Import ListNotations.

Section SLScan.
Context {P : Params} {O : OrdLaws P} {N : SLOps P} {L : SLLaws P N} {W : Leak} (osl : bool).
#[local] Instance bsl : BaseOps P := base_of_sl N.
#[local] Instance bll : BaseLaws P bsl := base_laws_of_sl N L.

Definition bound_valid (b : bound) : Prop := forall k c, b = Some (k, c) -> kvalid k.

Lemma sl_holds_tree H s m : sl_inv H s m ->
  exists leafs U, holds_tree true (s : st bn) leafs U /\ lk s = [] /\ length U <= H /\
    forall k, assoc k (recs leafs) = m k.
Proof.
  intros (leafs & U & A & B & C & D & E). exists leafs, U. split; [split; [exact A|exact B]|]. auto.
Qed.

Lemma nodup_leafs (s : st bn) leafs U : holds_tree true s leafs U ->
  NoDup (map fst leafs) /\ forall b m, In (b, m) leafs -> exists d, hp s b = Some d /\ rep d m.
Proof.
  intros [HT HF]. split.
  - pose proof (hi_nodup _ _ _ _ _ HF) as Hnd. rewrite map_app, <- app_assoc in Hnd.
    apply NoDup_app_inv in Hnd. tauto.
  - intros b m Hb. apply (hi_rep _ _ _ _ _ HF). apply in_or_app. auto.
Qed.

Lemma sl_scan_all H s m : sl_inv H s m ->
  exists sc F, forall lo hi, bound_valid lo -> bound_valid hi ->
    is_scan m lo hi (sc lo hi) /\ forall fu limit, F <= fu ->
    sl_scan osl fu lo hi limit s = Ok (firstn limit (sc lo hi)) s.
Proof.
  intros Hinv. destruct (sl_holds_tree _ _ _ Hinv) as (leafs & U & HHT & Hlk & HU & Hm).
  destruct (nodup_leafs _ _ _ HHT) as [Hnd Hh].
  exists (fun lo hi => fbelow hi (fabove lo (recs leafs))), (weight leafs + length U + 1).
  intros lo hi Hlo Hhi.
  destruct (HHT) as [[HL HTw] HF].
  split; [apply is_scan_filter; auto; eapply recs_sorted; eauto|].
  intros fu limit Hfu. unfold sl_scan, sl_scan_leaf.
  destruct s as [h r f l g]. cbn [hp rt fr lk gb] in *. subst l. rewrite mb_assoc, mb_getroot.
  destruct lo as [[key c]|].
  - assert (Hk : kvalid key) by (eapply Hlo; reflexivity).
    destruct (level_find false leafs key HL) as (L1 & a & n & L2 & E & Ha & Hr).
    assert (Hs : (if osl then osl_search fu r key else psl_search_read fu r key) (St h r f [] g) =
                 Ok a (St h r f (if osl then [] else [(a, LS)]) g)).
    { destruct osl.
      - rewrite <- Ha. eapply osl_read_leaf; eauto; [split; eauto|lia].
      - rewrite <- Ha. eapply psl_read_leaf; eauto; [split; eauto|lia]. }
    rewrite (mb_ok _ _ _ _ _ Hs). subst leafs.
    apply (@scan_from_ok P O bsl bll true osl (Some (key, c)) hi limit h r f g L1 a n L2 fu); auto; [|lia].
    split; auto.
  - destruct (@leftmost_leaf P bsl bll _ true (negb osl) (St h r f [] g) leafs U fu HHT eq_refl) as (a & n & L2 & E & Hs); [lia|].
    cbn [rt] in Hs.
    assert (Hs' : (if osl then leftmost false fu r else (a <- leftmost true fu r ;; lock LS a ;;; mret a)) (St h r f [] g) =
                 Ok a (St h r f (if osl then [] else [(a, LS)]) g)).
    { destruct osl; cbn [negb] in Hs; [exact Hs|]. rewrite (mb_ok _ _ _ _ _ Hs).
      destruct (Hh a n) as (d & Hd & _); [rewrite E; now left|].
      rewrite mb_lock by (try congruence; lks). reflexivity. }
    rewrite (mb_ok _ _ _ _ _ Hs'). subst leafs.
    apply (@scan_from_ok P O bsl bll true osl None hi limit h r f g [] a n L2 fu); auto.
    + reflexivity.
    + cbn [app]. lia.
Qed.

Lemma sl_scan_ok H s m lo hi : sl_inv H s m -> bound_valid lo -> bound_valid hi ->
  exists l F, is_scan m lo hi l /\ forall fu limit, F <= fu ->
    sl_scan osl fu lo hi limit s = Ok (firstn limit l) s.
Proof.
  intros Hinv Hlo Hhi. destruct (sl_scan_all H s m Hinv) as (sc & F & A). exists (sc lo hi), F. auto.
Qed.

End SLScan.
