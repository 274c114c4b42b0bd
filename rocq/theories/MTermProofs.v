(** Heights of pages in the concurrent pessimistic multi-layer tree: a page stays on its level
    as long as it exists, so every step of a call goes down.  Proof-side only. *)
From Coq Require Import List Arith Bool Lia Sorted Permutation.
From Verif Require Import Params Mem Common Spec NodeAbs SLIface MLIface TreeState Levels TreeHeap
  LevelOps SLModel SLSearch SLSplit SLMerge SLProofs MLModel MLSearch MLSteps ConcSpec ConcModel ConcLin
  MConcModel MConcInv MConcSteps MConcMain.
Import ListNotations.

Section MTerm.
Context {P : Params} {O : OrdLaws P} {N : MLOps P} {LW : MLLaws P N} (fx : bool).
#[local] Existing Instance no_leak.
Notation hinv := (@hinv P no_leak mn mrep).
Notation minv := (minv fx).
Notation is_read := ConcModel.is_read.

(** ** Whether a page is a leaf, and its leftmost child *)
Definition cls (d : mn) : option (option addr) := if mn_inner d then Some (mn_child d 0) else None.
Definition acls (n : anode) : option (option addr) :=
  if a_inner n then Some (option_map kid (hd_error (a_slots n))) else None.

Lemma rep_cls d n : mrep d n -> body_ok (a_inner n) (a_slots n) -> cls d = acls n.
Proof.
  intros Hr Hb. unfold cls, acls. rewrite (proj1 (M_hdr _ _ Hr)). destruct (a_inner n) eqn:E; [|auto].
  f_equal. cbn in Hb. unfold inner_ok in Hb. destruct (a_slots n) as [|s0 tl] eqn:Es; [destruct Hb|].
  destruct Hb as ((_ & c & Hc) & _). cbn. unfold kid. rewrite Hc.
  eapply M_child; eauto. now rewrite Es.
Qed.

Lemma cls_need_split d n b o : mrep d n -> body_ok (a_inner n) (a_slots n) ->
  mn_need_split d mn_maxlen = Some (b, o) -> cls (after d o) = cls d.
Proof.
  intros Hr Hb E. destruct (M_need_split d n Hr Hb) as (b' & o' & n' & E' & Hr' & Hf & _).
  assert (o' = o) by congruence. subst o'. unfold refreshed in Hf. destruct (a_inner n) eqn:Ei.
  - subst n'. rewrite (rep_cls d n), (rep_cls _ n); auto; now rewrite Ei.
  - unfold cls. rewrite (proj1 (M_hdr _ _ Hr)), (proj1 (M_hdr _ _ Hr')), Ei.
    destruct Hf as ((Q & _) & _). now rewrite Q, Ei.
Qed.

Lemma cls_need_merge d n b o : mrep d n -> body_ok (a_inner n) (a_slots n) ->
  mn_need_merge d = Some (b, o) -> cls (after d o) = cls d.
Proof.
  intros Hr Hb E. destruct (M_need_merge d n Hr Hb) as (b' & o' & n' & E' & Hr' & Hf & _).
  assert (o' = o) by congruence. subst o'. unfold refreshed in Hf. destruct (a_inner n) eqn:Ei.
  - subst n'. rewrite (rep_cls d n), (rep_cls _ n); auto; now rewrite Ei.
  - unfold cls. rewrite (proj1 (M_hdr _ _ Hr)), (proj1 (M_hdr _ _ Hr')), Ei.
    destruct Hf as ((Q & _) & _). now rewrite Q, Ei.
Qed.

Lemma cls_leaf d n c x : mrep d n -> a_inner n = false -> leaf_ok (a_slots n) -> is_read c = false ->
  mvalid (call_key c) -> mroom d -> mleaf_op d c = Some x -> cls (snd x) = cls d.
Proof.
  intros Hr Hi Hl Hc Hv Hm E.
  enough (Q : exists n', mrep (snd x) n' /\ a_inner n' = false).
  { destruct Q as (n' & Hr' & Hi'). unfold cls.
    now rewrite (proj1 (M_hdr _ _ Hr)), (proj1 (M_hdr _ _ Hr')), Hi, Hi'. }
  destruct c as [k|k v|k v|k v|k]; cbn [mleaf_op call_key is_read] in *; try discriminate.
  - destruct (M_write d n k v Hr Hi Hl Hv Hm) as (d' & n' & E' & Hr' & (Q & _) & _).
    rewrite E' in E. injection E as <-. exists n'. split; [auto|]. now rewrite Q.
  - destruct (M_insert d n k v Hr Hi Hl Hv Hm) as (rc & d' & n' & E' & Hr' & Q).
    rewrite E' in E. injection E as <-. exists n'. split; [auto|].
    destruct Q as [(_ & _ & -> & _)|(_ & _ & (Q & _) & _)]; [auto|now rewrite Q].
  - destruct (M_update d n k v Hr Hi Hl Hv) as (rc & d' & n' & E' & Hr' & Q).
    rewrite E' in E. injection E as <-. exists n'. split; [auto|].
    destruct Q as [(_ & _ & (Q & _) & _)|(_ & _ & -> & _)]; [now rewrite Q|auto].
  - destruct (M_delete d n k Hr Hi Hl Hv) as (rc & d' & n' & E' & Hr' & Q).
    rewrite E' in E. injection E as <-. exists n'. split; [auto|].
    destruct Q as [(_ & _ & (Q & _) & _)|(_ & _ & -> & _)]; [now rewrite Q|auto].
Qed.

Lemma cls_split d n r l : mrep d n -> body_ok (a_inner n) (a_slots n) -> msplit_ok d ->
  mn_split d r (mn_new (mn_inner d)) = Some l ->
  cls (fst l) = cls d /\ cls (snd l) <> Some None /\ (mn_inner (snd l) = mn_inner d) /\
  exists sep, mn_highkey (fst l) = Some sep /\ mvalid sep.
Proof.
  intros Hr Hb Hs E.
  destruct (M_split d n r Hr Hb Hs) as (l' & r' & sep & s1 & s2 & lw1 & lw2 & E' & Hl & Hrr & Hsp & Hv & _).
  rewrite (proj1 (M_hdr _ _ Hr)) in E. rewrite E' in E. injection E as <-. cbn [fst snd].
  assert (Hsep : mn_highkey l' = Some sep) by (eapply M_highkey; eauto; reflexivity).
  pose proof (proj1 (M_hdr _ _ Hl)) as I1. pose proof (proj1 (M_hdr _ _ Hrr)) as I2.
  pose proof (proj1 (M_hdr _ _ Hr)) as I0. cbn in I1, I2.
  split; [|split; [|split; [congruence|eauto]]].
  - unfold cls. rewrite I0, I1. destruct (a_inner n) eqn:Ei; [|auto]. f_equal.
    unfold split_spec in Hsp. rewrite Ei in Hsp. destruct Hsp as (_ & Hsl & Hne & _).
    destruct s1 as [|s0 s1]; [congruence|]. cbn in Hb. unfold inner_ok in Hb. rewrite Hsl in Hb.
    destruct Hb as ((_ & c & Hc) & _).
    rewrite (M_child d n 0 s0 c); auto; [|now rewrite Hsl].
    eapply M_child; [exact Hl|reflexivity|reflexivity|auto].
  - unfold cls. rewrite I2. destruct (a_inner n) eqn:Ei; [|discriminate].
    unfold split_spec in Hsp. rewrite Ei in Hsp. destruct Hsp as (_ & Hsl & Hne & s0 & tl & -> & _).
    cbn in Hb. unfold inner_ok in Hb. rewrite Hsl in Hb. destruct s1 as [|s1 tl1]; [congruence|].
    destruct Hb as (_ & Hf & _). rewrite Forall_forall in Hf.
    destruct (Hf s0) as (_ & k & c & _ & Hc); [apply in_or_app; right; now left|].
    rewrite (M_child r' _ 0 s0 c Hrr); [discriminate|reflexivity|reflexivity|auto].
Qed.

Lemma cls_insert_child d n l1 s l2 r sep d' : mrep d n -> a_inner n = true -> inner_ok (a_slots n) ->
  a_slots n = l1 ++ s :: l2 -> mvalid sep -> mroom d ->
  mn_insert_child d r sep (length l1) = Some d' -> cls d' = cls d /\ mn_child d' (length l1 + 1) = Some r /\ length l1 + 1 < mn_rc d'.
Proof.
  intros Hr Hi Hb Hsl Hv Hm E.
  destruct (M_insert_child d n l1 s l2 r sep Hr Hi Hsl Hv Hm) as (d1 & n1 & E' & Hr' & (Q & _) & Hsl').
  rewrite E' in E. injection E as ->. assert (Hi' : a_inner n1 = true) by congruence.
  split; [|split].
  - unfold cls. rewrite (proj1 (M_hdr _ _ Hr)), (proj1 (M_hdr _ _ Hr')), Hi, Hi'. f_equal.
    unfold inner_ok in Hb. rewrite Hsl in Hb. destruct l1 as [|s0 l1]; cbn in *.
    + destruct Hb as ((_ & c & Hc) & _). rewrite (M_child d n 0 s c); auto; [|now rewrite Hsl].
      eapply M_child; [exact Hr'|auto|now rewrite Hsl'|auto].
    + destruct Hb as ((_ & c & Hc) & _). rewrite (M_child d n 0 s0 c); auto; [|now rewrite Hsl].
      eapply M_child; [exact Hr'|auto|now rewrite Hsl'|auto].
  - apply (M_child d' n1 _ (Slot (Some sep) (PP r) false)); [exact Hr'|auto| |reflexivity]. rewrite Hsl', nth_error_app2 by lia.
    now replace (length l1 + 1 - length l1) with 1 by lia.
  - destruct (M_hdr _ _ Hr') as (_ & _ & _ & ->). rewrite Hsl', app_length. cbn. lia.
Qed.

Lemma cls_delete_child d n l1 s s' l2 d' : mrep d n -> a_inner n = true -> inner_ok (a_slots n) ->
  a_slots n = l1 ++ s :: s' :: l2 -> mn_delete_child d (length l1) = Some d' -> cls d' = cls d.
Proof.
  intros Hr Hi Hb Hsl E.
  destruct (M_delete_child d n l1 s s' l2 Hr Hi Hb Hsl) as (d1 & n1 & E' & Hr' & (Q & _) & Hsl').
  rewrite E' in E. injection E as ->. assert (Hi' : a_inner n1 = true) by congruence.
  unfold cls. rewrite (proj1 (M_hdr _ _ Hr)), (proj1 (M_hdr _ _ Hr')), Hi, Hi'. f_equal.
  unfold inner_ok in Hb. rewrite Hsl in Hb. destruct l1 as [|s0 l1]; cbn in *.
  - destruct Hb as ((_ & c & Hc) & _). rewrite (M_child d n 0 s c); auto; [|now rewrite Hsl].
    eapply M_child; [exact Hr'|auto|now rewrite Hsl'|auto].
  - destruct Hb as ((_ & c & Hc) & _). rewrite (M_child d n 0 s0 c); auto; [|now rewrite Hsl].
    eapply M_child; [exact Hr'|auto|now rewrite Hsl'|auto].
Qed.

Lemma cls_merge inner C1 b m r m2 C2 db dr d' : level false inner (C1 ++ (b, m) :: (r, m2) :: C2) ->
  mrep db m -> mrep dr m2 -> mn_can_merge db dr = true -> mn_merge db dr = Some d' -> cls d' = cls db.
Proof.
  intros HL Hdb Hdr Hcm E.
  destruct (seg_wf _ _ _ _ _ _ _ _ _ HL) as (Hwc & _ & HsC).
  destruct (hi_key _ _ _ _ _ Hwc HsC ltac:(discriminate)) as (hk & Hh & He).
  destruct HsC as (Hw2 & _ & _). rewrite He in Hw2.
  pose proof (nw_inner _ _ _ _ Hwc) as Hin. pose proof (nw_inner _ _ _ _ Hw2) as Hin2.
  assert (Hb : body_ok (a_inner m) (a_slots m)) by (rewrite Hin; apply (nw_body _ _ _ _ Hwc)).
  destruct (M_merge db m dr m2 hk Hdb Hdr) as (l' & t & lw & Hm & Hl & Hspec & Hrm); auto.
  - congruence.
  - rewrite Hin2. apply (nw_body _ _ _ _ Hw2).
  - intros k1 Hk1 Hi. assert (Hi' : inner = false) by congruence.
    pose proof (nw_hi _ _ _ _ Hwc k1) as Hx. rewrite Hi', He in Hx. apply Hx. exact Hk1.
  - intros k1 Hk1 Hi. assert (Hi' : inner = false) by congruence.
    pose proof (nw_lo _ _ _ _ Hw2 k1) as Hx. rewrite Hi' in Hx. apply kle_ele. apply Hx. exact Hk1.
  - rewrite Hm in E. injection E as <-. unfold cls.
    rewrite (proj1 (M_hdr _ _ Hdb)), (proj1 (M_hdr _ _ Hl)). cbn [a_inner].
    destruct (a_inner m) eqn:Ei; [|auto]. f_equal. unfold merge_spec in Hspec. rewrite Ei in Hspec.
    cbn in Hb. unfold inner_ok in Hb. destruct (a_slots m) as [|s0 tl] eqn:Es; [destruct Hb|].
    destruct Hb as ((_ & c & Hc) & _). rewrite (M_child db m 0 s0 c); auto; [|now rewrite Es].
    eapply M_child; [exact Hl|reflexivity|cbn; now rewrite Hspec|auto].
Qed.

(** ** Pages and their places *)
Section Places.
Context (s : mcfg) (Ls : list lvl) (V : minv s Ls).
Let HT : dtree Ls (mrt s) := v_tree _ _ _ V.
Let HF : hinv (mch s) (mfr s) [] (concat Ls) := v_heap _ _ _ V.

Lemma page_place a d : mch s a = Some d -> exists U L1 n L2 D, Ls = U ++ (L1 ++ (a, n) :: L2) :: D /\
  mrep d n /\ node_wf false (innerb D) (lasthi NegInf L1) n /\ level false (innerb D) (L1 ++ (a, n) :: L2).
Proof.
  intros Hd.
  assert (Hin : In a (map fst (concat Ls))).
  { pose proof (proj1 (hi_dom _ _ _ _ _ HF a)) as Q. rewrite app_nil_r in Q. apply Q. congruence. }
  apply in_map_iff in Hin as ([a' n] & Ea & Hin). cbn in Ea. subst a'.
  destruct (hinv_get _ _ _ _ _ a n HF Hin) as (d' & Hd' & Hr).
  assert (d' = d) by congruence. subst d'.
  apply in_concat in Hin as (L & HL & Ha). apply in_split in HL as (U & D & EL).
  apply in_split in Ha as (L1 & L2 & ->). exists U, L1, n, L2, D. split; [auto|]. split; [auto|].
  rewrite EL in HT. apply dtree_app in HT as (_ & HD & _). apply mdn_level in HD. split; [|auto].
  now destruct (seg_wf _ _ _ _ _ _ _ _ _ HD).
Qed.

Lemma page_body a d : mch s a = Some d -> exists n, mrep d n /\ body_ok (a_inner n) (a_slots n).
Proof.
  intros Hd. destruct (page_place a d Hd) as (U & L1 & n & L2 & D & _ & Hr & Hw & _). exists n. split; [auto|].
  rewrite (nw_inner _ _ _ _ Hw). apply (nw_body _ _ _ _ Hw).
Qed.

Lemma page_gone a : mch s a = None -> hgt Ls a = 0.
Proof.
  intros Hd.
  assert (Hn : ~ In a (map fst (concat Ls))).
  { intros Hi. pose proof (proj2 (hi_dom _ _ _ _ _ HF a)) as Q. rewrite app_nil_r in Q. now apply Q. }
  clear - Hn. induction Ls as [|L D IH]; cbn; [auto|]. cbn in Hn. rewrite map_app, in_app_iff in Hn.
  destruct (in_dec _ _ _); tauto.
Qed.

Lemma page_leaf a d : mch s a = Some d -> mn_inner d = false -> hgt Ls a = 1.
Proof.
  intros Hd Hi. destruct (page_place a d Hd) as (U & L1 & n & L2 & D & EL & Hr & Hw & _).
  rewrite (proj1 (M_hdr _ _ Hr)), (nw_inner _ _ _ _ Hw) in Hi. destruct D; [|discriminate].
  rewrite EL. apply (hgt_at a U (L1 ++ (a, n) :: L2) []).
  - pose proof (nodup_tree fx s Ls V) as Q. rewrite EL in Q. exact Q.
  - rewrite map_app. apply in_or_app. right. now left.
Qed.

Lemma page_first a d : mch s a = Some d -> mn_inner d = true ->
  exists c, mn_child d 0 = Some c /\ parent Ls a c /\ mch s c <> None.
Proof.
  intros Hd Hi. destruct (page_place a d Hd) as (U & L1 & n & L2 & D & EL & Hr & Hw & _).
  assert (HD : innerb D = true).
  { now rewrite <- (nw_inner _ _ _ _ Hw), <- (proj1 (M_hdr _ _ Hr)). }
  destruct D as [|C D]; [discriminate|]. pose proof (nw_body _ _ _ _ Hw) as Hb. cbn in Hb.
  unfold inner_ok in Hb. destruct (a_slots n) as [|s0 tl] eqn:Es; [destruct Hb|].
  destruct Hb as ((_ & c & Hc) & _). exists c.
  assert (Hp : parent Ls a c).
  { exists U, (L1 ++ (a, n) :: L2), C, D, n. split; [auto|]. split; [apply in_or_app; right; now left|].
    rewrite Es. left. unfold kid. now rewrite Hc. }
  split.
  - eapply M_child; [exact Hr| |now rewrite Es|auto]. now rewrite (nw_inner _ _ _ _ Hw).
  - split; [auto|]. destruct Hp as (U' & L' & C' & D' & n' & EL' & Ha & Hk).
    apply (hi_dom _ _ _ _ _ HF). rewrite app_nil_r, EL', concat_app. cbn [concat].
    rewrite !map_app, !in_app_iff. rewrite EL' in HT. rewrite <- (kids_level _ _ _ _ _ HT).
    right. right. left. apply in_flat_map. exists (a, n'). auto.
Qed.

(** The child a concrete node names at a position. *)
Lemma page_named a d pos b : mch s a = Some d -> mn_inner d = true -> pos < mn_rc d ->
  mn_child d pos = Some b -> parent Ls a b.
Proof.
  intros Hd Hi Hp Hc. destruct (page_place a d Hd) as (U & L1 & n & L2 & D & EL & Hr & Hw & _).
  destruct (M_hdr _ _ Hr) as (I & _ & _ & Hrc).
  assert (HD : innerb D = true) by now rewrite <- (nw_inner _ _ _ _ Hw), <- I.
  destruct D as [|C D]; [discriminate|].
  destruct (nth_error (a_slots n) pos) as [sl|] eqn:En; [|apply nth_error_None in En; lia].
  assert (Hsl : In sl (a_slots n)) by (eapply nth_error_In; eauto).
  pose proof (inner_kid _ _ _ _ Hw Hsl) as Hk.
  rewrite (M_child d n pos sl (kid sl) Hr) in Hc; auto; [|now rewrite (nw_inner _ _ _ _ Hw)].
  injection Hc as <-. exists U, (L1 ++ (a, n) :: L2), C, D, n. split; [auto|].
  split; [apply in_or_app; right; now left|]. now apply in_map.
Qed.

Lemma page_pos a : mch s a <> None -> 0 < hgt Ls a.
Proof.
  destruct (mch s a) as [d|] eqn:Hd; [|congruence]. intros _. destruct (mn_inner d) eqn:Hi.
  - destruct (page_first a d Hd Hi) as (c & _ & Hp & _).
    rewrite (parent_hgt _ _ HT (nodup_tree fx s Ls V) _ _ Hp). lia.
  - rewrite (page_leaf a d Hd Hi). lia.
Qed.
End Places.

(** ** A step keeps the places of the pages *)
Definition alike (s s' : mcfg) : Prop := forall x, x < mfr s ->
  match mch s x, mch s' x with
  | None, Some _ => False
  | Some d, Some d' => cls d' = cls d
  | _, None => True
  end.

Lemma alike_hgt s Ls s' Ls' : minv s Ls -> minv s' Ls' -> alike s s' -> forall x,
  mch s x <> None -> mch s' x <> None -> hgt Ls' x = hgt Ls x.
Proof.
  intros V V' HA x. remember (hgt Ls x) as m eqn:Em. revert x Em.
  induction m as [m IH] using (well_founded_induction lt_wf). intros x -> Hx Hx'.
  assert (Hlt : x < mfr s) by (apply (hi_fresh _ _ _ _ _ (v_heap _ _ _ V)); auto).
  pose proof (HA x Hlt) as Hc. destruct (mch s x) as [d|] eqn:Hd; [|congruence].
  destruct (mch s' x) as [d'|] eqn:Hd'; [|congruence]. unfold cls in Hc.
  destruct (mn_inner d) eqn:Hi, (mn_inner d') eqn:Hi'; try discriminate.
  - destruct (page_first s Ls V x d Hd Hi) as (c & Ec & Hp & Hn).
    destruct (page_first s' Ls' V' x d' Hd' Hi') as (c' & Ec' & Hp' & Hn').
    rewrite Ec, Ec' in Hc. injection Hc as ->.
    pose proof (parent_hgt _ _ (v_tree _ _ _ V) (nodup_tree fx s Ls V) _ _ Hp) as E1.
    rewrite (parent_hgt _ _ (v_tree _ _ _ V') (nodup_tree fx s' Ls' V') _ _ Hp').
    rewrite E1. f_equal. apply (IH (hgt Ls c)); auto. lia.
  - now rewrite (page_leaf s Ls V x d Hd Hi), (page_leaf s' Ls' V' x d' Hd' Hi').
Qed.

Lemma alike_le s Ls s' Ls' : minv s Ls -> minv s' Ls' -> alike s s' -> forall x, x < mfr s ->
  hgt Ls' x <= hgt Ls x.
Proof.
  intros V V' HA x Hx. destruct (mch s' x) as [d'|] eqn:Hd'.
  - rewrite (alike_hgt s Ls s' Ls' V V' HA x); [auto| |congruence].
    intros Hn. pose proof (HA x Hx) as Hc. now rewrite Hn, Hd' in Hc.
  - rewrite (page_gone s' Ls' V' x Hd'). lia.
Qed.

Definition hal (f : addr) (h h' : addr -> option mn) : Prop := forall x, x < f ->
  match h x, h' x with
  | None, Some _ => False
  | Some d, Some d' => cls d' = cls d
  | _, None => True
  end.
Lemma hal_refl f h : hal f h h.
Proof. intros x _. now destruct (h x). Qed.
Lemma hal_set f h h' a d d' : h a = Some d -> cls d' = cls d -> hal f h h' -> hal f h (upd h' a (Some d')).
Proof.
  intros Ha Hc H x Hx. unfold upd. destruct (Nat.eqb_spec x a) as [->|]; [now rewrite Ha|now apply H].
Qed.
Lemma hal_new f h h' b v : f <= b -> hal f h h' -> hal f h (upd h' b v).
Proof. intros Hb H x Hx. unfold upd. destruct (Nat.eqb_spec x b) as [->|]; [lia|now apply H]. Qed.
Lemma hal_free f h h' a : hal f h h' -> hal f h (upd h' a None).
Proof. intros H x Hx. unfold upd. destruct (Nat.eqb_spec x a) as [->|]; [now destruct (h a)|now apply H]. Qed.
Lemma hal_alike s s' : hal (mfr s) (mch s) (mch s') -> alike s s'.
Proof. auto. Qed.

Ltac minv_step H :=
  repeat match type of H with
  | kbind ?o _ = KOk _ _ => destruct o eqn:?; [cbn [kbind] in H | discriminate H]
  | (if ?b then _ else _) = KOk _ _ => destruct b eqn:?
  | KBlock = _ => discriminate H
  | match ?l with [] => _ | _ :: _ => _ end = KOk _ _ => destruct l eqn:?
  end; try discriminate H; injection H as <- <-.

Lemma spx_facts (rd : addr -> bool) s Ls t c a b pos m m0 p k m1 : minv s Ls -> mth s t = MSpX c a b pos ->
  mch s a = Some m -> mch s b = Some m0 -> mn_split m0 (mfr s) (mn_new (mn_inner m0)) = Some p ->
  mn_highkey (fst p) = Some k -> mn_insert_child m (mfr s) k pos = Some m1 ->
  cls (fst p) = cls m0 /\ cls m1 = cls m /\ mn_inner m1 = true /\ mn_child m1 (pos + 1) = Some (mfr s) /\ pos + 1 < mn_rc m1.
Proof.
  intros V E Ha Hb Hs Hk Hi. pose proof (v_pc _ _ _ V t) as Hp. rewrite E in Hp. cbn [pcok] in Hp.
  destruct Hp as (HP & (m' & Hm' & Hsp)). change (downP Ls (mch s) c a b pos) in HP.
  destruct (down_ab fx s Ls V c a b pos HP) as (U & L1 & n & L2 & s1 & s0 & s2 & C1 & nb & C2 & D & d & db & EL & Epos & CX &
    Hd & Hn & Hrd & Hin & Er & Hdb & Hmb & Hab & HF2).
  assert (d = m) by congruence. assert (db = m0) by congruence. assert (m' = m0) by congruence. subst.
  destruct (cls_split m0 nb _ p Hmb (cx_body _ _ _ _ _ _ _ _ _ _ _ _ _ CX) Hsp Hs) as (Q1 & _ & _ & sep & Hh & Hv).
  assert (sep = k) by congruence. subst sep.
  pose proof (cx_wp _ _ _ _ _ _ _ _ _ _ _ _ _ CX) as Hwp.
  destruct (cls_insert_child m n s1 s0 s2 (mfr s) k m1 Hn (nw_inner _ _ _ _ Hwp) (nw_body _ _ _ _ Hwp)
              (cx_sl _ _ _ _ _ _ _ _ _ _ _ _ _ CX) Hv Hrd Hi) as (Q2 & Q3 & Q4).
  split; [auto|]. split; [auto|]. split; [|auto].
  unfold cls in Q2. rewrite Hin in Q2. destruct (mn_inner m1); [auto|discriminate].
Qed.

Lemma step_alike rd s Ls t l s' : minv s Ls -> mstepr fx rd t s = KOk l s' -> alike s s'.
Proof.
  intros V H. pose proof (v_pc _ _ _ V t) as Hp. apply hal_alike.
  unfold mstepr in H.
  destruct (mth s t) eqn:E; cbv zeta in H; minv_step H;
    cbn [m_goto m_x m_root m_free m_own m_set m_new m_clean m_lockS m_unlockS mrt mfr mch msh msx mxl mth mpg mtr];
    try apply hal_refl.
  all: cbn [pcok] in Hp.
  - destruct p as [b o]. cbn [snd]. destruct o as [d'|]; [|apply hal_refl]. cbn [m_clean m_set mch].
    destruct (page_body s Ls V a m Heqo) as (n & Hr & Hb). eapply hal_set; [eassumption| |apply hal_refl].
    exact (cls_need_split m n b (Some d') Hr Hb Heqo0).
  - destruct p as [b o]. cbn [snd]. destruct o as [d'|]; [|apply hal_refl]. cbn [m_clean m_set mch].
    destruct (page_body s Ls V a m Heqo) as (n & Hr & Hb). eapply hal_set; [eassumption| |apply hal_refl].
    exact (cls_need_split m n b (Some d') Hr Hb Heqo0).
  - apply hal_free, hal_refl.
  - destruct (page_body s Ls V a m Heqo) as (n & Hr & Hb).
    destruct Hp as (_ & _ & (m' & Hm' & Hsp)). assert (m' = m) by congruence. subst m'.
    destruct (cls_split m n _ p Hr Hb Hsp Heqo0) as (Hc & _).
    destruct b; cbn [m_own m_root m_set m_new mch mfr]; (eapply hal_set; [eassumption|exact Hc|]);
      repeat (apply hal_new; [lia|]); apply hal_refl.
  - destruct Hp as (Hc & Ho & Hrm).
    destruct (page_place s Ls V a m Heqo) as (U & L1 & n & L2 & D & _ & Hr & Hw & _).
    eapply hal_set; [eassumption| |apply hal_refl].
    assert (Hi : a_inner n = false) by now rewrite <- (proj1 (M_hdr _ _ Hr)).
    pose proof (nw_body _ _ _ _ Hw) as Hb. rewrite <- (nw_inner _ _ _ _ Hw), Hi in Hb.
    eapply cls_leaf; eauto; [apply Hc|apply Hc|]. destruct Hrm as (m' & Hm' & Hrm). congruence.
  - destruct p as [b' o]. cbn [snd]. destruct o as [d'|]; [|apply hal_refl]. cbn [m_clean m_set mch].
    destruct (page_body s Ls V b m Heqo) as (n & Hr & Hb). eapply hal_set; [eassumption| |apply hal_refl].
    exact (cls_need_split m n b' (Some d') Hr Hb Heqo0).
  - destruct p as [b' o]. cbn [snd]. destruct o as [d'|]; [|apply hal_refl]. cbn [m_clean m_set mch].
    destruct (page_body s Ls V b m0 Heqo0) as (n & Hr & Hb). eapply hal_set; [eassumption| |apply hal_refl].
    exact (cls_need_merge m0 n b' (Some d') Hr Hb Heqo1).
  - destruct p as [b' o]. cbn [snd]. destruct o as [d'|]; [|apply hal_refl]. cbn [m_clean m_set mch].
    destruct (page_body s Ls V b m0 Heqo0) as (n & Hr & Hb). eapply hal_set; [eassumption| |apply hal_refl].
    exact (cls_need_merge m0 n b' (Some d') Hr Hb Heqo1).
  - destruct (spx_facts rd s Ls t c a b pos m m0 p k m1 V E Heqo Heqo0 Heqo1 Heqo2 Heqo3) as (Q1 & Q2 & _).
    destruct b0; cbn [m_own m_root m_set m_new mch mfr]; (eapply hal_set; [eassumption|exact Q2|]);
      (eapply hal_set; [eassumption|exact Q1|]); (apply hal_new; [lia|]); apply hal_refl.
  - destruct Hp as (HP & Hrb & (d' & db' & dr & Hd' & Hdb' & Hdr & Hch & Hrc & Hcm)).
    change (downP Ls (mch s) c a b pos) in HP.
    destruct (down_ab fx s Ls V c a b pos HP) as (U & L1 & n & L2 & s1 & s0 & s2 & C1 & nb & C2 & D & d & db & EL & Epos & CX &
      Hd & Hn & Hrd & Hin & Er & Hdb & Hmb & Hab & HF2).
    assert (d' = m) by congruence. assert (d = m) by congruence. assert (db' = m0) by congruence.
    assert (db = m0) by congruence. assert (dr = m1) by congruence. subst.
    destruct (right_core _ _ _ _ _ _ _ _ _ _ _ _ _ CX m Hn) as [[Hrc' _]|(r' & nr & C2' & s' & s2' & _ & Hs2 & HC2 & Hr)];
      [congruence|].
    rewrite Hch in Hr. injection Hr as <-.
    pose proof (cx_wp _ _ _ _ _ _ _ _ _ _ _ _ _ CX) as Hwp.
    apply hal_free. eapply hal_set; [eassumption| |].
    + eapply cls_delete_child; [exact Hn|apply (nw_inner _ _ _ _ Hwp)|apply (nw_body _ _ _ _ Hwp)| |eassumption].
      rewrite (cx_sl _ _ _ _ _ _ _ _ _ _ _ _ _ CX), Hs2. reflexivity.
    + eapply hal_set; [eassumption| |apply hal_refl].
      pose proof (cx_C _ _ _ _ _ _ _ _ _ _ _ _ _ CX) as HC. rewrite HC2 in HC, HF2.
      destruct (hinv_get _ _ _ _ _ r nr HF2) as (dr & Hdr' & Hmr).
      { right. right. rewrite !in_app_iff. cbn. tauto. }
      assert (dr = m1) by congruence. subst dr. eapply cls_merge; eauto.
Qed.

(** ** How far a call has still to go *)
Definition pre (p : mpc) : nat :=
  match p with MR0 _ | MW0 _ => 3 | MR1 _ | MW1 _ => 2 | _ => 0 end.
Definition rank (Ls : list lvl) (p : mpc) : nat :=
  match p with
  | MRd _ a => 16 * hgt Ls a + 1
  | MShr _ a => 16 * hgt Ls a + 15
  | MShrX _ a => 16 * hgt Ls a + 14
  | MRs _ a => 16 * hgt Ls a + 13
  | MRsX _ a => 16 * hgt Ls a + 12
  | MWd _ a => 16 * hgt Ls a + 11
  | MCh _ a _ _ => 16 * hgt Ls a + 10
  | MCm _ a _ _ => 16 * hgt Ls a + 9
  | MSp _ a _ _ => 16 * hgt Ls a + 8
  | MSpX _ a _ _ => 16 * hgt Ls a + 7
  | MMg _ a _ _ => 16 * hgt Ls a + 6
  | MMg1 _ a _ _ _ => 16 * hgt Ls a + 5
  | MMg2 _ a _ _ _ => 16 * hgt Ls a + 4
  | MMg3 _ a _ _ _ => 16 * hgt Ls a + 3
  | MRet _ => 1
  | _ => 0
  end.

(** A step of somebody else takes nobody up. *)
Lemma rank_other s Ls s' Ls' u : minv s Ls -> minv s' Ls' -> alike s s' ->
  rank Ls' (mth s u) <= rank Ls (mth s u).
Proof.
  intros V V' HA. pose proof (alike_le s Ls s' Ls' V V' HA) as HL.
  pose proof (fun a => pcok_lt fx s Ls u a V) as HP.
  destruct (mth s u) eqn:E; cbn [rank]; auto; cbn [shl sxl In] in HP;
    match goal with |- context [hgt Ls ?a] => specialize (HL a ltac:(apply HP; cbn; tauto)) end; lia.
Qed.

Ltac rise HB :=
  repeat match goal with Q : mch _ ?a = Some ?d |- _ =>
    lazymatch goal with _ : hgt _ a <= hgt _ a /\ _ |- _ => fail | _ => pose proof (HB a d Q) end end.

(** A step of a call: it starts, or comes closer to the root, or goes down. *)
Lemma step_rank rd s Ls t l s' Ls' : minv s Ls -> mstepr fx rd t s = KOk l s' -> minv (m_emit s' l) Ls' ->
  (forall u, u <> t -> mth s' u = mth s u) /\
  ((exists c cs, mth s t = MIdle /\ mpg s t = c :: cs /\ mpg s' = supd (mpg s) t cs /\ pre (mth s' t) = 3) \/
   (mth s t <> MIdle /\ mpg s' = mpg s /\
    (pre (mth s' t) < pre (mth s t) \/
     (pre (mth s t) = 0 /\ pre (mth s' t) = 0 /\ rank Ls' (mth s' t) < rank Ls (mth s t))))).
Proof.
  intros V H V'. pose proof (step_alike rd s Ls t l s' V H) as HA.
  pose proof (alike_hgt s Ls _ Ls' V V' HA) as HH. cbn [m_emit mch] in HH.
  pose proof (v_pc _ _ _ V t) as Hp.
  assert (HT := v_tree _ _ _ V). assert (HF := v_heap _ _ _ V). assert (HN := nodup_tree fx s Ls V).
  assert (HP1 : forall a b, parent Ls a b -> hgt Ls a = S (hgt Ls b)) by (intros; eapply parent_hgt; eauto).
  assert (HG := page_gone (m_emit s' l) Ls' V'). cbn [m_emit mch] in HG.
  assert (HLe := alike_le s Ls _ Ls' V V' HA).
  assert (Hlt := hi_fresh _ _ _ _ _ HF).
  assert (HB : forall x d, mch s x = Some d -> hgt Ls' x <= hgt Ls x /\ 0 < hgt Ls x).
  { intros x d Hx. assert (Hn : mch s x <> None) by congruence. split; [apply HLe, Hlt, Hn|].
    exact (page_pos s Ls V x Hn). }
  unfold mstepr in H.
  destruct (mth s t) eqn:E; cbv zeta in H; minv_step H.
  all: split; [intros u Hu;
    repeat match goal with |- context [if ?b then _ else _] => destruct b end;
    cbn [m_goto m_x m_root m_free m_own m_set m_new m_lockS m_unlockS mth];
    unfold m_clean; repeat match goal with |- context [match ?o with None => _ | _ => _ end] => destruct o end;
    now apply supd_diff|].
  all: cbn [pcok] in Hp.
  (* the first step of a call *)
  { left. exists c, l0. repeat split; auto. cbn [mth]. rewrite supd_same. now destruct (is_read c). }
  all: right; split; [congruence|];
    split; [repeat match goal with |- context [if ?b then _ else _] => destruct b end;
      cbn [m_goto m_x m_root m_free m_own m_set m_new m_lockS m_unlockS mpg];
      unfold m_clean; repeat match goal with |- context [match ?o with None => _ | _ => _ end] => destruct o end; auto|].
  all: cbn [m_goto mth]; rewrite supd_same; cbn [pre rank].
  all: try (left; lia).
  all: right; split; [reflexivity|].
  all: split; [repeat match goal with |- context [if ?b then _ else _] => destruct b end; reflexivity|].
  (* on the same page, or to the result *)
  all: try (rise HB; lia).
  all: try (rise HB; destruct (fst _); cbn [rank]; lia).
  all: pose proof (fun a => pcok_lt fx s Ls t a V) as HPL; rewrite E in HPL; cbn [shl sxl In] in HPL.
  - destruct Hp as (Hc & _ & _ & [[_ Hn]|[_ Ho]]); [congruence|]. destruct p as [pos b]. cbn [snd] in *.
    pose proof (HP1 _ _ (route_parent fx s Ls V c a m pos b (proj2 Hc) Ho Heqo Heqb Heqo0)). rise HB. lia.
  - destruct Hp as (_ & _ & (m' & Hm' & _ & Hi)). assert (m' = m) by congruence. subst m'.
    destruct (page_first s Ls V a m Heqo Hi) as (b & Hb & Hpar & _). rewrite Heqo0 in Hb. injection Hb as <-.
    pose proof (HP1 _ _ Hpar). rise HB. lia.
  - pose proof (HLe a ltac:(apply HPL; tauto)). lia.
  - assert (Ha : hgt Ls' a = hgt Ls a).
    { apply HH; [congruence|]. destruct b; cbn [m_goto m_own m_root m_set m_new mch]; rewrite upd_same; discriminate. }
    destruct b; [lia|]. rewrite <- Ha.
    assert (HR : mch (m_emit (m_goto (m_own (m_own (m_own (m_root (m_set (m_new (m_new s (snd p)) m0) a (fst p))
                   (S (mfr s))) (mfr s) (Some t)) a None) 0 None) t (MWd c (mfr s))) LTau) (S (mfr s)) = Some m0).
    { cbn [m_emit m_goto m_own m_root m_set m_new mch mfr]. rewrite upd_diff by (apply not_eq_sym; pose proof (Hlt a ltac:(congruence)); lia).
      apply upd_same. }
    destruct (page_body s Ls V a m Heqo) as (n & Hr & Hb).
    destruct Hp as (_ & _ & (m' & Hm' & Hsp)). assert (m' = m) by congruence. subst m'.
    destruct (cls_split m n _ p Hr Hb Hsp Heqo0) as (_ & _ & _ & sep & Hsep & Hv).
    assert (sep = k) by congruence. subst sep.
    destruct (M_root2 k a (mfr s) Hv) as (dn & s0 & En & Hrn). assert (dn = m0) by congruence. subst dn.
    destruct (M_hdr _ _ Hrn) as (I1 & _ & _ & I2). cbn in I1, I2.
    pose proof (parent_hgt _ _ (v_tree _ _ _ V') (nodup_tree fx _ Ls' V') _ _
      (page_named _ Ls' V' (S (mfr s)) m0 0 a HR I1 ltac:(lia) (M_child m0 _ 0 _ a Hrn eq_refl eq_refl eq_refl))).
    pose proof (parent_hgt _ _ (v_tree _ _ _ V') (nodup_tree fx _ Ls' V') _ _
      (page_named _ Ls' V' (S (mfr s)) m0 1 (mfr s) HR I1 ltac:(lia) (M_child m0 _ 1 _ (mfr s) Hrn eq_refl eq_refl eq_refl))).
    lia.
  - pose proof (HLe a ltac:(apply HPL; tauto)). destruct (fst p); cbn [rank]; lia.
  - destruct Hp as (HP & _). change (downP Ls (mch s) c a b pos) in HP.
    pose proof (HP1 _ _ (down_parent fx s Ls V c a b pos HP)). rise HB. lia.
  - destruct (spx_facts rd s Ls t c a b pos m m0 p k m1 V E Heqo Heqo0 Heqo1 Heqo2 Heqo3) as (_ & _ & Q1 & Q2 & Q3).
    destruct Hp as (HP & _). change (downP Ls (mch s) c a b pos) in HP.
    pose proof (HP1 _ _ (down_parent fx s Ls V c a b pos HP)) as Hab. destruct b0; [rise HB; lia|].
    assert (HR : mch (m_emit (m_goto (m_own (m_own (m_own (m_set (m_set (m_new s (snd p)) b (fst p)) a m1) a None)
                   (mfr s) (Some t)) b None) t (MWd c (mfr s))) LTau) a = Some m1).
    { cbn [m_emit m_goto m_own m_root m_set m_new mch mfr]. apply upd_same. }
    pose proof (parent_hgt _ _ (v_tree _ _ _ V') (nodup_tree fx _ Ls' V') _ _
      (page_named _ Ls' V' a m1 (pos + 1) (mfr s) HR Q1 Q3 Q2)). rise HB. lia.
  - destruct Hp as (HP & _). change (downP Ls (mch s) c a b pos) in HP.
    pose proof (HP1 _ _ (down_parent fx s Ls V c a b pos HP)). rise HB. lia.
  - pose proof (HLe a ltac:(apply HPL; tauto)). lia.
  - destruct Hp as (HP & _). change (downP Ls (mch s) c a b pos) in HP.
    pose proof (HP1 _ _ (down_parent fx s Ls V c a b pos HP)). rise HB. lia.
Qed.
End MTerm.
