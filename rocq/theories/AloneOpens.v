(** Executions without overlap: Scan returns.  This file is proof-side only. *)
From Coq Require Import List Arith Bool Lia Sorted.
From Verif Require Import Params Mem Common Spec ConcSpec ScanSpec NodeAbs SLIface BaseIface MLIface
  IterModel IterProofs TreeState Levels TreeHeap LevelOps SLModel SLSearch SLProofs MLModel MLSearch MLSteps
  ConcModel ConcLin ConcInv MConcModel MConcInv MConcSteps MConcMain OLaws OConcModel OConcInv OConcSteps
  OConcMain OConcCalm CScanModel CScanLin CScanProofs MScanModel MScanProofs MLeak OScanModel OScanProofs
  OScanMain SeqHist AloneModel AloneProofs AloneExact AloneEnds.
Import ListNotations.

Section AloneOpens.
Context {P : Params} {O : OrdLaws P} {N : MLOps P} {LW : MLLaws P N} {OW : OMLaws P N LW}.
#[local] Existing Instance base_of_ml.
#[local] Existing Instance base_laws_of_ml.
#[local] Existing Instance no_leak.

(** The page of level [L] where a scan from [lo] passes. *)
Definition onlv (lo : bound) (L : lvl) (a : addr) : Prop :=
  match lo with
  | Some (key, _) => fnd NegInf key L = a
  | None => exists n L', L = (a, n) :: L'
  end.

(** The pages of a tree nobody is changing. *)
Definition pages (b : ocfg) (F : lvl) : Prop :=
  forall a A, In (a, A) F -> exists d, och b a = Some d /\ mrep d A /\ mn_removed d = false.

Lemma quiet_pages w s z Ls hv lw : usim s z -> uinv true z Ls hv lw -> wok w s lw -> (forall t, w <> InCall t) ->
  pages (ub s) (concat Ls).
Proof.
  intros S Q W Hw a A Hin. pose proof (u_base _ _ _ _ _ Q) as V.
  destruct (hinv_get _ _ _ _ _ a A (i_heap _ _ _ _ V) Hin) as (d & Hd & Hr).
  destruct (i_inn _ _ _ _ V a d Hd) as (n & En & _).
  destruct (mn_removed n) eqn:Er; [rewrite (i_dead _ _ _ _ V a n En Er) in Hd; discriminate|].
  assert (Hn : hv a = Some n).
  { apply (i_live _ _ _ _ V a n En Er). intros x. 
    rewrite (proj2 (sim_idle _ _ x (us_base _ _ S)) (w_call _ _ _ W x (Hw x))). cbn. tauto. }
  assert (n = d) by congruence. subst n. exists d. rewrite <- (same_pages w s z lw S W Hw a). auto.
Qed.

Lemma down b lo L C D a : mdn L (C :: D) -> pages b (concat (L :: C :: D)) -> mvb lo -> onlv lo L a ->
  exists n, och b a = Some n /\ mn_inner n = true /\ mn_removed n = false /\
    match lo with
    | Some (key, _) => oin n key = Some true /\ exists pos c, routep n key = Some (pos, c) /\ onlv lo C c
    | None => exists c, mn_child n 0 = Some c /\ onlv lo C c
    end.
Proof.
  intros (HL & HE & HD) Hp Vlo Ho. destruct lo as [[key cl]|]; cbn [onlv] in *.
  - destruct (ctx_find (innerb D) L C key HL (mdn_level _ _ HD) HE)
      as (L1 & p & n & L2 & s1 & s & s2 & C1 & x & m & C2 & -> & -> & CX).
    rewrite (cx_fp _ _ _ _ _ _ _ _ _ _ _ _ _ CX) in Ho. subst p.
    destruct (Hp a n) as (d & Hd & Hr & Hrm).
    { cbn [concat]. rewrite !in_app_iff. left. right. now left. }
    pose proof (cx_wp _ _ _ _ _ _ _ _ _ _ _ _ _ CX) as Hw.
    exists d. split; [auto|]. split; [rewrite (proj1 (M_hdr _ _ Hr)); apply (nw_inner _ _ _ _ Hw)|]. split; [auto|].
    destruct (cx_search _ _ _ _ _ _ _ _ _ _ _ _ _ CX d Hr (Vlo key cl eq_refl)) as (rc & Hs & Hc).
    split.
    + unfold oin. rewrite Hrm. pose proof (M_comphigh _ _ key Hr) as Hh. rewrite Hh. f_equal.
      destruct (lvl_find _ _ _ key HL) as (L1' & a' & n' & L2' & El & Hf & Hrg).
      rewrite (cx_fp _ _ _ _ _ _ _ _ _ _ _ _ _ CX) in Hf.
      pose proof (cx_hi_le _ _ _ _ _ _ _ _ _ _ _ _ _ CX) as Hle.
      pose proof (elt_ele_trans _ _ _ (proj2 (cx_rc _ _ _ _ _ _ _ _ _ _ _ _ _ CX)) Hle) as Hlt.
      destruct (match a_high n with Some h => ltb key h | None => true end) eqn:Eb; [auto|].
      pose proof (comphigh_range d n key false Hr ltac:(now rewrite Hh)) as Hx. exfalso.
      eapply elt_irrefl. eapply elt_ele_trans; [exact Hlt|exact Hx].
    + exists (length s1), x. split; [unfold routep; now rewrite Hs, Hc|].
      apply (cx_fc _ _ _ _ _ _ _ _ _ _ _ _ _ CX).
  - destruct Ho as (n & L' & ->). destruct (Hp a n) as (d & Hd & Hr & Hrm); [now left|].
    change ((a, n) :: L') with ([] ++ (a, n) :: L') in HL.
    destruct (seg_wf _ _ _ _ _ _ _ _ _ HL) as (Hw & _).
    pose proof (nw_inner _ _ _ _ Hw) as Hi. exists d. split; [auto|].
    split; [now rewrite (proj1 (M_hdr _ _ Hr))|]. split; [auto|].
    pose proof (nw_body _ _ _ _ Hw) as Hb. cbn in Hb. cbn [kents] in HE.
    destruct (a_slots n) as [|s0 tl0] eqn:Es; [destruct Hb|]. cbn [sents app] in HE.
    destruct C as [|[c m] C']; [discriminate|]. cbn [entries] in HE. injection HE as Hk _.
    exists c. split; [|eauto]. eapply M_child; [exact Hr|exact Hi|rewrite Es; reflexivity|].
    rewrite <- Hk. eapply inner_kid; [exact Hw|]. rewrite Es. now left.
Qed.

Lemma bottom b lo L a : mdn L [] -> pages b L -> onlv lo L a ->
  exists n, och b a = Some n /\ mn_inner n = false /\ match lo with Some (key, _) => oin n key = Some true | None => True end.
Proof.
  intros HL Hp Ho. cbn [mdn] in HL. destruct lo as [[key cl]|]; cbn [onlv] in Ho.
  - destruct (lvl_find _ _ _ key HL) as (L1 & x & n & L2 & -> & Hf & Hrg). rewrite Hf in Ho. subst x.
    destruct (Hp a n) as (d & Hd & Hr & Hrm). { rewrite in_app_iff. right. now left. }
    destruct (seg_wf _ _ _ _ _ _ _ _ _ HL) as (Hw & _).
    exists d. split; [auto|]. split; [rewrite (proj1 (M_hdr _ _ Hr)); apply (nw_inner _ _ _ _ Hw)|].
    unfold oin. rewrite Hrm. pose proof (M_comphigh _ _ key Hr) as Hh. rewrite Hh. f_equal.
    destruct (match a_high n with Some h => ltb key h | None => true end) eqn:Eb; [auto|].
    pose proof (comphigh_range d n key false Hr ltac:(now rewrite Hh)) as Hx. exfalso.
    eapply elt_irrefl. eapply elt_ele_trans; [exact (proj2 Hrg)|exact Hx].
  - destruct Ho as (n & L' & ->). destruct (Hp a n) as (d & Hd & Hr & Hrm); [now left|].
    change ((a, n) :: L') with ([] ++ (a, n) :: L') in HL.
    destruct (seg_wf _ _ _ _ _ _ _ _ _ HL) as (Hw & _).
    exists d. split; [auto|]. split; [|auto]. rewrite (proj1 (M_hdr _ _ Hr)). apply (nw_inner _ _ _ _ Hw).
Qed.

Lemma scan_on w s z Ls hv lw u : usim s z -> uinv true z Ls hv lw -> wok w s lw -> allowed w (UScan u true) = true ->
  scano_step u true s <> UBlock ->
  exists s1 z1 Ls1 hv1 lw1, ustep false (UScan u true) s = UOk s1 /\ usim s1 z1 /\ uinv true z1 Ls1 hv1 lw1 /\
    wok (moved w (UScan u true) s s1) s1 lw1.
Proof.
  intros S Q W Ha Hb.
  pose proof (step_half w s lw _ W Ha) as H1. pose proof (step_scan w s z Ls hv lw S Q W _ Ha) as H2.
  pose proof (usim_step true s z Ls hv lw _ S Q H1 (fun _ => H2)) as R.
  destruct (ustep false (UScan u true) s) as [s1| |] eqn:E; [|now elim Hb|contradiction].
  destruct R as (z' & Ls' & hv' & lw' & S' & Q' & Hl & _).
  exists s1, z', Ls', hv', lw'. split; [auto|]. split; [auto|]. split; [auto|]. eapply step_wok; eauto.
Qed.

Definition opened u b lo hi (s : ucfg) : Prop :=
  exists n s', urun false s (repeat (UScan u true) n) = Some s' /\
    one_by_one false (InScan u) s (repeat (UScan u true) n) = true /\
    who false (InScan u) s (repeat (UScan u true) n) = Nobody /\
    ub s' = b /\ exists a ver kk pos e ie, uth s' u = ULoop lo hi a ver kk pos e ie [].

Lemma self_allowed u : allowed (InScan u) (UScan u true) = true.
Proof. cbn. apply Nat.eqb_refl. Qed.

Lemma opened_step u b lo hi s s1 : ustep false (UScan u true) s = UOk s1 ->
  moved (InScan u) (UScan u true) s s1 = InScan u -> opened u b lo hi s1 -> opened u b lo hi s.
Proof.
  intros E Hm (n & s' & A & B & C & D). exists (1 + n), s'. cbn [Nat.add repeat urun one_by_one who].
  rewrite E, self_allowed, Hm. auto.
Qed.

Lemma supd_at {A} (f : tid -> A) u x : supd f u x u = x.
Proof. unfold supd. now rewrite Nat.eqb_refl. Qed.

Ltac scan_step u HS HQ HW Eu :=
  match goal with |- opened _ _ _ _ ?s => let Hnb := fresh in
    assert (Hnb : scano_step u true s <> UBlock);
    [unfold scano_step; rewrite Eu; unfold ubind, u_goto; try discriminate;
     repeat (match goal with |- context [match ?x with _ => _ end] => destruct x end; try discriminate)
    |destruct (scan_on _ _ _ _ _ _ u HS HQ HW (self_allowed u) Hnb) as (s1 & z1 & Ls1 & hv1 & lw1 & E1 & S1 & Q1 & W1);
     clear Hnb]
  end.

Lemma end_opens u b lo hi a ver kk pos s z Ls hv lw : usim s z -> uinv true z Ls hv lw -> wok (InScan u) s lw -> ub s = b ->
  uth s u = UEnd lo hi a ver kk pos [] -> opened u b lo hi s.
Proof.
  intros S Q W Eb Eu. scan_step u S Q W Eu.
  pose proof E1 as E. cbn [ustep] in E. unfold scano_step in E. rewrite Eu in E. unfold ubind, u_goto in E.
  destruct (opage (ub s) a) as [n|]; [|discriminate]. destruct (mn_endpos n hi) as [[ie e]|]; [|discriminate].
  injection E as <-. exists 1. eexists. cbn [repeat urun one_by_one who]. rewrite E1, self_allowed. cbn [moved uth].
  rewrite supd_at. split; [reflexivity|]. split; [reflexivity|]. split; [reflexivity|]. split; [exact Eb|].
  cbn [uth]. rewrite supd_at. eauto 8.
Qed.

Lemma pos_opens u b lo hi a ver kk s z Ls hv lw : usim s z -> uinv true z Ls hv lw -> wok (InScan u) s lw -> ub s = b ->
  uth s u = UPos lo hi a ver kk [] -> opened u b lo hi s.
Proof.
  intros S Q W Eb Eu. scan_step u S Q W Eu.
  pose proof E1 as E. cbn [ustep] in E. unfold scano_step in E. rewrite Eu in E. unfold ubind, u_goto in E.
  destruct (opage (ub s) a) as [n|]; [|discriminate]. destruct (first_pos n kk) as [pos|]; [|discriminate].
  injection E as <-. match type of W1 with wok (moved _ _ _ ?s1) _ _ =>
    assert (Hm : moved (InScan u) (UScan u true) s s1 = InScan u) by (cbn [moved uth]; rewrite supd_at; reflexivity) end.
  rewrite Hm in W1. eapply opened_step; [exact E1|exact Hm|].
  eapply end_opens; [exact S1|exact Q1|exact W1|exact Eb|cbn [uth]; apply supd_at].
Qed.

Lemma reset_opens u b lo hi a s z Ls hv lw n : usim s z -> uinv true z Ls hv lw -> wok (InScan u) s lw -> ub s = b ->
  uth s u = UReset lo hi a lo [] -> och b a = Some n -> match lo with Some (key, _) => oin n key = Some true | None => True end ->
  opened u b lo hi s.
Proof.
  intros S Q W Eb Eu En Hin. scan_step u S Q W Eu.
  pose proof E1 as E. cbn [ustep] in E. unfold scano_step in E. rewrite Eu in E. unfold ubind, u_goto in E.
  destruct (opage (ub s) a) as [n'|] eqn:Ep; [|discriminate].
  assert (n' = n). { unfold opage in Ep. rewrite Eb, En in Ep. repeat (match type of Ep with context [match ?x with _ => _ end] => destruct x end; try discriminate); congruence. }
  subst n'. destruct lo as [[key c]|]; [rewrite Hin in E|].
  all: injection E as <-; match type of W1 with wok (moved _ _ _ ?s1) _ _ =>
    assert (Hm : moved (InScan u) (UScan u true) s s1 = InScan u) by (cbn [moved uth]; rewrite supd_at; reflexivity) end;
    rewrite Hm in W1; (eapply opened_step; [exact E1|exact Hm|]).
  - eapply pos_opens; [exact S1|exact Q1|exact W1|exact Eb|cbn [uth]; apply supd_at].
  - eapply end_opens; [exact S1|exact Q1|exact W1|exact Eb|cbn [uth]; apply supd_at].
Qed.

Lemma desc_opens u b lo hi : mvb lo -> forall D L a s z Ls hv lw, mdn L D -> pages b (concat (L :: D)) -> onlv lo L a ->
  usim s z -> uinv true z Ls hv lw -> wok (InScan u) s lw -> ub s = b -> uth s u = UDesc lo hi a -> opened u b lo hi s.
Proof.
  intros Vlo. induction D as [|C D IH]; intros L a s z Ls hv lw HD Hp Ho S Q W Eb Eu.
  - cbn [concat] in Hp. rewrite app_nil_r in Hp. destruct (bottom b lo L a HD Hp Ho) as (n & En & Hi & Hin).
    scan_step u S Q W Eu.
    pose proof E1 as E. cbn [ustep] in E. unfold scano_step in E. rewrite Eu in E. unfold ubind, u_goto in E.
    destruct (opage (ub s) a) as [n'|] eqn:Ep; [|discriminate].
    assert (n' = n). { unfold opage in Ep. rewrite Eb, En in Ep. repeat (match type of Ep with context [match ?x with _ => _ end] => destruct x end; try discriminate); congruence. }
    subst n'. rewrite Hi in E. injection E as <-.
    match type of W1 with wok (moved _ _ _ ?s1) _ _ =>
      assert (Hm : moved (InScan u) (UScan u true) s s1 = InScan u) by (cbn [moved uth]; rewrite supd_at; reflexivity) end.
    rewrite Hm in W1. eapply opened_step; [exact E1|exact Hm|].
    eapply reset_opens; [exact S1|exact Q1|exact W1|exact Eb|cbn [uth]; apply supd_at|exact En|exact Hin].
  - destruct (down b lo L C D a HD Hp Vlo Ho) as (n & En & Hi & Hrm & Hgo).
    assert (Hp' : pages b (concat (C :: D))).
    { intros x A Hx. apply (Hp x A). change (concat (L :: C :: D)) with (L ++ concat (C :: D)). apply in_or_app. now right. }
    scan_step u S Q W Eu.
    pose proof E1 as E. cbn [ustep] in E. unfold scano_step in E. rewrite Eu in E. unfold ubind, u_goto in E.
    destruct (opage (ub s) a) as [n'|] eqn:Ep; [|discriminate].
    assert (n' = n). { unfold opage in Ep. rewrite Eb, En in Ep. repeat (match type of Ep with context [match ?x with _ => _ end] => destruct x end; try discriminate); congruence. }
    subst n'. rewrite Hi in E. destruct HD as (_ & _ & HD).
    destruct lo as [[key c]|].
    + destruct Hgo as (Hin & pos & x & Er & Hx). rewrite Hin, Er in E. cbn [snd] in E. injection E as <-.
      match type of W1 with wok (moved _ _ _ ?s1) _ _ =>
        assert (Hm : moved (InScan u) (UScan u true) s s1 = InScan u) by (cbn [moved uth]; rewrite supd_at; reflexivity) end.
      rewrite Hm in W1. eapply opened_step; [exact E1|exact Hm|].
      eapply (IH C x); [exact HD|exact Hp'|exact Hx|exact S1|exact Q1|exact W1|exact Eb|cbn [uth]; apply supd_at].
    + destruct Hgo as (x & Er & Hx). rewrite Hrm, Er in E. injection E as <-.
      match type of W1 with wok (moved _ _ _ ?s1) _ _ =>
        assert (Hm : moved (InScan u) (UScan u true) s s1 = InScan u) by (cbn [moved uth]; rewrite supd_at; reflexivity) end.
      rewrite Hm in W1. eapply opened_step; [exact E1|exact Hm|].
      eapply (IH C x); [exact HD|exact Hp'|exact Hx|exact S1|exact Q1|exact W1|exact Eb|cbn [uth]; apply supd_at].
Qed.

Lemma root_opens u b lo hi s z Ls hv lw : mvb lo -> usim s z -> uinv true z Ls hv lw -> wok (InScan u) s lw ->
  ub s = b -> uth s u = URoot lo hi -> opened u b lo hi s.
Proof.
  intros Vlo S Q W Eb Eu.
  assert (Hw : forall t, InScan u <> InCall t) by discriminate.
  pose proof (quiet_pages _ _ _ _ _ _ S Q W Hw) as Hp. rewrite Eb in Hp.
  pose proof (i_tree _ _ _ _ (u_base _ _ _ _ _ Q)) as HT.
  assert (Hrt : ort (ub z) = ort (ub s)).
  { apply (m_rt _ _ (us_base _ _ S)). intros x. now rewrite (w_call _ _ _ W x (Hw x)). }
  destruct Ls as [|top D]; [contradiction|]. destruct HT as (HD & HE).
  assert (Ho : onlv lo top (ort (ub s))).
  { rewrite <- Hrt. destruct top as [|[a n] [|[a2 n2] top]]; cbn [entries] in HE; try discriminate. cbn [entries] in HE. injection HE as ->.
    destruct lo as [[key c]|]; cbn [onlv]; [|eauto]. cbn [fnd].
    destruct (mdn_level _ _ HD) as (_ & _ & Hl). cbn in Hl. rewrite Hl.
    destruct (elt_dec (Key key) PosInf) as [|H]; [auto|]. exfalso. apply H. exact Logic.I. }
  scan_step u S Q W Eu.
  pose proof E1 as E. cbn [ustep] in E. unfold scano_step in E. rewrite Eu in E. unfold u_goto in E. injection E as <-.
  match type of W1 with wok (moved _ _ _ ?s1) _ _ =>
    assert (Hm : moved (InScan u) (UScan u true) s s1 = InScan u) by (cbn [moved uth]; rewrite supd_at; reflexivity) end.
  rewrite Hm in W1. eapply opened_step; [exact E1|exact Hm|].
  eapply desc_opens; [exact Vlo|exact HD|exact Hp|exact Ho|exact S1|exact Q1|exact W1|exact Eb|cbn [uth]; apply supd_at].
Qed.

(** ** Executions *)
Theorem alone_opens prog scans sched u s lo hi q :
  (forall t c, In c (prog t) -> mvalid (call_key c)) ->
  (forall x a b, In (a, b) (scans x) -> mvb a /\ mvb b) ->
  one_by_one false Nobody (uinit prog scans) sched = true -> urun false (uinit prog scans) sched = Some s ->
  who false Nobody (uinit prog scans) sched = Nobody ->
  uth s u = UIdle -> uq s u = (lo, hi) :: q ->
  exists n s', urun false (uinit prog scans) (sched ++ repeat (UScan u true) n) = Some s' /\
    one_by_one false Nobody (uinit prog scans) (sched ++ repeat (UScan u true) n) = true /\
    who false Nobody (uinit prog scans) (sched ++ repeat (UScan u true) n) = Nobody /\
    exists a ver kk pos e ie, uth s' u = ULoop lo hi a ver kk pos e ie [].
Proof.
  intros Hp Hs Ho Er Hw Eu Eq.
  destruct (uinit_inv true prog scans Hp Hs) as (Ls & hv & lw & Q).
  destruct (one_state sched Nobody (uinit prog scans) (uinit prog scans) Ls hv lw) with (e := s)
    as (z0 & Ls0 & hv0 & lw0 & S0 & Q0 & W0); auto; [apply usim_init|split; cbn; auto|].
  rewrite Hw in W0.
  assert (Eo : oth (ub s) u = OIdle) by (apply (w_call _ _ _ W0); discriminate).
  destruct (scan_on Nobody s z0 Ls0 hv0 lw0 u S0 Q0 W0 eq_refl) as (s1 & z1 & Ls1 & hv1 & lw1 & E1 & S1 & Q1 & W1).
  { unfold scano_step. rewrite Eu, Eo, Eq. discriminate. }
  pose proof E1 as E. cbn [ustep] in E. unfold scano_step in E. rewrite Eu, Eo, Eq in E.
  assert (Hm : moved Nobody (UScan u true) s s1 = InScan u) by (cbn [moved]; now rewrite Eu).
  rewrite Hm in W1.
  assert (Vlo : mvb lo).
  { assert (Hin : In (lo, hi) (uq z0 u)) by (rewrite (us_q _ _ S0), Eq; now left).
    apply (u_q _ _ _ _ _ Q0 u lo hi Hin). }
  injection E as E. assert (E2 : uth s1 u = URoot lo hi) by (rewrite <- E; cbn [uth]; apply supd_at).
  destruct (root_opens u (ub s1) lo hi s1 z1 Ls1 hv1 lw1 Vlo S1 Q1 W1 eq_refl E2) as (n & s' & A & B & C & _ & D).
  destruct (run_then false (repeat (UScan u true) (1 + n)) sched Nobody _ s Er) as (R1 & R2 & R3).
  rewrite Hw in R2, R3. exists (1 + n), s'. rewrite R1, R2.
  cbn [Nat.add repeat urun one_by_one who] in *. rewrite E1, Hm in *. cbn [allowed andb] in *. auto.
Qed.

(** ** The whole of a scan *)
Lemma deliver_down b r u s s' x : mid (uth s u) = true -> scano_step u true s = UOk s' -> ub s = b ->
  given (uth s' u) = given (uth s u) ++ [x] ->
  mid (uth s' u) = true /\ lex (tri b r (uth s' u)) (tri b r (uth s u)).
Proof.
  intros Hm E Eb Hg. apply (f_equal (@length _)) in Hg. rewrite app_length in Hg.
  unfold scano_step in E. destruct (uth s u) eqn:Eu; try discriminate; unfold ubind, u_goto in E;
    repeat (match type of E with context [match ?x with _ => _ end] => destruct x eqn:? end; try discriminate);
    injection E as <-; revert Hg; cbn [uth]; rewrite supd_at; cbn [given length]; intros Hg; try lia.
  cbn [mid tri lex]. split; [reflexivity|]. rewrite Eb in *.
  repeat match goal with
    | H : true && _ = _ |- _ => rewrite andb_true_l in H
    | H : (_ <? _) = true |- _ => apply Nat.ltb_lt in H
    end.
  repeat match goal with H : (ovs _ _ =? _) = _ |- _ => rewrite H end.
  right. split; [reflexivity|]. right. split; [reflexivity|lia].
Qed.

Lemma all_ends r u : forall t w s z Ls hv lw, tri (ub s) r (uth s u) = t -> usim s z -> uinv true z Ls hv lw -> wok w s lw ->
  w = Nobody \/ w = InHas u ->
  (forall a n c, och (ub s) a = Some n -> mn_inner n = false -> mn_next n = Some c -> r c < r a) ->
  mid (uth s u) = true ->
  exists n s', urun false s (repeat (UScan u true) n) = Some s' /\
    one_by_one false w s (repeat (UScan u true) n) = true /\ who false w s (repeat (UScan u true) n) = Nobody /\
    exists lo hi acc, uth s' u = URet lo hi acc.
Proof.
  induction t as [t IH] using (well_founded_ind lex_wf). intros w s z Ls hv lw Et S Q W Hw Hr Hm.
  assert (Ha : allowed w (UScan u true) = true) by (destruct Hw as [->| ->]; cbn; [reflexivity|apply Nat.eqb_refl]).
  destruct (scan_on w s z Ls hv lw u S Q W Ha (never_blocks u true s Hm)) as (s1 & z1 & Ls1 & hv1 & lw1 & E & S1 & Q1 & W1).
  destruct (step_down w s z Ls hv lw r u s1 S Q W Hw Hr Hm E) as (Eb & Hd).
  assert (Hgo : forall w1, moved w (UScan u true) s s1 = w1 -> w1 = Nobody \/ w1 = InHas u -> mid (uth s1 u) = true ->
    lex (tri (ub s) r (uth s1 u)) (tri (ub s) r (uth s u)) ->
    exists n s', urun false s (repeat (UScan u true) n) = Some s' /\
      one_by_one false w s (repeat (UScan u true) n) = true /\ who false w s (repeat (UScan u true) n) = Nobody /\
      exists lo hi acc, uth s' u = URet lo hi acc).
  { intros w1 Hmv Hw1 Hm1 Hlx. rewrite Hmv in W1. rewrite Et, <- Eb in Hlx. rewrite <- Eb in Hr.
    destruct (IH _ Hlx w1 s1 z1 Ls1 hv1 lw1 eq_refl S1 Q1 W1 Hw1 Hr Hm1) as (n & s2 & U & A & B & C).
    exists (1 + n), s2. cbn [Nat.add repeat urun one_by_one who]. rewrite E, Ha, Hmv. auto. }
  destruct Hd as [([(x & Hg)|(lo & hi & He)] & Hmv)|(_ & Hm1 & Hmv & Hlx)].
  - destruct (deliver_down (ub s) r u s s1 x Hm E eq_refl Hg) as (Hm1 & Hlx). apply (Hgo Nobody); auto.
  - exists 1, s1. cbn [repeat urun one_by_one who]. rewrite E, Ha, Hmv. eauto 8.
  - apply (Hgo (InHas u)); auto.
Qed.

Theorem alone_whole prog scans sched u s :
  (forall t c, In c (prog t) -> mvalid (call_key c)) ->
  (forall x a b, In (a, b) (scans x) -> mvb a /\ mvb b) ->
  one_by_one false Nobody (uinit prog scans) sched = true -> urun false (uinit prog scans) sched = Some s ->
  who false Nobody (uinit prog scans) sched = Nobody -> uth s u = UIdle -> uq s u <> [] ->
  exists n s', urun false (uinit prog scans) (sched ++ repeat (UScan u true) n) = Some s' /\
    one_by_one false Nobody (uinit prog scans) (sched ++ repeat (UScan u true) n) = true /\
    who false Nobody (uinit prog scans) (sched ++ repeat (UScan u true) n) = Nobody /\
    exists lo hi acc, uth s' u = URet lo hi acc.
Proof.
  intros Hp Hs Ho Er Hw Eu Eq. destruct (uq s u) as [|[lo hi] q] eqn:Eq'; [congruence|].
  destruct (alone_opens prog scans sched u s lo hi q Hp Hs Ho Er Hw Eu Eq')
    as (n & s1 & R1 & O1 & W1 & a & ver & kk & pos & e & ie & EL).
  set (sched1 := sched ++ repeat (UScan u true) n) in *.
  destruct (uinit_inv true prog scans Hp Hs) as (Ls & hv & lw & Q).
  destruct (one_state sched1 Nobody (uinit prog scans) (uinit prog scans) Ls hv lw) with (e := s1)
    as (z1 & Ls1 & hv1 & lw1 & S1 & Q1 & K1); auto; [apply usim_init|split; cbn; auto|].
  rewrite W1 in K1. destruct (leaf_rank z1 Ls1 hv1 lw1 Q1) as (r & Hr).
  destruct (all_ends r u _ Nobody s1 z1 Ls1 hv1 lw1 eq_refl S1 Q1 K1 (or_introl eq_refl)) as (m & s' & U & A & B & C).
  - intros x d c Hx. rewrite <- (same_pages Nobody s1 z1 lw1 S1 K1) in Hx by discriminate. now apply Hr.
  - now rewrite EL.
  - destruct (run_then false (repeat (UScan u true) m) sched1 Nobody _ s1 R1) as (T1 & T2 & T3).
    rewrite W1 in T2, T3. exists (n + m), s'. rewrite repeat_app, app_assoc. fold sched1. rewrite T1, T2. auto.
Qed.

End AloneOpens.
