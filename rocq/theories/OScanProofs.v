(** Scans of the optimistic multi-layer tree: the invariant of the scanners.  This file is
    proof-side only, except for the definition of calm scans. *)
From Coq Require Import List Arith Bool Lia Sorted.
From Verif Require Import Params Mem Common Spec ConcSpec ScanSpec NodeAbs SLIface BaseIface MLIface
  IterModel IterProofs TreeState Levels TreeHeap LevelOps SLModel SLSearch SLProofs MLModel MLSearch MLSteps
  ConcModel ConcLin ConcInv MConcModel MConcInv MConcSteps MConcMain OLaws OConcModel OConcInv OConcSteps
  OConcMain CScanModel CScanLin CScanProofs MScanModel MScanProofs OScanModel.
Import ListNotations.

(** Where a scan may go wrong: ResetIterator (optimistic_record_iterator.hpp:268-283) does not
    look whether its leaf has been removed when no record has been read yet, and the end of a
    scan is reported without a version check (optimistic_record_iterator.hpp:178-183). *)
Definition scan_ok {P : Params} {N : MLOps P} (b : ocfg) (p : upc) : bool :=
  match p with
  | UReset _ _ a None _ => match och b a with Some n => negb (mn_removed n) | None => true end
  | UEnd _ hi a ver _ pos _ =>
      match och b a with
      | Some n => match mn_endpos n hi with
                  | Some (true, e) => negb (e <=? pos) || Nat.eqb (ovs b a) ver
                  | _ => true
                  end
      | None => true
      end
  | _ => true
  end.

Section OScanProofs.
Context {P : Params} {O : OrdLaws P} {N : MLOps P} {LW : MLLaws P N} {OW : OMLaws P N LW}.
#[local] Existing Instance base_of_ml.
#[local] Existing Instance base_laws_of_ml.
#[local] Existing Instance no_leak.
Notation hinv := (@hinv P no_leak mn mrep).
Notation handled := (handled amap_empty).
Notation is_read := ConcModel.is_read.
(** [cl]: all scans have been calm. *)
Context (cl : bool).

(** ** One leaf *)

(** [pos] is the position of [kk] in [n]. *)
Definition mpos_at (n : mn) (kk : bound) (pos : nat) : Prop :=
  forall A, mleafy n A -> live (skipn pos (a_slots A)) = fabove kk (live (a_slots A)) /\
    forall k1 c, kk = Some (k1, c) -> forall x, In x (keys_of (skipn pos (a_slots A))) -> kle k1 x.

Lemma mstart_keys n A k c pos : mleafy n A -> mvalid k -> start_pos (n : bn) k c = Some pos ->
  forall x, In x (keys_of (skipn pos (a_slots A))) -> kle k x.
Proof.
  intros (Hr & Hi & Hok) Hk. unfold start_pos.
  destruct (M_search_leaf _ _ _ Hr Hi Hok Hk) as (rc & p & Es & Hspec).
  cbn [bn_search base_of_ml]. rewrite Es. intros [= <-] x Hx.
  assert (Hx' : In x (keys_of (skipn p (a_slots A)))).
  { destruct (_ && _); auto. apply in_keys_of in Hx as (z & Hz & Ez).
    apply in_keys_of. exists z. split; auto. revert Hz. clear. generalize (a_slots A).
    induction p as [|p IH]; intros l Hz; [eapply skipn_incl; eauto|].
    destruct l; [exact Hz|]. now apply IH. }
  clear Hx.
  assert (Hmid : forall l1 z l2, a_slots A = l1 ++ z :: l2 -> s_key z = Some k -> p = length l1 -> kle k x).
  { intros l1 z l2 E Ez ->. destruct Hok as [_ Hss]. rewrite E in Hss, Hx'.
    rewrite skipn_app, skipn_all, Nat.sub_diag in Hx'. cbn [skipn app] in Hx'.
    rewrite keys_of_app in Hss. apply SS_app in Hss as (_ & Hs2 & _).
    cbn in Hs2, Hx'. unfold key1 in Hs2, Hx'. rewrite Ez in Hs2, Hx'. cbn in Hs2, Hx'. fold key1 in Hs2, Hx'.
    apply StronglySorted_inv in Hs2 as [_ Hs2]. rewrite Forall_forall in Hs2.
    destruct Hx' as [<-|Hx']; [apply kle_refl|]. now apply klt_kle, Hs2. }
  destruct rc; try (destruct Hspec; fail); cbn in Hspec.
  - destruct Hspec as (l1 & l2 & E & -> & H1 & H2). apply klt_kle, H2.
    rewrite E, skipn_app, skipn_all, Nat.sub_diag in Hx'. exact Hx'.
  - destruct Hspec as (l1 & z & l2 & E & -> & Ez & _). eapply Hmid; eauto.
  - destruct Hspec as (l1 & z & l2 & E & -> & Ez & _). eapply Hmid; eauto.
Qed.

Lemma first_pos_at n A kk : mleafy n A -> mvb kk ->
  exists pos, first_pos n kk = Some pos /\ mpos_at n kk pos.
Proof.
  intros HA Hk. destruct (first_pos_ok n A kk HA Hk) as (pos & E & _). exists pos. split; [auto|].
  intros B HB. destruct (first_pos_ok n B kk HB Hk) as (pos' & E' & Q).
  assert (pos' = pos) by congruence. subst pos'. split; [exact Q|].
  intros k1 c ->. cbn [first_pos] in E. eapply mstart_keys; eauto.
Qed.

Lemma zero_pos_at n : mpos_at n None 0.
Proof. intros B _. split; [|discriminate]. cbn [skipn]. symmetry. now apply filter_all. Qed.

Lemma mpos_next n pos k : pos < mn_rc n -> mn_key n pos = Some k -> mpos_at n (Some (k, false)) (S pos).
Proof.
  intros Hp Hk A (Hr & Hi & Hok). destruct (M_hdr _ _ Hr) as (_ & _ & _ & Hrc).
  destruct (nth_error_ex (a_slots A) pos) as [s Hs]; [lia|].
  destruct (M_record _ _ _ _ Hr Hi Hok Hs) as (_ & Hk' & _). rewrite Hk in Hk'.
  destruct (nth_error_split _ _ Hs) as (l1 & l2 & E & Hl). rewrite E in *.
  replace (S pos) with (length (l1 ++ [s])) by (rewrite app_length; cbn; lia).
  replace (l1 ++ s :: l2) with ((l1 ++ [s]) ++ l2) by (rewrite <- app_assoc; reflexivity).
  rewrite skipn_app, skipn_all, Nat.sub_diag. cbn [skipn app].
  destruct Hok as [_ Hss]. rewrite keys_of_app in Hss. cbn in Hss. unfold key1 in Hss. rewrite <- Hk' in Hss.
  cbn in Hss. fold key1 in Hss. apply SS_app in Hss as (_ & Hs2 & Hs3). apply StronglySorted_inv in Hs2 as [_ Hs2].
  rewrite Forall_forall in Hs2. split; [|intros ? ? [= <- <-] x Hx; now apply klt_kle, Hs2].
  unfold fabove. rewrite live_app, filter_app, filter_none, filter_all; auto.
  - intros [x v] Hx. apply live_key_in in Hx. apply aboveb_ok. cbn. now apply Hs2.
  - intros [x v] Hx. apply live_key_in in Hx. rewrite keys_of_app in Hx.
    cbn [fst]. destruct (aboveb (Some (k, false)) x) eqn:E'; auto. exfalso. apply aboveb_ok in E'. cbn in E'.
    apply in_app_or in Hx as [Hx|Hx].
    + eapply klt_asym; eauto. apply Hs3; auto. now left.
    + cbn in Hx. unfold key1 in Hx. rewrite <- Hk' in Hx. destruct Hx as [<-|[]]. now apply klt_irrefl in E'.
Qed.

(** ** The invariant *)
Definition mpassed (lw : addr -> ext) (a : addr) (kk : bound) (k : K) : Prop :=
  match kk with Some _ => ~ above kk k | None => False end \/ elt (Key k) (lw a).

Definition uplaced (s : ocfg) (u : tid) (a : addr) : Prop :=
  (exists n, och s a = Some n /\ mn_inner n = false) /\ holds (ogb s) u a.

Definition uscan (s : ocfg) (lw : addr -> ext) (u : tid) (i0 : nat) (lo hi : bound) (a : addr) (kk : bound)
    (acc : list (K * V)) : Prop :=
  uplaced s u a /\ mvb kk /\
  (cl = true -> handled (otr s) i0 lo hi (mpassed lw a kk) acc /\ acc_le kk acc /\
                forall k, above kk k -> above lo k).

(** The page is as described as long as its version is [ver]. *)
Definition usame (s : ocfg) (a : addr) (ver : nat) (Q : mn -> Prop) : Prop :=
  ver <= ovs s a /\
  (ovs s a = ver -> exists n, och s a = Some n /\ (cl = true -> mn_removed n = false) /\ Q n).

Definition ubody (s : ocfg) (lw : addr -> ext) (u : tid) (i0 : nat) (p : upc) : Prop :=
  match p with
  | UIdle | URoot _ _ => True
  | UDesc lo _ a => och s a <> None /\ holds (ogb s) u a /\
      match lo with Some (key, _) => ele (lw a) (Key key) | None => lw a = NegInf end
  | UReset lo hi a kk acc => uscan s lw u i0 lo hi a kk acc
  | UPos lo hi a ver kk acc => uscan s lw u i0 lo hi a kk acc /\ usame s a ver (fun _ => True)
  | UEnd lo hi a ver kk pos acc =>
      uscan s lw u i0 lo hi a kk acc /\ usame s a ver (fun n => mpos_at n kk pos)
  | ULoop lo hi a ver kk pos e ie acc =>
      uscan s lw u i0 lo hi a kk acc /\
      usame s a ver (fun n => mpos_at n kk pos /\ mn_endpos n hi = Some (ie, e)) /\
      (cl = true -> ie = true -> e <= pos -> handled (otr s) i0 lo hi (fun _ => True) acc)
  | URet lo hi acc => cl = true -> handled (otr s) i0 lo hi (fun _ => True) acc
  end.

Definition ubounds (p : upc) : option (bound * bound) :=
  match p with
  | UIdle => None
  | URoot lo hi | UDesc lo hi _ | UReset lo hi _ _ _ | UPos lo hi _ _ _ _
  | UEnd lo hi _ _ _ _ _ | ULoop lo hi _ _ _ _ _ _ _ | URet lo hi _ => Some (lo, hi)
  end.

Definition upc_ok (s : ocfg) (lw : addr -> ext) (T : list (marked label)) (u : tid) (p : upc) : Prop :=
  match ubounds p with
  | None => True
  | Some (lo, hi) => oth s u = OIdle /\ In u (oac s) /\ mvb lo /\ mvb hi /\
      exists i0, running T u lo hi i0 /\ ubody s lw u i0 p
  end.

Record uinv (s : ucfg) (Ls : list lvl) (hv : addr -> option mn) (lw : addr -> ext) : Prop := {
  u_base : oinv (ub s) Ls hv lw;
  u_garb : ginv (ub s) hv;
  u_log : otr (ub s) = unmark (ulg s);
  u_right : cl = true -> trace_right amap_empty (ulg s);
  u_scan : forall u, upc_ok (ub s) lw (ulg s) u (uth s u);
  u_q : forall u lo hi, In (lo, hi) (uq s u) -> mvb lo /\ mvb hi;
}.

(** ** Steps of others *)
Section Others.
Variables (s s' : ocfg) (hv hv' : addr -> option mn) (lw lw' : addr -> ext) (t u : tid).
Hypothesis F : frame s s' hv hv' lw lw' t.
Hypothesis Hu : u <> t.
Hypothesis Hac : In u (oac s).
Variable ls : list label.
Hypothesis Htr : otr s' = otr s ++ ls.
Hypothesis Hls : ls = [] \/ exists l, ls = [l].

Lemma handled_on i0 lo hi Q acc : handled (otr s) i0 lo hi Q acc -> handled (otr s') i0 lo hi Q acc.
Proof.
  intros H. rewrite Htr. destruct Hls as [->|(l & ->)]; [now rewrite app_nil_r|]. now apply handled_later.
Qed.

Lemma uplaced_later a : uplaced s u a -> uplaced s' u a.
Proof.
  intros ((n & E & Hi) & Hh). split.
  - destruct (fr_inner _ _ _ _ _ _ _ F a n E) as (n' & E' & Hi'). exists n'. split; [auto|congruence].
  - now apply (fr_gb _ _ _ _ _ _ _ F).
Qed.

Lemma uscan_later i0 lo hi a kk acc : uscan s lw u i0 lo hi a kk acc -> uscan s' lw' u i0 lo hi a kk acc.
Proof.
  intros (H1 & H2 & H3). split; [now apply uplaced_later|]. split; [auto|]. intros Hc.
  destruct (H3 Hc) as (H4 & H5). split; [|auto]. apply handled_on.
  eapply handled_weak; eauto. intros k _ _ Hk. left. unfold mpassed in *.
  destruct H1 as ((n & E & _) & _). rewrite (fr_lo _ _ _ _ _ _ _ F a) in Hk by congruence. exact Hk.
Qed.

Lemma usame_later a ver Q : och s a <> None -> usame s a ver Q -> usame s' a ver Q.
Proof.
  intros Ha (H1 & H). destruct (och s a) as [n|] eqn:E; [|congruence].
  destruct (fr_pg _ _ _ _ _ _ _ F a n E) as [(E1 & E2)|(E1 & _)].
  - split; [lia|]. rewrite E2, E1. intros Ev. destruct (H Ev) as (m & M1 & M2). exists m. split; [congruence|auto].
  - split; [lia|]. intros Ev. lia.
Qed.

Lemma ubody_later i0 p : ubody s lw u i0 p -> ubody s' lw' u i0 p.
Proof.
  assert (Hpl : forall a, uplaced s u a -> och s a <> None) by (intros a ((n & E & _) & _); congruence).
  destruct p; cbn [ubody]; auto.
  - intros (H1 & H2 & H3). split; [eapply fr_present; eauto|]. split; [now apply (fr_gb _ _ _ _ _ _ _ F)|].
    now rewrite (fr_lo _ _ _ _ _ _ _ F).
  - apply uscan_later.
  - intros (H1 & H2). split; [now apply uscan_later|]. apply usame_later; [apply Hpl, H1|auto].
  - intros (H1 & H2). split; [now apply uscan_later|]. apply usame_later; [apply Hpl, H1|auto].
  - intros (H1 & H2 & H3). split; [now apply uscan_later|]. split; [apply usame_later; [apply Hpl, H1|auto]|].
    intros. apply handled_on. auto.
  - intros H Hc. apply handled_on. auto.
Qed.
End Others.

(** ** Guards of scans *)
Section Guard.
Variables (s : ocfg) (Ls : list lvl) (hv : addr -> option mn) (lw : addr -> ext) (u : tid).
Hypothesis V : oinv s Ls hv lw.
Hypothesis G : ginv s hv.
Hypothesis Hu : oth s u = OIdle.

Lemma guard_frame : frame s (o_guard s u) hv hv lw lw u.
Proof. split; cbn; auto. Qed.

Lemma guard_inv : oinv (o_guard s u) Ls hv lw /\ ginv (o_guard s u) hv.
Proof.
  split.
  - destruct V. split; auto. intros v Hv. right. auto.
  - destruct G. split; auto. intros a w v Hw Hv. right. eauto.
Qed.

Lemma unguard_frame : frame s (o_end s u) hv hv lw lw u.
Proof.
  split; cbn; auto. intros v x Hv _ Hh w Hw. destruct (ogb s x) as [w0|] eqn:Ex; [|discriminate].
  injection Hw as <-. apply in_drop. split; [now apply Hh|auto].
Qed.

Lemma unguard_inv : oinv (o_end s u) Ls hv lw /\ ginv (o_end s u) hv.
Proof.
  assert (V' : oinv (o_end s u) Ls hv lw).
  { pose proof V as V0. destruct V0. split; auto.
    - intros v. destruct (Nat.eq_dec v u) as [->|Hv]; [cbn; rewrite Hu; exact Logic.I|].
      apply (pcok_stable _ _ _ _ _ _ _ v unguard_frame Hv); [apply i_act|intros x Hx; now apply i_own|apply i_pc].
    - intros v Hv. cbn in *. apply in_drop. split; [auto|]. intros ->. congruence. }
  split; [exact V'|].
  assert (Hgb : forall a w, match ogb s a with Some w => Some (drop u w) | None => None end = Some w ->
                 exists w0, ogb s a = Some w0 /\ w = drop u w0).
  { intros a w Hw. destruct (ogb s a) as [w0|]; [|discriminate]. injection Hw as <-. eauto. }
  apply (ginv_make _ Ls hv lw V'); cbn [o_end och ort ofr ovs osx ogb oac oth opg otr].
  - intros a w v Hw Hv. apply Hgb in Hw as (w0 & Hw & ->). apply in_drop in Hv as [Hv Hn]. apply in_drop. split; [|auto].
    eapply (g_wait _ _ G); eauto.
  - intros a Ha. now rewrite (g_un _ _ G a Ha).
  - intros v x Hr. now rewrite (g_lim _ _ G v x Hr).
  - apply G.
  - intros a Ha Hg. apply (g_class _ _ G a Ha). destruct (ogb s a); [discriminate|auto].
  - intros a Ha. apply (g_pres _ _ G). destruct (ogb s a); congruence.
  - intros x n y w wx En Hl Hx Hy. apply Hgb in Hx as (wx0 & Hx & ->). apply Hgb in Hy as (w0 & Hy & ->).
    destruct (g_links _ _ G x n y w0 En Hl Hy) as (w' & H1 & H2). assert (w' = wx0) by congruence. subst.
    intros v Hv. apply in_drop in Hv as [Hv Hn]. apply in_drop. auto.
Qed.
End Guard.

(** ** Steps of scanners *)
Section Scanner.
Variables (s : ucfg) (Ls : list lvl) (hv : addr -> option mn) (lw : addr -> ext) (i0 : nat) (u : tid).
Notation b := (ub s).
Hypothesis V : oinv b Ls hv lw.
Hypothesis G : ginv b hv.
Hypothesis Hi0 : i0 <= length (otr b).
Let HT : dtree Ls (ort b) := i_tree _ _ _ _ V.
Let HF : hinv hv (ofr b) [] (concat Ls) := i_heap _ _ _ _ V.
Let HL : lorel lw Ls := i_lo _ _ _ _ V.

Lemma page_leafy a n : och b a = Some n -> mn_inner n = false -> exists A, mleafy n A.
Proof.
  intros E Hi. pose proof (i_okp _ _ _ _ V a n E) as Ho. unfold okp in Ho. destruct (mn_removed n).
  - destruct (Ho Hi) as ((A & H1 & H2 & H3) & _). now exists A.
  - destruct Ho as ((A & H1 & H2) & _). exists A. rewrite (proj1 (M_hdr _ _ H1)) in Hi.
    rewrite Hi in H2. split; auto.
Qed.

Lemma now_at k : mapat amap_empty (otr b) (length (otr b)) k = effs amap_empty (otr b) k.
Proof. unfold mapat. now rewrite firstn_all. Qed.

Lemma leaf_facts_o a n : och b a = Some n -> mn_inner n = false -> mn_removed n = false ->
  exists A, mleafy n A /\ (a_high A = None <-> a_next A = None) /\ mn_next n = a_next A /\
  (forall k h, In k (keys_of (a_slots A)) -> a_high A = Some h -> klt k h) /\
  (forall k, In k (keys_of (a_slots A)) -> in_range (lw a) k (hi_ext A)) /\
  (forall k, mn_comphigh n k = Some true <-> elt (Key k) (hi_ext A)) /\
  (forall k, in_range (lw a) k (hi_ext A) ->
     assoc k (live (a_slots A)) = mapat amap_empty (otr b) (length (otr b)) k) /\
  ksorted (live (a_slots A)) /\ elt (lw a) (hi_ext A) /\
  (forall y, mn_next n = Some y -> lw y = hi_ext A /\ exists ny, och b y = Some ny /\ mn_inner ny = false).
Proof.
  intros E Hi Hr. pose proof (leaf_live b Ls hv lw V a n E Hr Hi) as Hv.
  destruct (alive_at _ _ _ _ _ HT HF HL a n Hv) as (U & L1 & A & L2 & D & EL & Hrep & Elo & Hlv & Hw & Ei).
  rewrite Hi in Ei. destruct D; [|discriminate]. cbn [innerb] in *. exists A.
  destruct (seg_wf _ _ _ _ _ _ _ _ _ Hlv) as (_ & Hn & Hs). specialize (Hn (or_intror eq_refl)).
  pose proof (nw_body _ _ _ _ Hw) as Hok. cbn in Hok. destruct (M_hdr _ _ Hrep) as (_ & _ & I3 & _).
  split; [split; [auto|split; [apply Hw|auto]]|]. split; [|split; [auto|]].
  { rewrite Hn. destruct L2 as [|[x m] L2]; cbn [first_addr seg] in *.
    - unfold hi_ext in Hs. destruct (a_high A); [discriminate|tauto].
    - split; [|discriminate]. intros Q. destruct Hs as (Hw2 & _). pose proof (nw_range _ _ _ _ Hw2) as R.
      unfold hi_ext in R at 1. rewrite Q in R. destruct R. }
  split; [intros k h Hk Eh; pose proof (nw_hi _ _ _ _ Hw k Hk) as Q; unfold hi_ext in Q; now rewrite Eh in Q|].
  rewrite Elo.
  split; [intros k Hk; split; [exact (nw_lo _ _ _ _ Hw k Hk)|exact (nw_hi _ _ _ _ Hw k Hk)]|].
  split; [|split; [|split; [apply live_sorted, Hok|split; [apply Hw|]]]].
  - intros k. rewrite (M_comphigh _ _ k Hrep). unfold hi_ext.
    destruct (a_high A); cbn; unfold klt; split; congruence || tauto.
  - intros k Hk. rewrite now_at, <- (i_map _ _ _ _ V k), EL. unfold lvl in *. rewrite last_last. symmetry. eapply recs_assoc; eauto.
  - intros y Hy. destruct (leaf_next _ _ _ _ _ HT HF HL a n y Hv Hi Hy) as (dy & A' & HrA & Hdy & Hiy & Ely).
    split.
    + destruct L2 as [|[y' m] L2]; cbn [first_addr] in Hn; [congruence|].
      assert (y' = y) by congruence. subst y'. apply (HL (L1 ++ (a, A) :: (y, m) :: L2)).
      * rewrite EL. apply in_or_app. right. now left.
      * rewrite entries_app. cbn [entries]. apply in_or_app. right. right. now left.
    + destruct (i_inn _ _ _ _ V y dy Hdy) as (ny & E1 & E2). exists ny. split; [auto|congruence].
Qed.

(** When the end position has been reached in the last leaf of the scan, all is done. *)
Lemma uend_handled lo hi a n kk pos e acc : cl = true -> mvb hi -> uscan b lw u i0 lo hi a kk acc ->
  och b a = Some n -> mn_removed n = false -> mpos_at n kk pos -> mn_endpos n hi = Some (true, e) ->
  e <= pos -> handled (otr b) i0 lo hi (fun _ => True) acc.
Proof.
  intros Hcl Vhi (Hp & Vk & Hh) E R Hpos Ee Hep. destruct (Hh Hcl) as (Hh1 & _).
  destruct Hp as ((n' & E' & Hin) & _). assert (n' = n) by congruence. subst n'.
  destruct (leaf_facts_o a n E Hin R) as (A & HA & Hnx & Hnn & Hhk & Hrng & Hch & Hc & Hss & Hlh & _).
  pose proof HA as (Hr & Hi & Hok).
  destruct (M_endpos n A hi Hr Hi Hok Vhi) as (ie & e' & Ee' & Hes).
  assert (Q : ie = true /\ e' = e) by (split; congruence). destruct Q as (-> & ->).
  destruct (endpos_window _ _ _ _ pos Hes Hok Hnx Hhk) as (W1 & W2 & W3 & W4).
  replace (e - pos) with 0 in W2 by lia. cbn [firstn live flat_map] in W2.
  rewrite (proj1 (Hpos A HA)) in W2.
  eapply handled_weak; eauto. intros k Ha Hb _.
  destruct (elt_dec (Key k) (lw a)) as [Hlo|Hlo]; [left; now right|].
  destruct (aboveb kk k) eqn:Eab.
  - right. exists (length (otr b)). split; [lia|].
    assert (Hkr : in_range (lw a) k (hi_ext A)).
    { split; auto. unfold hi_ext. destruct (a_high A) as [h|] eqn:Eh; [|exact Logic.I]. cbn. now apply W3. }
    rewrite <- Hc by auto. destruct (assoc k (live (a_slots A))) as [v|] eqn:Ek; auto.
    exfalso. apply assoc_in in Ek; auto.
    assert (Q : In (k, v) (fbelow hi (fabove kk (live (a_slots A))))).
    { unfold fbelow, fabove. rewrite !filter_In. cbn [fst]. rewrite belowb_ok. auto. }
    rewrite <- W2 in Q. destruct Q.
  - left. left. destruct kk as [[k1 c]|]; [|discriminate]. intros Q. apply aboveb_ok in Q. congruence.
Qed.

(** What a step of a scan must establish. *)
Definition ustepped (p : upc) (r : ures) : Prop :=
  exists p', r = u_goto s u p' /\ ubounds p' = ubounds p /\ ubody b lw u i0 p'.

Ltac goes := eexists; split; [reflexivity|]; split; [reflexivity|]; cbn [ubody].

Lemma ustep_root chk lo hi : uth s u = URoot lo hi -> ustepped (uth s u) (scano_step u chk s).
Proof.
  intros E. unfold scano_step. rewrite E. goes.
  destruct (root_alive _ _ _ _ _ HT HF HL) as (d & Hd & Hlo).
  destruct (i_inn _ _ _ _ V _ _ Hd) as (n & En & _). split; [congruence|]. split.
  - apply holds_un. apply (g_un _ _ G). congruence.
  - rewrite Hlo. destruct lo as [[]|]; [apply ele_neg|auto].
Qed.

Lemma ustep_desc chk lo hi a : uth s u = UDesc lo hi a -> mvb lo -> ubody b lw u i0 (uth s u) ->
  ustepped (uth s u) (scano_step u chk s).
Proof.
  intros E Vlo. rewrite E. intros (H1 & H2 & H3). unfold scano_step. rewrite E.
  rewrite (opage_held _ _ _ H2). destruct (och b a) as [n|] eqn:En; [|congruence]. cbn [ubind].
  destruct (mn_inner n) eqn:Ei.
  - destruct lo as [[key c]|].
    + assert (Hh : here b lw u key a) by (split; [congruence|auto]).
      destruct (oin_some b Ls hv lw V a n key En) as (ok & Eok). rewrite Eok. cbn [ubind]. destruct ok.
      * destruct (go_down b Ls hv lw u V G key a n Hh (Vlo key c eq_refl) En Ei Eok) as (_ & _ & pos & x & Er & (X1 & X2 & X3) & _).
        rewrite Er. cbn [ubind snd]. goes. auto.
      * goes. exact Logic.I.
    + destruct (mn_removed n) eqn:Er; [goes; exact Logic.I|].
      pose proof (i_okp _ _ _ _ V a n En) as Ho. unfold okp in Ho. rewrite Er, Ei in Ho.
      destruct Ho as (_ & (x & X1 & X2 & X3 & X4) & _). rewrite X1. cbn [ubind]. goes.
      split; [auto|]. split; [|congruence].
      apply (follow b hv u a n x G En); [unfold linked; rewrite Ei; auto|exact H2].
  - goes. split; [split; [eauto|auto]|]. split; [auto|]. intros _. split; [|split; [destruct lo as [[k [|]]|]; cbn; auto; intros ? ? []|auto]].
    apply nil_handled. intros k Hk [Q|Q].
    + destruct lo; [now destruct Q|exact Q].
    + destruct lo as [[key c]|]; [|rewrite H3 in Q; destruct Q].
      apply (above_ge _ _ _ _ eq_refl) in Hk. apply kle_ele in Hk.
      eapply elt_irrefl. eapply elt_ele_trans; [exact Q|]. eapply ele_trans; eauto.
Qed.

Lemma placed_page a : uplaced b u a -> exists n, opage b a = Some n /\ och b a = Some n /\ mn_inner n = false.
Proof. intros ((n & E & Hi) & Hh). exists n. rewrite (opage_held _ _ _ Hh). auto. Qed.

Lemma ustep_reset chk lo hi a kk acc : uth s u = UReset lo hi a kk acc -> ubody b lw u i0 (uth s u) ->
  (cl = true -> scan_ok b (uth s u) = true) -> ustepped (uth s u) (scano_step u chk s).
Proof.
  intros E. rewrite E. cbn [ubody]. intros Hb Hok. pose proof Hb as (Hp & Vk & Hh).
  unfold scano_step. rewrite E. destruct (placed_page a Hp) as (n & -> & En & Ei). cbn [ubind].
  destruct kk as [[key c]|].
  - destruct (oin_some b Ls hv lw V a n key En) as (ok & Eok). rewrite Eok. cbn [ubind]. destruct ok.
    + goes. split; [exact Hb|]. split; [lia|]. intros _. exists n. split; [auto|]. split; [|auto].
      intros _. unfold oin in Eok. destruct (mn_removed n); [discriminate|auto].
    + assert (Hnx : exists x nx, mn_next n = Some x /\ och b x = Some nx /\ mn_inner nx = false /\
                      forall k, elt (Key k) (lw x) -> mpassed lw a (Some (key, c)) k).
      { unfold oin in Eok. destruct (mn_removed n) eqn:Er.
        - pose proof (i_okp _ _ _ _ V a n En) as Ho. unfold okp in Ho. rewrite Er in Ho.
          destruct (Ho Ei) as (_ & x & nx & X1 & X2 & X3 & X4). exists x, nx.
          split; [auto|]. split; [auto|]. split; [auto|]. intros k Hk. right. eapply elt_trans; eauto.
        - destruct (leaf_facts_o a n En Ei Er) as (A & HA & Hnx & Hnn & Hhk & Hrng & Hch & Hc & Hss & Hlh & Hny).
          destruct (leaf_high _ _ _ _ _ HT HF HL a n key (leaf_live b Ls hv lw V a n En Er Ei) Ei Eok) as (x & Hx).
          destruct (Hny x Hx) as (Ex & nx & X1 & X2). exists x, nx. split; [auto|]. split; [auto|]. split; [auto|].
          intros k Hk. left. intros Q. apply (above_ge _ _ _ _ eq_refl) in Q. apply kle_not_lt in Q. apply Q.
          rewrite Ex in Hk. exact (elt_ele_trans _ _ _ Hk (comphigh_range n A key false (proj1 HA) Eok)). }
      destruct Hnx as (x & nx & X1 & X2 & X3 & X4). rewrite X1. cbn [ubind]. goes.
      split; [split; [eauto|]|].
      * apply (follow b hv u a n x G En); [unfold linked; rewrite Ei; auto|apply Hp].
      * split; [auto|]. intros Hcl. destruct (Hh Hcl) as (Hh1 & Hh2). split; [|auto].
        eapply handled_weak; [exact Hh1|]. intros k _ _ [Q|Q]; left; [now left|auto].
  - goes. split; [exact Hb|]. split; [lia|]. intros _. exists n. split; [auto|]. split; [|apply zero_pos_at].
    intros Hcl. specialize (Hok Hcl). cbn [scan_ok] in Hok. rewrite En in Hok. now apply negb_true_iff in Hok.
Qed.

Lemma ustep_pos chk lo hi a ver kk acc : uth s u = UPos lo hi a ver kk acc -> ubody b lw u i0 (uth s u) ->
  ustepped (uth s u) (scano_step u chk s).
Proof.
  intros E. rewrite E. cbn [ubody]. intros (Hb & Hv & Hs). pose proof Hb as (Hp & Vk & Hh).
  unfold scano_step. rewrite E. destruct (placed_page a Hp) as (n & -> & En & Ei). cbn [ubind].
  destruct (page_leafy a n En Ei) as (A & HA). destruct (first_pos_at n A kk HA Vk) as (pos & -> & Hpos). cbn [ubind].
  goes. split; [exact Hb|]. split; [auto|]. intros Q. destruct (Hs Q) as (n' & E' & R & _).
  assert (n' = n) by congruence. subst n'. exists n. auto.
Qed.

Lemma ustep_end chk lo hi a ver kk pos acc : uth s u = UEnd lo hi a ver kk pos acc -> mvb hi ->
  ubody b lw u i0 (uth s u) -> (cl = true -> scan_ok b (uth s u) = true) ->
  ustepped (uth s u) (scano_step u chk s).
Proof.
  intros E Vhi. rewrite E. cbn [ubody]. intros (Hb & Hv & Hs) Hok. pose proof Hb as (Hp & Vk & Hh).
  unfold scano_step. rewrite E. destruct (placed_page a Hp) as (n & -> & En & Ei). cbn [ubind].
  destruct (page_leafy a n En Ei) as (A & HA). pose proof HA as (Hr & Hi & Hl).
  destruct (M_endpos n A hi Hr Hi Hl Vhi) as (ie & e & Ee & _). rewrite Ee. cbn [ubind].
  goes. split; [exact Hb|]. split.
  - split; [auto|]. intros Q. destruct (Hs Q) as (n' & E' & R & HQ). assert (n' = n) by congruence. subst n'.
    exists n. auto.
  - intros Hcl -> Hle. specialize (Hok Hcl). cbn [scan_ok] in Hok. rewrite En, Ee in Hok.
    rewrite (proj2 (Nat.leb_le e pos) Hle) in Hok. cbn [negb orb] in Hok. apply Nat.eqb_eq in Hok.
    destruct (Hs Hok) as (n' & E' & R & HQ). assert (n' = n) by congruence. subst n'.
    eapply uend_handled; eauto.
Qed.

Lemma ustep_loop chk lo hi a ver kk pos e ie acc : uth s u = ULoop lo hi a ver kk pos e ie acc -> mvb hi ->
  ubody b lw u i0 (uth s u) -> ustepped (uth s u) (scano_step u chk s).
Proof.
  intros E Vhi. rewrite E. cbn [ubody]. intros (Hb & (Hv & Hs) & Hfin). pose proof Hb as (Hp & Vk & Hh).
  unfold scano_step. rewrite E. destruct (placed_page a Hp) as (n & Hpg & En & Ei).
  assert (Hback : ustepped (ULoop lo hi a ver kk pos e ie acc) (u_goto s u (UReset lo hi a kk acc))).
  { goes. exact Hb. }
  destruct (pos <? e) eqn:Ee; [apply Nat.ltb_lt in Ee|apply Nat.ltb_ge in Ee; destruct ie].
  2: { goes. intros Hcl. auto. }
  all: rewrite Hpg; cbn [ubind]; destruct (chk && Nat.eqb (ovs b a) ver) eqn:Hchk; [|exact Hback].
  all: apply andb_true_iff in Hchk as (_ & Hchk); apply Nat.eqb_eq in Hchk.
  all: destruct (Hs Hchk) as (n' & E' & R & Hpos & Hep); assert (n' = n) by congruence; subst n'.
  all: destruct (page_leafy a n En Ei) as (A & HA); pose proof HA as (Hr & Hi & Hok).
  all: destruct (M_endpos n A hi Hr Hi Hok Vhi) as (ie' & e' & Ee' & Hes).
  all: rewrite Hep in Ee'; injection Ee' as <- <-.
  all: destruct (Hpos A HA) as (Hlive & Hge).
  - assert (He : e <= length (a_slots A)).
    { destruct Hes as (_ & He). destruct ie; [|destruct hi as [[]|]; lia].
      destruct hi as [[k c]|]; [|lia]. destruct He as (l1 & l2 & -> & -> & _). rewrite app_length. lia. }
    destruct (nth_error_ex (a_slots A) pos) as [z Hz]; [lia|].
    destruct (M_record _ _ _ _ Hr Hi Hok Hz) as (Ed & Ek & Hrec).
    pose proof Hok as (Hsl & Hks). rewrite Forall_forall in Hsl.
    destruct (Hsl z (nth_error_In _ _ Hz)) as (k & v & Hk & Hv'). rewrite Ek, Hk, Ed. cbn [ubind].
    destruct (M_hdr _ _ Hr) as (_ & _ & _ & Hrc).
    pose proof (mpos_next n pos k ltac:(lia) ltac:(congruence)) as Hnext.
    pose proof (skipn_nth _ _ _ Hz) as Esk. rewrite Esk in Hge, Hlive.
    assert (Hkin : In k (keys_of (a_slots A))).
    { apply in_keys_of. exists z. split; auto. eapply nth_error_In; eauto. }
    assert (Hk1 : forall k1 c, kk = Some (k1, c) -> kle k1 k).
    { intros k1 c Ek1. eapply Hge; eauto. cbn. unfold key1. rewrite Hk. now left. }
    assert (Hab1 : forall x, klt k x -> above kk x).
    { intros x Hx. destruct kk as [[k1 c]|]; [|exact Logic.I]. specialize (Hk1 k1 c eq_refl).
      pose proof (kle_lt_trans _ _ _ Hk1 Hx). destruct c; cbn; auto. now apply klt_kle. }
    assert (Hvk : mvb (Some (k, false))).
    { intros ? ? [= <- <-]. eapply M_valid_slot; eauto. }
    set (R' := if s_del z then [] else [(k, v)]).
    assert (HR : forall x w, In (x, w) R' <-> s_del z = false /\ x = k /\ w = v).
    { intros x w. unfold R'. destruct (s_del z); cbn; split; try tauto; try (intros (Q & _); discriminate).
      - intros [[= <- <-]|[]]. auto.
      - intros (_ & -> & ->). now left. }
    assert (Hliv : live (z :: skipn (S pos) (a_slots A)) = R' ++ live (skipn (S pos) (a_slots A))).
    { cbn [live flat_map]. unfold rec1 at 1. rewrite Hk, Hv'. unfold R'. now destruct (s_del z). }
    assert (Hos : uscan b lw u i0 lo hi a (Some (k, false)) (acc ++ R') /\
      (cl = true -> ie = true -> e <= S pos -> handled (otr b) i0 lo hi (fun _ => True) (acc ++ R'))).
    { assert (Hos : uscan b lw u i0 lo hi a (Some (k, false)) (acc ++ R')).
      { split; [auto|]. split; [auto|]. intros Hcl. destruct (Hh Hcl) as (Hh1 & Hle & Hab).
      destruct (leaf_facts_o a n En Ei (R Hcl)) as (B & HB & Hnx & Hnn & Hhk & Hrng & Hch & Hc & Hss & Hlh & _).
      destruct (Hpos B HB) as (HliveB & _). pose proof HB as (HrB & HiB & HokB).
      assert (Hlen : length (a_slots B) = length (a_slots A)).
      { destruct (M_hdr _ _ HrB) as (_ & _ & _ & HrcB). congruence. }
      destruct (nth_error_ex (a_slots B) pos) as [zB HzB]; [lia|].
      destruct (M_record _ _ _ _ HrB HiB HokB HzB) as (EdB & EkB & HrecB).
      assert (HkB : s_key zB = Some k) by congruence.
      assert (HdB : s_del zB = s_del z) by congruence.
      pose proof HokB as (HslB & _). rewrite Forall_forall in HslB.
      destruct (HslB zB (nth_error_In _ _ HzB)) as (kB & vB & HkB' & HvB).
      assert (kB = k) by congruence. subst kB.
      assert (HvBv : s_del z = false -> vB = v).
      { intros Q. pose proof (Hrec k v Hk Hv' Q) as Q1.
        pose proof (HrecB k vB HkB HvB ltac:(congruence)) as Q2. congruence. }
      assert (HlivB : live (zB :: skipn (S pos) (a_slots B)) = R' ++ live (skipn (S pos) (a_slots B))).
      { cbn [live flat_map]. unfold rec1 at 1. rewrite HkB, HvB, HdB. unfold R'. destruct (s_del z); [auto|].
        now rewrite HvBv. }
      pose proof (skipn_nth _ _ _ HzB) as EskB. rewrite EskB in HliveB.
      destruct (M_endpos n B hi HrB HiB HokB Vhi) as (ie2 & e2 & Ee2 & HesB).
      rewrite Hep in Ee2. injection Ee2 as <- <-.
      destruct (endpos_window _ _ _ _ pos HesB HokB Hnx Hhk) as (W1 & W2 & W3 & W4).
      assert (HkinB : In k (keys_of (a_slots B))).
      { apply in_keys_of. exists zB. split; auto. eapply nth_error_In; eauto. }
      assert (HRk : s_del z = false -> In (k, v) (live (a_slots B)) /\ above kk k /\ below hi k).
      { intros Q. assert (In (k, v) (R' ++ live (skipn (S pos) (a_slots B)))) as Q1.
        { apply in_or_app. left. now apply HR. }
        rewrite <- HlivB, HliveB in Q1. unfold fabove in Q1. apply filter_In in Q1 as (Q1 & Q2).
        split; auto. split; [now apply aboveb_ok|].
        assert (Q3 : In (k, v) (live (firstn (e - pos) (skipn pos (a_slots B))))).
        { rewrite EskB. replace (e - pos) with (S (e - S pos)) by lia. cbn [firstn live flat_map].
          apply in_or_app. left. unfold rec1. rewrite HkB, HvB, HdB, Q. rewrite HvBv by auto. now left. }
        rewrite W2 in Q3. unfold fbelow in Q3. apply filter_In in Q3 as (_ & Q3). now apply belowb_ok. }
      split; [|split].
      - eapply handled_add; [exact Hh1|..].
        + unfold R'. destruct (s_del z); repeat constructor.
        + intros x w Hx. apply HR in Hx as (Q & -> & ->). destruct (HRk Q) as (Q1 & Q2 & Q3).
          split; [auto|]. split; [auto|]. exists (length (otr b)). split; [lia|]. rewrite <- Hc; [now apply assoc_in|].
          now apply Hrng.
        + intros x w x' w' Hx Hx'. apply HR in Hx' as (Q & -> & ->). destruct (HRk Q) as (_ & Q2 & _).
          destruct kk as [[k1 [|]]|]; cbn in Hle; try (subst acc; destruct Hx; fail).
          eapply kle_lt_trans; [eapply Hle; eauto|exact Q2].
        + intros x Hax Hbx [Q|Q]; [|left; now right].
          destruct (elt_dec (Key x) (lw a)) as [Hlo|Hlo]; [left; now right|].
          destruct (aboveb kk x) eqn:Eab.
          * right. assert (Hxk : kle x k) by (apply kle_not_lt; exact Q).
            assert (Hkr : in_range (lw a) x (hi_ext B)).
            { split; auto. eapply ele_elt_trans; [apply kle_ele; exact Hxk|]. now apply Hrng. }
            destruct (assoc x (live (a_slots B))) as [w|] eqn:Ew.
            -- left. apply assoc_in in Ew; auto.
               assert (Q1 : In (x, w) (fabove kk (live (a_slots B)))).
               { unfold fabove. rewrite filter_In. auto. }
               rewrite <- HliveB, HlivB in Q1. apply in_app_or in Q1 as [Q1|Q1].
               ++ apply in_map_iff. exists (x, w). auto.
               ++ exfalso. rewrite (proj1 (Hnext B HB)) in Q1. unfold fabove in Q1.
                  apply filter_In in Q1 as (_ & Q1). apply aboveb_ok in Q1. apply Q. exact Q1.
            -- right. exists (length (otr b)). split; [lia|]. rewrite <- Hc; auto.
          * left. left. destruct kk as [[k1 c]|]; [|discriminate]. intros Q'. apply aboveb_ok in Q'. congruence.
      - cbn [acc_le]. intros x w Hx. apply in_app_or in Hx as [Hx|Hx].
        + destruct kk as [[k1 [|]]|]; cbn in Hle; try (subst acc; destruct Hx; fail).
          eapply kle_trans; [eapply Hle; eauto|eauto].
        + apply HR in Hx as (_ & -> & _). apply kle_refl.
      - intros x Hx. apply Hab, Hab1. exact Hx. }
      split; [exact Hos|]. intros Hcl -> Hle. eapply (uend_handled lo hi a n); eauto. }
    destruct Hos as (Hos & Hfin').
    assert (Hgoal : ustepped (ULoop lo hi a ver kk pos e ie acc)
        (u_goto s u (ULoop lo hi a ver (Some (k, false)) (S pos) e ie (acc ++ R')))).
    { goes. split; [auto|]. split; [|auto]. split; [auto|]. intros _. exists n. auto. }
    destruct (s_del z) eqn:Edel.
    + unfold R' in Hgoal. rewrite app_nil_r in Hgoal. exact Hgoal.
    + rewrite (Hrec k v Hk Hv' eq_refl). cbn [ubind]. exact Hgoal.
  - assert (Hnx : exists x, mn_next n = Some x).
    { destruct Hes as (He & _). destruct (M_hdr _ _ Hr) as (_ & _ & I3 & _). rewrite I3.
      destruct (a_next A); [eauto|]. discriminate He. }
    destruct Hnx as (x & Ex). rewrite Ex. cbn [ubind].
    assert (Hnl : exists nx, och b x = Some nx /\ mn_inner nx = false).
    { destruct (mn_removed n) eqn:Er.
      - pose proof (i_okp _ _ _ _ V a n En) as Ho. unfold okp in Ho. rewrite Er in Ho.
        destruct (Ho Ei) as (_ & x' & nx & X1 & X2 & X3 & X4). exists nx. split; congruence.
      - destruct (leaf_facts_o a n En Ei Er) as (B & _ & _ & _ & _ & _ & _ & _ & _ & _ & Hny).
        now destruct (Hny x Ex). }
    goes. split; [split; [exact Hnl|]|].
    + apply (follow b hv u a n x G En); [unfold linked; rewrite Ei; auto|apply Hp].
    + split; [auto|]. intros Hcl. destruct (Hh Hcl) as (Hh1 & Hle & Hab). split; [|auto].
      destruct (leaf_facts_o a n En Ei (R Hcl)) as (B & HB & Hnx & Hnn & Hhk & Hrng & Hch & Hc & Hss & Hlh & Hny).
      destruct (Hny x Ex) as (Elx & _). destruct (Hpos B HB) as (HliveB & _). pose proof HB as (HrB & HiB & HokB).
      destruct (M_endpos n B hi HrB HiB HokB Vhi) as (ie2 & e2 & Ee2 & HesB).
      rewrite Hep in Ee2. injection Ee2 as <- <-.
      destruct (endpos_window _ _ _ _ pos HesB HokB Hnx Hhk) as (W1 & W2 & W3 & W4).
      destruct (W4 eq_refl) as (We & Wn).
      eapply handled_weak; [exact Hh1|]. intros k _ Hbk [Q|Q]; [left; now left|].
      destruct (elt_dec (Key k) (lw a)) as [Hlo|Hlo]; [left; now right|].
      destruct (aboveb kk k) eqn:Eab.
      * right. exists (length (otr b)). split; [lia|].
        assert (Hkr : in_range (lw a) k (hi_ext B)) by (split; [auto|now rewrite <- Elx]).
        rewrite <- Hc by auto. destruct (assoc k (live (a_slots B))) as [v|] eqn:Ek; auto.
        exfalso. apply assoc_in in Ek; auto.
        assert (Hin' : In (k, v) (fabove kk (live (a_slots B)))).
        { unfold fabove. rewrite filter_In. auto. }
        rewrite <- HliveB, skipn_all2 in Hin' by lia. destruct Hin'.
      * left. left. destruct kk as [[k1 c]|]; [|discriminate]. intros Q'. apply aboveb_ok in Q'. congruence.
Qed.

(** No step of a scan goes wrong. *)
Lemma uscan_body chk lo hi : ubounds (uth s u) = Some (lo, hi) -> mvb lo -> mvb hi ->
  ubody b lw u i0 (uth s u) -> (cl = true -> scan_ok b (uth s u) = true) ->
  (exists acc, uth s u = URet lo hi acc) \/ ustepped (uth s u) (scano_step u chk s).
Proof.
  intros Eb Vlo Vhi Hb Hc.
  destruct (uth s u) eqn:E; cbn [ubounds] in Eb; try discriminate; injection Eb as -> ->; rewrite <- E in *.
  - right. eapply ustep_root; eauto.
  - right. eapply ustep_desc; eauto.
  - right. eapply ustep_reset; eauto.
  - right. eapply ustep_pos; eauto.
  - right. eapply ustep_end; eauto.
  - right. eapply ustep_loop; eauto.
  - left. rewrite E. eauto.
Qed.

End Scanner.

End OScanProofs.
