(** The concurrent pessimistic multi-layer tree: every step keeps the invariant. *)
From Coq Require Import List Arith Bool Lia Sorted Permutation.
From Verif Require Import Params Mem Common Spec NodeAbs SLIface MLIface TreeState Levels TreeHeap
  LevelOps SLModel SLSearch SLSplit SLMerge SLProofs MLModel MLSearch MLSteps MLProofs
  ConcSpec ConcModel ConcLin MConcModel MConcInv.
Import ListNotations.

Section MConcSteps.
Context {P : Params} {O : OrdLaws P} {N : MLOps P} {LW : MLLaws P N} (fx : bool) (rd : addr -> bool).
#[local] Existing Instance no_leak.
Notation hinv := (@hinv P no_leak mn mrep).
Notation minv := (minv fx).
Notation is_read := ConcModel.is_read.

(** The pages [M] may have been changed; outside readers keep the others, in their places. *)
Definition stays (s : mcfg) (Ls : list lvl) (s' : mcfg) (Ls' : list lvl) (M : list addr) : Prop :=
  mfr s <= mfr s' /\ keeps M Ls Ls' /\ lkeeps M Ls Ls' /\
  (forall a, a < mfr s -> ~ In a M -> mch s' a = mch s a) /\
  (forall a, In a M -> rd a = true -> fx = false /\ mch s' a = None /\
     pageP (mch s) a (fun n => mn_inner n = true)).

(** What a step from a good configuration may do. *)
Definition good (t : tid) (s : mcfg) (Ls : list lvl) : Prop :=
  match mstepr fx rd t s with
  | KOk l s' => exists Ls' M, minv (m_emit s' l) Ls' /\ stays s Ls s' Ls' M
  | KBlock => True
  | KUndef => fx = false /\ exists c a, mth s t = MRd c a /\ mch s a = None
  end.

(** The end of every step: what is left to show (see [minv_step]). *)
Lemma minv_stays s Ls t h' root' fr' sh' sx' xl' p' pg' l Ls' M :
  minv s Ls ->
  dtree Ls' root' -> hinv h' fr' [] (concat Ls') -> h' 0 = None -> mfr s <= fr' ->
  lok sh' sx' xl' (holdS (supd (mth s) t p')) (holdX (supd (mth s) t p')) (holdW (supd (mth s) t p')) ->
  keeps M Ls Ls' -> (forall a, a < mfr s -> ~ In a M -> h' a = mch s a) ->
  (forall u, u <> t -> forall a, In a (sxl (mth s u)) -> ~ In a M) ->
  (forall u, u <> t -> forall a, In a (shl (mth s u)) -> ~ In a M \/
     (fx = false /\ a <> 0 /\ h' a = None)) ->
  (root' = mrt s \/ In 0 (sxl (mth s t))) ->
  pcok fx Ls' h' root' fr' p' ->
  (forall k, assoc k (recs (last Ls' [])) = eff (effs amap_empty (mtr s)) l k) ->
  justified amap_empty (mtr s) l ->
  (forall u, u <> t -> tnext (length (mtr s)) (tstat (mtr s)) l u = tstat (mtr s) u) ->
  mstat p' (tnext (length (mtr s)) (tstat (mtr s)) l t) ->
  (forall u c, In c (pg' u) -> mvalid (call_key c)) ->
  lkeeps M Ls Ls' ->
  (forall a, In a M -> rd a = true -> fx = false /\ h' a = None /\
     pageP (mch s) a (fun n => mn_inner n = true)) ->
  exists M', minv (m_emit (MCfg h' root' fr' sh' sx' xl' (supd (mth s) t p') pg' (mtr s)) l) Ls' /\
    stays s Ls (MCfg h' root' fr' sh' sx' xl' (supd (mth s) t p') pg' (mtr s)) Ls' M'.
Proof.
  intros V H1 H2 H3 H4 H5 H6 H7 H8 H9 H10 H11 H12 H13 H14 H15 H16 H17 H18. exists M.
  split; [eapply minv_step; eauto|]. unfold stays. cbn. auto.
Qed.

Lemma minv_stays_latch s Ls t sh' sx' xl' p' :
  minv s Ls ->
  lok sh' sx' xl' (holdS (supd (mth s) t p')) (holdX (supd (mth s) t p')) (holdW (supd (mth s) t p')) ->
  pcok fx Ls (mch s) (mrt s) (mfr s) p' ->
  (forall x, mstat (mth s t) x -> mstat p' x) ->
  exists M', minv (m_emit (MCfg (mch s) (mrt s) (mfr s) sh' sx' xl' (supd (mth s) t p') (mpg s) (mtr s)) LTau) Ls /\
    stays s Ls (MCfg (mch s) (mrt s) (mfr s) sh' sx' xl' (supd (mth s) t p') (mpg s) (mtr s)) Ls M'.
Proof.
  intros V H1 H2 H3. exists []. split; [now apply minv_latch|]. unfold stays. cbn.
  split; [auto|]. split; [apply keeps_refl|]. split; [apply lkeeps_refl|]. split; [auto|]. intros a [].
Qed.

(** ** Finding nodes *)
Lemma at_node Ls h f root k a : dtree Ls root -> hinv h f [] (concat Ls) -> onp Ls k a ->
  exists U L1 n L2 D d, Ls = U ++ (L1 ++ (a, n) :: L2) :: D /\
    level false (innerb D) (L1 ++ (a, n) :: L2) /\
    in_range (lasthi NegInf L1) k (hi_ext n) /\ h a = Some d /\ mrep d n /\ mn_inner d = innerb D /\
    fnd NegInf k (L1 ++ (a, n) :: L2) = a /\ node_wf false (innerb D) (lasthi NegInf L1) n.
Proof.
  intros HT HF Ho. apply onp_split in Ho as (U & L & D & -> & Hf).
  apply dtree_app in HT as (_ & HD & _). apply mdn_level in HD.
  destruct (lvl_find _ _ _ k HD) as (L1 & b & n & L2 & -> & Hb & Hr). rewrite Hb in Hf. subst b.
  assert (Hin : In (a, n) (concat (U ++ (L1 ++ (a, n) :: L2) :: D))).
  { rewrite concat_app. cbn [concat]. rewrite !in_app_iff. right. left. right. now left. }
  destruct (hinv_get _ _ _ _ _ a n HF Hin) as (d & Hd & Hrep).
  destruct (seg_wf _ _ _ _ _ _ _ _ _ HD) as (Hw & _).
  exists U, L1, n, L2, D, d. rewrite (proj1 (M_hdr _ _ Hrep)), (nw_inner _ _ _ _ Hw). auto 12.
Qed.

Lemma at_ab Ls h f root k a d : dtree Ls root -> hinv h f [] (concat Ls) -> mvalid k ->
  onp Ls k a -> h a = Some d -> mn_inner d = true ->
  exists U L1 n L2 s1 s s2 C1 b m C2 D db,
    Ls = U ++ (L1 ++ (a, n) :: L2) :: (C1 ++ (b, m) :: C2) :: D /\
    ctx (innerb D) k L1 a n L2 s1 s s2 C1 b m C2 /\ mrep d n /\
    routep d k = Some (length s1, b) /\ h b = Some db /\ mrep db m /\ a <> b /\
    hinv h f [] ((a, n) :: (b, m) :: (concat U ++ L1 ++ L2 ++ C1 ++ C2 ++ concat D)).
Proof.
  intros HT HF Hk Ho Hd Hi. apply onp_split in Ho as (U & L & D & -> & Hf).
  assert (HT' := HT). apply dtree_app in HT' as (_ & HD & _).
  pose proof (mdn_level _ _ HD) as HL.
  assert (HDi : innerb D = true).
  { destruct (lvl_find _ _ _ k HL) as (L1 & b & n & L2 & -> & Hb & Hr). rewrite Hb in Hf. subst b.
    destruct (hinv_get _ _ _ _ _ a n HF) as (d' & Hd' & Hrep).
    { rewrite concat_app. cbn [concat]. rewrite !in_app_iff. right. left. right. now left. }
    destruct (seg_wf _ _ _ _ _ _ _ _ _ HL) as (Hw & _).
    rewrite <- (nw_inner _ _ _ _ Hw), <- (proj1 (M_hdr _ _ Hrep)). congruence. }
  destruct D as [|C D]; [discriminate|]. destruct HD as (HL' & HE & HD).
  destruct (ctx_find (innerb D) L C k HL' (mdn_level _ _ HD) HE)
    as (L1 & p & n & L2 & s1 & s & s2 & C1 & b & m & C2 & -> & -> & CX).
  rewrite (cx_fp _ _ _ _ _ _ _ _ _ _ _ _ _ CX) in Hf. subst p.
  assert (HF2 : hinv h f [] ((a, n) :: (b, m) :: (concat U ++ L1 ++ L2 ++ C1 ++ C2 ++ concat D))).
  { eapply hinv_perm; [|exact HF]. rewrite concat_app. cbn [concat]. pfront.
    reflexivity || apply perm_swap. }
  destruct (hinv_get _ _ _ _ _ a n HF2) as (d' & Hd' & Hrep); [now left|].
  assert (d' = d) by congruence. subst d'.
  destruct (hinv_get _ _ _ _ _ b m HF2) as (db & Hdb & Hrb); [right; now left|].
  destruct (cx_search _ _ _ _ _ _ _ _ _ _ _ _ _ CX d Hrep Hk) as (rc & Hs & Hc).
  exists U, L1, n, L2, s1, s, s2, C1, b, m, C2, D, db.
  split; [auto|]. split; [auto|]. split; [auto|].
  split; [unfold routep; now rewrite Hs, Hc|]. split; [auto|]. split; [auto|].
  split; [exact (hinv_two _ _ _ _ _ _ _ _ HF2)|auto].
Qed.

(** A node is replaced by a cleaned-up version of itself. *)
Lemma refresh_at U L1 a n n' L2 D root h f o d : 
  dtree (U ++ (L1 ++ (a, n) :: L2) :: D) root ->
  hinv h f [] (concat (U ++ (L1 ++ (a, n) :: L2) :: D)) ->
  h a = Some d -> mrep (after d o) n' -> refreshed n n' ->
  let Ls' := U ++ (L1 ++ (a, n') :: L2) :: D in
  dtree Ls' root /\ hinv (cleaned h a o) f [] (concat Ls') /\
  recs (last Ls' []) = recs (last (U ++ (L1 ++ (a, n) :: L2) :: D) []) /\
  (forall k, fnd NegInf k (L1 ++ (a, n') :: L2) = fnd NegInf k (L1 ++ (a, n) :: L2)).
Proof.
  intros HT HF Hd Hr Href Ls'.
  assert (HF' : hinv (cleaned h a o) f [] (concat Ls')).
  { unfold Ls'. assert (HP : forall x, Permutation (concat (U ++ (L1 ++ (a, x) :: L2) :: D))
       ([] ++ (a, x) :: (concat U ++ L1 ++ L2 ++ concat D))).
    { intros x. rewrite concat_app. cbn [concat]. pfront. reflexivity. }
    eapply hinv_perm; [symmetry; apply HP|]. eapply cleaned_hinv'; eauto.
    eapply hinv_perm; [apply HP|exact HF]. }
  split; [|split; [exact HF'|]].
  - apply dtree_app in HT as (HU & HD & Ht). pose proof (mdn_level _ _ HD) as HL.
    destruct (seg_wf _ _ _ _ _ _ _ _ _ HL) as (Hw & _).
    unfold refreshed in Href. rewrite (nw_inner _ _ _ _ Hw) in Href.
    destruct D as [|X D]; cbn [innerb] in *; [|subst n'; apply dtree_app; auto].
    destruct (node_wf_leaf_upd _ _ _ _ _ _ Hw Href) as (Hw' & Hnx & Hh & Hlive); [intros ? []|].
    apply dtree_app. rewrite (entries_replace _ _ _ n) by auto. split; [auto|]. split; [|auto].
    cbn [mdn]. eapply seg_replace; eauto.
  - apply dtree_app in HT as (HU & HD & Ht). pose proof (mdn_level _ _ HD) as HL.
    destruct (seg_wf _ _ _ _ _ _ _ _ _ HL) as (Hw & _).
    unfold refreshed in Href. rewrite (nw_inner _ _ _ _ Hw) in Href.
    destruct D as [|X D]; cbn [innerb] in *; [|subst n'; auto].
    destruct (node_wf_leaf_upd _ _ _ _ _ _ Hw Href) as (Hw' & Hnx & Hh & Hlive); [intros ? []|].
    split.
    + unfold Ls'. unfold lvl in *. rewrite !last_last. rewrite !recs_mid_eq. now rewrite Hlive.
    + intros k. symmetry. eapply (fnd_entries false); eauto.
      * eapply seg_replace; eauto.
      * symmetry. now apply entries_replace.
Qed.

Lemma clean_eq s a o : m_clean s a o =
  MCfg (cleaned (mch s) a o) (mrt s) (mfr s) (msh s) (msx s) (mxl s) (mth s) (mpg s) (mtr s).
Proof. destruct o; cbn; [reflexivity|]. now destruct s. Qed.

(** ** Latches of the other threads *)
Section Step.
Context (s : mcfg) (Ls : list lvl) (t : tid) (V : minv s Ls).

Lemma excl_x a u : In a (sxl (mth s t)) -> u <> t -> ~ In a (sxl (mth s u)).
Proof.
  intros H1 Hu H2. apply (l_x _ _ _ _ _ _ (v_lat _ _ _ V)) in H1.
  apply (l_x _ _ _ _ _ _ (v_lat _ _ _ V)) in H2. congruence.
Qed.
Lemma excl_s a u : msh s a = [] -> ~ In a (shl (mth s u)).
Proof.
  intros H1 H2. apply (l_s _ _ _ _ _ _ (v_lat _ _ _ V)) in H2.
  rewrite H1 in H2. destruct H2.
Qed.
Lemma canX_nil a : canX rd s a = true -> msh s a = [].
Proof. unfold canX. destruct (msh s a); [auto|discriminate]. Qed.
Lemma canSIX_none a : canSIX s a = true -> msx s a = None.
Proof. unfold canSIX. destruct (msx s a); [discriminate|auto]. Qed.
Lemma canS_false a : canS s a = true -> mxl s a = false.
Proof. unfold canS. destruct (mxl s a); [discriminate|auto]. Qed.

Lemma ne0 a : mch s a <> None -> a <> 0.
Proof. intros H ->. apply H. apply V. Qed.
Lemma lt_fr a : mch s a <> None -> a < mfr s.
Proof. apply (hi_fresh _ _ _ _ _ (v_heap _ _ _ V)). Qed.

Definition touched (a : addr) (o : option mn) : list addr := match o with None => [] | Some _ => [a] end.

Lemma touched_x a o u : In a (sxl (mth s t)) -> u <> t -> forall x, In x (sxl (mth s u)) -> ~ In x (touched a o).
Proof.
  intros Ha Hu x Hx. destruct o; cbn; [|tauto]. intros [<-|[]]. now apply (excl_x a u).
Qed.
Lemma touched_s a o u : canClean rd s a o = true -> forall x, In x (shl (mth s u)) -> ~ In x (touched a o).
Proof.
  intros Ha x Hx. destruct o; cbn in *; [|tauto]. intros [<-|[]]. now apply (excl_s a u (canX_nil _ Ha)).
Qed.
Lemma touched_h h a o x : ~ In x (touched a o) -> cleaned h a o x = h x.
Proof.
  destruct o; cbn; auto. intros H. apply upd_diff. intros ->. apply H. auto.
Qed.

End Step.

Ltac lokfin E :=
  let u := fresh "u" in let x := fresh "x" in
  intros u x; unfold holdS, holdX, holdW, supd;
  match goal with |- context [Nat.eqb u ?t] => destruct (Nat.eqb_spec u t); [subst u|] end;
  rewrite ?E; cbn [shl sxl xll In]; try tauto; intuition (subst; try congruence; auto).
Ltac lokx E tac := eapply lok_ext; [tac|lokfin E|lokfin E|lokfin E].

(** ** The steps *)
Section Steps.
Context (s : mcfg) (Ls : list lvl) (t : tid) (V : minv s Ls).
(** Nobody reads a page that is latched in X mode. *)
Hypothesis HRD : forall x, mxl s x = true -> rd x = false.
Let VL := v_lat _ _ _ V.
Let HT := v_tree _ _ _ V.
Let HF := v_heap _ _ _ V.

Lemma rd_X a : canX rd s a = true -> rd a = false.
Proof. unfold canX. destruct (msh s a); [|discriminate]. destruct (rd a); [discriminate|auto]. Qed.
Lemma rd_W a : In a (xll (mth s t)) -> rd a = false.
Proof. intros H. apply HRD. apply (l_w _ _ _ _ _ _ VL). exists t. exact H. Qed.
Lemma rd_touched a o : canClean rd s a o = true -> forall x, In x (touched a o) -> rd x = true ->
  forall Q : Prop, Q.
Proof.
  intros H x Hx Hr. destruct o; cbn in *; [|destruct Hx]. destruct Hx as [<-|[]].
  apply rd_X in H. congruence.
Qed.
Lemma rd_three (M : list addr) : (forall x, In x M -> rd x = false) -> forall x, In x M -> rd x = true ->
  forall Q : Prop, Q.
Proof. intros H x Hx Hr. rewrite (H x Hx) in Hr. discriminate. Qed.

Lemma st_idle : mth s t = MIdle -> good t s Ls.
Proof.
  intros E. unfold good, mstepr. rewrite E. destruct (mpg s t) as [|c cs] eqn:Ep; [exact I|].
  exists Ls.
  assert (Hc : mvalid (call_key c)).
  { apply (v_prog _ _ _ V t). rewrite Ep. now left. }
  assert (Hst : tstat (mtr s) t = TIdle).
  { pose proof (v_stat _ _ _ V t) as H. now rewrite E in H. }
  refine (minv_stays s Ls t _ _ _ _ _ _ _ _ _ Ls [] V _ _ _ _ _ _ _ _ _ _ _ _ _ _ _ _ _ _); auto; try apply V.
  - destruct (is_read c); lokx E ltac:(exact VL).
  - apply keeps_refl.
  - destruct (is_read c) eqn:Er; cbn; split; auto.
  - intros u Hu. cbn. now rewrite supd_diff.
  - cbn. rewrite supd_same. destruct (is_read c); cbn; eauto.
  - intros u c' Hin. unfold supd in Hin. destruct (u =? t).
    + apply (v_prog _ _ _ V t). rewrite Ep. now right.
    + now apply (v_prog _ _ _ V u).
  - apply lkeeps_refl.
  - intros x [].
Qed.

Lemma st_ret r : mth s t = MRet r -> good t s Ls.
Proof.
  intros E. unfold good, mstepr. rewrite E. exists Ls.
  assert (Hst : tstat (mtr s) t = TDone r).
  { pose proof (v_stat _ _ _ V t) as H. now rewrite E in H. }
  refine (minv_stays s Ls t _ _ _ _ _ _ _ _ _ Ls [] V _ _ _ _ _ _ _ _ _ _ _ _ _ _ _ _ _ _); auto; try apply V.
  - lokx E ltac:(exact VL).
  - apply keeps_refl.
  - exact I.
  - intros u Hu. cbn. now rewrite supd_diff.
  - cbn. now rewrite supd_same.
  - apply lkeeps_refl.
  - intros x [].
Qed.

Lemma st_r0 c : mth s t = MR0 c -> good t s Ls.
Proof.
  intros E. unfold good, mstepr. rewrite E. destruct (canS s 0) eqn:Ec; [|exact I]. exists Ls.
  pose proof (v_pc _ _ _ V t) as Hp. rewrite E in Hp.
  refine (minv_stays_latch s Ls t _ _ _ _ V _ _ _); auto.
  - lokx E ltac:(eapply lok_lockS; [exact VL|now apply canS_false]).
  - now rewrite E.
Qed.

Lemma st_r1 c : mth s t = MR1 c -> good t s Ls.
Proof.
  intros E. unfold good, mstepr. rewrite E.
  destruct (root_dom _ _ _ _ HT HF) as (nr & D & d & _ & _ & Hd & _ & Ho). rewrite Hd. cbn [kbind].
  destruct (canS s (mrt s)) eqn:Ec; [|exact I]. exists Ls.
  pose proof (v_pc _ _ _ V t) as Hp. rewrite E in Hp.
  assert (Hr0 : mrt s <> 0) by (apply (ne0 _ _ V); congruence).
  refine (minv_stays_latch s Ls t _ _ _ _ V _ _ _); auto.
  - lokx E ltac:(eapply lok_unlockS; eapply lok_lockS; [exact VL|now apply canS_false]).
  - cbn. split; [exact Hp|]. split; [auto|]. split; [apply (lt_fr _ _ V); congruence|]. right.
    split; [congruence|auto].
  - now rewrite E.
Qed.

Lemma st_rd c a : mth s t = MRd c a -> good t s Ls.
Proof.
  intros E. unfold good, mstepr. rewrite E.
  pose proof (v_pc _ _ _ V t) as Hp. rewrite E in Hp. destruct Hp as (Hc & H0 & Hlt & Hp).
  destruct Hp as [(Hfx & Hn)|(Hn & Ho)]; [rewrite Hn; cbn; eauto|].
  destruct (at_node _ _ _ _ _ _ HT HF Ho) as (U & L1 & n & L2 & D & d & EL & Hlv & Hr & Hd & Hrep & Hin & Hf & Hw).
  rewrite Hd. cbn [kbind]. destruct (mn_inner d) eqn:Ei.
  - destruct (at_ab _ _ _ _ _ _ _ HT HF (proj2 Hc) Ho Hd Ei) as
      (U' & L1' & n' & L2' & s1 & s0 & s2 & C1 & b & m & C2 & D' & db & EL' & CX & _ & Er & Hdb & Hmb & Hab & _).
    rewrite Er. cbn [kbind snd]. rewrite Hdb. cbn [kbind].
    destruct (canS s b) eqn:Ec; [|exact I]. exists Ls.
    refine (minv_stays_latch s Ls t _ _ _ _ V _ _ _); auto.
    + lokx E ltac:(eapply lok_unlockS; eapply lok_lockS; [exact VL|now apply canS_false]).
    + cbn. split; [exact Hc|]. split; [apply (ne0 _ _ V); congruence|].
      split; [apply (lt_fr _ _ V); congruence|]. right.
      split; [congruence|]. exists (C1 ++ (b, m) :: C2). split.
      * rewrite EL'. apply in_or_app. right. right. now left.
      * exact (cx_fc _ _ _ _ _ _ _ _ _ _ _ _ _ CX).
    + now rewrite E.
  - rewrite Hin in *. destruct D; [|discriminate]. cbn [innerb] in *.
    destruct Hc as [Hc Hk]. destruct c as [k| | | |]; try discriminate Hc. cbn [call_key mleaf_op] in *.
    rewrite (M_read d n k Hrep (nw_inner _ _ _ _ Hw) (nw_body _ _ _ _ Hw) Hk). cbn [kbind fst snd].
    exists Ls.
    pose proof (v_stat _ _ _ V t) as Hst. rewrite E in Hst. destruct Hst as (i & Hst).
    assert (Hm : assoc k (live (a_slots n)) = effs amap_empty (mtr s) k).
    { rewrite <- (v_map _ _ _ V k). rewrite EL. unfold lvl in *. rewrite last_last.
      symmetry. eapply recs_assoc; eauto. }
    refine (minv_stays s Ls t _ _ _ _ _ _ _ _ _ Ls [] V _ _ _ _ _ _ _ _ _ _ _ _ _ _ _ _ _ _); auto; try apply V.
    + lokx E ltac:(eapply lok_unlockS; exact VL).
    + apply keeps_refl.
    + exact I.
    + cbn. exists i, (length (mtr s)). split; [auto|].
      split; [split; [eapply tstat_le; eauto|lia]|]. rewrite firstn_all. now rewrite Hm.
    + intros u Hu. cbn. now rewrite supd_diff.
    + cbn. now rewrite supd_same.
    + apply lkeeps_refl.
    + intros x [].
Qed.

Lemma st_w0 c : mth s t = MW0 c -> good t s Ls.
Proof.
  intros E. unfold good, mstepr. rewrite E. destruct (canSIX s 0) eqn:Ec; [|exact I]. exists Ls.
  pose proof (v_pc _ _ _ V t) as Hp. rewrite E in Hp.
  refine (minv_stays_latch s Ls t _ _ _ _ V _ _ _); auto.
  - lokx E ltac:(eapply lok_own; [exact VL|now apply canSIX_none]).
  - now rewrite E.
Qed.

Lemma st_w1 c : mth s t = MW1 c -> good t s Ls.
Proof.
  intros E. unfold good, mstepr. rewrite E.
  destruct (root_dom _ _ _ _ HT HF) as (nr & D & d & _ & _ & Hd & _ & Ho). rewrite Hd. cbn [kbind].
  destruct (canSIX s (mrt s)) eqn:Ec; [|exact I]. exists Ls.
  pose proof (v_pc _ _ _ V t) as Hp. rewrite E in Hp.
  refine (minv_stays_latch s Ls t _ _ _ _ V _ _ _); auto.
  - lokx E ltac:(eapply lok_own; [exact VL|now apply canSIX_none]).
  - cbn. split; [exact Hp|]. split; [auto|congruence].
  - now rewrite E.
Qed.

Lemma canX0 : canX rd s 0 = true -> In 0 (sxl (mth s t)) -> forall p,
  shl p = [] -> sxl p = sxl (mth s t) -> xll p = [0] -> xll (mth s t) = [] -> shl (mth s t) = [] ->
  lok (msh s) (msx s) (supd (mxl s) 0 true)
    (holdS (supd (mth s) t p)) (holdX (supd (mth s) t p)) (holdW (supd (mth s) t p)).
Proof.
  intros Hx H0 p E1 E2 E3 E4 E5. eapply lok_ext.
  - eapply (lok_up _ _ _ _ _ _ VL t 0); [exact H0|now apply canX_nil].
  - intros u x. unfold holdS, supd. destruct (Nat.eqb_spec u t) as [->|]; [|tauto]. now rewrite E1, E5.
  - intros u x. unfold holdX, supd. destruct (Nat.eqb_spec u t) as [->|]; [|tauto]. now rewrite E2.
  - intros u x. unfold holdW, supd. destruct (Nat.eqb_spec u t) as [->|]; [|tauto]. rewrite E3, E4.
    cbn. intuition congruence.
Qed.

Lemma st_shr c a : mth s t = MShr c a -> good t s Ls.
Proof.
  intros E. unfold good, mstepr. rewrite E.
  pose proof (v_pc _ _ _ V t) as Hp. rewrite E in Hp. destruct Hp as (Hc & Ha & _).
  destruct (root_dom _ _ _ _ HT HF) as (nr & D & d & EL & HD & Hd & Hrep & Ho). rewrite <- Ha in *.
  rewrite Hd. cbn [kbind].
  destruct (Nat.eqb (mn_rc d) 1 && mn_inner d) eqn:Eb.
  - destruct (canX rd s 0) eqn:Ex; [|exact I]. exists Ls.
    apply andb_true_iff in Eb as [Eb1 Eb2]. apply Nat.eqb_eq in Eb1.
    refine (minv_stays_latch s Ls t _ _ _ _ V _ _ _); auto.
    + apply canX0; rewrite ?E; cbn; auto.
    + cbn. split; [exact Hc|]. split; [auto|]. exists d. auto.
    + now rewrite E.
  - destruct (lvl_one _ _ _ (mdn_level _ _ HD)) as [Hw _].
    destruct (M_need_split d nr Hrep) as (b & o & m' & Hs & Hm' & Href & Hsp & Hrm).
    { rewrite (nw_inner _ _ _ _ Hw). apply (nw_body _ _ _ _ Hw). }
    rewrite Hs. cbn [kbind fst snd].
    destruct (canClean rd s a o) eqn:Ec; [|exact I].
    rewrite EL in HT, HF.
    destruct (refresh_at [] [] a nr m' [] D a (mch s) (mfr s) o d HT HF Hd Hm' Href)
      as (HT' & HF' & Hrecs & Hfnd). cbn [app] in *. rewrite Ha in HT' at 2.
    assert (Ha0 : a <> 0) by (apply (ne0 _ _ V); congruence).
    assert (Hin : In a (sxl (mth s t))) by (rewrite E; right; now left).
    assert (Hc' : cleaned (mch s) a o a = Some (after d o)) by now apply cleaned_same.
    assert (HK : keeps (touched a o) Ls ([(a, m')] :: D)).
    { rewrite EL. apply (keeps_one _ []). intros k _. apply Hfnd. }
    assert (H0' : cleaned (mch s) a o 0 = None).
    { rewrite cleaned_diff by auto. apply V. }
    destruct b; rewrite clean_eq; exists ([(a, m')] :: D).
    + refine (minv_stays s Ls t _ _ _ _ _ _ _ _ _ _ (touched a o) V _ _ _ _ _ _ _ _ _ _ _ _ _ _ _ _ _ _);
        cbn [m_goto mrt mfr mch msh msx mxl mth mpg mtr]; auto.
      * lokx E ltac:(exact VL).
      * intros x _ Hx. now apply touched_h.
      * intros u Hu x Hx. now apply (touched_x s Ls t V a o u).
      * intros u Hu x Hx. left. now apply (touched_s s Ls t V a o u).
      * cbn [pcok]. split; [exact Hc|]. split; [auto|]. exists (after d o). auto.
      * intros k. transitivity (assoc k (recs (last Ls []))); [rewrite EL; f_equal; exact Hrecs|apply V].
      * exact I.
      * cbn [tnext]. pose proof (v_stat _ _ _ V t) as Hst. now rewrite E in Hst.
      * apply V.
      * rewrite EL. now apply (lkeeps_one _ []).
      * intros x Hx Hr; eapply rd_touched; eauto.
    + refine (minv_stays s Ls t _ _ _ _ _ _ _ _ _ _ (touched a o) V _ _ _ _ _ _ _ _ _ _ _ _ _ _ _ _ _ _);
        cbn [m_goto m_own mrt mfr mch msh msx mxl mth mpg mtr]; auto.
      * lokx E ltac:(eapply (lok_disown _ _ _ _ _ _ VL t); unfold holdX; rewrite E; now left).
      * intros x _ Hx. now apply touched_h.
      * intros u Hu x Hx. now apply (touched_x s Ls t V a o u).
      * intros u Hu x Hx. left. now apply (touched_s s Ls t V a o u).
      * cbn [pcok]. split; [exact Hc|]. split.
        -- exists [(a, m')]. split; [now left|]. rewrite Hfnd.
           destruct (Ho (call_key c)) as (T & HTin & HTf).
           cbn [fnd]. rewrite (proj2 (lvl_one _ _ _ (mdn_level _ _ HD))).
           destruct (elt_dec (Key (call_key c)) PosInf) as [|E3]; auto. exfalso. apply E3. exact I.
        -- exists (after d o). auto.
      * intros k. transitivity (assoc k (recs (last Ls []))); [rewrite EL; f_equal; exact Hrecs|apply V].
      * exact I.
      * cbn [tnext]. pose proof (v_stat _ _ _ V t) as Hst. now rewrite E in Hst.
      * apply V.
      * rewrite EL. now apply (lkeeps_one _ []).
      * intros x Hx Hr; eapply rd_touched; eauto.
Qed.

Lemma fnd_root a nr D k : mdn [(a, nr)] D -> fnd NegInf k [(a, nr)] = a.
Proof.
  intros HD. cbn [fnd]. rewrite (proj2 (lvl_one _ _ _ (mdn_level _ _ HD))).
  destruct (elt_dec (Key k) PosInf) as [|E3]; auto. exfalso. apply E3. exact I.
Qed.

Lemma st_shrx c a : mth s t = MShrX c a -> good t s Ls.
Proof.
  intros E. unfold good, mstepr. rewrite E.
  pose proof (v_pc _ _ _ V t) as Hp. rewrite E in Hp. destruct Hp as (Hc & Ha & (d & Hd & Hrc & Hin)).
  destruct (root_dom _ _ _ _ HT HF) as (nr & D & d' & EL & HD & Hd' & Hrep & Ho). rewrite <- Ha in *.
  assert (d' = d) by congruence. subst d'.
  destruct (shrink_core _ _ _ _ HD Hrep ltac:(lia) Hin) as (_ & b & mb & D' & ED & Hb & HD').
  assert (HF2 : hinv (mch s) (mfr s) [] ((a, nr) :: (b, mb) :: concat D')).
  { rewrite EL, ED in HF. exact HF. }
  assert (Hab := hinv_two _ _ _ _ _ _ _ _ HF2).
  destruct (hinv_get _ _ _ _ _ b mb HF2) as (db & Hdb & Hmb); [right; now left|].
  rewrite Hd. cbn [kbind]. rewrite Hb. cbn [kbind]. rewrite Hdb. cbn [kbind].
  destruct (canSIX s b && (negb fx || canX rd s a)) eqn:Eg; [|exact I].
  apply andb_true_iff in Eg as [Eg1 Eg2]. apply orb_true_iff in Eg2.
  assert (Ha0 : a <> 0) by (apply (ne0 _ _ V); congruence).
  assert (Hb0 : b <> 0) by (apply (ne0 _ _ V); congruence).
  exists ([(b, mb)] :: D').
  refine (minv_stays s Ls t _ _ _ _ _ _ _ _ _ _ [a] V _ _ _ _ _ _ _ _ _ _ _ _ _ _ _ _ _ _);
    cbn [m_goto m_x m_root m_free m_own mrt mfr mch msh msx mxl mth mpg mtr]; auto.
  - split; auto.
  - apply (hinv_release _ (mch s) (mfr s) [] [] a nr). exact HF2.
  - rewrite upd_diff by auto. apply V.
  - lokx E ltac:(eapply (lok_down _ _ _ _ _ _) with (t := t);
      [eapply (lok_disown _ _ _ _ _ _) with (t := t);
         [eapply lok_own; [exact VL|now apply canSIX_none]|]|];
      unfold holdX; rewrite ?E; cbn [sxl In]; intuition congruence).
  - intros k x (T & HTin & HTf) Hx. rewrite EL, ED in HTin. destruct HTin as [<-|HTin].
    + exfalso. apply Hx. left. rewrite <- HTf. symmetry. eapply fnd_root; eauto.
    + exists T. auto.
  - intros x _ Hx. apply upd_diff. intros ->. apply Hx. now left.
  - intros u Hu x Hx [<-|[]]. apply (excl_x s Ls t V a u); auto. rewrite E. right. now left.
  - intros u Hu x Hx. destruct (Nat.eq_dec x a) as [->|Hne].
    + destruct Eg2 as [Eg2|Eg2].
      * right. split; [now destruct fx|]. split; [auto|]. apply upd_same.
      * left. intros _. now apply (excl_s s Ls V a u (canX_nil _ _ Eg2)).
    + left. intros [<-|[]]. auto.
  - right. rewrite E. now left.
  - cbn [pcok]. split; [exact Hc|]. split; [auto|]. rewrite upd_diff by auto. congruence.
  - intros k. transitivity (assoc k (recs (last Ls []))); [|apply V]. rewrite EL, ED. reflexivity.
  - exact I.
  - cbn [tnext]. pose proof (v_stat _ _ _ V t) as Hst. now rewrite E in Hst.
  - apply V.
  - intros x (T & HTin & HTf) Hx. rewrite EL, ED in HTin. destruct HTin as [<-|HTin]; [|exists T; auto].
    exfalso. apply Hx. left. cbn in HTf. congruence.
  - intros x [<-|[]] Hr. destruct Eg2 as [Eg2|Eg2]; [|apply rd_X in Eg2; congruence].
    split; [now destruct fx|]. split; [apply upd_same|]. exists d. auto.
Qed.

Lemma st_rs c a : mth s t = MRs c a -> good t s Ls.
Proof.
  intros E. unfold good, mstepr. rewrite E.
  pose proof (v_pc _ _ _ V t) as Hp. rewrite E in Hp.
  destruct (canX rd s 0) eqn:Ex; [|exact I]. exists Ls.
  refine (minv_stays_latch s Ls t _ _ _ _ V _ _ _); auto.
  - apply canX0; rewrite ?E; cbn; auto.
  - now rewrite E.
Qed.

Lemma st_rsx c a : mth s t = MRsX c a -> good t s Ls.
Proof.
  intros E. unfold good, mstepr. rewrite E.
  pose proof (v_pc _ _ _ V t) as Hp. rewrite E in Hp. destruct Hp as (Hc & Ha & (d & Hd & Hsp)).
  destruct (root_dom _ _ _ _ HT HF) as (nr & D & d' & EL & HD & Hd' & Hrep & Ho). rewrite <- Ha in *.
  assert (d' = d) by congruence. subst d'.
  rewrite Hd. cbn [kbind]. destruct (canX rd s a) eqn:Ex; [|exact I].
  destruct (root_core (call_key c) a nr D d (mfr s) HD Hrep Hsp)
    as (l' & r' & sep & ml & mr & dn & nn & Es & Ei & Eh & Ecm & Er2 & Rn & Rl & Rr & Hrl & Hrr & HD3 & Hrecs3 & Hfnd).
  cbv zeta. rewrite Ei, Es. cbn [kbind fst snd]. rewrite Eh. cbn [kbind]. rewrite Er2. cbn [kbind].
  rewrite Ecm. cbn [kbind].
  assert (Ha0 : a <> 0) by (apply (ne0 _ _ V); congruence).
  assert (Hlt : a < mfr s) by (apply (lt_fr _ _ V); congruence).
  pose proof (v_pos _ _ _ V) as Hpos.
  assert (HF2 : hinv (mch s) (mfr s) [] ((a, nr) :: concat D)).
  { rewrite EL in HF. exact HF. }
  set (f := mfr s) in *.
  set (h' := upd (upd (upd (mch s) f (Some r')) (S f) (Some dn)) a (Some l')).
  set (Ls' := [(S f, nn)] :: [(a, ml); (f, mr)] :: D).
  assert (HF' : hinv h' (S (S f)) [] (concat Ls')).
  { apply (hinv_set _ _ (S (S f)) [] [(S f, nn)] a nr ml ((f, mr) :: concat D)); auto.
    apply (hinv_new _ _ (S f) [] [] nn ((a, nr) :: (f, mr) :: concat D)); auto.
    apply (hinv_new _ _ f [] [(a, nr)] mr (concat D)); auto. }
  assert (HT' : dtree Ls' (S f)) by (split; auto).
  assert (H0' : h' 0 = None).
  { unfold h'. rewrite !upd_diff by lia. apply V. }
  assert (HK : keeps [a] Ls Ls').
  { intros k x (T & HTin & HTf) Hx. rewrite EL in HTin. destruct HTin as [<-|HTin].
    + exfalso. apply Hx. left. rewrite <- HTf. symmetry. eapply fnd_root; eauto.
    + exists T. split; [right; now right|auto]. }
  assert (Hh : forall x, x < f -> ~ In x [a] -> h' x = mch s x).
  { intros x Hx Hn. unfold h'. rewrite !upd_diff; auto; try lia. intros ->. apply Hn. now left. }
  assert (HX : forall u, u <> t -> forall x, In x (sxl (mth s u)) -> ~ In x [a]).
  { intros u Hu x Hx [<-|[]]. apply (excl_x s Ls t V a u); auto. rewrite E. right. now left. }
  assert (HS : forall u, u <> t -> forall x, In x (shl (mth s u)) -> ~ In x [a] \/ (fx = false /\ x <> 0 /\ h' x = None)).
  { intros u Hu x Hx. left. intros [<-|[]]. apply (excl_s s Ls V a u (canX_nil _ _ Ex)); auto. }
  assert (Hmap : forall k, assoc k (recs (last Ls' [])) = effs amap_empty (mtr s) k).
  { intros k. rewrite <- (v_map _ _ _ V k), EL. unfold Ls'.
    f_equal. transitivity (recs (last D [(a, ml); (f, mr)])).
    - f_equal. etransitivity; [apply (last_cons [(S f, nn)])|apply last_cons].
    - etransitivity; [exact Hrecs3|]. f_equal. symmetry. apply (last_cons [(a, nr)]). }
  assert (Hst : mstat (MWd c a) (tstat (mtr s) t)).
  { pose proof (v_stat _ _ _ V t) as Hst. now rewrite E in Hst. }
  destruct (fresh_free _ _ _ f V (le_n _)) as (Hfx & Hfs & Hfl).
  assert (Hfa : f <> a) by lia. assert (Hf0 : f <> 0) by lia.
  exists Ls'. destruct (ltb (call_key c) sep).
  - refine (minv_stays s Ls t _ _ _ _ _ _ _ _ _ _ [a] V _ _ _ _ _ _ _ _ _ _ _ _ _ _ _ _ _ _);
      cbn [m_goto m_x m_root m_free m_own m_set m_new mrt mfr mch msh msx mxl mth mpg mtr]; auto.
    + lokx E ltac:(eapply (lok_disown _ _ _ _ _ _ VL t); unfold holdX; rewrite E; now left).
    + right. rewrite E. now left.
    + cbn [pcok]. split; [exact Hc|]. split.
      * exists [(a, ml); (f, mr)]. split; [right; now left|auto].
      * exists l'. split; [apply upd_same|auto].
    + exact I.
    + apply V.
    + rewrite EL. unfold Ls'. intros x (T & HTin & HTf) _. destruct HTin as [<-|HTin].
      { exists [(a, ml); (f, mr)]. split; [right; now left|exact HTf]. }
      exists T. split; [right; right; exact HTin|exact HTf].
    + intros x Hx Hrx. eapply rd_three; eauto. intros y [<-|[]]. now apply rd_X.
  - refine (minv_stays s Ls t _ _ _ _ _ _ _ _ _ _ [a] V _ _ _ _ _ _ _ _ _ _ _ _ _ _ _ _ _ _);
      cbn [m_goto m_x m_root m_free m_own m_set m_new mrt mfr mch msh msx mxl mth mpg mtr]; auto.
    + lokx E ltac:(eapply (lok_disown _ _ _ _ _ _) with (t := t);
      [eapply (lok_disown _ _ _ _ _ _) with (t := t);
         [eapply (lok_own _ _ _ _ _ _ VL t f); exact Hfx|]|];
      unfold holdX; rewrite ?E; cbn [sxl In]; intuition lia).
    + right. rewrite E. now left.
    + cbn [pcok]. split; [exact Hc|]. split.
      * exists [(a, ml); (f, mr)]. split; [right; now left|auto].
      * exists r'. split; [|auto]. unfold h'. fold f. rewrite !upd_diff by lia. apply upd_same.
    + exact I.
    + apply V.
    + rewrite EL. unfold Ls'. intros x (T & HTin & HTf) _. destruct HTin as [<-|HTin].
      { exists [(a, ml); (f, mr)]. split; [right; now left|exact HTf]. }
      exists T. split; [right; right; exact HTin|exact HTf].
    + intros x Hx Hrx. eapply rd_three; eauto. intros y [<-|[]]. now apply rd_X.
Qed.

Lemma leafop_mleaf c d rc d' : is_read c = false -> leafop c d = Some (rc, d') ->
  mleaf_op d c = Some (match rc with kSuccess => true | _ => false end, rc_ret rc, d').
Proof.
  destruct c; cbn; intros Hr H; try discriminate.
  - destruct (mn_write d k v); inv H. reflexivity.
  - now rewrite H.
  - now rewrite H.
  - now rewrite H.
Qed.

Lemma st_wd c a : mth s t = MWd c a -> good t s Ls.
Proof.
  intros E. unfold good, mstepr. rewrite E.
  pose proof (v_pc _ _ _ V t) as Hp. rewrite E in Hp. destruct Hp as (Hc & Ho & Hroom).
  destruct (at_node _ _ _ _ _ _ HT HF Ho) as (U & L1 & n & L2 & D & d & EL & Hlv & Hr & Hd & Hrep & Hin & Hf & Hw).
  assert (Hrd := roomat_get _ _ _ Hroom Hd).
  rewrite Hd. cbn [kbind]. destruct (mn_inner d) eqn:Ei.
  - destruct (at_ab _ _ _ _ _ _ _ HT HF (proj2 Hc) Ho Hd Ei) as
      (U' & L1' & n' & L2' & s1 & s0 & s2 & C1 & b & m & C2 & D' & db & EL' & CX & _ & Er & Hdb & Hmb & Hab & _).
    rewrite Er. cbn [kbind fst snd]. rewrite Hdb. cbn [kbind].
    destruct (canSIX s b) eqn:Ec; [|exact I]. exists Ls.
    refine (minv_stays_latch s Ls t _ _ _ _ V _ _ _); auto.
    + lokx E ltac:(eapply lok_own; [exact VL|now apply canSIX_none]).
    + cbn. split; [exact Hc|]. split; [exact Ho|]. split; [exact Hroom|].
      split; [exists d; auto|congruence].
    + now rewrite E.
  - destruct D; [|discriminate Hin]. cbn [innerb] in *.
    destruct (canX rd s a) eqn:Ex; [|exact I].
    assert (Hm : forall k, assoc k (recs (L1 ++ (a, n) :: L2)) = effs amap_empty (mtr s) k).
    { intros k. rewrite <- (v_map _ _ _ V k), EL. unfold lvl in *. now rewrite last_last. }
    assert (HFe : hinv (mch s) (mfr s) [] ((concat U ++ L1) ++ (a, n) :: L2)).
    { eapply hinv_eq; [|exact HF]. rewrite EL, concat_app. cbn [concat]. now rewrite app_nil_r, <- app_assoc. }
    destruct (recs_mid _ _ _ _ _ _ Hlv Hr) as [HA HB].
    pose proof (recs_assoc _ _ _ _ _ _ Hlv Hr) as Has. rewrite Hm in Has.
    destruct (leafop_ok c (effs amap_empty (mtr s)) d n (proj1 Hc) Hrep (nw_inner _ _ _ _ Hw)
                (nw_body _ _ _ _ Hw) (proj2 Hc) Hrd Has) as (rc & d' & n' & Eop & Hrep' & Hret & Hcase).
    rewrite (leafop_mleaf c d rc d' (proj1 Hc) Eop). cbn [kbind fst snd].
    pose proof (v_stat _ _ _ V t) as Hst. rewrite E in Hst. destruct Hst as (i & Hst).
    assert (Ha0 : a <> 0) by (apply (ne0 _ _ V); congruence).
    assert (HX : forall u, u <> t -> forall x, In x (sxl (mth s u)) -> ~ In x [a]).
    { intros u Hu x Hx [<-|[]]. apply (excl_x s Ls t V a u); auto. rewrite E. now left. }
    assert (HS : forall h' u, u <> t -> forall x, In x (shl (mth s u)) -> ~ In x [a] \/ (fx = false /\ x <> 0 /\ h' x = @None mn)).
    { intros h' u Hu x Hx. left. intros [<-|[]]. apply (excl_s s Ls V a u (canX_nil _ _ Ex)); auto. }
    assert (Hh : forall x, x < mfr s -> ~ In x [a] -> upd (mch s) a (Some d') x = mch s x).
    { intros x _ Hx. apply upd_diff. intros ->. apply Hx. now left. }
    destruct Hcase as [(-> & -> & Hrc & Hs)|(Hrc & extra & o & Hex & Hs & Hu)].
    + assert (Hl : (if match rc with kSuccess => true | _ => false end then LEff t c (rc_ret rc) else LObs t c (rc_ret rc)) =
                   LObs t c (rc_ret rc)) by (destruct rc; congruence).
      rewrite Hl. exists Ls.
      refine (minv_stays s Ls t _ _ _ _ _ _ _ _ _ _ [a] V _ _ _ _ _ _ _ _ _ _ _ _ _ _ _ _ _ _);
        cbn [m_goto m_x m_root m_free m_own m_set m_new mrt mfr mch msh msx mxl mth mpg mtr]; auto; try apply V.
      * eapply hinv_eq; [|eapply (hinv_set _ _ _ _ _ a n n); [exact HFe|exact Hrep]].
        rewrite EL, concat_app. cbn [concat]. now rewrite app_nil_r, <- app_assoc.
      * rewrite upd_diff by auto. apply V.
      * lokx E ltac:(eapply (lok_disown _ _ _ _ _ _ VL t); unfold holdX; rewrite E; now left).
      * apply keeps_refl.
      * exact (HS (upd (mch s) a (Some d))).
      * exact I.
      * cbn. exists i, (length (mtr s)). split; [auto|].
        split; [split; [eapply tstat_le; eauto|lia]|]. rewrite firstn_all.
        rewrite (surjective_pairing (spec_step _ c)). now rewrite Hs, Hret.
      * intros u Hu. cbn. now rewrite supd_diff.
      * cbn. now rewrite supd_same.
      * apply lkeeps_refl.
      * intros x Hx Hrx. eapply rd_three; eauto. intros y [<-|[]]. now apply rd_X.
    + subst rc. cbn [rc_ret].
      destruct (node_wf_leaf_upd _ _ _ _ _ _ Hw Hu) as (Hw' & Hnx & Hhi & Hlive).
      { intros x Hx. now rewrite (Hex x Hx). }
      assert (Hlv' : level false false (L1 ++ (a, n') :: L2)) by (eapply seg_replace; eauto).
      assert (HE : entries NegInf (L1 ++ (a, n') :: L2) = entries NegInf (L1 ++ (a, n) :: L2))
        by now apply entries_replace.
      exists (U ++ [L1 ++ (a, n') :: L2]).
      refine (minv_stays s Ls t _ _ _ _ _ _ _ _ _ _ [a] V _ _ _ _ _ _ _ _ _ _ _ _ _ _ _ _ _ _);
        cbn [m_goto m_x m_root m_free m_own m_set m_new mrt mfr mch msh msx mxl mth mpg mtr]; auto; try apply V.
      * pose proof HT as HT'. rewrite EL in HT'. apply dtree_app in HT' as (B1 & B2 & B3).
        apply dtree_app. rewrite HE. auto.
      * eapply hinv_eq; [|eapply (hinv_set _ _ _ _ _ a n n'); [exact HFe|exact Hrep']].
        rewrite concat_app. cbn [concat]. now rewrite app_nil_r, <- app_assoc.
      * rewrite upd_diff by auto. apply V.
      * lokx E ltac:(eapply (lok_disown _ _ _ _ _ _ VL t); unfold holdX; rewrite E; now left).
      * rewrite EL. apply keeps_one. intros k _. symmetry. eapply (fnd_entries false); eauto.
      * exact (HS (upd (mch s) a (Some d'))).
      * exact I.
      * intros k. cbn [eff]. rewrite Hs. unfold lvl in *. rewrite last_last.
        assert (Hr' : recs (L1 ++ (a, n') :: L2) = recs L1 ++ live (a_slots n') ++ recs L2) by apply recs_mid_eq.
        rewrite Hlive in Hr'. destruct o as [v|].
        -- eapply (map_upsert L1 a n L2); eauto.
        -- eapply (map_remove L1 a n L2); eauto.
      * cbn. split; [eauto|]. exact Hret.
      * intros u Hu'. cbn. now rewrite supd_diff.
      * cbn. now rewrite supd_same.
      * rewrite EL. apply lkeeps_one. apply first_mid.
      * intros x Hx Hrx. eapply rd_three; eauto. intros y [<-|[]]. now apply rd_X.
Qed.

(** The child a writer is about to enter. *)
Definition downP (L : list lvl) (h : addr -> option mn) c a b pos : Prop :=
  wrc c /\ onp L (call_key c) a /\ roomat h a /\ routes h a (call_key c) pos b /\ h b <> None.

Lemma down_ab c a b pos : downP Ls (mch s) c a b pos ->
  exists U L1 n L2 s1 s0 s2 C1 m C2 D d db,
    Ls = U ++ (L1 ++ (a, n) :: L2) :: (C1 ++ (b, m) :: C2) :: D /\ pos = length s1 /\
    ctx (innerb D) (call_key c) L1 a n L2 s1 s0 s2 C1 b m C2 /\
    mch s a = Some d /\ mrep d n /\ mroom d /\ mn_inner d = true /\
    routep d (call_key c) = Some (pos, b) /\ mch s b = Some db /\ mrep db m /\ a <> b /\
    hinv (mch s) (mfr s) [] ((a, n) :: (b, m) :: (concat U ++ L1 ++ L2 ++ C1 ++ C2 ++ concat D)).
Proof.
  intros (Hc & Ho & (d & Hd & Hrd) & (d' & Hd' & Hin & Er) & _).
  assert (d' = d) by congruence. subst d'.
  destruct (at_ab _ _ _ _ _ _ _ HT HF (proj2 Hc) Ho Hd Hin) as
      (U & L1 & n & L2 & s1 & s0 & s2 & C1 & b' & m & C2 & D & db & EL & CX & Hn & Er' & Hdb & Hmb & Hab & HF2).
  rewrite Er in Er'. injection Er' as -> ->.
  exists U, L1, n, L2, s1, s0, s2, C1, m, C2, D, d, db. auto 15.
Qed.

(** NeedSplit or NeedMerge has cleaned up the child. *)
Lemma clean_child c a b pos o m' U L1 n L2 C1 m C2 D db :
  downP Ls (mch s) c a b pos ->
  Ls = U ++ (L1 ++ (a, n) :: L2) :: (C1 ++ (b, m) :: C2) :: D ->
  mch s b = Some db -> a <> b -> mrep (after db o) m' -> refreshed m m' ->
  fnd NegInf (call_key c) (C1 ++ (b, m) :: C2) = b ->
  let Ls' := U ++ (L1 ++ (a, n) :: L2) :: (C1 ++ (b, m') :: C2) :: D in
  let h' := cleaned (mch s) b o in
  dtree Ls' (mrt s) /\ hinv h' (mfr s) [] (concat Ls') /\ h' 0 = None /\
  keeps (touched b o) Ls Ls' /\ downP Ls' h' c a b pos /\ h' b = Some (after db o) /\
  (forall k, assoc k (recs (last Ls' [])) = effs amap_empty (mtr s) k) /\
  onp Ls' (call_key c) b /\ h' a = mch s a.
Proof.
  intros HP EL Hdb Hab Hm' Href Hfb Ls' h'.
  assert (EL' : Ls = (U ++ [L1 ++ (a, n) :: L2]) ++ (C1 ++ (b, m) :: C2) :: D).
  { rewrite <- app_assoc. exact EL. }
  assert (ELs' : Ls' = (U ++ [L1 ++ (a, n) :: L2]) ++ (C1 ++ (b, m') :: C2) :: D).
  { unfold Ls'. rewrite <- app_assoc. reflexivity. }
  pose proof HT as HT'. pose proof HF as HF'. rewrite EL' in HT', HF'.
  destruct (refresh_at _ _ b m m' _ D _ _ _ o db HT' HF' Hdb Hm' Href) as (A1 & A2 & A3 & A4).
  rewrite <- ELs' in A1, A2, A3.
  assert (HK : forall M, keeps M Ls Ls').
  { intros M. rewrite EL', ELs'. apply keeps_one. intros k _. apply A4. }
  assert (Hb0 : b <> 0) by (apply (ne0 _ _ V); congruence).
  assert (Hc : h' b = Some (after db o)) by now apply cleaned_same.
  assert (Ha : h' a = mch s a) by now apply cleaned_diff.
  split; [auto|]. split; [auto|].
  split; [unfold h'; rewrite cleaned_diff by auto; apply V|].
  split; [apply HK|]. split.
  { destruct HP as (P1 & P2 & (d & P3 & P3') & (d' & P4 & P4') & P5).
    split; [auto|]. split; [apply (HK [] _ _ P2); intros []|].
    split; [exists d; rewrite Ha; auto|]. split; [exists d'; rewrite Ha; auto|congruence]. }
  split; [auto|]. split.
  { intros k. rewrite <- (v_map _ _ _ V k). rewrite EL'. f_equal. exact A3. }
  split; [|auto]. exists (C1 ++ (b, m') :: C2). split; [|now rewrite A4].
  unfold Ls'. apply in_or_app. right. right. now left.
Qed.

Lemma st_ch c a b pos : mth s t = MCh c a b pos -> good t s Ls.
Proof.
  intros E. unfold good, mstepr. rewrite E.
  pose proof (v_pc _ _ _ V t) as Hp. rewrite E in Hp.
  assert (HP : downP Ls (mch s) c a b pos) by exact Hp.
  destruct (down_ab c a b pos HP) as (U & L1 & n & L2 & s1 & s0 & s2 & C1 & m & C2 & D & d & db & EL & Epos & CX &
    Hd & Hn & Hrd & Hin & Er & Hdb & Hmb & Hab & HF2).
  rewrite Hdb. cbn [kbind].
  destruct (M_need_split db m Hmb) as (bb & o & m' & Hs & Hm' & Href & Hsp & Hrm).
  { exact (cx_body _ _ _ _ _ _ _ _ _ _ _ _ _ CX). }
  rewrite Hs. cbn [kbind fst snd]. destruct (canClean rd s b o) eqn:Ec; [|exact I].
  destruct (clean_child c a b pos o m' U L1 n L2 C1 m C2 D db HP EL Hdb Hab Hm' Href
              (cx_fc _ _ _ _ _ _ _ _ _ _ _ _ _ CX)) as (B1 & B2 & B3 & B4 & B5 & B6 & B7 & B8 & B9).
  rewrite clean_eq. exists (U ++ (L1 ++ (a, n) :: L2) :: (C1 ++ (b, m') :: C2) :: D).
  refine (minv_stays s Ls t _ _ _ _ _ _ _ _ _ _ (touched b o) V _ _ _ _ _ _ _ _ _ _ _ _ _ _ _ _ _ _);
    cbn [m_goto mrt mfr mch msh msx mxl mth mpg mtr]; auto.
  - destruct bb; (lokx E ltac:(exact VL)).
  - intros x _ Hx. now apply touched_h.
  - intros u Hu x Hx. apply (touched_x s Ls t V b o u); auto. rewrite E. right. now left.
  - intros u Hu x Hx. left. now apply (touched_s s Ls t V b o u).
  - destruct bb; cbn [pcok]; (split; [exact B5|]); exists (after db o); auto.
  - exact I.
  - cbn [tnext]. pose proof (v_stat _ _ _ V t) as Hst. rewrite E in Hst. destruct bb; exact Hst.
  - apply V.
  - rewrite EL. apply lkeeps_two; apply first_mid.
  - intros x Hx Hr; eapply rd_touched; eauto.
Qed.

Lemma st_cm c a b pos : mth s t = MCm c a b pos -> good t s Ls.
Proof.
  intros E. unfold good, mstepr. rewrite E.
  pose proof (v_pc _ _ _ V t) as Hp. rewrite E in Hp. destruct Hp as [HP Hrb].
  change (downP Ls (mch s) c a b pos) in HP.
  destruct (down_ab c a b pos HP) as (U & L1 & n & L2 & s1 & s0 & s2 & C1 & m & C2 & D & d & db & EL & Epos & CX &
    Hd & Hn & Hrd & Hin & Er & Hdb & Hmb & Hab & HF2).
  assert (Hrdb := roomat_get _ _ _ Hrb Hdb).
  rewrite Hd, Hdb. cbn [kbind].
  destruct (M_need_merge db m Hmb) as (bb & o & m' & Hs & Hm' & Href & Hrm).
  { exact (cx_body _ _ _ _ _ _ _ _ _ _ _ _ _ CX). }
  specialize (Hrm Hrdb).
  rewrite Hs. cbn [kbind fst snd]. destruct (canClean rd s b o) eqn:Ec; [|exact I].
  destruct (clean_child c a b pos o m' U L1 n L2 C1 m C2 D db HP EL Hdb Hab Hm' Href
              (cx_fc _ _ _ _ _ _ _ _ _ _ _ _ _ CX)) as (B1 & B2 & B3 & B4 & B5 & B6 & B7 & B8 & B9).
  assert (Hst : exists i, tstat (mtr s) t = TCalled c i).
  { pose proof (v_stat _ _ _ V t) as Hst. now rewrite E in Hst. }
  rewrite clean_eq.
  destruct (bb && negb (pos + 1 =? mn_rc d)) eqn:Eb; exists (U ++ (L1 ++ (a, n) :: L2) :: (C1 ++ (b, m') :: C2) :: D).
  - apply andb_true_iff in Eb as [_ Eb]. apply negb_true_iff, Nat.eqb_neq in Eb.
    refine (minv_stays s Ls t _ _ _ _ _ _ _ _ _ _ (touched b o) V _ _ _ _ _ _ _ _ _ _ _ _ _ _ _ _ _ _);
      cbn [m_goto mrt mfr mch msh msx mxl mth mpg mtr]; auto.
    + lokx E ltac:(exact VL).
    + intros x _ Hx. now apply touched_h.
    + intros u Hu x Hx. apply (touched_x s Ls t V b o u); auto. rewrite E. right. now left.
    + intros u Hu x Hx. left. now apply (touched_s s Ls t V b o u).
    + cbn [pcok]. split; [exact B5|]. split; [exists (after db o); auto|].
      exists d. rewrite B9. auto.
    + exact I.
    + apply V.
    + rewrite EL. apply lkeeps_two; apply first_mid.
    + intros x Hx Hr; eapply rd_touched; eauto.
  - refine (minv_stays s Ls t _ _ _ _ _ _ _ _ _ _ (touched b o) V _ _ _ _ _ _ _ _ _ _ _ _ _ _ _ _ _ _);
      cbn [m_goto m_own mrt mfr mch msh msx mxl mth mpg mtr]; auto.
    + lokx E ltac:(eapply (lok_disown _ _ _ _ _ _ VL t); unfold holdX; rewrite E; now left).
    + intros x _ Hx. now apply touched_h.
    + intros u Hu x Hx. apply (touched_x s Ls t V b o u); auto. rewrite E. right. now left.
    + intros u Hu x Hx. left. now apply (touched_s s Ls t V b o u).
    + cbn [pcok]. split; [apply HP|]. split; [exact B8|]. exists (after db o). auto.
    + exact I.
    + apply V.
    + rewrite EL. apply lkeeps_two; apply first_mid.
    + intros x Hx Hr; eapply rd_touched; eauto.
Qed.

Lemma st_sp c a b pos : mth s t = MSp c a b pos -> good t s Ls.
Proof.
  intros E. unfold good, mstepr. rewrite E.
  pose proof (v_pc _ _ _ V t) as Hp. rewrite E in Hp.
  assert (HP : downP Ls (mch s) c a b pos) by apply Hp.
  destruct (down_ab c a b pos HP) as (U & L1 & n & L2 & s1 & s0 & s2 & C1 & m & C2 & D & d & db & EL & Epos & CX &
    Hd & Hn & Hrd & Hin & Er & Hdb & Hmb & Hab & HF2).
  rewrite Hd. cbn [kbind]. destruct (canX rd s a) eqn:Ex; [|exact I]. exists Ls.
  refine (minv_stays_latch s Ls t _ _ _ _ V _ _ _); auto.
  - lokx E ltac:(eapply (lok_up _ _ _ _ _ _ VL t a); [unfold holdX; rewrite E; now left|now apply canX_nil]).
  - now rewrite E.
Qed.

Lemma st_spx c a b pos : mth s t = MSpX c a b pos -> good t s Ls.
Proof.
  intros E. unfold good, mstepr. rewrite E.
  pose proof (v_pc _ _ _ V t) as Hp. rewrite E in Hp. destruct Hp as [HP (db' & Hdb' & Hsp)].
  change (downP Ls (mch s) c a b pos) in HP.
  destruct (down_ab c a b pos HP) as (U & L1 & n & L2 & s1 & s0 & s2 & C1 & m & C2 & D & d & db & EL & Epos & CX &
    Hd & Hn & Hrd & Hin & Er & Hdb & Hmb & Hab & HF2).
  assert (db' = db) by congruence. subst db'.
  rewrite Hd, Hdb. cbn [kbind]. destruct (canX rd s b) eqn:Ex; [|exact I].
  destruct (split_core_hi _ _ _ _ _ _ _ _ _ _ _ _ _ CX d db Hn Hmb (mfr s) Hrd Hsp)
    as (l' & r' & sep & dp' & n' & ml & mr & Ei & Es & Eh & Ecm & Eic & Rp & Rl & Rr & Hrl & Hrr & SR & Hfnd & Hhi).
  cbv zeta. rewrite Ei, Es. cbn [kbind fst snd]. rewrite Eh. cbn [kbind]. rewrite Epos, Eic. cbn [kbind].
  rewrite Ecm. cbn [kbind].
  pose proof (v_pos _ _ _ V) as Hpos.
  assert (Ha0 : a <> 0) by (apply (ne0 _ _ V); congruence).
  assert (Hb0 : b <> 0) by (apply (ne0 _ _ V); congruence).
  assert (Hlta : a < mfr s) by (apply (lt_fr _ _ V); congruence).
  assert (Hltb : b < mfr s) by (apply (lt_fr _ _ V); congruence).
  set (f := mfr s) in *.
  assert (Hfa : f <> a) by lia. assert (Hfb : f <> b) by lia. assert (Hf0 : f <> 0) by lia.
  set (h' := upd (upd (upd (mch s) f (Some r')) b (Some l')) a (Some dp')).
  set (Ls' := U ++ (L1 ++ (a, n') :: L2) :: (C1 ++ (b, ml) :: (f, mr) :: C2) :: D).
  assert (HF' : hinv h' (S f) [] (concat Ls')).
  { pose proof (heap_split (mch s) f [] a n b m _ r' dp' n' l' ml r' mr HF2 Rp Rl Rr) as HF4.
    eapply hinv_perm; [|eapply hinv_ext; [|exact HF4]].
    - unfold Ls'. rewrite concat_app. cbn [concat]. pfront. reflexivity.
    - intros x. unfold h', upd. now destruct (x =? f). }
  pose proof HT as HT0. rewrite EL in HT0.
  destruct (dtree_step _ _ _ _ _ _ _ HT0 SR) as (HT' & Hrecs & HfL). fold Ls' in HT', Hrecs.
  assert (H0' : h' 0 = None).
  { unfold h'. rewrite !upd_diff by lia. apply V. }
  assert (HK : keeps [a; b] Ls Ls').
  { rewrite EL. apply keeps_two; [exact HfL|]. intros k Hk.
    apply (fnd_keep (innerb D) C1 [(b, m)] [(b, ml); (f, mr)] C2 k).
    - exact (cx_C _ _ _ _ _ _ _ _ _ _ _ _ _ CX).
    - exact (sr_C _ _ _ _ _ SR).
    - cbn. now apply hi_ext_eq.
    - cbn. cbn in Hk. tauto. }
  assert (Hh : forall x, x < f -> ~ In x [a; b] -> h' x = mch s x).
  { intros x Hx Hnn. cbn in Hnn. unfold h'. rewrite !upd_diff; auto; lia. }
  assert (Hsa : msh s a = []).
  { eapply (l_ws _ _ _ _ _ _ VL t). unfold holdW. rewrite E. now left. }
  assert (HX : forall u, u <> t -> forall x, In x (sxl (mth s u)) -> ~ In x [a; b]).
  { intros u Hu x Hx [<-|[<-|[]]]; revert Hx; apply (excl_x s Ls t V); auto; rewrite E; cbn; auto. }
  assert (HS : forall u, u <> t -> forall x, In x (shl (mth s u)) -> ~ In x [a; b] \/ (fx = false /\ x <> 0 /\ h' x = None)).
  { intros u Hu x Hx. left. intros [<-|[<-|[]]]; revert Hx; apply (excl_s s Ls V); auto.
    now apply canX_nil. }
  assert (Hmap : forall k, assoc k (recs (last Ls' [])) = effs amap_empty (mtr s) k).
  { intros k. rewrite <- (v_map _ _ _ V k), EL. f_equal. exact Hrecs. }
  assert (Hst : mstat (MWd c a) (tstat (mtr s) t)).
  { pose proof (v_stat _ _ _ V t) as Hst. now rewrite E in Hst. }
  destruct (fresh_free _ _ _ f V (le_n _)) as (Hfx & Hfs & Hfl).
  exists Ls'. destruct (ltb (call_key c) sep).
  - refine (minv_stays s Ls t _ _ _ _ _ _ _ _ _ _ [a; b] V _ _ _ _ _ _ _ _ _ _ _ _ _ _ _ _ _ _);
      cbn [m_goto m_x m_root m_free m_own m_set m_new mrt mfr mch msh msx mxl mth mpg mtr]; auto.
    + lokx E ltac:(eapply (lok_disown _ _ _ _ _ _ VL t); unfold holdX; rewrite E; now left).
    + cbn [pcok]. split; [apply HP|]. split.
      * exists (C1 ++ (b, ml) :: (f, mr) :: C2). split; [|auto]. unfold Ls'.
        apply in_or_app. right. right. now left.
      * exists l'. split; [|auto]. fold f. rewrite upd_diff by auto. apply upd_same.
    + exact I.
    + apply V.
    + rewrite EL. apply lkeeps_two; apply first_mid.
    + intros x Hx Hrx. eapply rd_three; eauto. intros y [<-|[<-|[]]]; [apply rd_W; rewrite E; now left|now apply rd_X].
  - refine (minv_stays s Ls t _ _ _ _ _ _ _ _ _ _ [a; b] V _ _ _ _ _ _ _ _ _ _ _ _ _ _ _ _ _ _);
      cbn [m_goto m_x m_root m_free m_own m_set m_new mrt mfr mch msh msx mxl mth mpg mtr]; auto.
    + lokx E ltac:(eapply (lok_disown _ _ _ _ _ _) with (t := t);
      [eapply (lok_own _ _ _ _ _ _) with (t := t);
         [eapply (lok_disown _ _ _ _ _ _ VL t); unfold holdX; rewrite E; now left|
          rewrite supd_diff by auto; exact Hfx]|];
      unfold holdX; rewrite ?E; cbn [sxl In]; intuition congruence).
    + cbn [pcok]. split; [apply HP|]. split.
      * exists (C1 ++ (b, ml) :: (f, mr) :: C2). split; [|auto]. unfold Ls'.
        apply in_or_app. right. right. now left.
      * exists r'. split; [|auto]. fold f. rewrite !upd_diff by auto. apply upd_same.
    + exact I.
    + apply V.
    + rewrite EL. apply lkeeps_two; apply first_mid.
    + intros x Hx Hrx. eapply rd_three; eauto. intros y [<-|[<-|[]]]; [apply rd_W; rewrite E; now left|now apply rd_X].
Qed.

Lemma st_mg c a b pos : mth s t = MMg c a b pos -> good t s Ls.
Proof.
  intros E. unfold good, mstepr. rewrite E.
  pose proof (v_pc _ _ _ V t) as Hp. rewrite E in Hp. destruct Hp as (HP & Hrb & (d' & Hd' & Hrc)).
  change (downP Ls (mch s) c a b pos) in HP.
  destruct (down_ab c a b pos HP) as (U & L1 & n & L2 & s1 & s0 & s2 & C1 & m & C2 & D & d & db & EL & Epos & CX &
    Hd & Hn & Hrd & Hin & Er & Hdb & Hmb & Hab & HF2).
  assert (d' = d) by congruence. subst d'.
  rewrite Hd, Hdb. cbn [kbind].
  destruct (right_core _ _ _ _ _ _ _ _ _ _ _ _ _ CX d Hn) as [[Hrc' _]|(r & m2 & C2' & s' & s2' & _ & Hs2 & HC2 & Hr)];
    [congruence|].
  rewrite Epos, Hr. cbn [kbind]. rewrite <- Epos.
  assert (HF3 : hinv (mch s) (mfr s) [] ((a, n) :: (b, m) :: (r, m2) :: (concat U ++ L1 ++ L2 ++ C1 ++ C2' ++ concat D))).
  { eapply hinv_perm; [|exact HF2]. rewrite HC2. pfront. do 2 apply perm_skip. reflexivity. }
  destruct (hinv_get _ _ _ _ _ r m2 HF3) as (dr & Hdr & Hmr); [right; right; now left|].
  assert (Hra : r <> a).
  { eapply (hinv_neq _ _ _ _ [] a n); [exact HF3|]. right. now left. }
  assert (Hrb' : r <> b).
  { eapply (hinv_neq _ _ _ _ [(a, n)] b m); [exact HF3|]. right. now left. }
  rewrite Hdr. cbn [kbind]. destruct (canSIX s r) eqn:Ex; [|exact I].
  assert (Hst : exists i, tstat (mtr s) t = TCalled c i).
  { pose proof (v_stat _ _ _ V t) as Hst. now rewrite E in Hst. }
  destruct (mn_can_merge db dr) eqn:Em; exists Ls.
  - refine (minv_stays_latch s Ls t _ _ _ _ V _ _ _); auto.
    + lokx E ltac:(eapply (lok_own _ _ _ _ _ _ VL t); now apply canSIX_none).
    + cbn [pcok]. split; [exact HP|]. split; [auto|]. exists d, db, dr.
      rewrite Epos at 1. auto 10.
    + now rewrite E.
  - refine (minv_stays_latch s Ls t _ _ _ _ V _ _ _); auto.
    + lokx E ltac:(eapply (lok_disown _ _ _ _ _ _ VL t); unfold holdX; rewrite E; now left).
    + cbn [pcok]. split; [apply HP|]. split; [|exact Hrb].
      exists (C1 ++ (b, m) :: C2). split; [rewrite EL; apply in_or_app; right; right; now left|].
      exact (cx_fc _ _ _ _ _ _ _ _ _ _ _ _ _ CX).
    + now rewrite E.
Qed.

Lemma st_mg1 c a b r pos : mth s t = MMg1 c a b r pos -> good t s Ls.
Proof.
  intros E. unfold good, mstepr. rewrite E.
  pose proof (v_pc _ _ _ V t) as Hp. rewrite E in Hp. pose proof Hp as (_ & _ & (d & db & dr & Hd & Hdb & Hdr & _)).
  rewrite Hd. cbn [kbind]. destruct (canX rd s a) eqn:Ex; [|exact I]. exists Ls.
  refine (minv_stays_latch s Ls t _ _ _ _ V _ _ _); auto.
  - lokx E ltac:(eapply (lok_up _ _ _ _ _ _ VL t a); [unfold holdX; rewrite E; now left|now apply canX_nil]).
  - now rewrite E.
Qed.

Lemma st_mg2 c a b r pos : mth s t = MMg2 c a b r pos -> good t s Ls.
Proof.
  intros E. unfold good, mstepr. rewrite E.
  pose proof (v_pc _ _ _ V t) as Hp. rewrite E in Hp. pose proof Hp as (_ & _ & (d & db & dr & Hd & Hdb & Hdr & _)).
  rewrite Hdb. cbn [kbind]. destruct (canX rd s b) eqn:Ex; [|exact I]. exists Ls.
  refine (minv_stays_latch s Ls t _ _ _ _ V _ _ _); auto.
  - lokx E ltac:(eapply (lok_up _ _ _ _ _ _ VL t b); [unfold holdX; rewrite E; right; now left|now apply canX_nil]).
  - now rewrite E.
Qed.

Lemma st_mg3 c a b r pos : mth s t = MMg3 c a b r pos -> good t s Ls.
Proof.
  intros E. unfold good, mstepr. rewrite E.
  pose proof (v_pc _ _ _ V t) as Hp. rewrite E in Hp.
  destruct Hp as (HP & Hrb & (d' & db' & dr & Hd' & Hdb' & Hdr & Hch & Hrc & Hcm)).
  change (downP Ls (mch s) c a b pos) in HP.
  destruct (down_ab c a b pos HP) as (U & L1 & n & L2 & s1 & s0 & s2 & C1 & m & C2 & D & d & db & EL & Epos & CX &
    Hd & Hn & Hrd & Hin & Er & Hdb & Hmb & Hab & HF2).
  assert (d' = d) by congruence. subst d'. assert (db' = db) by congruence. subst db'.
  rewrite Hd, Hdb, Hdr. cbn [kbind]. destruct (canX rd s r) eqn:Ex; [|exact I].
  destruct (right_core _ _ _ _ _ _ _ _ _ _ _ _ _ CX d Hn) as [[Hrc' _]|(r' & m2 & C2' & s' & s2' & _ & Hs2 & HC2 & Hr)];
    [congruence|].
  rewrite <- Epos, Hch in Hr. injection Hr as <-.
  assert (HF3 : hinv (mch s) (mfr s) [] ((a, n) :: (b, m) :: (r, m2) :: (concat U ++ L1 ++ L2 ++ C1 ++ C2' ++ concat D))).
  { eapply hinv_perm; [|exact HF2]. rewrite HC2. pfront. do 2 apply perm_skip. reflexivity. }
  destruct (hinv_get _ _ _ _ _ r m2 HF3) as (dr' & Hdr' & Hmr); [right; right; now left|].
  assert (dr' = dr) by congruence. subst dr'.
  assert (Hra : r <> a).
  { eapply (hinv_neq _ _ _ _ [] a n); [exact HF3|]. right. now left. }
  assert (Hrb' : r <> b).
  { eapply (hinv_neq _ _ _ _ [(a, n)] b m); [exact HF3|]. right. now left. }
  destruct (merge_core_hi _ _ _ _ _ _ _ _ _ _ _ _ _ CX d db Hn Hmb dr r m2 C2' s' s2' Hmr HC2 Hs2 Hcm)
    as (l' & dp' & n' & m' & Em & Edc & Rp & Rl & Hrl & SR & Hfnd & Hhi).
  rewrite Em. cbn [kbind]. rewrite Epos, Edc. cbn [kbind].
  assert (Ha0 : a <> 0) by (apply (ne0 _ _ V); congruence).
  assert (Hb0 : b <> 0) by (apply (ne0 _ _ V); congruence).
  assert (Hr0 : r <> 0) by (apply (ne0 _ _ V); congruence).
  set (h' := upd (upd (upd (mch s) b (Some l')) a (Some dp')) r None).
  set (Ls' := U ++ (L1 ++ (a, n') :: L2) :: (C1 ++ (b, m') :: C2') :: D).
  assert (HF' : hinv h' (mfr s) [] (concat Ls')).
  { eapply hinv_perm; [|exact (heap_merge_free _ _ _ a n b m r m2 _ dp' n' l' m' HF3 Rp Rl)].
    unfold Ls'. rewrite concat_app. cbn [concat]. pfront. reflexivity. }
  pose proof HT as HT0. rewrite EL in HT0.
  destruct (dtree_step _ _ _ _ _ _ _ HT0 SR) as (HT' & Hrecs & HfL). fold Ls' in HT', Hrecs.
  assert (H0' : h' 0 = None).
  { unfold h'. rewrite !upd_diff by auto. apply V. }
  assert (HK : keeps [a; b; r] Ls Ls').
  { rewrite EL. apply keeps_two; [exact HfL|]. intros k Hk. rewrite HC2 in *.
    apply (fnd_keep (innerb D) C1 [(b, m); (r, m2)] [(b, m')] C2' k).
    - exact (cx_C _ _ _ _ _ _ _ _ _ _ _ _ _ CX).
    - exact (sr_C _ _ _ _ _ SR).
    - cbn. now apply hi_ext_eq.
    - cbn. cbn in Hk. tauto. }
  assert (Hh : forall x, x < mfr s -> ~ In x [a; b; r] -> h' x = mch s x).
  { intros x _ Hnn. cbn in Hnn. unfold h'. rewrite !upd_diff; auto; intuition congruence. }
  assert (HwX : forall x, In x [a; b] -> msh s x = []).
  { intros x Hx. assert (Hsx : msh s x = []).
    { eapply (l_ws _ _ _ _ _ _ VL t). unfold holdW. rewrite E. cbn. cbn in Hx. tauto. }
    exact Hsx. }
  assert (HX : forall u, u <> t -> forall x, In x (sxl (mth s u)) -> ~ In x [a; b; r]).
  { intros u Hu x Hx [<-|[<-|[<-|[]]]]; revert Hx; apply (excl_x s Ls t V); auto; rewrite E; cbn; auto. }
  assert (HS : forall u, u <> t -> forall x, In x (shl (mth s u)) -> ~ In x [a; b; r] \/ (fx = false /\ x <> 0 /\ h' x = None)).
  { intros u Hu x Hx. left. intros [<-|[<-|[<-|[]]]]; revert Hx; apply (excl_s s Ls V); auto;
    try (apply HwX; cbn; auto; fail). now apply canX_nil. }
  assert (Hmap : forall k, assoc k (recs (last Ls' [])) = effs amap_empty (mtr s) k).
  { intros k. rewrite <- (v_map _ _ _ V k), EL. f_equal. exact Hrecs. }
  assert (Hst : mstat (MWd c a) (tstat (mtr s) t)).
  { pose proof (v_stat _ _ _ V t) as Hst. now rewrite E in Hst. }
  exists Ls'.
  refine (minv_stays s Ls t _ _ _ _ _ _ _ _ _ _ [a; b; r] V _ _ _ _ _ _ _ _ _ _ _ _ _ _ _ _ _ _);
    cbn [m_goto m_x m_root m_free m_own m_set m_new mrt mfr mch msh msx mxl mth mpg mtr]; auto.
  - lokx E ltac:(eapply (lok_disown _ _ _ _ _ _) with (t := t);
     [eapply (lok_disown _ _ _ _ _ _) with (t := t);
       [eapply (lok_down _ _ _ _ _ _ VL t); unfold holdX; rewrite E; right; now left|];
       unfold holdX; rewrite E; now left|];
     unfold holdX; rewrite ?E; cbn [sxl In]; intuition congruence).
  - cbn [pcok]. split; [apply HP|]. split.
    + exists (C1 ++ (b, m') :: C2'). split; [|auto]. unfold Ls'.
      apply in_or_app. right. right. now left.
    + exists l'. split; [|auto]. rewrite !upd_diff by auto. apply upd_same.
  - exact I.
  - apply V.
  - rewrite EL, HC2. apply lkeeps_two; apply first_mid.
  - intros x Hx Hrx. eapply rd_three; eauto. intros y [<-|[<-|[<-|[]]]]; [apply rd_W; rewrite E; now left|apply rd_W; rewrite E; right; now left|now apply rd_X].
Qed.

Theorem step_good : good t s Ls.
Proof.
  destruct (mth s t) eqn:E; eauto using st_idle, st_ret, st_r0, st_r1, st_rd, st_w0, st_w1, st_shr, st_shrx, st_rs,
    st_rsx, st_wd, st_ch, st_cm, st_sp, st_spx, st_mg, st_mg1, st_mg2, st_mg3.
Qed.

End Steps.
End MConcSteps.
