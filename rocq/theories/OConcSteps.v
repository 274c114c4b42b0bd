(** The concurrent optimistic multi-layer tree, as repaired: every step keeps the invariant.
    Proof-side only. *)
From Coq Require Import List Arith Bool Lia Sorted Permutation.
From Verif Require Import Params Mem Common Spec NodeAbs SLIface MLIface TreeState Levels TreeHeap
  LevelOps SLModel SLSearch SLSplit SLMerge SLProofs MLModel MLSearch MLSteps MLProofs ConcSpec ConcModel
  ConcLin MConcModel MConcInv MConcSteps MConcMain OLaws OConcModel OConcInv.
Import ListNotations.

Section OConcSteps.
Context {P : Params} {O : OrdLaws P} {N : MLOps P} {LW : MLLaws P N} {OW : OMLaws P N LW}.
#[local] Existing Instance no_leak.
Notation hinv := (@hinv P no_leak mn mrep).
Notation is_read := ConcModel.is_read.

Definition inv (s : ocfg) : Prop := exists Ls hv lo, oinv s Ls hv lo /\ ginv s hv.

(** What a step of [t] from [s] leads to. *)
Definition nxt (s : ocfg) (hv : addr -> option mn) (lo : addr -> ext) (t : tid) (s' : ocfg) : Prop :=
  exists Ls' hv' lo', oinv s' Ls' hv' lo' /\ ginv s' hv' /\ frame s s' hv hv' lo lo' t.

Lemma nxt_inv s hv lo t s' : nxt s hv lo t s' -> inv s'.
Proof. intros (Ls' & hv' & lo' & V' & G' & _). now exists Ls', hv', lo'. Qed.

Definition ogood (t : tid) (s : ocfg) (hv : addr -> option mn) (lo : addr -> ext) : Prop :=
  match ostep true t s with
  | XOk l s' => nxt s hv lo t (o_emit s' l)
  | XBlock => True
  | XUndef => False
  end.

Lemma frame_emit s s' hv hv' lo lo' t l :
  frame s s' hv hv' lo lo' t -> frame s (o_emit s' l) hv hv' lo lo' t.
Proof. intros [F1 F2 F3 F4]. split; auto. Qed.

(** CheckSMOs on a node of the tree. *)
Lemma ostat_max n an : mrep n an -> body_ok (a_inner an) (a_slots an) ->
  exists m, ostat n mn_maxlen = Some m /\
    match m with
    | SClean n' => exists an', mrep n' an' /\ refreshed an an'
    | SSplit => msplit_ok n
    | SMerge | SDone => mroom n
    end.
Proof.
  intros Hr Hb. unfold ostat. destruct (M_need_split n an Hr Hb) as (b & o & an' & E & H1 & H2 & H3 & H4).
  rewrite E. destruct o as [n'|]; [destruct b; eexists; (split; [reflexivity|]); cbn; eauto|].
  destruct b; [eexists; split; [reflexivity|]; cbn; auto|]. cbn [after] in *. specialize (H4 eq_refl).
  destruct (M_need_merge n an Hr Hb) as (b2 & o2 & an2 & E2 & K1 & K2 & K3). rewrite E2.
  destruct o2 as [n'|]; [destruct b2; eexists; (split; [reflexivity|]); cbn; eauto|].
  destruct b2; eexists; (split; [reflexivity|]); auto.
Qed.

Lemma ostat_leaf n an key : mrep n an -> a_inner an = false -> leaf_ok (a_slots an) -> mvalid key ->
  exists m, ostat n (mn_reclen key) = Some m /\
    match m with
    | SClean n' => exists an', mrep n' an' /\ refreshed an an'
    | SSplit => True
    | SMerge | SDone => mfits n key
    end.
Proof.
  intros Hr Hi Hb Hk. unfold ostat. destruct (O_check n an key Hr Hi Hb Hk) as (b & o & an' & E & H1 & H2 & H3).
  rewrite E. destruct o as [n'|]; [destruct b; eexists; (split; [reflexivity|]); cbn; eauto|].
  destruct b; [eexists; split; [reflexivity|]; cbn; auto|]. cbn [after] in *. specialize (H3 eq_refl eq_refl).
  destruct (M_need_merge n an Hr) as (b2 & o2 & an2 & E2 & K1 & K2 & K3); [rewrite Hi; exact Hb|]. rewrite E2.
  destruct o2 as [n'|]; [destruct b2; eexists; (split; [reflexivity|]); cbn; eauto|].
  destruct b2; eexists; (split; [reflexivity|]); auto.
Qed.

Lemma oleafop_ok c (m : amap) d n : is_read c = false ->
  mrep d n -> a_inner n = false -> leaf_ok (a_slots n) -> mvalid (call_key c) ->
  (needs_room c = true -> mfits d (call_key c)) ->
  m (call_key c) = assoc (call_key c) (live (a_slots n)) ->
  exists rc d' n', leafop c d = Some (rc, d') /\ mrep d' n' /\ rc_ret rc = snd (spec_step m c) /\
    ((d' = d /\ n' = n /\ rc <> kSuccess /\ fst (spec_step m c) = m) \/
     (rc = kSuccess /\ exists extra o, (forall x, In x extra -> x = call_key c) /\
        fst (spec_step m c) = amap_set m (call_key c) o /\
        leaf_upd n n' extra (match o with
                             | Some v => upsert (call_key c) v (live (a_slots n))
                             | None => remove_key (call_key c) (live (a_slots n))
                             end))).
Proof.
  intros Hc Hr Hin Hok Hk Hrm Hm. destruct c as [k|k v|k v|k v|k]; try discriminate;
    cbn [leafop call_key spec_step needs_room] in *.
  - destruct (O_write d n k v Hr Hin Hok Hk (Hrm eq_refl)) as (d' & n' & -> & A & B).
    exists kSuccess, d', n'. split; [auto|]. split; [auto|]. split; [auto|]. right. split; [auto|].
    exists [k], (Some v). split; [intros x [<-|[]]; auto|]. auto.
  - destruct (O_insert d n k v Hr Hin Hok Hk (Hrm eq_refl)) as (rc & d' & n' & -> & A & B). rewrite Hm.
    exists rc, d', n'. split; [auto|]. split; [auto|].
    destruct B as [(-> & -> & -> & B)|(-> & B & C)].
    + destruct (assoc k (live (a_slots n))); [|congruence]. split; [auto|]. left.
      split; [auto|]. split; [auto|]. split; [discriminate|auto].
    + rewrite B. split; [auto|]. right. split; [auto|]. exists [k], (Some v).
      split; [intros x [<-|[]]; auto|]. auto.
  - destruct (M_update d n k v Hr Hin Hok Hk) as (rc & d' & n' & -> & A & B). rewrite Hm.
    exists rc, d', n'. split; [auto|]. split; [auto|].
    destruct B as [(-> & B & C)|(-> & -> & -> & B)].
    + destruct (assoc k (live (a_slots n))); [|congruence]. split; [auto|]. right. split; [auto|].
      exists [], (Some v). split; [intros x []|]. auto.
    + rewrite B. split; [auto|]. left. split; [auto|]. split; [auto|]. split; [discriminate|auto].
  - destruct (M_delete d n k Hr Hin Hok Hk) as (rc & d' & n' & -> & A & B). rewrite Hm.
    exists rc, d', n'. split; [auto|]. split; [auto|].
    destruct B as [(-> & B & C)|(-> & -> & -> & B)].
    + destruct (assoc k (live (a_slots n))); [|congruence]. split; [auto|]. right. split; [auto|].
      exists [], None. split; [intros x []|]. auto.
    + rewrite B. split; [auto|]. left. split; [auto|]. split; [auto|]. split; [discriminate|auto].
Qed.

Section Step.
Context (s : ocfg) (Ls : list lvl) (hv : addr -> option mn) (lo : addr -> ext) (t : tid).
Context (V : oinv s Ls hv lo) (G : ginv s hv).
Let HT : dtree Ls (ort s) := i_tree _ _ _ _ V.
Let HF : hinv hv (ofr s) [] (concat Ls) := i_heap _ _ _ _ V.
Let HL : lorel lo Ls := i_lo _ _ _ _ V.

Lemma own_next sx' p' :
  (forall a, sx' a = Some t <-> In a (sxo p')) ->
  (forall u a, u <> t -> (sx' a = Some u <-> osx s a = Some u)) ->
  forall u a, sx' a = Some u <-> In a (sxo (supd (oth s) t p' u)).
Proof.
  intros H1 H2 u a. destruct (Nat.eq_dec u t) as [->|Hu].
  - rewrite supd_same. apply H1.
  - rewrite supd_diff by auto. rewrite <- (i_own _ _ _ _ V). auto.
Qed.

Lemma own_t a : osx s a = Some t <-> In a (sxo (oth s t)).
Proof. apply (i_own _ _ _ _ V). Qed.

Lemma act_next p' : oth s t <> OIdle -> p' <> OIdle ->
  forall u, supd (oth s) t p' u <> OIdle -> In u (oac s).
Proof.
  intros H1 H2 u. destruct (Nat.eq_dec u t) as [->|Hu].
  - intros _. now apply (i_act _ _ _ _ V).
  - rewrite supd_diff by auto. apply V.
Qed.

Lemma frame_refl sx' th' pg' :
  frame s (OCfg (och s) (ort s) (ofr s) (ovs s) sx' (ogb s) (oac s) th' pg' (otr s)) hv hv lo lo t.
Proof. split; cbn; auto. Qed.

(** A step that changes no page. *)
Lemma g_latch sx' p' l :
  oth s t <> OIdle -> p' <> OIdle -> pnd (oth s t) = [] -> pnd p' = [] ->
  lim (oth s t) = [] -> lim p' = [] ->
  (forall a, sx' a = Some t <-> In a (sxo p')) ->
  (forall u a, u <> t -> (sx' a = Some u <-> osx s a = Some u)) ->
  pcok s hv lo t p' -> (forall m, eff m l = m) -> justified amap_empty (otr s) l ->
  (forall u, u <> t -> tnext (length (otr s)) (tstat (otr s)) l u = tstat (otr s) u) ->
  ostatr p' (tnext (length (otr s)) (tstat (otr s)) l t) ->
  nxt s hv lo t (o_emit (OCfg (och s) (ort s) (ofr s) (ovs s) sx' (ogb s) (oac s) (supd (oth s) t p') (opg s) (otr s)) l).
Proof.
  intros A1 A2 A3 A4 A5 A6 A7 A8 A9 A10 A11 A12 A13. exists Ls, hv, lo.
  assert (V' : oinv (o_emit (OCfg (och s) (ort s) (ofr s) (ovs s) sx' (ogb s) (oac s) (supd (oth s) t p') (opg s) (otr s)) l) Ls hv lo).
  { apply (oinv_step s Ls hv lo t _ p' l); cbn [och ort ofr ovs osx ogb oac oth opg otr]; auto.
    - apply frame_refl.
    - apply (i_fr _ _ _ _ V).
    - intros x Hx. destruct (hv x) as [m|] eqn:E; [|congruence].
      destruct (i_inn _ _ _ _ V x m E) as (n & -> & _). discriminate.
    - intros x n E. left. split; [auto|]. split; [auto|]. rewrite A3. intros [].
    - now apply own_next.
    - now apply act_next.
    - intros k. rewrite A10. apply V.
    - apply V. }
  split; [exact V'|]. split; [|apply frame_emit, frame_refl]. eapply ginv_keep; [exact V|exact G|apply frame_refl|exact V'|..]; cbn; auto.
Qed.

(** One page of the tree that nobody has latched is replaced. *)
Lemma g_page a n n' p' l Ls' :
  oth s t <> OIdle -> p' <> OIdle -> sxo (oth s t) = [] -> sxo p' = [] ->
  lim (oth s t) = [] -> lim p' = [] ->
  och s a = Some n -> mn_removed n = false -> ofree s a = true -> mn_inner n' = mn_inner n ->
  dtree Ls' (ort s) -> hinv (upd hv a (Some n')) (ofr s) [] (concat Ls') -> lorel lo Ls' ->
  (pcok (o_set s a n') (upd hv a (Some n')) lo t p') ->
  (forall k, assoc k (recs (last Ls' [])) = eff (effs amap_empty (otr s)) l k) ->
  justified amap_empty (otr s) l ->
  (forall u, u <> t -> tnext (length (otr s)) (tstat (otr s)) l u = tstat (otr s) u) ->
  ostatr p' (tnext (length (otr s)) (tstat (otr s)) l t) ->
  nxt s hv lo t (o_emit (o_goto (o_set s a n') t p') l).
Proof.
  intros A1 A2 A3 A4 A5 A6 A7 A8 A9 A10 B1 B2 B3 B4 B5 B6 B7 B8.
  set (hv' := upd hv a (Some n')) in *. exists Ls', hv', lo.
  assert (Hf : osx s a = None) by (unfold ofree in A9; destruct (osx s a); [discriminate|auto]).
  assert (Pn : forall q, sxo q = [] -> pnd q = []).
  { intros q Hq. destruct q; cbn in *; try discriminate; auto. }
  assert (F : frame s (o_goto (o_set s a n') t p') hv hv' lo lo t).
  { split; cbn [o_goto o_set och ort ofr ovs osx ogb oac oth opg otr]; auto.
    - intros x m E. destruct (Nat.eq_dec x a) as [->|Hx].
      + right. rewrite upd_same, supd_same. assert (m = n) by congruence. subst m. eauto 8.
      + left. now rewrite upd_diff, supd_diff by auto.
    - intros x u Ho Hu. unfold hv'. rewrite upd_diff; auto. congruence. }
  assert (V' : oinv (o_emit (o_goto (o_set s a n') t p') l) Ls' hv' lo).
  { apply (oinv_step s Ls hv lo t _ p' l); cbn [o_goto o_set och ort ofr ovs osx ogb oac oth opg otr]; auto.
    - intros x Hx. destruct (Nat.eq_dec x a) as [->|Hne]; [apply (i_fr _ _ _ _ V); congruence|].
      rewrite upd_diff in Hx by auto. now apply (i_fr _ _ _ _ V).
    - intros x Hx. destruct (Nat.eq_dec x a) as [->|Hne]; [rewrite upd_same; discriminate|].
      unfold hv' in Hx. rewrite upd_diff in * by auto. destruct (hv x) as [m|] eqn:E; [|congruence].
      destruct (i_inn _ _ _ _ V x m E) as (n0 & -> & _). discriminate.
    - intros x m. unfold hv'. destruct (Nat.eq_dec x a) as [->|Hne].
      + rewrite !upd_same. auto.
      + rewrite !upd_diff by auto. intros E. left. split; [auto|]. split; [auto|].
        rewrite (Pn _ A3). intros [].
    - apply own_next; [|tauto]. intros x. rewrite own_t, A3, A4. tauto.
    - now apply act_next.
    - apply V. }
  split; [exact V'|]. split; [|now apply frame_emit]. eapply ginv_keep; [exact V|exact G|exact F|exact V'|..];
    cbn [o_goto o_set och ort ofr ovs osx ogb oac oth opg otr]; auto.
  - intros x Hx. unfold hv'. destruct (Nat.eq_dec x a) as [->|Hne]; [rewrite upd_same; discriminate|].
    now rewrite upd_diff.
  - intros x Hx. left. destruct (Nat.eq_dec x a) as [->|Hne]; [eapply alive_of; eauto|].
    unfold hv' in Hx. now rewrite upd_diff in Hx.
  - intros x Hx. left. destruct (Nat.eq_dec x a) as [->|Hne]; [congruence|].
    now rewrite upd_diff in Hx.
Qed.

(** The page of an unlatched node is the one in the tree. *)
Lemma free_live a n : och s a = Some n -> mn_removed n = false -> ofree s a = true -> hv a = Some n.
Proof.
  intros E Hr Hf. apply (i_live _ _ _ _ V a n E Hr). intros u Hu. apply pnd_sxo in Hu.
  apply (i_own _ _ _ _ V) in Hu. unfold ofree in Hf. now rewrite Hu in Hf.
Qed.

Lemma own_live a n : och s a = Some n -> mn_removed n = false -> osx s a = Some t -> pnd (oth s t) = [] ->
  hv a = Some n.
Proof.
  intros E Hr Ho Hp. apply (i_live _ _ _ _ V a n E Hr). intros u Hu. pose proof Hu as Hu'. apply pnd_sxo in Hu.
  apply (i_own _ _ _ _ V) in Hu. assert (u = t) by congruence. subst u. rewrite Hp in Hu'. destruct Hu'.
Qed.

Lemma leaf_live a n : och s a = Some n -> mn_removed n = false -> mn_inner n = false -> hv a = Some n.
Proof.
  intros E Hr Hi. apply (i_live _ _ _ _ V a n E Hr). intros u Hu.
  destruct (pend_pc _ _ _ _ u a V Hu) as (pn & _ & E1 & _ & E2 & _). congruence.
Qed.

Lemma lo_replace U L1 a n n' L2 D : Ls = U ++ (L1 ++ (a, n) :: L2) :: D -> hi_ext n' = hi_ext n ->
  lorel lo (U ++ (L1 ++ (a, n') :: L2) :: D).
Proof.
  intros EL Hh L e x Hin He. apply in_app_or in Hin as [Hin|[<-|Hin]].
  - apply (HL L); auto. rewrite EL. apply in_or_app. auto.
  - apply (HL (L1 ++ (a, n) :: L2)); [rewrite EL; apply in_elt|].
    rewrite entries_app in *. cbn [entries] in *. now rewrite Hh in He.
  - apply (HL L); auto. rewrite EL. apply in_or_app. right. now right.
Qed.

(** CleanUp. *)
Lemma g_clean a n n' len p' :
  oth s t <> OIdle -> p' <> OIdle -> sxo (oth s t) = [] -> sxo p' = [] ->
  lim (oth s t) = [] -> lim p' = [] ->
  och s a = Some n -> mn_removed n = false -> ofree s a = true ->
  (len = mn_maxlen \/ (mn_inner n = false /\ exists k, mvalid k /\ len = mn_reclen k)) ->
  ostat n len = Some (SClean n') ->
  (frame s (o_set s a n') hv (upd hv a (Some n')) lo lo (S t) -> mn_inner n' = mn_inner n ->
     pcok (o_set s a n') (upd hv a (Some n')) lo t p') ->
  (forall x, ostatr (oth s t) x -> ostatr p' x) ->
  nxt s hv lo t (o_emit (o_goto (o_set s a n') t p') LTau).
Proof.
  intros A1 A2 A3 A4 A5 A6 A7 A8 A9 Hlen Est Hpc Hst.
  pose proof (free_live a n A7 A8 A9) as Hv.
  destruct (alive_at _ _ _ _ _ HT HF HL a n Hv) as (U & L1 & an & L2 & D & EL & Hrep & Elo & Hlv & Hw & Ei).
  assert (Hcl : exists an', mrep n' an' /\ refreshed an an').
  { destruct Hlen as [->|(Hi & k & Hk & ->)].
    - destruct (ostat_max n an Hrep) as (m & Em & Hm); [rewrite (nw_inner _ _ _ _ Hw); apply Hw|].
      rewrite Em in Est. injection Est as ->. exact Hm.
    - rewrite Hi in Ei. rewrite <- Ei in Hw.
      destruct (ostat_leaf n an k Hrep (nw_inner _ _ _ _ Hw) (nw_body _ _ _ _ Hw) Hk) as (m & Em & Hm).
      rewrite Em in Est. injection Est as ->. exact Hm. }
  destruct Hcl as (an' & Hrep' & Href).
  pose proof HT as HT'. pose proof HF as HF'. rewrite EL in HT', HF'.
  destruct (refresh_at _ _ a an an' _ D _ _ _ (Some n') n HT' HF' Hv Hrep' Href) as (B1 & B2 & B3 & _).
  set (Ls' := U ++ (L1 ++ (a, an') :: L2) :: D) in *. cbn [cleaned] in B2.
  assert (Hin : mn_inner n' = mn_inner n /\ hi_ext an' = hi_ext an).
  { pose proof B1 as B1'. apply dtree_app in B1' as (_ & HD & _). apply mdn_level in HD.
    destruct (seg_wf _ _ _ _ _ _ _ _ _ HD) as (Hw' & _).
    split; [rewrite (proj1 (M_hdr _ _ Hrep')), (nw_inner _ _ _ _ Hw'); congruence|].
    unfold refreshed in Href. rewrite (nw_inner _ _ _ _ Hw) in Href. destruct D; cbn [innerb] in *.
    + destruct (node_wf_leaf_upd _ _ _ _ _ _ Hw Href) as (_ & _ & Hh & _); [intros ? []|]. unfold hi_ext; now rewrite Hh.
    + congruence. }
  destruct Hin as [Hin Hhi].
  apply (g_page a n n' p' LTau Ls'); auto.
  - unfold Ls'. eapply lo_replace; eauto.
  - apply Hpc; [|auto]. split; cbn [o_set och ort ofr ovs osx ogb oac oth opg otr]; auto.
    + intros x m E. destruct (Nat.eq_dec x a) as [->|Hx].
      * right. rewrite upd_same, supd_same. assert (m = n) by congruence. subst m.
        unfold ofree in A9. destruct (osx s a); [discriminate|]. eauto 8.
      * left. now rewrite upd_diff, supd_diff by auto.
    + intros x u Ho Hu. rewrite upd_diff; auto. intros ->. unfold ofree in A9. now rewrite Ho in A9.
  - intros k. cbn [eff]. unfold lvl in *. rewrite B3, <- EL. apply V.
  - exact Logic.I.
  - cbn. apply Hst. apply V.
Qed.

Lemma at_page c a : here s lo t (call_key c) a -> exists n, och s a = Some n /\ opage s a = Some n.
Proof.
  intros (H1 & _ & H3). rewrite (opage_held _ _ _ H3). destruct (och s a); [eauto|congruence].
Qed.

Lemma body_of a n : och s a = Some n -> mn_removed n = false ->
  exists an, mrep n an /\ body_ok (a_inner an) (a_slots an).
Proof.
  intros E Hr. pose proof (i_okp _ _ _ _ V a n E) as H. unfold okp in H. rewrite Hr in H. apply H.
Qed.

Lemma oin_some a n k : och s a = Some n -> exists b, oin n k = Some b.
Proof.
  intros E. unfold oin. destruct (mn_removed n) eqn:Er; [eauto|].
  destruct (body_of a n E Er) as (an & Hrep & _). rewrite (M_comphigh _ _ k Hrep). eauto.
Qed.


Lemma g_tau sx' p' :
  oth s t <> OIdle -> p' <> OIdle -> pnd (oth s t) = [] -> pnd p' = [] ->
  (forall a, sx' a = Some t <-> In a (sxo p')) ->
  (forall u a, u <> t -> (sx' a = Some u <-> osx s a = Some u)) ->
  pcok s hv lo t p' -> (forall x, ostatr (oth s t) x -> ostatr p' x) ->
  nxt s hv lo t (o_emit (OCfg (och s) (ort s) (ofr s) (ovs s) sx' (ogb s) (oac s) (supd (oth s) t p') (opg s) (otr s)) LTau).
Proof.
  intros A1 A2 A3 A4 A5 A6 A7 A8.
  assert (HLm : forall q, pnd q = [] -> lim q = []) by (intros q; destruct q; cbn; auto; discriminate).
  apply g_latch; auto; [exact Logic.I|]. apply A8, V.
Qed.

Lemma g_goto p' :
  oth s t <> OIdle -> p' <> OIdle -> sxo (oth s t) = [] -> sxo p' = [] -> pcok s hv lo t p' ->
  (forall x, ostatr (oth s t) x -> ostatr p' x) ->
  nxt s hv lo t (o_emit (o_goto s t p') LTau).
Proof.
  intros A1 A2 A3 A4 A5 A6.
  assert (Pn : forall q, sxo q = [] -> pnd q = []) by (intros q Hq; destruct q; cbn in *; try discriminate; auto).
  unfold o_goto. apply g_tau; auto.
  - intros a. rewrite own_t, A3, A4. tauto.
  - tauto.
Qed.

Ltac gogo E := apply g_goto; rewrite ?E; [discriminate|discriminate|reflexivity|reflexivity| |cbn; auto].
Ltac ownx E :=
  let x := fresh "x" in
  intros; match goal with |- context [supd _ _ _ ?y] => pose proof (own_t y) | |- context [osx s ?y] => pose proof (own_t y) end;
  rewrite ?E in *; cbn [sxo In] in *; unfold supd;
  repeat match goal with |- context [Nat.eqb ?x ?y] => destruct (Nat.eqb_spec x y); subst end;
  intuition congruence.

Lemma ofree_none a : ofree s a = true -> osx s a = None.
Proof. unfold ofree. destruct (osx s a); [discriminate|auto]. Qed.

Lemma active_t : oth s t <> OIdle -> In t (oac s).
Proof. apply V. Qed.

Lemma here_root k : here s lo t k (ort s).
Proof.
  destruct (root_alive _ _ _ _ _ HT HF HL) as (d & Hd & Hlo). split; [|split].
  - destruct (i_inn _ _ _ _ V _ _ Hd) as (n & -> & _). discriminate.
  - rewrite Hlo. apply ele_neg.
  - apply holds_un. apply (g_un _ _ G). congruence.
Qed.

Lemma go_down k a n : here s lo t k a -> mvalid k -> och s a = Some n -> mn_inner n = true -> oin n k = Some true ->
  mn_removed n = false /\ mn_comphigh n k = Some true /\
  exists pos b, routep n k = Some (pos, b) /\ here s lo t k b /\ kidm n b.
Proof.
  intros (H1 & H2 & H3) Hk E Hi Hin. unfold oin in Hin. destruct (mn_removed n) eqn:Er; [discriminate|].
  split; [auto|]. split; [auto|].
  pose proof (i_okp _ _ _ _ V a n E) as Ho. unfold okp in Ho. rewrite Er, Hi in Ho. destruct Ho as [_ [_ Ho]].
  destruct (Ho k Hk H2 Hin) as (pos & b & E1 & E2 & E3 & E4). exists pos, b. split; [auto|]. split; [|auto].
  split; [auto|]. split; [auto|]. apply (follow s hv t a n b G E); [unfold linked; now rewrite Hi|exact H3].
Qed.

Lemma go_next k a n : here s lo t k a -> och s a = Some n -> mn_inner n = false -> oin n k = Some false ->
  exists b nb, mn_next n = Some b /\ here s lo t k b /\ och s b = Some nb /\ mn_inner nb = false.
Proof.
  intros (H1 & H2 & H3) E Hi Hin. unfold oin in Hin.
  pose proof (i_okp _ _ _ _ V a n E) as Ho. unfold okp in Ho. rewrite Hi in Ho.
  assert (HH : exists b nb, mn_next n = Some b /\ och s b = Some nb /\ mn_inner nb = false /\ ele (lo b) (Key k)).
  { destruct (mn_removed n).
    - destruct (Ho eq_refl) as (_ & b & nb & E1 & E2 & E3 & E4). exists b, nb. split; [auto|]. split; [auto|]. split; [auto|].
      eapply ele_trans; [apply elt_ele|]; eauto.
    - destruct Ho as [_ Ho]. apply Ho; auto. }
  destruct HH as (b & nb & E1 & E2 & E3 & E4). exists b, nb. split; [auto|]. split; [|auto].
  split; [congruence|]. split; [auto|]. apply (follow s hv t a n b G E); [unfold linked; now rewrite Hi|exact H3].
Qed.

(** A leaf with the key in its range holds what the map has there. *)
Lemma leaf_at k a n : here s lo t k a -> och s a = Some n -> mn_inner n = false -> oin n k = Some true ->
  hv a = Some n /\ mn_removed n = false /\
  exists U L1 an L2, Ls = U ++ [L1 ++ (a, an) :: L2] /\ level false false (L1 ++ (a, an) :: L2) /\
    in_range (lasthi NegInf L1) k (hi_ext an) /\ mrep n an /\ node_wf false false (lasthi NegInf L1) an /\
    effs amap_empty (otr s) k = assoc k (live (a_slots an)).
Proof.
  intros (H1 & H2 & H3) E Hi Hin. unfold oin in Hin. destruct (mn_removed n) eqn:Er; [discriminate|].
  pose proof (leaf_live a n E Er Hi) as Hv. split; [auto|]. split; [auto|].
  destruct (at_node _ _ _ _ k a HT HF (alive_onp _ _ _ _ _ HT HF HL a n k Hv H2 Hin))
    as (U & L1 & an & L2 & D & d & EL & Hlv & Hr & Hd & Hrep & Hdi & Hf & Hw).
  assert (d = n) by congruence. subst d. rewrite Hi in Hdi. destruct D; [|discriminate]. cbn [innerb] in *.
  exists U, L1, an, L2. split; [auto|]. split; [auto|]. split; [auto|]. split; [auto|]. split; [auto|].
  rewrite <- (i_map _ _ _ _ V k), EL. unfold lvl in *. rewrite last_last. eapply recs_assoc; eauto.
Qed.

Lemma st_root c : oth s t = ORoot c -> ogood t s hv lo.
Proof.
  intros E. unfold ogood, ostep. rewrite E. pose proof (i_pc _ _ _ _ V t) as Hp. rewrite E in Hp.
  gogo E. cbn. split; [exact Hp|apply here_root].
Qed.

Lemma st_wroot c : oth s t = OWRoot c -> ogood t s hv lo.
Proof.
  intros E. unfold ogood, ostep. rewrite E. pose proof (i_pc _ _ _ _ V t) as Hp. rewrite E in Hp.
  gogo E. cbn. split; [exact Hp|apply here_root].
Qed.

Lemma st_rd c a : oth s t = ORd c a -> ogood t s hv lo.
Proof.
  intros E. unfold ogood, ostep. rewrite E. pose proof (i_pc _ _ _ _ V t) as Hp. rewrite E in Hp. destruct Hp as (Hc & Ha).
  destruct (at_page c a Ha) as (n & En & ->). cbn [xbind].
  destruct (oin_some a n (call_key c) En) as (b & Eb). rewrite Eb. cbn [xbind].
  destruct (mn_inner n) eqn:Ei; destruct b.
  - destruct (go_down _ _ _ Ha (proj2 Hc) En Ei Eb) as (_ & _ & pos & b & -> & Hb & _). cbn [xbind snd].
    gogo E. cbn. auto.
  - gogo E. exact Hc.
  - destruct (leaf_at _ _ _ Ha En Ei Eb) as (Hv & Hrm & U & L1 & an & L2 & EL & Hlv & Hr & Hrep & Hw & Hm).
    destruct Hc as [Hc Hk]. destruct c as [k| | | |]; try discriminate Hc. cbn [call_key mleaf_op] in *.
    rewrite (M_read n an k Hrep (nw_inner _ _ _ _ Hw) (nw_body _ _ _ _ Hw) Hk). cbn [xbind fst snd].
    pose proof (i_stat _ _ _ _ V t) as Hst. rewrite E in Hst. destruct Hst as (i & Hst).
    unfold o_goto. apply g_latch; rewrite ?E; try discriminate; try reflexivity.
    + ownx E.
    + cbn. exists i, (length (otr s)). split; [auto|].
      split; [split; [eapply tstat_le; eauto|lia]|]. rewrite firstn_all. now rewrite Hm.
    + intros u Hu. cbn. now rewrite supd_diff.
    + cbn. now rewrite supd_same.
  - destruct (go_next _ _ _ Ha En Ei Eb) as (b & nb & -> & Hb & _). cbn [xbind]. gogo E. cbn. auto.
Qed.

Lemma st_wst c a : oth s t = OWSt c a -> ogood t s hv lo.
Proof.
  intros E. unfold ogood, ostep. rewrite E. pose proof (i_pc _ _ _ _ V t) as Hp. rewrite E in Hp. destruct Hp as (Hc & Ha).
  assert (Ht : In t (oac s)) by (apply active_t; rewrite E; discriminate).
  destruct (at_page c a Ha) as (n & En & ->). cbn [xbind].
  destruct (mn_removed n) eqn:Er; [gogo E; exact Hc|].
  destruct (body_of a n En Er) as (an & Hrep & Hb).
  destruct (ostat_max n an Hrep Hb) as (m & Em & Hm). rewrite Em. cbn [xbind].
  destruct m.
  - destruct (ofree s a) eqn:Ef; [|exact Logic.I].
    apply (g_clean a n n' mn_maxlen); rewrite ?E; try discriminate; try reflexivity; auto.
    intros F _. cbn [pcok]. split; [auto|]. eapply fr_here; eauto.
  - gogo E. cbn. split; [auto|]. split; [lia|]. intros _. exists n. auto.
  - gogo E. cbn. split; [auto|]. split; [lia|]. intros _. exists n. auto.
  - gogo E. cbn. split; [auto|]. split; [lia|]. intros _. exists n. auto.
Qed.

Lemma st_wd c a v : oth s t = OWd c a v -> ogood t s hv lo.
Proof.
  intros E. unfold ogood, ostep. rewrite E. pose proof (i_pc _ _ _ _ V t) as Hp. rewrite E in Hp.
  destruct Hp as ((Hc & Ha) & Hv).
  assert (Ht : In t (oac s)) by (apply active_t; rewrite E; discriminate).
  destruct (at_page c a Ha) as (n & En & ->). cbn [xbind].
  destruct (mn_inner n) eqn:Ei; cbn [negb]; [|gogo E; cbn; split; [auto|eauto]].
  destruct (Nat.eqb_spec (ovs s a) v) as [Ev|Ev].
  - destruct (proj2 Hv Ev) as (n0 & En0 & Er & Hrm). assert (n0 = n) by congruence. subst n0.
    destruct (oin_some a n (call_key c) En) as (b & Eb). rewrite Eb. cbn [xbind].
    destruct b; [|gogo E; exact Hc].
    destruct (go_down _ _ _ Ha (proj2 Hc) En Ei Eb) as (_ & Hch & pos & b & Ert & Hb & _). rewrite Ert. cbn [xbind fst snd].
    gogo E. cbn. split; [auto|]. split; [auto|]. split; [auto|]. split; [apply Hv|]. intros _. exists n.
    split; [auto|]. split; [auto|]. unfold rt. auto.
  - destruct (mn_removed n) eqn:Er; [gogo E; exact Hc|].
    destruct (body_of a n En Er) as (an & Hrep & Hb).
    destruct (ostat_max n an Hrep Hb) as (m & Em & Hm). rewrite Em. cbn [xbind].
    destruct m; try (gogo E; exact Hc).
    + destruct (ofree s a) eqn:Ef; [|exact Logic.I].
      apply (g_clean a n n' mn_maxlen); rewrite ?E; try discriminate; try reflexivity; auto.
      intros F _. cbn [pcok]. split; [split; [auto|eapply fr_here; eauto]|].
      eapply fr_vf; eauto. apply Ha.
    + gogo E. cbn. split; [auto|]. split; [lia|]. intros _. exists n. auto.
Qed.

Lemma st_wc c a v b pos : oth s t = OWc c a v b pos -> ogood t s hv lo.
Proof.
  intros E. unfold ogood, ostep. rewrite E. pose proof (i_pc _ _ _ _ V t) as Hp. rewrite E in Hp.
  destruct Hp as (Hc & Ha & Hb & Hv).
  assert (Ht : In t (oac s)) by (apply active_t; rewrite E; discriminate).
  assert (Hva : vf s mroom a v).
  { destruct Hv as [Hv1 Hv2]. split; [auto|]. intros Q. destruct (Hv2 Q) as (x & X1 & X2 & X3).
    exists x. split; [auto|]. split; [auto|]. apply X3. }
  destruct (at_page c b Hb) as (n & En & ->). cbn [xbind].
  destruct (mn_removed n) eqn:Er; [gogo E; cbn; auto|].
  destruct (body_of b n En Er) as (an & Hrep & Hbd).
  destruct (ostat_max n an Hrep Hbd) as (m & Em & Hm). rewrite Em. cbn [xbind].
  destruct m.
  - destruct (ofree s b) eqn:Ef; [|exact Logic.I].
    apply (g_clean b n n' mn_maxlen); rewrite ?E; try discriminate; try reflexivity; auto.
    intros F _. cbn [pcok]. split; [auto|]. split; [eapply fr_here; eauto|]. split; [eapply fr_here; eauto|].
    eapply fr_vf; eauto. apply Ha.
  - gogo E. cbn. split; [auto|]. split; [lia|]. intros _. exists n. auto.
  - gogo E. cbn. split; [auto|]. split; [lia|]. intros _. exists n. auto.
  - gogo E. cbn. split; [auto|]. split; [lia|]. intros _. exists n. auto.
Qed.

Lemma vf_rt c a v b pos : vf s (rt (call_key c) b pos) a v -> vf s mroom a v.
Proof.
  intros [Hv1 Hv2]. split; [auto|]. intros Q. destruct (Hv2 Q) as (x & X1 & X2 & X3).
  exists x. split; [auto|]. split; [auto|]. apply X3.
Qed.

Lemma st_spa c a v b w pos : oth s t = OSpA c a v b w pos -> ogood t s hv lo.
Proof.
  intros E. unfold ogood, ostep. rewrite E. pose proof (i_pc _ _ _ _ V t) as Hp. rewrite E in Hp.
  destruct Hp as ((Hc & Ha & Hb & Hv) & Hw).
  destruct (at_page c a Ha) as (n & En & ->). cbn [xbind].
  destruct (Nat.eqb_spec (ovs s a) v) as [Ev|Ev]; cbn [negb].
  - destruct (ofree s a) eqn:Ef; [|exact Logic.I]. apply ofree_none in Ef.
    unfold o_goto, o_own. cbn [och ort ofr ovs osx ogb oac oth opg otr].
    apply g_tau; rewrite ?E; try discriminate; try reflexivity.
    + ownx E.
    + ownx E.
    + cbn. split; [|auto]. split; [auto|]. split; [auto|]. split; [auto|]. now apply Hv.
    + cbn; auto.
  - gogo E. cbn. split; [auto|]. eapply vf_rt; eauto.
Qed.

Lemma st_mga c a v b w pos : oth s t = OMgA c a v b w pos -> ogood t s hv lo.
Proof.
  intros E. unfold ogood, ostep. rewrite E. pose proof (i_pc _ _ _ _ V t) as Hp. rewrite E in Hp.
  destruct Hp as ((Hc & Ha & Hb & Hv) & Hw).
  destruct (at_page c a Ha) as (n & En & ->). cbn [xbind].
  destruct (Nat.eqb_spec (ovs s a) v) as [Ev|Ev]; cbn [negb].
  - destruct (ofree s a) eqn:Ef; [|exact Logic.I]. apply ofree_none in Ef.
    unfold o_goto, o_own. cbn [och ort ofr ovs osx ogb oac oth opg otr].
    apply g_tau; rewrite ?E; try discriminate; try reflexivity.
    + ownx E.
    + ownx E.
    + cbn. split; [|auto]. split; [auto|]. split; [auto|]. split; [auto|]. now apply Hv.
    + cbn; auto.
  - gogo E. cbn. split; [auto|]. eapply vf_rt; eauto.
Qed.

Lemma st_mgb c a v b w pos : oth s t = OMgB c a v b w pos -> ogood t s hv lo.
Proof.
  intros E. unfold ogood, ostep. rewrite E. pose proof (i_pc _ _ _ _ V t) as Hp. rewrite E in Hp.
  destruct Hp as ((Hc & Ha & Hb & Hv) & Ev & Hw).
  destruct (at_page c b Hb) as (n & En & ->). cbn [xbind].
  destruct (Nat.eqb_spec (ovs s b) w) as [Ew|Ew]; cbn [negb].
  - destruct (ofree s b) eqn:Ef; [|exact Logic.I]. apply ofree_none in Ef.
    unfold o_goto, o_own. cbn [och ort ofr ovs osx ogb oac oth opg otr].
    apply g_tau; rewrite ?E; try discriminate; try reflexivity.
    + ownx E.
    + ownx E.
    + cbn. split; [split; [auto|]; split; [auto|]; split; auto|]. split; [auto|]. now apply Hw.
    + cbn; auto.
  - unfold o_goto, o_own. cbn [och ort ofr ovs osx ogb oac oth opg otr].
    apply g_tau; rewrite ?E; try discriminate; try reflexivity.
    + ownx E.
    + ownx E.
    + cbn. split; [auto|]. split; [lia|]. intros _. destruct Hv as (x & X1 & X2 & X3). exists x.
      split; [auto|]. split; [auto|]. apply X3.
    + cbn; auto.
Qed.

(** Parent and child of a thread that owns the parent. *)
Lemma ab_at c a b pos : wrc c -> here s lo t (call_key c) a -> now s (rt (call_key c) b pos) a ->
  osx s a = Some t -> pnd (oth s t) = [] ->
  exists U L1 n L2 s1 s0 s2 C1 m C2 D d db,
    Ls = U ++ (L1 ++ (a, n) :: L2) :: (C1 ++ (b, m) :: C2) :: D /\ pos = length s1 /\
    ctx (innerb D) (call_key c) L1 a n L2 s1 s0 s2 C1 b m C2 /\
    och s a = Some d /\ hv a = Some d /\ mrep d n /\ mroom d /\ mn_removed d = false /\ mn_inner d = true /\
    hv b = Some db /\ mrep db m /\ a <> b /\
    hinv hv (ofr s) [] ((a, n) :: (b, m) :: (concat U ++ L1 ++ L2 ++ C1 ++ C2 ++ concat D)).
Proof.
  intros Hc Ha (d & Ed & Er & Hrd & Hin & Hch & Hrt) Ho Hpn.
  pose proof (own_live a d Ed Er Ho Hpn) as Hv.
  destruct (at_ab _ _ _ _ _ _ _ HT HF (proj2 Hc) (alive_onp _ _ _ _ _ HT HF HL a d _ Hv (proj1 (proj2 Ha)) Hch) Hv Hin) as
      (U & L1 & n & L2 & s1 & s0 & s2 & C1 & b' & m & C2 & D & db & EL & CX & Hn & Er' & Hdb & Hmb & Hab & HF2).
  rewrite Hrt in Er'. injection Er' as -> ->.
  exists U, L1, n, L2, s1, s0, s2, C1, m, C2, D, d, db. auto 20.
Qed.

Lemma st_mgc c a b w pos : oth s t = OMgC c a b w pos -> ogood t s hv lo.
Proof.
  intros E. unfold ogood, ostep. rewrite E. pose proof (i_pc _ _ _ _ V t) as Hp. rewrite E in Hp.
  destruct Hp as ((Hc & Ha & Hb & Hv) & Ew & Hw).
  assert (Hoa : osx s a = Some t) by (apply own_t; rewrite E; cbn; auto).
  assert (Hob : osx s b = Some t) by (apply own_t; rewrite E; cbn; auto).
  destruct (ab_at c a b pos Hc Ha Hv Hoa ltac:(now rewrite E)) as
    (U & L1 & n & L2 & s1 & s0 & s2 & C1 & m & C2 & D & d & db & EL & Epos & CX & Ed & Hva & Hn & Hrd & Erd & Hin & Hvb & Hmb & Hab & HF2).
  destruct Hw as (db' & Edb & Erb & Hrb). assert (Hvb' := own_live b db' Edb Erb Hob ltac:(now rewrite E)).
  assert (db' = db) by congruence. subst db'.
  rewrite (opage_held _ _ _ (proj2 (proj2 Ha))), Ed. cbn [xbind].
  rewrite (opage_held _ _ _ (proj2 (proj2 Hb))), Edb. cbn [xbind].
  assert (Hfail : nxt s hv lo t (o_emit (o_goto (o_own (o_own s a None) b None) t (OWd c b w)) LTau)).
  { unfold o_goto, o_own. cbn [och ort ofr ovs osx ogb oac oth opg otr].
    apply g_tau; rewrite ?E; try discriminate; try reflexivity.
    + ownx E.
    + ownx E.
    + cbn. split; [auto|]. split; [lia|]. intros _. exists db. auto.
    + cbn; auto. }
  destruct (Nat.eqb_spec (pos + 1) (mn_rc d)) as [Hrc|Hrc]; [exact Hfail|].
  destruct (right_core _ _ _ _ _ _ _ _ _ _ _ _ _ CX d Hn) as [[Hrc' _]|(r & m2 & C2' & s' & s2' & _ & Hs2 & HC2 & Hr)];
    [congruence|].
  rewrite Epos, Hr. cbn [xbind]. rewrite <- Epos.
  assert (HF3 : hinv hv (ofr s) [] ((a, n) :: (b, m) :: (r, m2) :: (concat U ++ L1 ++ L2 ++ C1 ++ C2' ++ concat D))).
  { eapply hinv_perm; [|exact HF2]. rewrite HC2. pfront. do 2 apply perm_skip. reflexivity. }
  destruct (hinv_get _ _ _ _ _ r m2 HF3) as (dr & Hdr & Hmr); [right; right; now left|].
  destruct (i_inn _ _ _ _ V r dr Hdr) as (nr & Enr & Einr).
  rewrite (opage_un s r) by (apply (g_un _ _ G); congruence). rewrite Enr. cbn [xbind].
  destruct (ofree s r) eqn:Ef; [|exact Logic.I]. apply ofree_none in Ef.
  destruct (mn_can_merge db nr) eqn:Em; [|exact Hfail].
  unfold o_goto, o_own. cbn [och ort ofr ovs osx ogb oac oth opg otr].
  apply g_tau; rewrite ?E; try discriminate; try reflexivity.
  - ownx E.
  - ownx E.
  - cbn. split; [auto|]. split; [exists d; rewrite Epos at 1; auto|]. exists db, nr.
    split; [auto|]. split; [auto|]. split; [auto|]. split; [|auto].
    destruct (mn_removed nr) eqn:Err; auto. pose proof (i_dead _ _ _ _ V r nr Enr Err). congruence.
  - cbn; auto.
Qed.

Lemma st_wl c a : oth s t = OWl c a -> ogood t s hv lo.
Proof.
  intros E. unfold ogood, ostep. rewrite E. pose proof (i_pc _ _ _ _ V t) as Hp. rewrite E in Hp.
  destruct Hp as ((Hc & Ha) & n0 & En0 & Ei).
  assert (Ht : In t (oac s)) by (apply active_t; rewrite E; discriminate).
  destruct (at_page c a Ha) as (n & En & ->). assert (n0 = n) by congruence. subst n0. cbn [xbind].
  destruct (oin_some a n (call_key c) En) as (b & Eb). rewrite Eb. cbn [xbind].
  destruct b.
  2:{ destruct (go_next _ _ _ Ha En Ei Eb) as (b & nb & -> & Hb & Enb & Einb). cbn [xbind]. gogo E. cbn. eauto. }
  destruct (leaf_at _ _ _ Ha En Ei Eb) as (Hv & Hrm & U & L1 & an & L2 & EL & Hlv & Hr & Hrep & Hw & Hm).
  pose proof (i_stat _ _ _ _ V t) as Hst. rewrite E in Hst. destruct Hst as (i & Hst).
  cbv zeta.
  match goal with |- context [if needs_room c then _ else ?x] => set (op := x) end.
  assert (Hop : (needs_room c = true -> mfits n (call_key c)) ->
    match op with XOk l s' => nxt s hv lo t (o_emit s' l) | XBlock => True | XUndef => False end).
  { intros Hfit. unfold op.
    destruct (oleafop_ok c (effs amap_empty (otr s)) n an (proj1 Hc) Hrep (nw_inner _ _ _ _ Hw)
                (nw_body _ _ _ _ Hw) (proj2 Hc) Hfit Hm) as (rc & d' & n' & Eop & Hrep' & Hret & Hcase).
    rewrite (leafop_mleaf c n rc d' (proj1 Hc) Eop). cbn [xbind fst snd].
    destruct Hcase as [(-> & -> & Hrc & Hs)|(-> & extra & o & Hex & Hs & Hu)].
    - assert (Hl : match rc with kSuccess => true | _ => false end = false) by (destruct rc; congruence).
      rewrite Hl. unfold o_goto. apply g_latch; rewrite ?E; try discriminate; try reflexivity.
      + ownx E.
      + cbn. exists i, (length (otr s)). split; [auto|].
        split; [split; [eapply tstat_le; eauto|lia]|]. rewrite firstn_all.
        rewrite (surjective_pairing (spec_step _ c)). now rewrite Hs, Hret.
      + intros u Hu. cbn. now rewrite supd_diff.
      + cbn. now rewrite supd_same.
    - destruct (ofree s a) eqn:Ef; [|exact Logic.I]. cbn [rc_ret] in *.
      destruct (node_wf_leaf_upd _ _ _ _ _ _ Hw Hu) as (Hw' & Hnx & Hhi & Hlive).
      { intros x Hx. now rewrite (Hex x Hx). }
      assert (Hlv' : level false false (L1 ++ (a, n') :: L2)) by (eapply seg_replace; eauto).
      assert (HE : entries NegInf (L1 ++ (a, n') :: L2) = entries NegInf (L1 ++ (a, an) :: L2))
        by now apply entries_replace.
      apply (g_page a n d' _ _ (U ++ [L1 ++ (a, n') :: L2])); rewrite ?E; try discriminate; try reflexivity; auto.
      + rewrite (proj1 (M_hdr _ _ Hrep')), (nw_inner _ _ _ _ Hw'). auto.
      + pose proof HT as HT'. rewrite EL in HT'. apply dtree_app in HT' as (B1 & B2 & B3).
        apply dtree_app. rewrite HE. auto.
      + assert (HFe : hinv hv (ofr s) [] ((concat U ++ L1) ++ (a, an) :: L2)).
        { eapply hinv_eq; [|exact HF]. rewrite EL, concat_app. cbn [concat]. now rewrite app_nil_r, <- app_assoc. }
        eapply hinv_eq; [|eapply (hinv_set _ _ _ _ _ a an n'); [exact HFe|exact Hrep']].
        rewrite concat_app. cbn [concat]. now rewrite app_nil_r, <- app_assoc.
      + eapply lo_replace; [exact EL|]. unfold hi_ext. now rewrite Hhi.
      + intros k. cbn [eff]. rewrite Hs. unfold lvl in *. rewrite last_last.
        assert (Hm' : forall k, assoc k (recs (L1 ++ (a, an) :: L2)) = effs amap_empty (otr s) k).
        { intros k'. rewrite <- (i_map _ _ _ _ V k'), EL. unfold lvl in *. now rewrite last_last. }
        destruct (recs_mid _ _ _ _ _ _ Hlv Hr) as [HA HB].
        assert (Hr' : recs (L1 ++ (a, n') :: L2) = recs L1 ++ live (a_slots n') ++ recs L2) by apply recs_mid_eq.
        rewrite Hlive in Hr'. destruct o as [v|].
        * eapply (map_upsert L1 a an L2); eauto.
        * eapply (map_remove L1 a an L2); eauto.
      + cbn. split; [eauto|]. exact Hret.
      + intros u Hu'. cbn. now rewrite supd_diff.
      + cbn. now rewrite supd_same. }
  destruct (needs_room c); [|now apply Hop].
  destruct (ostat_leaf n an (call_key c) Hrep (nw_inner _ _ _ _ Hw) (nw_body _ _ _ _ Hw) (proj2 Hc)) as (m & Em & Hfm).
  rewrite Em. cbn [xbind]. destruct m; try (now apply Hop).
  - destruct (ofree s a) eqn:Ef; [|exact Logic.I].
    apply (g_clean a n n' (mn_reclen (call_key c))); rewrite ?E; try discriminate; try reflexivity; auto.
    + right. split; [auto|]. exists (call_key c). split; [apply Hc|auto].
    + intros F Hin. cbn [pcok]. split; [split; [auto|eapply fr_here; eauto]|].
      exists n'. cbn [o_set och]. rewrite upd_same. split; [auto|congruence].
  - gogo E. exact Hc.
Qed.

Lemma st_idle : oth s t = OIdle -> ogood t s hv lo.
Proof.
  intros E. unfold ogood, ostep. rewrite E. destruct (opg s t) as [|c cs] eqn:Ep; [exact Logic.I|].
  assert (Hc : mvalid (call_key c)).
  { apply (i_prog _ _ _ _ V t). rewrite Ep. now left. }
  assert (Hst : tstat (otr s) t = TIdle).
  { pose proof (i_stat _ _ _ _ V t) as H. now rewrite E in H. }
  set (p' := if is_read c then ORoot c else OWRoot c).
  assert (Hp' : sxo p' = [] /\ lim p' = [] /\ p' <> OIdle /\ pcok s hv lo t p' /\ ostatr p' (TCalled c (length (otr s)))).
  { unfold p'. destruct (is_read c) eqn:Er; cbn; repeat split; try discriminate; eauto. }
  destruct Hp' as (B1 & B2 & B3 & B4 & B5).
  set (s' := o_goto (o_begin s t cs) t p').
  assert (F : frame s s' hv hv lo lo t) by (split; cbn; auto).
  assert (V' : oinv (o_emit s' (LInv t c)) Ls hv lo).
  { apply (oinv_step s Ls hv lo t s' p'); unfold s';
      cbn [o_goto o_begin och ort ofr ovs osx ogb oac oth opg otr]; auto; try apply V.
    - intros x Hx. destruct (hv x) as [m|] eqn:Em; [|congruence].
      destruct (i_inn _ _ _ _ V x m Em) as (n & -> & _). discriminate.
    - intros x n En. left. split; [auto|]. split; [auto|]. rewrite E. intros [].
    - apply own_next; [|tauto]. intros x. rewrite own_t, E, B1. tauto.
    - intros u. cbn [In]. destruct (Nat.eq_dec u t) as [->|Hu].
      + auto.
      + rewrite supd_diff by auto. intros Q. right. now apply (i_act _ _ _ _ V).
    - intros u Hu. cbn. now rewrite supd_diff.
    - cbn [tnext]. rewrite supd_same. unfold p'. destruct (is_read c); cbn; eauto.
    - intros u c' Hin. unfold supd in Hin. destruct (u =? t).
      + apply (i_prog _ _ _ _ V t). rewrite Ep. now right.
      + now apply (i_prog _ _ _ _ V u). }
  exists Ls, hv, lo. split; [exact V'|]. split; [|now apply frame_emit].
  assert (HLm : forall u r, In r (lim (supd (oth s) t p' u)) <-> In r (lim (oth s u))).
  { intros u r. destruct (Nat.eq_dec u t) as [->|Hu].
    - rewrite supd_same, B2, E. tauto.
    - rewrite supd_diff by auto. tauto. }
  apply (ginv_make _ Ls hv lo V'); unfold s'; cbn [o_emit o_goto o_begin och ort ofr ovs osx ogb oac oth opg otr].
  - intros a w u Hw Hu. right. eapply (g_wait _ _ G); eauto.
  - apply G.
  - intros u r Hr. apply HLm in Hr. eapply (g_lim _ _ G); eauto.
  - intros u v r H1 H2. apply HLm in H1. apply HLm in H2. eapply (g_limu _ _ G); eauto.
  - intros a Ha Hg. destruct (g_class _ _ G a Ha Hg) as [?|(u & Hu)]; [auto|]. right. exists u. now apply HLm.
  - apply G.
  - intros x n y w wx En Hl Hx Hy.
    destruct (g_links _ _ G x n y w En Hl Hy) as (w' & H1 & H2). assert (w' = wx) by congruence. subst. exact H2.
Qed.

Lemma in_drop u w : In u (drop t w) <-> In u w /\ u <> t.
Proof. unfold drop. rewrite filter_In. destruct (Nat.eqb_spec u t); cbn; intuition congruence. Qed.

Lemma st_ret r : oth s t = ORet r -> ogood t s hv lo.
Proof.
  intros E. unfold ogood, ostep. rewrite E.
  assert (Hst : tstat (otr s) t = TDone r).
  { pose proof (i_stat _ _ _ _ V t) as H. now rewrite E in H. }
  set (s' := o_goto (o_end s t) t OIdle).
  assert (F : frame s s' hv hv lo lo t).
  { split; cbn; auto. intros u x Hu _ Hh w Hw. destruct (ogb s x) as [w0|] eqn:Ex; [|discriminate].
    injection Hw as <-. apply in_drop. split; [now apply Hh|auto]. }
  assert (V' : oinv (o_emit s' (LRes t r)) Ls hv lo).
  { apply (oinv_step s Ls hv lo t s' OIdle); unfold s';
      cbn [o_goto o_end och ort ofr ovs osx ogb oac oth opg otr]; auto; try apply V.
    - intros x Hx. destruct (hv x) as [m|] eqn:Em; [|congruence].
      destruct (i_inn _ _ _ _ V x m Em) as (n & -> & _). discriminate.
    - intros x n En. left. split; [auto|]. split; [auto|]. rewrite E. intros [].
    - apply own_next; [|tauto]. intros x. rewrite own_t, E. tauto.
    - exact Logic.I.
    - intros u. rewrite in_drop. destruct (Nat.eq_dec u t) as [->|Hu].
      + rewrite supd_same. congruence.
      + rewrite supd_diff by auto. intros Q. split; [now apply (i_act _ _ _ _ V)|auto].
    - intros u Hu. cbn. now rewrite supd_diff.
    - cbn. now rewrite supd_same. }
  exists Ls, hv, lo. split; [exact V'|]. split; [|now apply frame_emit].
  assert (HLm : forall u r, In r (lim (supd (oth s) t OIdle u)) <-> In r (lim (oth s u))).
  { intros u r0. destruct (Nat.eq_dec u t) as [->|Hu].
    - rewrite supd_same, E. tauto.
    - rewrite supd_diff by auto. tauto. }
  assert (Hgb : forall a w, match ogb s a with Some w => Some (drop t w) | None => None end = Some w ->
                 exists w0, ogb s a = Some w0 /\ w = drop t w0).
  { intros a w Hw. destruct (ogb s a) as [w0|]; [|discriminate]. injection Hw as <-. eauto. }
  apply (ginv_make _ Ls hv lo V'); unfold s'; cbn [o_emit o_goto o_end och ort ofr ovs osx ogb oac oth opg otr].
  - intros a w u Hw Hu. apply Hgb in Hw as (w0 & Hw & ->). apply in_drop in Hu as [Hu Hn]. apply in_drop. split; [|auto].
    eapply (g_wait _ _ G); eauto.
  - intros a Ha. now rewrite (g_un _ _ G a Ha).
  - intros u x Hr. apply HLm in Hr. now rewrite (g_lim _ _ G u x Hr).
  - intros u v x H1 H2. apply HLm in H1. apply HLm in H2. eapply (g_limu _ _ G); eauto.
  - intros a Ha Hg. destruct (g_class _ _ G a Ha) as [?|(u & Hu)]; [destruct (ogb s a); [discriminate|auto]|auto|].
    right. exists u. now apply HLm.
  - intros a Ha. apply (g_pres _ _ G). destruct (ogb s a); congruence.
  - intros x n y w wx En Hl Hx Hy. apply Hgb in Hx as (wx0 & Hx & ->). apply Hgb in Hy as (w0 & Hy & ->).
    destruct (g_links _ _ G x n y w0 En Hl Hy) as (w' & H1 & H2). assert (w' = wx0) by congruence. subst.
    intros u Hu. apply in_drop in Hu as [Hu Hn]. apply in_drop. auto.
Qed.

(** ** Changes of the structure *)
Lemma present x : hv x <> None -> och s x <> None.
Proof.
  intros Hx. destruct (hv x) as [m|] eqn:E; [|congruence].
  destruct (i_inn _ _ _ _ V x m E) as (n & -> & _). discriminate.
Qed.

Lemma own_alive u x : osx s x = Some u -> hv x <> None.
Proof.
  intros Hx. apply (i_own _ _ _ _ V) in Hx. pose proof (i_pc _ _ _ _ V u) as Hp.
  assert (Hn : forall Q y, now s Q y -> hv y <> None).
  { intros Q y (n & E & Er & _). eapply alive_of; eauto. }
  destruct (oth s u); cbn [sxo In] in Hx; try tauto; cbn [pcok] in Hp.
  - destruct Hx as [<-|[]]. eapply Hn. apply Hp.
  - destruct Hx as [<-|[]]. destruct Hp as (_ & _ & pn & pn' & _ & _ & _ & _ & -> & _). discriminate.
  - destruct Hx as [<-|[]]. eapply Hn. apply Hp.
  - destruct Hx as [<-|[<-|[]]]; eapply Hn; apply Hp.
  - destruct Hp as (Hp & _ & nb & nr & E1 & E2 & E3 & E4 & _).
    destruct Hx as [<-|[<-|[<-|[]]]]; [eapply Hn; apply Hp| |]; eapply alive_of; eauto.
  - destruct Hx as [<-|[]]. destruct Hp as (_ & _ & (pn & pn' & _ & _ & _ & _ & -> & _) & _). discriminate.
Qed.

Lemma fresh_none x : ofr s <= x -> och s x = None /\ hv x = None /\ ogb s x = None /\ osx s x = None.
Proof.
  intros Hx. assert (Hc : och s x = None).
  { destruct (och s x) eqn:E; auto. assert (x < ofr s) by (apply (i_fr _ _ _ _ V); congruence). lia. }
  assert (Hv : hv x = None).
  { destruct (hv x) eqn:E; auto. exfalso. apply (present x); congruence. }
  split; [auto|]. split; [auto|]. split.
  - destruct (ogb s x) eqn:E; auto. exfalso. apply (g_pres _ _ G x); congruence.
  - destruct (osx s x) eqn:E; auto. exfalso. apply (own_alive _ x E). auto.
Qed.

Lemma lo_old L e x : In L Ls -> In (e, x) (entries NegInf L) -> lo x = e /\ x < ofr s.
Proof.
  intros HLin Hin. split; [eapply HL; eauto|]. apply (i_fr _ _ _ _ V), present.
  apply (in_tree _ _ _ HF). rewrite in_map_iff. apply (in_map snd) in Hin. cbn in Hin.
  rewrite entries_fst in Hin. apply in_map_iff in Hin as (y & <- & Hy). exists y. split; [auto|].
  apply in_concat. eauto.
Qed.

Lemma fnd_lo lo' Ls' L i k a : lorel lo' Ls' -> In L Ls' -> level false i L -> fnd NegInf k L = a -> ele (lo' a) (Key k).
Proof.
  intros HL' HLin Hlv Hf. destruct (lvl_find _ _ _ k Hlv) as (L1 & b & n & L2 & -> & Hb & Hr).
  rewrite Hb in Hf. subst b. rewrite (HL' _ (lasthi NegInf L1) a HLin).
  - apply Hr.
  - rewrite entries_app. cbn [entries]. apply in_or_app. right. now left.
Qed.

(** The children of a node after its level and the one below have changed. *)
Lemma kids_sub L1 a n n' L2 C C' y : kents NegInf (L1 ++ (a, n) :: L2) = entries NegInf C ->
  kents NegInf (L1 ++ (a, n') :: L2) = entries NegInf C' -> NoDup (map fst C) ->
  In y (map kid (a_slots n)) -> In y (map fst C') -> In y (map kid (a_slots n')).
Proof.
  intros E E' Hnd Hy Hy'.
  assert (K1 : kids (L1 ++ (a, n) :: L2) = map fst C).
  { now rewrite <- (kents_kids _ NegInf), E, entries_fst. }
  assert (K2 : kids (L1 ++ (a, n') :: L2) = map fst C').
  { now rewrite <- (kents_kids _ NegInf), E', entries_fst. }
  rewrite <- K1 in Hnd. rewrite <- K2 in Hy'. unfold kids in *. rewrite flat_map_app in *. cbn [flat_map snd] in *.
  apply in_app_or in Hy' as [H|H]; [|apply in_app_or in H as [H|H]; [exact H|]].
  - exfalso. apply (NoDup_app_disj _ _ Hnd y H). apply in_or_app. auto.
  - exfalso. apply NoDup_app_r in Hnd. apply (NoDup_app_disj _ _ Hnd y Hy H).
Qed.

Lemma inner_lvl L1 a n L2 d : level false true (L1 ++ (a, n) :: L2) -> mrep d n ->
  mn_inner d = true /\ mn_removed d = false /\ a_inner n = true /\ inner_ok (a_slots n).
Proof.
  intros H Hr. destruct (seg_wf _ _ _ _ _ _ _ _ _ H) as (Hw & _). destruct (M_hdr _ _ Hr) as (A & B & _).
  rewrite A, B, (nw_inner _ _ _ _ Hw). split; [auto|]. split; [apply Hw|]. split; [auto|]. apply Hw.
Qed.

Lemma any_lvl i L1 a n L2 d : level false i (L1 ++ (a, n) :: L2) -> mrep d n ->
  mn_inner d = i /\ mn_removed d = false.
Proof.
  intros H Hr. destruct (seg_wf _ _ _ _ _ _ _ _ _ H) as (Hw & _). destruct (M_hdr _ _ Hr) as (A & B & _).
  rewrite A, B, (nw_inner _ _ _ _ Hw). split; [auto|]. apply Hw.
Qed.

Lemma st_spb c a v b w pos : oth s t = OSpB c a v b w pos -> ogood t s hv lo.
Proof.
  intros E. unfold ogood, ostep. rewrite E. pose proof (i_pc _ _ _ _ V t) as Hp. rewrite E in Hp.
  destruct Hp as ((Hc & Ha & Hb & Hv) & Ev & Hw).
  assert (Hoa : osx s a = Some t) by (apply own_t; rewrite E; cbn; auto).
  destruct (at_page c b Hb) as (nb & Enb & ->). cbn [xbind].
  destruct (Nat.eqb_spec (ovs s b) w) as [Ew|Ew]; cbn [negb].
  2:{ unfold o_goto, o_own. cbn [och ort ofr ovs osx ogb oac oth opg otr].
      apply g_tau; rewrite ?E; try discriminate; try reflexivity.
      + ownx E.
      + ownx E.
      + cbn. split; [auto|]. split; [lia|]. intros _. destruct Hv as (x & X1 & X2 & X3). exists x.
        split; [auto|]. split; [auto|]. apply X3.
      + cbn; auto. }
  destruct (ofree s b) eqn:Ef; [|exact Logic.I]. pose proof (ofree_none _ Ef) as Hob.
  destruct (ab_at c a b pos Hc Ha Hv Hoa ltac:(now rewrite E)) as
    (U & L1 & n & L2 & s1 & s0 & s2 & C1 & m & C2 & D & d & db & EL & Epos & CX & Ed & Hva & Hn & Hrd & Erd & Hin & Hvb & Hmb & Hab & HF2).
  destruct (proj2 Hw Ew) as (nb' & Enb' & Erb & Hsp). assert (nb' = nb) by congruence. subst nb'.
  assert (Hvb' := free_live b nb Enb Erb Ef). assert (nb = db) by congruence. subst nb.
  destruct (split_core_hi _ _ _ _ _ _ _ _ _ _ _ _ _ CX d db Hn Hmb (ofr s) Hrd Hsp)
    as (l' & r' & sep & dp' & n' & ml & mr & Ei & Es & Eh & Ecm & Eic & Rp & Rl & Rr & Hrl & Hrr & SR & Hfnd & Hhi).
  cbv zeta. rewrite Ei, Es. cbn [xbind fst snd]. rewrite Eh. cbn [xbind].
  assert (Hlta : a < ofr s) by (apply (i_fr _ _ _ _ V); congruence).
  assert (Hltb : b < ofr s) by (apply (i_fr _ _ _ _ V); congruence).
  set (f := ofr s) in *. destruct (fresh_none f (le_n _)) as (Hf1 & Hf2 & Hf3 & Hf4).
  assert (Hfa : f <> a) by lia. assert (Hfb : f <> b) by lia.
  set (hv' := upd (upd (upd hv f (Some r')) b (Some l')) a (Some dp')).
  set (Ls' := U ++ (L1 ++ (a, n') :: L2) :: (C1 ++ (b, ml) :: (f, mr) :: C2) :: D).
  set (lo' := supd lo f (hi_ext ml)).
  assert (HF' : hinv hv' (S f) [] (concat Ls')).
  { pose proof (heap_split hv f [] a n b m _ r' dp' n' l' ml r' mr HF2 Rp Rl Rr) as HF4.
    eapply hinv_perm; [|eapply hinv_ext; [|exact HF4]].
    - unfold Ls'. rewrite concat_app. cbn [concat]. pfront. reflexivity.
    - intros x. unfold hv', upd. now destruct (x =? f). }
  pose proof HT as HT0. rewrite EL in HT0.
  destruct (dtree_step _ _ _ _ _ _ _ HT0 SR) as (HT' & Hrecs & _). fold Ls' in HT', Hrecs.
  assert (HL' : lorel lo' Ls').
  { assert (Hold : forall L e x, In L Ls -> In (e, x) (entries NegInf L) -> lo' x = e).
    { intros L e x H1 H2. destruct (lo_old L e x H1 H2) as [H3 H4]. unfold lo'. rewrite supd_diff by (fold f in H4; lia). auto. }
    intros L e x HLin Hex. unfold Ls' in HLin. apply in_app_or in HLin as [H|[<-|[<-|H]]].
    - apply (Hold L); auto. rewrite EL. apply in_or_app. auto.
    - rewrite (sr_top _ _ _ _ _ SR) in Hex. apply (Hold (L1 ++ (a, n) :: L2)); auto. rewrite EL. apply in_elt.
    - rewrite entries_app in Hex. cbn [entries] in Hex.
      assert (HC : In (C1 ++ (b, m) :: C2) Ls) by (rewrite EL; apply in_or_app; right; right; now left).
      apply in_app_or in Hex as [H|[H|[H|H]]].
      + apply (Hold _ e x HC). rewrite entries_app. apply in_or_app. auto.
      + apply (Hold _ e x HC). rewrite entries_app. apply in_or_app. right. now left.
      + injection H as <- <-. unfold lo'. apply supd_same.
      + apply (Hold _ e x HC). rewrite entries_app. apply in_or_app. right. right.
        replace (hi_ext m) with (hi_ext mr) by (unfold hi_ext; now rewrite Hhi). exact H.
    - apply (Hold L); auto. rewrite EL. apply in_or_app. right. right. now right. }
  destruct (inner_lvl _ _ _ _ _ (sr_L _ _ _ _ _ SR) Rp) as (Ip1 & Ip2 & Ip3 & Ip4).
  destruct (inner_lvl _ _ _ _ _ (cx_L _ _ _ _ _ _ _ _ _ _ _ _ _ CX) Hn) as (_ & _ & In3 & In4).
  destruct (any_lvl _ _ _ _ _ _ (sr_C _ _ _ _ _ SR) Rl) as (Il1 & Il2).
  assert (Ir : mn_inner r' = innerb D /\ mn_removed r' = false).
  { eapply (any_lvl _ (C1 ++ [(b, ml)]) f mr C2); [rewrite <- app_assoc; exact (sr_C _ _ _ _ _ SR)|exact Rr]. }
  destruct Ir as [Ir1 Ir2].
  set (x0 := if ltb (call_key c) sep then b else f).
  set (s' := o_goto (o_set (o_new s r') b l') t (OSpC c a f sep pos x0 (ovs (o_set (o_new s r') b l') x0))).
  assert (F : frame s s' hv hv' lo lo' t).
  { split; unfold s'; cbn [o_goto o_set o_new och ort ofr ovs osx ogb oac oth opg otr]; fold f.
    - intros x nx Ex. assert (Hxf : x <> f) by congruence. destruct (Nat.eq_dec x b) as [->|Hxb].
      + right. rewrite upd_same, supd_same, supd_diff by auto. assert (nx = db) by congruence. subst nx.
        split; [auto|]. split; [auto|]. split; [auto|]. exists l'. split; [auto|congruence].
      + left. now rewrite !upd_diff, !supd_diff by auto.
    - intros x Hx. unfold lo'. apply supd_diff. congruence.
    - intros x u Ho Hu. assert (x <> a) by congruence. assert (x <> b) by congruence. assert (x <> f) by congruence.
      unfold hv'. now rewrite !upd_diff by auto.
    - auto. }
  assert (Hx0 : exists nx, och s' x0 = Some nx /\ mn_removed nx = false /\ mroom nx /\ ogb s x0 = None).
  { unfold s', x0; cbn [o_goto o_set o_new och]. fold f. destruct (ltb (call_key c) sep).
    - exists l'. rewrite upd_same. split; [auto|]. split; [auto|]. split; [auto|]. apply (g_un _ _ G). congruence.
    - exists r'. rewrite upd_diff, upd_same by auto. auto. }
  destruct Hx0 as (nx & Ex0 & Erx & Hrx & Hgx).
  assert (V' : oinv (o_emit s' LTau) Ls' hv' lo').
  { apply (oinv_step s Ls hv lo t s' (OSpC c a f sep pos x0 (ovs (o_set (o_new s r') b l') x0)));
      auto; unfold s'; cbn [o_goto o_set o_new och ort ofr ovs osx ogb oac oth opg otr]; fold f; auto; try apply V.
    - intros x Hx. destruct (Nat.eq_dec x f) as [->|]; [lia|]. destruct (Nat.eq_dec x b) as [->|]; [lia|].
      rewrite !upd_diff in Hx by auto. apply (i_fr _ _ _ _ V) in Hx. fold f in Hx. lia.
    - intros x Hx. unfold hv' in Hx. destruct (Nat.eq_dec x b) as [->|Hxb]; [rewrite upd_same; discriminate|].
      destruct (Nat.eq_dec x f) as [->|Hxf]; [rewrite upd_diff, upd_same by auto; discriminate|].
      rewrite !upd_diff by auto. destruct (Nat.eq_dec x a) as [->|Hxa]; [congruence|].
      rewrite !upd_diff in Hx by auto. now apply present.
    - intros x nn Ex. unfold hv'. destruct (Nat.eq_dec x a) as [->|Hxa].
      + right. right. left. rewrite !upd_diff in Ex by auto. assert (nn = d) by congruence. subst nn.
        split; [now left|]. split; [auto|]. split; [auto|]. rewrite upd_same. exists dp'. split; [auto|congruence].
      + rewrite (upd_diff _ a) by auto. destruct (Nat.eq_dec x b) as [->|Hxb].
        * rewrite upd_same in Ex |- *. right. left. congruence.
        * rewrite (upd_diff _ b) in Ex by auto. rewrite (upd_diff _ b) by auto. destruct (Nat.eq_dec x f) as [->|Hxf].
          -- rewrite upd_same in Ex. rewrite upd_same. right. left. congruence.
          -- rewrite upd_diff in Ex by auto. rewrite upd_diff by auto. left. rewrite E. cbn. auto.
    - apply own_next; [|tauto]. intros x. rewrite own_t, E. cbn. tauto.
    - cbn [pcok]. fold s'. split; [split; [auto|]|].
      + split; [change (och s' x0 <> None); congruence|]. split; [|now apply holds_un].
        apply (fnd_lo lo' Ls' (C1 ++ (b, ml) :: (f, mr) :: C2) (innerb D)); auto.
        * unfold Ls'. apply in_or_app. right. right. now left.
        * apply SR.
      + split; [split; [apply le_n|]; intros _; exists nx; auto|]. exists d, dp'.
        split; [cbn [o_goto o_set o_new och]; fold f; now rewrite !upd_diff by auto|]. split; [auto|]. split; [auto|].
        split; [now rewrite Epos|]. split; [unfold hv'; apply upd_same|]. split; [auto|].
        intros y Hy. apply (kidm_slot d n y Hn In3 In4) in Hy. apply (kidm_slot dp' n' y Rp Ip3 Ip4).
        assert (K1 := cx_kents _ _ _ _ _ _ _ _ _ _ _ _ _ CX).
        eapply kids_sub; [exact K1|exact (sr_E _ _ _ _ _ SR)| |exact Hy|].
        * pose proof (nodup_ls _ _ _ HF) as Hnd. rewrite EL, concat_app, map_app in Hnd.
          apply NoDup_app_r in Hnd. cbn [concat] in Hnd. rewrite map_app in Hnd. apply NoDup_app_r in Hnd.
          rewrite map_app in Hnd. now apply NoDup_app_l in Hnd.
        * assert (Hy' : In y (map fst (C1 ++ (b, m) :: C2))).
          { rewrite <- entries_fst with (lo := NegInf), <- K1, kents_kids. unfold kids. apply in_flat_map.
            exists (a, n). split; [apply in_elt|exact Hy]. }
          rewrite map_app in *. cbn [map fst] in *. apply in_or_app. apply in_app_or in Hy'.
          destruct Hy' as [|[|]]; [auto|right; left; auto|right; right; right; auto].
    - apply act_next; rewrite ?E; discriminate.
    - intros k. cbn [eff]. rewrite <- (i_map _ _ _ _ V k), EL. f_equal. exact Hrecs.
    - exact Logic.I.
    - cbn [tnext]. pose proof (i_stat _ _ _ _ V t) as Hst. rewrite E in Hst. exact Hst. }
  exists Ls', hv', lo'. split; [exact V'|]. split; [|now apply frame_emit].
  eapply ginv_keep; [exact V|exact G|exact F|exact V'|..]; unfold s';
    cbn [o_goto o_set o_new och ort ofr ovs osx ogb oac oth opg otr]; rewrite ?E; auto.
  - intros x Hx. unfold hv', upd. destruct (x =? a); [discriminate|]. destruct (x =? b); [discriminate|].
    destruct (x =? f); [discriminate|auto].
  - intros x Hx. unfold hv' in Hx. destruct (Nat.eq_dec x a) as [->|]; [left; congruence|].
    destruct (Nat.eq_dec x b) as [->|]; [left; congruence|]. destruct (Nat.eq_dec x f) as [->|]; [auto|].
    rewrite !upd_diff in Hx by auto. auto.
  - intros x Hx. fold f in Hx. destruct (Nat.eq_dec x b) as [->|]; [left; congruence|].
    destruct (Nat.eq_dec x f) as [->|].
    + right. unfold hv'. rewrite !upd_diff by auto. rewrite upd_same. discriminate.
    + rewrite !upd_diff in Hx by auto. auto.
Qed.

Lemma st_spc c a r sep pos x w : oth s t = OSpC c a r sep pos x w -> ogood t s hv lo.
Proof.
  intros E. unfold ogood, ostep. rewrite E. pose proof (i_pc _ _ _ _ V t) as Hp. rewrite E in Hp.
  destruct Hp as ((Hc & Hx) & Hvx & pn & pn' & E1 & E2 & E3 & E4 & E5 & E6 & E7).
  assert (Hoa : osx s a = Some t) by (apply own_t; rewrite E; cbn; auto).
  assert (Hga : ogb s a = None) by (apply (g_un _ _ G); congruence).
  rewrite (opage_un s a Hga), E1. cbn [xbind]. rewrite E4. cbn [xbind].
  set (s' := o_goto (o_own (o_set s a pn') a None) t (OWd c x w)).
  assert (F : frame s s' hv hv lo lo t).
  { split; unfold s'; cbn [o_goto o_own o_set och ort ofr ovs osx ogb oac oth opg otr]; auto.
    intros y n Ey. destruct (Nat.eq_dec y a) as [->|Hy].
    - right. rewrite upd_same, supd_same. assert (n = pn) by congruence. subst n.
      split; [auto|]. split; [auto|]. split; [auto|]. exists pn'. split; [auto|congruence].
    - left. now rewrite upd_diff, supd_diff by auto. }
  assert (V' : oinv (o_emit s' LTau) Ls hv lo).
  { apply (oinv_step s Ls hv lo t s' (OWd c x w)); auto; unfold s';
      cbn [o_goto o_own o_set och ort ofr ovs osx ogb oac oth opg otr]; auto; try apply V.
    - intros y Hy. destruct (Nat.eq_dec y a) as [->|]; [apply (i_fr _ _ _ _ V); congruence|].
      rewrite upd_diff in Hy by auto. now apply (i_fr _ _ _ _ V).
    - intros y Hy. destruct (Nat.eq_dec y a) as [->|]; [rewrite upd_same; discriminate|].
      rewrite upd_diff by auto. now apply present.
    - intros y n Ey. destruct (Nat.eq_dec y a) as [->|Hy].
      + rewrite upd_same in Ey. right. left. congruence.
      + rewrite upd_diff in Ey by auto. left. rewrite E. cbn. intuition congruence.
    - apply own_next; ownx E.
    - cbn [pcok]. fold s'. split; [split; [auto|]|].
      + split; [|exact (proj2 Hx)]. eapply fr_present; [exact F|apply Hx].
      + eapply (fr_vf _ _ _ _ _ _ t (S t)); [exact F|lia|apply Hx|exact Hvx].
    - apply act_next; rewrite ?E; discriminate.
    - exact Logic.I.
    - cbn [tnext]. pose proof (i_stat _ _ _ _ V t) as Hst. rewrite E in Hst. exact Hst. }
  exists Ls, hv, lo. split; [exact V'|]. split; [|now apply frame_emit].
  eapply ginv_keep; [exact V|exact G|exact F|exact V'|..]; unfold s';
    cbn [o_goto o_own o_set och ort ofr ovs osx ogb oac oth opg otr]; rewrite ?E; auto.
  intros y Hy. left. destruct (Nat.eq_dec y a) as [->|]; [congruence|]. now rewrite upd_diff in Hy.
Qed.

Lemma st_mg1 c a b r pos : oth s t = OMg1 c a b r pos -> ogood t s hv lo.
Proof.
  intros E. unfold ogood, ostep. rewrite E. pose proof (i_pc _ _ _ _ V t) as Hp. rewrite E in Hp.
  destruct Hp as ((Hc & Ha & Hb & Hv) & Hch & nb & nr & Enb & Erb & Enr & Err & Hcm).
  assert (Hoa : osx s a = Some t) by (apply own_t; rewrite E; cbn; auto).
  assert (Hob : osx s b = Some t) by (apply own_t; rewrite E; cbn; auto).
  assert (Hor : osx s r = Some t) by (apply own_t; rewrite E; cbn; auto).
  destruct (ab_at c a b pos Hc Ha Hv Hoa ltac:(now rewrite E)) as
    (U & L1 & n & L2 & s1 & s0 & s2 & C1 & m & C2 & D & d & db & EL & Epos & CX & Ed & Hva & Hn & Hrd & Erd & Hin & Hvb & Hmb & Hab & HF2).
  assert (Hvb' := own_live b nb Enb Erb Hob ltac:(now rewrite E)). assert (nb = db) by congruence. subst nb.
  assert (Hvr := own_live r nr Enr Err Hor ltac:(now rewrite E)).
  destruct Hch as (d' & Ed' & _ & Hch & Hrc). assert (d' = d) by congruence. subst d'.
  destruct (right_core _ _ _ _ _ _ _ _ _ _ _ _ _ CX d Hn) as [[Hrc' _]|(r0 & m2 & C2' & sl' & s2' & _ & Hs2 & HC2 & Hr)];
    [congruence|].
  rewrite <- Epos, Hch in Hr. injection Hr as <-.
  assert (HF3 : hinv hv (ofr s) [] ((a, n) :: (b, m) :: (r, m2) :: (concat U ++ L1 ++ L2 ++ C1 ++ C2' ++ concat D))).
  { eapply hinv_perm; [|exact HF2]. rewrite HC2. pfront. do 2 apply perm_skip. reflexivity. }
  destruct (hinv_get _ _ _ _ _ r m2 HF3) as (dr' & Hdr' & Hmr); [right; right; now left|].
  assert (dr' = nr) by congruence. subst dr'.
  assert (Hra : r <> a).
  { eapply (hinv_neq _ _ _ _ [] a n); [exact HF3|]. right. now left. }
  assert (Hrb : r <> b).
  { eapply (hinv_neq _ _ _ _ [(a, n)] b m); [exact HF3|]. right. now left. }
  destruct (merge_core_hi _ _ _ _ _ _ _ _ _ _ _ _ _ CX d db Hn Hmb nr r m2 C2' sl' s2' Hmr HC2 Hs2 Hcm)
    as (l' & dp' & n' & m' & Em & Edc & Rp & Rl & Hrl & SR & Hfnd & Hhi).
  rewrite (opage_held _ _ _ (proj2 (proj2 Hb))), Enb. cbn [xbind].
  assert (Hgr : ogb s r = None) by (apply (g_un _ _ G); congruence).
  rewrite (opage_un s r Hgr), Enr. cbn [xbind]. rewrite Em. cbn [xbind]. cbv zeta.
  set (hv' := upd (upd (upd hv b (Some l')) a (Some dp')) r None).
  set (Ls' := U ++ (L1 ++ (a, n') :: L2) :: (C1 ++ (b, m') :: C2') :: D).
  set (nr' := mn_mark_removed b nr).
  set (p' := OMg3 c a b r (ovs (o_own (o_set s b l') b None) b) pos).
  set (s' := o_goto (o_own (o_set (o_own (o_set s b l') b None) r nr') r None) t p').
  assert (HF' : hinv hv' (ofr s) [] (concat Ls')).
  { eapply hinv_perm; [|exact (heap_merge_free _ _ _ a n b m r m2 _ dp' n' l' m' HF3 Rp Rl)].
    unfold Ls'. rewrite concat_app. cbn [concat]. pfront. reflexivity. }
  pose proof HT as HT0. rewrite EL in HT0.
  destruct (dtree_step _ _ _ _ _ _ _ HT0 SR) as (HT' & Hrecs & _). fold Ls' in HT', Hrecs.
  assert (HC : In (C1 ++ (b, m) :: (r, m2) :: C2') Ls) by (rewrite EL, HC2; apply in_or_app; right; right; now left).
  assert (HL' : lorel lo Ls').
  { intros L e x HLin Hex. unfold Ls' in HLin. apply in_app_or in HLin as [H|[<-|[<-|H]]].
    - apply (HL L); auto. rewrite EL. apply in_or_app. auto.
    - rewrite (sr_top _ _ _ _ _ SR) in Hex. apply (HL (L1 ++ (a, n) :: L2)); auto. rewrite EL. apply in_elt.
    - rewrite entries_app in Hex. cbn [entries] in Hex.
      apply (HL _ e x HC). rewrite entries_app. cbn [entries]. apply in_or_app. apply in_app_or in Hex as [H|[H|H]].
      + auto.
      + right. now left.
      + right. right. right. replace (hi_ext m2) with (hi_ext m') by (unfold hi_ext; now rewrite Hhi). exact H.
    - apply (HL L); auto. rewrite EL. apply in_or_app. right. right. now right. }
  destruct (inner_lvl _ _ _ _ _ (sr_L _ _ _ _ _ SR) Rp) as (Ip1 & Ip2 & Ip3 & Ip4).
  destruct (inner_lvl _ _ _ _ _ (cx_L _ _ _ _ _ _ _ _ _ _ _ _ _ CX) Hn) as (_ & _ & In3 & In4).
  destruct (any_lvl _ _ _ _ _ _ (sr_C _ _ _ _ _ SR) Rl) as (Il1 & Il2).
  destruct (any_lvl _ _ _ _ _ _ (cx_C _ _ _ _ _ _ _ _ _ _ _ _ _ CX) Hmb) as (Ib1 & Ib2).
  assert (Ir : mn_inner nr = innerb D /\ mn_removed nr = false).
  { eapply (any_lvl _ (C1 ++ [(b, m)]) r m2 C2'); [|exact Hmr]. rewrite <- app_assoc. cbn [app]. rewrite <- HC2.
    exact (cx_C _ _ _ _ _ _ _ _ _ _ _ _ _ CX). }
  destruct Ir as [Ir1 Ir2].
  assert (Hlob : lo b = lasthi NegInf C1).
  { apply (HL _ _ _ HC). rewrite entries_app. cbn [entries]. apply in_or_app. right. now left. }
  assert (Hlor : lo r = hi_ext m).
  { apply (HL _ _ _ HC). rewrite entries_app. cbn [entries]. apply in_or_app. right. right. now left. }
  assert (Hlo : elt (lo b) (lo r)).
  { rewrite Hlob, Hlor. destruct (cx_rc _ _ _ _ _ _ _ _ _ _ _ _ _ CX) as [R1 R2].
    eapply ele_elt_trans; eauto. }
  assert (F : frame s s' hv hv' lo lo t).
  { split; unfold s'; cbn [o_goto o_own o_set och ort ofr ovs osx ogb oac oth opg otr]; auto.
    - intros x nx Ex. destruct (Nat.eq_dec x r) as [->|Hxr].
      + right. rewrite upd_same, supd_same, supd_diff by auto. assert (nx = nr) by congruence. subst nx.
        split; [auto|]. split; [auto|]. split; [auto|]. exists nr'. split; [auto|apply O_inner].
      + destruct (Nat.eq_dec x b) as [->|Hxb].
        * right. rewrite !(upd_diff _ r), upd_same, (supd_diff _ r), supd_same by auto.
          assert (nx = db) by congruence. subst nx.
          split; [auto|]. split; [auto|]. split; [auto|]. exists l'. split; [auto|congruence].
        * left. now rewrite !upd_diff, !supd_diff by auto.
    - intros x u Ho Hu. assert (x <> a) by congruence. assert (x <> b) by congruence. assert (x <> r) by congruence.
      unfold hv'. now rewrite !upd_diff by auto. }
  assert (Hkid : forall y, kidm d y -> y = r \/ kidm dp' y).
  { intros y Hy. destruct (Nat.eq_dec y r) as [->|Hyr]; [auto|]. right.
    apply (kidm_slot d n y Hn In3 In4) in Hy. apply (kidm_slot dp' n' y Rp Ip3 Ip4).
    assert (K1 := cx_kents _ _ _ _ _ _ _ _ _ _ _ _ _ CX).
    eapply kids_sub; [exact K1|exact (sr_E _ _ _ _ _ SR)| |exact Hy|].
    - pose proof (nodup_ls _ _ _ HF) as Hnd. rewrite EL, concat_app, map_app in Hnd.
      apply NoDup_app_r in Hnd. cbn [concat] in Hnd. rewrite map_app in Hnd. apply NoDup_app_r in Hnd.
      rewrite map_app in Hnd. now apply NoDup_app_l in Hnd.
    - assert (Hy' : In y (map fst (C1 ++ (b, m) :: C2))).
      { rewrite <- entries_fst with (lo := NegInf), <- K1, kents_kids. unfold kids. apply in_flat_map.
        exists (a, n). split; [apply in_elt|exact Hy]. }
      rewrite HC2, map_app in Hy'. rewrite map_app. cbn [map fst] in *. apply in_or_app. apply in_app_or in Hy'.
      destruct Hy' as [|[|[|]]]; [auto|right; left; auto|congruence|right; right; auto]. }
  assert (Hkb : kidm d b).
  { apply (kidm_slot d n b Hn In3 In4). rewrite (cx_sl _ _ _ _ _ _ _ _ _ _ _ _ _ CX), map_app. cbn [map].
    rewrite (cx_kid _ _ _ _ _ _ _ _ _ _ _ _ _ CX). apply in_elt. }
  assert (V' : oinv (o_emit s' LTau) Ls' hv' lo).
  { apply (oinv_step s Ls hv lo t s' p'); auto; unfold s';
      cbn [o_goto o_own o_set och ort ofr ovs osx ogb oac oth opg otr]; auto; try apply V.
    - intros x Hx. destruct (Nat.eq_dec x r) as [->|]; [apply (i_fr _ _ _ _ V); congruence|].
      destruct (Nat.eq_dec x b) as [->|]; [apply (i_fr _ _ _ _ V); congruence|].
      rewrite !upd_diff in Hx by auto. now apply (i_fr _ _ _ _ V).
    - intros x Hx. unfold hv' in Hx. destruct (Nat.eq_dec x r) as [->|Hxr]; [rewrite upd_same; discriminate|].
      rewrite (upd_diff _ r) by auto. destruct (Nat.eq_dec x b) as [->|Hxb]; [rewrite upd_same; discriminate|].
      rewrite upd_diff by auto. destruct (Nat.eq_dec x a) as [->|Hxa]; [congruence|].
      rewrite !upd_diff in Hx by auto. now apply present.
    - intros x nn Ex. unfold hv'. destruct (Nat.eq_dec x r) as [->|Hxr].
      + right. right. right. rewrite upd_same in Ex. injection Ex as <-. rewrite upd_same.
        split; [apply M_mark|]. split; [auto|]. unfold okp, nr'. rewrite (proj1 (M_mark b nr)). intros Hi.
        rewrite O_inner in Hi. split.
        { destruct (body_of r nr Enr Err) as (anr & Hanr & Hbnr).
          assert (Hir : a_inner anr = false) by (rewrite <- (proj1 (M_hdr _ _ Hanr)); exact Hi).
          rewrite Hir in Hbnr.
          destruct (O_mark b nr anr Hanr Hir) as (ar' & Q1 & Q2 & Q3). exists ar'. split; [exact Q1|]. split; [auto|].
          now rewrite Q3. }
        exists b, l'. rewrite upd_diff, upd_same by auto.
        split; [now apply O_next|]. split; [auto|]. split; [congruence|auto].
      + rewrite (upd_diff _ r) in Ex by auto. rewrite (upd_diff _ r) by auto.
        destruct (Nat.eq_dec x a) as [->|Hxa].
        * right. right. left. rewrite upd_diff in Ex by auto. assert (nn = d) by congruence. subst nn.
          split; [now left|]. split; [auto|]. split; [auto|]. rewrite upd_same. exists dp'. split; [auto|congruence].
        * rewrite (upd_diff _ a) by auto. destruct (Nat.eq_dec x b) as [->|Hxb].
          -- rewrite upd_same in Ex. rewrite upd_same. right. left. congruence.
          -- rewrite upd_diff in Ex by auto. rewrite upd_diff by auto. left. rewrite E. cbn. auto.
    - apply own_next; unfold p'; ownx E.
    - cbn [pcok p']. split; [split; [auto|]|].
      + split; [|exact (proj2 Hb)]. eapply fr_present; [exact F|apply Hb].
      + split; [|split].
        * cbn [o_own o_set ovs]. unfold vf. cbn [o_goto o_own o_set och ovs].
          rewrite (supd_diff _ r) by auto. rewrite supd_same. split; [apply le_n|]. intros _. exists l'.
          cbn [o_goto o_own o_set och]. rewrite upd_diff, upd_same by auto. auto.
        * exists d, dp'. cbn [o_goto o_own o_set och]. rewrite !upd_diff by auto.
          split; [auto|]. split; [auto|]. split; [auto|]. split; [now rewrite Epos|].
          split; [unfold hv'; now rewrite upd_diff, upd_same by auto|]. split; [auto|]. split.
          -- intros y Hy. destruct (Hkid y Hy); auto.
          -- destruct (Hkid b Hkb); [congruence|auto].
        * exists nr'. cbn [o_goto o_own o_set och]. rewrite upd_same. split; [auto|]. split; [apply M_mark|].
          unfold nr'. rewrite O_inner. apply O_next.
    - apply act_next; rewrite ?E; discriminate.
    - intros k. cbn [eff]. rewrite <- (i_map _ _ _ _ V k), EL. f_equal. exact Hrecs.
    - exact Logic.I.
    - cbn [tnext]. pose proof (i_stat _ _ _ _ V t) as Hst. rewrite E in Hst. exact Hst. }
  exists Ls', hv', lo. split; [exact V'|]. split; [|now apply frame_emit].
  assert (Hlr : forall u, u <> t -> ~ In r (lim (oth s u))).
  { intros u Hu Hl. pose proof (i_pc _ _ _ _ V u) as Hp. destruct (oth s u) eqn:Eu; cbn [lim In] in Hl; try tauto.
    destruct Hl as [<-|[]]. destruct Hp as (_ & _ & _ & rn & R1 & R2 & _). congruence. }
  assert (HLm : forall u x, In x (lim (supd (oth s) t p' u)) -> (u = t /\ x = r) \/ (u <> t /\ In x (lim (oth s u)))).
  { intros u x. destruct (Nat.eq_dec u t) as [->|Hu].
    - rewrite supd_same. cbn. intuition.
    - rewrite supd_diff by auto. auto. }
  apply (ginv_make _ Ls' hv' lo V'); unfold s'; cbn [o_emit o_goto o_own o_set och ort ofr ovs osx ogb oac oth opg otr].
  - apply G.
  - intros x Hx. apply (g_un _ _ G). unfold hv' in Hx. destruct (Nat.eq_dec x r) as [->|]; [congruence|].
    rewrite upd_diff in Hx by auto. destruct (Nat.eq_dec x a) as [->|]; [congruence|].
    rewrite upd_diff in Hx by auto. destruct (Nat.eq_dec x b) as [->|]; [congruence|].
    now rewrite upd_diff in Hx by auto.
  - intros u x Hx. apply HLm in Hx as [[-> ->]|[_ Hx]]; [auto|]. eapply (g_lim _ _ G); eauto.
  - intros u v x H1 H2. apply HLm in H1 as [[-> ->]|[Hu H1]]; apply HLm in H2 as [[-> H2]|[Hv' H2]]; auto.
    + exfalso. eapply Hlr; eauto.
    + subst x. exfalso. eapply Hlr; eauto.
    + eapply (g_limu _ _ G); eauto.
  - intros x Hx Hg. destruct (Nat.eq_dec x r) as [->|Hxr]; [right; exists t; rewrite supd_same; now left|].
    assert (Hx' : och s x <> None).
    { rewrite (upd_diff _ r) in Hx by auto. destruct (Nat.eq_dec x b) as [->|]; [congruence|]. now rewrite upd_diff in Hx. }
    destruct (g_class _ _ G x Hx' Hg) as [Hh|(u & Hu)].
    + left. unfold hv'. rewrite upd_diff by auto. unfold upd. destruct (x =? a); [discriminate|].
      destruct (x =? b); [discriminate|auto].
    + right. exists u. rewrite supd_diff; [auto|]. intros ->. rewrite E in Hu. destruct Hu.
  - intros x Hx. change (och s' x <> None). eapply fr_present; [exact F|]. now apply (g_pres _ _ G).
  - intros x nx y w wx Ex Hl Hx Hy. change (och s' x = Some nx) in Ex.
    assert (Ex' : och s x = Some nx).
    { rewrite <- Ex. symmetry. eapply retired_same; eauto. congruence. }
    destruct (g_links _ _ G x nx y w Ex' Hl Hy) as (w' & H1 & H2). assert (w' = wx) by congruence. subst. exact H2.
Qed.

Lemma st_mg3 c a b r w pos : oth s t = OMg3 c a b r w pos -> ogood t s hv lo.
Proof.
  intros E. unfold ogood, ostep. rewrite E. pose proof (i_pc _ _ _ _ V t) as Hp. rewrite E in Hp.
  destruct Hp as ((Hc & Hb) & Hvb & (pn & pn' & E1 & E2 & E3 & E4 & E5 & E6 & E7 & E8) & rn & R1 & R2 & R3).
  assert (Hoa : osx s a = Some t) by (apply own_t; rewrite E; cbn; auto).
  assert (Hga : ogb s a = None) by (apply (g_un _ _ G); congruence).
  assert (Hrv : hv r = None) by exact (i_dead _ _ _ _ V r rn R1 R2).
  assert (Hgr : ogb s r = None).
  { eapply (g_lim _ _ G t). rewrite E. now left. }
  assert (Ht : In t (oac s)) by (apply active_t; rewrite E; discriminate).
  assert (Hra : r <> a) by congruence.
  rewrite (opage_un s a Hga), E1. cbn [xbind]. rewrite E4. cbn [xbind].
  set (s' := o_goto (o_retire (o_own (o_set s a pn') a None) r) t (OWd c b w)).
  assert (F : frame s s' hv hv lo lo t).
  { split; unfold s'; cbn [o_goto o_retire o_own o_set och ort ofr ovs osx ogb oac oth opg otr]; auto.
    - intros y n Ey. destruct (Nat.eq_dec y a) as [->|Hy].
      + right. rewrite upd_same, supd_same. assert (n = pn) by congruence. subst n.
        split; [auto|]. split; [auto|]. split; [auto|]. exists pn'. split; [auto|congruence].
      + left. now rewrite upd_diff, supd_diff by auto.
    - intros u x Hu Hac Hh w0 Hw0. unfold supd in Hw0. destruct (Nat.eqb_spec x r); [|now apply Hh].
      injection Hw0 as <-. exact Hac. }
  assert (V' : oinv (o_emit s' LTau) Ls hv lo).
  { apply (oinv_step s Ls hv lo t s' (OWd c b w)); auto; unfold s';
      cbn [o_goto o_retire o_own o_set och ort ofr ovs osx ogb oac oth opg otr]; auto; try apply V.
    - intros y Hy. destruct (Nat.eq_dec y a) as [->|]; [apply (i_fr _ _ _ _ V); congruence|].
      rewrite upd_diff in Hy by auto. now apply (i_fr _ _ _ _ V).
    - intros y Hy. destruct (Nat.eq_dec y a) as [->|]; [rewrite upd_same; discriminate|].
      rewrite upd_diff by auto. now apply present.
    - intros y n Ey. destruct (Nat.eq_dec y a) as [->|Hy].
      + rewrite upd_same in Ey. right. left. congruence.
      + rewrite upd_diff in Ey by auto. left. rewrite E. cbn. intuition congruence.
    - apply own_next; ownx E.
    - cbn [pcok]. fold s'. split; [split; [auto|]|].
      + split; [eapply fr_present; [exact F|apply Hb]|]. split; [apply Hb|].
        intros w0 Hw0. unfold s' in Hw0; cbn [o_goto o_retire ogb o_own o_set oac] in Hw0. unfold supd in Hw0.
        destruct (Nat.eqb_spec b r); [|exact (proj2 (proj2 Hb) w0 Hw0)]. injection Hw0 as <-. exact Ht.
      + eapply (fr_vf _ _ _ _ _ _ t (S t)); [exact F|lia|apply Hb|exact Hvb].
    - apply act_next; rewrite ?E; discriminate.
    - exact Logic.I.
    - cbn [tnext]. pose proof (i_stat _ _ _ _ V t) as Hst. rewrite E in Hst. exact Hst. }
  exists Ls, hv, lo. split; [exact V'|]. split; [|now apply frame_emit].
  assert (HLm : forall u x, In x (lim (supd (oth s) t (OWd c b w) u)) -> u <> t /\ x <> r /\ In x (lim (oth s u))).
  { intros u x. destruct (Nat.eq_dec u t) as [->|Hu]; [rewrite supd_same; intros []|].
    rewrite supd_diff by auto. intros Hx. split; [auto|]. split; [|auto]. intros ->.
    apply Hu. eapply (g_limu _ _ G); eauto. rewrite E. now left. }
  assert (Hgb : forall x wx, supd (ogb s) r (Some (oac s)) x = Some wx ->
    (x = r /\ wx = oac s) \/ (x <> r /\ ogb s x = Some wx)).
  { intros x wx. unfold supd. destruct (Nat.eqb_spec x r); intros H; [left|right; auto]. split; [auto|congruence]. }
  apply (ginv_make _ Ls hv lo V'); unfold s';
    cbn [o_emit o_goto o_retire o_own o_set och ort ofr ovs osx ogb oac oth opg otr].
  - intros x wx u Hx Hu. apply Hgb in Hx as [[-> ->]|[_ Hx]]; [auto|]. eapply (g_wait _ _ G); eauto.
  - intros x Hx. rewrite supd_diff by congruence. now apply (g_un _ _ G).
  - intros u x Hx. apply HLm in Hx as (_ & Hxr & Hx). rewrite supd_diff by auto. eapply (g_lim _ _ G); eauto.
  - intros u v x H1 H2. apply HLm in H1 as (_ & _ & H1). apply HLm in H2 as (_ & _ & H2). eapply (g_limu _ _ G); eauto.
  - intros x Hx Hg. destruct (Nat.eq_dec x r) as [->|Hxr]; [rewrite supd_same in Hg; discriminate|].
    rewrite supd_diff in Hg by auto.
    assert (Hx' : och s x <> None).
    { destruct (Nat.eq_dec x a) as [->|]; [congruence|]. now rewrite upd_diff in Hx. }
    destruct (g_class _ _ G x Hx' Hg) as [Hh|(u & Hu)]; [auto|].
    right. exists u. rewrite supd_diff; [auto|]. intros ->. rewrite E in Hu. destruct Hu as [Hu|[]]. congruence.
  - intros x Hx. change (och s' x <> None). eapply fr_present; [exact F|].
    destruct (Nat.eq_dec x r) as [->|Hxr]; [congruence|]. rewrite supd_diff in Hx by auto. now apply (g_pres _ _ G).
  - intros x nx y wy wx Ex Hl Hx Hy.
    apply Hgb in Hx as [[-> ->]|[Hxr Hx]]; apply Hgb in Hy as [[-> ->]|[Hyr Hy]].
    + intros u Hu. exact Hu.
    + exfalso. rewrite upd_diff in Ex by auto. assert (nx = rn) by congruence. subst nx.
      rewrite (unret_links _ _ _ _ r rn y V (g_un _ _ G) (g_lim _ _ G)) in Hy; [discriminate| |exact R1|exact Hl].
      right. exists t. rewrite E. now left.
    + intros u Hu. eapply (g_wait _ _ G); eauto.
    + assert (Ex' : och s x = Some nx).
      { rewrite <- Ex. change (och s x = och s' x). symmetry. eapply retired_same; eauto. congruence. }
      destruct (g_links _ _ G x nx y wy Ex' Hl Hy) as (w' & H1 & H2). assert (w' = wx) by congruence. subst. exact H2.
Qed.

Lemma st_wrs c a v : oth s t = OWRs c a v -> ogood t s hv lo.
Proof.
  intros E. unfold ogood, ostep. rewrite E. pose proof (i_pc _ _ _ _ V t) as Hp. rewrite E in Hp.
  destruct Hp as ((Hc & Ha) & Hv).
  destruct (at_page c a Ha) as (d & Ed & ->). cbn [xbind].
  destruct (Nat.eqb_spec (ovs s a) v) as [Ev|Ev]; cbn [negb]; [|gogo E; exact Hc].
  destruct (ofree s a) eqn:Ef; [|exact Logic.I]. pose proof (ofree_none _ Ef) as Hoa.
  destruct (Nat.eqb_spec (ort s) a) as [Hrt|Hrt]; cbn [negb]; [|gogo E; exact Hc].
  destruct (proj2 Hv Ev) as (d1 & Ed1 & Er & Hsp). assert (d1 = d) by congruence. subst d1.
  pose proof (free_live a d Ed Er Ef) as Hva.
  destruct (root_dom _ _ _ _ HT HF) as (nr & D & d' & EL & HD & Hd' & Hrep & _). rewrite Hrt in *.
  assert (d' = d) by congruence. subst d'.
  destruct (root_core (call_key c) a nr D d (ofr s) HD Hrep Hsp)
    as (l' & r' & sep & ml & mr & dn & nn & Es & Ei & Eh & Ecm & Er2 & Rn & Rl & Rr & Hrl & Hrr & HD3 & Hrecs3 & Hfnd).
  cbv zeta. rewrite Ei, Es. cbn [xbind fst snd]. rewrite Eh. cbn [xbind]. rewrite Er2. cbn [xbind].
  assert (Hlt : a < ofr s) by (apply (i_fr _ _ _ _ V); congruence).
  assert (HF2 : hinv hv (ofr s) [] ((a, nr) :: concat D)).
  { pose proof HF as HF2. rewrite EL in HF2. exact HF2. }
  set (f := ofr s) in *. destruct (fresh_none f (le_n _)) as (Hf1 & Hf2 & Hf3 & Hf4).
  destruct (fresh_none (S f) (le_S _ _ (le_n _))) as (Hg1 & Hg2 & Hg3 & Hg4).
  assert (Hfa : f <> a) by lia. assert (Hga : S f <> a) by lia. assert (Hfg : f <> S f) by lia.
  set (hv' := upd (upd (upd hv f (Some r')) (S f) (Some dn)) a (Some l')).
  set (Ls' := [(S f, nn)] :: [(a, ml); (f, mr)] :: D).
  set (lo' := supd (supd lo f (hi_ext ml)) (S f) NegInf).
  assert (HF' : hinv hv' (S (S f)) [] (concat Ls')).
  { apply (hinv_set _ _ (S (S f)) [] [(S f, nn)] a nr ml ((f, mr) :: concat D)); auto.
    apply (hinv_new _ _ (S f) [] [] nn ((a, nr) :: (f, mr) :: concat D)); auto.
    apply (hinv_new _ _ f [] [(a, nr)] mr (concat D)); auto. }
  assert (HT' : dtree Ls' (S f)) by (split; auto).
  assert (Hlv : level false (innerb D) [(a, ml); (f, mr)]).
  { apply (mdn_level _ D). apply HD3. }
  assert (Hlva : lo a = NegInf).
  { destruct (root_alive _ _ _ _ _ HT HF HL) as (? & _ & Hlo). exact Hlo. }
  assert (HL' : lorel lo' Ls').
  { intros L e x HLin Hex. unfold Ls' in HLin. destruct HLin as [<-|[<-|H]].
    - cbn in Hex. destruct Hex as [Hex|[]]. injection Hex as <- <-. unfold lo'. apply supd_same.
    - cbn in Hex. destruct Hex as [Hex|[Hex|[]]]; injection Hex as <- <-; unfold lo'.
      + rewrite !supd_diff by auto. exact Hlva.
      + rewrite supd_diff by auto. apply supd_same.
    - destruct (lo_old L e x) as [H3 H4]; [rewrite EL; now right|auto|]. fold f in H4.
      unfold lo'. rewrite !supd_diff by lia. auto. }
  destruct (any_lvl _ [] _ _ _ _ Hlv Rl) as (Il1 & Il2).
  destruct (any_lvl _ [(a, ml)] _ _ [] _ Hlv Rr) as (Ir1 & Ir2).
  set (x0 := if ltb (call_key c) sep then a else f).
  set (s1 := o_root (o_set (o_new (o_new s r') dn) a l') (S f)).
  set (s' := o_goto s1 t (OWd c x0 (ovs s1 x0))).
  assert (F : frame s s' hv hv' lo lo' t).
  { split; unfold s', s1; cbn [o_goto o_root o_set o_new och ort ofr ovs osx ogb oac oth opg otr]; fold f.
    - intros x nx Ex. assert (Hxf : x <> f) by congruence. assert (Hxg : x <> S f) by congruence.
      destruct (Nat.eq_dec x a) as [->|Hxa].
      + right. rewrite upd_same, supd_same, !supd_diff by auto. assert (nx = d) by congruence. subst nx.
        split; [auto|]. split; [auto|]. split; [auto|]. exists l'. split; [auto|congruence].
      + left. now rewrite !upd_diff, !supd_diff by auto.
    - intros x Hx. unfold lo'. rewrite !supd_diff by congruence. auto.
    - intros x u Ho Hu. assert (x <> a) by congruence. assert (x <> S f) by congruence. assert (x <> f) by congruence.
      unfold hv'. now rewrite !upd_diff by auto.
    - auto. }
  assert (Hx0 : exists nx, och s' x0 = Some nx /\ mn_removed nx = false /\ mroom nx /\ ogb s x0 = None).
  { unfold s', s1, x0; cbn [o_goto o_root o_set o_new och ofr]. fold f. destruct (ltb (call_key c) sep).
    - exists l'. rewrite upd_same. split; [auto|]. split; [auto|]. split; [auto|]. apply (g_un _ _ G). congruence.
    - exists r'. rewrite !upd_diff, upd_same by auto. auto. }
  destruct Hx0 as (nx & Ex0 & Erx & Hrx & Hgx).
  assert (V' : oinv (o_emit s' LTau) Ls' hv' lo').
  { apply (oinv_step s Ls hv lo t s' (OWd c x0 (ovs s1 x0)));
      auto; unfold s', s1; cbn [o_goto o_root o_set o_new och ort ofr ovs osx ogb oac oth opg otr]; fold f; auto; try apply V.
    - intros x Hx. destruct (Nat.eq_dec x f) as [->|]; [lia|]. destruct (Nat.eq_dec x a) as [->|]; [lia|].
      destruct (Nat.eq_dec x (S f)) as [->|]; [lia|].
      rewrite !upd_diff in Hx by auto. apply (i_fr _ _ _ _ V) in Hx. fold f in Hx. lia.
    - intros x Hx. unfold hv' in Hx. destruct (Nat.eq_dec x a) as [->|Hxa]; [rewrite upd_same; discriminate|].
      rewrite (upd_diff _ a) in Hx by auto. rewrite (upd_diff _ a) by auto.
      destruct (Nat.eq_dec x (S f)) as [->|Hxg]; [rewrite upd_same; discriminate|].
      rewrite (upd_diff _ (S f)) in Hx by auto. rewrite (upd_diff _ (S f)) by auto.
      destruct (Nat.eq_dec x f) as [->|Hxf]; [rewrite upd_same; discriminate|].
      rewrite upd_diff in Hx by auto. rewrite upd_diff by auto. now apply present.
    - intros x n2 Ex. unfold hv'. destruct (Nat.eq_dec x a) as [->|Hxa].
      + rewrite upd_same in Ex. rewrite upd_same. right. left. congruence.
      + rewrite (upd_diff _ a) in Ex by auto. rewrite (upd_diff _ a) by auto.
        destruct (Nat.eq_dec x (S f)) as [->|Hxg].
        * rewrite upd_same in Ex. rewrite upd_same. right. left. congruence.
        * rewrite (upd_diff _ (S f)) in Ex by auto. rewrite (upd_diff _ (S f)) by auto.
          destruct (Nat.eq_dec x f) as [->|Hxf].
          -- rewrite upd_same in Ex. rewrite upd_same. right. left. congruence.
          -- rewrite upd_diff in Ex by auto. rewrite upd_diff by auto. left. rewrite E. cbn. auto.
    - apply own_next; [|tauto]. intros x. rewrite own_t, E. cbn. tauto.
    - cbn [pcok]. split; [split; [auto|]|].
      + split; [change (och s' x0 <> None); congruence|]. split; [|now apply holds_un].
        apply (fnd_lo lo' Ls' [(a, ml); (f, mr)] (innerb D)); auto. right. now left.
      + split; [apply le_n|]. intros _; exists nx; auto.
    - apply act_next; rewrite ?E; discriminate.
    - intros k. cbn [eff]. rewrite <- (i_map _ _ _ _ V k), EL. unfold Ls'.
      f_equal. transitivity (recs (last D [(a, ml); (f, mr)])).
      + f_equal. etransitivity; [apply (last_cons [(S f, nn)])|apply last_cons].
      + etransitivity; [exact Hrecs3|]. f_equal. symmetry. apply (last_cons [(a, nr)]).
    - exact Logic.I.
    - cbn [tnext]. pose proof (i_stat _ _ _ _ V t) as Hst. rewrite E in Hst. exact Hst. }
  exists Ls', hv', lo'. split; [exact V'|]. split; [|now apply frame_emit].
  eapply ginv_keep; [exact V|exact G|exact F|exact V'|..]; unfold s', s1;
    cbn [o_goto o_root o_set o_new och ort ofr ovs osx ogb oac oth opg otr]; rewrite ?E; auto.
  - intros x Hx. unfold hv', upd. destruct (x =? a); [discriminate|]. destruct (x =? S f); [discriminate|].
    destruct (x =? f); [discriminate|auto].
  - intros x Hx. unfold hv' in Hx. destruct (Nat.eq_dec x a) as [->|]; [left; congruence|].
    destruct (Nat.eq_dec x (S f)) as [->|]; [auto|]. destruct (Nat.eq_dec x f) as [->|]; [auto|].
    rewrite !upd_diff in Hx by auto. auto.
  - intros x Hx. fold f in Hx. destruct (Nat.eq_dec x a) as [->|]; [left; congruence|].
    destruct (Nat.eq_dec x (S f)) as [->|].
    + right. unfold hv'. rewrite !upd_diff by auto. rewrite upd_same. discriminate.
    + destruct (Nat.eq_dec x f) as [->|].
      * right. unfold hv'. rewrite !upd_diff by auto. rewrite upd_same. discriminate.
      * rewrite !upd_diff in Hx by auto. auto.
Qed.

Lemma st_wsh c a v : oth s t = OWSh c a v -> ogood t s hv lo.
Proof.
  intros E. unfold ogood, ostep. rewrite E. pose proof (i_pc _ _ _ _ V t) as Hp. rewrite E in Hp.
  destruct Hp as ((Hc & Ha) & Hv).
  assert (Ht : In t (oac s)) by (apply active_t; rewrite E; discriminate).
  destruct (at_page c a Ha) as (d & Ed & ->). cbn [xbind].
  destruct (Nat.leb_spec (mn_rc d) 1) as [Hrc|Hrc]; cbn [negb orb]; [|gogo E; cbn; auto].
  destruct (mn_inner d) eqn:Hin; cbn [negb]; [|gogo E; cbn; auto].
  destruct (Nat.eqb_spec (ovs s a) v) as [Ev|Ev]; cbn [negb]; [|gogo E; exact Hc].
  destruct (ofree s a) eqn:Ef; [|exact Logic.I]. pose proof (ofree_none _ Ef) as Hoa.
  destruct (Nat.eqb_spec (ort s) a) as [Hrt|Hrt]; cbn [negb]; [|gogo E; exact Hc].
  destruct (proj2 Hv Ev) as (d1 & Ed1 & Er & _). assert (d1 = d) by congruence. subst d1.
  pose proof (free_live a d Ed Er Ef) as Hva.
  destruct (root_dom _ _ _ _ HT HF) as (nr & D & d' & EL & HD & Hd' & Hrep & _). rewrite Hrt in *.
  assert (d' = d) by congruence. subst d'.
  destruct (shrink_core _ _ _ _ HD Hrep Hrc Hin) as (_ & b & mb & D' & ED & Hb & HD').
  rewrite Hb. cbn [xbind].
  assert (HF2 : hinv hv (ofr s) [] ((a, nr) :: (b, mb) :: concat D')).
  { pose proof HF as HF2. rewrite EL, ED in HF2. exact HF2. }
  set (n' := mn_remove_root d). set (hv' := upd hv a None). set (Ls' := [(b, mb)] :: D').
  set (s' := o_goto (o_retire (o_root (o_set s a n') b) a) t (OWRoot c)).
  assert (Hga : ogb s a = None) by (apply (g_un _ _ G); congruence).
  assert (F : frame s s' hv hv' lo lo t).
  { split; unfold s'; cbn [o_goto o_retire o_root o_set och ort ofr ovs osx ogb oac oth opg otr]; auto.
    - intros x nx Ex. destruct (Nat.eq_dec x a) as [->|Hxa].
      + right. rewrite upd_same, supd_same. assert (nx = d) by congruence. subst nx.
        split; [auto|]. split; [auto|]. split; [auto|]. exists n'. split; [auto|apply O_inner_root].
      + left. now rewrite upd_diff, supd_diff by auto.
    - intros x u Ho Hu. unfold hv'. apply upd_diff. congruence.
    - intros u x Hu Hac Hh w0 Hw0. unfold supd in Hw0. destruct (Nat.eqb_spec x a); [|now apply Hh].
      injection Hw0 as <-. exact Hac. }
  assert (V' : oinv (o_emit s' LTau) Ls' hv' lo).
  { apply (oinv_step s Ls hv lo t s' (OWRoot c)); auto; unfold s';
      cbn [o_goto o_retire o_root o_set och ort ofr ovs osx ogb oac oth opg otr]; auto; try apply V.
    - split; auto.
    - apply (hinv_release _ hv (ofr s) [] [] a nr). exact HF2.
    - intros L e x HLin. apply (HL L e x). rewrite EL, ED. right. exact HLin.
    - intros y Hy. destruct (Nat.eq_dec y a) as [->|]; [apply (i_fr _ _ _ _ V); congruence|].
      rewrite upd_diff in Hy by auto. now apply (i_fr _ _ _ _ V).
    - intros y Hy. destruct (Nat.eq_dec y a) as [->|]; [rewrite upd_same; discriminate|].
      unfold hv' in Hy. rewrite upd_diff in Hy by auto. rewrite upd_diff by auto. now apply present.
    - intros y n Ey. unfold hv'. destruct (Nat.eq_dec y a) as [->|Hy].
      + right. right. right. rewrite upd_same in Ey. injection Ey as <-. rewrite upd_same.
        split; [unfold n'; apply (M_mark 0 d)|]. split; [auto|]. unfold okp, n'. rewrite (proj2 (M_mark 0 d)), O_inner_root.
        congruence.
      + rewrite upd_diff in Ey by auto. rewrite upd_diff by auto. left. rewrite E. cbn. auto.
    - apply own_next; [|tauto]. intros x. rewrite own_t, E. cbn. tauto.
    - apply act_next; rewrite ?E; discriminate.
    - intros k. cbn [eff]. rewrite <- (i_map _ _ _ _ V k), EL, ED. reflexivity.
    - exact Logic.I.
    - cbn [tnext]. pose proof (i_stat _ _ _ _ V t) as Hst. rewrite E in Hst. exact Hst. }
  exists Ls', hv', lo. split; [exact V'|]. split; [|now apply frame_emit].
  assert (Hla : forall u, ~ In a (lim (oth s u))).
  { intros u Hl. pose proof (i_pc _ _ _ _ V u) as Hp. destruct (oth s u) eqn:Eu; cbn [lim In] in Hl; try tauto.
    destruct Hl as [<-|[]]. destruct Hp as (_ & _ & _ & rn & R1 & R2 & _). congruence. }
  assert (HLm : forall u x, In x (lim (supd (oth s) t (OWRoot c) u)) <-> In x (lim (oth s u))).
  { intros u x. destruct (Nat.eq_dec u t) as [->|Hu].
    - rewrite supd_same, E. tauto.
    - rewrite supd_diff by auto. tauto. }
  assert (Hgb : forall x wx, supd (ogb s) a (Some (oac s)) x = Some wx ->
    (x = a /\ wx = oac s) \/ (x <> a /\ ogb s x = Some wx)).
  { intros x wx. unfold supd. destruct (Nat.eqb_spec x a); intros H; [left|right; auto]. split; [auto|congruence]. }
  apply (ginv_make _ Ls' hv' lo V'); unfold s';
    cbn [o_emit o_goto o_retire o_root o_set och ort ofr ovs osx ogb oac oth opg otr].
  - intros x wx u Hx Hu. apply Hgb in Hx as [[-> ->]|[_ Hx]]; [auto|]. eapply (g_wait _ _ G); eauto.
  - intros x Hx. unfold hv' in Hx. destruct (Nat.eq_dec x a) as [->|]; [rewrite upd_same in Hx; congruence|].
    rewrite supd_diff by auto. rewrite upd_diff in Hx by auto. now apply (g_un _ _ G).
  - intros u x Hx. apply HLm in Hx. rewrite supd_diff; [eapply (g_lim _ _ G); eauto|]. intros ->. now apply (Hla u).
  - intros u v0 x H1 H2. apply HLm in H1. apply HLm in H2. eapply (g_limu _ _ G); eauto.
  - intros x Hx Hg. destruct (Nat.eq_dec x a) as [->|Hxa]; [rewrite supd_same in Hg; discriminate|].
    rewrite supd_diff in Hg by auto. rewrite upd_diff in Hx by auto.
    destruct (g_class _ _ G x Hx Hg) as [Hh|(u & Hu)].
    + left. unfold hv'. now rewrite upd_diff.
    + right. exists u. now apply HLm.
  - intros x Hx. change (och s' x <> None). eapply fr_present; [exact F|].
    destruct (Nat.eq_dec x a) as [->|Hxr]; [congruence|]. rewrite supd_diff in Hx by auto. now apply (g_pres _ _ G).
  - intros x nx y wy wx Ex Hl Hx Hy.
    apply Hgb in Hx as [[-> ->]|[Hxr Hx]]; apply Hgb in Hy as [[-> ->]|[Hyr Hy]].
    + intros u Hu. exact Hu.
    + exfalso. rewrite upd_same in Ex. injection Ex as <-. unfold linked, n' in Hl.
      rewrite O_inner_root, Hin, (proj2 (M_mark 0 d)) in Hl. destruct Hl. discriminate.
    + intros u Hu. eapply (g_wait _ _ G); eauto.
    + assert (Ex' : och s x = Some nx).
      { rewrite <- Ex. change (och s x = och s' x). symmetry. eapply retired_same; eauto. congruence. }
      destruct (g_links _ _ G x nx y wy Ex' Hl Hy) as (w' & H1 & H2). assert (w' = wx) by congruence. subst. exact H2.
Qed.

Theorem ostep_good : ogood t s hv lo.
Proof.
  destruct (oth s t) eqn:E.
  - now apply st_idle.
  - now apply (st_root c).
  - now apply (st_rd c a).
  - now apply (st_wroot c).
  - now apply (st_wst c a).
  - now apply (st_wrs c a v).
  - now apply (st_wsh c a v).
  - exfalso. pose proof (i_pc _ _ _ _ V t) as Hp. now rewrite E in Hp.
  - exfalso. pose proof (i_pc _ _ _ _ V t) as Hp. now rewrite E in Hp.
  - now apply (st_wd c a v).
  - now apply (st_wc c a v b pos).
  - now apply (st_spa c a v b w pos).
  - now apply (st_spb c a v b w pos).
  - now apply (st_spc c a r sep pos x w).
  - now apply (st_mga c a v b w pos).
  - now apply (st_mgb c a v b w pos).
  - now apply (st_mgc c a b w pos).
  - now apply (st_mg1 c a b r pos).
  - exfalso. pose proof (i_pc _ _ _ _ V t) as Hp. now rewrite E in Hp.
  - now apply (st_mg3 c a b r w pos).
  - now apply (st_wl c a).
  - now apply (st_ret r).
Qed.

End Step.
End OConcSteps.
