(** No page of a multi-layer tree is lost: the pages that exist are those the pointers of the
    tree lead to.  [mreach] is a specification; the rest is proof-side. *)
From Coq Require Import List Arith Bool Lia.
From Verif Require Import Params Mem Common Spec ConcSpec NodeAbs SLIface MLIface TreeState Levels TreeHeap
  LevelOps MLModel MLSearch ConcModel ConcLin MConcModel MConcInv MConcMain OLaws OConcModel OConcInv
  OConcSteps OConcMain OConcCalm.
Import ListNotations.

(** The pages that the child pointers lead to, from the root: the pages ~BTreeOML and ~BTreePML
    visit (DeleteChildren, pml/b_tree.hpp:537-549, oml/b_tree.hpp:553-565). *)
Inductive mreach {P : Params} {N : MLOps P} (h : addr -> option mn) (r : addr) : addr -> Prop :=
| mr_root : mreach h r r
| mr_child a n i c : mreach h r a -> h a = Some n -> mn_inner n = true -> i < mn_rc n ->
    mn_child n i = Some c -> mreach h r c.

(** The page the next step of [t] gives to gc_.AddGarbage: TryMerge, oml/b_tree.hpp:722, and
    TryShrinkTree, :751. *)
Definition hands_over {P : Params} {N : MLOps P} (s : ocfg) (t : tid) (a : addr) : Prop :=
  match oth s t with
  | OMg3 _ _ _ r _ _ => a = r
  | OWSh _ x v => a = x /\ ort s = x /\ ovs s x = v /\ ofree s x = true /\
      exists n, opage s x = Some n /\ mn_rc n <= 1 /\ mn_inner n = true
  | _ => False
  end.

Section MLeak.
Context {P : Params} {O : OrdLaws P} {N : MLOps P} {LW : MLLaws P N}.
#[local] Existing Instance no_leak.
Notation hinv := (@hinv P no_leak mn mrep).

Section Tree.
Context (h : addr -> option mn) (f : addr) (Ls : list lvl) (root : addr).
Context (HT : dtree Ls root) (HF : hinv h f [] (concat Ls)).

Lemma dom_level a : h a <> None <-> exists L, In L Ls /\ In a (map fst L).
Proof.
  rewrite (hi_dom _ _ _ _ _ HF a). cbn [leaked no_leak app]. rewrite app_nil_r, in_map_iff. split.
  - intros ((b & n) & <- & Hi). apply in_concat in Hi as (L & HL & Hi). exists L. split; auto. now apply (in_map fst) in Hi.
  - intros (L & HL & Hi). apply in_map_iff in Hi as (p & <- & Hp). exists p. split; auto. apply in_concat. eauto.
Qed.

Lemma node_at L a n : In L Ls -> In (a, n) L -> exists d, h a = Some d /\ mrep d n.
Proof. intros HL Hn. apply (hinv_get _ _ _ _ _ a n HF). apply in_concat. eauto. Qed.

Lemma level_wf U L D a n : Ls = U ++ L :: D -> In (a, n) L -> exists lo, node_wf false (innerb D) lo n.
Proof.
  intros E Hn. rewrite E in HT. apply dtree_app in HT as (_ & Hd & _). apply mdn_level in Hd.
  apply in_split in Hn as (L1 & L2 & ->). apply seg_wf in Hd as (Hd & _). eauto.
Qed.

Lemma reach_dom a : mreach h root a -> h a <> None.
Proof.
  induction 1 as [|a n i c Hr IH Ha Hin Hi Hc].
  - destruct (root_dom _ _ _ _ HT HF) as (nr & D & d & _ & _ & Hd & _). congruence.
  - apply dom_level in IH as (L & HL & Hm). apply dom_level.
    apply in_map_iff in Hm as ((a' & m) & Ea & Hm). cbn in Ea. subst a'.
    destruct (node_at _ _ _ HL Hm) as (d & Hd & Hrep). assert (d = n) by congruence. subst d.
    apply in_split in HL as (U & D & E). destruct (level_wf _ _ _ _ _ E Hm) as (lo & Hw).
    destruct (M_hdr _ _ Hrep) as (H1 & _ & _ & H2). pose proof (nw_inner _ _ _ _ Hw) as Hi2.
    destruct D as [|C D]; cbn [innerb] in *; [congruence|].
    exists C. split; [rewrite E; apply in_or_app; right; right; now left|].
    rewrite H2 in Hi. destruct (nth_error (a_slots m) i) as [sl|] eqn:Es; [|apply nth_error_None in Es; lia].
    pose proof (inner_kid _ _ _ _ Hw (nth_error_In _ _ Es)) as Hk.
    rewrite (M_child _ _ _ _ _ Hrep Hi2 Es Hk) in Hc. injection Hc as <-.
    rewrite E in HT. rewrite <- (kids_level _ _ _ _ _ HT). unfold kids. apply in_flat_map. exists (a, m).
    split; auto. cbn. apply in_map. eapply nth_error_In; eauto.
Qed.

Lemma dom_reach_aux : forall U L D a, Ls = U ++ L :: D -> In a (map fst L) -> mreach h root a.
Proof.
  induction U as [|T U IH] using rev_ind; intros L D a E Ha.
  - cbn in E. pose proof HT as H. rewrite E in H. destruct H as (_ & H).
    apply (f_equal (map snd)) in H. rewrite entries_fst in H. cbn in H. rewrite H in Ha.
    destruct Ha as [<-|[]]. constructor.
  - rewrite <- app_assoc in E. cbn in E. pose proof HT as H. rewrite E in H.
    rewrite <- (kids_level _ _ _ _ _ H) in Ha. unfold kids in Ha. apply in_flat_map in Ha as ((p & n) & Hp & Ha).
    cbn in Ha. apply in_map_iff in Ha as (sl & <- & Hs). apply In_nth_error in Hs as (i & Hi).
    destruct (level_wf _ _ _ _ _ E Hp) as (lo & Hw). cbn [innerb] in Hw.
    assert (HL : In T Ls) by (rewrite E; apply in_or_app; right; now left).
    destruct (node_at _ _ _ HL Hp) as (d & Hd & Hrep). destruct (M_hdr _ _ Hrep) as (H1 & _ & _ & H2).
    pose proof (nw_inner _ _ _ _ Hw) as Hi2.
    apply mr_child with (a := p) (n := d) (i := i).
    + eapply IH; eauto. change p with (fst (p, n)). now apply in_map.
    + exact Hd.
    + now rewrite H1.
    + rewrite H2. apply nth_error_Some. congruence.
    + eapply M_child; eauto. eapply inner_kid; eauto. eapply nth_error_In; eauto.
Qed.

Theorem reach_iff a : mreach h root a <-> h a <> None.
Proof.
  split; [apply reach_dom|]. intros H. apply dom_level in H as (L & HL & Ha).
  apply in_split in HL as (U & D & E). eapply dom_reach_aux; eauto.
Qed.
End Tree.

(** ** The pessimistic tree *)
Theorem pml_no_leak fx s Ls : minv fx s Ls -> forall a, mch s a <> None <-> mreach (mch s) (mrt s) a.
Proof. intros V a. symmetry. eapply reach_iff; [apply (v_tree _ _ _ V)|apply (v_heap _ _ _ V)]. Qed.

Lemma mreach_ext h h' r a : (forall x, mreach h r x -> h' x = h x) -> mreach h r a -> mreach h' r a.
Proof.
  intros He. induction 1 as [|a n i c Hr IH Ha Hin Hi Hc]; [constructor|].
  eapply mr_child; eauto. now rewrite (He _ Hr).
Qed.

(** ** The optimistic tree *)
Context {OW : OMLaws P N LW}.

(** Only calls in progress have guards. *)
Definition guarded (s : ocfg) : Prop := forall u, In u (oac s) -> oth s u <> OIdle.

Lemma guarded_step fx t s l s' : guarded s -> ostep fx t s = XOk l s' -> guarded (o_emit s' l).
Proof.
  intros H Hs u. specialize (H u). unfold ostep, xbind in Hs. cbv zeta in Hs.
  repeat (match type of Hs with context [match ?x with _ => _ end] => destruct x eqn:? end; try discriminate);
    injection Hs as <- <-;
    cbn [o_goto o_set o_new o_root o_own o_retire o_emit o_begin o_end och ort ofr ovs osx ogb oac oth opg otr];
    unfold supd; destruct (Nat.eqb_spec u t) as [->|Hu]; intros Q; auto; try discriminate;
    cbn [In] in Q; try (destruct Q as [Q|Q]; [congruence|now auto]);
    unfold drop in Q; apply filter_In in Q as (Q & Q'); auto.
  now rewrite Nat.eqb_refl in Q'.
Qed.

Lemma guarded_run fx : forall sched s s', guarded s -> orun fx s sched = Some s' -> guarded s'.
Proof.
  induction sched as [|t sched IH]; intros s s' H E; cbn [orun] in E; [now injection E as <-|].
  destruct (ostep fx t s) as [l s1| |] eqn:Es; [|eauto|discriminate].
  eapply IH; [|exact E]. eapply guarded_step; eauto.
Qed.

Lemma guarded_idle s : guarded s -> (forall t, oth s t = OIdle) -> oac s = [].
Proof.
  intros H Hq. destruct (oac s) as [|u l] eqn:E; auto. exfalso. apply (H u); [rewrite E; now left|auto].
Qed.

(** Nobody is in a call: the collector has released everything that was given to it. *)
Theorem oml_no_leak s Ls hv lo : oinv s Ls hv lo -> ginv s hv -> (forall t, oth s t = OIdle) ->
  oac s = [] -> forall a, opage s a <> None <-> mreach (opage s) (ort s) a.
Proof.
  intros V G Hq Hac.
  assert (Hg : forall a w, ogb s a = Some w -> w = []).
  { intros a [|u w] E; auto. exfalso. assert (Hu : In u (oac s)) by (eapply (g_wait _ _ G); eauto; now left).
    rewrite Hac in Hu. destruct Hu. }
  assert (Hpg : forall a, opage s a <> None <-> hv a <> None).
  { intros a. unfold opage. destruct (ogb s a) as [w|] eqn:E.
    - rewrite (Hg _ _ E). split; [congruence|]. intros H. rewrite (g_un _ _ G a H) in E. discriminate.
    - split.
      + intros H. destruct (g_class _ _ G a H E) as [|(u & Hu)]; auto. rewrite Hq in Hu. destruct Hu.
      + intros H. destruct (hv a) as [n|] eqn:Ea; [|congruence]. destruct (i_inn _ _ _ _ V _ _ Ea) as (m & Em & _). congruence. }
  assert (Hsame : forall a, hv a <> None -> opage s a = hv a).
  { intros a H. destruct (hv a) as [n|] eqn:Ea; [|congruence].
    unfold opage. rewrite (g_un _ _ G a); [|congruence].
    destruct (i_inn _ _ _ _ V _ _ Ea) as (m & Em & _). rewrite Em.
    destruct (mn_removed m) eqn:Hr.
    - pose proof (i_dead _ _ _ _ V _ _ Em Hr). congruence.
    - rewrite <- Ea. symmetry. eapply (i_live _ _ _ _ V); eauto. intros u Hu. rewrite Hq in Hu. destruct Hu. }
  assert (Hiff : forall a, mreach hv (ort s) a <-> hv a <> None).
  { intros a. eapply reach_iff; [apply (i_tree _ _ _ _ V)|apply (i_heap _ _ _ _ V)]. }
  intros a. rewrite Hpg, <- Hiff. split; apply mreach_ext.
  - intros x Hx. apply Hiff in Hx. auto.
  - intros x Hx. symmetry. apply Hsame. clear a. induction Hx as [|a n i c Hr IH Ha Hin Hi Hc].
    + apply Hiff. constructor.
    + apply Hiff. eapply mr_child; [apply Hiff; exact IH|rewrite <- Hsame by exact IH; eauto|auto|eauto|eauto].
Qed.

Theorem oml_no_leak_calm s z : sim s z -> (exists Ls hv lo, oinv z Ls hv lo /\ ginv z hv) ->
  (forall t, oth s t = OIdle) -> oac s = [] ->
  forall a, opage s a <> None <-> mreach (opage s) (ort s) a.
Proof.
  intros S (Ls & hv & lo & V & G) Hq Hac.
  assert (Hw : forall x, whole s x) by (intros x u; rewrite Hq; auto).
  assert (Hz : forall t, oth z t = OIdle).
  { intros t. pose proof (m_th _ _ S t) as H. unfold pair in H. now rewrite Hq in H. }
  assert (Hp : forall x, opage z x = opage s x) by (intros x; now apply m_page).
  assert (Hr : ort z = ort s) by (apply (m_rt _ _ S); intros u; now rewrite Hq).
  intros a. rewrite <- Hp, <- Hr, (oml_no_leak z Ls hv lo V G Hz ltac:(now rewrite (m_ac _ _ S)) a).
  split; apply mreach_ext; auto.
Qed.

(** A page is given to the collector once. *)
Theorem oml_once s Ls hv lo t a : oinv s Ls hv lo -> ginv s hv -> hands_over s t a -> ogb s a = None.
Proof.
  intros V G. unfold hands_over. destruct (oth s t) eqn:E; try tauto.
  - intros (-> & <- & _). apply (g_un _ _ G).
    destruct (root_dom _ _ _ _ (i_tree _ _ _ _ V) (i_heap _ _ _ _ V)) as (nr & D & d & _ & _ & Hd & _). congruence.
  - intros ->. apply (g_lim _ _ G t). rewrite E. now left.
Qed.

Theorem oml_once_calm s z t a : sim s z -> (exists Ls hv lo, oinv z Ls hv lo /\ ginv z hv) ->
  ocalm_at t s = true -> hands_over s t a -> ogb s a = None.
Proof.
  intros S (Ls & hv & lo & V & G) Hc H. rewrite <- (m_gb _ _ S).
  assert (Hact : forall u, oth s u <> OIdle -> In u (oac s)).
  { intros u Hu. rewrite <- (m_ac _ _ S). apply (i_act _ _ _ _ V). pose proof (m_th _ _ S u) as Hp.
    unfold pair in Hp. destruct (oth s u); try congruence; destruct Hp as (Hp & _); congruence. }
  assert (Hpl : plain (oth s t)) by (unfold hands_over in H; destruct (oth s t); try destruct H; split; reflexivity).
  destruct (whole_of s t Hc Hpl Hact) as (_ & Hr).
  revert H. unfold hands_over. pose proof (m_th _ _ S t) as Hp. unfold pair in Hp. unfold oroots in Hr.
  destruct (oth s t) eqn:E; try tauto.
  - intros (-> & <- & _). apply (g_un _ _ G). rewrite <- (m_rt _ _ S (Hr eq_refl)).
    destruct (root_dom _ _ _ _ (i_tree _ _ _ _ V) (i_heap _ _ _ _ V)) as (nr & D & d & _ & _ & Hd & _). congruence.
  - intros ->. apply (g_lim _ _ G t). rewrite Hp. now left.
Qed.

End MLeak.
