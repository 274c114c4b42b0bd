(** Executions without Delete: no page is ever removed and no key ever leaves the map, so
    every scan is right, whatever the other threads do.  This file is proof-side only. *)
From Coq Require Import List Arith Bool Lia Sorted.
From Verif Require Import Params Mem Common Spec ConcSpec ScanSpec NodeAbs SLIface BaseIface
  IterModel IterProofs TreeState Levels ConcModel ConcLin ConcInv ConcHeap ConcSmo ConcThreads
  ConcSteps ConcMain ConcWait CScanModel CScanLin CScanProofs CScanMain.
Import ListNotations.

Section CScanPlain.
Context {P : Params} {O : OrdLaws P} {N : SLOps P} {L : SLLaws P N}.
#[local] Existing Instance base_of_sl.
#[local] Existing Instance base_laws_of_sl.
Context (osl : bool).

Notation sinv := (sinv amap_empty).
Notation map_of tr := (effs amap_empty tr).

(** The only labels that change the map come from a call that is being carried out. *)
Lemma cstep_eff fx t s l s' t' c r : cstep osl fx t s = SOk l s' -> l = LEff t' c r -> plain (th s t) ->
  r = RSuccess /\ is_del c = false.
Proof.
  intros Hs El Hp. unfold cstep, sbind in Hs.
  repeat (match type of Hs with context [match ?x with _ => _ end] => destruct x eqn:? end; try discriminate);
    injection Hs as <- <-; try discriminate; injection El as <- <- <-; cbn [plain] in Hp; auto.
Qed.

Lemma eff_grow m l k : (forall t c r, l = LEff t c r -> is_del c = false) -> m k <> None -> eff m l k <> None.
Proof.
  intros Hl Hk. destruct l as [t c|t c r|t c r|t r|]; cbn [eff]; auto. specialize (Hl _ _ _ eq_refl).
  unfold spec_step. destruct c as [k'|k' v|k' v|k' v|k']; cbn in Hl; try discriminate; cbn [fst]; auto;
    try (destruct (m k'); cbn [fst]; auto); unfold amap_set; match goal with |- context [keqb ?x ?y] => destruct (keqb x y) end; congruence.
Qed.

Lemma eff_new m c : is_del c = false -> snd (spec_step m c) = RSuccess ->
  fst (spec_step m c) (call_key c) <> None.
Proof.
  intros Hl. unfold spec_step. destruct c as [k'|k' v|k' v|k' v|k']; cbn in Hl; try discriminate; cbn [call_key];
    try (destruct (m k') eqn:E); cbn [fst snd]; try discriminate;
    intros _; unfold amap_set; rewrite keqb_refl; discriminate.
Qed.

(** ** The invariant *)

Definition keys_in (s : scfg) (G : gh) : Prop :=
  forall k, leaf_key (base s) G k -> map_of (tr (base s)) k <> None.

(** The keys that a scan skips when it sets its position are in the map. *)
Definition stocked (s : cfg) (G : gh) (p : spc) : Prop :=
  match p with
  | OEnd _ _ a _ kk pos _ =>
      exists ks, pos <= length ks /\ NoDup ks /\
        forall k, In k ks -> ele (ConcInv.lo G a) (Key k) /\ ~ above kk k /\ map_of (tr s) k <> None
  | _ => True
  end.

Record nodel (s : scfg) (G : gh) : Prop := {
  nd_inv : sinv s G;
  nd_plain : plain_cfg (base s);
  nd_alive : forall a, a < cfr (base s) -> dd G a = None;
  nd_keys : keys_in s G;
  nd_stock : forall u, stocked (base s) G (sth s u);
}.

Lemma all_page_in s G a : nodel s G -> page_in (base s) a.
Proof.
  intros H n E. destruct (nd_removed n) eqn:R; auto. exfalso.
  pose proof (i_heap _ _ _ (si_base _ _ _ (nd_inv _ _ H))) as Hh.
  destruct (h_dead _ _ _ _ _ Hh a n E R) as (Q & _). apply Q. apply (nd_alive _ _ H). eapply h_none; eauto.
Qed.

Lemma live_length l : length (live l) <= length l.
Proof.
  induction l as [|x l IH]; [auto|]. cbn [live flat_map]. rewrite app_length. fold (live l).
  assert (length (rec1 x) <= 1) by (unfold rec1; repeat (match goal with |- context [match ?y with _ => _ end] => destruct y end; cbn; auto)).
  cbn [length]. lia.
Qed.

Lemma keys_length l : Forall leaf_slot l -> length (keys_of l) = length l.
Proof.
  induction 1 as [|x l Hx _ IH]; [auto|]. cbn [keys_of flat_map]. rewrite app_length. fold (keys_of l). rewrite IH.
  unfold key1. destruct Hx as (k & v & -> & _). reflexivity.
Qed.

Lemma below_down hi k k' : below hi k -> kle k' k -> below hi k'.
Proof.
  destruct hi as [[h []]|]; cbn; auto; intros H1 H2; [eapply kle_trans; eauto|eapply kle_lt_trans; eauto].
Qed.

Lemma not_above_le kk k k' : above kk k -> ~ above kk k' -> kle k' k.
Proof.
  destruct kk as [[h []]|]; cbn; intros H1 H2; try tauto.
  - apply kle_not_lt. intros Q. apply H2. apply klt_kle. eapply kle_lt_trans; eauto.
  - apply kle_not_lt. intros Q. apply H2. eapply klt_trans; eauto.
Qed.

(** ** A scan that ends on a stale position misses nothing *)

Lemma nodel_soft v s G : nodel s G -> scans_soft v s G.
Proof.
  intros Hn. destruct v as [t|u chk]; [exact Logic.I|]. intros i0 Hi0 Hv Hb.
  pose proof (nd_stock _ _ Hn u) as Hst.
  destruct (sth s u) as [| | |? ? ? [] ?|? ? ? [|] ?| |lo hi a ver kk pos acc| |]; cbn [scan_soft scan_calm]; auto;
    try (now eapply all_page_in; eauto); try (intros; eapply all_page_in; eauto; fail).
  split; [eapply all_page_in; eauto|]. intros n e E Ee Hle.
  destruct (Hv _ _ eq_refl) as (_ & Vhi). destruct Hb as (Hb & _). pose proof Hb as (Hp & Vk & Hh & _).
  pose proof Hp as (Ha & Hl & _). pose proof (si_base _ _ _ (nd_inv _ _ Hn)) as Iv.
  pose proof (i_heap _ _ _ Iv) as H. pose proof (nd_alive _ _ Hn a Ha) as Hd.
  pose proof (all_page_in s G a Hn n E) as R.
  destruct (leaf_facts amap_empty (base s) (vn s) G 0 Iv a n E R Hl) as (HA & Hnx & Hnn & Hhk & Hrng & Hin & Hss).
  pose proof HA as (Hr & Hi & Hok).
  destruct (L_endpos n (av G a) hi Hr Hi Hok Vhi) as (ie & e' & Ee' & Hes).
  assert (Q : ie = true /\ e' = e) by (split; congruence). destruct Q as (-> & ->).
  destruct (endpos_window _ _ _ _ pos Hes Hok Hnx Hhk) as (_ & _ & W3 & _).
  eapply handled_weak; eauto. intros k Hak Hbk _.
  destruct (elt_dec (Key k) (ConcInv.lo G a)) as [Hlo|Hlo]; [left; now right|].
  destruct (aboveb kk k) eqn:Eab;
    [|left; left; destruct kk as [[k1 c]|]; [|discriminate]; intros Q; apply aboveb_ok in Q; congruence].
  apply aboveb_ok in Eab.
  destruct (map_of (tr (base s)) k) as [v|] eqn:Ek.
  2:{ right. exists (length (tr (base s))). split; [lia|]. unfold mapat. now rewrite firstn_all. }
  exfalso. destruct Hst as (ks & Hlen & Hnd & Hks).
  assert (Hlive : forall x, ele (ConcInv.lo G a) (Key x) -> below hi x -> map_of (tr (base s)) x <> None ->
            In x (map fst (live (firstn e (a_slots (av G a)))))).
  { intros x H1 H2 H3.
    assert (Hxr : inrange G a x).
    { split; auto. unfold ConcInv.hi, hia. destruct (a_high (av G a)) as [h|] eqn:Eh; [|exact Logic.I].
      cbn. now apply W3. }
    rewrite <- (h_cont _ _ _ _ _ H a Ha Hd Hl x Hxr) in H3.
    destruct (assoc x (live (a_slots (av G a)))) as [w|] eqn:Ew; [|congruence].
    apply assoc_in in Ew; auto. destruct Hes as (_ & He). destruct hi as [[h c]|].
    - destruct He as (l1 & l2 & Es & -> & He1 & He2). rewrite Es in *.
      rewrite live_app in Ew. apply in_app_or in Ew as [Ew|Ew].
      + rewrite firstn_app, Nat.sub_diag, firstn_all, app_nil_r. apply in_map_iff. exists (x, w). auto.
      + exfalso. specialize (He2 _ _ Ew). destruct c; cbn in H2; apply kle_not_lt in H2 || apply kle_not_lt in He2; auto.
    - subst e. rewrite firstn_all. apply in_map_iff. exists (x, w). auto. }
  assert (Hsub : incl (k :: ks) (map fst (live (firstn e (a_slots (av G a)))))).
  { intros x [<-|Hx]; [apply Hlive; auto; congruence|]. destruct (Hks x Hx) as (Q1 & Q2 & Q3).
    apply Hlive; auto. eapply below_down; eauto. eapply not_above_le; eauto. }
  apply NoDup_incl_length in Hsub.
  - rewrite map_length in Hsub. pose proof (live_length (firstn e (a_slots (av G a)))) as Q.
    pose proof (firstn_le_length e (a_slots (av G a))). cbn [length] in Hsub.
    assert (length (firstn e (a_slots (av G a))) <= e) by apply firstn_le_length. lia.
  - constructor; auto. intros Hx. destruct (Hks k Hx) as (_ & Q & _). auto.
Qed.

(** ** Setting a position *)

Lemma start_le n A k c pos : leafy n A -> kvalid k -> start_pos n k c = Some pos -> pos <= length (a_slots A).
Proof.
  intros (Hr & Hi & Hok) Hk. unfold start_pos.
  destruct (L_search_leaf _ _ _ Hr Hi Hok Hk) as (rc & p & Es & Hspec).
  cbn [bn_search base_of_sl]. rewrite Es. intros [= <-].
  destruct rc; try (destruct Hspec; fail); cbn in Hspec.
  - destruct Hspec as (l1 & l2 & E & -> & _). rewrite E, app_length. cbn. lia.
  - destruct Hspec as (l1 & z & l2 & E & -> & _). rewrite E, app_length. destruct c; cbn; lia.
  - destruct Hspec as (l1 & z & l2 & E & -> & _). rewrite E, app_length. destruct c; cbn; lia.
Qed.

Lemma pos_stocked s G lo hi a ver kk acc n pos : nodel s G -> a < cfr (base s) -> lv G a = 0 -> vb kk ->
  ch (base s) a = Some n -> begin_pos n kk = Some pos -> stocked (base s) G (OEnd lo hi a ver kk pos acc).
Proof.
  intros Hn Ha Hl Vk E Ep. pose proof (si_base _ _ _ (nd_inv _ _ Hn)) as Iv.
  pose proof (i_heap _ _ _ Iv) as H. pose proof (nd_alive _ _ Hn a Ha) as Hd.
  pose proof (all_page_in s G a Hn n E) as R.
  destruct (leaf_facts amap_empty (base s) (vn s) G 0 Iv a n E R Hl) as (HA & Hnx & Hnn & Hhk & Hrng & Hin & Hss).
  pose proof HA as (Hr & Hi & Hok). set (l := a_slots (av G a)) in *.
  assert (Hle : pos <= length l).
  { destruct kk as [[k c]|]; cbn [begin_pos] in Ep; [|injection Ep as <-; lia]. eapply start_le; eauto. }
  destruct (begin_pos_ok n (av G a) kk HA Vk) as (pos' & Ep' & Hpos). assert (pos' = pos) by congruence. subst pos'.
  destruct (Hpos (av G a) HA) as (Hpos1 & _). fold l in Hpos1.
  destruct Hok as (Hls & Hsk). fold l in Hls, Hsk.
  assert (El : l = firstn pos l ++ skipn pos l) by (symmetry; apply firstn_skipn).
  assert (Hsk2 : StronglySorted klt (keys_of (firstn pos l)) /\
            forall x y, In x (keys_of (firstn pos l)) -> In y (keys_of (skipn pos l)) -> klt x y).
  { rewrite El, keys_of_app in Hsk. apply SS_app in Hsk as (Q1 & _ & Q2). auto. }
  destruct Hsk2 as (Hs1 & Hs2).
  exists (keys_of (firstn pos l)). split; [|split].
  - rewrite keys_length, firstn_length; [lia|]. rewrite Forall_forall in *. intros x Hx. apply Hls.
    rewrite El. apply in_or_app. auto.
  - clear -Hs1 O. induction Hs1 as [|x xs _ IH Hx]; constructor; auto. intros Q. rewrite Forall_forall in Hx.
    apply (klt_irrefl x), Hx, Q.
  - intros k Hk. assert (Hk' : In k (keys_of l)) by (rewrite El, keys_of_app; apply in_or_app; auto).
    assert (Hm : map_of (tr (base s)) k <> None) by (apply (nd_keys _ _ Hn); exists a; auto).
    pose proof (Hrng k Hk') as Hkr. split; [apply Hkr|]. split; [|auto]. intros Hab.
    rewrite <- (h_cont _ _ _ _ _ H a Ha Hd Hl k Hkr) in Hm. fold l in Hm.
    destruct (assoc k (live l)) as [v|] eqn:Ev; [|congruence]. apply assoc_in in Ev; auto.
    assert (Q : In (k, v) (live (skipn pos l))).
    { rewrite Hpos1. unfold fabove. apply filter_In. split; [auto|]. now apply aboveb_ok. }
    apply live_key_in in Q. apply (klt_irrefl k). now apply Hs2.
Qed.

(** ** Steps *)

Lemma enter_hold lo hi a n kk acc lo' hi' a' ver kk' pos acc' :
  enter lo hi a n kk acc = Some (OEnd lo' hi' a' ver kk' pos acc') -> False.
Proof.
  unfold enter.
  repeat (match goal with |- context [match ?x with _ => _ end] => destruct x end; try discriminate).
Qed.

Lemma nodel_step fx v s s' G : nodel s G -> fx_calm fx v s -> sstep osl fx v s s' -> exists G', nodel s' G'.
Proof.
  intros Hn Hf Hs.
  destruct (sinv_step osl fx v s s' G (nd_inv _ _ Hn) Hf (nodel_soft v s G Hn) Hs) as (G' & Hi & He).
  exists G'. destruct Hs as [t s l c vs E Hlat Hv1 Hv2|u chk s p m Hk E].
  - cbn [base] in He.
    assert (Htr : tr (emit c l) = tr (base s) ++ [l]).
    { unfold emit. cbn. now rewrite (cstep_tr _ _ _ _ _ _ E). }
    assert (Hlab : forall t' c' r, l = LEff t' c' r -> r = RSuccess /\ is_del c' = false).
    { intros t' c' r El. eapply cstep_eff; eauto. apply (nd_plain _ _ Hn). }
    destruct He as [(Q & _)|(fx' & t' & l' & c0 & E' & Eb & Et & X)].
    { exfalso. cbn [base] in Q. rewrite Q in Htr. apply (f_equal (@length _)) in Htr. rewrite app_length in Htr. cbn in Htr. lia. }
    assert (Hmono : forall k, map_of (tr (base s)) k <> None -> map_of (tr (emit c l)) k <> None).
    { intros k Hk. rewrite Htr, effs_snoc. apply eff_grow; auto. intros ? ? ? El. now apply Hlab in El. }
    constructor; cbn [base sth]; auto.
    + eapply plain_step; eauto. apply Hn.
    + intros a Ha. destruct (dd G' a) eqn:Ed; auto. exfalso.
      destruct (x_die _ _ _ _ X a Ha) as [(Q1 & Q2)|(t1 & Q)]; [congruence| |].
      * rewrite (nd_alive _ _ Hn) in Q2 by auto. congruence.
      * destruct (nd_plain _ _ Hn t1) as (Q3 & _). destruct (th (base s) t1); cbn in Q, Q3; auto.
    + intros k (b & Hb & Db & Lb & Kb). cbn [base] in *.
      destruct (x_keys _ _ _ _ X b k Hb Db Lb Kb) as [Hk|(t1 & c1 & r1 & Et1 & Ek)].
      * apply Hmono. now apply (nd_keys _ _ Hn).
      * rewrite Htr in Et1. apply app_inj_tail in Et1 as (_ & El).
        destruct (Hlab _ _ _ El) as (-> & Hdl).
        pose proof (i_trace _ _ _ (si_base _ _ _ Hi)) as J. cbn [base] in J. rewrite Htr in J.
        inversion J as [Q|tr0 l0 J0 Jl Q]; [destruct (tr (base s)); discriminate|].
        apply app_inj_tail in Q as (-> & ->). rewrite El in Jl. destruct Jl as (_ & Hr).
        rewrite Htr, effs_snoc, El. cbn [eff]. rewrite <- Ek. apply eff_new; auto.
    + intros u. pose proof (nd_stock _ _ Hn u) as Hu. pose proof (si_scan _ _ _ (nd_inv _ _ Hn) u) as Hsc.
      destruct (sth s u) as [| | | | | |lo hi a ver kk pos acc| |]; auto.
      cbn in Hsc. destruct Hsc as (_ & _ & i0 & _ & ((Ha & _) & _) & _).
      destruct Hu as (ks & H1 & H2 & H3). exists ks. split; [auto|]. split; [auto|].
      intros k Hk. destruct (H3 k Hk) as (Q1 & Q2 & Q3).
      rewrite (g_lo _ _ _ _ (x_gle _ _ _ _ X)) by auto. auto.
  - destruct He as [(_ & ->)|(fx' & t' & l' & c0 & _ & _ & Et & _)].
    2:{ exfalso. cbn in Et. apply (f_equal (@length _)) in Et. rewrite app_length in Et. cbn in Et. lia. }
    constructor; cbn [base sth]; auto; try apply Hn.
    intros u'. unfold supd. destruct (Nat.eqb_spec u' u) as [-> |]; [|apply Hn].
    pose proof (si_scan _ _ _ (nd_inv _ _ Hn) u) as Hsc. unfold spc_ok in Hsc.
    destruct p as [| | | | | |lo hi a ver kk pos acc| |]; try exact Logic.I.
    destruct (sth s u) eqn:Ep; cbn [bounds] in Hsc; cbn [scan_step] in E; unfold tlift in E;
      repeat (match type of E with context [match ?x with _ => _ end] => destruct x eqn:? end; try discriminate);
      try discriminate;
      try (injection E; intros; subst; exfalso; eapply enter_hold; eauto; fail).
    + injection E; intros; subst. exists []. split; [cbn; lia|]. split; [constructor|]. intros ? [].
    + destruct Hsc as (_ & _ & i0 & _ & Hb & _). destruct Hb as ((Ha & Hl & _) & Vk & _).
      injection E; intros; subst. eapply pos_stocked; eauto.
Qed.

Lemma nodel_reach fx (A : mover -> scfg -> Prop) prog scans s :
  (forall v s, A v s -> fx_calm fx v s) ->
  (forall t c, In c (prog t) -> kvalid (call_key c) /\ is_del c = false) ->
  (forall u lo hi, In (lo, hi) (scans u) -> vb lo /\ vb hi) ->
  sreach osl fx A prog scans s -> exists G, nodel s G.
Proof.
  intros HA Hp Hq. induction 1 as [|v s s' Hr (G & IH) Ha Hs].
  - exists g0. constructor; cbn.
    + apply sinv_init; auto. intros t c Hc. exact (proj1 (Hp t c Hc)).
    + intros t. split; [exact Logic.I|]. intros c Hc. exact (proj2 (Hp t c Hc)).
    + auto.
    + intros k (b & _ & _ & _ & Hk). destruct Hk.
    + intros u. exact Logic.I.
  - eapply nodel_step; eauto.
Qed.

End CScanPlain.
