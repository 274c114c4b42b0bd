(** Every step of the concurrent single-layer trees, with the three repairs of [repaired],
    keeps the invariant.  Proof-side only: no definition here models code. *)
From Coq Require Import List Arith Bool Lia Sorted.
From Verif Require Import Params Mem Common Spec ConcSpec NodeAbs SLIface TreeState Levels
  ConcModel ConcLin ConcInv ConcHeap ConcSmo ConcThreads.
Import ListNotations.

Section ConcSteps.
Context {P : Params} {O : OrdLaws P} {N : SLOps P} {L : SLLaws P N} (m0 : amap) (osl : bool).

Notation heap_ok := (heap_ok m0).
Notation inv := (ConcInv.inv m0).

Definition good (s : cfg) (G : gh) (r : sres) : Prop :=
  match r with
  | SOk l s1 => exists G', inv (emit s1 l) G' /\ gext s (emit s1 l) G G'
  | SBlock => True
  | SUndef => False
  end.

Lemma effs_id tr0 l : (forall t c r, l <> LEff t c r) -> effs m0 (tr0 ++ [l]) = effs m0 tr0.
Proof. intros Hl. rewrite effs_snoc. destruct l; auto. exfalso. eapply Hl; eauto. Qed.

Lemma e0 t s G l six' p' pg' : inv s G ->
  let s' := Cfg (ch s) (croot s) (cfr s) six' (supd (th s) t p') pg' (tr s ++ [l]) in
  (forall b u, u <> t -> six s b = Some u -> six' b = Some u) ->
  (forall b, cfr s <= b -> six' b = None) ->
  effs m0 (tr s ++ [l]) = effs m0 (tr s) ->
  match l with LInv u _ | LEff u _ _ | LObs u _ _ | LRes u _ => u = t | LTau => True end ->
  (forall u c, In c (pg' u) -> In c (pg s u)) ->
  (gext s s' G G -> pc_ok s' G t p') ->
  pc_stat p' (tnext (length (tr s)) (tstat (tr s)) l t) ->
  (forall r, In r (claims p') -> In r (claims (th s t)) \/
     forall u, u <> t -> ~ In r (claims (th s u))) ->
  (forall p, ~ shrinking (th s t) p) -> (forall p, ~ shrinking p' p) ->
  (forall r a m up, th s t <> PMrg2 r a m up) ->
  justified m0 (tr s) l -> inv s' G /\ gext s s' G G.
Proof.
  intros I s' H1 H2 H3 H4 H5 H6 H7 H8 H9 H10 H11 H12.
  assert (M : mod1 t s s' G G l 0).
  { constructor; auto. intros u Hu. cbn. now rewrite supd_diff. }
  eapply (mod1_inv _ t s s' G G l 0); eauto.
  - apply heap_tick; auto. apply (i_heap _ _ _ I).
  - cbn. rewrite supd_same. apply H6. eapply mod1_gext; eauto.
  - unfold s'. cbn [th tr]. rewrite supd_same, tstat_snoc. auto.
  - cbn. rewrite supd_same. auto.
  - cbn. rewrite supd_same. auto.
Qed.

Lemma e1 t s G G' l six' p' a d' : inv s G ->
  let s' := Cfg (upd (ch s) a (Some d')) (croot s) (cfr s) six' (supd (th s) t p') (pg s)
              (tr s ++ [l]) in
  lv G' = lv G -> lo G' = lo G -> bt G' = bt G -> dd G' = dd G -> tg G' = tg G ->
  (forall x, x <> a -> av G' x = av G x) -> dd G a = None ->
  (six s a = None \/ six s a = Some t) ->
  (forall b u, u <> t -> six s b = Some u -> six' b = Some u) ->
  (forall b, cfr s <= b -> six' b = None) ->
  (forall u r, u <> t -> In r (claims (th s u)) -> lv G a <> 0 -> forall e,
    In (e, r) (entries_of G' a) -> In (e, r) (entries_of G a)) ->
  match l with LInv u _ | LEff u _ _ | LObs u _ _ | LRes u _ => u = t | LTau => True end ->
  heap_ok (upd (ch s) a (Some d')) (cfr s) G' (tr s ++ [l]) ->
  (gext s s' G G' -> pc_ok s' G' t p') ->
  pc_stat p' (tnext (length (tr s)) (tstat (tr s)) l t) ->
  (forall r, In r (claims p') -> In r (claims (th s t)) \/
     forall u, u <> t -> ~ In r (claims (th s u))) ->
  (forall p, ~ shrinking (th s t) p) -> (forall p, ~ shrinking p' p) ->
  (forall r a m up, th s t <> PMrg2 r a m up) ->
  justified m0 (tr s) l ->
  (forall k, lv G a = 0 -> In k (keys_of (a_slots (av G' a))) ->
    In k (keys_of (a_slots (av G a))) \/ exists u c r, l = LEff u c r /\ call_key c = k) ->
  inv s' G' /\ gext s s' G G'.
Proof.
  intros I s' E1 E2 E3 E4 E5 H1 H2 H3 H4 H5 H6 H7 HH H8 H9 H10 H11 H12 H13 H14 H15.
  assert (M : mod1 t s s' G G' l a).
  { constructor; auto.
    - intros x Hx. split; auto. cbn. now rewrite upd_diff.
    - intros u Hu. cbn. now rewrite supd_diff. }
  eapply (mod1_inv _ t s s' G G' l a); eauto.
  - cbn. rewrite supd_same. apply H8. eapply mod1_gext; eauto.
  - unfold s'. cbn [th tr]. rewrite supd_same, tstat_snoc. auto.
  - cbn. rewrite supd_same. auto.
  - cbn. rewrite supd_same. auto.
Qed.

Lemma six_own s t a o : (six s a = None \/ six s a = Some t) ->
  forall b u, u <> t -> six s b = Some u -> supd (six s) a o b = Some u.
Proof.
  intros H b u Hu Hb. destruct (Nat.eq_dec b a) as [->|Hn].
  - destruct H; congruence.
  - now rewrite supd_diff.
Qed.
Lemma six_new s G a o : inv s G -> a < cfr s ->
  forall b, cfr s <= b -> supd (six s) a o b = None.
Proof.
  intros I Ha b Hb. rewrite supd_diff by lia. now apply (i_fresh _ _ _ I).
Qed.

Lemma free_none s a : free s a = true -> six s a = None.
Proof. unfold free. destruct (six s a); [discriminate|auto]. Qed.

(** A node that is not removed and not latched is part of the tree. *)
Lemma free_live s G a d : inv s G -> ch s a = Some d -> nd_removed d = false ->
  six s a = None -> lives s G a.
Proof.
  intros I E R F. split; [eapply h_none; [apply (i_heap _ _ _ I)|eauto]|].
  destruct (dd G a) as [T|] eqn:D; auto.
  destruct (i_stale _ _ _ I a d T E R D) as (u & _ & _ & _ & U & _). congruence.
Qed.

Ltac noshr := intros; intros [[? Q]|[? Q]]; cbn in *; congruence.
Ltac nomrg := intros; cbn in *; congruence.

Ltac fin0 E := try (rewrite E; noshr); try noshr; try nomrg; cbn [pc_stat claims]; try solve [intros ? []]; eauto; try solve [intros ? []].

Section Steps.
Variables (s : cfg) (G : gh) (t : tid).
Hypothesis I : inv s G.
Let H := i_heap _ _ _ I.

(** A step that changes only the program counter. *)
Lemma e0_stay p' : (gext s (emit (goto s t p') LTau) G G -> pc_ok (emit (goto s t p') LTau) G t p') ->
  pc_stat p' (tstat (tr s) t) ->
  (forall r, In r (claims p') -> In r (claims (th s t)) \/
     forall u, u <> t -> ~ In r (claims (th s u))) ->
  (forall p, ~ shrinking (th s t) p) -> (forall p, ~ shrinking p' p) ->
  (forall r a m up, th s t <> PMrg2 r a m up) ->
  good s G (SOk LTau (goto s t p')).
Proof.
  intros. cbn [good]. exists G. apply (e0 t s G LTau (six s) p' (pg s)); auto.
  - apply (i_fresh _ _ _ I).
  - now apply effs_id.
  - exact Logic.I.
Qed.

(** ... and one latch. *)
Lemma e0_own a o p' :
  (six s a = None \/ six s a = Some t) -> a < cfr s ->
  (gext s (emit (goto (own s a o) t p') LTau) G G ->
   pc_ok (emit (goto (own s a o) t p') LTau) G t p') ->
  pc_stat p' (tstat (tr s) t) ->
  (forall r, In r (claims p') -> In r (claims (th s t)) \/
     forall u, u <> t -> ~ In r (claims (th s u))) ->
  (forall p, ~ shrinking (th s t) p) -> (forall p, ~ shrinking p' p) ->
  (forall r a m up, th s t <> PMrg2 r a m up) ->
  good s G (SOk LTau (goto (own s a o) t p')).
Proof.
  intros. cbn [good]. exists G. apply (e0 t s G LTau (supd (six s) a o) p' (pg s)); auto.
  - now apply six_own.
  - eapply six_new; eauto.
  - now apply effs_id.
  - exact Logic.I.
Qed.

Notation step := (cstep osl repaired t s).

Ltac xstk X := refine (ext_stk m0 s _ G _ H X _ _ _ _); [|eassumption].

Lemma step_idle : th s t = PIdle -> good s G step.
Proof.
  intros E. unfold cstep. rewrite E. destruct (pg s t) as [|c cs] eqn:Ep; [exact Logic.I|].
  pose proof (i_stat _ _ _ I t) as St. rewrite E in St. cbn in St.
  exists G. apply (e0 t s G (LInv t c) (six s) (PRoot c) (supd (pg s) t cs)); auto.
  - apply (i_fresh _ _ _ I).
  - now apply effs_id.
  - intros u c' Hc. destruct (Nat.eq_dec u t) as [->|Hu].
    + rewrite supd_same in Hc. rewrite Ep. now right.
    + now rewrite supd_diff in Hc.
  - intros _. cbn. apply (i_prog _ _ _ I t c). rewrite Ep. now left.
  - cbn. rewrite supd_same. eauto.
  - rewrite E. noshr.
  - noshr.
  - nomrg.
Qed.

Lemma step_ret r : th s t = PRet r -> good s G step.
Proof.
  intros E. unfold cstep. rewrite E.
  pose proof (i_stat _ _ _ I t) as St. rewrite E in St. cbn in St.
  exists G. apply (e0 t s G (LRes t r) (six s) PIdle (pg s)); auto.
  - apply (i_fresh _ _ _ I).
  - now apply effs_id.
  - intros _. exact Logic.I.
  - cbn. now rewrite supd_same.
  - rewrite E. noshr.
  - noshr.
  - nomrg.
Qed.

Lemma step_root c : th s t = PRoot c -> good s G step.
Proof.
  intros E. unfold cstep. rewrite E.
  pose proof (i_stat _ _ _ I t) as St. rewrite E in St. cbn in St.
  pose proof (i_pc _ _ _ I t) as Hp. rewrite E in Hp. cbn in Hp.
  destruct (i_root _ _ _ I) as (R & HR).
  apply e0_stay; auto; try (rewrite E; noshr); try noshr; try nomrg.
  intros X. cbn [pc_ok]. split; [auto|]. split; [apply (r_alloc _ _ _ HR)|].
  destruct (r_cur _ _ _ HR) as [Q|(Q & _)]; [right|left; exact Q].
  rewrite Q, (r_lo _ _ _ HR), (proj2 (r_live _ _ _ HR)).
  split; [apply ele_neg|]. split; [intros; exact Logic.I|now left].
Qed.


(** ** Leaves *)

Definition eff_of (A A' : anode) (c : call) : Prop :=
  same_frame A A' /\ leaf_ok (a_slots A') /\
  incl (keys_of (a_slots A')) (call_key c :: keys_of (a_slots A)) /\
  forall m : amap, m (call_key c) = assoc (call_key c) (live (a_slots A)) ->
    snd (spec_step m c) = RSuccess /\
    forall k, m k = assoc k (live (a_slots A)) ->
      fst (spec_step m c) k = assoc k (live (a_slots A')).

Lemma spec_other m c k : k <> call_key c -> fst (spec_step m c) k = m k.
Proof.
  intros Hk. apply keqb_neq in Hk.
  destruct c; cbn in *; auto; try (destruct (m k0)); cbn; unfold amap_set; now rewrite ?Hk.
Qed.

Lemma eff_upsert A A' c k v ex : leaf_upd A A' ex (upsert k v (live (a_slots A))) ->
  incl ex [call_key c] -> call_key c = k ->
  (forall m : amap, m k = assoc k (live (a_slots A)) ->
     spec_step m c = (amap_set m k (Some v), RSuccess)) -> eff_of A A' c.
Proof.
  intros (F1 & F2 & F3 & F4) He Hk Hm. split; [auto|]. split; [auto|]. split.
  - intros x Hx. apply F4 in Hx. apply in_app_or in Hx as [Hx|Hx]; [|now right].
    apply He in Hx as [<-|[]]. now left.
  - intros m Hc. rewrite Hk in Hc. rewrite (Hm m Hc). cbn. split; auto. intros k' Hk'.
    rewrite F3, assoc_upsert. unfold amap_set. destruct (keqb k' k); auto.
Qed.

Definition leafres_ok (d : nd) (A : anode) (c : call) (lr : leafres) : Prop :=
  match lr with
  | Fail r => forall m : amap, m (call_key c) = assoc (call_key c) (live (a_slots A)) ->
      spec_step m c = (m, r)
  | Eff n' | NMerge n' => is_read c = false /\ exists A', rep n' A' /\ eff_of A A' c
  | NSplit n' => is_put c /\ exists A', rep n' A' /\ leaf_upd A A' [] (live (a_slots A)) /\
      ~ In (call_key c) (keys_of (a_slots A')) /\ splittable n'
  end.

Lemma leaf_op_ok d A c : rep d A -> a_inner A = false -> leaf_ok (a_slots A) ->
  kvalid (call_key c) -> exists lr, leaf_op d c = Some lr /\ leafres_ok d A c lr.
Proof.
  intros H1 H2 H3 Hk. destruct c as [k|k v|k v|k v|k]; cbn [leaf_op call_key] in *.
  - rewrite (L_read _ _ _ H1 H2 H3 Hk). eexists. split; [reflexivity|]. cbn. intros m Hm.
    now rewrite Hm.
  - destruct (L_write d A k v H1 H2 H3 Hk) as (rc & n' & A' & E & R & [(-> & U)|(-> & U & Q1 & Q2)]);
      rewrite E; eexists; (split; [reflexivity|]); cbn.
    + split; auto. exists A'. split; auto.
      eapply (eff_upsert A A' (CWrite k v) k v); eauto. intros x [<-|[]]. now left.
    + split; [exact Logic.I|]. exists A'. auto.
  - destruct (L_insert d A k v H1 H2 H3 Hk) as
      (rc & n' & A' & E & R & [(-> & U & Q)|[(-> & Q & U)|(-> & Q0 & U & Q1 & Q2)]]);
      rewrite E; eexists; (split; [reflexivity|]); cbn.
    + intros m Hm. rewrite Hm. destruct (assoc k (live (a_slots A))); tauto.
    + split; auto. exists A'. split; auto.
      eapply (eff_upsert A A' (CInsert k v) k v); eauto; [intros x [<-|[]]; now left|].
      intros m Hm. cbn. now rewrite Hm, Q.
    + split; [exact Logic.I|]. exists A'. auto.
  - destruct (L_update d A k v H1 H2 H3 Hk) as
      (rc & n' & A' & E & R & [(-> & Q & U)|(-> & Q & U)]);
      rewrite E; eexists; (split; [reflexivity|]); cbn.
    + split; auto. exists A'. split; auto.
      eapply (eff_upsert A A' (CUpdate k v) k v); eauto; [intros x []|].
      intros m Hm. cbn. rewrite Hm. destruct (assoc k (live (a_slots A))); tauto.
    + intros m Hm. now rewrite Hm, Q.
  - destruct (L_delete d A k H1 H2 H3 Hk) as
      (rc & n' & A' & E & R & [(Hrc & Q & U)|(-> & Q & U)]).
    + assert (HE : eff_of A A' (CDelete k)).
      { destruct U as (F1 & F2 & F3 & F4). split; [auto|]. split; [auto|]. split.
        - intros x Hx. right. now apply F4 in Hx.
        - cbn. intros m Hm. rewrite Hm.
          destruct (assoc k (live (a_slots A))) eqn:Ea; [|tauto]. cbn. split; auto.
          intros k' Hk'. rewrite F3, assoc_remove. unfold amap_set.
          destruct (keqb k' k); auto. }
      destruct Hrc as [-> | ->]; rewrite E; eexists; (split; [reflexivity|]); cbn; eauto.
    + rewrite E; eexists; (split; [reflexivity|]); cbn. intros m Hm. now rewrite Hm, Q.
Qed.

Lemma leaf_live a d : lives s G a -> ch s a = Some d -> lv G a = 0 ->
  node_ok (cfr s) G a d /\ a_inner (av G a) = false /\ leaf_ok (a_slots (av G a)).
Proof.
  intros Hl E Hv.
  pose proof (h_node _ _ _ _ _ H a d E (live_not_removed _ _ _ _ _ _ _ H E (proj2 Hl))) as Hn.
  split; auto. eapply node_leaf; eauto.
Qed.

Lemma leaf_eff a d c n' A' : lives s G a -> ch s a = Some d -> lv G a = 0 ->
  inrange G a (call_key c) -> rep n' A' -> eff_of (av G a) A' c ->
  heap_ok (upd (ch s) a (Some n')) (cfr s) (seta G a A') (tr s ++ [LEff t c RSuccess]) /\
  RSuccess = snd (spec_step (effs m0 (tr s)) c).
Proof.
  intros Hl E Hv Hr Hrep (F1 & F2 & F3 & F4).
  destruct (leaf_live a d Hl E Hv) as (Hn & Hi & Hok).
  pose proof (h_cont _ _ _ _ _ H a (proj1 Hl) (proj2 Hl) Hv) as Hc.
  destruct (F4 (effs m0 (tr s))) as (S1 & S2). { symmetry. auto. }
  split; auto.
  assert (Hn' : node_ok (cfr s) (seta G a A') a n').
  { eapply (node_ok_leaf m0 _ _ G (tr s) a d n' A' [call_key c]); eauto; try apply Hl.
    intros x [<-|[]]. auto. }
  apply heap_seta; auto; try apply Hl.
  - apply F1.
  - destruct (L_hdr _ _ Hrep) as (_ & Q & _). rewrite Q, (proj1 (proj2 F1)).
    apply (n_rem _ _ _ _ Hn).
  - intros _ k Hk. rewrite effs_snoc. cbn. symmetry. apply S2. symmetry. auto.
  - intros k Hk. rewrite effs_snoc. cbn. apply spec_other. intros ->. tauto.
Qed.


(** ** Descending *)

Lemma stat_tau s1 : tr s1 = tr s ++ [LTau] -> tstat (tr s1) t = tstat (tr s) t.
Proof. intros ->. now rewrite tstat_snoc. Qed.

Lemma desc_pc c b stk s' G' : gext s s' G G' -> tstat (tr s') t = tstat (tr s) t ->
  kvalid (call_key c) -> b < cfr s -> ele (lo G b) (Key (call_key c)) ->
  (forall i, tstat (tr s) t = TCalled c i -> dle (Some i) (dd G b)) ->
  stk_ok s G b stk -> pc_ok s' G' t (PDesc c b stk).
Proof.
  intros X Ht Hk Hb Hlo Hi Hs. pose proof (x_gle _ _ _ _ X) as Hg.
  cbn [pc_ok]. split; [auto|]. split; [eapply ext_lt; eauto|]. right.
  rewrite (g_lo _ _ _ _ Hg b Hb). split; [auto|]. split; [|eapply ext_stk; eauto].
  intros i Hti. rewrite Ht in Hti. eapply gle_dle; eauto. eapply tstat_le; eauto.
Qed.

Lemma deadroot_removed a d : ch s a = Some d -> deadroot s a -> nd_removed d = true /\ nd_next d = None.
Proof. intros E (d' & E' & Q). assert (d' = d) by congruence. subst. auto. Qed.

Lemma blocked_six a c w : w = true -> is_read c = false -> leaf_blocked osl s a c w = false ->
  six s a = None.
Proof.
  intros -> Hr. unfold leaf_blocked. rewrite Hr.
  destruct osl; cbn; rewrite negb_false_iff; apply free_none.
Qed.

Lemma put_not_read c : is_put c -> is_read c = false.
Proof. destruct c; cbn; tauto. Qed.

Lemma step_desc c a stk : th s t = PDesc c a stk -> good s G step.
Proof.
  intros E. unfold cstep. rewrite E.
  pose proof (i_stat _ _ _ I t) as St. rewrite E in St. cbn in St. destruct St as (i0 & St).
  pose proof (i_pc _ _ _ I t) as Hp. rewrite E in Hp. cbn [pc_ok] in Hp.
  destruct Hp as (Hk & Ha & Hp).
  destruct (h_some _ _ _ _ _ H a Ha) as (d & Ed). rewrite Ed. cbn [sbind].
  assert (Hmove : forall b, covers d (call_key c) = Some false -> nd_next d = Some b ->
    good s G (SOk LTau (goto s t (PDesc c b stk)))).
  { intros b Hc Hb. destruct (walk_next _ _ _ H a d (call_key c) b Ed Ha Hc Hb) as (R1 & R2).
    destruct Hp as [Hp|(P1 & P2 & P3)]; [destruct (deadroot_removed a d Ed Hp); congruence|].
    apply e0_stay; fin0 E.
    + intros X. apply desc_pc; auto.
      * now apply stat_tau.
      * apply R1.
      * intros i Hi. apply R1. auto.
      * eapply right_stk; eauto. }
  destruct (cov_cases _ _ _ H a d (call_key c) Ed) as
    [(R & Hc & Hnx & Hti & T & Hd)|(R & Hn & Hin & Hnx & [[Hc Hhi]|(Hc & b & h & B1 & B2 & B3 & B4)])];
    rewrite Hc; cbn [sbind].
  - (* removed *)
    destruct (nd_inner d) eqn:Ei.
    + destruct (nd_next d) as [b|] eqn:Eb; [now apply Hmove|].
      apply e0_stay; fin0 E.
    + destruct (leaf_blocked osl s a c false); [exact Logic.I|].
      destruct (nd_next d) as [b|] eqn:Eb; [now apply Hmove|].
      specialize (Hti ltac:(congruence)). congruence.
  - (* the node is responsible *)
    destruct Hp as [Hp|(P1 & P2 & P3)]; [destruct (deadroot_removed a d Ed Hp); congruence|].
    destruct (lv G a) as [|lva] eqn:Elv; rewrite Hin; cbn [Nat.eqb negb].
    + (* a leaf *)
      destruct (node_leaf _ _ _ _ Hn Elv) as (Hi & Hok).
      destruct (leaf_op_ok d (av G a) c (n_rep _ _ _ _ Hn) Hi Hok Hk) as (lr & Elr & Hlr).
      rewrite Elr. cbn [sbind]. destruct lr as [r|n'|n'|n']; cbn [leafres_ok] in Hlr.
      * (* no effect *)
        destruct (leaf_blocked osl s a c false); [exact Logic.I|].
        exists G. apply (e0 t s G (LObs t c r) (six s) (PRet r) (pg s));
          try (rewrite E; noshr); try noshr; try nomrg; auto.
        -- apply (i_fresh _ _ _ I).
        -- now apply effs_id.
        -- intros _. exact Logic.I.
        -- cbn. now rewrite supd_same.
        -- cbn [justified].
           destruct (dd G a) as [T|] eqn:Hd.
           ++ pose proof (P2 i0 St) as Q. cbn in Q.
              pose proof (h_btd _ _ _ _ _ H a T Ha Hd) as (_ & Q2).
              exists i0, T. split; [auto|]. split; [lia|]. apply Hlr.
              rewrite (h_stale _ _ _ _ _ H a d T Ed R Hd Elv); [reflexivity|].
              split; auto.
           ++ exists i0, (length (tr s)). split; [auto|]. rewrite firstn_all.
              split; [split; auto; eapply tstat_le; eauto|]. apply Hlr.
              rewrite (h_cont _ _ _ _ _ H a Ha Hd Elv); [reflexivity|]. split; auto.
      * (* the map changes *)
        destruct Hlr as (Hrd & A' & HA & He).
        destruct (leaf_blocked osl s a c true) eqn:Eb; [exact Logic.I|].
        pose proof (blocked_six a c true eq_refl Hrd Eb) as Hsix.
        pose proof (free_live s G a d I Ed R Hsix) as Hl.
        destruct (leaf_eff a d c n' A' Hl Ed Elv (conj P1 Hhi) HA He) as (HH & Hj).
        exists (seta G a A'). apply (e1 t s G (seta G a A') (LEff t c RSuccess) (six s) (PRet RSuccess) a n');
          try (rewrite E; noshr); try noshr; try nomrg; auto.
        -- intros x Hx. now apply av_seta_diff.
        -- apply Hl.
        -- apply (i_fresh _ _ _ I).
        -- intros _. exact Logic.I.
        -- cbn. now rewrite supd_same.
        -- cbn [justified]. eauto.
        -- intros k _. rewrite av_seta_same. intros Hw. apply (proj1 (proj2 (proj2 He))) in Hw as [<-|Hw]; eauto 7.
      * (* a split is needed *)
        destruct Hlr as (Hput & A' & HA & HU & Hnk & Hspl).
        destruct (leaf_blocked osl s a c true) eqn:Eb; [exact Logic.I|].
        pose proof (blocked_six a c true eq_refl (put_not_read c Hput) Eb) as Hsix.
        pose proof (free_live s G a d I Ed R Hsix) as Hl.
        destruct HU as (U1 & U2 & U3 & U4).
        assert (Hn' : node_ok (cfr s) (seta G a A') a n').
        { eapply (node_ok_leaf m0 _ _ G (tr s) a d n' A' []); eauto. intros x []. }
        exists (seta G a A').
        apply (e1 t s G (seta G a A') LTau (supd (six s) a (Some t)) (PSplit c a stk) a n');
          try (rewrite E; noshr); try noshr; try nomrg; auto.
        -- intros x Hx. now apply av_seta_diff.
        -- apply Hl.
        -- now apply six_own; left.
        -- eapply six_new; eauto.
        -- apply heap_seta; auto.
           ++ apply Hl.
           ++ apply U1.
           ++ destruct (L_hdr _ _ HA) as (_ & Q & _). rewrite Q, (proj1 (proj2 U1)).
              apply (n_rem _ _ _ _ Hn).
           ++ intros _ k Hkr. rewrite effs_id by (intros; discriminate). rewrite U3.
              apply (h_cont _ _ _ _ _ H a Ha (proj2 Hl) Elv k Hkr).
           ++ intros k _. now rewrite effs_id.
        -- intros X. cbn [pc_ok]. unfold key_free, inrange, hi, hia. rewrite av_seta_same.
           unfold lives, owns. cbn [emit goto own setp six ch cfr]. rewrite supd_same.
           cbn [lo lv dd seta]. split; [auto|]. split; [auto|]. split; [auto|].
           split; [auto|]. split; [auto|]. split.
           { split; auto. destruct U1 as (_ & _ & _ & _ & U1). unfold hi, hia in Hhi.
             now rewrite U1. }
           split; [auto|]. split; [|eapply (ext_stk m0 s _ G _ H X); eauto].
           exists n'. cbn. rewrite upd_same. auto.
        -- cbn [pc_stat tnext]. eauto.
        -- exact Logic.I.
        -- intros k _. rewrite av_seta_same. intros Hw. left. now apply U4 in Hw.
      * (* a merge is needed *)
        destruct Hlr as (Hrd & A' & HA & He).
        destruct (leaf_blocked osl s a c true) eqn:Eb; [exact Logic.I|].
        pose proof (blocked_six a c true eq_refl Hrd Eb) as Hsix.
        pose proof (free_live s G a d I Ed R Hsix) as Hl.
        destruct (leaf_eff a d c n' A' Hl Ed Elv (conj P1 Hhi) HA He) as (HH & Hj).
        exists (seta G a A').
        apply (e1 t s G (seta G a A') (LEff t c RSuccess) (supd (six s) a (Some t))
                 (PMerge RSuccess stk None a) a n');
          try (rewrite E; noshr); try noshr; try nomrg; auto.
        -- intros x Hx. now apply av_seta_diff.
        -- apply Hl.
        -- now apply six_own; left.
        -- eapply six_new; eauto.
        -- intros X. cbn [pc_ok]. unfold lives, owns. cbn [six cfr]. rewrite supd_same.
           cbn [dd seta]. split; [auto|]. split; [auto|]. right. split; [auto|].
           eapply (ext_stk m0 s _ G _ H X); eauto.
        -- cbn. now rewrite supd_same.
        -- cbn [justified]. eauto.
        -- intros k _. rewrite av_seta_same. intros Hw. apply (proj1 (proj2 (proj2 He))) in Hw as [<-|Hw]; eauto 7.
    + (* an inner node *)
      assert (Hl : lv G a <> 0) by lia.
      destruct (walk_down _ _ _ H a d (call_key c) stk Ed Ha Hc Hl Hk P1) as
        (b & W1 & W2 & W3 & W4 & W5 & W6).
      rewrite W1. cbn [sbind].
      apply e0_stay; fin0 E.
      * intros X. apply desc_pc; auto. now apply stat_tau.
  - (* to the right *)
    rewrite Hnx, B1.
    assert (Hg : good s G (SOk LTau (goto s t (PDesc c b stk)))) by (apply Hmove; congruence).
    destruct (nd_inner d); auto. destruct (leaf_blocked osl s a c false); [exact Logic.I|auto].
Qed.

(** ** Splitting *)

Lemma others_claim_lt u r : In r (claims (th s u)) -> r < cfr s.
Proof.
  intros Hr. destruct (claims_ok m0 s G u r H (i_pc _ _ _ I u) Hr) as ((Q & _) & _). auto.
Qed.

Lemma kid_lt p e c : lives s G p -> lv G p <> 0 -> In (e, c) (entries_of G p) -> c < cfr s.
Proof.
  intros Hp Hl Hin. destruct (live_node _ _ _ _ _ _ H (proj1 Hp) (proj2 Hp)) as (d & _ & _ & Hn).
  apply (n_kids _ _ _ _ Hn Hl e c Hin).
Qed.

Lemma split_step a d p : owns s t a -> lives s G a -> ch s a = Some d -> splittable d ->
  (forall p, ~ shrinking (th s t) p) -> (forall r a m up, th s t <> PMrg2 r a m up) ->
  exists l' r' sep, nd_split d (cfr s) (nd_new (nd_inner d)) = Some (l', r') /\
    nd_highkey l' = Some sep /\ room l' /\ room r' /\
    let s' := emit (goto (own (setp (newp s r') a l') (cfr s) (Some t)) t (p sep)) LTau in
    exists G', heap_ok (ch s') (cfr s') G' (tr s') /\ gext s s' G G' /\
      pair_ok s' G' t a (cfr s) /\ pending s' G' (cfr s) sep /\
      a_high (av G' a) = Some sep /\ hi G' (cfr s) = hi G a /\ lv G' (cfr s) = lv G a /\
      ch s' a = Some l' /\ ch s' (cfr s) = Some r' /\
      (forall r, r < cfr s -> dd G' r = dd G r /\ (noentry s G r -> noentry s' G' r)) /\
      (forall k, inrange G a k -> key_free G a k -> key_free G' a k /\ key_free G' (cfr s) k) /\
      (forall q, p sep = q -> pc_ok s' G' t q -> pc_stat q (tstat (tr s) t) ->
         (forall r, In r (claims q) -> In r (claims (th s t)) \/ r = cfr s) ->
         (forall z, ~ shrinking q z) -> inv s' G' /\ gext s s' G G').
Proof.
  intros Ho Hl Ed Hspl Hns Hnm.
  pose proof (live_not_removed _ _ _ _ _ _ _ H Ed (proj2 Hl)) as R.
  pose proof (h_node _ _ _ _ _ H a d Ed R) as Hn.
  destruct (L_hdr _ _ (n_rep _ _ _ _ Hn)) as (I1 & _).
  destruct (L_split d (av G a) (cfr s) (n_rep _ _ _ _ Hn) (n_body _ _ _ _ Hn) Hspl) as
    (l' & r' & sep & s1 & s2 & E1 & R1 & R2 & Hsp & Hks & Rm1 & Rm2 & Hlv).
  exists l', r', sep. rewrite I1. split; [exact E1|].
  split; [eapply L_highkey; eauto|]. split; [auto|]. split; [auto|].
  intros s'.
  destruct (heap_split m0 (ch s) (cfr s) G (tr s) a d l' r' sep s1 s2 H Ed (proj2 Hl) R1 R2 Hsp Hks)
    as (HH & S1 & S2 & S3 & S4 & S5).
  match type of HH with ConcInv.heap_ok _ _ _ ?g _ => set (G' := g) in * end.
  destruct (splitg_facts m0 (ch s) (cfr s) G (tr s) a sep
    (ANode (a_inner (av G a)) (a_removed (av G a)) (Some (cfr s)) (a_low (av G a)) (Some sep) s1)
    (ANode (a_inner (av G a)) false (a_next (av G a)) (Some sep) (a_high (av G a)) s2)
    H (proj1 Hl)) as (F1 & F2 & F3 & F4 & F5 & F6 & F7 & F8 & F9).
  fold G' in F1, F2, F3, F4, F5, F6, F7, F8, F9. clearbody G'.
  exists G'. pose proof (proj1 Hl) as Ha.
  assert (Hne : cfr s <> a) by lia.
  assert (Hcha : ch s' a = Some l') by (cbn; now rewrite upd_same).
  assert (Hchr : ch s' (cfr s) = Some r') by (cbn; rewrite upd_diff by lia; now rewrite upd_same).
  assert (Hcho : forall x, x <> a -> x <> cfr s -> ch s' x = ch s x)
    by (intros x X1 X2; cbn; rewrite !upd_diff; auto).
  assert (X : gext s s' G G').
  { constructor; auto.
    - cbn. lia.
    - intros x (dx & D1 & D2 & D3). exists dx. split; auto.
      pose proof (h_none _ _ _ _ _ H _ _ D1). rewrite Hcho; auto; try lia. congruence.
    - intros x Hx Hdx. left. cbn in Hx. destruct (Nat.eq_dec x (cfr s)) as [->|]; [congruence|].
      split; [lia|]. rewrite <- F2; auto; lia.
    - intros x k Hx Hdx Hlx Hk. left. cbn in Hx.
      assert (Hz : lv G a = 0 -> forall z, In z (keys_of s1) \/ In z (keys_of s2) ->
        In z (keys_of (a_slots (av G a)))).
      { intros Hla z Hz. destruct Hsp as (_ & Hsp). rewrite (n_inner _ _ _ _ Hn), Hla in Hsp. cbn in Hsp.
        destruct Hsp as (_ & _ & _ & Z1 & Z2 & _). destruct Hz; auto. }
      destruct (Nat.eq_dec x a) as [->|Xa]; [|destruct (Nat.eq_dec x (cfr s)) as [->|Xf]].
      + exists a. rewrite (g_lv _ _ _ _ F1 a Ha) in Hlx. rewrite F7 in Hk. split; [auto|].
        split; [apply Hl|]. split; [auto|]. apply Hz; auto.
      + exists a. rewrite F3 in Hlx. rewrite F8 in Hk. split; [auto|].
        split; [apply Hl|]. split; [auto|]. apply Hz; auto.
      + assert (Hq : x < cfr s) by lia. exists x. rewrite (g_lv _ _ _ _ F1 x Hq) in Hlx.
        rewrite F2 in Hdx by auto. rewrite F9 in Hk by auto. auto. }
  assert (Hent : forall r, r < cfr s -> dd G' r = dd G r /\ (noentry s G r -> noentry s' G' r)).
  { intros r Hr. split; auto. intros Hno q Hq Hlq e c Hin ->. destruct Hq as (Q1 & Q2). cbn in Q1.
    destruct (Nat.eq_dec q a) as [->|Qa]; [|destruct (Nat.eq_dec q (cfr s)) as [->|Qf]].
    - rewrite (g_lv _ _ _ _ F1 a Ha) in Hlq. apply S3 in Hin; auto.
      apply (Hno a Hl Hlq e r); auto.
    - rewrite F3 in Hlq. apply S4 in Hin; auto. apply (Hno a Hl Hlq e r); auto.
    - assert (Hq : q < cfr s) by lia. rewrite (g_lv _ _ _ _ F1 q Hq) in Hlq.
      rewrite F2 in Q2 by auto.
      rewrite (entries_ext G G' q) in Hin; auto; [|apply (g_lo _ _ _ _ F1); auto].
      apply (Hno q (conj Hq Q2) Hlq e r); auto. }
  assert (Hown : forall b, six s' b = if b =? cfr s then Some t else six s b) by reflexivity.
  assert (Hoa : owns s' t a).
  { unfold owns. rewrite Hown. destruct (Nat.eqb_spec a (cfr s)); [lia|auto]. }
  assert (Hor : owns s' t (cfr s)) by (unfold owns; rewrite Hown; now rewrite Nat.eqb_refl).
  assert (OX : oext t s s' G G').
  { constructor.
    - intros b u Hu Hb. rewrite Hown. destruct (Nat.eqb_spec b (cfr s)); auto. subst b.
      rewrite (i_fresh _ _ _ I) in Hb by auto. discriminate.
    - intros b u Hu Hb Hlt. assert (b <> a) by (intros ->; unfold owns in Ho; congruence).
      rewrite Hcho by (auto; lia). rewrite F9 by (auto; lia). auto.
    - intros u r Hu Hr Hlt. auto.
    - intros u Hu. cbn [tr emit goto own setp newp s']. now rewrite tstat_snoc.
    - intros u Hu. cbn. now rewrite supd_diff. }
  assert (Hla : lives s' G' a) by (split; [cbn; lia|rewrite F2; auto; apply Hl]).
  assert (Hlr : lives s' G' (cfr s)) by (split; [cbn; lia|auto]).
  assert (Hpend : pending s' G' (cfr s) sep).
  { split; [auto|]. split; [auto|]. intros q Hq Hlq e c Hin ->. destruct Hq as (Q1 & Q2). cbn in Q1.
    destruct (Nat.eq_dec q a) as [->|Qa]; [|destruct (Nat.eq_dec q (cfr s)) as [->|Qf]].
    - rewrite (g_lv _ _ _ _ F1 a Ha) in Hlq. apply S3 in Hin; auto.
      apply kid_lt in Hin; auto. lia.
    - rewrite F3 in Hlq. apply S4 in Hin; auto. apply kid_lt in Hin; auto. lia.
    - assert (Hq : q < cfr s) by lia. rewrite (g_lv _ _ _ _ F1 q Hq) in Hlq.
      rewrite F2 in Q2 by auto.
      rewrite (entries_ext G G' q) in Hin; auto; [|apply (g_lo _ _ _ _ F1); auto].
      apply kid_lt in Hin; auto; [lia|]. split; auto. }
  split; [exact HH|]. split; [exact X|]. split.
  { split; [auto|]. split; [auto|]. split; [auto|]. split; [auto|]. now rewrite F7. }
  split; [exact Hpend|]. split; [now rewrite F7|]. split; [unfold hi; now rewrite F8|].
  split; [auto|]. split; [auto|]. split; [auto|]. split; [auto|]. split.
  { intros k Hk Hf. unfold key_free. rewrite F7, F8. cbn [a_slots].
    split; intros Hin; apply Hf; apply S5; auto; rewrite keys_of_app; apply in_or_app; auto. }
  intros q Hq Hpc Hst Hcl Hnq.
  assert (Hth : th s' t = q) by (cbn; now rewrite supd_same).
  eapply (inv_step _ t s G s' G' LTau); eauto.
  - now rewrite Hth.
  - rewrite Hth. cbn [tr emit goto own setp newp s']. now rewrite tstat_snoc.
  - rewrite Hth. intros r Hr. destruct (Hcl r Hr) as [Q| ->]; auto. right.
    intros u Hu Hc. apply others_claim_lt in Hc. lia.
  - destruct (i_root _ _ _ I) as (R0 & HR). exists R0.
    eapply root_same; eauto.
    + rewrite F2; apply (r_live _ _ _ HR).
    + intros y (Y1 & Y2). cbn in Y1. destruct (Nat.eq_dec y (cfr s)) as [->|Hy].
      * rewrite F3. apply (r_top _ _ _ HR). auto.
      * assert (Hy' : y < cfr s) by lia. rewrite (g_lv _ _ _ _ F1 y Hy').
        apply (r_top _ _ _ HR). split; auto. rewrite <- F2; auto.
    + intros u Hu. apply OX. auto.
    + now rewrite Hth.
  - eapply stale_same; eauto; [apply (i_stale _ _ _ I)|].
    intros x dx T D1 D2 D3.
    assert (Hx : x < S (cfr s)) by (apply (h_none _ _ _ _ _ HH _ _ D1)).
    assert (x <> a) by (intros ->; destruct Hla; congruence).
    assert (x <> cfr s) by (intros ->; congruence).
    rewrite Hcho in D1 by auto. rewrite F2 in D3 by lia. auto.
  - cbn. exact Logic.I.
  - intros b Hb. cbn in Hb. rewrite Hown. destruct (Nat.eqb_spec b (cfr s)); [lia|].
    apply (i_fresh _ _ _ I). lia.
Qed.

Lemma step_split c a stk : th s t = PSplit c a stk -> good s G step.
Proof.
  intros E. unfold cstep. rewrite E.
  pose proof (i_stat _ _ _ I t) as St. rewrite E in St. cbn [pc_stat] in St.
  pose proof (i_pc _ _ _ I t) as Hp. rewrite E in Hp. cbn [pc_ok] in Hp.
  destruct Hp as (Hk & Hput & Ho & Hl & Hlv & Hrng & Hfree & (d & Ed & Hspl) & Hstk).
  rewrite Ed. cbn [sbind].
  destruct (split_step a d (fun sep => PValid c a (cfr s) sep stk) Ho Hl Ed Hspl) as
    (l' & r' & sep & E1 & E2 & Rm1 & Rm2 & G' & HH & X & Hpair & Hpend & Hh & Hhi & Hlr & C1 & C2 & _ & Hkf & Hinv).
  { rewrite E. noshr. }
  { nomrg. }
  rewrite E1. cbn [sbind]. rewrite E2. cbn [sbind]. exists G'.
  pose proof (proj1 Hl) as Ha. pose proof (x_gle _ _ _ _ X) as Hg.
  destruct (Hkf _ Hrng Hfree) as (K1 & K2).
  assert (Hlv' : lv G' a = 0) by (rewrite (g_lv _ _ _ _ Hg a Ha); auto).
  eapply Hinv; [reflexivity| |auto| |].
  - cbn [pc_ok]. destruct Hpair as (P1 & P2 & P3 & P4 & P5).
    destruct (live_node _ _ _ _ _ _ HH (proj1 P3) (proj2 P3)) as (da & _ & _ & Hna).
    assert (Hra : stk_ok (emit (goto (own (setp (newp s r') a l') (cfr s) (Some t)) t
      (PValid c a (cfr s) sep stk)) LTau) G' (cfr s) stk).
    { eapply (right_stk m0 _ G' HH a); [apply P3| |exact (ext_stk m0 s _ G _ H X stk a Ha Hstk)].
      exact (proj1 (right_next m0 _ G' HH a (cfr s) da (proj1 P3) Hna P5)). }
    split; [auto|]. split; [auto|]. split; [repeat (split; auto)|]. split; [auto|].
    split; [congruence|]. split; [auto|].
    rewrite (g_lo _ _ _ _ Hg a Ha), Hhi. split; [apply Hrng|]. split; [apply Hrng|].
    split; [auto|]. split; [auto|]. split; [eexists; eauto|]. split; [eexists; eauto|].
    split; auto.
  - cbn [claims]. intros r [<-|[]]. auto.
  - noshr.
Qed.

Lemma comphigh_val d A k : rep d A ->
  exists b, nd_comphigh d k = Some b /\ (if b : bool then elt (Key k) (hia A) else
    exists h, a_high A = Some h /\ ele (Key h) (Key k)).
Proof.
  intros Hr. rewrite (L_comphigh _ _ k Hr). eexists. split; [reflexivity|]. unfold hia.
  destruct (a_high A) as [h|]; [|exact Logic.I]. destruct (ltb k h) eqn:El; auto.
  exists h. split; auto. unfold ele. cbn. unfold klt. rewrite El. discriminate.
Qed.

Lemma step_valid c a r sep stk : th s t = PValid c a r sep stk -> good s G step.
Proof.
  intros E. unfold cstep. rewrite E.
  pose proof (i_stat _ _ _ I t) as St. rewrite E in St. cbn [pc_stat] in St.
  pose proof (i_pc _ _ _ I t) as Hp. rewrite E in Hp. cbn [pc_ok] in Hp.
  destruct Hp as (Hk & Hput & Hpair & Hla & Hlr & Hh & Hlo & Hhi & Hf1 & Hf2 & Hr1 & Hr2 & Hpend & Hstk).
  pose proof Hpair as (P1 & P2 & P3 & P4 & P5).
  destruct (live_node _ _ _ _ _ _ H (proj1 P3) (proj2 P3)) as (d & Ed & R & Hn).
  rewrite Ed. cbn [sbind].
  assert (Hne : a <> r).
  { intros ->. pose proof (n_rng _ _ _ _ Hn) as Q. unfold hi, hia in Q. rewrite Hh in Q.
    rewrite (proj1 (proj2 Hpend)) in Q. now apply elt_irrefl in Q. }
  destruct (comphigh_val d (av G a) (call_key c) (n_rep _ _ _ _ Hn)) as (b & Eb & Hb).
  rewrite Eb. cbn [sbind]. destruct b.
  - apply e0_own; fin0 E; [apply P4| |].
    + intros X. cbn [pc_ok]. split; [auto|]. split; [auto|].
      split; [unfold owns; cbn; rewrite supd_diff; auto|]. split; [auto|]. split; [auto|].
      split; [split; auto|]. split; [auto|]. split; [auto|]. split; [apply P3|].
      split; [auto|]. split; [auto|]. split; [auto|]. xstk X; apply P4.
    + intros z [<-|[]]. left. rewrite E. now left.
  - apply e0_own; fin0 E; [apply P3| |].
    + intros X. cbn [pc_ok]. split; [auto|]. split; [auto|].
      split; [unfold owns; cbn; rewrite supd_diff; auto|]. split; [auto|]. split; [auto|].
      split.
      { destruct Hb as (h & Hb1 & Hb2). split; auto. rewrite (proj1 (proj2 Hpend)). congruence. }
      split; [auto|]. split; [auto|]. split; [apply P3|].
      split; [auto|]. split; [auto|]. split; [auto|]. xstk X; apply P4.
    + intros z [<-|[]]. left. rewrite E. now left.
Qed.

Lemma step_retry c a r x sep stk : th s t = PRetry c a r x sep stk -> good s G step.
Proof.
  intros E. unfold cstep. rewrite E.
  pose proof (i_stat _ _ _ I t) as St. rewrite E in St. cbn [pc_stat] in St.
  pose proof (i_pc _ _ _ I t) as Hp. rewrite E in Hp. cbn [pc_ok] in Hp.
  destruct Hp as (Hk & Hput & Ho & Hl & Hlv & Hrng & Hfree & (d & Ed & Hroom) & Ha & Hla & Hlr & Hpend & Hstk).
  destruct (leaf_live x d Hl Ed Hlv) as (Hn & Hi & Hok).
  rewrite Ed. cbn [sbind].
  assert (HE : exists n' A', leaf_op2 d c = Some (kCompleted, n') /\ rep n' A' /\
    eff_of (av G x) A' c).
  { destruct c as [k|k v|k v|k v|k]; cbn in Hput; try tauto; cbn [leaf_op2 call_key] in *.
    - destruct (L_write2 d (av G x) k v (n_rep _ _ _ _ Hn) Hi Hok Hk Hroom Hfree) as
        (n' & A' & Q1 & Q2 & Q3). exists n', A'. split; [auto|]. split; [auto|].
      eapply (eff_upsert (av G x) A' (CWrite k v) k v); eauto. intros y [<-|[]]. now left.
    - destruct (L_insert2 d (av G x) k v (n_rep _ _ _ _ Hn) Hi Hok Hk Hroom Hfree) as
        (n' & A' & Q1 & Q2 & Q3). exists n', A'. split; [auto|]. split; [auto|].
      eapply (eff_upsert (av G x) A' (CInsert k v) k v); eauto; [intros y [<-|[]]; now left|].
      intros m Hm. cbn. rewrite Hm. rewrite (assoc_live_notin _ _ Hfree). reflexivity. }
  destruct HE as (n' & A' & E2 & HA & He). rewrite E2. cbn [sbind].
  destruct (leaf_eff x d c n' A' Hl Ed Hlv Hrng HA He) as (HH & Hj).
  exists (seta G x A').
  apply (e1 t s G (seta G x A') (LEff t c RSuccess) (supd (six s) x None)
           (PSep RSuccess a r x sep stk) x n');
    try (rewrite E; noshr); try noshr; try nomrg; auto.
  - intros y Hy. now apply av_seta_diff.
  - apply Hl.
  - apply six_own. now right.
  - eapply six_new; eauto. apply Hl.
  - intros X. cbn [pc_ok]. split; [auto|]. split; [cbn; congruence|].
    split; [|xstk X; apply Hpend].
    destruct Hpend as (Q1 & Q2 & Q3). split; [exact Q1|]. split; [exact Q2|].
    intros p Hp0 Hlp e z Hin. cbn in Hlp. destruct (Nat.eq_dec p x) as [->|Hpx]; [congruence|].
    rewrite (entries_ext G (seta G x A') p) in Hin; auto; [|now apply av_seta_diff].
    apply (Q3 p Hp0 Hlp e z Hin).
  - cbn. now rewrite supd_same.
  - intros z [<-|[]]. left. rewrite E. now left.
  - cbn [justified]. eauto.
  - intros k _. rewrite av_seta_same. intros Hw. apply (proj1 (proj2 (proj2 He))) in Hw as [<-|Hw]; eauto 7.
Qed.

(** ** Completing a split *)

Lemma e0_same p' : pc_ok s G t p' -> pc_stat p' (tstat (tr s) t) ->
  (forall r, In r (claims p') -> In r (claims (th s t)) \/
     forall u, u <> t -> ~ In r (claims (th s u))) ->
  (forall p, ~ shrinking (th s t) p) -> (forall p, ~ shrinking p' p) ->
  (forall r a m up, th s t <> PMrg2 r a m up) ->
  good s G (SOk LTau (goto s t p')).
Proof.
  intros Hp Hs Hc N1 N2 N3. apply e0_stay; auto.
  intros X. refine (pc_ok_same m0 t s _ G p' H X _ _ _ _ Hp); auto. now apply stat_tau.
Qed.

Lemma comp_ok rt0 stk l r sep : pending s G r sep -> l < cfr s -> lv G l = lv G r ->
  stk_ok s G r stk -> pc_ok s G t (comp rt0 stk l r sep).
Proof.
  intros Hp Hl Hlv Hs. destruct stk as [|top rest]; cbn [comp pc_ok].
  - split; [auto|]. split; [auto|]. split; [auto|]. intros z [].
  - assert (Htop : top < cfr s) by (eapply stk_in; eauto; now left).
    split; [auto|]. split; [auto|]. split; [auto|]. split; [auto|].
    exists top, rest. split; [auto|]. split; [auto|]. split; [auto|].
    split; [right; apply (bt_dd m0 s G H top Htop)|auto].
Qed.
Lemma comp_stat rt0 stk l r sep x : x = TDone rt0 -> pc_stat (comp rt0 stk l r sep) x.
Proof. destruct stk; auto. Qed.
Lemma comp_claims rt0 stk l r sep : claims (comp rt0 stk l r sep) = [r].
Proof. destruct stk; auto. Qed.
Lemma comp_noshr rt0 stk l r sep p : ~ shrinking (comp rt0 stk l r sep) p.
Proof. destruct stk; noshr. Qed.

Lemma step_sep rt0 a r x sep stk : th s t = PSep rt0 a r x sep stk -> good s G step.
Proof.
  intros E. unfold cstep. rewrite E. cbn [fx_sep repaired].
  pose proof (i_stat _ _ _ I t) as St. rewrite E in St. cbn [pc_stat] in St.
  pose proof (i_pc _ _ _ I t) as Hp. rewrite E in Hp. cbn [pc_ok] in Hp.
  destruct Hp as (Ha & Hlv & Hpend & Hstk).
  apply e0_same; [now apply comp_ok|now apply comp_stat| |rewrite E; noshr|apply comp_noshr|nomrg].
  rewrite comp_claims, E. auto.
Qed.

(** [r] gets its entry in the node [x]. *)
Lemma insert_step x d r sep rc n' A l1 sl l2 sx p' :
  lives s G x -> ch s x = Some d -> (six s x = None \/ six s x = Some t) ->
  lv G x = S (lv G r) -> pending s G r sep -> In r (claims (th s t)) ->
  elt (lo G x) (Key sep) -> elt (Key sep) (hi G x) ->
  nd_insert_child d r sep = Some (rc, n') -> rep n' A -> same_frame (av G x) A ->
  a_slots (av G x) = l1 ++ sl :: l2 ->
  (l1 <> [] -> exists k, s_key sl = Some k /\ klt k sep) ->
  (forall k, In k (keys_of l2) -> klt sep k) ->
  a_slots A = l1 ++ sl :: Slot (Some sep) (PP r) false :: l2 ->
  (forall b u, u <> t -> six s b = Some u -> sx b = Some u) ->
  (forall b, cfr s <= b -> sx b = None) ->
  (forall p, ~ shrinking (th s t) p) -> (forall r a m up, th s t <> PMrg2 r a m up) ->
  (forall p, ~ shrinking p' p) -> pc_stat p' (tstat (tr s) t) ->
  (forall z, In z (claims p') -> In z (claims (th s t))) ->
  let s' := Cfg (upd (ch s) x (Some n')) (croot s) (cfr s) sx (supd (th s) t p') (pg s)
              (tr s ++ [LTau]) in
  let G' := seta G x A in
  (gext s s' G G' ->
   (forall z, lives s G z -> z <> r -> noentry s G z -> noentry s' G' z) ->
   pc_ok s' G' t p') ->
  inv s' G' /\ gext s s' G G'.
Proof.
  intros Hx Ed Hsix Hlv Hpend Hcr Hlo Hhi E1 HA HF Hsl K1 K2 HS Hsx1 Hsx2 N1 N2 N3 Hst Hcl s' G' Hpc.
  destruct (heap_ins m0 (ch s) (cfr s) G (tr s) x d n' A r sep l1 sl l2 H Ed (proj2 Hx) Hlv
    (proj1 (proj1 Hpend)) (proj2 (proj1 Hpend)) (proj1 (proj2 Hpend)) Hlo Hhi HA HF Hsl K1 K2 HS)
    as (HH & Hent).
  assert (Hkeep : forall z, lives s G z -> z <> r -> noentry s G z -> noentry s' G' z).
  { intros z Hz Hzr Hno p Hp Hlp e c Hin ->. cbn in Hlp.
    destruct (Nat.eq_dec p x) as [->|Hpx].
    - apply Hent in Hin as [Hin|Hin]; [|congruence].
      apply (Hno x Hx Hlp e z); auto.
    - unfold G' in Hin. rewrite (entries_ext G (seta G x A) p) in Hin; auto;
        [|now apply av_seta_diff].
      apply (Hno p Hp Hlp e z); auto. }
  apply (e1 t s G G' LTau sx p' x n'); auto.
  - intros y Hy. now apply av_seta_diff.
  - apply Hx.
  - intros u z Hu Hz _ e Hin. apply Hent in Hin as [Hin|Hin]; auto. exfalso.
    injection Hin as -> ->. apply (i_claims _ _ _ I t u) in Hz; auto.
  - exact Logic.I.
  - intros k Q. lia.
Qed.

Lemma step_comp rt0 stk x l r sep : th s t = PComp rt0 stk x l r sep -> good s G step.
Proof.
  intros E. unfold cstep. rewrite E.
  pose proof (i_stat _ _ _ I t) as St. rewrite E in St. cbn [pc_stat] in St.
  pose proof (i_pc _ _ _ I t) as Hp. rewrite E in Hp. cbn [pc_ok] in Hp.
  destruct Hp as (Hpend & Hl & Hlv & Hx & top & rest & -> & Htop & Hlt & Hgt & Hstk).
  destruct (h_some _ _ _ _ _ H x Hx) as (d & Ed). rewrite Ed. cbn [sbind].
  pose proof Hpend as (Pr & Plo & Pne).
  assert (Hmove : forall b, covers d sep = Some false -> nd_next d = Some b ->
    good s G (SOk LTau (goto s t (PComp rt0 (top :: rest) b l r sep)))).
  { intros b Hc Hb. destruct (walk_next _ _ _ H x d sep b Ed Hx Hc Hb) as (R1 & R2).
    apply e0_same; fin0 E; [|rewrite E; auto].
    cbn [pc_ok]. split; [auto|]. split; [auto|]. split; [auto|]. split; [apply R1|].
    exists top, rest. split; [auto|]. split; [auto|].
    pose proof R1 as (B1 & B2 & B3 & B4 & B5).
    split; [congruence|]. split.
    { destruct Hgt as [Q|Q]; auto. }
    destruct (cov_cases _ _ _ H x d sep Ed) as
      [(R & _ & Hnx & Hti & T & Hd)|(R & Hn & _ & Hnx & [[Hc' _]|(_ & b' & h & Q1 & Q2 & Q3 & Q4)])].
    - rewrite Hnx in Hb. destruct (right_tg _ _ _ H x b T Hx Hd Hb) as (_ & Q).
      pose proof Hstk as Hstk'. cbn [stk_ok] in Hstk'.
      destruct Hstk' as [Hs|(K1 & K2 & K3 & K4 & K5)].
      + cbn [stk_ok]. left. intros z [<-|Hz]; [split; auto; apply B5; apply Hs; now left|].
        apply Hs. now right.
      + cbn [stk_ok]. right. split; [auto|]. split; [congruence|].
        split; [eapply lowr_tg_l; eauto|].
        split; [intros z _; right; now rewrite (proj2 Pr)|].
        eapply (right_stk m0 s G H x); eauto.
    - congruence.
    - assert (b' = b) by congruence. subst b'.
      apply (right_top m0 s G H r x b rest Pr Hx R1); auto. now rewrite Q3, Plo. }
  destruct (cov_cases _ _ _ H x d sep Ed) as
    [(R & Hc & Hnx & Hti & T & Hd)|(R & Hn & Hin & Hnx & [[Hc Hhi]|(Hc & b & h & B1 & B2 & B3 & B4)])];
    rewrite Hc; cbn [sbind].
  - destruct (negb (free s x) && (negb osl || false)); [exact Logic.I|].
    destruct (nd_next d) as [b|] eqn:Eb; [now apply Hmove|].
    destruct (walk_end _ _ _ H x d sep Ed Hc Eb) as (_ & _ & _ & Hg).
    apply e0_same; fin0 E; [|rewrite E; auto].
    cbn [pc_ok]. split; [auto|]. split; [auto|]. split; [auto|].
    intros z [<-|Hz].
    + split; auto. destruct Hgt as [Q|Q]; auto.
      apply (gone_above m0 _ _ _ _ x top H Hx Hg Htop Q). lia.
    + pose proof Hstk as Hstk'. cbn [stk_ok] in Hstk'.
      destruct Hstk' as [Hs|(K1 & K2 & K3 & K4 & K5)]; [apply Hs; now right|].
      apply (gone_stk m0 s G H rest x Hx Hg K5 z Hz).
  - rewrite orb_true_r, andb_true_r. destruct (free s x) eqn:Ef; [|exact Logic.I]. cbn [negb].
    apply free_none in Ef. pose proof (free_live s G x d I Ed R Ef) as Hlx.
    destruct (above_live s G r x rest Pr Hlx Hstk) as (V1 & V2 & V3).
    rewrite Plo in V2.
    destruct (pend_range m0 s G H r sep x d Hpend Hlx Ed V1 V2 Hhi) as (V4 & V5).
    destruct (node_inner _ _ _ _ Hn ltac:(lia)) as (Hi & Hok).
    destruct (L_insert_child d (av G x) r sep (n_rep _ _ _ _ Hn) Hi Hok
      (h_key _ _ _ _ _ H r sep (proj1 Pr) Plo) V5) as
      (rc & n' & A' & E1 & HA & HF & [(-> & l1 & sl & l2 & S1 & S2 & S3 & S4)|(-> & -> & Hspl & _)]);
      rewrite E1; cbn [sbind].
    + exists (seta G x A').
      apply (insert_step x d r sep kCompleted n' A' l1 sl l2 (six s) (PRet rt0));
        try (rewrite E; noshr); try noshr; try nomrg; auto.
      * rewrite E. now left.
      * apply (i_fresh _ _ _ I).
      * intros z [].
      * intros _ _. exact Logic.I.
    + exists G. apply (e1 t s G G LTau (supd (six s) x (Some t)) (PCompSplit rt0 rest x r sep) x n');
        try (rewrite E; noshr); try noshr; try nomrg; auto.
      * apply Hlx.
      * now apply six_own; left.
      * eapply six_new; eauto.
      * apply heap_rep; auto; [apply Hlx|now apply effs_id].
      * intros X. cbn [pc_ok]. split; [exact Hpend|].
        split; [unfold owns; cbn; now rewrite supd_same|]. split; [exact Hlx|]. split; [auto|].
        split; [split; auto|]. split; [exists n'; cbn; rewrite upd_same; auto|].
        xstk X. apply Hlx.
      * rewrite E. auto.
      * exact Logic.I.
  - destruct (negb (free s x) && (negb osl || false)); [exact Logic.I|].
    rewrite Hnx, B1. apply Hmove; congruence.
Qed.

Lemma step_compsplit rt0 stk p r sep : th s t = PCompSplit rt0 stk p r sep -> good s G step.
Proof.
  intros E. unfold cstep. rewrite E.
  pose proof (i_stat _ _ _ I t) as St. rewrite E in St. cbn [pc_stat] in St.
  pose proof (i_pc _ _ _ I t) as Hp. rewrite E in Hp. cbn [pc_ok] in Hp.
  destruct Hp as (Hpend & Ho & Hl & Hlv & Hrng & (d & Ed & Hspl) & Hstk).
  rewrite Ed. cbn [sbind]. pose proof Hpend as (Pr & Plo & Pne).
  destruct (split_step p d (fun psep => PCompValid rt0 stk p (cfr s) r psep sep) Ho Hl Ed Hspl) as
    (l' & r' & psep & E1 & E2 & Rm1 & Rm2 & G' & HH & X & Hpair & Hpd & Hh & Hhi & Hlr & C1 & C2 & Hnoe & _ & Hinv).
  { rewrite E. noshr. }
  { nomrg. }
  rewrite E1. cbn [sbind]. rewrite E2. cbn [sbind]. exists G'.
  pose proof (proj1 Hl) as Ha. pose proof (x_gle _ _ _ _ X) as Hg.
  assert (Hlp : lv G' p = lv G p) by (apply (g_lv _ _ _ _ Hg p Ha)).
  assert (Hlr' : lv G' r = lv G r) by (apply (g_lv _ _ _ _ Hg r (proj1 Pr))).
  destruct (Hnoe r (proj1 Pr)) as (D1 & D2).
  eapply Hinv; [reflexivity| |auto| |].
  - cbn [pc_ok]. destruct Hpair as (P1 & P2 & P3 & P4 & P5).
    destruct (live_node _ _ _ _ _ _ HH (proj1 P3) (proj2 P3)) as (da & _ & _ & Hna).
    split.
    { split; [apply (ext_lives _ _ _ _ X); auto|]. split; auto.
      now rewrite (g_lo _ _ _ _ Hg r (proj1 Pr)). }
    split; [auto|]. split; [repeat (split; auto)|]. split; [congruence|]. split; [congruence|].
    split; [auto|]. rewrite (g_lo _ _ _ _ Hg p Ha), Hhi. split; [apply Hrng|].
    split; [apply Hrng|]. split; [eexists; eauto|]. split; [eexists; eauto|].
    eapply (right_stk m0 _ G' HH p); [apply P3| |exact (ext_stk m0 s _ G _ H X stk p Ha Hstk)].
    exact (proj1 (right_next m0 _ G' HH p (cfr s) da (proj1 P3) Hna P5)).
  - cbn [claims]. intros z [<-|[<-|[]]]; auto. left. rewrite E. now left.
  - noshr.
Qed.

Lemma step_compvalid rt0 stk p pr r psep sep :
  th s t = PCompValid rt0 stk p pr r psep sep -> good s G step.
Proof.
  intros E. unfold cstep. rewrite E.
  pose proof (i_stat _ _ _ I t) as St. rewrite E in St. cbn [pc_stat] in St.
  pose proof (i_pc _ _ _ I t) as Hp. rewrite E in Hp. cbn [pc_ok] in Hp.
  destruct Hp as (Hpend & Hpp & Hpair & Hlv & Hlv2 & Hh & Hlo & Hhi & Hr1 & Hr2 & Hstk).
  pose proof Hpair as (P1 & P2 & P3 & P4 & P5).
  destruct (live_node _ _ _ _ _ _ H (proj1 P3) (proj2 P3)) as (d & Ed & R & Hn).
  rewrite Ed. cbn [sbind].
  assert (Hne : p <> pr).
  { intros ->. pose proof (n_rng _ _ _ _ Hn) as Q. unfold hi, hia in Q. rewrite Hh in Q.
    rewrite (proj1 (proj2 Hpp)) in Q. now apply elt_irrefl in Q. }
  destruct (comphigh_val d (av G p) sep (n_rep _ _ _ _ Hn)) as (b & Eb & Hb).
  rewrite Eb. cbn [sbind]. destruct b.
  - apply e0_own; fin0 E; [apply P4| |].
    + intros X. cbn [pc_ok]. split; [auto|]. split; [auto|].
      split; [unfold owns; cbn; rewrite supd_diff; auto|]. split; [auto|]. split; [auto|].
      split; [split; auto|]. split; [auto|]. split; [apply P3|]. split; [auto|].
      split; [congruence|]. xstk X. apply P4.
    + rewrite E. auto.
  - apply e0_own; fin0 E; [apply P3| |].
    + intros X. cbn [pc_ok]. split; [auto|]. split; [auto|].
      split; [unfold owns; cbn; rewrite supd_diff; auto|]. split; [auto|]. split; [congruence|].
      split.
      { destruct Hb as (h & Hb1 & Hb2). split; auto. rewrite (proj1 (proj2 Hpp)). congruence. }
      split; [auto|]. split; [apply P3|]. split; [auto|]. split; [congruence|].
      xstk X. apply P4.
    + rewrite E. auto.
Qed.

Lemma step_compins rt0 stk p pr x r psep sep :
  th s t = PCompIns rt0 stk p pr x r psep sep -> good s G step.
Proof.
  intros E. unfold cstep. rewrite E.
  pose proof (i_stat _ _ _ I t) as St. rewrite E in St. cbn [pc_stat] in St.
  pose proof (i_pc _ _ _ I t) as Hp. rewrite E in Hp. cbn [pc_ok] in Hp.
  destruct Hp as (Hpend & Hpp & Ho & Hl & Hlv & Hrng & (d & Ed & Hroom) & Hpl & Hpv & Hprv & Hstk).
  rewrite Ed. cbn [sbind]. pose proof Hpend as (Pr & Plo & Pne).
  pose proof (h_node _ _ _ _ _ H x d Ed (live_not_removed _ _ _ _ _ _ _ H Ed (proj2 Hl))) as Hn.
  destruct (pend_range m0 s G H r sep x d Hpend Hl Ed Hlv (proj1 Hrng) (proj2 Hrng)) as (V4 & V5).
  destruct (node_inner _ _ _ _ Hn ltac:(lia)) as (Hi & Hok).
  destruct (L_insert_child d (av G x) r sep (n_rep _ _ _ _ Hn) Hi Hok
    (h_key _ _ _ _ _ H r sep (proj1 Pr) Plo) V5) as
    (rc & n' & A' & E1 & HA & HF & [(-> & l1 & sl & l2 & S1 & S2 & S3 & S4)|(-> & -> & Hspl & Hno)]);
    rewrite E1; cbn [sbind]; [|now elim Hno].
  exists (seta G x A').
  apply (insert_step x d r sep kCompleted n' A' l1 sl l2 (supd (six s) x None)
           (PSep rt0 p pr x psep stk));
    try (rewrite E; noshr); try noshr; try nomrg; auto.
  - rewrite E. right. now left.
  - apply Hrng.
  - apply six_own. now right.
  - eapply six_new; eauto. apply Hl.
  - rewrite E. intros z [<-|[]]. now left.
  - intros X Hkeep. cbn [pc_ok]. destruct Hpp as (Q1 & Q2 & Q3).
    split; [auto|]. split; [auto|]. split.
    + split; [exact Q1|]. split; [exact Q2|]. apply Hkeep; auto. intros ->. lia.
    + xstk X. apply Q1.
Qed.

(** ** A new root *)

Lemma step_try rt0 stk l r sep : th s t = PTry rt0 stk l r sep -> good s G step.
Proof.
  intros E. unfold cstep. rewrite E.
  pose proof (i_stat _ _ _ I t) as St. rewrite E in St. cbn [pc_stat] in St.
  pose proof (i_pc _ _ _ I t) as Hp. rewrite E in Hp. cbn [pc_ok] in Hp.
  destruct Hp as (Hpend & Hl & Hlv & Hg).
  destruct (croot s =? l); apply e0_same; fin0 E; try (rewrite E; auto); cbn [pc_ok kont_ok]; auto 10.
Qed.

Lemma root_live_l l r sep R : root_ok s G R -> pending s G r sep -> lv G l = lv G r ->
  croot s = l -> l = R.
Proof.
  intros HR ((Pr1 & Pr2) & _) Hlv Hc.
  destruct (r_cur _ _ _ HR) as [Q|(_ & Q & _)]; [congruence|].
  pose proof (r_top _ _ _ HR r (conj Pr1 Pr2)). rewrite Hc in Q. lia.
Qed.

(** A node without an upper bound and without a lower bound is alone at its height. *)
Lemma alone p y : lives s G p -> lives s G y -> lo G p = NegInf -> a_next (av G p) = None ->
  lv G y = lv G p -> y = p.
Proof.
  intros Hp Hy Hlo Hnx Hlv.
  destruct (live_node _ _ _ _ _ _ H (proj1 Hp) (proj2 Hp)) as (d & _ & _ & Hn).
  pose proof (n_next _ _ _ _ Hn) as Q. rewrite Hnx in Q.
  pose proof (elt_hi_lo _ _ _ _ _ _ H (proj1 Hy) (proj2 Hy)) as Hy'.
  eapply (same_point m0 _ _ G (tr s) y p (lo G y) H); try apply Hy; try apply Hp; auto.
  - apply ele_refl.
  - rewrite Hlo. apply ele_neg.
  - unfold hi, hia. rewrite Q. destruct (lo G y); cbn; auto.
Qed.

Lemma step_tryst rt0 stk l r sep : th s t = PTrySt rt0 stk l r sep -> good s G step.
Proof.
  intros E. unfold cstep. rewrite E. cbn [fx_root repaired negb orb].
  pose proof (i_stat _ _ _ I t) as St. rewrite E in St. cbn [pc_stat] in St.
  pose proof (i_pc _ _ _ I t) as Hp. rewrite E in Hp. cbn [pc_ok] in Hp.
  destruct Hp as (Hpend & Hl & Hlv & Hg).
  destruct (Nat.eqb_spec (croot s) l) as [Hc|Hc].
  2:{ apply e0_same; fin0 E; try (rewrite E; auto); cbn [pc_ok kont_ok]; auto 10. }
  destruct (i_root _ _ _ I) as (R & HR).
  assert (l = R) by (eapply root_live_l; eauto). subst R.
  pose proof (r_live _ _ _ HR) as Hll. pose proof Hpend as (Pr & Plo & Pne).
  destruct (L_root2 sep l r (h_key _ _ _ _ _ H r sep (proj1 Pr) Plo)) as (n & s0 & En & HA).
  rewrite En. cbn [sbind].
  destruct (heap_newroot m0 (ch s) (cfr s) G (tr s) l r sep n s0 H Hl (proj1 Pr) (proj2 Hll)
    (proj2 Pr) Hlv (r_lo _ _ _ HR) Plo) as (HH & Hent); [intros y Y1 Y2; apply (r_top _ _ _ HR); split; auto|auto|].
  match type of HH with ConcInv.heap_ok _ _ _ ?g _ => set (G' := g) in * end.
  destruct (rootg_facts m0 (ch s) (cfr s) G (tr s) l
    (ANode true false None None None [Slot s0 (PP l) false; Slot (Some sep) (PP r) false]) H)
    as (F1 & F2 & F3 & F4 & F5 & F6 & F7 & F8).
  fold G' in F1, F2, F3, F4, F5, F6, F7, F8. clearbody G'.
  set (s' := emit (goto (rootp (newp s n) (cfr s)) t (PRet rt0)) LTau).
  assert (Hcho : forall x, x <> cfr s -> ch s' x = ch s x) by (intros x Hx; cbn; now rewrite upd_diff).
  assert (X : gext s s' G G').
  { constructor; auto.
    - cbn. lia.
    - intros x (dx & D1 & D2 & D3). exists dx. split; auto.
      pose proof (h_none _ _ _ _ _ H _ _ D1). rewrite Hcho; auto. lia.
    - intros x Hx Hdx. left. cbn in Hx. destruct (Nat.eq_dec x (cfr s)) as [->|]; [congruence|].
      split; [lia|]. rewrite <- F2; auto; lia.
    - intros x k Hx Hdx Hlx Hk. left. cbn in Hx. destruct (Nat.eq_dec x (cfr s)) as [->|Xf]; [congruence|].
      assert (Hq : x < cfr s) by lia. exists x. rewrite (g_lv _ _ _ _ F1 x Hq) in Hlx.
      rewrite F2 in Hdx by auto. rewrite F8 in Hk by auto. auto. }
  assert (Hcl : forall u, u <> t -> ~ In r (claims (th s u))).
  { intros u Hu Hr. apply (i_claims _ _ _ I t u ltac:(auto) r); auto. rewrite E. now left. }
  assert (OX : oext t s s' G G').
  { constructor.
    - auto.
    - intros b u Hu Hb Hlt. rewrite Hcho by lia. rewrite F8 by lia. auto.
    - intros u z Hu Hz Hlt. split; auto. intros Hno q (Q1 & Q2) Hlq e c Hin ->. cbn in Q1.
      destruct (claims_ok m0 s G u z H (i_pc _ _ _ I u) Hz) as (_ & _ & k & Hk).
      destruct (Nat.eq_dec q (cfr s)) as [->|Qf].
      + apply Hent in Hin as [->| ->]; [|eapply Hcl; eauto].
        rewrite (r_lo _ _ _ HR) in Hk. discriminate.
      + assert (Hq : q < cfr s) by lia. rewrite (g_lv _ _ _ _ F1 q Hq) in Hlq.
        rewrite F2 in Q2 by auto.
        rewrite (entries_ext G G' q) in Hin; auto; [|apply (g_lo _ _ _ _ F1); auto].
        apply (Hno q (conj Hq Q2) Hlq e z); auto.
    - intros u Hu. cbn [tr emit goto rootp newp s']. now rewrite tstat_snoc.
    - intros u Hu. cbn. now rewrite supd_diff. }
  assert (Hnoshr : forall u p, ~ shrinking (th s u) p).
  { intros u p Hs. assert (p = l) by (eapply (r_shr _ _ _ HR); eauto). subst p.
    pose proof (i_pc _ _ _ I u) as Hpu. destruct Hs as [(z & Hz)|(z & Hz)]; rewrite Hz in Hpu.
    - cbn [pc_ok] in Hpu. destruct Hpu as (_ & _ & _ & Q & _).
      assert (r = l) by (eapply alone; eauto; apply HR). subst r.
      rewrite (r_lo _ _ _ HR) in Plo. discriminate.
    - apply (r_st _ _ _ HR u z l Hz). auto. }
  exists G'. eapply (inv_step _ t s G s' G' LTau); eauto.
  - cbn. rewrite supd_same. exact Logic.I.
  - cbn [th tr emit goto rootp newp s']. rewrite supd_same, tstat_snoc. exact St.
  - cbn. rewrite supd_same. intros z [].
  - exists (cfr s). constructor.
    + split; auto.
    + auto.
    + intros y (Y1 & Y2). cbn in Y1. rewrite F3. destruct (Nat.eq_dec y (cfr s)) as [->|Hy]; [lia|].
      assert (Hy' : y < cfr s) by lia. rewrite (g_lv _ _ _ _ F1 y Hy').
      pose proof (r_top _ _ _ HR y ltac:(split; auto; rewrite <- F2; auto)). lia.
    + left. reflexivity.
    + intros u p Hs. exfalso. destruct (Nat.eq_dec u t) as [->|Hu].
      * cbn in Hs. rewrite supd_same in Hs. destruct Hs as [[? Q]|[? Q]]; discriminate.
      * cbn in Hs. rewrite supd_diff in Hs by auto. eapply Hnoshr; eauto.
    + intros u z p Hs. exfalso. destruct (Nat.eq_dec u t) as [->|Hu].
      * cbn in Hs. rewrite supd_same in Hs. discriminate.
      * cbn in Hs. rewrite supd_diff in Hs by auto. eapply Hnoshr; right; eauto.
    + cbn. lia.
  - eapply stale_same; eauto; [apply (i_stale _ _ _ I)|nomrg|].
    intros x dx T D1 D2 D3.
    assert (Hx : x < S (cfr s)) by (apply (h_none _ _ _ _ _ HH _ _ D1)).
    assert (x <> cfr s) by (intros ->; congruence).
    rewrite Hcho in D1 by auto. rewrite F2 in D3 by lia. auto.
  - cbn. exact Logic.I.
  - intros b Hb. cbn in *. apply (i_fresh _ _ _ I). lia.
Qed.

(** ** Looking for a parent *)

Lemma kont_target k key target : kont_ok s G t k key target ->
  lives s G target /\ lo G target = Key key.
Proof.
  destruct k as [l r sep|node l]; cbn.
  - intros (-> & -> & (Q1 & Q2 & _) & _). auto.
  - intros ((_ & _ & _ & Q & _) & Q2). auto.
Qed.

Lemma kont_claims rt0 k stk key target z : th s t = PFindRoot rt0 k stk key target \/
  (exists a, th s t = PFind rt0 k a stk key target) -> In z (kclaims k) -> In z (claims (th s t)).
Proof. intros [->|(a & ->)]; auto. Qed.

Lemma step_findroot rt0 k stk key target : th s t = PFindRoot rt0 k stk key target -> good s G step.
Proof.
  intros E. unfold cstep. rewrite E.
  pose proof (i_stat _ _ _ I t) as St. rewrite E in St. cbn [pc_stat] in St.
  pose proof (i_pc _ _ _ I t) as Hp. rewrite E in Hp. cbn [pc_ok] in Hp.
  destruct Hp as (Hk & Hg). destruct (kont_target _ _ _ Hk) as (Ht & Hlo).
  destruct (i_root _ _ _ I) as (R & HR).
  apply e0_same; fin0 E; [|rewrite E; auto].
  cbn [pc_ok]. split; [auto|]. split; [apply (r_alloc _ _ _ HR)|].
  destruct (r_cur _ _ _ HR) as [Q|(Q & _)]; [right|left; exact Q].
  rewrite Q, (r_lo _ _ _ HR), (proj2 (r_live _ _ _ HR)).
  split; [apply (r_top _ _ _ HR); auto|]. split; [apply ele_neg|]. split; [exact Logic.I|].
  destruct stk; left; auto.
Qed.

Lemma step_find rt0 k a stk key target : th s t = PFind rt0 k a stk key target -> good s G step.
Proof.
  intros E. unfold cstep. rewrite E.
  pose proof (i_stat _ _ _ I t) as St. rewrite E in St. cbn [pc_stat] in St.
  pose proof (i_pc _ _ _ I t) as Hp. rewrite E in Hp. cbn [pc_ok] in Hp.
  destruct Hp as (Hk & Ha & Hp). destruct (kont_target _ _ _ Hk) as (Ht & Hlo).
  destruct (h_some _ _ _ _ _ H a Ha) as (d & Ed). rewrite Ed. cbn [sbind].
  assert (Hback : good s G (SOk LTau (goto s t (PFindRoot rt0 k [] key target)))).
  { apply e0_same; fin0 E; [|rewrite E; auto]. cbn [pc_ok]. split; auto. intros z []. }
  assert (Hmove : forall b, covers d key = Some false -> nd_next d = Some b ->
    good s G (SOk LTau (goto s t (PFind rt0 k b stk key target)))).
  { intros b Hc Hb. destruct (walk_next _ _ _ H a d key b Ed Ha Hc Hb) as (R1 & R2).
    destruct Hp as [Hp|(P1 & P2 & P3 & P4)]; [destruct (deadroot_removed a d Ed Hp); congruence|].
    apply e0_same; fin0 E; [|rewrite E; auto].
    pose proof R1 as (B1 & B2 & B3 & B4 & B5).
    cbn [pc_ok]. split; [auto|]. split; [auto|]. right. split; [lia|]. split; [auto|].
    split; [auto|]. exact (right_stk m0 s G H a b stk Ha R1 P4). }
  destruct (cov_cases _ _ _ H a d key Ed) as
    [(R & Hc & Hnx & Hti & T & Hd)|(R & Hn & Hin & Hnx & [[Hc Hhi]|(Hc & b & h & B1 & B2 & B3 & B4)])];
    rewrite Hc; cbn [sbind].
  - destruct (nd_next d) as [b|] eqn:Eb; [now apply Hmove|auto].
  - destruct Hp as [Hp|(P1 & P2 & P3 & P4)]; [destruct (deadroot_removed a d Ed Hp); congruence|].
    destruct (Nat.eqb_spec a target) as [->|Hne].
    + destruct k as [l r sep|node l]; cbn [kont_ok] in Hk.
      * destruct Hk as (-> & -> & Q1 & Q2 & Q3).
        apply e0_same; [now apply comp_ok|now apply comp_stat| |rewrite E; noshr|apply comp_noshr|nomrg].
        rewrite comp_claims, E. auto.
      * destruct Hk as ((Q1 & Q2 & Q3 & Q4 & Q5) & _). apply e0_same; fin0 E.
        cbn [pc_ok]. split; [auto|]. split; [auto|]. left. eauto.
    + assert (Hlv : lv G a <> lv G target).
      { intros Q. destruct (dd G a) as [T|] eqn:Hd.
        - apply (h_sdisj _ _ _ _ _ H a d T target Ed R Hd (proj1 Ht) (proj2 Ht)); auto.
          rewrite Hlo. auto.
        - apply Hne. eapply (same_point m0 _ _ G (tr s) a target (Key key) H); auto; try apply Ht.
          + rewrite Hlo. apply ele_refl.
          + rewrite <- Hlo. apply (elt_hi_lo _ _ _ _ _ _ H (proj1 Ht) (proj2 Ht)). }
      destruct (walk_down _ _ _ H a d key stk Ed Ha Hc ltac:(lia)
        (h_key _ _ _ _ _ H target key (proj1 Ht) Hlo) P2) as (b & W1 & W2 & W3 & W4 & W5 & W6).
      rewrite W1. cbn [sbind].
      apply e0_same; fin0 E; [|rewrite E; auto].
      cbn [pc_ok]. split; [auto|]. split; [auto|]. right. split; [lia|]. auto.
  - rewrite Hnx, B1. apply Hmove; congruence.
Qed.

(** ** Merging *)

Lemma live_next l b : lives s G l -> a_next (av G l) = Some b ->
  exists k, a_high (av G l) = Some k /\ lo G b = Key k /\ lives s G b /\ lv G b = lv G l /\
    right_of s G l b.
Proof.
  intros Hl E. destruct (live_node _ _ _ _ _ _ H (proj1 Hl) (proj2 Hl)) as (d & _ & _ & Hn).
  destruct (right_next m0 s G H l b d (proj1 Hl) Hn E) as (R1 & _).
  pose proof (n_next _ _ _ _ Hn) as Q. rewrite E in Q.
  destruct Q as (k & Q1 & Q2 & Q3 & Q4 & Q5 & Q6 & Q7). exists k.
  split; [auto|]. split; [auto|]. split; [|auto]. split; auto. rewrite (proj2 Hl) in Q5.
  destruct (dd G b); [destruct Q5|auto].
Qed.

Lemma step_merge rt0 stk node l : th s t = PMerge rt0 stk node l -> good s G step.
Proof.
  intros E. unfold cstep. rewrite E.
  pose proof (i_stat _ _ _ I t) as St. rewrite E in St. cbn [pc_stat] in St.
  pose proof (i_pc _ _ _ I t) as Hp. rewrite E in Hp. cbn [pc_ok] in Hp.
  destruct Hp as (Ho & Hl & Hp).
  destruct (live_node _ _ _ _ _ _ H (proj1 Hl) (proj2 Hl)) as (d & Ed & R & Hn).
  rewrite Ed. cbn [sbind].
  destruct (L_hdr _ _ (n_rep _ _ _ _ Hn)) as (_ & _ & I3 & _).
  assert (Hquit : good s G (SOk LTau (goto (own s l None) t (PRet rt0)))).
  { apply e0_own; fin0 E; [apply Hl|intros _; exact Logic.I]. }
  rewrite I3. destruct (a_next (av G l)) as [b|] eqn:Eb; [|auto].
  destruct (free s b) eqn:Ef; [|exact Logic.I]. cbn [negb]. apply free_none in Ef.
  destruct Hp as [(b' & Q1 & Q2)|(-> & Hstk)].
  { exfalso. injection Q1 as <-. unfold owns in Q2. congruence. }
  destruct (live_next l b Hl Eb) as (k & K1 & K2 & K3 & K4 & K5).
  destruct (live_node _ _ _ _ _ _ H (proj1 K3) (proj2 K3)) as (m & Em & Rm & Hm).
  rewrite Em. cbn [sbind]. destruct (nd_can_merge d m) eqn:Ec; [|auto].
  rewrite (L_highkey _ _ k (n_rep _ _ _ _ Hn) K1). cbn [sbind].
  assert (Hol : forall p', owns (emit (goto (own s b (Some t)) t p') LTau) t l).
  { intros p'. unfold owns. cbn. unfold supd. destruct (l =? b); auto. }
  assert (Hob : forall p', owns (emit (goto (own s b (Some t)) t p') LTau) t b).
  { intros p'. unfold owns. cbn. now rewrite supd_same. }
  assert (Hpair : forall p', pair_ok (emit (goto (own s b (Some t)) t p') LTau) G t l b).
  { intros p'. split; [auto|]. split; [auto|]. split; [exact Hl|]. split; [exact K3|auto]. }
  destruct stk as [|top rest].
  - apply e0_own; fin0 E; [apply K3|].
    intros X. cbn [pc_ok kont_ok]. split; [split; auto|]. intros z [].
  - apply e0_own; fin0 E; [apply K3|].
    intros X. cbn [pc_ok]. split; [auto|].
    split; [exists d, m; auto|]. split; [auto|].
    split; [exact (stk_in s G _ l top Hstk (or_introl eq_refl))|].
    refine (ext_stk m0 s _ G _ H X _ _ (proj1 K3) _).
    exact (right_stk m0 s G H l b _ (proj1 Hl) K5 Hstk).
Qed.

Lemma pair_lv l r : pair_ok s G t l r -> lv G l = lv G r.
Proof.
  intros (_ & _ & Q1 & _ & Q2). destruct (live_next l r Q1 Q2) as (k & _ & _ & _ & Q & _). auto.
Qed.

Lemma step_mergeat rt0 stk x l r del : th s t = PMergeAt rt0 stk x l r del -> good s G step.
Proof.
  intros E. unfold cstep. rewrite E.
  pose proof (i_stat _ _ _ I t) as St. rewrite E in St. cbn [pc_stat] in St.
  pose proof (i_pc _ _ _ I t) as Hp. rewrite E in Hp. cbn [pc_ok] in Hp.
  destruct Hp as (Hpair & Hmrg & Hlo & Hx & Hstk).
  pose proof Hpair as (P1 & P2 & P3 & P4 & P5). pose proof (pair_lv l r Hpair) as Hlv.
  destruct (h_some _ _ _ _ _ H x Hx) as (d & Ed). rewrite Ed. cbn [sbind].
  pose proof (h_key _ _ _ _ _ H r del (proj1 P4) Hlo) as Hkv.
  assert (Hmove : forall b, covers d del = Some false -> nd_next d = Some b ->
    good s G (SOk LTau (goto s t (PMergeAt rt0 stk b l r del)))).
  { intros b Hc Hb. destruct (walk_next _ _ _ H x d del b Ed Hx Hc Hb) as (R1 & R2).
    apply e0_same; fin0 E.
    cbn [pc_ok]. split; [auto|]. split; [auto|]. split; [auto|]. split; [apply R1|].
    pose proof R1 as (B1 & B2 & B3 & B4 & B5).
    destruct (cov_cases _ _ _ H x d del Ed) as
      [(R & _ & Hnx & Hti & T & Hd)|(R & Hn & _ & Hnx & [[Hc' _]|(_ & b' & h & Q1 & Q2 & Q3 & Q4)])].
    - rewrite Hnx in Hb. destruct (right_tg _ _ _ H x b T Hx Hd Hb) as (_ & Q).
      pose proof Hstk as Hstk'. cbn [stk_ok] in Hstk'.
      destruct Hstk' as [Hs|(K1 & K2 & K3 & K4 & K5)].
      + cbn [stk_ok]. left. intros z [<-|Hz]; [split; auto; apply B5; apply Hs; now left|].
        apply Hs. now right.
      + cbn [stk_ok]. right. split; [auto|]. split; [congruence|].
        split; [eapply lowr_tg_l; eauto|].
        split; [intros z _; right; now rewrite (proj2 P4)|].
        exact (right_stk m0 s G H x b stk Hx R1 K5).
    - congruence.
    - assert (b' = b) by congruence. subst b'.
      apply (right_top m0 s G H r x b stk P4 Hx R1); auto. now rewrite Q3, Hlo. }
  destruct (cov_cases _ _ _ H x d del Ed) as
    [(R & Hc & Hnx & Hti & T & Hd)|(R & Hn & Hin & Hnx & [[Hc Hhi]|(Hc & b & h & B1 & B2 & B3 & B4)])];
    rewrite Hc; cbn [sbind].
  - destruct (negb (free s x) && (negb osl || false)); [exact Logic.I|].
    destruct (nd_next d) as [b|] eqn:Eb; [now apply Hmove|].
    destruct (walk_end _ _ _ H x d del Ed Hc Eb) as (_ & _ & _ & Hg).
    apply e0_same; fin0 E.
    cbn [pc_ok kont_ok]. split; [auto|].
    pose proof Hstk as Hstk'. cbn [stk_ok] in Hstk'.
    destruct Hstk' as [Hs|(K1 & K2 & K3 & K4 & K5)]; [intros z Hz; apply Hs; now right|].
    exact (gone_stk m0 s G H stk x Hx Hg K5).
  - rewrite orb_true_r, andb_true_r. destruct (free s x) eqn:Ef; [|exact Logic.I]. cbn [negb].
    apply free_none in Ef. pose proof (free_live s G x d I Ed R Ef) as Hlx.
    destruct (above_live s G r x stk P4 Hlx Hstk) as (V1 & V2 & V3).
    rewrite Hlo in V2.
    destruct (node_inner _ _ _ _ Hn ltac:(lia)) as (Hi & Hok).
    destruct (L_delete_child d (av G x) del (n_rep _ _ _ _ Hn) Hi Hok Hkv) as
      (rc & n' & A' & E1 & HA & HF & [(Hrc & l1 & sl & l2 & S1 & S2 & S3 & S4)|[(-> & -> & _)|(-> & -> & _)]]);
      rewrite E1; cbn [sbind].
    + destruct (heap_del m0 (ch s) (cfr s) G (tr s) x d n' A' r del l1 sl l2 H Ed (proj2 Hlx) V1
        (proj1 P4) (proj2 P4) Hlo HA HF S1 S2 S3 S4) as (HH & D1 & D2 & D3).
      assert (Hoth : forall u, u <> t -> ~ In r (claims (th s u))).
      { intros u Hu Hr. destruct (claims_ok m0 s G u r H (i_pc _ _ _ I u) Hr) as (_ & Q & _).
        apply (Q x Hlx ltac:(lia) _ _ D3). auto. }
      assert (Hone : forall sx p', noentry (Cfg (upd (ch s) x (Some n')) (croot s) (cfr s) sx
        (supd (th s) t p') (pg s) (tr s ++ [LTau])) (seta G x A') r).
      { intros sx p' q Hq Hlq e c Hc'. cbn in Hq, Hlq. intros ->.
        destruct (Nat.eq_dec q x) as [->|Hqx]; [now apply D2 in Hc'|].
        rewrite (entries_ext G (seta G x A') q) in Hc'; auto; [|now apply av_seta_diff].
        apply Hqx. unfold lives in Hq. cbn in Hq.
        destruct (live_node _ _ _ _ _ _ H (proj1 Hq) (proj2 Hq)) as (dq & _ & _ & Hnq).
        destruct (entry_range _ _ _ _ _ _ Hnq Hlq Hc') as (_ & W1 & W2).
        destruct (n_kids _ _ _ _ Hnq Hlq e r Hc') as (_ & W3 & W4 & _).
        rewrite Hlo in W4. subst e.
        eapply (same_point m0 _ _ G (tr s) q x (Key del) H); try apply Hq; try apply Hlx; auto.
        lia. }
      assert (Hxl : x <> l) by (intros ->; lia). assert (Hxr : x <> r) by (intros ->; lia).
      assert (Hst' : forall sx p', mergeable (Cfg (upd (ch s) x (Some n')) (croot s) (cfr s) sx
        (supd (th s) t p') (pg s) (tr s ++ [LTau])) l r).
      { intros sx p'. destruct Hmrg as (dl & dr & M1 & M2 & M3). exists dl, dr. cbn.
        rewrite !upd_diff; auto. }
      destruct Hrc as [-> | ->].
      * exists (seta G x A').
        apply (e1 t s G (seta G x A') LTau (six s) (PMrg1 rt0 l r None) x n');
          try (rewrite E; noshr); try noshr; try nomrg; auto.
        -- intros y Hy. now apply av_seta_diff.
        -- apply Hlx.
        -- apply (i_fresh _ _ _ I).
        -- intros X. cbn [pc_ok up_ok]. split; [|auto].
           split; [auto|]. split; [auto|]. split; [exact P3|]. split; [exact P4|].
           rewrite av_seta_diff; auto.
        -- intros z [<-|[]]. auto.
        -- exact Logic.I.
      * exists (seta G x A').
        apply (e1 t s G (seta G x A') LTau (supd (six s) x (Some t)) (PMrg1 rt0 l r (Some (x, stk))) x n');
          try (rewrite E; noshr); try noshr; try nomrg; auto.
        -- intros y Hy. now apply av_seta_diff.
        -- apply Hlx.
        -- now apply six_own; left.
        -- eapply six_new; eauto.
        -- intros X. cbn [pc_ok up_ok]. split.
           { split; [unfold owns; cbn; rewrite supd_diff; auto|].
             split; [unfold owns; cbn; rewrite supd_diff; auto|].
             split; [exact P3|]. split; [exact P4|]. rewrite av_seta_diff; auto. }
           split; [auto|]. split; [auto|]. split; [|cbn; auto].
           split; [unfold owns; cbn; now rewrite supd_same|]. split; [exact Hlx|].
           split; [cbn; lia|]. xstk X. auto.
        -- intros z [<-|[]]. auto.
        -- exact Logic.I.
    + (* kAbortMerge *)
      exists G. apply (e0 t s G LTau (supd (supd (six s) l None) r None) (PRet rt0) (pg s));
        try (rewrite E; noshr); try noshr; try nomrg; auto.
      * intros b u Hu Hb. unfold supd.
        destruct (Nat.eqb_spec b r) as [->|]; [unfold owns in P2; congruence|].
        destruct (Nat.eqb_spec b l) as [->|]; [unfold owns in P1; congruence|auto].
      * intros b Hb. unfold supd. destruct (b =? r); auto. destruct (b =? l); auto.
        now apply (i_fresh _ _ _ I).
      * now apply effs_id.
      * intros _. exact Logic.I.
      * exact Logic.I.
    + (* kNeedRetry *)
      apply e0_same; fin0 E. cbn [pc_ok]. split; [auto|]. split; [auto|]. left. eauto.
  - destruct (negb (free s x) && (negb osl || false)); [exact Logic.I|].
    rewrite Hnx, B1. apply Hmove; congruence.
Qed.

Lemma step_mrg1 rt0 l r up : th s t = PMrg1 rt0 l r up -> good s G step.
Proof.
  intros E. unfold cstep. rewrite E.
  pose proof (i_stat _ _ _ I t) as St. rewrite E in St. cbn [pc_stat] in St.
  pose proof (i_pc _ _ _ I t) as Hp. rewrite E in Hp. cbn [pc_ok] in Hp.
  destruct Hp as (Hpair & (dl & dr & El & Er & Hcm) & Hno & Hup & Hupl).
  pose proof Hpair as (P1 & P2 & P3 & P4 & P5).
  rewrite El. cbn [sbind]. rewrite Er. cbn [sbind].
  destruct (live_next l r P3 P5) as (k & K1 & K2 & _ & K4 & _).
  pose proof (live_not_removed _ _ _ _ _ _ _ H El (proj2 P3)) as Rl.
  pose proof (live_not_removed _ _ _ _ _ _ _ H Er (proj2 P4)) as Rr.
  pose proof (h_node _ _ _ _ _ H l dl El Rl) as Hl.
  pose proof (h_node _ _ _ _ _ H r dr Er Rr) as Hr.
  assert (Hi : a_inner (av G l) = a_inner (av G r)).
  { rewrite (n_inner _ _ _ _ Hl), (n_inner _ _ _ _ Hr), K4. reflexivity. }
  destruct (L_merge l dl (av G l) dr (av G r) (n_rep _ _ _ _ Hl) (n_rep _ _ _ _ Hr) Hi
    (n_body _ _ _ _ Hl) (n_body _ _ _ _ Hr)) as (l' & r' & sl & Em & M1 & M2 & M3 & M4); auto.
  { exists k. split; [auto|]. split; [apply (n_low _ _ _ _ Hr); auto|]. split.
    - intros x Hx Hin. assert (Hlv : lv G l = 0).
      { rewrite (n_inner _ _ _ _ Hl) in Hin. destruct (lv G l); auto. discriminate. }
      pose proof (proj2 (n_leaf _ _ _ _ Hl Hlv x Hx)) as Q. unfold hi, hia in Q.
      now rewrite K1 in Q.
    - intros x Hx. apply kle_ele. rewrite <- K2.
      destruct (Nat.eq_dec (lv G r) 0) as [Z|Z].
      + apply (n_leaf _ _ _ _ Hr Z x Hx).
      + destruct (n_head _ _ _ _ Hr Z k K2) as (s0 & sr & Q1 & Q2). rewrite Q1 in Hx.
        unfold keys_of in Hx. cbn [flat_map] in Hx. apply in_app_or in Hx.
        unfold key1 in Hx at 1. rewrite Q2 in Hx.
        destruct Hx as [[<-|[]]|Hx]; [rewrite K2; apply ele_refl|].
        apply elt_ele. apply (n_seps _ _ _ _ Hr Z x). rewrite Q1. exact Hx. }
  rewrite Em. cbn [sbind].
  destruct (heap_merge m0 (ch s) (cfr s) G (tr s) l r dl dr l' sl H El Er (proj2 P3) (proj2 P4) P5)
    as (HH & Hg & Hne & Hent); auto.
  { intros p Hp0 Hd Hlp e c Hin. apply (Hno p (conj Hp0 Hd) Hlp e c Hin). }
  match type of HH with ConcInv.heap_ok _ _ _ ?g _ => set (G' := g) in * end.
  assert (Hdr : dd G' r = Some (length (tr s)) /\ tg G' r = Some l)
    by (cbn; rewrite Nat.eqb_refl; auto).
  assert (Hdd : forall x, x <> r -> dd G' x = dd G x).
  { intros x Hx. cbn. destruct (Nat.eqb_spec x r); auto; congruence. }
  assert (Hav : forall x, x <> l -> av G' x = av G x).
  { intros x Hx. unfold G', mergeg. now rewrite av_seta_diff. }
  assert (Hal : a_slots (av G' l) = sl) by (unfold G', mergeg; now rewrite av_seta_same).
  clearbody G'.
  set (s' := emit (goto (own (setp s l l') l None) t (PMrg2 rt0 r r' up)) LTau).
  assert (Hcho : forall x, x <> l -> ch s' x = ch s x) by (intros x Hx; cbn; now rewrite upd_diff).
  assert (X : gext s s' G G').
  { constructor; auto.
    - intros x (dx & D1 & D2 & D3). exists dx. split; auto. rewrite Hcho; auto. congruence.
    - intros x Hx Hdx. destruct (Nat.eq_dec x r) as [->|Hxr]; [right; exists t; now rewrite E|left].
      split; [exact Hx|]. now rewrite Hdd in Hdx.
    - intros x k0 Hx Hdx Hlx Hk0. left. cbn in Hx. rewrite (g_lv _ _ _ _ Hg x Hx) in Hlx.
      assert (Hxr : x <> r) by (intros ->; destruct Hdr; congruence). rewrite Hdd in Hdx by auto.
      destruct (Nat.eq_dec x l) as [->|Xl].
      + rewrite Hal in Hk0. assert (Hm3 := M2). unfold merge_spec in Hm3.
        rewrite (n_inner _ _ _ _ Hl), Hlx in Hm3. cbn in Hm3.
        destruct Hm3 as (_ & _ & Hm3). apply Hm3 in Hk0. apply in_app_or in Hk0 as [Hk0|Hk0].
        * exists l. auto.
        * exists r. split; [apply P4|]. split; [apply P4|]. split; [congruence|auto].
      + exists x. rewrite Hav in Hk0 by auto. auto. }
  assert (OX : oext t s s' G G').
  { constructor.
    - exact (six_own s t l None (or_intror P1)).
    - intros b u Hu Hb Hlt.
      assert (b <> l) by (intros ->; unfold owns in P1; congruence).
      assert (b <> r) by (intros ->; unfold owns in P2; congruence).
      rewrite Hcho, Hav, Hdd; auto.
    - intros u z Hu Hz Hlt.
      assert (Hzr : z <> r).
      { intros ->. apply (i_claims _ _ _ I t u ltac:(auto) r); auto. rewrite E. now left. }
      split; [auto|]. intros Hn q (Q1 & Q2) Hlq e c Hin ->. cbn in Q1.
      assert (Hqr : q <> r) by (intros ->; destruct Hdr; congruence).
      rewrite (g_lv _ _ _ _ Hg q Q1) in Hlq. rewrite Hdd in Q2 by auto.
      destruct (Nat.eq_dec q l) as [->|Hql].
      + destruct (Hent _ Hlq Hin) as [Hin'|Hin'].
        * apply (Hn l P3 Hlq e z); auto.
        * apply (Hn r P4 ltac:(lia) e z); auto.
      + rewrite (entries_ext G G' q) in Hin; auto; [|apply (g_lo _ _ _ _ Hg); auto].
        apply (Hn q (conj Q1 Q2) Hlq e z); auto.
    - intros u Hu. cbn [tr emit goto own setp s']. now rewrite tstat_snoc.
    - intros u Hu. cbn. now rewrite supd_diff. }
  assert (Hth : th s' t = PMrg2 rt0 r r' up) by (cbn; now rewrite supd_same).
  assert (Hsr : six s' r = Some t) by (cbn; rewrite supd_diff; auto).
  assert (Hcr : ch s' r = Some dr) by (rewrite Hcho; auto).
  exists G'. eapply (inv_step _ t s G s' G' LTau); eauto.
  - rewrite Hth. cbn [pc_ok]. split; [auto|]. split; [apply P4|].
    split; [destruct Hdr; congruence|]. split; [destruct Hdr; congruence|].
    split; [exists dr; auto|]. split; [auto|]. split; [destruct Hdr; congruence|].
    split.
    { rewrite (g_lv _ _ _ _ Hg r (proj1 P4)), (L_merge_inner _ _ _ _ _ Em).
      destruct (L_hdr _ _ (n_rep _ _ _ _ Hr)) as (-> & _). apply (n_inner _ _ _ _ Hr). }
    destruct up as [[p stk]|]; cbn [up_ok] in *; auto.
    destruct Hup as (U1 & U2 & U3 & U4).
    assert (p <> r) by (intros ->; lia). assert (p <> l) by (intros ->; lia).
    split; [unfold owns; cbn; rewrite supd_diff; auto|].
    split; [split; [apply U2|rewrite Hdd by auto; apply U2]|].
    rewrite (g_lv _ _ _ _ Hg p (proj1 U2)). split; [auto|].
    exact (ext_stk m0 s _ G _ H X stk p (proj1 U2) U4).
  - rewrite Hth. cbn [tr emit goto own setp s']. rewrite tstat_snoc. exact St.
  - rewrite Hth. intros z [].
  - destruct (i_root _ _ _ I) as (R0 & HR). exists R0.
    eapply root_same; eauto.
    + rewrite Hdd; [apply (r_live _ _ _ HR)|]. intros ->. rewrite (r_lo _ _ _ HR) in K2. discriminate.
    + intros y (Y1 & Y2). cbn in Y1. rewrite (g_lv _ _ _ _ Hg y Y1). apply (r_top _ _ _ HR).
      split; auto. apply (gle_alive _ _ _ _ y Hg Y1 Y2).
    + apply OX.
    + rewrite E. noshr.
    + rewrite Hth. noshr.
  - intros x dx T D1 D2 D3. destruct (Nat.eq_dec x r) as [->|Hxr].
    + exists t, rt0, r', up. auto.
    + rewrite Hdd in D3 by auto.
      assert (x <> l) by (intros ->; destruct P3; congruence).
      rewrite Hcho in D1 by auto.
      destruct (i_stale _ _ _ I x dx T D1 D2 D3) as (u & rr & m & uu & U1 & U2).
      assert (u <> t) by (intros ->; congruence).
      exists u, rr, m, uu. rewrite (o_th _ _ _ _ _ OX u) by auto. split; auto.
      now apply (o_six _ _ _ _ _ OX).
  - cbn. exact Logic.I.
  - exact (six_new s G l None I (proj1 P3)).
Qed.

Lemma step_mrg2 rt0 r m up : th s t = PMrg2 rt0 r m up -> good s G step.
Proof.
  intros E. unfold cstep. rewrite E.
  pose proof (i_stat _ _ _ I t) as St. rewrite E in St. cbn [pc_stat] in St.
  pose proof (i_pc _ _ _ I t) as Hp. rewrite E in Hp. cbn [pc_ok] in Hp.
  destruct Hp as (Ho & Hr & Hd & Ht & (d & Ed & Rd) & Hm1 & Hm2 & Hm3 & Hup).
  match goal with |- good s G (SOk LTau (goto _ t ?p)) => set (p' := p) end.
  set (s' := emit (goto (own (setp s r m) r None) t p') LTau).
  pose proof (heap_flag m0 (ch s) (cfr s) G (tr s) r d m H Ed Hd Hm1 Hm2 Ht Hm3) as HH.
  assert (Hcho : forall x, x <> r -> ch s' x = ch s x) by (intros x Hx; cbn; now rewrite upd_diff).
  assert (X : gext s s' G G).
  { constructor; auto.
    - apply gle_refl.
    - intros x (dx & D1 & D2 & D3). exists dx. split; auto. rewrite Hcho; auto. congruence.
    - intros x k Hx Hdx Hlx Hk. left. exists x. auto. }
  assert (OX : oext t s s' G G).
  { constructor.
    - exact (six_own s t r None (or_intror Ho)).
    - intros b u Hu Hb Hlt.
      assert (b <> r) by (intros ->; unfold owns in Ho; congruence).
      rewrite Hcho; auto.
    - intros u z Hu Hz Hlt. split; auto.
    - intros u Hu. cbn [tr emit goto own setp s']. now rewrite tstat_snoc.
    - intros u Hu. cbn. now rewrite supd_diff. }
  assert (Hth : th s' t = p') by (cbn; now rewrite supd_same).
  assert (Hcl : claims p' = []) by (unfold p'; destruct up as [[p [|]]|]; reflexivity).
  assert (Hupo : forall p stk, up = Some (p, stk) -> owns s' t p /\ lives s' G p /\ lv G p <> 0 /\
    stk_ok s' G p stk).
  { intros p stk ->. cbn [up_ok] in Hup. destruct Hup as (U1 & U2 & U3 & U4).
    assert (p <> r) by (intros ->; destruct U2; congruence).
    split; [unfold owns; cbn; rewrite supd_diff; auto|]. split; [exact U2|]. split; [auto|].
    exact (ext_stk m0 s _ G _ H X stk p (proj1 U2) U4). }
  exists G. eapply (inv_step _ t s G s' G LTau); eauto.
  - rewrite Hth. unfold p'. destruct up as [[p [|y stk]]|]; cbn [pc_ok]; auto.
    + destruct (Hupo p [] eq_refl) as (U1 & U2 & U3 & U4). auto.
    + destruct (Hupo p (y :: stk) eq_refl) as (U1 & U2 & U3 & U4). auto.
  - rewrite Hth. cbn [tr emit goto own setp s']. rewrite tstat_snoc. cbn [tnext].
    unfold p'. destruct up as [[p [|]]|]; exact St.
  - rewrite Hth, Hcl. intros z [].
  - destruct (i_root _ _ _ I) as (R0 & HR). exists R0.
    eapply root_same; eauto.
    + apply (r_live _ _ _ HR).
    + apply (r_top _ _ _ HR).
    + apply OX.
    + rewrite E. noshr.
    + rewrite Hth. unfold p'. destruct up as [[p [|]]|]; noshr.
  - intros x dx T D1 D2 D3. destruct (Nat.eq_dec x r) as [->|Hxr].
    + cbn in D1. rewrite upd_same in D1. congruence.
    + rewrite Hcho in D1 by auto.
      destruct (i_stale _ _ _ I x dx T D1 D2 D3) as (u & rr & m' & uu & U1 & U2).
      assert (u <> t) by (intros ->; congruence).
      exists u, rr, m', uu. rewrite (o_th _ _ _ _ _ OX u) by auto. split; auto.
      now apply (o_six _ _ _ _ _ OX).
  - cbn. exact Logic.I.
  - exact (six_new s G r None I Hr).
Qed.

(** ** Removing roots *)

Lemma step_shr rt0 p : th s t = PShr rt0 p -> good s G step.
Proof.
  intros E. unfold cstep. rewrite E. cbn [fx_shrink repaired negb orb].
  pose proof (i_stat _ _ _ I t) as St. rewrite E in St. cbn [pc_stat] in St.
  pose proof (i_pc _ _ _ I t) as Hp. rewrite E in Hp. cbn [pc_ok] in Hp.
  destruct Hp as (Ho & Hl & Hlv).
  destruct (live_node _ _ _ _ _ _ H (proj1 Hl) (proj2 Hl)) as (d & Ed & R & Hn).
  rewrite Ed. cbn [sbind]. destruct (L_hdr _ _ (n_rep _ _ _ _ Hn)) as (_ & _ & I3 & I4).
  destruct ((p =? croot s) && (nd_rc d =? 1) && match nd_next d with Some _ => false | None => true end) eqn:C.
  2:{ apply e0_same; fin0 E. }
  apply andb_true_iff in C as [C C3]. apply andb_true_iff in C as [C1 C2].
  apply Nat.eqb_eq in C1, C2. rewrite I3 in C3. rewrite I4 in C2.
  destruct (i_root _ _ _ I) as (R0 & HR).
  assert (R0 = p).
  { destruct (r_cur _ _ _ HR) as [Q|(Q & _)]; [congruence|]. exfalso. rewrite <- C1 in Q.
    destruct (deadroot_removed p d Ed Q). congruence. }
  subst R0.
  set (s' := emit (goto s t (PShrL rt0 p)) LTau).
  assert (M : mod1 t s s' G G LTau 0).
  { constructor; auto.
    - apply (i_fresh _ _ _ I).
    - intros u Hu. cbn. now rewrite supd_diff. }
  pose proof (mod1_gext _ _ _ _ _ _ _ _ I M) as X. pose proof (mod1_oext _ _ _ _ _ _ _ _ I M) as OX.
  assert (Hth : th s' t = PShrL rt0 p) by (cbn; now rewrite supd_same).
  exists G. eapply (inv_step _ t s G s' G LTau); eauto.
  - apply heap_tick; auto. now apply effs_id.
  - rewrite Hth. cbn [pc_ok]. split; [auto|]. split; [exact Hl|]. split; [auto|].
    split; auto. destruct (a_next (av G p)); [discriminate|auto].
  - rewrite Hth. cbn [tr emit goto s']. rewrite tstat_snoc. exact St.
  - rewrite Hth. intros z [].
  - exists p. constructor; try apply HR.
    + left. cbn. auto.
    + intros u q Hq. destruct (Nat.eq_dec u t) as [->|Hu].
      * rewrite Hth in Hq. destruct Hq as [[? Q]|[? Q]]; congruence.
      * rewrite (o_th _ _ _ _ _ OX u Hu) in Hq. eapply (r_shr _ _ _ HR); eauto.
    + intros u z q Hq. destruct (Nat.eq_dec u t) as [->|Hu]; [congruence|].
      rewrite (o_th _ _ _ _ _ OX u Hu) in Hq. apply (r_st _ _ _ HR u z q Hq).
  - eapply stale_same; eauto; [apply (i_stale _ _ _ I)|nomrg].
  - exact Logic.I.
  - apply (i_fresh _ _ _ I).
Qed.

Lemma only_shrinker p u : root_ok s G p -> owns s t p -> (exists q, shrinking (th s u) q) -> u = t.
Proof.
  intros HR Ho (q & Hq). pose proof (r_shr _ _ _ HR u q Hq) as ->.
  pose proof (i_pc _ _ _ I u) as Hp. unfold owns in Ho.
  destruct Hq as [[z Q]|[z Q]]; rewrite Q in Hp; cbn [pc_ok] in Hp; destruct Hp as (Hp & _);
    unfold owns in Hp; congruence.
Qed.

Lemma step_shrl rt0 p : th s t = PShrL rt0 p -> good s G step.
Proof.
  intros E. unfold cstep. rewrite E. cbn [fx_shrink repaired negb orb].
  pose proof (i_stat _ _ _ I t) as St. rewrite E in St. cbn [pc_stat] in St.
  pose proof (i_pc _ _ _ I t) as Hp. rewrite E in Hp. cbn [pc_ok] in Hp.
  destruct Hp as (Ho & Hl & Hlv & Hnx & Hlen).
  destruct (live_node _ _ _ _ _ _ H (proj1 Hl) (proj2 Hl)) as (d & Ed & R & Hn).
  rewrite Ed. cbn [sbind]. destruct (L_hdr _ _ (n_rep _ _ _ _ Hn)) as (I1 & _ & I3 & I4).
  destruct (node_inner _ _ _ _ Hn Hlv) as (Hi & Hok).
  destruct (i_root _ _ _ I) as (R0 & HR).
  assert (R0 = p) by (symmetry; apply (r_shr _ _ _ HR t); left; eauto). subst R0.
  destruct (a_slots (av G p)) as [|s0 [|s1 sl]] eqn:Esl; cbn in Hlen; try discriminate.
  assert (Hc0 : exists c, s_pay s0 = PP c).
  { unfold inner_ok in Hok. cbn in Hok. destruct Hok as ((_ & c & Hc) & _). eauto. }
  destruct Hc0 as (c & Hc).
  assert (Hin : In (lo G p, c) (entries_of G p)).
  { unfold entries_of. rewrite Esl. left. unfold skid. now rewrite Hc. }
  destruct (n_kids _ _ _ _ Hn Hlv _ _ Hin) as (K1 & K2 & K3 & K4 & _).
  rewrite (proj2 Hl) in K4.
  assert (Hlc : lives s G c) by (split; auto; destruct (dd G c); [destruct K4|auto]).
  rewrite (L_child d (av G p) 0 s0 c (n_rep _ _ _ _ Hn) Hi) by (auto; now rewrite Esl).
  cbn [sbind]. destruct (free s c) eqn:Ef; [|exact Logic.I]. cbn [negb]. apply free_none in Ef.
  destruct (live_node _ _ _ _ _ _ H (proj1 Hlc) (proj2 Hlc)) as (m & Em & Rm & Hm).
  rewrite Em. cbn [sbind]. destruct (L_hdr _ _ (n_rep _ _ _ _ Hm)) as (J1 & _ & J3 & J4).
  assert (Hcp : c <> p) by (intros ->; lia).
  destruct (L_remove_root d (av G p) (n_rep _ _ _ _ Hn)) as (W1 & W2).
  pose proof (heap_rmroot m0 (ch s) (cfr s) G (tr s) p d (nd_remove_root d) H Ed (proj2 Hl) Hlv
    (r_lo _ _ _ HR) Hnx ltac:(intros y Y1 Y2; apply (r_top _ _ _ HR); split; auto) W1 W2
    ltac:(rewrite L_remove_root_inner, I1; auto)) as HH.
  pose proof (gle_rmroot m0 (ch s) (cfr s) G (tr s) p (length (tr s)) H (proj2 Hl)) as Hg.
  set (G' := killg G p (length (tr s)) None) in *.
  assert (Hgoal : forall p', (p' = PShrL rt0 c /\ lv G c <> 0 /\ a_next (av G c) = None /\
      length (a_slots (av G c)) = 1 \/ p' = PShrSt rt0 c) ->
    good s G (SOk LTau (goto (own (own (setp s p (nd_remove_root d)) p None) c (Some t)) t p'))).
  { intros p' Hp'.
    set (s' := emit (goto (own (own (setp s p (nd_remove_root d)) p None) c (Some t)) t p') LTau).
    assert (Hdd : forall x, x <> p -> dd G' x = dd G x).
    { intros x Hx. cbn. destruct (Nat.eqb_spec x p); auto; congruence. }
    assert (Hdp : dd G' p <> None) by (cbn; rewrite Nat.eqb_refl; discriminate).
    assert (Hcho : forall x, x <> p -> ch s' x = ch s x) by (intros x Hx; cbn; now rewrite upd_diff).
    assert (X : gext s s' G G').
    { constructor; auto.
      - intros x (dx & D1 & D2 & D3). exists dx. split; auto. rewrite Hcho; auto. congruence.
      - intros x Hx Hq. destruct (Nat.eq_dec x p) as [->|Hxp]; [right; exists t; now rewrite E|left].
        split; [exact Hx|]. now rewrite Hdd in Hq.
      - intros x k Hx Hdx Hlx Hk. left. exists x. split; [auto|].
        assert (x <> p) by (intros ->; congruence). rewrite Hdd in Hdx by auto. auto. }
    assert (Hsx : forall b, six s' b = if b =? c then Some t else if b =? p then None else six s b)
      by reflexivity.
    assert (OX : oext t s s' G G').
    { constructor.
      - intros b u Hu Hb. rewrite Hsx. destruct (Nat.eqb_spec b c) as [->|]; [congruence|].
        destruct (Nat.eqb_spec b p) as [->|]; [unfold owns in Ho; congruence|auto].
      - intros b u Hu Hb Hlt. assert (b <> p) by (intros ->; unfold owns in Ho; congruence).
        rewrite Hcho, Hdd; auto.
      - intros u z Hu Hz Hlt.
        destruct (claims_ok m0 s G u z H (i_pc _ _ _ I u) Hz) as (_ & _ & k & Hk).
        assert (z <> p) by (intros ->; rewrite (r_lo _ _ _ HR) in Hk; discriminate).
        split; [auto|]. intros Hno q (Q1 & Q2) Hlq e y Hy.
        assert (q <> p) by (intros ->; congruence). rewrite Hdd in Q2 by auto.
        apply (Hno q (conj Q1 Q2) Hlq e y Hy).
      - intros u Hu. cbn [tr emit goto own setp s']. now rewrite tstat_snoc.
      - intros u Hu. cbn. now rewrite supd_diff. }
    assert (Hth : th s' t = p') by (cbn; now rewrite supd_same).
    assert (Hoc : owns s' t c) by (unfold owns; rewrite Hsx; now rewrite Nat.eqb_refl).
    assert (Hlc' : lives s' G' c) by (split; [apply Hlc|rewrite Hdd by auto; apply Hlc]).
    assert (Honly : forall u q, shrinking (th s' u) q -> u = t /\ q = c).
    { intros u q Hq. destruct (Nat.eq_dec u t) as [->|Hu].
      - rewrite Hth in Hq. split; auto.
        destruct Hp' as [(-> & _)| ->]; destruct Hq as [[? Q]|[? Q]]; congruence.
      - rewrite (o_th _ _ _ _ _ OX u Hu) in Hq. exfalso. apply Hu.
        eapply only_shrinker; eauto. }
    exists G'. eapply (inv_step _ t s G s' G' LTau); eauto.
    - rewrite Hth. destruct Hp' as [(-> & Q1 & Q2 & Q3)| ->]; cbn [pc_ok]; auto.
    - rewrite Hth. cbn [tr emit goto own setp s']. rewrite tstat_snoc.
      destruct Hp' as [(-> & _)| ->]; exact St.
    - rewrite Hth. destruct Hp' as [(-> & _)| ->]; intros z [].
    - exists c. constructor.
      + auto.
      + cbn. rewrite K3. apply (r_lo _ _ _ HR).
      + intros y (Y1 & Y2). cbn in Y1. assert (y <> p) by (intros ->; congruence).
        rewrite Hdd in Y2 by auto. cbn [lv G' killg].
        pose proof (r_top _ _ _ HR y (conj Y1 Y2)).
        destruct (Nat.eq_dec (lv G y) (lv G p)) as [Q|Q]; [|lia].
        assert (y = p) by (eapply alone; eauto; [split; auto|apply HR]). congruence.
      + right.
        assert (Hex : exists u, shrinking (th s' u) c).
        { exists t. rewrite Hth. destruct Hp' as [(-> & _)| ->]; [left|right]; eauto. }
        destruct (r_cur _ _ _ HR) as [Q|(Q1 & Q2 & _)].
        * cbn [croot s' emit goto own setp]. rewrite Q. split.
          { exists (nd_remove_root d). split; auto. cbn. now rewrite upd_same. }
          split; auto. cbn [lv G' killg]. lia.
        * split; [apply (x_dead _ _ _ _ X); auto|]. split; auto. cbn [lv G' killg croot s' emit goto own setp]. lia.
      + intros u q Hq. now apply Honly in Hq.
      + intros u z q Hq. cbn [croot s' emit goto own setp]. intros Q.
        destruct (r_cur _ _ _ HR) as [Q1|(Q1 & _)]; [congruence|].
        rewrite Q in Q1. destruct (deadroot_removed c m Em Q1). congruence.
      + cbn. apply (r_alloc _ _ _ HR).
    - eapply stale_same; eauto; [apply (i_stale _ _ _ I)|nomrg|].
      intros x dx T D1 D2 D3. destruct (Nat.eq_dec x p) as [->|Hx].
      + cbn in D1. rewrite upd_same in D1. congruence.
      + rewrite Hcho in D1 by auto. rewrite Hdd in D3 by auto. auto.
    - exact Logic.I.
    - intros b Hb. cbn in Hb. rewrite Hsx. destruct (Nat.eqb_spec b c) as [->|]; [destruct Hlc; lia|].
      destruct (Nat.eqb_spec b p); auto. now apply (i_fresh _ _ _ I). }
  destruct ((nd_rc m =? 1) && nd_inner m && match nd_next m with Some _ => false | None => true end) eqn:C.
  - apply Hgoal. left. apply andb_true_iff in C as [C C3]. apply andb_true_iff in C as [C1 C2].
    apply Nat.eqb_eq in C1. rewrite J3 in C3. rewrite J4 in C1. rewrite J1 in C2.
    rewrite (n_inner _ _ _ _ Hm) in C2. split; [auto|]. split.
    { destruct (lv G c); [discriminate|lia]. }
    split; auto. destruct (a_next (av G c)); [discriminate|auto].
  - apply Hgoal. auto.
Qed.

Lemma step_shrst rt0 p : th s t = PShrSt rt0 p -> good s G step.
Proof.
  intros E. unfold cstep. rewrite E.
  pose proof (i_stat _ _ _ I t) as St. rewrite E in St. cbn [pc_stat] in St.
  pose proof (i_pc _ _ _ I t) as Hp. rewrite E in Hp. cbn [pc_ok] in Hp.
  destruct Hp as (Ho & Hl).
  destruct (i_root _ _ _ I) as (R0 & HR).
  assert (R0 = p) by (symmetry; apply (r_shr _ _ _ HR t); right; eauto). subst R0.
  set (s' := emit (goto (rootp s p) t (PShrEnd rt0 p)) LTau).
  assert (X : gext s s' G G).
  { constructor; auto; [apply gle_refl|]. intros x k Hx Hdx Hlx Hk. left. exists x. auto. }
  assert (OX : oext t s s' G G).
  { constructor; auto.
    - intros u Hu. cbn [tr emit goto rootp s']. now rewrite tstat_snoc.
    - intros u Hu. cbn. now rewrite supd_diff. }
  assert (Hth : th s' t = PShrEnd rt0 p) by (cbn; now rewrite supd_same).
  assert (Hnone : forall u q, ~ shrinking (th s' u) q).
  { intros u q Hq. destruct (Nat.eq_dec u t) as [->|Hu].
    - rewrite Hth in Hq. destruct Hq as [[? Q]|[? Q]]; congruence.
    - rewrite (o_th _ _ _ _ _ OX u Hu) in Hq. apply Hu. eapply only_shrinker; eauto. }
  exists G. eapply (inv_step _ t s G s' G LTau); eauto.
  - apply heap_tick; auto. now apply effs_id.
  - rewrite Hth. exact Ho.
  - rewrite Hth. cbn [tr emit goto rootp s']. rewrite tstat_snoc. exact St.
  - rewrite Hth. intros z [].
  - exists p. constructor; try apply HR.
    + left. reflexivity.
    + intros u q Hq. now apply Hnone in Hq.
    + intros u z q Hq. exfalso. apply (Hnone u q). right. eauto.
  - eapply stale_same; eauto; [apply (i_stale _ _ _ I)|nomrg].
  - exact Logic.I.
  - apply (i_fresh _ _ _ I).
Qed.

Lemma step_shrend rt0 p : th s t = PShrEnd rt0 p -> good s G step.
Proof.
  intros E. unfold cstep. rewrite E.
  pose proof (i_stat _ _ _ I t) as St. rewrite E in St. cbn [pc_stat] in St.
  pose proof (i_pc _ _ _ I t) as Hp. rewrite E in Hp. cbn [pc_ok] in Hp.
  exists G. apply (e0 t s G LTau (supd (six s) p None) (PRet rt0) (pg s));
    try (rewrite E; noshr); try noshr; try nomrg; auto.
  - apply six_own. now right.
  - intros b Hb. unfold supd. destruct (b =? p); auto. now apply (i_fresh _ _ _ I).
  - now apply effs_id.
  - intros _. exact Logic.I.
  - exact Logic.I.
Qed.

Theorem step_good : good s G step.
Proof.
  destruct (th s t) eqn:E;
    eauto using step_idle, step_ret, step_root, step_desc, step_split, step_valid, step_retry,
      step_sep, step_comp, step_compsplit, step_compvalid, step_compins, step_try, step_tryst,
      step_findroot, step_find, step_merge, step_mergeat, step_mrg1, step_mrg2, step_shr,
      step_shrl, step_shrst, step_shrend.
Qed.

End Steps.

(** ** Executions *)

Lemma run_good : forall sched s G, inv s G ->
  exists s' G', crun osl repaired s sched = Some s' /\ inv s' G'.
Proof.
  induction sched as [|t sched IH]; intros s G I; cbn [crun]; [eauto|].
  pose proof (step_good s G t I) as Hs. destruct (cstep osl repaired t s); cbn in Hs.
  - destruct Hs as (G' & I' & _). eauto.
  - eauto.
  - destruct Hs.
Qed.

End ConcSteps.
