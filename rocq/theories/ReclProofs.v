(** The single-layer trees with their garbage collector: no step uses a released page.
    This file is proof-side only, except for the definition of calm guards. *)
From Coq Require Import List Arith Bool Lia Sorted.
From Verif Require Import Params Mem Common Spec ConcSpec ScanSpec NodeAbs SLIface BaseIface
  IterModel TreeState Levels ConcModel ConcLin ConcInv ConcHeap ConcSmo ConcThreads
  ConcSteps ConcMain CScanModel CScanLin CScanProofs CScanMain ReclModel.
Import ListNotations.

Section ReclProofs.
Context {P : Params} {O : OrdLaws P} {N : SLOps P} {L : SLLaws P N}.
#[local] Existing Instance base_of_sl.
Context (osl : bool).

Notation inv := (ConcInv.inv amap_empty).

(** ** The pages a call may come back to *)

Definition upstk (up : option (addr * list addr)) : list addr :=
  match up with Some (_, stk) => stk | None => [] end.
Definition kptrs (k : kont) : list addr :=
  match k with KMerge node _ => opt_list node | KSplit _ _ _ => [] end.
Definition ptrs (p : pc) : list addr :=
  match p with
  | PDesc _ _ stk | PSplit _ _ stk | PValid _ _ _ _ stk | PRetry _ _ _ _ _ stk
  | PCompSplit _ stk _ _ _ | PCompValid _ stk _ _ _ _ _ | PCompIns _ stk _ _ _ _ _ _
  | PTry _ stk _ _ _ | PTrySt _ stk _ _ _ => stk
  | PSep _ _ _ x _ stk => x :: stk
  | PComp _ stk x _ _ _ => x :: stk
  | PFindRoot _ k stk _ _ | PFind _ k _ stk _ _ => kptrs k ++ stk
  | PMerge _ stk node _ => opt_list node ++ stk
  | PMergeAt _ stk x _ _ _ => x :: stk
  | PMrg1 _ _ _ up => upstk up
  | PMrg2 _ r _ up => r :: upstk up
  | PShrEnd _ p => [p]
  | _ => []
  end.
Definition cur (p : pc) : option addr :=
  match p with PDesc _ a _ | PFind _ _ a _ _ _ => Some a | _ => None end.

(** [z] was part of the tree at some time since [i]. *)
Definition safe (s : cfg) (G : gh) (i : nat) (z : addr) : Prop :=
  z < cfr s /\ dle (Some i) (dd G z).

Definition curok (s : cfg) (G : gh) (i : nat) (D : addr -> Prop) (a : addr) : Prop :=
  safe s G i a \/ (deadroot s a /\ D a).

Definition jc (s : cfg) (G : gh) (i : nat) (D : addr -> Prop) (p : pc) : Prop :=
  (forall z, In z (ptrs p) -> safe s G i z) /\
  (forall a, cur p = Some a -> curok s G i D a).

Lemma live_safe s G i a : lives s G a -> safe s G i a.
Proof. intros (H1 & H2). split; auto. rewrite H2. exact I. Qed.

Section Pages.
Context (s : cfg) (G : gh) (I : inv s G).
Let H := i_heap _ _ _ I.

Lemma right_safe i a b : safe s G i a -> right_of s G a b -> safe s G i b.
Proof. intros (H1 & H2) (R1 & _ & R2 & _). split; auto. Qed.

(** The right sibling, whether or not the node has been merged away. *)
Lemma next_right a d b : ch s a = Some d -> nd_next d = Some b -> right_of s G a b.
Proof.
  intros E Hb. pose proof (h_none _ _ _ _ _ H _ _ E) as Ha. destruct (nd_removed d) eqn:R.
  - destruct (h_dead _ _ _ _ _ H a d E R) as (Q1 & Q2 & _). rewrite Hb in Q2.
    destruct (dd G a) as [T|] eqn:Ed; [|congruence].
    now destruct (right_tg _ s G H a b T Ha Ed (eq_sym Q2)).
  - pose proof (h_node _ _ _ _ _ H a d E R) as Hn.
    destruct (L_hdr _ _ (n_rep _ _ _ _ Hn)) as (_ & _ & I3 & _). rewrite I3 in Hb.
    now destruct (right_next _ s G H a b d Ha Hn Hb).
Qed.

Lemma cov_safe i D a d k : curok s G i D a -> ch s a = Some d -> covers d k = Some true -> safe s G i a.
Proof.
  intros [Q|((d' & E' & R & _) & _)] E Hc; auto. assert (d' = d) by congruence. subst d'.
  unfold covers in Hc. rewrite R in Hc. discriminate.
Qed.

Lemma nx_safe i D a d b : curok s G i D a -> ch s a = Some d -> nd_next d = Some b -> safe s G i b.
Proof.
  intros [Q|((d' & E' & R & Hn) & _)] E Hb; [|congruence].
  eapply right_safe; eauto. eapply next_right; eauto.
Qed.

Lemma inner_kid a d i e c : ch s a = Some d -> nd_removed d = false -> lv G a <> 0 ->
  In (e, c) (entries_of G a) -> safe s G i a -> safe s G i c.
Proof.
  intros E R Hl Hin (H1 & H2). pose proof (h_node _ _ _ _ _ H a d E R) as Hn.
  destruct (n_kids _ _ _ _ Hn Hl e c Hin) as (K1 & _ & _ & K4 & _). split; auto.
  eapply dle_trans; eauto.
Qed.

Lemma child0_kid a d c : ch s a = Some d -> nd_removed d = false -> lv G a <> 0 ->
  nd_child d 0 = Some c -> In (ConcInv.lo G a, c) (entries_of G a).
Proof.
  intros E R Hl Hc. pose proof (h_node _ _ _ _ _ H a d E R) as Hn.
  destruct (node_inner _ _ _ _ Hn Hl) as (Hi & Hok).
  unfold entries_of. destruct (a_slots (av G a)) as [|s0 sl] eqn:Es; [destruct Hok|].
  assert (Hp : exists x, s_pay s0 = PP x).
  { unfold inner_ok in Hok. cbn in Hok. destruct Hok as ((_ & x & Hx) & _). eauto. }
  destruct Hp as (x & Hx).
  rewrite (L_child d (av G a) 0 s0 x (n_rep _ _ _ _ Hn) Hi) in Hc; auto; [|now rewrite Es].
  injection Hc as <-. left. unfold skid. now rewrite Hx.
Qed.

End Pages.

Section Call.
Context (s : cfg) (G : gh) (t : tid) (i : nat) (D : addr -> Prop).
Hypothesis I : inv s G.
Hypothesis Hroot : curok s G i D (croot s).
Let H := i_heap _ _ _ I.

Ltac unf Hs := unfold sbind in Hs;
  repeat (match type of Hs with
          | context [match ?x with _ => _ end] => destruct x eqn:?
          end; try discriminate).
Ltac fin := injection; intros; subst; cbn [th goto setp own newp rootp]; rewrite supd_same.

Lemma jc_comp rt0 stk l r sep : (forall z, In z stk -> safe s G i z) -> jc s G i D (comp rt0 stk l r sep).
Proof.
  intros Hs. destruct stk as [|top stk]; cbn; split; cbn [ptrs cur]; try discriminate; try tauto.
  intros z [<-|Hz]; apply Hs; cbn; auto.
Qed.

Lemma jc_step l c : th s t <> PIdle -> jc s G i D (th s t) -> cstep osl repaired t s = SOk l c ->
  jc s G i D (th c t).
Proof.
  intros Hid (J1 & J2) Hs. pose proof (i_pc _ _ _ I t) as Hp. unfold cstep in Hs.
  destruct (th s t) eqn:E; try congruence; cbn [pc_ok ptrs cur] in Hp, J1, J2.
  - (* PRoot *) injection Hs as <- <-. cbn [th goto]. rewrite supd_same.
    split; cbn; [tauto|]. now intros a [= <-].
  - (* PDesc *) specialize (J2 a eq_refl). destruct Hp as (Hk & Ha & Hp).
    destruct (ch s a) as [n|] eqn:Ea; [|discriminate]. cbn [sbind] in Hs.
    destruct (covers n (call_key c0)) as [ok|] eqn:Eo; [|discriminate]. cbn [sbind] in Hs.
    assert (Hnx : forall b, nd_next n = Some b -> jc s G i D (PDesc c0 b stk)).
    { intros b Hb. split; cbn; auto. intros ? [= <-]. left. eapply nx_safe; eauto. }
    destruct (nd_inner n) eqn:Ei.
    + destruct ok.
      * pose proof (cov_safe s G i D a n _ J2 Ea Eo) as Hsa.
        assert (Hr : nd_removed n = false).
        { unfold covers in Eo. destruct (nd_removed n); [discriminate|auto]. }
        destruct Hp as [(d' & E' & R & _)|(P1 & _)]; [congruence|].
        assert (Hlv : lv G a <> 0).
        { pose proof (h_node _ _ _ _ _ H a n Ea Hr) as Hn.
          destruct (L_hdr _ _ (n_rep _ _ _ _ Hn)) as (I1 & _). rewrite (n_inner _ _ _ _ Hn) in I1.
          intros Q. rewrite Q in I1. rewrite Ei in I1; discriminate. }
        destruct (walk_down _ _ _ H a n (call_key c0) stk Ea Ha Eo Hlv Hk P1) as (b & W1 & W2 & _ & _ & W5 & _).
        rewrite W1 in Hs. cbn [sbind] in Hs. injection Hs as <- <-. cbn [th goto]. rewrite supd_same.
        split; cbn.
        -- intros z [<-|Hz]; auto.
        -- intros ? [= <-]. left. split; auto. apply W5, Hsa.
      * unf Hs; injection Hs as <- <-; cbn [th goto]; rewrite supd_same; auto.
        split; cbn; [tauto|discriminate].
    + destruct ok.
      * unf Hs; injection Hs as <- <-; cbn [th goto setp own]; rewrite supd_same; split; cbn; auto; try tauto;
          discriminate.
      * unf Hs; injection Hs as <- <-; cbn [th goto]; rewrite supd_same; auto.
  - (* PSplit *) unf Hs; injection Hs as <- <-; cbn [th goto setp own newp]; rewrite supd_same; split; cbn; auto.
  - (* PValid *) unf Hs; injection Hs as <- <-; cbn [th goto setp own newp]; rewrite supd_same; split; cbn; auto;
    discriminate.
  - (* PRetry *) destruct Hp as (_ & _ & _ & Hl & _).
    unf Hs; injection Hs as <- <-; cbn [th goto setp own newp]; rewrite supd_same; split; cbn; auto; try discriminate;
      intros z [<-|Hz]; auto; now apply live_safe.
  - (* PSep *) cbn [fx_sep repaired] in Hs. injection Hs as <- <-. cbn [th goto]. rewrite supd_same.
    apply jc_comp. intros z Hz. apply J1. now right.
  - (* PComp *) assert (Hx : safe s G i x) by (apply J1; now left).
    assert (Hst : forall z, In z stk -> safe s G i z) by (intros z Hz; apply J1; now right).
    destruct (ch s x) as [n|] eqn:Ea; [|discriminate]. cbn [sbind] in Hs.
    destruct (covers n sep) as [ok|] eqn:Eo; [|discriminate]. cbn [sbind] in Hs.
    destruct (_ && _); [discriminate|]. destruct ok.
    + unf Hs; injection Hs as <- <-; cbn [th goto setp own]; rewrite ?supd_same, ?E; split; cbn; auto; try tauto;
        try discriminate. intros z Hz. apply Hst. destruct stk; [destruct Hz|now right].
    + unf Hs; injection Hs as <- <-; cbn [th goto]; rewrite supd_same; split; cbn; auto; try discriminate.
      intros z [<-|Hz]; auto. eapply (nx_safe s G I i (fun _ => False) x); eauto. now left.
  - (* PCompSplit *) unf Hs; injection Hs as <- <-; cbn [th goto setp own newp]; rewrite supd_same; split; cbn; auto;
      discriminate.
  - (* PCompValid *) unf Hs; injection Hs as <- <-; cbn [th goto setp own newp]; rewrite supd_same; split; cbn; auto;
      discriminate.
  - (* PCompIns *) destruct Hp as (_ & _ & _ & Hl & _).
    unf Hs; injection Hs as <- <-; cbn [th goto setp own newp]; rewrite supd_same; split; cbn; auto; try discriminate;
      intros z [<-|Hz]; auto; now apply live_safe.
  - (* PTry *) unf Hs; injection Hs as <- <-; cbn [th goto setp own newp]; rewrite supd_same; split; cbn; auto;
      discriminate.
  - (* PTrySt *) unf Hs; injection Hs as <- <-; cbn [th goto setp own newp rootp]; rewrite supd_same; split; cbn; auto; try tauto;
      discriminate.
  - (* PFindRoot *) injection Hs as <- <-. cbn [th goto]. rewrite supd_same. split; cbn; auto.
    now intros a [= <-].
  - (* PFind *) specialize (J2 a eq_refl). destruct Hp as (Hkt & Ha & Hp).
    destruct (kont_target s G t _ _ _ Hkt) as (Ht & Hlo).
    destruct (ch s a) as [n|] eqn:Ea; [|discriminate]. cbn [sbind] in Hs.
    destruct (covers n key) as [ok|] eqn:Eo; [|discriminate]. cbn [sbind] in Hs.
    destruct ok.
    + pose proof (cov_safe s G i D a n _ J2 Ea Eo) as Hsa.
      assert (R : nd_removed n = false).
      { unfold covers in Eo. destruct (nd_removed n); [discriminate|auto]. }
      destruct (Nat.eqb_spec a target) as [Eq|Hne].
      * injection Hs as <- <-. cbn [th goto]. rewrite supd_same. destruct k.
        -- apply jc_comp. intros z Hz. apply J1. apply in_or_app. now right.
        -- split; cbn; auto. discriminate.
      * destruct Hp as [(d' & E' & R' & _)|(P1 & P2 & P3 & P4)]; [congruence|].
        assert (Hlv : lv G a <> lv G target).
        { intros Q. destruct (dd G a) as [T|] eqn:Hd.
          - apply (h_sdisj _ _ _ _ _ H a n T target Ea R Hd (proj1 Ht) (proj2 Ht)); auto.
            rewrite Hlo. split; auto.
            destruct (cov_cases _ _ _ H a n key Ea) as
              [(R1 & _)|(_ & _ & _ & _ & [[_ Hc]|(Hc & _)])]; auto; congruence.
          - apply Hne. eapply (same_point _ _ _ G (tr s) a target (Key key) H); auto; try apply Ht.
            + destruct (cov_cases _ _ _ H a n key Ea) as
                [(R1 & _)|(_ & _ & _ & _ & [[_ Hc]|(Hc & _)])]; auto; congruence.
            + rewrite Hlo. apply ele_refl.
            + rewrite <- Hlo. apply (elt_hi_lo _ _ _ _ _ _ H (proj1 Ht) (proj2 Ht)). }
        destruct (walk_down _ _ _ H a n key stk Ea Ha Eo ltac:(lia)
          (h_key _ _ _ _ _ H target key (proj1 Ht) Hlo) P2) as (b & W1 & W2 & W3 & W4 & W5 & W6).
        rewrite W1 in Hs. cbn [sbind] in Hs. injection Hs as <- <-. cbn [th goto]. rewrite supd_same.
        split; cbn.
        -- intros z Hz. apply in_app_or in Hz as [Hz|[<-|Hz]]; auto; apply J1; apply in_or_app; auto.
        -- intros ? [= <-]. left. split; auto. apply W5, Hsa.
    + unf Hs; injection Hs as <- <-; cbn [th goto]; rewrite supd_same; split; cbn; auto; try discriminate.
      * intros ? [= <-]. left. eapply nx_safe; eauto.
      * rewrite app_nil_r. intros z Hz. apply J1, in_or_app. now left.
  - (* PMerge *) unf Hs; injection Hs as <- <-; cbn [th goto own]; rewrite supd_same; split; cbn; auto; try discriminate;
      try tauto; intros z Hz; apply J1; rewrite ?in_app_iff in *; cbn in *; tauto.
  - (* PMergeAt *) assert (Hx : safe s G i x) by (apply J1; now left).
    assert (Hst : forall z, In z stk -> safe s G i z) by (intros z Hz; apply J1; now right).
    unf Hs; injection Hs as <- <-; cbn [th goto own setp]; rewrite supd_same; split; cbn; auto; try discriminate; try tauto.
    intros z [<-|Hz]; auto. eapply (nx_safe s G I i (fun _ => False) x); eauto. now left.
  - (* PMrg1 *) destruct Hp as (Hpr & _).
    unf Hs; injection Hs as <- <-; cbn [th goto own setp]; rewrite supd_same; split; cbn; auto; try discriminate.
    intros z [<-|Hz]; auto. apply live_safe, Hpr.
  - (* PMrg2 *) injection Hs as <- <-; cbn [th goto own setp]; rewrite supd_same.
    destruct up as [[p [|y stk]]|]; split; cbn; try tauto; try discriminate.
    intros z Hz. apply J1. cbn. tauto.
  - (* PShr *) unf Hs; injection Hs as <- <-; cbn [th goto]; rewrite supd_same; split; cbn; try tauto; try discriminate.
    intros z [<-|[]]. apply live_safe, Hp.
  - (* PShrL *) unf Hs; injection Hs as <- <-; cbn [th goto own setp]; rewrite supd_same; split; cbn; try tauto; discriminate.
  - (* PShrSt *) injection Hs as <- <-; cbn [th goto rootp]; rewrite supd_same; split; cbn; try discriminate.
    intros z [<-|[]]. apply live_safe, Hp.
  - (* PShrEnd *) injection Hs as <- <-; cbn [th goto own]; rewrite supd_same; split; cbn; try tauto; discriminate.
  - (* PRet *) injection Hs as <- <-; cbn [th goto]; rewrite supd_same; split; cbn; try tauto; discriminate.
Qed.

End Call.

Section Later.
Context (s s' : cfg) (G G' : gh).
Hypothesis X : gext s s' G G'.

Lemma safe_later i z : i <= length (tr s) -> safe s G i z -> safe s' G' i z.
Proof.
  intros Hi (H1 & H2). split; [eapply ext_lt; eauto|]. eapply gle_dle; eauto. apply (x_gle _ _ _ _ X).
Qed.

Lemma curok_later i (D D' : addr -> Prop) a : i <= length (tr s) -> (forall z, D z -> D' z) ->
  curok s G i D a -> curok s' G' i D' a.
Proof.
  intros Hi HD [Q|(Q1 & Q2)]; [left; now apply safe_later|right]. split; auto. now apply (x_dead _ _ _ _ X).
Qed.

Lemma jc_later i (D D' : addr -> Prop) p : i <= length (tr s) -> (forall z, D z -> D' z) ->
  jc s G i D p -> jc s' G' i D' p.
Proof.
  intros Hi HD (J1 & J2). split; intros; [apply safe_later; auto|eapply curok_later; eauto].
Qed.
End Later.

(** ** What a step of a call changes *)

Section Frame.
Context (fx : fixes).

Ltac cases Hs := unfold cstep, sbind in Hs;
  repeat (match type of Hs with context [match ?x with _ => _ end] => destruct x eqn:? end; try discriminate);
  injection Hs as <- <-.

Lemma cstep_th t s l c u : cstep osl fx t s = SOk l c -> u <> t -> th c u = th s u.
Proof.
  intros Hs Hu. cases Hs; cbn [th goto setp own newp rootp]; auto; now rewrite supd_diff.
Qed.

Lemma cstep_root t s l c : cstep osl fx t s = SOk l c ->
  croot c = croot s \/
  (exists r stk x y k, th s t = PTrySt r stk x y k /\ croot c = cfr s /\ cfr c = S (cfr s) /\ th c t = PRet r) \/
  (exists r p, th s t = PShrSt r p /\ croot c = p).
Proof.
  intros Hs. cases Hs; cbn [croot cfr th goto setp own newp rootp]; auto.
  - right. left. rewrite supd_same. eauto 10.
  - right. right. eauto.
Qed.

Lemma cstep_mrg2 t s l c r x m up : cstep osl fx t s = SOk l c -> th c t = PMrg2 r x m up ->
  exists y, th s t = PMrg1 r y x up.
Proof.
  intros Hs. cases Hs; cbn [th goto setp own newp rootp]; rewrite ?supd_same; try discriminate; try congruence.
  all: try (destruct stk; discriminate).
  all: try (intros [= <- <- <- <-]; eauto).
Qed.

Lemma comp_not r stk x y k r' q : comp r stk x y k <> PShrL r' q.
Proof. destruct stk; discriminate. Qed.

Lemma cstep_shrl t s l c r q : cstep osl fx t s = SOk l c -> th c t = PShrL r q ->
  th s t = PShr r q \/ exists p, th s t = PShrL r p /\ six s q = None.
Proof.
  intros Hs Hq. unfold cstep in Hs. destruct (th s t) eqn:E; unfold sbind in Hs;
    repeat (match type of Hs with context [match ?x with _ => _ end] => destruct x eqn:? end; try discriminate);
    injection Hs as <- <-; cbn [th goto setp own newp rootp] in Hq; rewrite ?supd_same in Hq; try discriminate;
    try congruence; try (now apply comp_not in Hq).
  - left. congruence.
  - right. injection Hq as -> ->. eexists. split; [reflexivity|].
    unfold free in *. destruct (six s q); [discriminate|auto].
Qed.

Lemma cstep_dropped t s l c r p : cstep osl fx t s = SOk l c -> th s t = PShrL r p ->
  (exists q, shrinking (th c t) q) /\ exists d, ch s p = Some d /\ ch c p = Some (nd_remove_root d).
Proof.
  intros Hs E. unfold cstep in Hs. rewrite E in Hs. unfold sbind in Hs.
  repeat (match type of Hs with context [match ?x with _ => _ end] => destruct x eqn:? end; try discriminate);
    injection Hs as <- <-; cbn [th ch goto setp own newp rootp]; rewrite supd_same; (split; [unfold shrinking; eauto|]);
    eexists; (split; [eauto|]); unfold upd; now rewrite Nat.eqb_refl.
Qed.

Lemma cstep_merged t s l c r x m up : cstep osl fx t s = SOk l c -> th s t = PMrg2 r x m up -> ch c x = Some m.
Proof.
  intros Hs E. unfold cstep in Hs. rewrite E in Hs. injection Hs as <- <-.
  cbn [ch goto own setp]. unfold upd. now rewrite Nat.eqb_refl.
Qed.

Lemma cstep_idle t s l c : cstep osl fx t s = SOk l c -> th s t = PIdle -> exists x, th c t = PRoot x.
Proof.
  intros Hs E. unfold cstep in Hs. rewrite E in Hs. destruct (pg s t) as [|x cs]; [discriminate|].
  injection Hs as <- <-. cbn [th]. rewrite supd_same. eauto.
Qed.

Lemma cstep_ret t s l c r : cstep osl fx t s = SOk l c -> th s t = PRet r -> th c t = PIdle.
Proof.
  intros Hs E. unfold cstep in Hs. rewrite E in Hs. injection Hs as <- <-. cbn [th goto]. apply supd_same.
Qed.

Lemma cstep_shrst t s l c r p : cstep osl fx t s = SOk l c -> th s t = PShrSt r p -> croot c = p.
Proof. intros Hs E. unfold cstep in Hs. rewrite E in Hs. now injection Hs as <- <-. Qed.

End Frame.

(** ** The invariant *)

Section Inv.
Context (late keep : bool).
Notation after := (after late keep).

Definition removed_at (s : cfg) (p : addr) : Prop := exists d, ch s p = Some d /\ nd_removed d = true.

(** If [a] has been retired, the guard of [q] protects it. *)
Definition prot (s : rcfg) (q : party) (a : addr) : Prop := forall w, gb s a = Some w -> In q w.

Definition scan_ok (s : rcfg) (G : gh) (st : party -> nat) (u : tid) (p : spc) : Prop :=
  let b := base (rs s) in
  let q := ByScan u in
  match p with
  | SIdle | SRet _ _ _ => True
  | SRoot lo _ => In q (act s) /\ vb lo
  | SDesc lo _ a =>
      In q (act s) /\ vb lo /\ a < cfr b /\
      ((deadroot b a /\ prot s q a) \/
       (dle (Some (st q)) (dd G a) /\
        match lo with
        | Some (key, _) => ele (ConcInv.lo G a) (Key key)
        | None => ConcInv.lo G a = NegInf
        end))
  | SHold _ _ a _ _ =>
      a < cfr b /\ lv G a = 0 /\
      if keep then In q (act s) /\ dle (Some (st q)) (dd G a)
      else gb s a = None
  | OReset _ _ a _ _ | OPos _ _ a _ _ _ | OEnd _ _ a _ _ _ _ | OLoop _ _ a _ _ _ _ _ _ =>
      In q (act s) /\ safe b G (st q) a
  end.

Record rinv (s : rcfg) (G : gh) (st : party -> nat) : Prop := {
  ri_inv : inv (base (rs s)) G;
  ri_st : forall q, In q (act s) -> st q <= length (tr (base (rs s)));
  ri_call : forall t, th (base (rs s)) t <> PIdle -> In (ByCall t) (act s) /\
    jc (base (rs s)) G (st (ByCall t)) (prot s (ByCall t)) (th (base (rs s)) t);
  ri_scan : forall u, scan_ok s G st u (sth (rs s) u);
  ri_q : forall u lo hi, In (lo, hi) (sq (rs s) u) -> vb lo /\ vb hi;
  ri_gb : forall p w, gb s p = Some w -> p < cfr (base (rs s)) /\ (forall q, In q w -> In q (act s)) /\
    ((exists T, dd G p = Some T /\ removed_at (base (rs s)) p /\
        forall q, In q (act s) -> st q <= T -> In q w) \/
     (late = false /\ (exists t r, th (base (rs s)) t = PShrL r p) /\ forall q, In q (act s) -> In q w));
  ri_root : if late then gb s (croot (base (rs s))) = None
            else forall q, In q (act s) -> dle (Some (st q)) (dd G (croot (base (rs s))));
  ri_hold : forall t, NoDup (hold s t) /\ forall p, In p (hold s t) ->
    late = true /\ p < cfr (base (rs s)) /\ gb s p = None /\ lv G p <> 0 /\
    ((exists r, th (base (rs s)) t = PShrL r p) \/
     (removed_at (base (rs s)) p /\ exists q, shrinking (th (base (rs s)) t) q));
  ri_shr : forall t r p, th (base (rs s)) t = PShrL r p -> if late then In p (hold s t) else gb s p <> None;
  ri_leak : forall p, removed_at (base (rs s)) p -> gb s p <> None \/ exists t, In p (hold s t);
}.

Lemma party_eqb_ok x y : party_eqb x y = true <-> x = y.
Proof.
  destruct x, y; cbn; rewrite ?Nat.eqb_eq; split; intros; try discriminate; congruence.
Qed.
Lemma in_leave x y l : In y (leave x l) <-> In y l /\ y <> x.
Proof.
  unfold leave. rewrite filter_In. destruct (party_eqb x y) eqn:E; cbn.
  - apply party_eqb_ok in E. subst. split; [intros [_ ?]; discriminate|tauto].
  - split; [|tauto]. intros [H _]. split; auto. intros ->.
    assert (party_eqb x x = true) by now apply party_eqb_ok. congruence.
Qed.

Lemma retire_in l w g a : In a l -> retire l w g a = Some w.
Proof.
  intros H. unfold retire. replace (existsb (Nat.eqb a) l) with true; auto. symmetry.
  apply existsb_exists. exists a. now rewrite Nat.eqb_refl.
Qed.
Lemma retire_out l w g a : ~ In a l -> retire l w g a = g a.
Proof.
  intros H. unfold retire. destruct (existsb (Nat.eqb a) l) eqn:E; auto.
  apply existsb_exists in E as (x & Hx & E). apply Nat.eqb_eq in E. now subst.
Qed.
Lemma retire_cases l w g a x : retire l w g a = Some x -> (In a l /\ x = w) \/ (~ In a l /\ g a = Some x).
Proof.
  destruct (in_dec Nat.eq_dec a l) as [H|H].
  - rewrite retire_in by auto. intros [= <-]. auto.
  - rewrite retire_out by auto. auto.
Qed.

Section Facts.
Context (s : rcfg) (G : gh) (st : party -> nat) (R : rinv s G st).
Let b := base (rs s).
Let I : inv b G := ri_inv _ _ _ R.
Let H := i_heap _ _ _ I.

Lemma live_unretired p : lives b G p -> (forall t r, th b t <> PShrL r p) -> gb s p = None.
Proof.
  intros (_ & Hd) Ht. destruct (gb s p) as [w|] eqn:E; auto. exfalso.
  destruct (ri_gb _ _ _ R p w E) as (_ & _ & [(T & Q & _)|(_ & (t & r & Q) & _)]); [congruence|].
  eapply Ht; eauto.
Qed.

Lemma live_late p : late = true -> lives b G p -> gb s p = None.
Proof.
  intros Hl (_ & Hd). destruct (gb s p) as [w|] eqn:E; auto. exfalso.
  destruct (ri_gb _ _ _ R p w E) as (_ & _ & [(T & Q & _)|(Q & _)]); congruence.
Qed.

Lemma safe_unreleased q a : In q (act s) -> safe b G (st q) a -> ~ released s a.
Proof.
  intros Hq (_ & Hd) Hr. destruct (ri_gb _ _ _ R a [] Hr) as (_ & _ & [(T & Q & _ & Hw)|(_ & _ & Hw)]).
  - rewrite Q in Hd. exact (Hw q Hq Hd).
  - exact (Hw q Hq).
Qed.

Lemma curok_unreleased q a : In q (act s) -> curok b G (st q) (prot s q) a -> ~ released s a.
Proof. intros Hq [Hs|(_ & Hp)]; [now apply (safe_unreleased q)|]. intros Hr. exact (Hp [] Hr). Qed.

Lemma root_curok q : In q (act s) -> curok b G (st q) (prot s q) (croot b).
Proof.
  intros Hq. destruct (i_root _ _ _ I) as (R0 & HR). pose proof (ri_root _ _ _ R) as Hr.
  destruct late.
  - destruct (r_cur _ _ _ HR) as [E|(Q & _)].
    + left. rewrite E. apply live_safe, HR.
    + right. split; auto. intros w Hw. unfold b in *. congruence.
  - left. split; [apply HR|auto].
Qed.

(** The pages a call uses. *)
Lemma call_unreleased t a : In a (call_touches b (th b t)) -> ~ released s a.
Proof.
  intros Ha. destruct (match th b t with PIdle => true | _ => false end) eqn:Ei.
  { destruct (th b t); try discriminate. destruct Ha. }
  assert (Hn : th b t <> PIdle) by (intros Q; now rewrite Q in Ei).
  destruct (ri_call _ _ _ R t Hn) as (Hact & J1 & J2). fold b in J1, J2. clear Hn Ei.
  pose proof (i_pc _ _ _ I t) as Hp.
  assert (K1 : forall z, In z (ptrs (th b t)) -> ~ released s z).
  { intros z Hz. eapply safe_unreleased; eauto. }
  assert (K2 : forall z, cur (th b t) = Some z -> ~ released s z).
  { intros z Hz. eapply curok_unreleased; eauto. }
  assert (K3 : forall z, lives b G z -> ~ released s z).
  { intros z Hz. eapply safe_unreleased; eauto. now apply live_safe. }
  assert (K4 : forall z y, lives b G z -> In y (next_page b z) -> ~ released s y).
  { intros z y Hz Hy. unfold next_page in Hy. destruct (ch b z) as [d|] eqn:E; [|destruct Hy].
    destruct (nd_next d) as [x|] eqn:En; [|destruct Hy]. destruct Hy as [<-|[]].
    eapply safe_unreleased; eauto. eapply right_safe; [|eapply next_right; eauto]. now apply live_safe. }
  destruct (th b t) eqn:E; cbn [call_touches ptrs cur pc_ok] in *; try (destruct Ha; fail).
  - destruct Ha as [<-|[]]. auto.
  - destruct Ha as [<-|[]]. apply K3, Hp.
  - destruct Hp as (_ & _ & (_ & _ & P1 & P2 & _) & _). destruct Ha as [<-|[<-|[]]]; auto.
  - destruct Ha as [<-|[]]. apply K3, Hp.
  - destruct Ha as [<-|[]]. apply K1. now left.
  - destruct Ha as [<-|[]]. apply K1. now left.
  - destruct Ha as [<-|[]]. apply K3, Hp.
  - destruct Hp as (_ & _ & (_ & _ & P1 & P2 & _) & _). destruct Ha as [<-|[<-|[]]]; auto.
  - destruct Ha as [<-|[]]. apply K3, Hp.
  - destruct Ha as [<-|[]]. auto.
  - destruct Hp as (_ & P1 & _). destruct Ha as [<-|Ha]; eauto.
  - destruct Hp as ((_ & _ & P1 & P2 & _) & _). destruct Ha as [<-|[<-|[<-|[]]]]; auto. apply K1. now left.
  - destruct Hp as ((_ & _ & P1 & P2 & _) & _). destruct Ha as [<-|[<-|[]]]; auto.
  - destruct Ha as [<-|[]]. apply K1. now left.
  - destruct Ha as [<-|[]]. apply K3, Hp.
  - destruct Hp as (_ & P1 & P2 & _). destruct Ha as [<-|Ha]; auto.
    unfold first_child in Ha. destruct (ch b p) as [d|] eqn:Ed; [|destruct Ha].
    destruct (nd_child d 0) as [x|] eqn:Ec; [|destruct Ha]. destruct Ha as [<-|[]].
    assert (Hr : nd_removed d = false).
    { destruct (nd_removed d) eqn:Q; auto. destruct (h_dead _ _ _ _ _ H p d Ed Q) as (Q1 & _).
      destruct P1. congruence. }
    eapply safe_unreleased; eauto. eapply inner_kid; eauto; [eapply child0_kid; eauto|now apply live_safe].
  - destruct Ha as [<-|[]]. apply K3, Hp.
  - destruct Ha as [<-|[]]. apply K1. now left.
Qed.

End Facts.
End Inv.
End ReclProofs.
