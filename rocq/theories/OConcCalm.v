(** The optimistic multi-layer tree as it is (oml/b_tree.hpp), in executions in which no
    thread looks at a half-finished Merge or TryShrinkTree of another one: these executions
    do what the repaired tree does. *)
From Coq Require Import List Arith Bool Lia.
From Verif Require Import Params Mem Common Spec ConcSpec NodeAbs MLIface TreeState MLModel ConcModel ConcLin
  MConcModel OLaws OConcModel OConcInv OConcSteps OConcMain.
Import ListNotations.

Section OConcCalm.
Context {P : Params} {N : MLOps P}.

(** The pages the next step of [t] looks at, changes or retires, and whether it uses root_. *)
Definition otouch (s : ocfg) (t : tid) : list addr :=
  match oth s t with
  | ORd _ a | OWSt _ a | OWRs _ a _ | OWSh _ a _ | OShr1 _ a | OWd _ a _ | OWl _ a
  | OSpA _ a _ _ _ _ | OMgA _ a _ _ _ _ | OSpC _ a _ _ _ _ _ => [a]
  | OWc _ _ _ b _ => [b]
  | OSpB _ a _ b _ _ | OMgB _ a _ b _ _ => [a; b]
  | OMgC _ a b _ pos =>
      a :: b :: match och s a with
                | Some pn => match mn_child pn (pos + 1) with Some r => [r] | None => [] end
                | None => []
                end
  | OMg1 _ a b r _ | OMg3 _ a b r _ _ => [a; b; r]
  | OMg2 _ _ _ r _ _ => [r]
  | OIdle | ORoot _ | OWRoot _ | OShr2 _ _ | ORet _ => []
  end.
Definition oroots (s : ocfg) (t : tid) : bool :=
  match oth s t with
  | ORoot _ | OWRoot _ | OWRs _ _ _ | OWSh _ _ _ | OShr2 _ _ => true
  | _ => false
  end.

(** The page [u] has half changed: the right node of a Merge, between the unlocking of the left
    node (oml/node_fixlen.hpp:1035) and its own (:1040); the old root between AddGarbage
    (oml/b_tree.hpp:751) and RemoveRoot (:752).  root_ is half changed from AddGarbage until
    it is stored (:753). *)
Definition half (p : opc) : list addr :=
  match p with OMg2 _ _ _ r _ _ => [r] | OShr1 _ a => [a] | _ => [] end.
Definition halfroot (p : opc) : bool :=
  match p with OShr1 _ _ | OShr2 _ _ => true | _ => false end.

Definition ocalm_at (t : tid) (s : ocfg) : bool :=
  forallb (fun u => Nat.eqb u t ||
    (forallb (fun r => negb (existsb (Nat.eqb r) (otouch s t))) (half (oth s u)) &&
     negb (halfroot (oth s u) && oroots s t))) (oac s).
Fixpoint ocalm (s : ocfg) (sched : list tid) : bool :=
  match sched with
  | [] => true
  | t :: sched' =>
      match ostep false t s with
      | XOk l s' => ocalm_at t s && ocalm (o_emit s' l) sched'
      | XBlock => ocalm s sched'
      | XUndef => ocalm_at t s
      end
  end.

Section Sim.
Context {O : OrdLaws P} {LW : MLLaws P N} {OW : OMLaws P N LW}.

(** [z] is [s] with the half-finished changes completed. *)
Definition pair (s z : ocfg) (u : tid) : Prop :=
  match oth s u with
  | OMg2 c a b r w pos => oth z u = OMg3 c a b r w pos /\ osx s r = Some u /\ osx z r = None /\
      ovs z r = S (ovs s r) /\ exists n, och s r = Some n /\ och z r = Some (mn_mark_removed b n)
  | OShr1 c a => oth z u = OWRoot c /\ osx s a = Some u /\ osx z a = None /\
      ovs z a = S (ovs s a) /\ (exists w, ogb s a = Some w /\ In u w) /\
      exists n, och s a = Some n /\ och z a = Some (mn_remove_root n) /\ mn_child n 0 = Some (ort z)
  | OShr2 c b => oth z u = OWRoot c /\ ort z = b
  | p => oth z u = p
  end.

Record sim (s z : ocfg) : Prop := {
  m_fr : ofr z = ofr s;
  m_gb : forall x, ogb z x = ogb s x;
  m_ac : oac z = oac s;
  m_pg : forall u, opg z u = opg s u;
  m_tr : events (otr z) = events (otr s);
  m_th : forall u, pair s z u;
  m_pp : forall x, (forall u, ~ In x (half (oth s u))) ->
    och z x = och s x /\ ovs z x = ovs s x /\ osx z x = osx s x;
  m_rt : (forall u, halfroot (oth s u) = false) -> ort z = ort s;
  m_one : forall u v, halfroot (oth s u) = true -> halfroot (oth s v) = true -> u = v;
}.

Lemma pair_half s z u x : pair s z u -> In x (half (oth s u)) -> osx s x = Some u /\ och z x <> None.
Proof.
  unfold pair. destruct (oth s u); cbn; try tauto; intros H [->|[]].
  - destruct H as (_ & H & _ & _ & _ & n & _ & E & _). split; [auto|congruence].
  - destruct H as (_ & H & _ & _ & n & _ & E). split; [auto|congruence].
Qed.

(** Pages that nobody has half changed. *)
Definition whole (s : ocfg) (x : addr) : Prop := forall u, ~ In x (half (oth s u)).
Definition wroot (s : ocfg) : Prop := forall u, halfroot (oth s u) = false.

Lemma m_page s z x : sim s z -> whole s x -> opage z x = opage s x.
Proof. intros S Hx. unfold opage. rewrite (m_gb _ _ S). now rewrite (proj1 (m_pp _ _ S x Hx)). Qed.
Lemma m_vs s z x : sim s z -> whole s x -> ovs z x = ovs s x.
Proof. intros S Hx. apply (m_pp _ _ S x Hx). Qed.
Lemma m_free s z x : sim s z -> whole s x -> ofree z x = ofree s x.
Proof. intros S Hx. unfold ofree. now rewrite (proj2 (proj2 (m_pp _ _ S x Hx))). Qed.

Ltac flds := cbn [o_goto o_set o_new o_root o_own o_retire o_emit o_begin o_end och ort ofr ovs osx ogb oac oth opg otr].

(** Changes made on both sides. *)
Lemma sim_set s z x n : sim s z -> whole s x -> sim (o_set s x n) (o_set z x n).
Proof.
  intros S Hx. destruct S. split; flds; auto.
  - intros u. specialize (m_th0 u). specialize (Hx u). unfold pair in *. flds. destruct (oth s u); auto; cbn in Hx.
    + unfold supd, upd. destruct (Nat.eqb_spec a x); [tauto|]. exact m_th0.
    + unfold supd, upd. destruct (Nat.eqb_spec r x); [tauto|]. exact m_th0.
  - intros y Hy. destruct (m_pp0 y Hy) as (E1 & E2 & E3). unfold upd, supd.
    destruct (Nat.eqb_spec y x) as [->|]; auto.
Qed.

Lemma sim_own s z x o : sim s z -> whole s x -> sim (o_own s x o) (o_own z x o).
Proof.
  intros S Hx. destruct S. split; flds; auto.
  - intros u. specialize (m_th0 u). specialize (Hx u). unfold pair in *. flds. destruct (oth s u); auto; cbn in Hx.
    + unfold supd. destruct (Nat.eqb_spec a x); [tauto|]. exact m_th0.
    + unfold supd. destruct (Nat.eqb_spec r x); [tauto|]. exact m_th0.
  - intros y Hy. destruct (m_pp0 y Hy) as (E1 & E2 & E3). unfold supd.
    destruct (Nat.eqb_spec y x) as [->|]; auto.
Qed.

Lemma sim_new s z n : sim s z -> whole s (ofr s) -> sim (o_new s n) (o_new z n).
Proof.
  intros S Hx. destruct S. split; flds; auto.
  - intros u. specialize (m_th0 u). specialize (Hx u). unfold pair in *. flds. rewrite m_fr0.
    destruct (oth s u); auto; cbn in Hx.
    + unfold supd, upd. destruct (Nat.eqb_spec a (ofr s)); [tauto|]. exact m_th0.
    + unfold supd, upd. destruct (Nat.eqb_spec r (ofr s)); [tauto|]. exact m_th0.
  - intros y Hy. destruct (m_pp0 y Hy) as (E1 & E2 & E3). unfold upd, supd. rewrite m_fr0.
    destruct (Nat.eqb_spec y (ofr s)) as [->|]; auto.
Qed.

Lemma sim_root s z x : sim s z -> wroot s -> sim (o_root s x) (o_root z x).
Proof.
  intros S Hx. destruct S. split; flds; auto.
  intros u. specialize (m_th0 u). specialize (Hx u). unfold pair in *. flds. destruct (oth s u); auto; discriminate.
Qed.

Lemma sim_retire s z x : sim s z -> whole s x -> sim (o_retire s x) (o_retire z x).
Proof.
  intros S Hx. destruct S. split; flds; auto.
  - intros y. unfold supd. destruct (Nat.eqb y x); congruence.
  - intros u. specialize (m_th0 u). specialize (Hx u). unfold pair in *. flds. destruct (oth s u); auto; cbn in Hx.
    unfold supd. destruct (Nat.eqb_spec a x); [tauto|]. exact m_th0.
Qed.

Lemma sim_emit s z l l' : sim s z -> events [l'] = events [l] -> sim (o_emit s l) (o_emit z l').
Proof.
  intros S E. destruct S. split; flds; auto. rewrite !events_app. now rewrite m_tr0, E.
Qed.
Lemma sim_emit_l s z l : sim s z -> events [l] = [] -> sim (o_emit s l) z.
Proof.
  intros S E. destruct S. split; flds; auto. rewrite events_app. now rewrite E, app_nil_r.
Qed.

Definition plain (p : opc) : Prop := half p = [] /\ halfroot p = false.
Lemma plain_pair s z u : plain (oth s u) -> pair s z u <-> oth z u = oth s u.
Proof. unfold plain, pair. intros (H1 & H2). destruct (oth s u); cbn in *; try discriminate; tauto. Qed.

Lemma sim_goto s z t p : sim s z -> plain (oth s t) -> plain p -> sim (o_goto s t p) (o_goto z t p).
Proof.
  intros S H1 H2. destruct S. split; flds; auto.
  - intros u. destruct (Nat.eq_dec u t) as [->|Hu].
    + apply plain_pair; flds; unfold supd; rewrite Nat.eqb_refl; auto.
    + specialize (m_th0 u). unfold pair in *. flds. unfold supd. destruct (Nat.eqb_spec u t); [tauto|exact m_th0].
  - intros x Hx. apply m_pp0. intros u. specialize (Hx u). unfold supd in Hx. destruct (Nat.eqb_spec u t) as [e|]; [|auto].
    rewrite e, (proj1 H1). auto.
  - intros Hr. apply m_rt0. intros u. specialize (Hr u). unfold supd in Hr. destruct (Nat.eqb_spec u t) as [e|]; [|auto].
    rewrite e. apply H1.
  - intros u v Hu Hv. unfold supd in Hu, Hv.
    destruct (Nat.eqb_spec u t), (Nat.eqb_spec v t); subst; auto; destruct H2; congruence.
Qed.

Lemma sim_begin s z t cs : sim s z -> plain (oth s t) -> sim (o_begin s t cs) (o_begin z t cs).
Proof.
  intros S H1. destruct S. split; flds; auto.
  - now rewrite m_ac0.
  - intros u. unfold supd. destruct (Nat.eqb u t); auto.
Qed.

Lemma drop_in t u l : u <> t -> In u l -> In u (drop t l).
Proof. intros Hu Hl. apply filter_In. split; [auto|]. apply negb_true_iff, Nat.eqb_neq. auto. Qed.

Lemma sim_end s z t : sim s z -> plain (oth s t) -> sim (o_end s t) (o_end z t).
Proof.
  intros S H1. destruct S. split; flds; auto.
  - intros x. now rewrite m_gb0.
  - now rewrite m_ac0.
  - intros u. specialize (m_th0 u). unfold pair in *. flds. destruct (oth s u) eqn:E; auto.
    destruct m_th0 as (E1 & E2 & E3 & E4 & (w & E5 & E6) & E7). repeat (split; [auto; fail|]). split; [|auto].
    rewrite E5. exists (drop t w). split; [auto|]. apply drop_in; [|auto]. intros ->. rewrite E in H1. destruct H1. discriminate.
Qed.

(** [t] is not in the middle of Merge or TryShrinkTree, nor about to enter them. *)
Definition ordinary (p : opc) : Prop :=
  match p with OMg1 _ _ _ _ _ | OMg2 _ _ _ _ _ _ | OWSh _ _ _ | OShr1 _ _ | OShr2 _ _ => False | _ => True end.

Lemma whole_of s t : ocalm_at t s = true -> plain (oth s t) ->
  (forall u, oth s u <> OIdle -> In u (oac s)) ->
  (forall x, In x (otouch s t) -> whole s x) /\ (oroots s t = true -> wroot s).
Proof.
  intros Hc Hp Ha. unfold ocalm_at in Hc. rewrite forallb_forall in Hc.
  assert (Q : forall u, u <> t -> (forall x, In x (half (oth s u)) -> ~ In x (otouch s t)) /\
                        (halfroot (oth s u) = true -> oroots s t = false)).
  { intros u Hu. destruct (oth s u) eqn:E; try (split; cbn; [tauto|discriminate]); rewrite <- E.
    all: assert (Hin : In u (oac s)) by (apply Ha; congruence).
    all: specialize (Hc u Hin); destruct (Nat.eqb_spec u t); [tauto|]; cbn [orb] in Hc.
    all: apply andb_true_iff in Hc as (H1 & H2); rewrite forallb_forall in H1; split.
    all: try (intros x Hx Hx'; specialize (H1 x Hx); apply negb_true_iff in H1;
      assert (existsb (Nat.eqb x) (otouch s t) = true) by (apply existsb_exists; exists x; split; [auto|apply Nat.eqb_refl]);
      congruence).
    all: intros Hh; rewrite Hh in H2; now apply negb_true_iff in H2. }
  split.
  - intros x Hx u Hu. destruct (Nat.eq_dec u t) as [->|Hne]; [rewrite (proj1 Hp) in Hu; destruct Hu|].
    exact (proj1 (Q u Hne) x Hu Hx).
  - intros Hr u. destruct (Nat.eq_dec u t) as [->|Hne]; [apply Hp|].
    destruct (halfroot (oth s u)) eqn:E; [|auto]. destruct (Q u Hne) as (_ & H). specialize (H E). congruence.
Qed.

Lemma ordinary_plain p : ordinary p -> plain p.
Proof. destruct p; cbn; try tauto; intros _; split; reflexivity. Qed.

Lemma whole_set s x n y : whole (o_set s x n) y <-> whole s y. Proof. reflexivity. Qed.

Ltac simgo s E := repeat first
  [ assumption
  | apply sim_goto | apply sim_set | apply sim_own | apply sim_new | apply sim_root | apply sim_retire
  | apply sim_begin | apply sim_end
  | match goal with
    | |- plain (oth _ ?t) => change (plain (oth s t)); rewrite E; split; reflexivity
    | |- plain (if ?b then _ else _) => destruct b; split; reflexivity
    | |- plain _ => split; reflexivity
    | |- whole _ ?x => change (whole s x); solve [auto]
    | |- wroot _ => change (wroot s); solve [auto]
    end ].
Ltac same s E := unfold xbind; cbv zeta;
    repeat match goal with |- context [match ?e with _ => _ end] =>
      match type of e with ores => fail 1 | _ => destruct e eqn:? end end;
    try exact Logic.I; try reflexivity;
    eexists; (split; [reflexivity|]); simgo s E.

Lemma vs_split s z a n m (q : bool) : ovs z a = ovs s a -> ofr z = ofr s ->
  ovs (o_set (o_new z n) a m) (if q then a else ofr s) = ovs (o_set (o_new s n) a m) (if q then a else ofr s).
Proof.
  intros E1 E2. flds. rewrite E2. unfold supd. destruct q; rewrite ?Nat.eqb_refl, E1; [auto|].
  destruct (Nat.eqb _ a); auto.
Qed.
Lemma vs_split2 s z a n n2 m x (q : bool) : ovs z a = ovs s a -> ofr z = ofr s ->
  ovs (o_root (o_set (o_new (o_new z n) n2) a m) x) (if q then a else ofr s) =
  ovs (o_root (o_set (o_new (o_new s n) n2) a m) x) (if q then a else ofr s).
Proof.
  intros E1 E2. flds. rewrite E2. unfold supd. destruct q; rewrite ?Nat.eqb_refl, E1; [auto|].
  repeat (destruct (Nat.eqb _ _); auto).
Qed.

Lemma ord_step s z t : sim s z -> ordinary (oth s t) -> whole s (ofr s) -> whole s (S (ofr s)) ->
  (forall x, In x (otouch s t) -> whole s x) -> (oroots s t = true -> wroot s) ->
  match ostep false t s with
  | XOk l s' => exists z', ostep true t z = XOk l z' /\ sim s' z'
  | XBlock => ostep true t z = XBlock
  | XUndef => ostep true t z = XUndef
  end.
Proof.
  intros S Ho Hf Hf' Ht Hr. pose proof (ordinary_plain _ Ho) as Hp.
  pose proof (proj1 (plain_pair s z t Hp) (m_th _ _ S t)) as Eth.
  assert (Hpg : forall x, In x (otouch s t) -> opage z x = opage s x) by (intros; apply m_page; auto).
  assert (Hvs : forall x, In x (otouch s t) -> ovs z x = ovs s x) by (intros; apply m_vs; auto).
  assert (Hfr : forall x, In x (otouch s t) -> ofree z x = ofree s x) by (intros; apply m_free; auto).
  assert (Hrt : oroots s t = true -> ort z = ort s) by (intros H; apply (m_rt _ _ S); now apply Hr).
  pose proof (m_fr _ _ S) as Ef. pose proof (m_pg _ _ S t) as Epg.
  unfold ostep. rewrite Eth. unfold otouch, oroots in *.
  destruct (oth s t) eqn:E; cbn [In ordinary] in *; try tauto.
  all: rewrite ?Hpg, ?Hvs, ?Hfr, ?Hrt, ?Ef, ?Epg by (auto; tauto).
  all: try (same s E; fail).
  - unfold xbind. destruct (opage s a) as [n|]; [|auto].
    destruct (negb (ovs s a =? v)); [eexists; split; [reflexivity|]; simgo s E|].
    destruct (ofree s a); [|auto].
    destruct (negb (ort s =? a)); [eexists; split; [reflexivity|]; simgo s E|].
    destruct (mn_split n (ofr s) (mn_new (mn_inner n))) as [lr|]; [|auto].
    destruct (mn_highkey (fst lr)) as [sep|]; [|auto].
    destruct (mn_root2 sep a (ofr s)) as [rn|]; [|auto].
    eexists. split; [rewrite vs_split2 by auto; reflexivity|]. simgo s E.
  - unfold xbind. destruct (opage s b) as [n|]; [|auto].
    destruct (negb (ovs s b =? w)); [eexists; split; [reflexivity|]; simgo s E|].
    destruct (ofree s b); [|auto].
    destruct (mn_split n (ofr s) (mn_new (mn_inner n))) as [lr|]; [|auto].
    destruct (mn_highkey (fst lr)) as [sep|]; [|auto].
    eexists. split; [rewrite vs_split by auto; reflexivity|]. simgo s E.
  - unfold xbind. destruct (opage s a) as [pn|] eqn:Ea; [|auto].
    destruct (opage s b) as [n|]; [|auto].
    destruct (pos + 1 =? mn_rc pn); [eexists; split; [reflexivity|]; simgo s E|].
    destruct (mn_child pn (pos + 1)) as [r|] eqn:Er; [|auto].
    assert (Eo : och s a = Some pn) by (unfold opage in Ea; destruct (ogb s a) as [[|]|]; congruence).
    rewrite Eo, Er in *. cbn [In] in *.
    rewrite Hpg, Hfr by auto. destruct (opage s r) as [rn|]; [|auto]. destruct (ofree s r); [|auto].
    destruct (mn_can_merge n rn); eexists; (split; [reflexivity|]); simgo s E.
Qed.

(** Thread [t] begins, or completes, the change of page [x] on one side only. *)
Lemma pair_other s z s' z' t u x : u <> t -> ~ In x (half (oth s u)) ->
  oth s' u = oth s u -> oth z' u = oth z u ->
  (forall y, y <> x -> och s' y = och s y /\ ovs s' y = ovs s y /\ osx s' y = osx s y /\ ogb s' y = ogb s y) ->
  (forall y, y <> x -> och z' y = och z y /\ ovs z' y = ovs z y /\ osx z' y = osx z y) ->
  (ort z' = ort z \/ halfroot (oth s u) = false) ->
  pair s z u -> pair s' z' u.
Proof.
  intros Hu Hx E1 E2 Hs Hz Hr. unfold pair. rewrite E1, E2. destruct (oth s u); auto; cbn in Hx, Hr.
  - assert (Ha : a <> x) by (intros ->; tauto). destruct (Hs a Ha) as (-> & -> & -> & ->), (Hz a Ha) as (-> & -> & ->).
    destruct Hr as [->|]; [auto|discriminate].
  - destruct Hr as [->|]; [auto|discriminate].
  - assert (Ha : r <> x) by (intros ->; tauto). destruct (Hs r Ha) as (-> & -> & -> & _), (Hz r Ha) as (-> & -> & ->). auto.
Qed.

Lemma upd_diff' {A} (f : addr -> A) x v y : y <> x -> supd f x v y = f y.
Proof. intros H. unfold supd. destruct (Nat.eqb_spec y x); congruence. Qed.
Lemma upd_diff2 {A} (f : addr -> option A) x v y : y <> x -> upd f x v y = f y.
Proof. intros H. unfold upd. destruct (Nat.eqb_spec y x); congruence. Qed.
Lemma upd_same2 {A} (f : addr -> option A) x v : upd f x v x = v.
Proof. unfold upd. now rewrite Nat.eqb_refl. Qed.

Ltac diffs := let y := fresh "y" in let Hy := fresh "Hy" in
  intros y Hy; flds; rewrite ?upd_diff', ?upd_diff2 by auto; auto.

Lemma sim_mg1 s z t c a b r w pos rn : sim s z -> plain (oth s t) -> whole s r ->
  osx s r = Some t -> och s r = Some rn ->
  sim (o_goto s t (OMg2 c a b r w pos))
      (o_goto (o_own (o_set z r (mn_mark_removed b rn)) r None) t (OMg3 c a b r w pos)).
Proof.
  intros S Hp Hr Ho Ern. destruct (m_pp _ _ S r Hr) as (E1 & E2 & E3). destruct S. split; flds; auto.
  - intros u. destruct (Nat.eq_dec u t) as [->|Hu].
    + unfold pair. flds. rewrite !supd_same, upd_same2. split; [auto|]. split; [auto|]. split; [auto|]. split; [congruence|]. eauto.
    + eapply (pair_other s z _ _ t u r); [auto|apply Hr| | | | | |apply m_th0]; flds; rewrite ?supd_diff by auto; auto; try diffs.
  - intros x Hx. assert (Hxr : x <> r).
    { intros ->. apply (Hx t). rewrite supd_same. now left. }
    rewrite ?upd_diff', ?upd_diff2 by auto. apply m_pp0. intros u. specialize (Hx u).
    destruct (Nat.eq_dec u t) as [e|]; [|now rewrite supd_diff in Hx]. rewrite e, (proj1 Hp). auto.
  - intros H. apply m_rt0. intros u. specialize (H u). destruct (Nat.eq_dec u t) as [e|]; [|now rewrite supd_diff in H].
    rewrite e. apply Hp.
  - intros u v Hu Hv. destruct (Nat.eq_dec u t) as [->|]; [rewrite supd_same in Hu; discriminate|].
    destruct (Nat.eq_dec v t) as [->|]; [rewrite supd_same in Hv; discriminate|]. rewrite supd_diff in Hu, Hv by auto. auto.
Qed.

Lemma sim_mg2 s z t c a b r w pos rn : sim s z -> oth s t = OMg2 c a b r w pos -> och s r = Some rn ->
  sim (o_goto (o_own (o_set s r (mn_mark_removed b rn)) r None) t (OMg3 c a b r w pos)) z.
Proof.
  intros S E Ern. assert (Hn : forall u, u <> t -> ~ In r (half (oth s u))).
  { intros u Hu Hin. destruct (pair_half _ _ _ _ (m_th _ _ S u) Hin) as (Q & _).
    pose proof (m_th _ _ S t) as Ht. unfold pair in Ht. rewrite E in Ht. destruct Ht as (_ & Ht & _). congruence. }
  destruct S. pose proof (m_th0 t) as Ht. unfold pair in Ht. rewrite E in Ht.
  destruct Ht as (H1 & H2 & H3 & H4 & n & H5 & H6). assert (n = rn) by congruence. subst n.
  split; flds; auto.
  - intros u. destruct (Nat.eq_dec u t) as [->|Hu].
    + unfold pair. flds. rewrite !supd_same. auto.
    + eapply (pair_other s z _ _ t u r); [auto|now apply Hn| | | | | |apply m_th0]; flds; rewrite ?supd_diff by auto; auto; try diffs.
  - intros x Hx. destruct (Nat.eq_dec x r) as [->|Hxr].
    { rewrite upd_same2. unfold supd. rewrite Nat.eqb_refl. auto. }
    rewrite ?upd_diff', ?upd_diff2 by auto. apply m_pp0. intros u. specialize (Hx u).
    destruct (Nat.eq_dec u t) as [e|]; [|now rewrite supd_diff in Hx]. rewrite e, E. cbn. intros [|[]]; congruence.
  - intros H. apply m_rt0. intros u. specialize (H u). destruct (Nat.eq_dec u t) as [e|]; [|now rewrite supd_diff in H].
    rewrite e, E. reflexivity.
  - intros u v Hu Hv. destruct (Nat.eq_dec u t) as [->|]; [rewrite supd_same in Hu; discriminate|].
    destruct (Nat.eq_dec v t) as [->|]; [rewrite supd_same in Hv; discriminate|]. rewrite supd_diff in Hu, Hv by auto. auto.
Qed.

Lemma sim_shr0 s z t c a b n : sim s z -> plain (oth s t) -> whole s a -> wroot s -> In t (oac s) ->
  osx s a = None -> och s a = Some n -> mn_child n 0 = Some b ->
  sim (o_goto (o_own (o_retire s a) a (Some t)) t (OShr1 c a))
      (o_goto (o_retire (o_root (o_set z a (mn_remove_root n)) b) a) t (OWRoot c)).
Proof.
  intros S Hp Ha Hw Hin Ho En Eb. destruct (m_pp _ _ S a Ha) as (E1 & E2 & E3). destruct S. split; flds; auto.
  - intros x. unfold supd. destruct (Nat.eqb x a); congruence.
  - intros u. destruct (Nat.eq_dec u t) as [->|Hu].
    + unfold pair. flds. rewrite !supd_same, upd_same2.
      split; [auto|]. split; [auto|]. split; [congruence|]. split; [congruence|]. split; [eauto|]. eauto.
    + eapply (pair_other s z _ _ t u a); [auto|apply Ha| | | | | |apply m_th0]; flds; rewrite ?supd_diff by auto; auto; try diffs.
  - intros x Hx. assert (Hxr : x <> a).
    { intros ->. apply (Hx t). rewrite supd_same. now left. }
    rewrite ?upd_diff', ?upd_diff2 by auto. apply m_pp0. intros u. specialize (Hx u).
    destruct (Nat.eq_dec u t) as [e|]; [|now rewrite supd_diff in Hx]. rewrite e, (proj1 Hp). auto.
  - intros H. specialize (H t). rewrite supd_same in H. discriminate.
  - intros u v Hu Hv. destruct (Nat.eq_dec u t) as [->|]; [|rewrite supd_diff, Hw in Hu by auto; discriminate].
    destruct (Nat.eq_dec v t) as [->|]; [auto|rewrite supd_diff, Hw in Hv by auto; discriminate].
Qed.

Lemma sim_shr1 s z t c a n b : sim s z -> oth s t = OShr1 c a -> och s a = Some n -> mn_child n 0 = Some b ->
  sim (o_goto (o_own (o_set s a (mn_remove_root n)) a None) t (OShr2 c b)) z.
Proof.
  intros S E En Eb. assert (Hn : forall u, u <> t -> ~ In a (half (oth s u))).
  { intros u Hu Hin. destruct (pair_half _ _ _ _ (m_th _ _ S u) Hin) as (Q & _).
    pose proof (m_th _ _ S t) as Ht. unfold pair in Ht. rewrite E in Ht. destruct Ht as (_ & Ht & _). congruence. }
  destruct S. pose proof (m_th0 t) as Ht. unfold pair in Ht. rewrite E in Ht.
  destruct Ht as (H1 & H2 & H3 & H4 & _ & n' & H5 & H6 & H7). assert (n' = n) by congruence. subst n'.
  split; flds; auto.
  - intros u. destruct (Nat.eq_dec u t) as [->|Hu].
    + unfold pair. flds. rewrite !supd_same. split; [auto|congruence].
    + eapply (pair_other s z _ _ t u a); [auto|now apply Hn| | | | | |apply m_th0]; flds; rewrite ?supd_diff by auto; auto; try diffs.
  - intros x Hx. destruct (Nat.eq_dec x a) as [->|Hxr].
    { rewrite upd_same2. unfold supd. rewrite Nat.eqb_refl. auto. }
    rewrite ?upd_diff', ?upd_diff2 by auto. apply m_pp0. intros u. specialize (Hx u).
    destruct (Nat.eq_dec u t) as [e|]; [|now rewrite supd_diff in Hx]. rewrite e, E. cbn. intros [|[]]; congruence.
  - intros H. specialize (H t). rewrite supd_same in H. discriminate.
  - intros u v Hu Hv. assert (Hall : forall x, halfroot (supd (oth s) t (OShr2 c b) x) = true -> halfroot (oth s x) = true).
    { intros x. destruct (Nat.eq_dec x t) as [->|]; [now rewrite E|now rewrite supd_diff]. }
    apply m_one0; auto.
Qed.

Lemma sim_shr2 s z t c b : sim s z -> oth s t = OShr2 c b -> sim (o_goto (o_root s b) t (OWRoot c)) z.
Proof.
  intros S E. destruct S. pose proof (m_th0 t) as Ht. unfold pair in Ht. rewrite E in Ht. destruct Ht as (H1 & H2).
  assert (Hall : forall x, x <> t -> halfroot (oth s x) = false).
  { intros x Hx. destruct (halfroot (oth s x)) eqn:Ex; [|auto]. elim Hx. apply m_one0; [auto|now rewrite E]. }
  split; flds; auto.
  - intros u. destruct (Nat.eq_dec u t) as [->|Hu].
    + unfold pair. flds. rewrite !supd_same. auto.
    + specialize (m_th0 u). unfold pair in *. flds. rewrite supd_diff by auto. exact m_th0.
  - intros x Hx. apply m_pp0. intros u. specialize (Hx u).
    destruct (Nat.eq_dec u t) as [e|]; [|now rewrite supd_diff in Hx]. rewrite e, E. auto.
  - intros u v Hu Hv. exfalso. destruct (Nat.eq_dec u t) as [->|]; [rewrite supd_same in Hu; discriminate|].
    rewrite supd_diff, Hall in Hu by auto. discriminate.
Qed.

Theorem sim_step s z t : sim s z -> inv z -> ocalm_at t s = true ->
  match ostep false t s with
  | XOk l s' => exists z', ((z' = z /\ l = LTau) \/ exists z1, ostep true t z = XOk l z1 /\ z' = o_emit z1 l) /\ sim (o_emit s' l) z'
  | XBlock => True
  | XUndef => False
  end.
Proof.
  intros S I Hc. assert (I' := I). destruct I' as (Ls & hv & lo & V & G).
  pose proof (ostep_good z Ls hv lo t V G) as Q. unfold ogood in Q.
  assert (Hact : forall u, oth s u <> OIdle -> In u (oac s)).
  { intros u Hu. rewrite <- (m_ac _ _ S). apply (i_act _ _ _ _ V). pose proof (m_th _ _ S u) as Hp.
    unfold pair in Hp. destruct (oth s u); try congruence; destruct Hp as (Hp & _); congruence. }
  assert (Hfresh : forall x, ofr s <= x -> whole s x).
  { intros x Hx u Hu. destruct (pair_half _ _ _ _ (m_th _ _ S u) Hu) as (_ & Hz).
    apply (i_fr _ _ _ _ V) in Hz. rewrite (m_fr _ _ S) in Hz. lia. }
  assert (Hord : ordinary (oth s t) -> match ostep false t s with
    | XOk l s' => exists z', ((z' = z /\ l = LTau) \/ exists z1, ostep true t z = XOk l z1 /\ z' = o_emit z1 l) /\ sim (o_emit s' l) z'
    | XBlock => True | XUndef => False end).
  { intros Ho. destruct (whole_of s t Hc (ordinary_plain _ Ho) Hact) as (W1 & W2).
    pose proof (ord_step s z t S Ho (Hfresh _ (le_n _)) (Hfresh _ (le_S _ _ (le_n _))) W1 W2) as R.
    destruct (ostep false t s) as [l s'| |]; [|auto|].
    - destruct R as (z' & R1 & R2). exists (o_emit z' l). split; [right; eauto|]. now apply sim_emit.
    - rewrite R in Q. exact Q. }
  destruct (oth s t) eqn:E; try (apply Hord; exact Logic.I); clear Hord.
  - (* OWSh *) assert (Hp : plain (oth s t)) by (rewrite E; split; reflexivity).
    destruct (whole_of s t Hc Hp Hact) as (W1 & W2).
    pose proof (proj1 (plain_pair s z t Hp) (m_th _ _ S t)) as Eth. rewrite E in Eth.
    unfold otouch, oroots in W1, W2. rewrite E in W1, W2. assert (Ha : whole s a) by (apply W1; now left).
    specialize (W2 eq_refl). unfold ostep in *. rewrite Eth in Q |- *. rewrite E.
    rewrite (m_page s z a S Ha), (m_vs s z a S Ha), (m_free s z a S Ha), (m_rt _ _ S W2) in *.
    destruct (opage s a) as [n|] eqn:En; [|exact Q]. cbn [xbind] in *.
    destruct (negb (mn_rc n <=? 1) || negb (mn_inner n)).
    { eexists. split; [right; eexists; split; reflexivity|]. apply sim_emit; [|auto]. simgo s E. }
    destruct (negb (ovs s a =? v)).
    { eexists. split; [right; eexists; split; reflexivity|]. apply sim_emit; [|auto]. simgo s E. }
    destruct (ofree s a) eqn:Ef; [|auto].
    destruct (negb (ort s =? a)).
    { eexists. split; [right; eexists; split; reflexivity|]. apply sim_emit; [|auto]. simgo s E. }
    destruct (mn_child n 0) as [b|] eqn:Eb; [|destruct Q]. cbn [xbind].
    eexists. split; [right; eexists; split; reflexivity|]. apply sim_emit; [|auto].
    apply sim_shr0; auto.
    + apply Hact. rewrite E. discriminate.
    + unfold ofree in Ef. destruct (osx s a); congruence.
    + unfold opage in En. destruct (ogb s a) as [[|]|]; congruence.
  - (* OShr1 *) pose proof (m_th _ _ S t) as Ht. unfold pair in Ht. rewrite E in Ht.
    destruct Ht as (H1 & H2 & H3 & H4 & (w & H5 & H5') & n & H6 & H7 & H8).
    unfold ostep. rewrite E. assert (En : opage s a = Some n).
    { unfold opage. rewrite H5. destruct w; [destruct H5'|auto]. }
    rewrite En. cbn [xbind]. rewrite H8. cbn [xbind]. exists z. split; [auto|]. apply sim_emit_l; [|auto].
    now apply sim_shr1.
  - (* OShr2 *) unfold ostep. rewrite E. exists z. split; [auto|]. apply sim_emit_l; [|auto]. now apply sim_shr2.
  - (* OMg1 *) assert (Hp : plain (oth s t)) by (rewrite E; split; reflexivity).
    destruct (whole_of s t Hc Hp Hact) as (W1 & W2).
    pose proof (proj1 (plain_pair s z t Hp) (m_th _ _ S t)) as Eth. rewrite E in Eth.
    unfold otouch in W1. rewrite E in W1. assert (Hb : whole s b) by (apply W1; right; now left).
    assert (Hr : whole s r) by (apply W1; right; right; now left).
    pose proof (i_pc _ _ _ _ V t) as Hpc. rewrite Eth in Hpc. cbn [pcok] in Hpc.
    destruct Hpc as ((P1 & P2 & P3 & P4) & (d & D1 & D2 & D3 & D4) & _).
    assert (Hoa : osx z a = Some t) by (apply (i_own _ _ _ _ V); rewrite Eth; now left).
    assert (Hor : osx z r = Some t) by (apply (i_own _ _ _ _ V); rewrite Eth; cbn; auto).
    destruct (ab_parent z Ls hv lo V t c a b pos P1 P2 P4 Hoa ltac:(now rewrite Eth)) as (_ & Hn).
    destruct (Hn d r D1 D3 D4) as (_ & _ & Hrb). clear Hn.
    unfold ostep in *. rewrite Eth in Q |- *. rewrite E.
    rewrite (m_page s z b S Hb), (m_page s z r S Hr) in *.
    destruct (opage s b) as [n|] eqn:En; [|exact Q]. cbn [xbind] in *.
    destruct (opage s r) as [rn|] eqn:Ern; [|exact Q]. cbn [xbind] in *.
    destruct (mn_merge n rn) as [n'|]; [|exact Q]. cbn [xbind].
    eexists. split; [right; eexists; split; reflexivity|]. apply sim_emit; [|auto].
    assert (Ev : ovs (o_own (o_set z b n') b None) b = ovs (o_own (o_set s b n') b None) b).
    { flds. unfold supd. rewrite Nat.eqb_refl. now rewrite (m_vs s z b S Hb). }
    rewrite Ev. apply sim_mg1; auto.
    + simgo s E.
    + flds. rewrite upd_diff' by auto. now rewrite <- (proj2 (proj2 (m_pp _ _ S r Hr))).
    + flds. rewrite upd_diff2 by auto. unfold opage in Ern. destruct (ogb s r) as [[|]|]; congruence.
  - (* OMg2 *) pose proof (m_th _ _ S t) as Ht. unfold pair in Ht. rewrite E in Ht.
    destruct Ht as (H1 & H2 & H3 & H4 & n & H6 & H7).
    unfold ostep. rewrite E. assert (En : opage s r = Some n).
    { unfold opage. rewrite <- (m_gb _ _ S r), (g_lim _ _ G t r); [auto|]. rewrite H1. now left. }
    rewrite En. cbn [xbind]. exists z. split; [auto|]. apply sim_emit_l; [|auto]. now apply sim_mg2.
Qed.

Theorem calm_run : forall sched s z, sim s z -> inv z -> ocalm s sched = true ->
  exists s' z', orun false s sched = Some s' /\ sim s' z' /\ inv z'.
Proof.
  induction sched as [|t sched IH]; intros s z S I Hc; cbn [orun ocalm] in *; [eauto|].
  destruct (ostep false t s) as [l s'| |] eqn:E.
  - apply andb_true_iff in Hc as (Hc1 & Hc2). pose proof (sim_step s z t S I Hc1) as Q. rewrite E in Q.
    destruct Q as (z' & Hz & S'). apply (IH _ z'); auto. destruct Hz as [(-> & _)|(z1 & E1 & ->)]; [auto|].
    destruct I as (Ls & hv & lo & V & G). pose proof (ostep_good z Ls hv lo t V G) as Q. unfold ogood in Q.
    rewrite E1 in Q. now apply nxt_inv in Q.
  - eauto.
  - pose proof (sim_step s z t S I Hc) as Q. rewrite E in Q. destruct Q.
Qed.

(** Waiting: a thread that has half changed something can go on, and without such threads the
    two configurations agree. *)
Lemma half_goes s z v : sim s z -> inv z -> ~ plain (oth s v) -> exists l s', ostep false v s = XOk l s'.
Proof.
  intros S (Ls & hv & lo & V & G) Hp. pose proof (m_th _ _ S v) as Ht. unfold pair in Ht. unfold ostep.
  destruct (oth s v) eqn:E; try (elim Hp; split; reflexivity).
  - destruct Ht as (H1 & H2 & H3 & H4 & (w & H5 & H5') & n & H6 & H7 & H8).
    assert (En : opage s a = Some n) by (unfold opage; rewrite H5; destruct w; [destruct H5'|auto]).
    rewrite En. cbn [xbind]. rewrite H8. cbn [xbind]. eauto.
  - eauto.
  - destruct Ht as (H1 & H2 & H3 & H4 & n & H6 & H7).
    assert (En : opage s r = Some n).
    { unfold opage. rewrite <- (m_gb _ _ S r), (g_lim _ _ G v r); [auto|]. rewrite H1. now left. }
    rewrite En. cbn [xbind]. eauto.
Qed.

Definition plainb (p : opc) : bool := match half p with [] => negb (halfroot p) | _ => false end.
Lemma plainb_ok p : plainb p = true <-> plain p.
Proof.
  unfold plainb, plain. destruct (half p), (halfroot p); cbn; split; try discriminate; auto; intros []; discriminate.
Qed.

Theorem calm_progress s z t : sim s z -> inv z -> oth s t <> OIdle ->
  exists u l s', oth s u <> OIdle /\ ostep false u s = XOk l s'.
Proof.
  intros S I Ht. assert (I' := I). destruct I' as (Ls & hv & lo & V & G).
  assert (Hact : forall u, oth s u <> OIdle -> In u (oac s)).
  { intros u Hu. rewrite <- (m_ac _ _ S). apply (i_act _ _ _ _ V). pose proof (m_th _ _ S u) as Hp.
    unfold pair in Hp. destruct (oth s u); try congruence; destruct Hp as (Hp & _); congruence. }
  destruct (forallb (fun u => plainb (oth s u)) (oac s)) eqn:Ea.
  2:{ assert (Hv : exists v, In v (oac s) /\ plainb (oth s v) = false).
      { clear -Ea. induction (oac s) as [|v l IH]; [discriminate|]. cbn in Ea. destruct (plainb (oth s v)) eqn:Ev.
        - destruct (IH Ea) as (x & Hx & E). exists x. split; [now right|auto].
        - exists v. split; [now left|auto]. }
      destruct Hv as (v & _ & Hv). assert (Hnp : ~ plain (oth s v)) by (rewrite <- plainb_ok; congruence).
      destruct (half_goes s z v S I Hnp) as (l & s' & E). exists v, l, s'. split; [|auto].
      intros Hi. apply Hnp. rewrite Hi. split; reflexivity. }
  assert (Hpl : forall u, plain (oth s u)).
  { intros u. destruct (oth s u) eqn:E; try (split; reflexivity); exfalso.
    all: assert (Hin : In u (oac s)) by (apply Hact; congruence).
    all: rewrite forallb_forall in Ea; specialize (Ea u Hin); rewrite E in Ea; discriminate. }
  assert (Hw : forall x, whole s x) by (intros x u Hu; rewrite (proj1 (Hpl u)) in Hu; destruct Hu).
  assert (Hr : wroot s) by (intros u; apply Hpl).
  assert (Hth : forall u, oth z u = oth s u) by (intros u; apply plain_pair; [auto|apply (m_th _ _ S)]).
  destruct (oprogress z Ls hv lo V G t) as (u & l & z1 & Hu & E); [now rewrite Hth|].
  rewrite Hth in Hu. exists u.
  assert (Hord : ordinary (oth s u) -> exists l s', oth s u <> OIdle /\ ostep false u s = XOk l s').
  { intros Ho. pose proof (ord_step s z u S Ho (Hw _) (Hw _) (fun x _ => Hw x) (fun _ => Hr)) as Q.
    destruct (ostep false u s) as [l' s'| |]; [eauto|congruence|congruence]. }
  destruct (oth s u) eqn:Eu; try (apply Hord; exact Logic.I); try (exfalso; destruct (Hpl u); rewrite Eu in *; discriminate).
  - pose proof (Hth u) as Ez. rewrite Eu in Ez. unfold ostep in E |- *. rewrite Ez in E. rewrite Eu.
    rewrite (m_page s z a S (Hw a)), (m_vs s z a S (Hw a)), (m_free s z a S (Hw a)), (m_rt _ _ S Hr) in E.
    destruct (opage s a) as [n|]; [|discriminate]. cbn [xbind] in *.
    destruct (negb (mn_rc n <=? 1) || negb (mn_inner n)); [eauto|].
    destruct (negb (ovs s a =? v)); [eauto|]. destruct (ofree s a); [|discriminate].
    destruct (negb (ort s =? a)); eauto.
  - pose proof (Hth u) as Ez. rewrite Eu in Ez. unfold ostep in E |- *. rewrite Ez in E. rewrite Eu.
    rewrite (m_page s z b S (Hw b)), (m_page s z r S (Hw r)) in E.
    destruct (opage s b) as [n|]; [|discriminate]. cbn [xbind] in *.
    destruct (opage s r) as [rn|]; [|discriminate]. cbn [xbind] in *.
    destruct (mn_merge n rn); [|discriminate]. cbn [xbind]. eauto.
Qed.

Lemma sim_init prog : sim (oinit prog) (oinit prog).
Proof.
  split; auto.
  - intros u. reflexivity.
  - intros u v Hu. discriminate.
Qed.

Lemma calm_reach prog sched s : (forall t c, In c (prog t) -> mvalid (call_key c)) ->
  ocalm (oinit prog) sched = true -> orun false (oinit prog) sched = Some s -> exists z, sim s z /\ inv z.
Proof.
  intros Hk Hc E. destruct (calm_run sched _ _ (sim_init prog) (oinit_inv prog Hk) Hc) as (s' & z & E' & S & I).
  exists z. rewrite E in E'. injection E' as ->. auto.
Qed.

Lemma calm_idle s z t a : sim s z -> inv z -> oth s t = OIdle -> osx s a <> Some t.
Proof.
  intros S I E Ha. pose proof (m_th _ _ S t) as Ht. unfold pair in Ht. rewrite E in Ht.
  destruct (existsb (fun u => existsb (Nat.eqb a) (half (oth s u))) (oac s)) eqn:Ex.
  - apply existsb_exists in Ex as (u & _ & Hu). apply existsb_exists in Hu as (y & Hy & Ey).
    apply Nat.eqb_eq in Ey. subst y. destruct (pair_half _ _ _ _ (m_th _ _ S u) Hy) as (H & _).
    assert (u = t) by congruence. subst u. rewrite E in Hy. destruct Hy.
  - apply (inv_idle z t a I Ht). rewrite <- Ha. apply (m_pp _ _ S). intros u Hu.
    assert (Hin : In u (oac s)).
    { destruct I as (Ls & hv & lo & V & _). rewrite <- (m_ac _ _ S). apply (i_act _ _ _ _ V).
      pose proof (m_th _ _ S u) as Hp. unfold pair in Hp. destruct (oth s u); try (destruct Hu; fail); destruct Hp as (Hp & _); congruence. }
    assert (Hx : existsb (fun u => existsb (Nat.eqb a) (half (oth s u))) (oac s) = true).
    { apply existsb_exists. exists u. split; [auto|]. apply existsb_exists. exists a. split; [auto|apply Nat.eqb_refl]. }
    congruence.
Qed.

Theorem calm_linearizable prog sched : (forall t c, In c (prog t) -> mvalid (call_key c)) ->
  ocalm (oinit prog) sched = true ->
  exists s, orun false (oinit prog) sched = Some s /\ linearizable amap_empty (ohistory s).
Proof.
  intros Hk Hc. destruct (calm_run sched _ _ (sim_init prog) (oinit_inv prog Hk) Hc) as (s & z & E & S & I).
  exists s. split; [auto|]. unfold ohistory. rewrite <- (m_tr _ _ S). now apply inv_linearizable.
Qed.

End Sim.
End OConcCalm.
