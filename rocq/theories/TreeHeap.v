(** Heap bookkeeping for the sequential tree proofs: which node sits at which address,
    which pages are garbage, and rewriting rules for the tree monad. *)
From Coq Require Import List Arith Bool Lia Sorted.
From Verif Require Import Params Mem Common Spec NodeAbs TreeState Levels.
Import ListNotations.

Section TreeHeap.
Context {P : Params} {ND : Type} (R : ND -> anode -> Prop).

(** The live pages are exactly the tree nodes [F] and the garbage [g]; each once. *)
Record hinv0 (h : addr -> option ND) (f : addr) (g : list addr) (F : lvl) : Prop := {
  h0_nodup : NoDup (map fst F ++ g);
  h0_dom : forall a, h a <> None <-> In a (map fst F ++ g);
  h0_fresh : forall a, h a <> None -> a < f;
  h0_rep : forall a n, In (a, n) F -> exists d, h a = Some d /\ R d n;
}.

Lemma hinv0_eq h f g F F' : F = F' -> hinv0 h f g F -> hinv0 h f g F'.
Proof. now intros ->. Qed.

Lemma upd_same (h : addr -> option ND) a o : upd h a o a = o.
Proof. unfold upd. now rewrite Nat.eqb_refl. Qed.

Lemma upd_diff (h : addr -> option ND) a b o : b <> a -> upd h a o b = h b.
Proof. intros H. unfold upd. apply Nat.eqb_neq in H. now rewrite H. Qed.

Lemma upd_some (h : addr -> option ND) a d b : h b <> None -> upd h a (Some d) b <> None.
Proof. unfold upd. destruct (b =? a); congruence. Qed.

Lemma hinv0_get h f g F a n : hinv0 h f g F -> In (a, n) F -> exists d, h a = Some d /\ R d n.
Proof. intros H. apply (h0_rep _ _ _ _ H). Qed.

Lemma NoDup_mid {A} (l1 l2 : list A) x : NoDup (l1 ++ x :: l2) <-> ~ In x (l1 ++ l2) /\ NoDup (l1 ++ l2).
Proof.
  split.
  - intros H. split; [now apply NoDup_remove_2 | now apply NoDup_remove_1 in H].
  - intros [H1 H2]. induction l1 as [|y l1 IH]; cbn in *.
    + now constructor.
    + apply NoDup_cons_iff in H2 as [H2 H3]. constructor.
      * rewrite in_app_iff in *. cbn. intuition.
      * apply IH; auto.
Qed.

Lemma hinv0_neq h f g F1 a n F2 b m : hinv0 h f g (F1 ++ (a, n) :: F2) -> In (b, m) (F1 ++ F2) ->
  b <> a.
Proof.
  intros H Hin ->. pose proof (h0_nodup _ _ _ _ H) as Hn.
  rewrite map_app in Hn. cbn in Hn. rewrite <- app_assoc in Hn. cbn in Hn.
  apply NoDup_mid in Hn as [Hn _]. apply Hn. rewrite !in_app_iff.
  apply in_app_or in Hin as [Hin|Hin]; apply (in_map fst) in Hin; cbn in Hin; tauto.
Qed.

Lemma hinv0_set h f g F1 a n n' F2 d' : hinv0 h f g (F1 ++ (a, n) :: F2) -> R d' n' ->
  hinv0 (upd h a (Some d')) f g (F1 ++ (a, n') :: F2).
Proof.
  intros H HR.
  assert (Hm : map fst (F1 ++ (a, n') :: F2) = map fst (F1 ++ (a, n) :: F2))
    by now rewrite !map_app.
  assert (Ha : h a <> None).
  { apply (h0_dom _ _ _ _ H). apply in_or_app. left. rewrite map_app. apply in_or_app.
    right. now left. }
  split.
  - rewrite Hm. apply (h0_nodup _ _ _ _ H).
  - intros b. rewrite Hm, <- (h0_dom _ _ _ _ H). unfold upd. destruct (b =? a) eqn:E; [|tauto].
    apply Nat.eqb_eq in E. subst. split; [auto | congruence].
  - intros b Hb. unfold upd in Hb. destruct (b =? a) eqn:E.
    + apply Nat.eqb_eq in E. subst. now apply (h0_fresh _ _ _ _ H).
    + now apply (h0_fresh _ _ _ _ H).
  - intros b m Hin. rewrite in_app_iff in Hin. cbn in Hin.
    destruct Hin as [Hin|[Hin|Hin]].
    + rewrite upd_diff.
      * apply (h0_rep _ _ _ _ H). apply in_or_app. auto.
      * eapply hinv0_neq; eauto. apply in_or_app. eauto.
    + inv Hin. rewrite upd_same. eauto.
    + rewrite upd_diff.
      * apply (h0_rep _ _ _ _ H). apply in_or_app. cbn. auto.
      * eapply hinv0_neq; eauto. apply in_or_app. eauto.
Qed.

Lemma hinv0_ext h h' f g F : (forall a, h' a = h a) -> hinv0 h f g F -> hinv0 h' f g F.
Proof.
  intros He H. split.
  - apply (h0_nodup _ _ _ _ H).
  - intros a. rewrite He. apply (h0_dom _ _ _ _ H).
  - intros a. rewrite He. apply (h0_fresh _ _ _ _ H).
  - intros a n. rewrite He. apply (h0_rep _ _ _ _ H).
Qed.

Lemma hinv0_fresh_none h f g F : hinv0 h f g F -> h f = None.
Proof.
  intros H. destruct (h f) eqn:E; auto. assert (f < f); [|lia].
  apply (h0_fresh _ _ _ _ H). congruence.
Qed.

Lemma hinv0_new h f g F1 n F2 d : hinv0 h f g (F1 ++ F2) -> R d n ->
  hinv0 (upd h f (Some d)) (S f) g (F1 ++ (f, n) :: F2).
Proof.
  intros H HR. pose proof (hinv0_fresh_none _ _ _ _ H) as Hf.
  assert (Hni : ~ In f (map fst (F1 ++ F2) ++ g)).
  { intros Hin. apply (h0_dom _ _ _ _ H) in Hin. congruence. }
  split.
  - rewrite map_app, <- app_assoc. cbn. apply NoDup_mid. rewrite app_assoc, <- map_app.
    split; auto. apply (h0_nodup _ _ _ _ H).
  - intros b. unfold upd. destruct (b =? f) eqn:E.
    + apply Nat.eqb_eq in E. subst. split; [|congruence]. intros _.
      rewrite map_app. cbn. rewrite !in_app_iff. cbn. auto.
    + apply Nat.eqb_neq in E. rewrite (h0_dom _ _ _ _ H). rewrite !map_app. cbn.
      rewrite !in_app_iff. cbn. assert (f <> b) by congruence. tauto.
  - intros b Hb. unfold upd in Hb. destruct (b =? f) eqn:E.
    + apply Nat.eqb_eq in E. lia.
    + apply (h0_fresh _ _ _ _ H) in Hb. lia.
  - intros b m Hin. rewrite in_app_iff in Hin. cbn in Hin.
    assert (Hd : forall m, In (b, m) (F1 ++ F2) -> b <> f).
    { intros m' Hm ->. apply Hni. apply in_or_app. left. apply (in_map fst) in Hm. exact Hm. }
    destruct Hin as [Hin|[Hin|Hin]].
    + rewrite upd_diff by (eapply Hd, in_or_app; eauto).
      apply (h0_rep _ _ _ _ H). apply in_or_app. auto.
    + inv Hin. rewrite upd_same. eauto.
    + rewrite upd_diff by (eapply Hd, in_or_app; eauto).
      apply (h0_rep _ _ _ _ H). apply in_or_app. auto.
Qed.

(** A node leaves the tree and becomes garbage, whatever is written into it. *)
Lemma hinv0_retire h f g F1 a n F2 d : hinv0 h f g (F1 ++ (a, n) :: F2) ->
  hinv0 (upd h a (Some d)) f (a :: g) (F1 ++ F2).
Proof.
  intros H.
  assert (Ha : h a <> None).
  { apply (h0_dom _ _ _ _ H). apply in_or_app. left. rewrite map_app. apply in_or_app.
    right. now left. }
  pose proof (h0_nodup _ _ _ _ H) as Hn. rewrite map_app in Hn. cbn in Hn.
  rewrite <- app_assoc in Hn. cbn in Hn.
  split.
  - rewrite map_app, <- app_assoc. apply NoDup_mid in Hn as [Hn1 Hn2].
    rewrite app_assoc. apply NoDup_mid. rewrite <- app_assoc. auto.
  - intros b. unfold upd. destruct (b =? a) eqn:E.
    + apply Nat.eqb_eq in E. subst. split; [|congruence]. intros _.
      rewrite !in_app_iff. cbn. auto.
    + apply Nat.eqb_neq in E. rewrite (h0_dom _ _ _ _ H). rewrite !map_app. cbn.
      rewrite !in_app_iff. cbn. assert (a <> b) by congruence. tauto.
  - intros b Hb. unfold upd in Hb. destruct (b =? a) eqn:E.
    + apply Nat.eqb_eq in E. subst. now apply (h0_fresh _ _ _ _ H).
    + now apply (h0_fresh _ _ _ _ H).
  - intros b m Hin. rewrite upd_diff by (eapply hinv0_neq; eauto).
    apply (h0_rep _ _ _ _ H). apply in_app_or in Hin as [Hin|Hin]; apply in_or_app; cbn; auto.
Qed.

Lemma hinv0_upd_garbage h f g F a d : hinv0 h f g F -> In a g ->
  hinv0 (upd h a (Some d)) f g F.
Proof.
  intros H Ha.
  assert (Hha : h a <> None) by (apply (h0_dom _ _ _ _ H), in_or_app; auto).
  split.
  - apply (h0_nodup _ _ _ _ H).
  - intros b. rewrite <- (h0_dom _ _ _ _ H). unfold upd. destruct (b =? a) eqn:E; [|tauto].
    apply Nat.eqb_eq in E. subst. split; [auto | congruence].
  - intros b Hb. unfold upd in Hb. destruct (b =? a) eqn:E.
    + apply Nat.eqb_eq in E. subst. now apply (h0_fresh _ _ _ _ H).
    + now apply (h0_fresh _ _ _ _ H).
  - intros b m Hin. rewrite upd_diff.
    + now apply (h0_rep _ _ _ _ H).
    + intros ->. pose proof (h0_nodup _ _ _ _ H) as Hn.
      apply in_split in Ha as (g1 & g2 & ->). rewrite app_assoc in Hn.
      apply NoDup_mid in Hn as [Hn _]. apply Hn. rewrite !in_app_iff.
      apply (in_map fst) in Hin. auto.
Qed.

Lemma hinv0_gc h f g w F : hinv0 h f (g ++ w) F ->
  hinv0 (fun a => if existsb (Nat.eqb a) g then None else h a) f w F.
Proof.
  intros H.
  assert (Hg : forall a, existsb (Nat.eqb a) g = true <-> In a g).
  { intros a. rewrite existsb_exists. split.
    - intros (x & Hx & E). apply Nat.eqb_eq in E. now subst.
    - intros Hx. exists a. split; auto. apply Nat.eqb_refl. }
  assert (Hd : forall a, In a (map fst F ++ w) -> ~ In a g).
  { intros a Ha Hb. pose proof (h0_nodup _ _ _ _ H) as Hn.
    apply in_split in Hb as (g1 & g2 & ->). rewrite <- app_assoc in Hn. cbn in Hn.
    rewrite app_assoc in Hn. apply NoDup_mid in Hn as [Hn _]. apply Hn.
    rewrite !in_app_iff. apply in_app_or in Ha. tauto. }
  split.
  - pose proof (h0_nodup _ _ _ _ H) as Hn. clear - Hn.
    induction g as [|x l IH]; [exact Hn|]. cbn in Hn. apply NoDup_mid in Hn as [_ Hn]. auto.
  - intros a. destruct (existsb (Nat.eqb a) g) eqn:E.
    + apply Hg in E. split; [congruence|]. intros Ha. exfalso. eapply Hd; eauto.
    + rewrite (h0_dom _ _ _ _ H), !in_app_iff.
      assert (~ In a g) by (intros Ha; apply Hg in Ha; congruence). tauto.
  - intros a Ha. apply (h0_fresh _ _ _ _ H). destruct (existsb (Nat.eqb a) g); congruence.
  - intros a n Hin. destruct (existsb (Nat.eqb a) g) eqn:E.
    + exfalso. apply Hg in E. apply (in_map fst) in Hin. eapply (Hd a); eauto.
      apply in_or_app. auto.
    + now apply (h0_rep _ _ _ _ H).
Qed.

(** ** Monad rules *)
Implicit Types (h : addr -> option ND) (l : list (addr * lmode)) (g : list addr).

Lemma mb_ok {A B} (m : M ND A) (k : A -> M ND B) s x s' : m s = Ok x s' -> mbind m k s = k x s'.
Proof. unfold mbind. now intros ->. Qed.
Lemma mb_assoc {A B C} (m : M ND A) (k : A -> M ND B) (j : B -> M ND C) s :
  mbind (mbind m k) j s = mbind m (fun x => mbind (k x) j) s.
Proof. unfold mbind. now destruct (m s). Qed.
Lemma mb_tail {A} (m : M ND A) s x s' : mbind m mret s = Ok x s' -> m s = Ok x s'.
Proof. unfold mbind. destruct (m s); auto. Qed.
Lemma mb_ret {A B} (x : A) (k : A -> M ND B) s : mbind (mret x) k s = k x s.
Proof. reflexivity. Qed.
Lemma mb_lift {A B} (o : option A) (x : A) (k : A -> M ND B) s :
  o = Some x -> mbind (mlift o) k s = k x s.
Proof. now intros ->. Qed.
Lemma mb_getn {A} a d (k : ND -> M ND A) h r f l g : h a = Some d ->
  mbind (getn a) k (St h r f l g) = k d (St h r f l g).
Proof. intros H. unfold mbind, getn. cbn. now rewrite H. Qed.
Lemma mb_setn {A} a d (k : unit -> M ND A) h r f l g : h a <> None ->
  mbind (setn a d) k (St h r f l g) = k tt (St (upd h a (Some d)) r f l g).
Proof. intros H. unfold mbind, setn. cbn. destruct (h a); congruence. Qed.
Lemma mb_alloc {A} d (k : addr -> M ND A) h r f l g :
  mbind (alloc d) k (St h r f l g) = k f (St (upd h f (Some d)) r (S f) l g).
Proof. reflexivity. Qed.
Lemma mb_getroot {A} (k : addr -> M ND A) h r f l g :
  mbind getroot k (St h r f l g) = k r (St h r f l g).
Proof. reflexivity. Qed.
Lemma mb_setroot {A} a (k : unit -> M ND A) h r f l g :
  mbind (setroot a) k (St h r f l g) = k tt (St h a f l g).
Proof. reflexivity. Qed.
Lemma mb_garbage {A} a (k : unit -> M ND A) h r f l g :
  mbind (add_garbage a) k (St h r f l g) = k tt (St h r f l (a :: g)).
Proof. reflexivity. Qed.
Lemma mb_lock {A} m a (k : unit -> M ND A) h r f l g : h a <> None -> may_lock l a m = true ->
  mbind (lock m a) k (St h r f l g) = k tt (St h r f ((a, m) :: l) g).
Proof.
  intros H1 H2. unfold mbind, lock. cbn [hp rt fr lk gb]. destruct (h a); [|congruence]. now rewrite H2.
Qed.
Lemma mb_unlock {A} m a (k : unit -> M ND A) h r f l g : h a <> None -> holds l a m = true ->
  mbind (unlock m a) k (St h r f l g) = k tt (St h r f (unhold l a m) g).
Proof.
  intros H1 H2. unfold mbind, unlock. cbn [hp rt fr lk gb]. destruct (h a); [|congruence]. now rewrite H2.
Qed.
Lemma mb_upgrade {A} a (k : unit -> M ND A) h r f l g : h a <> None -> holds l a LSIX = true ->
  holds l a LS = false ->
  mbind (upgradeX a) k (St h r f l g) = k tt (St h r f ((a, LX) :: unhold l a LSIX) g).
Proof.
  intros H1 H2 H3. unfold mbind, upgradeX. cbn [hp rt fr lk gb]. destruct (h a); [|congruence]. now rewrite H2, H3.
Qed.
Lemma mb_downgrade {A} a (k : unit -> M ND A) h r f l g : h a <> None -> holds l a LX = true ->
  mbind (downgradeSIX a) k (St h r f l g) = k tt (St h r f ((a, LSIX) :: unhold l a LX) g).
Proof.
  intros H1 H2. unfold mbind, downgradeSIX. cbn [hp rt fr lk gb]. destruct (h a); [|congruence]. now rewrite H2.
Qed.

End TreeHeap.

(** ** Leaked pages

    Bulkload (psl/b_tree.hpp:314-381) replaces the root pointer and leaves the pages of the
    old tree behind.  [leaked] lists such pages: they stay allocated and nothing refers to
    them any more. *)
Class Leak := { leaked : list addr }.
Definition no_leak : Leak := {| leaked := [] |}.

Section Leaks.
Context {P : Params} {W : Leak} {ND : Type} (R : ND -> anode -> Prop).

Definition hinv (h : addr -> option ND) (f : addr) (g : list addr) (F : lvl) : Prop :=
  hinv0 R h f (g ++ leaked) F.

Lemma hi_nodup h f g F : hinv h f g F -> NoDup (map fst F ++ g ++ leaked).
Proof. apply h0_nodup. Qed.
Lemma hi_dom h f g F : hinv h f g F -> forall a, h a <> None <-> In a (map fst F ++ g ++ leaked).
Proof. apply h0_dom. Qed.
Lemma hi_fresh h f g F : hinv h f g F -> forall a, h a <> None -> a < f.
Proof. apply h0_fresh. Qed.
Lemma hi_rep h f g F : hinv h f g F -> forall a n, In (a, n) F -> exists d, h a = Some d /\ R d n.
Proof. apply h0_rep. Qed.
Lemma hinv_eq h f g F F' : F = F' -> hinv h f g F -> hinv h f g F'.
Proof. apply hinv0_eq. Qed.
Lemma hinv_get h f g F a n : hinv h f g F -> In (a, n) F -> exists d, h a = Some d /\ R d n.
Proof. apply hinv0_get. Qed.
Lemma hinv_neq h f g F1 a n F2 b m : hinv h f g (F1 ++ (a, n) :: F2) -> In (b, m) (F1 ++ F2) ->
  b <> a.
Proof. apply hinv0_neq. Qed.
Lemma hinv_set h f g F1 a n n' F2 d' : hinv h f g (F1 ++ (a, n) :: F2) -> R d' n' ->
  hinv (upd h a (Some d')) f g (F1 ++ (a, n') :: F2).
Proof. apply hinv0_set. Qed.
Lemma hinv_ext h h' f g F : (forall a, h' a = h a) -> hinv h f g F -> hinv h' f g F.
Proof. apply hinv0_ext. Qed.
Lemma hinv_fresh_none h f g F : hinv h f g F -> h f = None.
Proof. apply hinv0_fresh_none. Qed.
Lemma hinv_new h f g F1 n F2 d : hinv h f g (F1 ++ F2) -> R d n ->
  hinv (upd h f (Some d)) (S f) g (F1 ++ (f, n) :: F2).
Proof. apply hinv0_new. Qed.
Lemma hinv_retire h f g F1 a n F2 d : hinv h f g (F1 ++ (a, n) :: F2) ->
  hinv (upd h a (Some d)) f (a :: g) (F1 ++ F2).
Proof. apply hinv0_retire. Qed.
Lemma hinv_upd_garbage h f g F a d : hinv h f g F -> In a g ->
  hinv (upd h a (Some d)) f g F.
Proof. intros H Ha. apply hinv0_upd_garbage; auto. apply in_or_app. auto. Qed.
Lemma hinv_gc h f g F : hinv h f g F ->
  hinv (fun a => if existsb (Nat.eqb a) g then None else h a) f [] F.
Proof. apply hinv0_gc. Qed.

End Leaks.


(** Decide latch questions about lists of explicit entries. *)
Ltac neqb :=
  repeat match goal with
  | |- context [Nat.eqb ?a ?a] => rewrite (Nat.eqb_refl a)
  | H : ?a <> ?b |- context [Nat.eqb ?a ?b] => rewrite (proj2 (Nat.eqb_neq a b) H)
  | H : ?b <> ?a |- context [Nat.eqb ?a ?b] =>
      rewrite (proj2 (Nat.eqb_neq a b) (fun e => H (eq_sym e)))
  end.
Ltac lsimp := cbn [may_lock holds unhold existsb fst snd lmode_eqb andb orb negb]; neqb;
  cbn [may_lock holds unhold existsb fst snd lmode_eqb andb orb negb].
Ltac lks := solve [ unfold may_lock, holds; lsimp; reflexivity ].
Ltac lkn := unfold unhold; lsimp.

(** Find a page in an explicitly updated heap. *)
Ltac hget :=
  repeat match goal with
  | |- context [upd _ ?a _ ?a] => rewrite (upd_same _ a)
  | H : ?b <> ?a |- context [upd ?h ?a ?o ?b] => rewrite (upd_diff h a b o H)
  | H : ?a <> ?b |- context [upd ?h ?a ?o ?b] => rewrite (upd_diff h a b o (fun e => H (eq_sym e)))
  end.
Ltac hgo := hget; solve [ eassumption | congruence | reflexivity ].
