(** What linearizability implies for single keys.  Only the specifications Spec.v and
    ConcSpec.v are used: this file knows nothing of trees. *)
From Coq Require Import List Arith Bool Lia.
From Verif Require Import Params Spec ConcSpec.
Import ListNotations.

Section ConcHist.
Context {P : Params} {O : OrdLaws P}.

(** The call of [t] that has no return event yet. *)
Fixpoint pend (h : list event) (t : tid) (p : option call) : option call :=
  match h with
  | [] => p
  | EInv u c :: h' => pend h' t (if Nat.eqb u t then Some c else p)
  | ERes u _ :: h' => pend h' t (if Nat.eqb u t then None else p)
  end.

(** Some Insert or Write of [k] has returned in [h]. *)
Definition stored (k : K) (h : list event) : Prop :=
  exists h1 h2 t r c, h = h1 ++ ERes t r :: h2 /\ pend h1 t None = Some c /\
    exists v, c = CInsert k v \/ c = CWrite k v.

Definition never_deleted (k : K) (h : list event) : Prop :=
  forall t, ~ In (EInv t (CDelete k)) h.

(** C36 as a property of a history: a Read that starts after a key has been stored does
    not miss it unless somebody deletes that key. *)
Definition reads_keep (h : list event) : Prop :=
  forall h1 h2 h3 t k, h = h1 ++ EInv t (CRead k) :: h2 ++ ERes t (RPayload None) :: h3 ->
    (forall c, ~ In (EInv t c) h2) ->
    stored k h1 -> ~ never_deleted k (h1 ++ h2).

(** Running the linearized history. *)
Definition xstep (mf : amap * (tid -> status)) (e : xevent) : amap * (tid -> status) :=
  let (m, f) := mf in
  match e with
  | XInv t c => (m, supd f t (Called c))
  | XLin t => match f t with
              | Called c => (fst (spec_step m c), supd f t (Done (snd (spec_step m c))))
              | _ => (m, f)
              end
  | XRes t r => (m, supd f t Idle)
  end.
Definition xrun := fold_left xstep.

Lemma legal_app x1 : forall x2 m f, legal m f (x1 ++ x2) ->
  legal (fst (xrun x1 (m, f))) (snd (xrun x1 (m, f))) x2.
Proof.
  induction x1 as [|e x1 IH]; intros x2 m f Hl; [exact Hl|].
  destruct e as [t c|t|t r]; cbn in Hl |- *.
  - destruct Hl as [_ Hl]. exact (IH _ _ _ Hl).
  - destruct Hl as (c & E & Hl). rewrite E. exact (IH _ _ _ Hl).
  - destruct Hl as [_ Hl]. exact (IH _ _ _ Hl).
Qed.

Lemma erase_app x1 x2 : erase (x1 ++ x2) = erase x1 ++ erase x2.
Proof. induction x1 as [|[]]; cbn; congruence. Qed.

Lemma erase_split x : forall h1 e h2, erase x = h1 ++ e :: h2 ->
  exists x1 xe x2, x = x1 ++ xe :: x2 /\ erase x1 = h1 /\ erase [xe] = [e] /\ erase x2 = h2.
Proof.
  induction x as [|e0 x IH]; intros h1 e h2 E; cbn in E; [destruct h1; discriminate|].
  assert (Hlin : forall t, e0 = XLin t -> exists x1 xe x2, e0 :: x = x1 ++ xe :: x2 /\
    erase x1 = h1 /\ erase [xe] = [e] /\ erase x2 = h2).
  { intros t ->. destruct (IH _ _ _ E) as (x1 & xe & x2 & -> & Q1 & Q2 & Q3).
    exists (XLin t :: x1), xe, x2. auto. }
  assert (Hvis : forall e1, erase [e0] = [e1] -> erase (e0 :: x) = e1 :: erase x -> exists x1 xe x2, e0 :: x = x1 ++ xe :: x2 /\
    erase x1 = h1 /\ erase [xe] = [e] /\ erase x2 = h2).
  { intros e1 E1 E2. cbn [erase] in E2. rewrite E2 in E. destruct h1 as [|a h1]; cbn in E; injection E as -> E.
    - exists [], e0, x. auto.
    - destruct (IH _ _ _ E) as (x1 & xe & x2 & -> & Q1 & Q2 & Q3).
      exists (e0 :: x1), xe, x2. split; [reflexivity|]. split; [|auto].
      change (e0 :: x1) with ([e0] ++ x1). rewrite erase_app, E1, Q1. reflexivity. }
  destruct e0 as [t c|t|t r]; [eapply Hvis; reflexivity|eapply Hlin; reflexivity|eapply Hvis; reflexivity].
Qed.

(** ** A key that nobody deletes stays *)
Definition calm_status (k : K) (s : status) : Prop := s <> Called (CDelete k).

Lemma spec_keeps m c k : c <> CDelete k -> m k <> None -> fst (spec_step m c) k <> None.
Proof.
  intros Hc Hm. destruct c as [k'|k' v|k' v|k' v|k']; cbn; auto.
  - unfold amap_set. destruct (keqb k k'); [discriminate|auto].
  - destruct (m k'); cbn; auto. unfold amap_set. destruct (keqb k k'); [discriminate|auto].
  - destruct (m k'); cbn; auto. unfold amap_set. destruct (keqb k k'); [discriminate|auto].
  - destruct (m k') as [v|] eqn:E; cbn; auto. unfold amap_set.
    destruct (keqb k k') eqn:Q; [|auto]. apply keqb_eq in Q. subst. congruence.
Qed.

Record okst (k : K) (h : list event) (mf : amap * (tid -> status)) : Prop := {
  o_nodel : forall t, snd mf t <> Called (CDelete k);
  o_pend : forall t c, snd mf t = Called c -> pend h t None = Some c;
  o_idle : forall t, snd mf t = Idle -> pend h t None = None;
  o_done : forall t r c v, snd mf t = Done r -> pend h t None = Some c ->
    (c = CInsert k v \/ c = CWrite k v) -> fst mf k <> None;
}.

Lemma pend_app h1 h2 t p : pend (h1 ++ h2) t p = pend h2 t (pend h1 t p).
Proof. revert p. induction h1 as [|[u c|u r] h1 IH]; intros p; cbn; auto. Qed.

Lemma spec_stores m c k v : (c = CInsert k v \/ c = CWrite k v) -> fst (spec_step m c) k <> None.
Proof.
  intros [-> | ->]; cbn.
  - destruct (m k) eqn:E; cbn; [congruence|]. unfold amap_set.
    rewrite (proj2 (keqb_eq k k) eq_refl). discriminate.
  - unfold amap_set. rewrite (proj2 (keqb_eq k k) eq_refl). discriminate.
Qed.

Lemma run_okst k x : forall h m f, okst k h (m, f) -> legal m f x ->
  never_deleted k (erase x) -> okst k (h ++ erase x) (xrun x (m, f)).
Proof.
  induction x as [|e x IH]; intros h m f Ho Hl Hn; cbn [erase xrun fold_left].
  - now rewrite app_nil_r.
  - destruct e as [t c|t|t r]; cbn [erase legal] in *.
    + destruct Hl as (Ei & Hl).
      replace (h ++ EInv t c :: erase x) with ((h ++ [EInv t c]) ++ erase x)
        by (now rewrite <- app_assoc).
      apply IH; auto.
      * constructor; cbn [fst snd]; unfold supd; intros u; rewrite ?pend_app; cbn [pend];
          destruct (Nat.eqb_spec u t) as [->|Hu]; try rewrite Nat.eqb_refl;
          try (rewrite (proj2 (Nat.eqb_neq t u)) by auto).
        -- intros [= ->]. apply (Hn t). now left.
        -- apply (o_nodel _ _ _ Ho).
        -- congruence.
        -- apply (o_pend _ _ _ Ho).
        -- discriminate.
        -- apply (o_idle _ _ _ Ho).
        -- discriminate.
        -- intros r c' v Q1 Q2 Q3. exact (o_done _ _ _ Ho u r c' v Q1 Q2 Q3).
      * intros u Hu. apply (Hn u). now right.
    + destruct Hl as (c & Ec & Hl). cbn [xstep]. rewrite Ec. apply IH; auto.
      pose proof (o_pend _ _ _ Ho t c Ec) as Hp.
      constructor; cbn [fst snd]; unfold supd; intros u;
        destruct (Nat.eqb_spec u t) as [->|Hu].
      * discriminate.
      * apply (o_nodel _ _ _ Ho).
      * discriminate.
      * apply (o_pend _ _ _ Ho).
      * discriminate.
      * apply (o_idle _ _ _ Ho).
      * intros r c' v _ Q Q'. rewrite Hp in Q. injection Q as <-. eapply spec_stores; eauto.
      * intros r c' v Q1 Q2 Q3. apply spec_keeps; [|eapply (o_done _ _ _ Ho); eauto].
        intros ->. now apply (o_nodel _ _ _ Ho t).
    + destruct Hl as (Ei & Hl).
      replace (h ++ ERes t r :: erase x) with ((h ++ [ERes t r]) ++ erase x)
        by (now rewrite <- app_assoc).
      apply IH; auto.
      * constructor; cbn [fst snd]; unfold supd; intros u; rewrite ?pend_app; cbn [pend];
          destruct (Nat.eqb_spec u t) as [->|Hu]; try rewrite Nat.eqb_refl;
          try (rewrite (proj2 (Nat.eqb_neq t u)) by auto).
        -- discriminate.
        -- apply (o_nodel _ _ _ Ho).
        -- discriminate.
        -- apply (o_pend _ _ _ Ho).
        -- auto.
        -- apply (o_idle _ _ _ Ho).
        -- discriminate.
        -- intros r' c' v Q1 Q2 Q3. exact (o_done _ _ _ Ho u r' c' v Q1 Q2 Q3).
      * intros u Hu. apply (Hn u). now right.
Qed.

Lemma run_stays k x : forall m f, legal m f x -> (forall t, f t <> Called (CDelete k)) ->
  never_deleted k (erase x) -> m k <> None ->
  fst (xrun x (m, f)) k <> None /\ (forall t, snd (xrun x (m, f)) t <> Called (CDelete k)).
Proof.
  induction x as [|e x IH]; intros m f Hl Hf Hn Hm; cbn [xrun fold_left]; auto.
  destruct e as [t c|t|t r]; cbn [erase legal xstep] in *.
  - destruct Hl as (_ & Hl). apply IH; auto.
    + intros u. unfold supd. destruct (Nat.eqb u t); auto. intros [= ->]. apply (Hn t). now left.
    + intros u Hu. apply (Hn u). now right.
  - destruct Hl as (c & Ec & Hl). rewrite Ec. apply IH; auto.
    + intros u. unfold supd. destruct (Nat.eqb u t); auto. discriminate.
    + apply spec_keeps; auto. intros ->. now apply (Hf t).
  - destruct Hl as (_ & Hl). apply IH; auto.
    + intros u. unfold supd. destruct (Nat.eqb u t); auto. discriminate.
    + intros u Hu. apply (Hn u). now right.
Qed.

(** A Read that runs while the key is present does not return "absent". *)
Lemma read_sees k t x : forall m f, legal m f x -> (forall u, f u <> Called (CDelete k)) ->
  never_deleted k (erase x) -> m k <> None ->
  (forall c, ~ In (EInv t c) (erase x)) ->
  (f t = Called (CRead k) \/ (exists r, f t = Done r /\ r <> RPayload None) \/ f t = Idle) ->
  let f' := snd (xrun x (m, f)) in
  f' t = Called (CRead k) \/ (exists r, f' t = Done r /\ r <> RPayload None) \/ f' t = Idle.
Proof.
  induction x as [|e x IH]; intros m f Hl Hf Hn Hm Ht Hs; cbn [xrun fold_left]; auto.
  destruct e as [u c|u|u r]; cbn [erase legal xstep] in *.
  - destruct Hl as (_ & Hl).
    assert (u <> t) by (intros ->; apply (Ht c); now left).
    apply IH; auto.
    + intros w. unfold supd. destruct (Nat.eqb w u); auto. intros [= ->]. apply (Hn u). now left.
    + intros w Hw. apply (Hn w). now right.
    + intros c' Hc. apply (Ht c'). now right.
    + unfold supd. rewrite (proj2 (Nat.eqb_neq t u)) by auto. auto.
  - destruct Hl as (c & Ec & Hl). rewrite Ec. apply IH; auto.
    + intros w. unfold supd. destruct (Nat.eqb w u); auto. discriminate.
    + apply spec_keeps; auto. intros ->. now apply (Hf u).
    + unfold supd. destruct (Nat.eqb_spec t u) as [->|]; auto. right. left. eexists.
      split; [reflexivity|]. destruct Hs as [Q|[(r & Q & _)|Q]]; try congruence.
      rewrite Q in Ec. injection Ec as <-. cbn. congruence.
  - destruct Hl as (_ & Hl). apply IH; auto.
    + intros w. unfold supd. destruct (Nat.eqb w u); auto. discriminate.
    + intros w Hw. apply (Hn w). now right.
    + intros c Hc. apply (Ht c). now right.
    + unfold supd. destruct (Nat.eqb t u); auto.
Qed.

Theorem linearizable_reads_keep h : linearizable amap_empty h -> reads_keep h.
Proof.
  intros (x & E & Hl) h1 h2 h3 t k -> Ht (g1 & g2 & u & r & c & -> & Hp & v & Hc) Hn.
  apply erase_split in E as (x1 & xe & x2 & -> & E1 & E2 & E3).
  assert (Hxe : xe = XInv t (CRead k)) by (destruct xe; cbn in E2; congruence). subst xe.
  apply erase_split in E3 as (x3 & xf & x4 & -> & E4 & E5 & _).
  assert (Hxf : xf = XRes t (RPayload None)) by (destruct xf; cbn in E5; congruence). subst xf.
  apply erase_split in E1 as (y1 & ye & y2 & -> & F1 & F2 & F3).
  assert (Hye : ye = XRes u r) by (destruct ye; cbn in F2; congruence). subst ye.
  rewrite <- app_assoc in Hl. cbn [app] in Hl.
  assert (N1 : never_deleted k (erase y1)).
  { intros w Hw. apply (Hn w). rewrite F1 in Hw. apply in_or_app. left. apply in_or_app. auto. }
  assert (N2 : never_deleted k (erase y2)).
  { intros w Hw. apply (Hn w). rewrite F3 in Hw. apply in_or_app. left. apply in_or_app. right.
    now right. }
  assert (N3 : never_deleted k (erase x3)).
  { intros w Hw. apply (Hn w). rewrite E4 in Hw. apply in_or_app. auto. }
  assert (L1 : legal amap_empty (fun _ => Idle) y1).
  { clear - Hl. revert Hl. generalize (@amap_empty P) (fun _ : tid => Idle).
    induction y1 as [|e y1 IH]; intros m f Hl; cbn; auto. destruct e; cbn in *.
    - destruct Hl; eauto.
    - destruct Hl as (c & Q & Hl). exists c. eauto.
    - destruct Hl; eauto. }
  assert (O1 : okst k (erase y1) (xrun y1 (amap_empty, fun _ => Idle))).
  { apply (run_okst k y1 [] _ _); auto. constructor; cbn; intros; congruence. }
  apply legal_app in Hl.
  destruct (xrun y1 (amap_empty, fun _ => Idle)) as [m f] eqn:Em. cbn [fst snd legal] in *.
  destruct Hl as (Hu & Hl).
  assert (Hm : m k <> None).
  { apply (o_done _ _ _ O1 u r c v Hu); auto. now rewrite F1. }
  assert (Hf : forall w, supd f u Idle w <> Called (CDelete k)).
  { intros w. unfold supd. destruct (Nat.eqb w u); [discriminate|apply (o_nodel _ _ _ O1)]. }
  clear Hu O1 L1.
  assert (L2 : forall y z m f, legal m f (y ++ z) -> legal m f y).
  { clear. induction y as [|e y IH]; intros z m f Hl; cbn; auto. destruct e; cbn in *.
    - destruct Hl; eauto.
    - destruct Hl as (c & Q & Hl). exists c. eauto.
    - destruct Hl; eauto. }
  destruct (run_stays k y2 m _ (L2 _ _ _ _ Hl) Hf N2 Hm) as (Hm2 & Hf2).
  apply legal_app in Hl.
  destruct (xrun y2 (m, supd f u Idle)) as [m2 f2]. cbn [fst snd legal] in *.
  destruct Hl as (Hi & Hl).
  assert (Hf3 : forall w, supd f2 t (Called (CRead k)) w <> Called (CDelete k)).
  { intros w. unfold supd. destruct (Nat.eqb w t); [discriminate|auto]. }
  pose proof (read_sees k t x3 m2 _ (L2 _ _ _ _ Hl) Hf3 N3 Hm2) as Hr.
  rewrite E4 in Hr. specialize (Hr Ht).
  apply legal_app in Hl. destruct (xrun x3 (m2, supd f2 t (Called (CRead k)))) as [m3 f3].
  cbn [fst snd legal] in *. destruct Hl as (Hd & _).
  destruct Hr as [Q|[(r' & Q & Q')|Q]]; try congruence.
  left. unfold supd. now rewrite Nat.eqb_refl.
Qed.

(** What a Read returns has been stored by some call that has started. *)
Definition puts (c : call) (k : K) (v : V) : Prop :=
  c = CWrite k v \/ c = CInsert k v \/ c = CUpdate k v.

Definition reads_real (h : list event) : Prop :=
  forall h1 h2 t k v, h = h1 ++ ERes t (RPayload (Some v)) :: h2 -> pend h1 t None = Some (CRead k) ->
    exists u c, In (EInv u c) h1 /\ puts c k v.

Record realst (h : list event) (mf : amap * (tid -> status)) : Prop := {
  q_map : forall k v, fst mf k = Some v -> exists u c, In (EInv u c) h /\ puts c k v;
  q_pend : forall t c, snd mf t = Called c -> pend h t None = Some c;
  q_call : forall t c, snd mf t = Called c -> In (EInv t c) h;
  q_done : forall t k v, snd mf t = Done (RPayload (Some v)) -> pend h t None = Some (CRead k) ->
    exists u c, In (EInv u c) h /\ puts c k v;
}.

Lemma run_realst x : forall h m f, realst h (m, f) -> legal m f x ->
  realst (h ++ erase x) (xrun x (m, f)).
Proof.
  induction x as [|e x IH]; intros h m f Ho Hl; cbn [erase xrun fold_left].
  - now rewrite app_nil_r.
  - assert (Hmon : forall e0 k v, (exists u c, In (EInv u c) h /\ puts c k v) ->
      exists u c, In (EInv u c) (h ++ [e0]) /\ puts c k v).
    { intros e0 k v (u & c & Q1 & Q2). exists u, c. split; auto. apply in_or_app. auto. }
    destruct e as [t c|t|t r]; cbn [erase legal] in *.
    + destruct Hl as (Ei & Hl).
      replace (h ++ EInv t c :: erase x) with ((h ++ [EInv t c]) ++ erase x)
        by (now rewrite <- app_assoc).
      apply IH; auto. constructor; cbn [fst snd].
      * intros k v Hm. apply Hmon, (q_map _ _ Ho), Hm.
      * intros u c'. rewrite pend_app. cbn [pend]. unfold supd.
        destruct (Nat.eqb_spec u t) as [->|Hu]; [rewrite Nat.eqb_refl; congruence|].
        rewrite (proj2 (Nat.eqb_neq t u)) by auto. apply (q_pend _ _ Ho).
      * intros u c'. unfold supd. destruct (Nat.eqb_spec u t) as [->|Hu].
        -- intros [= <-]. apply in_or_app. right. now left.
        -- intros Q. apply in_or_app. left. now apply (q_call _ _ Ho).
      * intros u k v. rewrite pend_app. cbn [pend]. unfold supd.
        destruct (Nat.eqb_spec u t) as [->|Hu]; [discriminate|].
        rewrite (proj2 (Nat.eqb_neq t u)) by auto. intros Q1 Q2.
        apply Hmon. exact (q_done _ _ Ho u k v Q1 Q2).
    + destruct Hl as (c & Ec & Hl). cbn [xstep]. rewrite Ec. apply IH; auto.
      pose proof (q_pend _ _ Ho t c Ec) as Hp. pose proof (q_call _ _ Ho t c Ec) as Hin.
      cbn in Hp, Hin.
      assert (Hset : forall k0 v0 k v, puts c k0 v0 -> amap_set m k0 (Some v0) k = Some v ->
        exists u c, In (EInv u c) h /\ puts c k v).
      { intros k0 v0 k v Hput. unfold amap_set. destruct (keqb k k0) eqn:Q.
        - apply keqb_eq in Q. subst. intros [= <-]. eauto.
        - apply (q_map _ _ Ho). }
      constructor; cbn [fst snd].
      * intros k v. destruct c as [k0|k0 v0|k0 v0|k0 v0|k0]; cbn.
        -- apply (q_map _ _ Ho).
        -- apply Hset. now left.
        -- destruct (m k0); cbn; [apply (q_map _ _ Ho)|]. apply Hset. right. now left.
        -- destruct (m k0); cbn; [|apply (q_map _ _ Ho)]. apply Hset. right. now right.
        -- destruct (m k0); cbn; [|apply (q_map _ _ Ho)]. unfold amap_set.
           destruct (keqb k k0); [discriminate|]. apply (q_map _ _ Ho).
      * intros u c'. unfold supd. destruct (Nat.eqb_spec u t); [discriminate|apply (q_pend _ _ Ho)].
      * intros u c'. unfold supd. destruct (Nat.eqb_spec u t); [discriminate|apply (q_call _ _ Ho)].
      * intros u k v. unfold supd. destruct (Nat.eqb_spec u t) as [->|Hu].
        -- rewrite Hp. intros Q [= ->]. cbn in Q. injection Q as Q. now apply (q_map _ _ Ho).
        -- apply (q_done _ _ Ho).
    + destruct Hl as (Ei & Hl).
      replace (h ++ ERes t r :: erase x) with ((h ++ [ERes t r]) ++ erase x)
        by (now rewrite <- app_assoc).
      apply IH; auto. constructor; cbn [fst snd].
      * intros k v Hm. apply Hmon, (q_map _ _ Ho), Hm.
      * intros u c'. rewrite pend_app. cbn [pend]. unfold supd.
        destruct (Nat.eqb_spec u t) as [->|Hu]; [discriminate|].
        rewrite (proj2 (Nat.eqb_neq t u)) by auto. apply (q_pend _ _ Ho).
      * intros u c'. unfold supd. destruct (Nat.eqb_spec u t) as [->|Hu]; [discriminate|].
        intros Q. apply in_or_app. left. now apply (q_call _ _ Ho).
      * intros u k v. rewrite pend_app. cbn [pend]. unfold supd.
        destruct (Nat.eqb_spec u t) as [->|Hu]; [discriminate|].
        rewrite (proj2 (Nat.eqb_neq t u)) by auto. intros Q1 Q2.
        apply Hmon. exact (q_done _ _ Ho u k v Q1 Q2).
Qed.

Theorem linearizable_reads_real h : linearizable amap_empty h -> reads_real h.
Proof.
  intros (x & E & Hl) h1 h2 t k v -> Hp.
  apply erase_split in E as (x1 & xe & x2 & -> & E1 & E2 & E3).
  assert (Hxe : xe = XRes t (RPayload (Some v))) by (destruct xe; cbn in E2; congruence). subst xe.
  assert (L1 : forall y z m f, legal m f (y ++ z) -> legal m f y).
  { clear. induction y as [|e y IH]; intros z m f Hl; cbn; auto. destruct e; cbn in *.
    - destruct Hl; eauto.
    - destruct Hl as (c & Q & Hl). exists c. eauto.
    - destruct Hl; eauto. }
  assert (R : realst (erase x1) (xrun x1 (amap_empty, fun _ => Idle))).
  { apply (run_realst x1 [] _ _); [|eapply L1; eauto]. constructor; cbn; discriminate. }
  apply legal_app in Hl. destruct (xrun x1 (amap_empty, fun _ => Idle)) as [m f].
  cbn [fst snd legal] in *. destruct Hl as (Hd & _). rewrite E1 in R.
  exact (q_done _ _ R t k v Hd Hp).
Qed.

End ConcHist.
