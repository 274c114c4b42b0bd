(** What [scan_linearizable] implies for single scans, in terms of the history alone.  Only
    the specifications Spec.v, ConcSpec.v and ScanSpec.v are used. *)
From Coq Require Import List Arith Bool Lia Sorted.
From Verif Require Import Params Spec ConcSpec ScanSpec ConcHist.
Import ListNotations.

Section ScanHist.
Context {P : Params} {O : OrdLaws P}.

(** The keys of every complete scan are strictly ascending. *)
Definition scans_sorted (h : list (marked event)) : Prop :=
  forall h1 u lo hi h2 rs h3, h = h1 ++ Mk (MBeg u lo hi) :: h2 ++ Mk (MEnd u rs) :: h3 ->
    no_mark u h2 -> StronglySorted klt (map fst rs).

(** A key in range that was stored before the scan began and that nobody deletes is
    delivered. *)
Definition scans_keep (h : list (marked event)) : Prop :=
  forall h1 u lo hi h2 rs h3 k, h = h1 ++ Mk (MBeg u lo hi) :: h2 ++ Mk (MEnd u rs) :: h3 ->
    no_mark u h2 -> above lo k -> below hi k ->
    stored k (unmark h1) -> never_deleted k (unmark (h1 ++ h2)) -> In k (map fst rs).

(** What a scan delivers is in range and has been stored by a call that has started. *)
Definition scans_real (h : list (marked event)) : Prop :=
  forall h1 u lo hi h2 rs h3 k v, h = h1 ++ Mk (MBeg u lo hi) :: h2 ++ Mk (MEnd u rs) :: h3 ->
    no_mark u h2 -> In (k, v) rs -> above lo k /\ below hi k /\
    exists t c, In (EInv t c) (unmark (h1 ++ h2)) /\ puts c k v.

Lemma merase_split x : forall h1 m h2, merase x = h1 ++ Mk m :: h2 ->
  exists x1 x2, x = x1 ++ Mk m :: x2 /\ merase x1 = h1 /\ merase x2 = h2.
Proof.
  induction x as [|e x IH]; intros h1 m h2 E; cbn in E; [destruct h1; discriminate|].
  destruct e as [[t c|t|t r]|m'].
  - destruct h1 as [|a h1]; cbn in E; [discriminate|]. injection E as <- E.
    destruct (IH _ _ _ E) as (x1 & x2 & -> & <- & <-). exists (Ev (XInv t c) :: x1), x2. auto.
  - destruct (IH _ _ _ E) as (x1 & x2 & -> & <- & <-). exists (Ev (XLin t) :: x1), x2. auto.
  - destruct h1 as [|a h1]; cbn in E; [discriminate|]. injection E as <- E.
    destruct (IH _ _ _ E) as (x1 & x2 & -> & <- & <-). exists (Ev (XRes t r) :: x1), x2. auto.
  - destruct h1 as [|a h1]; cbn in E; injection E as <- E.
    + exists [], x. auto.
    + destruct (IH _ _ _ E) as (x1 & x2 & -> & <- & <-). exists (Mk m' :: x1), x2. auto.
Qed.

Lemma merase_mark x m : In (Mk m) x -> In (Mk m) (merase x).
Proof.
  induction x as [|e x IH]; [auto|]. intros [-> |Hm].
  - now left.
  - cbn. destruct e as [[]|]; cbn; auto.
Qed.

Lemma merase_unmark x : unmark (merase x) = erase (unmark x).
Proof. induction x as [|[[]|] x IH]; cbn; congruence. Qed.

Lemma merase_app x y : merase (x ++ y) = merase x ++ merase y.
Proof. induction x as [|[[]|] x IH]; cbn; congruence. Qed.

Lemma unmark_app' {A} (x y : list (marked A)) : unmark (x ++ y) = unmark x ++ unmark y.
Proof. induction x as [|[]]; cbn; congruence. Qed.

Lemma scan_split x h1 u lo hi h2 rs h3 :
  merase x = h1 ++ Mk (MBeg u lo hi) :: h2 ++ Mk (MEnd u rs) :: h3 -> no_mark u h2 ->
  exists x1 x2 x3, x = x1 ++ Mk (MBeg u lo hi) :: x2 ++ Mk (MEnd u rs) :: x3 /\
    merase x1 = h1 /\ merase x2 = h2 /\ no_mark u x2.
Proof.
  intros E Hno. apply merase_split in E as (x1 & x2 & -> & E1 & E2).
  apply merase_split in E2 as (x3 & x4 & -> & E3 & E4). exists x1, x3, x4.
  split; [auto|]. split; [auto|]. split; [auto|]. intros m Hm. apply Hno. rewrite <- E3. now apply merase_mark.
Qed.

Lemma map_after_run x : forall m f, map_after m f x = fst (xrun x (m, f)).
Proof.
  induction x as [|[t c|t|t r] x IH]; intros m f; cbn [map_after xrun fold_left xstep]; auto.
  destruct (f t); auto.
Qed.

Lemma legal_l y : forall z m f, legal m f (y ++ z) -> legal m f y.
Proof.
  induction y as [|e y IH]; intros z m f Hl; cbn; auto. destruct e; cbn in *.
  - destruct Hl; eauto.
  - destruct Hl as (c & Q & Hl). exists c. eauto.
  - destruct Hl; eauto.
Qed.

Lemma stored_stays x k : legal amap_empty (fun _ => Idle) x -> stored k (erase x) ->
  never_deleted k (erase x) -> map_after amap_empty (fun _ => Idle) x k <> None.
Proof.
  intros Hl (g1 & g2 & u & r & c & E & Hp & v & Hc) Hn. rewrite map_after_run.
  destruct (erase_split _ _ _ _ E) as (y1 & ye & y2 & -> & F1 & F2 & F3).
  assert (Hye : ye = XRes u r) by (destruct ye; cbn in F2; congruence). subst ye.
  rewrite E in Hn.
  assert (N1 : never_deleted k (erase y1)).
  { intros w Hw. apply (Hn w). rewrite F1 in Hw. apply in_or_app. auto. }
  assert (N2 : never_deleted k (erase y2)).
  { intros w Hw. apply (Hn w). rewrite F3 in Hw. apply in_or_app. right. now right. }
  assert (O1 : okst k (erase y1) (xrun y1 (amap_empty, fun _ => Idle))).
  { apply (run_okst k y1 [] _ _); [|eapply legal_l; eauto|auto]. constructor; cbn; intros; congruence. }
  apply legal_app in Hl. unfold xrun. rewrite fold_left_app. fold xrun.
  destruct (xrun y1 (amap_empty, fun _ => Idle)) as [m f] eqn:Em.
  change (fold_left xstep y1 (amap_empty, fun _ => Idle)) with (xrun y1 (amap_empty, fun _ : tid => Idle)).
  rewrite Em. cbn [fst snd legal] in *. destruct Hl as (Hu & Hl). cbn [fold_left xstep].
  refine (proj1 (run_stays k y2 m _ Hl _ N2 _)).
  - intros w. unfold supd. destruct (Nat.eqb w u); [discriminate|apply (o_nodel _ _ _ O1)].
  - apply (o_done _ _ _ O1 u r c v Hu); auto. now rewrite F1.
Qed.

Lemma stored_app k h1 h2 : stored k h1 -> stored k (h1 ++ h2).
Proof.
  intros (g1 & g2 & t & r & c & -> & Hp & Hc). exists g1, (g2 ++ h2), t, r, c. rewrite <- app_assoc. auto.
Qed.

Theorem scan_linearizable_sorted m0 h : scan_linearizable m0 h -> scans_sorted h.
Proof.
  intros (x & E & _ & Hs) h1 u lo hi h2 rs h3 -> Hno.
  destruct (scan_split _ _ _ _ _ _ _ _ E Hno) as (x1 & x2 & x3 & -> & E1 & E2 & Hn).
  exact (proj1 (Hs _ _ _ _ _ _ _ eq_refl Hn)).
Qed.

Theorem scan_linearizable_keep h : scan_linearizable amap_empty h -> scans_keep h.
Proof.
  intros (x & E & Hl & Hs) h1 u lo hi h2 rs h3 k -> Hno Ha Hb Hst Hnd.
  destruct (scan_split _ _ _ _ _ _ _ _ E Hno) as (x1 & x2 & x3 & -> & E1 & E2 & Hn).
  destruct (Hs _ _ _ _ _ _ _ eq_refl Hn) as (_ & _ & H3). apply H3; auto.
  intros M (y & z & Ey & ->). apply stored_stays.
  - rewrite Ey in Hl. clear - Hl. rewrite unmark_app' in Hl |- *. cbn [unmark] in Hl. rewrite !unmark_app' in Hl.
    rewrite <- app_assoc, app_assoc in Hl. eapply legal_l; eauto.
  - rewrite unmark_app', erase_app. apply stored_app. rewrite <- merase_unmark. congruence.
  - intros t Ht. apply (Hnd t). rewrite !unmark_app', ?erase_app in Ht. rewrite unmark_app'.
    rewrite <- E1, <- E2, !merase_unmark. rewrite Ey, unmark_app', erase_app.
    apply in_app_or in Ht as [Ht|Ht]; apply in_or_app; auto. right. apply in_or_app. auto.
Qed.

Theorem scan_linearizable_real h : scan_linearizable amap_empty h -> scans_real h.
Proof.
  intros (x & E & Hl & Hs) h1 u lo hi h2 rs h3 k v -> Hno Hin.
  destruct (scan_split _ _ _ _ _ _ _ _ E Hno) as (x1 & x2 & x3 & -> & E1 & E2 & Hn).
  destruct (Hs _ _ _ _ _ _ _ eq_refl Hn) as (_ & H2 & _).
  destruct (H2 k v Hin) as (Ha & Hb & M & (y & z & Ey & ->) & Hm). split; [auto|]. split; [auto|].
  rewrite map_after_run in Hm.
  assert (R : realst (erase (unmark (x1 ++ y))) (xrun (unmark (x1 ++ y)) (amap_empty, fun _ => Idle))).
  { apply (run_realst (unmark (x1 ++ y)) [] _ _); [constructor; cbn; discriminate|].
    rewrite Ey in Hl. clear - Hl. rewrite unmark_app' in Hl |- *. cbn [unmark] in Hl. rewrite !unmark_app' in Hl.
    rewrite <- app_assoc, app_assoc in Hl. eapply legal_l; eauto. }
  destruct (q_map _ _ R k v Hm) as (t & c & Ht & Hc). exists t, c. split; auto.
  rewrite !unmark_app', ?erase_app in Ht. rewrite unmark_app'.
  rewrite <- E1, <- E2, !merase_unmark. rewrite Ey, unmark_app', erase_app.
  apply in_app_or in Ht as [Ht|Ht]; apply in_or_app; auto. right. apply in_or_app. auto.
Qed.

End ScanHist.
