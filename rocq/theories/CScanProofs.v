(** Scans that run while other threads make calls: the invariant of the scanners.
    This file is proof-side only, except for the definition of calm scans. *)
From Coq Require Import List Arith Bool Lia Sorted.
From Verif Require Import Params Mem Common Spec ConcSpec ScanSpec NodeAbs SLIface BaseIface
  IterModel IterProofs TreeState Levels ConcModel ConcLin ConcInv ConcHeap ConcSmo ConcThreads
  ConcSteps ConcMain CScanModel CScanLin.
Import ListNotations.

Section CScanProofs.
Context {P : Params} {O : OrdLaws P} {N : SLOps P} {L : SLLaws P N}.
#[local] Existing Instance base_of_sl.
#[local] Existing Instance base_laws_of_sl.
Context (osl : bool).

(** ** One leaf *)

Definition leafy (n : nd) (A : anode) : Prop :=
  rep n A /\ a_inner A = false /\ leaf_ok (a_slots A).

Definition vb (b : bound) : Prop := forall k c, b = Some (k, c) -> kvalid k.

Lemma page_recs_ok n A : leafy n A -> forall m pos, pos + m <= length (a_slots A) ->
  page_recs n pos m = Some (live (firstn m (skipn pos (a_slots A)))).
Proof.
  intros (Hr & Hi & Hok). induction m as [|m IH]; intros pos Hm; cbn [page_recs firstn]; auto.
  destruct (nth_error_ex (a_slots A) pos) as [s Hs]; [lia|].
  destruct (L_record _ _ _ _ Hr Hi Hok Hs) as (Hd & _ & Hrec). rewrite Hd, IH by lia.
  rewrite (skipn_nth _ _ _ Hs). cbn [firstn live flat_map].
  destruct Hok as [Hsl _]. rewrite Forall_forall in Hsl.
  destruct (Hsl s (nth_error_In _ _ Hs)) as (k & v & Hk & Hv).
  unfold rec1. rewrite Hk, Hv. destruct (s_del s) eqn:Ed.
  - reflexivity.
  - rewrite (Hrec k v Hk Hv eq_refl). reflexivity.
Qed.

(** The records up to the end position are those below the end bound. *)
Lemma endpos_window A hi ie e pos : endpos_spec A hi ie e -> leaf_ok (a_slots A) ->
  (a_high A = None <-> a_next A = None) ->
  (forall k h, In k (keys_of (a_slots A)) -> a_high A = Some h -> klt k h) ->
  e <= length (a_slots A) /\
  live (firstn (e - pos) (skipn pos (a_slots A))) = fbelow hi (live (skipn pos (a_slots A))) /\
  (ie = true -> forall k h, below hi k -> a_high A = Some h -> klt k h) /\
  (ie = false -> e = length (a_slots A) /\ a_next A <> None).
Proof.
  intros [Hie He] Hok Hn Hh. unfold fbelow. destruct ie.
  - destruct hi as [[k c]|].
    + destruct He as (l1 & l2 & Hsl & -> & H1 & H2). split; [rewrite Hsl, app_length; lia|].
      split; [|split; [|discriminate]].
      * rewrite Hsl. destruct (Nat.le_gt_cases pos (length l1)) as [Hp|Hp].
        -- rewrite skipn_app. replace (pos - length l1) with 0 by lia. cbn [skipn].
           rewrite firstn_app, firstn_all2 by (rewrite skipn_length; lia).
           rewrite skipn_length. replace (length l1 - pos - (length l1 - pos)) with 0 by lia.
           cbn [firstn]. rewrite app_nil_r, live_app, filter_app.
           rewrite filter_all, filter_none; [now rewrite app_nil_r| |].
           ++ intros [x v] Hx. specialize (H2 _ _ Hx). cbn [fst].
              destruct (belowb (Some (k, c)) x) eqn:E; auto. exfalso. apply belowb_ok in E.
              destruct c; cbn in E.
              ** apply kle_not_lt in E. auto.
              ** apply kle_not_lt in H2. auto.
           ++ intros [x v] Hx. apply belowb_ok. eapply live_sub_in in Hx; [|apply skipn_incl].
              specialize (H1 _ _ Hx). destruct c; exact H1.
        -- replace (length l1 - pos) with 0 by lia. cbn [firstn live flat_map]. symmetry.
           apply filter_none. rewrite skipn_app, skipn_all2 by lia. cbn [app].
           intros [x v] Hx. eapply live_sub_in in Hx; [|apply skipn_incl]. specialize (H2 _ _ Hx). cbn [fst].
           destruct (belowb (Some (k, c)) x) eqn:E; auto. exfalso. apply belowb_ok in E.
           destruct c; cbn in E.
           ++ apply kle_not_lt in E. auto.
           ++ apply kle_not_lt in H2. auto.
      * intros _ x h Hb Eh. rewrite Eh in Hie. destruct (a_next A); [|exfalso; destruct Hn as [_ Hn]; rewrite Hn in Eh; congruence].
        destruct c; cbn in Hb.
        -- eapply kle_lt_trans; eauto. unfold klt. auto.
        -- eapply klt_trans; eauto. unfold klt. auto.
    + subst e. split; [lia|]. split; [|split; [|discriminate]].
      * rewrite filter_all by reflexivity. rewrite firstn_all2 by (rewrite skipn_length; lia). reflexivity.
      * intros _ x h _ Eh. destruct (a_next A); [discriminate|]. exfalso. destruct Hn as [_ Hn].
        rewrite Hn in Eh; congruence.
  - assert (Hep : e = length (a_slots A)) by (destruct hi as [[]|]; exact He).
    split; [lia|]. split; [|split; [discriminate|]].
    + rewrite Hep, firstn_all2 by (rewrite skipn_length; lia). symmetry.
      apply filter_all. intros [x v] Hx. eapply live_sub_in in Hx; [|apply skipn_incl].
      destruct (a_next A); [|discriminate]. destruct hi as [[k c]|]; [|reflexivity].
      destruct (a_high A) as [h|] eqn:Eh; [|discriminate].
      assert (Hxh : klt x h) by (eapply Hh; eauto; eapply live_key_in; eauto).
      assert (Hhk : kle h k) by (apply kle_not_lt; unfold klt; rewrite <- Hie; discriminate).
      assert (klt x k) by (eapply klt_le_trans; eauto).
      apply belowb_ok. destruct c; cbn; auto. now apply klt_kle.
    + intros _. split; auto. destruct (a_next A); congruence.
Qed.

(** [pos] is the position of [kk] in [n]. *)
Definition pos_at (n : nd) (kk : bound) (pos : nat) : Prop :=
  forall A, leafy n A -> live (skipn pos (a_slots A)) = fabove kk (live (a_slots A)) /\
    forall k1 c, kk = Some (k1, c) -> forall x, In x (keys_of (skipn pos (a_slots A))) -> kle k1 x.

Lemma start_keys n A k c pos : leafy n A -> kvalid k -> start_pos n k c = Some pos ->
  forall x, In x (keys_of (skipn pos (a_slots A))) -> kle k x.
Proof.
  intros (Hr & Hi & Hok) Hk. unfold start_pos.
  destruct (L_search_leaf _ _ _ Hr Hi Hok Hk) as (rc & p & Es & Hspec).
  cbn [bn_search base_of_sl]. rewrite Es. intros [= <-] x Hx.
  assert (Hx' : In x (keys_of (skipn p (a_slots A)))).
  { destruct (_ && _); auto. apply in_keys_of in Hx as (z & Hz & Ez).
    apply in_keys_of. exists z. split; auto. revert Hz. clear. generalize (a_slots A).
    induction p as [|p IH]; intros l Hz; [eapply skipn_incl; eauto|].
    destruct l; [exact Hz|]. now apply IH. }
  clear Hx.
  assert (Hmid : forall l1 z l2, a_slots A = l1 ++ z :: l2 -> s_key z = Some k -> p = length l1 -> kle k x).
  { intros l1 z l2 E Ez ->. destruct Hok as [_ Hss]. rewrite E in Hss, Hx'.
    rewrite skipn_app, skipn_all, Nat.sub_diag in Hx'. cbn [skipn app] in Hx'.
    rewrite keys_of_app in Hss. apply SS_app in Hss as (_ & Hs2 & _).
    cbn in Hs2, Hx'. unfold key1 in Hs2, Hx'. rewrite Ez in Hs2, Hx'. cbn in Hs2, Hx'. fold key1 in Hs2, Hx'.
    apply StronglySorted_inv in Hs2 as [_ Hs2]. rewrite Forall_forall in Hs2.
    destruct Hx' as [<-|Hx']; [apply kle_refl|]. now apply klt_kle, Hs2. }
  destruct rc; try (destruct Hspec; fail); cbn in Hspec.
  - destruct Hspec as (l1 & l2 & E & -> & H1 & H2). apply klt_kle, H2.
    rewrite E, skipn_app, skipn_all, Nat.sub_diag in Hx'. exact Hx'.
  - destruct Hspec as (l1 & z & l2 & E & -> & Ez & _). eapply Hmid; eauto.
  - destruct Hspec as (l1 & z & l2 & E & -> & Ez & _). eapply Hmid; eauto.
Qed.

Lemma begin_pos_ok n A kk : leafy n A -> vb kk ->
  exists pos, begin_pos n kk = Some pos /\ pos_at n kk pos.
Proof.
  intros (Hr & Hi & Hok) Hk. destruct kk as [[k c]|]; cbn [begin_pos].
  - destruct (@start_ok P O (base_of_sl N) (base_laws_of_sl N L) n A k c Hr Hi Hok (Hk k c eq_refl)) as (pos & E & _ & _).
    exists pos. split; auto. intros B HB. pose proof HB as (Br & Bi & Bok). split;
      [|intros ? ? [= <- <-]; eapply start_keys; eauto].
    destruct (@start_ok P O (base_of_sl N) (base_laws_of_sl N L) n B k c Br Bi Bok (Hk k c eq_refl)) as (pos' & E' & Q & _).
    assert (pos' = pos) by congruence. subst. exact Q.
  - exists 0. split; auto. intros B _. split; [|discriminate]. cbn [skipn]. symmetry. now apply filter_all.
Qed.

Lemma pos_next n pos k : pos < nd_rc n -> nd_key n pos = Some k -> pos_at n (Some (k, false)) (S pos).
Proof.
  intros Hp Hk A (Hr & Hi & Hok). destruct (L_hdr _ _ Hr) as (_ & _ & _ & Hrc).
  destruct (nth_error_ex (a_slots A) pos) as [s Hs]; [lia|].
  destruct (L_record _ _ _ _ Hr Hi Hok Hs) as (_ & Hk' & _). rewrite Hk in Hk'.
  destruct (nth_error_split _ _ Hs) as (l1 & l2 & E & Hl). rewrite E in *.
  replace (S pos) with (length (l1 ++ [s])) by (rewrite app_length; cbn; lia).
  replace (l1 ++ s :: l2) with ((l1 ++ [s]) ++ l2) by (rewrite <- app_assoc; reflexivity).
  rewrite skipn_app, skipn_all, Nat.sub_diag. cbn [skipn app].
  destruct Hok as [_ Hss]. rewrite keys_of_app in Hss. cbn in Hss. unfold key1 in Hss. rewrite <- Hk' in Hss.
  cbn in Hss. fold key1 in Hss. apply SS_app in Hss as (_ & Hs2 & Hs3). apply StronglySorted_inv in Hs2 as [_ Hs2].
  rewrite Forall_forall in Hs2. split; [|intros ? ? [= <- <-] x Hx; now apply klt_kle, Hs2].
  unfold fabove. rewrite live_app, filter_app, filter_none, filter_all; auto.
  - intros [x v] Hx. apply live_key_in in Hx. apply aboveb_ok. cbn. now apply Hs2.
  - intros [x v] Hx. apply live_key_in in Hx. rewrite keys_of_app in Hx.
    cbn [fst]. destruct (aboveb (Some (k, false)) x) eqn:E'; auto. exfalso. apply aboveb_ok in E'. cbn in E'.
    apply in_app_or in Hx as [Hx|Hx].
    + eapply klt_asym; eauto. apply Hs3; auto. now left.
    + cbn in Hx. unfold key1 in Hx. rewrite <- Hk' in Hx. destruct Hx as [<-|[]]. now apply klt_irrefl in E'.
Qed.

(** ** Where a scan is *)

Context (m0 : amap).

Section Handled.
Variables (tr : list (@label P)) (i0 : nat) (lo hi : bound).

(** Every key in range that satisfies [Q] and was there all the time has been delivered,
    and all that has been delivered is right. *)
Definition handled (Q : K -> Prop) (acc : list (K * V)) : Prop :=
  ksorted acc /\
  (forall k v, In (k, v) acc -> above lo k /\ below hi k /\
     exists j, i0 <= j <= length tr /\ mapat m0 tr j k = Some v) /\
  (forall k, above lo k -> below hi k -> Q k ->
     (forall j, i0 <= j <= length tr -> mapat m0 tr j k <> None) -> In k (map fst acc)).

Lemma handled_weak (Q Q' : K -> Prop) acc : handled Q acc ->
  (forall k, above lo k -> below hi k -> Q' k ->
     Q k \/ exists j, i0 <= j <= length tr /\ mapat m0 tr j k = None) -> handled Q' acc.
Proof.
  intros (H1 & H2 & H3) H. split; [auto|]. split; [auto|]. intros k Ha Hb Hq Hall.
  destruct (H k Ha Hb Hq) as [Hk|(j & Hj & E)]; [now apply H3|]. exfalso. eapply Hall; eauto.
Qed.

Lemma handled_add (Q Q' : K -> Prop) acc R : handled Q acc -> ksorted R ->
  (forall k v, In (k, v) R -> above lo k /\ below hi k /\
     exists j, i0 <= j <= length tr /\ mapat m0 tr j k = Some v) ->
  (forall k v k' v', In (k, v) acc -> In (k', v') R -> klt k k') ->
  (forall k, above lo k -> below hi k -> Q' k ->
     Q k \/ In k (map fst R) \/ exists j, i0 <= j <= length tr /\ mapat m0 tr j k = None) ->
  handled Q' (acc ++ R).
Proof.
  intros (H1 & H2 & H3) Hs Hr Hlt H. split; [|split].
  - unfold ksorted in *. rewrite map_app. apply SS_app. split; [auto|]. split; [auto|].
    intros x y Hx Hy. apply in_map_iff in Hx as ([x' v] & <- & Hx). apply in_map_iff in Hy as ([y' w] & <- & Hy).
    cbn. eapply Hlt; eauto.
  - intros k v Hk. apply in_app_or in Hk as [Hk|Hk]; auto.
  - intros k Ha Hb Hq Hall. rewrite map_app. apply in_or_app.
    destruct (H k Ha Hb Hq) as [Hk|[Hk|(j & Hj & E)]]; [left; now apply H3|now right|].
    exfalso. eapply Hall; eauto.
Qed.
End Handled.

Lemma mapat_old tr l j : j <= length tr -> mapat m0 (tr ++ [l]) j = mapat m0 tr j.
Proof. intros H. unfold mapat. now rewrite firstn_snoc. Qed.

Lemma handled_later tr l i0 lo hi Q acc :
  handled tr i0 lo hi Q acc -> handled (tr ++ [l]) i0 lo hi Q acc.
Proof.
  intros (H1 & H2 & H3). split; [auto|]. split.
  - intros k v Hk. destruct (H2 k v Hk) as (A & B & j & Hj & E). split; [auto|]. split; [auto|].
    exists j. rewrite mapat_old by lia. rewrite app_length. cbn. split; auto. lia.
  - intros k Ha Hb Hq Hall. apply H3; auto. intros j Hj. rewrite <- (mapat_old tr l j) by lia.
    apply Hall. rewrite app_length. cbn. lia.
Qed.

(** The contents of a leaf are those of the map at some moment of the scan. *)
Lemma page_moment s G a d i0 : heap_ok m0 (ch s) (cfr s) G (tr s) -> ch s a = Some d ->
  nd_removed d = false -> lv G a = 0 -> dle (Some i0) (dd G a) -> i0 <= length (tr s) ->
  exists j, i0 <= j <= length (tr s) /\
    forall k, inrange G a k -> assoc k (live (a_slots (av G a))) = mapat m0 (tr s) j k.
Proof.
  intros H E R Hl Hd Hi. pose proof (h_none _ _ _ _ _ H _ _ E) as Ha.
  destruct (dd G a) as [T|] eqn:Ed.
  - cbn in Hd. destruct (h_btd _ _ _ _ _ H a T Ha Ed) as [_ HT]. exists T. split; [lia|].
    intros k Hk. now apply (h_stale _ _ _ _ _ H a d).
  - exists (length (tr s)). split; [lia|]. intros k Hk. unfold mapat. rewrite firstn_all.
    now apply (h_cont _ _ _ _ _ H a).
Qed.

(** ** The invariant *)

Definition inpage (n : nd) (k : K) : Prop := nd_comphigh n k = Some true.
Definition passed (G : gh) (a : addr) (kk : bound) (k : K) : Prop :=
  match kk with Some _ => ~ above kk k | None => False end \/ elt (Key k) (ConcInv.lo G a).
Definition acc_le (kk : bound) (acc : list (K * V)) : Prop :=
  match kk with
  | Some (k1, false) => forall k v, In (k, v) acc -> kle k k1
  | _ => acc = []
  end.

Definition placed (s : cfg) (G : gh) (i0 : nat) (a : addr) : Prop :=
  a < cfr s /\ lv G a = 0 /\ dle (Some i0) (dd G a).

Definition oscan (s : cfg) (G : gh) (i0 : nat) (lo hi : bound) (a : addr) (kk : bound)
    (acc : list (K * V)) : Prop :=
  placed s G i0 a /\ vb kk /\ handled (tr s) i0 lo hi (passed G a kk) acc /\ acc_le kk acc /\
  (forall k, above kk k -> above lo k).

Definition same_page (s : cfg) (vs : addr -> nat) (a : addr) (ver : nat) (Q : nd -> Prop) : Prop :=
  ver <= vs a /\ (vs a = ver -> exists n, ch s a = Some n /\ nd_removed n = false /\ Q n).

Definition body (s : cfg) (vs : addr -> nat) (G : gh) (i0 : nat) (p : spc) : Prop :=
  match p with
  | SIdle | SRoot _ _ => True
  | SDesc lo _ a =>
      a < cfr s /\
      (deadroot s a \/
       (dle (Some i0) (dd G a) /\
        match lo with
        | Some (key, _) => ele (ConcInv.lo G a) (Key key)
        | None => ConcInv.lo G a = NegInf
        end))
  | SHold lo hi a ie acc =>
      if ie then handled (tr s) i0 lo hi (fun _ => True) acc
      else placed s G i0 a /\
        exists n, ch s a = Some n /\ nd_removed n = false /\ nd_next n <> None /\
          handled (tr s) i0 lo hi (inpage n) acc /\ (forall k v, In (k, v) acc -> inpage n k) /\
          (forall key c, lo = Some (key, c) -> inpage n key)
  | OReset lo hi a kk acc => oscan s G i0 lo hi a kk acc
  | OPos lo hi a ver kk acc => oscan s G i0 lo hi a kk acc /\ same_page s vs a ver (fun _ => True)
  | OEnd lo hi a ver kk pos acc =>
      oscan s G i0 lo hi a kk acc /\ same_page s vs a ver (fun n => pos_at n kk pos)
  | OLoop lo hi a ver kk pos e ie acc =>
      oscan s G i0 lo hi a kk acc /\
      same_page s vs a ver (fun n => pos_at n kk pos /\ nd_endpos n hi = Some (ie, e)) /\
      (ie = true -> e <= pos -> handled (tr s) i0 lo hi (fun _ => True) acc)
  | SRet lo hi acc => handled (tr s) i0 lo hi (fun _ => True) acc
  end.

Definition bounds (p : spc) : option (bound * bound) :=
  match p with
  | SIdle => None
  | SRoot lo hi | SDesc lo hi _ | SHold lo hi _ _ _ | OReset lo hi _ _ _ | OPos lo hi _ _ _ _
  | OEnd lo hi _ _ _ _ _ | OLoop lo hi _ _ _ _ _ _ _ | SRet lo hi _ => Some (lo, hi)
  end.

Definition running (T : list (marked label)) (u : tid) (lo hi : bound) (i0 : nat) : Prop :=
  exists T1 T2, T = T1 ++ Mk (MBeg u lo hi) :: T2 /\ no_mark u T2 /\ i0 = length (unmark T1).

Definition spc_ok (s : cfg) (vs : addr -> nat) (G : gh) (T : list (marked label)) (u : tid) (p : spc) : Prop :=
  match bounds p with
  | None => True
  | Some (lo, hi) => vb lo /\ vb hi /\ exists i0, running T u lo hi i0 /\ body s vs G i0 p
  end.

Record sinv (s : scfg) (G : gh) : Prop := {
  si_base : inv m0 (base s) G;
  si_log : tr (base s) = unmark (lg s);
  si_right : trace_right m0 (lg s);
  si_scan : forall u, spc_ok (base s) (vn s) G (lg s) u (sth s u);
  si_q : forall u lo hi, In (lo, hi) (sq s u) -> vb lo /\ vb hi;
}.

(** ** Steps of callers *)

Section Caller.
Variables (s s' : cfg) (G G' : gh) (l : label) (vs vs' : addr -> nat).
Hypothesis X : gext s s' G G'.
Hypothesis Htr : tr s' = tr s ++ [l].
Hypothesis Hv1 : forall a, vs a <= vs' a.
Hypothesis Hv2 : forall a, vs' a = vs a -> ch s' a = ch s a.

Let Hg := x_gle _ _ _ _ X.

Lemma placed_later i0 a : i0 <= length (tr s) -> placed s G i0 a -> placed s' G' i0 a.
Proof.
  intros Hi (H1 & H2 & H3). split; [eapply ext_lt; eauto|].
  split; [now rewrite (g_lv _ _ _ _ Hg)|]. eapply gle_dle; eauto.
Qed.

Lemma oscan_later i0 lo hi a kk acc : i0 <= length (tr s) -> oscan s G i0 lo hi a kk acc ->
  oscan s' G' i0 lo hi a kk acc.
Proof.
  intros Hi (H1 & H2 & H3 & H4 & H5). split; [now apply placed_later|]. split; [auto|].
  split; [|auto]. rewrite Htr. apply handled_later. eapply handled_weak; eauto.
  intros k _ _ Hk. left. unfold passed in *. rewrite (g_lo _ _ _ _ Hg) in Hk; auto. apply H1.
Qed.

Lemma same_later a ver Q : same_page s vs a ver Q -> same_page s' vs' a ver Q.
Proof.
  intros (H1 & H). pose proof (Hv1 a). split; [lia|]. intros E.
  assert (Ev : vs' a = vs a) by lia. destruct (H ltac:(lia)) as (n & H2 & H3).
  exists n. rewrite (Hv2 a Ev). auto.
Qed.

Lemma body_later i0 p : i0 <= length (tr s) -> (forall a, latched p a -> ch s' a = ch s a) ->
  body s vs G i0 p -> body s' vs' G' i0 p.
Proof.
  intros Hi Hl. destruct p; cbn [body latched] in *; auto.
  - intros (H1 & H2). split; [eapply ext_lt; eauto|].
    destruct H2 as [H2|(H2 & H3)]; [left; now apply (x_dead _ _ _ _ X)|right].
    split; [eapply gle_dle; eauto|]. now rewrite (g_lo _ _ _ _ Hg).
  - destruct ie; [rewrite Htr; apply handled_later|].
    intros (H1 & n & H2 & H3 & H4 & H5 & H6). split; [now apply placed_later|].
    exists n. rewrite (Hl a eq_refl), Htr. split; [auto|]. split; [auto|]. split; [auto|].
    split; [now apply handled_later|auto].
  - apply oscan_later; auto.
  - intros (H1 & H2). split; [now apply oscan_later|now apply same_later].
  - intros (H1 & H2). split; [now apply oscan_later|now apply same_later].
  - intros (H1 & H2 & H3). split; [now apply oscan_later|]. split; [now apply same_later|].
    intros. rewrite Htr. apply handled_later. auto.
  - rewrite Htr. apply handled_later.
Qed.
End Caller.

(** ** The log *)

Lemma running_snoc T u lo hi i0 e : (forall m, e = Mk m -> mtid m <> u) ->
  running T u lo hi i0 -> running (T ++ [e]) u lo hi i0.
Proof.
  intros He (T1 & T2 & -> & H1 & H2). exists T1, (T2 ++ [e]).
  split; [rewrite <- app_assoc; reflexivity|]. split; [|auto].
  intros m Hm. apply in_app_or in Hm as [Hm|[Hm|[]]]; auto.
Qed.

Lemma running_len T u lo hi i0 : running T u lo hi i0 -> i0 <= length (unmark T).
Proof.
  intros (T1 & T2 & -> & _ & ->). rewrite unmark_app, app_length. lia.
Qed.

Lemma running_same T u lo hi i0 T1 lo' hi' T2 : running T u lo hi i0 ->
  T = T1 ++ Mk (MBeg u lo' hi') :: T2 -> no_mark u T2 ->
  lo' = lo /\ hi' = hi /\ i0 = length (unmark T1).
Proof.
  intros (S1 & S2 & E & H1 & H2) E' H'. rewrite E in E'.
  destruct (app_cmp _ _ _ _ E') as [(z & -> & Hz)|(z & -> & Hz)].
  - destruct z as [|e z]; cbn in Hz.
    + injection Hz as <- <- _. rewrite app_nil_r. auto.
    + injection Hz as <- Hz. exfalso. subst S2.
      apply (H1 (MBeg u lo' hi')); [apply in_or_app; right; now left|reflexivity].
  - destruct z as [|e z]; cbn in Hz.
    + injection Hz as <- <- _. rewrite app_nil_r in H2. auto.
    + injection Hz as <- Hz. exfalso. subst T2.
      apply (H' (MBeg u lo hi)); [apply in_or_app; right; now left|reflexivity].
Qed.

Lemma right_snoc T e : trace_right m0 T ->
  (forall u rs, e = Mk (MEnd u rs) -> exists lo hi i0, running T u lo hi i0 /\
     handled (unmark T) i0 lo hi (fun _ => True) rs) ->
  trace_right m0 (T ++ [e]).
Proof.
  intros H He T1 u lo hi T2 rs T3 E Hno.
  destruct (exists_last (l := Mk (MEnd u rs) :: T3)) as (T4 & x & E4); [discriminate|].
  destruct T3 as [|y T3].
  - assert (E' : T ++ [e] = (T1 ++ Mk (MBeg u lo hi) :: T2) ++ [Mk (MEnd u rs)]).
    { rewrite E, <- app_assoc. reflexivity. }
    apply app_inj_tail in E' as [-> ->].
    destruct (He u rs eq_refl) as (lo' & hi' & i0 & Hrun & (R1 & R2 & R3)).
    destruct (running_same _ _ _ _ _ _ _ _ _ Hrun eq_refl Hno) as (<- & <- & ->).
    assert (Hmom : forall j, length (unmark T1) <= j <= length (unmark (T1 ++ Mk (MBeg u lo hi) :: T2)) ->
      exists M, (exists y z, T2 = y ++ z /\ M = effs m0 (unmark (T1 ++ y))) /\
        M = mapat m0 (unmark (T1 ++ Mk (MBeg u lo hi) :: T2)) j).
    { intros j Hj. rewrite unmark_app, app_length in Hj. cbn in Hj.
      destruct (unmark_at T2 (j - length (unmark T1)) ltac:(lia)) as (p & _ & Ep).
      exists (effs m0 (unmark (T1 ++ firstn p T2))). split.
      - exists (firstn p T2), (skipn p T2). now rewrite firstn_skipn.
      - unfold mapat. rewrite !unmark_app. cbn [unmark]. rewrite firstn_app, Ep.
        rewrite (firstn_all2 (unmark T1)) by lia. reflexivity. }
    split; [exact R1|]. split.
    + intros k v Hk. destruct (R2 k v Hk) as (A & B & j & Hj & Ej). split; [auto|]. split; [auto|].
      destruct (Hmom j Hj) as (M & HM & ->). eauto.
    + intros k Ha Hb Hall. apply R3; auto. intros j Hj. destruct (Hmom j Hj) as (M & HM & <-). auto.
  - destruct (exists_last (l := y :: T3)) as (T5 & w & E5); [discriminate|]. rewrite E5 in E.
    assert (E' : T ++ [e] = (T1 ++ Mk (MBeg u lo hi) :: T2 ++ Mk (MEnd u rs) :: T5) ++ [w]).
    { rewrite E, <- app_assoc. cbn. rewrite <- app_assoc. reflexivity. }
    apply app_inj_tail in E' as [-> ->]. eapply H; eauto.
Qed.

(** ** Steps of scanners *)

(** Where a scan may go wrong.  psl: GetNextNodeForRead (psl/node_fixlen.hpp:153-160) follows
    next_ without asking whether the node there has been merged away.  osl: ResetIterator
    (optimistic_record_iterator.hpp:268-283) searches the leaf without checking its version
    afterwards, and does not check a leaf at all when no record has been read yet; the end
    of a scan is reported without a version check (optimistic_record_iterator.hpp:178-183). *)
Definition page_in (s : cfg) (a : addr) : Prop := forall n, ch s a = Some n -> nd_removed n = false.

Definition scan_calm (s : cfg) (vs : addr -> nat) (p : spc) : Prop :=
  match p with
  | SHold _ _ a false _ => forall n b, ch s a = Some n -> nd_next n = Some b -> page_in s b
  | OReset _ _ a None _ => page_in s a
  | OPos _ _ a _ _ _ => page_in s a
  | OEnd _ hi a ver _ pos _ => page_in s a /\
      forall n e, ch s a = Some n -> nd_endpos n hi = Some (true, e) -> e <= pos -> vs a = ver
  | _ => True
  end.

Section Scanner.
Variables (s : cfg) (vs : addr -> nat) (G : gh) (i0 : nat).
Hypothesis I : inv m0 s G.
Hypothesis Hi0 : i0 <= length (tr s).

Let H := i_heap _ _ _ I.

Lemma leaf_facts a n : ch s a = Some n -> nd_removed n = false -> lv G a = 0 ->
  leafy n (av G a) /\ (a_high (av G a) = None <-> a_next (av G a) = None) /\
  nd_next n = a_next (av G a) /\
  (forall k h, In k (keys_of (a_slots (av G a))) -> a_high (av G a) = Some h -> klt k h) /\
  (forall k, In k (keys_of (a_slots (av G a))) -> inrange G a k) /\
  (forall k, inpage n k <-> elt (Key k) (ConcInv.hi G a)) /\
  ksorted (live (a_slots (av G a))).
Proof.
  intros E R Hl. pose proof (h_node _ _ _ _ _ H a n E R) as Hn.
  destruct (node_leaf _ _ _ _ Hn Hl) as (Hi & Hok).
  destruct (L_hdr _ _ (n_rep _ _ _ _ Hn)) as (_ & _ & I3 & _).
  pose proof (n_next _ _ _ _ Hn) as Hx. pose proof (n_leaf _ _ _ _ Hn Hl) as Hlf.
  split; [split; [apply Hn|auto]|]. split; [|split; [auto|split; [|split; [|split]]]].
  - destruct (a_next (av G a)).
    + destruct Hx as (k & -> & _). split; discriminate.
    + tauto.
  - intros k h Hk Eh. destruct (Hlf k Hk) as (_ & Q). unfold ConcInv.hi, hia in Q. now rewrite Eh in Q.
  - intros k Hk. exact (Hlf k Hk).
  - intros k. unfold inpage. rewrite (L_comphigh _ _ k (n_rep _ _ _ _ Hn)).
    unfold ConcInv.hi, hia. destruct (a_high (av G a)); cbn; unfold klt; split; congruence || tauto.
  - apply live_sorted. apply Hok.
Qed.

(** A psl scan latches a leaf. *)
Lemma enter_ok lo hi a n from acc : placed s G i0 a -> ch s a = Some n -> nd_removed n = false ->
  vb lo -> vb hi -> (from = lo \/ from = None /\ forall k, ele (ConcInv.lo G a) (Key k) -> above lo k) ->
  (forall key c, lo = Some (key, c) -> inpage n key) ->
  handled (tr s) i0 lo hi (fun k => elt (Key k) (ConcInv.lo G a)) acc ->
  (forall k v, In (k, v) acc -> elt (Key k) (ConcInv.lo G a)) ->
  exists ie acc', enter lo hi a n from acc = Some (SHold lo hi a ie acc') /\
    body s vs G i0 (SHold lo hi a ie acc').
Proof.
  intros Hp E R Vlo Vhi Hfrom Hkey Hacc Hlt.
  destruct (leaf_facts a n E R (proj1 (proj2 Hp))) as (HA & Hnx & Hnn & Hhk & Hrng & Hin & Hss).
  pose proof (h_node _ _ _ _ _ H a n E R) as Hn.
  destruct (begin_pos_ok n (av G a) from HA) as (pos & Ep & Hpos).
  { destruct Hfrom as [-> |[-> _]]; [auto|]. intros ? ? [=]. }
  pose proof HA as (Hr & Hi & Hok).
  destruct (L_endpos n (av G a) hi Hr Hi Hok Vhi) as (ie & e & Ee & Hes).
  destruct (endpos_window _ _ _ _ pos Hes Hok Hnx Hhk) as (W1 & W2 & W3 & W4).
  assert (Hrec : page_recs n pos (e - pos) = Some (fbelow hi (fabove from (live (a_slots (av G a)))))).
  { rewrite <- (proj1 (Hpos (av G a) HA)), <- W2.
    destruct (Nat.le_gt_cases pos e) as [Hq|Hq].
    - apply page_recs_ok; auto. lia.
    - replace (e - pos) with 0 by lia. reflexivity. }
  unfold enter. rewrite Ep. cbn. rewrite Ee. cbn. rewrite Hrec. cbn.
  eexists ie, _. split; [reflexivity|]. cbn [body].
  set (R0 := fbelow hi (fabove from (live (a_slots (av G a))))) in *.
  assert (HR : forall k v, In (k, v) R0 <-> In (k, v) (live (a_slots (av G a))) /\ above from k /\ below hi k).
  { intros k v. unfold R0, fbelow, fabove. rewrite !filter_In. cbn [fst]. rewrite aboveb_ok, belowb_ok. tauto. }
  assert (Hab : forall k, ele (ConcInv.lo G a) (Key k) -> above from k <-> above lo k).
  { intros k Hk. destruct Hfrom as [-> |[-> Hf]]; [tauto|]. split; auto. cbn. auto. }
  destruct (page_moment s G a n i0 H E R) as (j & Hj & Hc); try apply Hp; auto.
  assert (Hadd : forall Q' : K -> Prop, (forall k, below hi k -> Q' k -> inpage n k) ->
            handled (tr s) i0 lo hi Q' (acc ++ R0)).
  { intros Q' HQ. eapply handled_add; eauto.
    - unfold R0. now apply filter_sorted, filter_sorted.
    - intros k v Hk. apply HR in Hk as (K1 & K2 & K3).
      pose proof (live_key_in _ _ _ K1) as Kin. pose proof (Hrng k Kin) as Krng.
      split; [apply Hab; [apply Krng|auto]|]. split; [auto|]. exists j. split; [auto|].
      rewrite <- Hc by auto. now apply assoc_in.
    - intros k v k' v' Hk Hk'. apply HR in Hk' as (K1 & _). apply live_key_in in K1.
      pose proof (elt_ele_trans _ _ _ (Hlt k v Hk) (proj1 (Hrng k' K1))) as Q. exact Q.
    - intros k Ha Hb Hq. destruct (elt_dec (Key k) (ConcInv.lo G a)) as [Hlo|Hlo]; [now left|right].
      assert (Hkr : inrange G a k).
      { split; auto. apply Hin. now apply HQ. }
      destruct (assoc k (live (a_slots (av G a)))) as [v|] eqn:Ek.
      + left. apply in_map_iff. exists (k, v). split; auto. apply HR.
        split; [now apply assoc_in|]. split; auto. now apply Hab.
      + right. exists j. split; auto. rewrite <- Hc; auto. }
  destruct ie.
  - apply Hadd. intros k Hb _. apply Hin. unfold ConcInv.hi, hia.
    destruct (a_high (av G a)) as [h|] eqn:Eh; [|exact Logic.I]. cbn. now apply W3.
  - split; [auto|]. exists n. split; [auto|]. split; [auto|].
    destruct (W4 eq_refl) as (_ & W5). split; [congruence|]. split; [now apply Hadd|]. split; [|auto].
    intros k v Hk. apply Hin. apply in_app_or in Hk as [Hk|Hk].
    + eapply elt_trans; [eapply Hlt; eauto|]. apply (n_rng _ _ _ _ Hn).
    + apply HR in Hk as (K1 & _). apply Hrng. eapply live_key_in; eauto.
Qed.

(** When the end position has been reached in the last leaf of the scan, all is done. *)
Lemma end_handled lo hi a n kk pos e acc : vb hi -> oscan s G i0 lo hi a kk acc ->
  ch s a = Some n -> nd_removed n = false -> pos_at n kk pos -> nd_endpos n hi = Some (true, e) ->
  e <= pos -> handled (tr s) i0 lo hi (fun _ => True) acc.
Proof.
  intros Vhi (Hp & Vk & Hh & _) E R Hpos Ee Hep.
  destruct (leaf_facts a n E R (proj1 (proj2 Hp))) as (HA & Hnx & Hnn & Hhk & Hrng & Hin & Hss).
  pose proof HA as (Hr & Hi & Hok).
  destruct (L_endpos n (av G a) hi Hr Hi Hok Vhi) as (ie & e' & Ee' & Hes).
  assert (Q : ie = true /\ e' = e) by (split; congruence). destruct Q as (-> & ->).
  destruct (endpos_window _ _ _ _ pos Hes Hok Hnx Hhk) as (W1 & W2 & W3 & W4).
  replace (e - pos) with 0 in W2 by lia. cbn [firstn live flat_map] in W2.
  rewrite (proj1 (Hpos (av G a) HA)) in W2.
  destruct (page_moment s G a n i0 H E R) as (j & Hj & Hc); try apply Hp; auto.
  eapply handled_weak; eauto. intros k Ha Hb _.
  destruct (elt_dec (Key k) (ConcInv.lo G a)) as [Hlo|Hlo]; [left; now right|].
  destruct (aboveb kk k) eqn:Eab.
  - right. exists j. split; auto.
    assert (Hkr : inrange G a k).
    { split; auto. unfold ConcInv.hi, hia. destruct (a_high (av G a)) as [h|] eqn:Eh; [|exact Logic.I].
      cbn. now apply W3. }
    rewrite <- Hc by auto. destruct (assoc k (live (a_slots (av G a)))) as [v|] eqn:Ek; auto.
    exfalso. apply assoc_in in Ek; auto.
    assert (In (k, v) (fbelow hi (fabove kk (live (a_slots (av G a)))))).
    { unfold fbelow, fabove. rewrite !filter_In. cbn [fst]. rewrite belowb_ok. auto. }
    rewrite <- W2 in H0. destruct H0.
  - left. left. destruct kk as [[k1 c]|]; [|discriminate]. intros Q. apply aboveb_ok in Q. congruence.
Qed.


(** What a step of a scan must establish. *)
Definition stepped (p : spc) (r : stres) : Prop :=
  exists p', r = TOk p' None /\ bounds p' = bounds p /\ body s vs G i0 p'.

Lemma kind_of a n : ch s a = Some n -> nd_inner n = negb (lv G a =? 0).
Proof.
  intros E. destruct (nd_removed n) eqn:R.
  - apply (h_dead _ _ _ _ _ H a n E R).
  - pose proof (h_node _ _ _ _ _ H a n E R) as Hn. destruct (L_hdr _ _ (n_rep _ _ _ _ Hn)) as (-> & _).
    apply (n_inner _ _ _ _ Hn).
Qed.

Lemma deadroot_inner a : deadroot s a -> lv G a <> 0.
Proof.
  intros (d & E & R & Hx). pose proof (kind_of a d E) as Hk.
  destruct (h_dead _ _ _ _ _ H a d E R) as (_ & Q & Hi & _). rewrite Hi in Hk by congruence.
  destruct (lv G a =? 0) eqn:El; [discriminate|]. now apply Nat.eqb_neq.
Qed.

Lemma leftmost_stays a n : a < cfr s -> ch s a = Some n -> lv G a = 0 -> ConcInv.lo G a = NegInf ->
  nd_removed n = false.
Proof.
  intros Ha E Hl Hlo. destruct (nd_removed n) eqn:R; auto. exfalso.
  destruct (h_dead _ _ _ _ _ H a n E R) as (Q & _). destruct (dd G a) as [T|] eqn:Ed; [|congruence].
  pose proof (h_tg _ _ _ _ _ H a T Ha Ed) as Q'. destruct (tg G a).
  - destruct Q' as (_ & _ & Q' & _). rewrite Hlo in Q'. destruct (ConcInv.lo G a0); destruct Q'.
  - destruct Q' as (_ & Q' & _). congruence.
Qed.

Lemma handled_nil lo hi Q : (forall k, above lo k -> ~ Q k) -> handled (tr s) i0 lo hi Q [].
Proof.
  intros HQ. split; [constructor|]. split; [intros ? ? []|]. intros k Ha _ Hq _. now destruct (HQ k Ha).
Qed.

Lemma above_ge lo k key c : lo = Some (key, c) -> above lo k -> kle key k.
Proof. intros -> Q. destruct c; cbn in Q; auto. now apply klt_kle. Qed.

Lemma at_leaf lo hi a : vb lo -> a < cfr s -> lv G a = 0 ->
  (deadroot s a \/ (dle (Some i0) (dd G a) /\
        match lo with
        | Some (key, _) => ele (ConcInv.lo G a) (Key key)
        | None => ConcInv.lo G a = NegInf
        end)) ->
  placed s G i0 a /\ handled (tr s) i0 lo hi (fun k => elt (Key k) (ConcInv.lo G a)) [].
Proof.
  intros Vlo Ha Hl [Q|(Q1 & Q2)]; [now apply deadroot_inner in Q|].
  split; [repeat split; auto|]. apply handled_nil. intros k Hk Hlt.
  destruct lo as [[key c]|]; [|now rewrite Q2 in Hlt].
  apply (above_ge _ _ _ _ eq_refl) in Hk. apply kle_ele in Hk.
  eapply elt_irrefl. eapply elt_ele_trans; [exact Hlt|]. eapply ele_trans; eauto.
Qed.

Lemma step_root u chk lo hi q : stepped (SRoot lo hi) (scan_step osl u chk s vs (SRoot lo hi) q).
Proof.
  cbn [scan_step]. eexists. split; [reflexivity|]. split; [reflexivity|]. cbn [body].
  destruct (i_root _ _ _ I) as (R & HR). split; [apply HR|].
  destruct (r_cur _ _ _ HR) as [-> |(Hd & _)]; [|now left]. right. destruct (r_live _ _ _ HR) as (_ & ->).
  split; [exact Logic.I|]. rewrite (r_lo _ _ _ HR). destruct lo as [[]|]; auto. apply elt_ele. exact Logic.I.
Qed.

Lemma step_desc u chk lo hi a q : vb lo -> vb hi -> body s vs G i0 (SDesc lo hi a) ->
  stepped (SDesc lo hi a) (scan_step osl u chk s vs (SDesc lo hi a) q).
Proof.
  intros Vlo Vhi (Ha & Hpos). destruct (h_some _ _ _ _ _ H a Ha) as (n & E).
  pose proof (kind_of a n E) as Hk. cbn [scan_step]. rewrite E.
  destruct lo as [[key c]|].
  - specialize (Vlo key c eq_refl) as Vk.
    destruct (nd_inner n) eqn:Ei; rewrite ?andb_false_r, ?andb_true_r; cbn [negb].
    + assert (Hl : lv G a <> 0) by (intros Q; rewrite Q in Hk; discriminate).
      destruct (cov_cases _ _ _ H a n key E) as [(R & Hc & Q1 & _)|(R & Hn & _ & Q1 & Hc)].
      * rewrite Hc. destruct (nd_next n) as [b|] eqn:En.
        -- eexists. split; [reflexivity|]. split; [reflexivity|]. cbn [body].
           destruct Hpos as [(d & E' & _ & Ed)|(P1 & P2)]; [congruence|].
           destruct (walk_next _ _ _ H a n key b E Ha Hc En) as ((W1 & W2 & W3 & _) & W4).
           split; [auto|]. right. split; auto.
        -- eexists. split; [reflexivity|]. split; [reflexivity|exact Logic.I].
      * assert (Hpos' : dle (Some i0) (dd G a) /\ ele (ConcInv.lo G a) (Key key)).
        { destruct Hpos as [(d & E' & R' & _)|Hpos]; [congruence|auto]. }
        destruct Hpos' as (P1 & P2). destruct Hc as [(Hc & _)|(Hc & b & h & B1 & B2)]; rewrite Hc.
        -- destruct (walk_down _ _ _ H a n key [] E Ha Hc Hl Vk P2) as (b & W1 & W2 & W3 & W4 & W5 & _).
           rewrite W1. eexists. split; [reflexivity|]. split; [reflexivity|]. cbn [body]. auto.
        -- assert (En : nd_next n = Some b) by congruence. rewrite En.
           destruct (walk_next _ _ _ H a n key b E Ha Hc En) as ((W1 & W2 & W3 & _) & W4).
           eexists. split; [reflexivity|]. split; [reflexivity|]. cbn [body]. auto.
    + assert (Hl : lv G a = 0) by (destruct (lv G a =? 0) eqn:Q; [now apply Nat.eqb_eq|discriminate]).
      destruct (at_leaf (Some (key, c)) hi a Vlo Ha Hl Hpos) as (Hp & Hh).
      destruct osl; cbn [andb].
      * eexists. split; [reflexivity|]. split; [reflexivity|]. cbn [body].
        split; [auto|]. split; [auto|]. split; [|split; [destruct c; cbn; auto; intros ? ? []|auto]].
        eapply handled_weak; eauto. intros k Hab _ [Q|Q]; [now destruct Q|now left].
      * destruct Hpos as [Q|(P1 & P2)]; [now apply deadroot_inner in Q|].
        destruct (cov_cases _ _ _ H a n key E) as [(R & Hc & Q1 & Q0 & _)|(R & Hn & _ & Q1 & Hc)].
        -- rewrite Hc. destruct (nd_next n) as [b|] eqn:En.
           ++ destruct (walk_next _ _ _ H a n key b E Ha Hc En) as ((W1 & W2 & W3 & _) & W4).
              eexists. split; [reflexivity|]. split; [reflexivity|]. cbn [body]. auto.
           ++ eexists. split; [reflexivity|]. split; [reflexivity|exact Logic.I].
        -- destruct Hc as [(Hc & Hlt)|(Hc & b & h & B1 & B2)]; rewrite Hc.
           ++ destruct (enter_ok (Some (key, c)) hi a n (Some (key, c)) [] Hp E R Vlo Vhi) as (ie & acc & He & Hb); auto.
              ** intros ? ? [= <- <-]. now apply (leaf_facts a n E R Hl).
              ** intros ? ? [].
              ** rewrite He. eexists. split; [reflexivity|]. split; [reflexivity|auto].
           ++ assert (En : nd_next n = Some b) by congruence. rewrite En.
              destruct (walk_next _ _ _ H a n key b E Ha Hc En) as ((W1 & W2 & W3 & _) & W4).
              eexists. split; [reflexivity|]. split; [reflexivity|]. cbn [body]. auto.
  - destruct (nd_inner n) eqn:Ei.
    + assert (Hl : lv G a <> 0) by (intros Q; rewrite Q in Hk; discriminate).
      destruct (nd_removed n) eqn:R; [eexists; split; [reflexivity|]; split; [reflexivity|exact Logic.I]|].
      destruct Hpos as [(d & E' & R' & _)|(P1 & P2)]; [congruence|].
      pose proof (h_node _ _ _ _ _ H a n E R) as Hn.
      destruct (first_kid _ _ _ _ Hn Hl) as (b & Hb).
      destruct (n_kids _ _ _ _ Hn Hl _ _ Hb) as (K1 & K2 & K3 & K4 & K5).
      destruct (node_inner _ _ _ _ Hn Hl) as (Hi & Hok).
      assert (Hch : exists b, nd_child n 0 = Some b /\ In (ConcInv.lo G a, b) (entries_of G a)).
      { unfold entries_of. destruct (a_slots (av G a)) as [|z sl] eqn:Es; [destruct Hok|].
        exists (skid z). split; [|now left]. eapply (L_child n (av G a) 0 z); eauto; [apply Hn|rewrite Es; reflexivity|].
        destruct Hok as ((_ & x & Hx) & _). unfold skid. now rewrite Hx. }
      destruct Hch as (b' & Hb' & Hb2). rewrite Hb'.
      destruct (n_kids _ _ _ _ Hn Hl _ _ Hb2) as (K1' & K2' & K3' & K4' & _).
      eexists. split; [reflexivity|]. split; [reflexivity|]. cbn [body]. split; [auto|]. right.
      split; [eapply dle_trans; eauto|congruence].
    + assert (Hl : lv G a = 0) by (destruct (lv G a =? 0) eqn:Q; [now apply Nat.eqb_eq|discriminate]).
      destruct (at_leaf None hi a Vlo Ha Hl Hpos) as (Hp & Hh).
      destruct Hpos as [Q|(P1 & P2)]; [now apply deadroot_inner in Q|].
      destruct osl.
      * eexists. split; [reflexivity|]. split; [reflexivity|]. cbn [body].
        split; [auto|]. split; [auto|]. split; [|split; [reflexivity|auto]].
        eapply handled_weak; eauto. intros k Hab _ [[]|Q]; now left.
      * pose proof (leftmost_stays a n Ha E Hl P2) as R.
        destruct (enter_ok None hi a n None [] Hp E R Vlo Vhi) as (ie & acc & He & Hb); auto.
        -- discriminate.
        -- intros ? ? [].
        -- rewrite He. eexists. split; [reflexivity|]. split; [reflexivity|auto].
Qed.

Lemma step_hold u chk lo hi a ie acc q : vb lo -> vb hi -> body s vs G i0 (SHold lo hi a ie acc) ->
  scan_calm s vs (SHold lo hi a ie acc) ->
  stepped (SHold lo hi a ie acc) (scan_step osl u chk s vs (SHold lo hi a ie acc) q).
Proof.
  intros Vlo Vhi Hb Hc. cbn [scan_step]. destruct ie; cbn [body scan_calm] in *.
  - eexists. split; [reflexivity|]. split; [reflexivity|auto].
  - destruct Hb as (Hp & n & E & R & Hx & Hh & Hacc & Hkey). rewrite E.
    destruct (nd_next n) as [b|] eqn:En; [|congruence].
    destruct (leaf_facts a n E R (proj1 (proj2 Hp))) as (HA & _ & Hnn & _ & _ & Hin & _).
    pose proof (h_node _ _ _ _ _ H a n E R) as Hn.
    destruct (right_next _ _ _ H a b n (proj1 Hp) Hn ltac:(congruence)) as ((W1 & W2 & W3 & _) & h & Eh & Elo).
    assert (Hin' : forall k, inpage n k <-> elt (Key k) (ConcInv.lo G b)).
    { intros k. rewrite Hin, Elo. unfold ConcInv.hi, hia. rewrite Eh. tauto. }
    destruct (h_some _ _ _ _ _ H b W1) as (m & Em). rewrite Em.
    assert (Rm : nd_removed m = false) by (eapply Hc; eauto).
    assert (Hpb : placed s G i0 b).
    { destruct Hp as (P1 & P2 & P3). split; [auto|]. split; [congruence|auto]. }
    destruct (enter_ok lo hi b m None acc Hpb Em Rm Vlo Vhi) as (ie & acc' & He & Hb).
    + right. split; auto. intros k Hk. destruct lo as [[key c]|]; [|exact Logic.I].
      specialize (Hkey key c eq_refl). apply Hin' in Hkey.
      pose proof (elt_ele_trans _ _ _ Hkey Hk) as Q. destruct c; cbn; auto. now apply klt_kle.
    + intros key c Ec. specialize (Hkey key c Ec). apply Hin' in Hkey.
      apply (leaf_facts b m Em Rm (proj1 (proj2 Hpb))). eapply elt_trans; eauto.
      apply (n_rng _ _ _ _ (h_node _ _ _ _ _ H b m Em Rm)).
    + eapply handled_weak; eauto. intros k _ _ Hk. left. now apply Hin'.
    + intros k v Hk. apply Hin'. eauto.
    + rewrite He. eexists. split; [reflexivity|]. split; [reflexivity|auto].
Qed.

Lemma step_reset u chk lo hi a kk acc q : vb hi -> body s vs G i0 (OReset lo hi a kk acc) ->
  scan_calm s vs (OReset lo hi a kk acc) ->
  stepped (OReset lo hi a kk acc) (scan_step osl u chk s vs (OReset lo hi a kk acc) q).
Proof.
  intros Vhi Hb Hc. cbn [scan_step]. cbn [body] in Hb. pose proof Hb as (Hp & Vk & Hh & Hle & Hab).
  pose proof Hp as (Ha & Hl & Hd).
  destruct (h_some _ _ _ _ _ H a Ha) as (n & E). rewrite E.
  destruct kk as [[key c]|].
  - assert (Hright : forall b, covers n key = Some false -> nd_next n = Some b ->
      stepped (OReset lo hi a (Some (key, c)) acc) (TOk (OReset lo hi b (Some (key, c)) acc) None)).
    { intros b Hcov En.
      destruct (walk_next _ _ _ H a n key b E Ha Hcov En) as ((W1 & W2 & W3 & _) & W4).
      eexists. split; [reflexivity|]. split; [reflexivity|]. cbn [body].
      split; [split; [auto|]; split; [congruence|auto]|]. split; [auto|]. split; [|auto].
      eapply handled_weak; eauto. intros k _ _ [Q|Q]; [left; now left|]. left.
      destruct (cov_cases _ _ _ H a n key E) as [(R & _ & Q1 & Q0 & T & Q2)|(R & Hn & _ & Q1 & [[Q3 _]|(_ & b' & h & Q3 & Q4 & Q5 & Q6)])].
      - right. destruct (right_tg _ _ _ H a b T Ha Q2 ltac:(congruence)) as (_ & Hlo).
        eapply elt_trans; eauto.
      - congruence.
      - left. assert (b' = b) by congruence. subst b'. rewrite Q5 in Q.
        pose proof (elt_ele_trans _ _ _ Q Q6) as Q7. cbn in Q7.
        intros Q8. apply (above_ge _ _ _ _ eq_refl) in Q8. apply kle_not_lt in Q8. auto. }
    destruct (cov_cases _ _ _ H a n key E) as [(R & Hcov & Q1 & Q0 & T & Q2)|(R & Hn & _ & Q1 & [[Hcov _]|(Hcov & b' & h & Q3 & Q4 & Q5 & Q6)])]; rewrite Hcov.
    + destruct (nd_next n) as [b|] eqn:En; [now apply Hright|].
      exfalso. pose proof (kind_of a n E) as Hk. rewrite Q0, Hl in Hk by congruence. discriminate.
    + eexists. split; [reflexivity|]. split; [reflexivity|]. cbn [body].
      split; [auto|]. split; [lia|]. intros _. exists n. auto.
    + assert (En : nd_next n = Some b') by congruence. rewrite En. now apply Hright.
  - eexists. split; [reflexivity|]. split; [reflexivity|]. cbn [body].
    split; [auto|]. split; [lia|]. intros _. exists n. split; [auto|]. split; [now apply Hc|].
    intros B _. split; [|discriminate]. cbn [skipn]. symmetry. now apply filter_all.
Qed.

Lemma step_pos u chk lo hi a ver kk acc q : body s vs G i0 (OPos lo hi a ver kk acc) ->
  scan_calm s vs (OPos lo hi a ver kk acc) ->
  stepped (OPos lo hi a ver kk acc) (scan_step osl u chk s vs (OPos lo hi a ver kk acc) q).
Proof.
  intros (Hb & Hv & Hs) Hc. pose proof Hb as (Hp & Vk & _). pose proof Hp as (Ha & Hl & Hd).
  cbn [scan_step]. destruct (h_some _ _ _ _ _ H a Ha) as (n & E). rewrite E.
  pose proof (Hc n E) as R. destruct (leaf_facts a n E R Hl) as (HA & _).
  destruct (begin_pos_ok n (av G a) kk HA Vk) as (pos & Ep & Hpos). rewrite Ep.
  eexists. split; [reflexivity|]. split; [reflexivity|]. cbn [body].
  split; [auto|]. split; [auto|]. intros _. exists n. auto.
Qed.

(** A weaker condition: the scan may end on a stale position if nothing follows. *)
Definition scan_soft (p : spc) : Prop :=
  match p with
  | OEnd lo hi a ver _ pos acc => page_in s a /\
      forall n e, ch s a = Some n -> nd_endpos n hi = Some (true, e) -> e <= pos ->
        handled (tr s) i0 lo hi (fun _ => True) acc
  | _ => scan_calm s vs p
  end.

Lemma calm_soft p : (forall lo hi, bounds p = Some (lo, hi) -> vb lo /\ vb hi) ->
  body s vs G i0 p -> scan_calm s vs p -> scan_soft p.
Proof.
  intros Hv Hb Hc. destruct p; auto. destruct (Hv _ _ eq_refl) as (Vlo & Vhi).
  destruct Hb as (Hb & Hv' & Hs), Hc as (Hc & Hend). split; [auto|]. intros n e E Ee Hle.
  destruct (Hs (Hend n e E Ee Hle)) as (n' & E' & R' & Q).
  eapply end_handled; eauto. congruence.
Qed.

Lemma step_end u chk lo hi a ver kk pos acc q : vb hi -> body s vs G i0 (OEnd lo hi a ver kk pos acc) ->
  scan_soft (OEnd lo hi a ver kk pos acc) ->
  stepped (OEnd lo hi a ver kk pos acc) (scan_step osl u chk s vs (OEnd lo hi a ver kk pos acc) q).
Proof.
  intros Vhi (Hb & Hv & Hs) (Hc & Hend). pose proof Hb as (Hp & Vk & _). pose proof Hp as (Ha & Hl & Hd).
  cbn [scan_step]. destruct (h_some _ _ _ _ _ H a Ha) as (n & E). rewrite E.
  pose proof (Hc n E) as R. destruct (leaf_facts a n E R Hl) as (HA & _). pose proof HA as (Hr & Hi & Hok).
  destruct (L_endpos n (av G a) hi Hr Hi Hok Vhi) as (ie & e & Ee & _). rewrite Ee.
  eexists. split; [reflexivity|]. split; [reflexivity|]. cbn [body].
  split; [auto|]. split.
  - split; [auto|]. intros Ev. destruct (Hs Ev) as (n' & E' & R' & Q). exists n'.
    assert (n' = n) by congruence. subst. auto.
  - intros -> Hle. eauto.
Qed.

Lemma step_loop u chk lo hi a ver kk pos e ie acc q : vb hi ->
  body s vs G i0 (OLoop lo hi a ver kk pos e ie acc) ->
  chk_ok vs (OLoop lo hi a ver kk pos e ie acc) chk ->
  stepped (OLoop lo hi a ver kk pos e ie acc) (scan_step osl u chk s vs (OLoop lo hi a ver kk pos e ie acc) q).
Proof.
  intros Vhi (Hb & (Hv & Hs) & Hfin) Hchk. cbn [chk_ok] in Hchk.
  pose proof Hb as (Hp & Vk & Hh & Hle & Hab). pose proof Hp as (Ha & Hl & Hd).
  cbn [scan_step]. destruct (h_some _ _ _ _ _ H a Ha) as (n & E). rewrite E.
  assert (Hback : stepped (OLoop lo hi a ver kk pos e ie acc) (TOk (OReset lo hi a kk acc) None)).
  { eexists. split; [reflexivity|]. split; [reflexivity|exact Hb]. }
  destruct (pos <? e) eqn:Ee; [apply Nat.ltb_lt in Ee|apply Nat.ltb_ge in Ee; destruct ie].
  2: { eexists. split; [reflexivity|]. split; [reflexivity|]. apply Hfin; auto. }
  all: destruct chk; [|exact Hback].
  all: destruct (Hs (Hchk eq_refl)) as (n' & E' & R & Hpos & Hep); assert (n' = n) by congruence; subst n'.
  all: destruct (leaf_facts a n E R Hl) as (HA & Hnx & Hnn & Hhk & Hrng & Hin & Hss); pose proof HA as (Hr & Hi & Hok).
  all: destruct (L_endpos n (av G a) hi Hr Hi Hok Vhi) as (ie' & e' & Ee' & Hes).
  all: rewrite Hep in Ee'; injection Ee' as <- <-.
  all: destruct (endpos_window _ _ _ _ pos Hes Hok Hnx Hhk) as (W1 & W2 & W3 & W4).
  all: destruct (page_moment s G a n i0 H E R) as (j & Hj & Hc); auto.
  all: destruct (Hpos (av G a) HA) as (Hlive & Hge).
  - destruct (nth_error_ex (a_slots (av G a)) pos) as [z Hz]; [lia|].
    destruct (L_record _ _ _ _ Hr Hi Hok Hz) as (Ed & Ek & Hrec).
    pose proof Hok as (Hsl & Hks). rewrite Forall_forall in Hsl.
    destruct (Hsl z (nth_error_In _ _ Hz)) as (k & v & Hk & Hv'). rewrite Ek, Hk, Ed.
    destruct (L_hdr _ _ Hr) as (_ & _ & _ & Hrc).
    pose proof (pos_next n pos k ltac:(lia) ltac:(congruence)) as Hnext.
    pose proof (skipn_nth _ _ _ Hz) as Esk. rewrite Esk in Hge, Hlive.
    assert (Hkin : In k (keys_of (a_slots (av G a)))).
    { apply in_keys_of. exists z. split; auto. eapply nth_error_In; eauto. }
    assert (Hk1 : forall k1 c, kk = Some (k1, c) -> kle k1 k).
    { intros k1 c Ek1. eapply Hge; eauto. cbn. unfold key1. rewrite Hk. now left. }
    assert (Hab1 : forall x, klt k x -> above kk x).
    { intros x Hx. destruct kk as [[k1 c]|]; [|exact Logic.I]. specialize (Hk1 k1 c eq_refl).
      pose proof (kle_lt_trans _ _ _ Hk1 Hx). destruct c; cbn; auto. now apply klt_kle. }
    assert (Hvk : vb (Some (k, false))).
    { intros ? ? [= <- <-]. eapply L_kvalid_slot; eauto. }
    set (R' := if s_del z then [] else [(k, v)]).
    assert (HR : forall x w, In (x, w) R' <-> s_del z = false /\ x = k /\ w = v).
    { intros x w. unfold R'. destruct (s_del z); cbn; split; try tauto; try (intros (Q & _); discriminate).
      - intros [[= <- <-]|[]]. auto.
      - intros (_ & -> & ->). now left. }
    assert (Hliv : live (z :: skipn (S pos) (a_slots (av G a))) = R' ++ live (skipn (S pos) (a_slots (av G a)))).
    { cbn [live flat_map]. unfold rec1 at 1. rewrite Hk, Hv'. unfold R'. now destruct (s_del z). }
    assert (HRk : s_del z = false -> In (k, v) (live (a_slots (av G a))) /\ above kk k /\ below hi k).
    { intros Q. assert (In (k, v) (R' ++ live (skipn (S pos) (a_slots (av G a))))) as Q1.
      { apply in_or_app. left. now apply HR. }
      rewrite <- Hliv, Hlive in Q1. unfold fabove in Q1. apply filter_In in Q1 as (Q1 & Q2).
      split; auto. split; [now apply aboveb_ok|].
      assert (Q3 : In (k, v) (live (firstn (e - pos) (skipn pos (a_slots (av G a)))))).
      { rewrite Esk. replace (e - pos) with (S (e - S pos)) by lia. cbn [firstn live flat_map].
        apply in_or_app. left. unfold rec1. rewrite Hk, Hv', Q. now left. }
      rewrite W2 in Q3. unfold fbelow in Q3. apply filter_In in Q3 as (_ & Q3). now apply belowb_ok. }
    assert (Hos : oscan s G i0 lo hi a (Some (k, false)) (acc ++ R')).
    { split; [auto|]. split; [auto|]. split; [|split].
      - eapply handled_add; eauto.
        + unfold R'. destruct (s_del z); repeat constructor.
        + intros x w Hx. apply HR in Hx as (Q & -> & ->). destruct (HRk Q) as (Q1 & Q2 & Q3).
          split; [auto|]. split; [auto|]. exists j. split; auto. rewrite <- Hc; [now apply assoc_in|].
          now apply Hrng.
        + intros x w x' w' Hx Hx'. apply HR in Hx' as (Q & -> & ->). destruct (HRk Q) as (_ & Q2 & _).
          destruct kk as [[k1 [|]]|]; cbn in Hle; try (subst acc; destruct Hx; fail).
          eapply kle_lt_trans; [eapply Hle; eauto|exact Q2].
        + intros x Hax Hbx [Q|Q]; [|left; now right].
          destruct (elt_dec (Key x) (ConcInv.lo G a)) as [Hlo|Hlo]; [left; now right|].
          destruct (aboveb kk x) eqn:Eab.
          * right. assert (Hxk : kle x k) by (apply kle_not_lt; exact Q).
            assert (Hkr : inrange G a x).
            { split; auto. eapply ele_elt_trans; [apply kle_ele; exact Hxk|]. now apply Hrng. }
            destruct (assoc x (live (a_slots (av G a)))) as [w|] eqn:Ew.
            -- left. apply assoc_in in Ew; auto.
               assert (Q1 : In (x, w) (fabove kk (live (a_slots (av G a))))).
               { unfold fabove. rewrite filter_In. auto. }
               rewrite <- Hlive, Hliv in Q1. apply in_app_or in Q1 as [Q1|Q1].
               ++ apply in_map_iff. exists (x, w). auto.
               ++ exfalso. rewrite (proj1 (Hnext (av G a) HA)) in Q1. unfold fabove in Q1.
                  apply filter_In in Q1 as (_ & Q1). apply aboveb_ok in Q1. apply Q. exact Q1.
            -- right. exists j. split; auto. rewrite <- Hc; auto.
          * left. left. destruct kk as [[k1 c]|]; [|discriminate]. intros Q'. apply aboveb_ok in Q'. congruence.
      - cbn [acc_le]. intros x w Hx. apply in_app_or in Hx as [Hx|Hx].
        + destruct kk as [[k1 [|]]|]; cbn in Hle; try (subst acc; destruct Hx; fail).
          eapply kle_trans; [eapply Hle; eauto|eauto].
        + apply HR in Hx as (_ & -> & _). apply kle_refl.
      - intros x Hx. apply Hab, Hab1. exact Hx. }
    assert (Hgoal : stepped (OLoop lo hi a ver kk pos e ie acc)
        (TOk (OLoop lo hi a ver (Some (k, false)) (S pos) e ie (acc ++ R')) None)).
    { eexists. split; [reflexivity|]. split; [reflexivity|]. cbn [body]. split; [auto|]. split.
      - split; [auto|]. intros _. exists n. auto.
      - intros -> He. eapply end_handled; eauto. }
    destruct (s_del z) eqn:Edel.
    + unfold R' in Hgoal. rewrite app_nil_r in Hgoal. exact Hgoal.
    + rewrite (Hrec k v Hk Hv' eq_refl). exact Hgoal.
  - destruct (W4 eq_refl) as (We & Wn). rewrite Hnn. destruct (a_next (av G a)) as [b|] eqn:En; [|congruence].
    pose proof (h_node _ _ _ _ _ H a n E R) as Hn.
    destruct (right_next _ _ _ H a b n Ha Hn En) as ((R1 & R2 & R3 & _) & h & Eh & Elo).
    eexists. split; [reflexivity|]. split; [reflexivity|]. cbn [body].
    split; [split; [auto|]; split; [congruence|auto]|]. split; [auto|]. split; [|auto].
    eapply handled_weak; eauto. intros k _ Hbk [Q|Q]; [left; now left|].
    destruct (elt_dec (Key k) (ConcInv.lo G a)) as [Hlo|Hlo]; [left; now right|].
    destruct (aboveb kk k) eqn:Eab.
    + right. exists j. split; auto.
      assert (Hkr : inrange G a k).
      { split; auto. unfold ConcInv.hi, hia. rewrite Eh, <- Elo. auto. }
      rewrite <- Hc by auto. destruct (assoc k (live (a_slots (av G a)))) as [v|] eqn:Ek; auto.
      exfalso. apply assoc_in in Ek; auto.
      assert (Hin' : In (k, v) (fabove kk (live (a_slots (av G a))))).
      { unfold fabove. rewrite filter_In. auto. }
      rewrite <- Hlive, skipn_all2 in Hin' by lia. destruct Hin'.
    + left. left. destruct kk as [[k1 c]|]; [|discriminate]. intros Q'. apply aboveb_ok in Q'. congruence.
Qed.

(** No step of a calm scan goes wrong. *)
Lemma scan_body u chk p q : p <> SIdle -> (forall lo hi, bounds p = Some (lo, hi) -> vb lo /\ vb hi) ->
  body s vs G i0 p -> scan_soft p -> chk_ok vs p chk ->
  (exists lo hi acc, p = SRet lo hi acc) \/ stepped p (scan_step osl u chk s vs p q).
Proof.
  intros Hne Hv Hb Hc Hk.
  destruct p; cbn [bounds] in Hv; try (destruct (Hv _ _ eq_refl) as (Vlo & Vhi)); try congruence.
  - right. apply step_root.
  - right. now apply step_desc.
  - right. now apply step_hold.
  - right. now apply step_reset.
  - right. now apply step_pos.
  - right. now apply step_end.
  - right. now apply step_loop.
  - left. eauto.
Qed.

End Scanner.

End CScanProofs.
