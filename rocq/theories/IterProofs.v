(** Iterators deliver exactly the records in range, in order. *)
From Coq Require Import List Arith Bool Lia Sorted.
From Verif Require Import Params Mem Common Spec NodeAbs SLIface BaseIface TreeState Levels
  TreeHeap IterModel WalkModel WalkProofs.
Import ListNotations.

Section IterProofs.
Context {P : Params} {O : OrdLaws P} {B : BaseOps P} {LB : BaseLaws P B} {WK : Leak}.
Notation hinv := (@hinv P WK bn brep).

Definition belowb (hi : bound) (k : K) : bool :=
  match hi with
  | None => true
  | Some (b, true) => negb (ltb b k)
  | Some (b, false) => ltb k b
  end.
Definition aboveb (lo : bound) (k : K) : bool :=
  match lo with
  | None => true
  | Some (b, true) => negb (ltb k b)
  | Some (b, false) => ltb b k
  end.

Lemma belowb_ok hi k : belowb hi k = true <-> below hi k.
Proof.
  destruct hi as [[b [|]]|]; cbn; try tauto.
  - rewrite negb_true_iff. rewrite kle_not_lt. unfold klt. destruct (ltb b k); split; congruence.
Qed.
Lemma aboveb_ok lo k : aboveb lo k = true <-> above lo k.
Proof.
  destruct lo as [[b [|]]|]; cbn; try tauto.
  - rewrite negb_true_iff. rewrite kle_not_lt. unfold klt. destruct (ltb k b); split; congruence.
Qed.

Definition fbelow (hi : bound) (l : list (K * V)) := filter (fun p => belowb hi (fst p)) l.
Definition fabove (lo : bound) (l : list (K * V)) := filter (fun p => aboveb lo (fst p)) l.

Lemma filter_all {A} (f : A -> bool) l : (forall x, In x l -> f x = true) -> filter f l = l.
Proof.
  induction l as [|x l IH]; cbn; auto. intros H. rewrite (H x) by auto. f_equal. apply IH. auto.
Qed.
Lemma filter_none {A} (f : A -> bool) l : (forall x, In x l -> f x = false) -> filter f l = [].
Proof. induction l as [|x l IH]; cbn; auto. intros H. rewrite (H x) by auto. apply IH. auto. Qed.

Lemma filter_sorted f (l : list (K * V)) : ksorted l -> ksorted (filter f l).
Proof.
  unfold ksorted. induction l as [|x l IH]; cbn; auto. intros H. inv H.
  destruct (f x); cbn; auto. constructor; auto. rewrite Forall_forall in *.
  intros k Hk. apply H3. apply in_map_iff in Hk as (y & <- & Hy). apply filter_In in Hy as [Hy _].
  now apply in_map.
Qed.

(** The scan of a sorted record list. *)
Lemma is_scan_filter m lo hi rs : ksorted rs -> (forall k, assoc k rs = m k) ->
  is_scan m lo hi (fbelow hi (fabove lo rs)).
Proof.
  intros Hs Hm. split; [now apply filter_sorted, filter_sorted|].
  intros k v. unfold fbelow, fabove. rewrite !filter_In. cbn [fst]. rewrite belowb_ok, aboveb_ok.
  rewrite <- Hm, (assoc_in k v rs) by auto. tauto.
Qed.

(** ** One leaf *)

Definition window (n : anode) (pos ep : nat) : list (K * V) :=
  live (firstn (ep - pos) (skipn pos (a_slots n))).

(** Records still to be delivered when the iterator is in leaf [n] at [pos]. *)
Definition rest (hi : bound) (n : anode) (pos : nat) (L2 : lvl) : list (K * V) :=
  fbelow hi (live (skipn pos (a_slots n)) ++ recs L2).

Lemma live_sub_in (x : K * V) l l' : In x (live l) -> incl l l' -> In x (live l').
Proof.
  unfold live. rewrite !in_flat_map. intros (s & H1 & H2) Hi. exists s. auto.
Qed.

Lemma skipn_incl {A} n (l : list A) : incl (skipn n l) l.
Proof. intros x Hx. rewrite <- (firstn_skipn n l). apply in_or_app. auto. Qed.

Lemma firstn_incl {A} n (l : list A) : incl (firstn n l) l.
Proof. intros x Hx. rewrite <- (firstn_skipn n l). apply in_or_app. auto. Qed.

Lemma rest_window sl hi lo n L2 pos ep ie :
  node_wf sl false lo n -> a_next n = first_addr L2 None ->
  seg sl false (hi_ext n) L2 PosInf None ->
  endpos_spec n hi ie ep ->
  ep <= length (a_slots n) /\ (ie = false -> exists p L3, L2 = p :: L3) /\
  rest hi n pos L2 = window n pos ep ++ (if ie then [] else fbelow hi (recs L2)).
Proof.
  intros Hw Hn HS [Hie He].
  assert (Hlt : forall k v, In (k, v) (live (a_slots n)) -> elt (Key k) (hi_ext n)).
  { intros k v Hk. apply (nw_hi _ _ _ _ Hw). cbn. eapply live_key_in; eauto. }
  unfold rest, window, fbelow.
  rewrite filter_app. destruct ie.
  - assert (HL2 : filter (fun p => belowb hi (fst p)) (recs L2) = []).
    { destruct L2 as [|[b m] L2]; [reflexivity|]. cbn in Hn. rewrite Hn in Hie.
      destruct hi as [[k c]|]; [|discriminate].
      apply filter_none. intros [x v] Hx. apply (in_map fst) in Hx. cbn [fst] in Hx.
      destruct (recs_keys _ _ _ _ _ _ HS Hx) as [Hge _].
      assert (elt (Key k) (hi_ext n)).
      { unfold hi_ext. destruct (a_high n); [|exact I]. cbn. symmetry in Hie. exact Hie. }
      assert (elt (Key k) (Key x)) by (eapply elt_ele_trans; eauto).
      cbn [fst]. destruct (belowb (Some (k, c)) x) eqn:E; auto. exfalso. apply belowb_ok in E.
      cbn in H0. destruct c; cbn in E.
      - apply kle_not_lt in E. auto.
      - eapply klt_asym; eauto. }
    rewrite HL2. destruct hi as [[k c]|].
    + destruct He as (l1 & l2 & Hsl & -> & H1 & H2). split; [rewrite Hsl, app_length; lia|].
      split; [discriminate|]. f_equal. rewrite Hsl.
      destruct (Nat.le_gt_cases pos (length l1)) as [Hp|Hp].
      * rewrite skipn_app. replace (pos - length l1) with 0 by lia. cbn [skipn].
        rewrite firstn_app, firstn_all2 by (rewrite skipn_length; lia).
        rewrite skipn_length. replace (length l1 - pos - (length l1 - pos)) with 0 by lia.
        cbn [firstn]. rewrite app_nil_r, live_app, filter_app.
        rewrite filter_all, filter_none; [now rewrite app_nil_r| |].
        -- intros [x v] Hx. specialize (H2 _ _ Hx). cbn [fst].
           destruct (belowb (Some (k, c)) x) eqn:E; auto. exfalso. apply belowb_ok in E.
           destruct c; cbn in E.
           ++ apply kle_not_lt in E. auto.
           ++ apply kle_not_lt in H2. auto.
        -- intros [x v] Hx. apply belowb_ok. eapply live_sub_in in Hx; [|apply skipn_incl].
           specialize (H1 _ _ Hx). destruct c; exact H1.
      * replace (length l1 - pos) with 0 by lia. cbn [firstn live flat_map].
        apply filter_none. rewrite skipn_app, skipn_all2 by lia. cbn [app].
        intros [x v] Hx. eapply live_sub_in in Hx; [|apply skipn_incl]. specialize (H2 _ _ Hx). cbn [fst].
        destruct (belowb (Some (k, c)) x) eqn:E; auto. exfalso. apply belowb_ok in E.
        destruct c; cbn in E.
        -- apply kle_not_lt in E. auto.
        -- apply kle_not_lt in H2. auto.
    + split; [lia|]. split; [discriminate|]. f_equal. rewrite filter_all by reflexivity.
      subst ep. rewrite firstn_all2 by (rewrite skipn_length; lia). reflexivity.
  - assert (Hep : ep = length (a_slots n)) by (destruct hi as [[]|]; exact He).
    split; [lia|]. split.
    + intros _. destruct L2 as [|p L2]; eauto. cbn in Hn. rewrite Hn in Hie. discriminate.
    + f_equal. rewrite Hep, firstn_all2 by (rewrite skipn_length; lia).
      apply filter_all. intros [x v] Hx. eapply live_sub_in in Hx; [|apply skipn_incl].
      destruct (a_next n); [|discriminate]. destruct hi as [[k c]|]; [|reflexivity].
      destruct (a_high n) as [h|] eqn:Eh; [|discriminate].
      assert (Hxh : klt x h) by (apply Hlt in Hx; unfold hi_ext in Hx; rewrite Eh in Hx; exact Hx).
      assert (Hhk : kle h k) by (apply kle_not_lt; unfold klt; rewrite <- Hie; discriminate).
      assert (klt x k) by (eapply klt_le_trans; eauto).
      apply belowb_ok. destruct c; cbn; auto. now apply klt_kle.
Qed.

Lemma window_nil n pos ep : ep <= pos -> window n pos ep = [].
Proof. intros H. unfold window. replace (ep - pos) with 0 by lia. reflexivity. Qed.

Lemma skipn_nth {A} (l : list A) i x : nth_error l i = Some x -> skipn i l = x :: skipn (S i) l.
Proof.
  revert i. induction l as [|y l IH]; intros [|i] H; cbn in *; try discriminate.
  - now inv H.
  - now apply IH.
Qed.

Lemma window_cons n pos ep s : nth_error (a_slots n) pos = Some s -> pos < ep ->
  window n pos ep = rec1 s ++ window n (S pos) ep.
Proof.
  intros H Hlt. unfold window. rewrite (skipn_nth _ _ _ H).
  replace (ep - pos) with (S (ep - S pos)) by lia. reflexivity.
Qed.

Lemma skip_ok d n (a : addr) m : forall pos ep, brep d n -> a_inner n = false -> leaf_ok (a_slots n) ->
  ep <= length (a_slots n) -> m = ep - pos ->
  exists pos', skip_deleted m d pos = Some pos' /\ window n pos' ep = window n pos ep /\ pos <= pos' /\
    (pos' < ep -> exists s k v, nth_error (a_slots n) pos' = Some s /\ s_key s = Some k /\
       s_pay s = PV v /\ s_del s = false).
Proof.
  induction m as [|m IH]; intros pos ep Hr Hi Hok Hep Hm; cbn [skip_deleted].
  - exists pos. repeat split; auto. lia.
  - destruct (nth_error_ex (a_slots n) pos) as [s Hs]; [lia|].
    destruct (B_record _ _ _ _ Hr Hi Hok Hs) as (Hd & _). rewrite Hd.
    destruct (s_del s) eqn:Ed.
    + destruct (IH (S pos) ep Hr Hi Hok Hep) as (pos' & A1 & A2 & A3 & A4); [lia|].
      exists pos'. rewrite A1. split; auto. split; [|split; [lia|auto]].
      rewrite A2, (window_cons n pos ep s Hs) by lia. unfold rec1. rewrite Ed.
      destruct (s_key s), (s_pay s); reflexivity.
    + exists pos. repeat split; auto. intros _. destruct Hok as [Hok _]. rewrite Forall_forall in Hok.
      destruct (Hok s (nth_error_In _ _ Hs)) as (k & v & H1 & H2). exists s, k, v. auto.
Qed.

Ltac hdr Hspec Hsplit n key :=
    destruct Hspec as (l1 & s & l2 & E & -> & Hks & Hd);
    destruct (Hsplit _ _ _ E Hks) as [F1 F2];
    assert (Hin : In key (keys_of (a_slots n)))
      by (apply in_keys_of; exists s; split; auto; rewrite E; apply in_or_app; cbn; auto).

(** The start position leaves exactly the records above the bound. *)
Lemma start_ok d n key c : brep d n -> a_inner n = false -> leaf_ok (a_slots n) -> bvalid key ->
  exists pos, start_pos d key c = Some pos /\
    live (skipn pos (a_slots n)) = fabove (Some (key, c)) (live (a_slots n)) /\
    (pos = 0 \/ exists k, In k (keys_of (a_slots n)) /\ kle k key).
Proof.
  intros Hr Hi Hok Hk. unfold start_pos.
  destruct (B_search_leaf _ _ _ Hr Hi Hok Hk) as (rc & pos & Hs & Hspec). rewrite Hs.
  assert (Hsplit : forall l1 l2 s, a_slots n = l1 ++ s :: l2 -> s_key s = Some key ->
            (forall x, In x (live l1) -> aboveb (Some (key, c)) (fst x) = false) /\
            (forall x, In x (live l2) -> aboveb (Some (key, c)) (fst x) = true)).
  { intros l1 l2 s E Hks. rewrite E in Hok. destruct Hok as [_ Hss].
    rewrite keys_of_app in Hss. cbn in Hss. unfold key1 in Hss. rewrite Hks in Hss. cbn in Hss.
    fold key1 in Hss. apply SS_app in Hss as (_ & Hs2 & Hs3). apply StronglySorted_inv in Hs2 as [_ Hs2].
    rewrite Forall_forall in Hs2. split; intros [x v] Hx; apply live_key_in in Hx; cbn [fst].
    - assert (klt x key) by (apply Hs3; [auto|now left]).
      destruct (aboveb (Some (key, c)) x) eqn:E'; auto. exfalso. apply aboveb_ok in E'. destruct c; cbn in E'.
      + apply kle_not_lt in E'. auto.
      + eapply klt_asym; eauto.
    - apply aboveb_ok. specialize (Hs2 _ Hx). destruct c; cbn; auto. now apply klt_kle. }
  assert (Hself : aboveb (Some (key, c)) key = c).
  { destruct c; cbn; rewrite ltb_irrefl; reflexivity. }
  destruct rc; try (destruct Hspec; fail).
  - destruct Hspec as (l1 & l2 & E & -> & H1 & H2). cbn [node_rc_eqb andb].
    eexists. split; [reflexivity|]. split.
    + rewrite E, skipn_app, skipn_all2, Nat.sub_diag by lia. cbn [skipn app].
      unfold fabove. rewrite live_app, filter_app, filter_none, filter_all; auto.
      * intros [x v] Hx. apply live_key_in in Hx. apply aboveb_ok. cbn [fst]. specialize (H2 _ Hx).
        destruct c; cbn; auto. now apply klt_kle.
      * intros [x v] Hx. apply live_key_in in Hx. specialize (H1 _ Hx). cbn [fst].
        destruct (aboveb (Some (key, c)) x) eqn:E'; auto. exfalso. apply aboveb_ok in E'. destruct c; cbn in E'.
        -- apply kle_not_lt in E'. auto.
        -- eapply klt_asym; eauto.
    + destruct l1 as [|s1 l1]; [now left|right].
      destruct Hok as [Hok _]. rewrite E in Hok. apply Forall_inv in Hok. destruct Hok as (k & v & Hk1 & _).
      exists k. rewrite E. cbn. unfold key1 at 1. rewrite Hk1. split; [now left|].
      apply klt_kle, H1. cbn. unfold key1. rewrite Hk1. now left.
  - hdr Hspec Hsplit n key. cbn [node_rc_eqb andb]. eexists. split; [reflexivity|]. split; [|right; exists key; split; auto; apply kle_refl].
    rewrite E, skipn_app, skipn_all2, Nat.sub_diag by lia. cbn [skipn app].
    unfold fabove. rewrite live_app, filter_app, filter_none, filter_all; auto.
    intros [x v] Hx. cbn in Hx. apply in_app_or in Hx as [Hx|Hx]; [|now apply F2].
    unfold rec1 in Hx. rewrite Hks, Hd in Hx. destruct (s_pay s); destruct Hx.
  - hdr Hspec Hsplit n key.
    cbn [node_rc_eqb andb]. destruct c; cbn [negb].
    + eexists. split; [reflexivity|]. split; [|right; exists key; split; auto; apply kle_refl].
      rewrite E, skipn_app, skipn_all2, Nat.sub_diag by lia. cbn [skipn app].
      unfold fabove. rewrite live_app, filter_app, filter_none, filter_all; auto.
      intros [x v] Hx. cbn in Hx. apply in_app_or in Hx as [Hx|Hx]; [|now apply F2].
      unfold rec1 in Hx. rewrite Hks in Hx. destruct (s_pay s), (s_del s); cbn in Hx; try tauto.
      destruct Hx as [Hx|[]]. inv Hx. exact Hself.
    + eexists. split; [reflexivity|]. split; [|right; exists key; split; auto; apply kle_refl].
      rewrite E, skipn_app, skipn_all2 by lia. replace (length l1 + 1 - length l1) with 1 by lia. cbn [skipn app].
      unfold fabove. rewrite live_app, filter_app, (filter_none _ (live l1)) by auto. cbn [live flat_map app].
      rewrite filter_app, filter_none, filter_all; auto.
      intros [x v] Hx. unfold rec1 in Hx. rewrite Hks in Hx. destruct (s_pay s), (s_del s); cbn in Hx; try tauto.
      destruct Hx as [Hx|[]]. inv Hx. exact Hself.
Qed.

(** ** Loops *)

Section Loops.
Context (sl : bool) (h : addr -> option bn) (r f : addr) (g : list addr) (hi : bound).
Context (Hhi : forall k c, hi = Some (k, c) -> bvalid k).

(** A suffix of the leaf level, stored in the heap. *)
Record suffix (lo : ext) (a : addr) (n : anode) (L2 : lvl) : Prop := {
  sx_wf : node_wf sl false lo n;
  sx_next : a_next n = first_addr L2 None;
  sx_seg : seg sl false (hi_ext n) L2 PosInf None;
  sx_nodup : NoDup (a :: map fst L2);
  sx_heap : forall b m, In (b, m) ((a, n) :: L2) -> exists d, h b = Some d /\ brep d m;
}.

Lemma suffix_next lo a n b m L3 : suffix lo a n ((b, m) :: L3) ->
  suffix (hi_ext n) b m L3 /\ a <> b /\ elt (hi_ext n) (hi_ext m).
Proof.
  intros [H1 H2 H3 H4 H5]. destruct H3 as (W & N & S). split; [|split].
  - split; auto.
    + cbn in H4. now inv H4.
    + intros c x Hc. apply H5. now right.
  - intros ->. inv H4. apply H3. cbn. auto.
  - apply (nw_range _ _ _ _ W).
Qed.

Lemma suffix_leaf lo a n L2 : suffix lo a n L2 ->
  a_inner n = false /\ leaf_ok (a_slots n) /\ exists d, h a = Some d /\ brep d n.
Proof.
  intros H. pose proof (sx_wf _ _ _ _ H) as W. split; [apply (nw_inner _ _ _ _ W)|].
  split; [apply (nw_body _ _ _ _ W)|]. apply (sx_heap _ _ _ _ H). now left.
Qed.

Lemma rest_cons lo a n L2 pos ep ie s k v : suffix lo a n L2 -> endpos_spec n hi ie ep ->
  nth_error (a_slots n) pos = Some s -> pos < ep ->
  s_key s = Some k -> s_pay s = PV v -> s_del s = false ->
  rest hi n pos L2 = (k, v) :: rest hi n (S pos) L2.
Proof.
  intros HS He Hs Hlt Hk Hv Hd.
  destruct (rest_window sl hi lo n L2 pos ep ie) as (_ & _ & E1); try apply HS; auto.
  destruct (rest_window sl hi lo n L2 (S pos) ep ie) as (_ & _ & E2); try apply HS; auto.
  rewrite E1, E2, (window_cons n pos ep s Hs Hlt). unfold rec1 at 1. now rewrite Hk, Hv, Hd.
Qed.

(** *** Pessimistic *)

Definition pat (N : nat) (it : piter) (l : list (addr * lmode)) (R : list (K * V)) : Prop :=
  exists lo a n L2 ep ie, suffix lo a n L2 /\ it = PIter (Some a) (p_pos it) ep hi ie /\
    endpos_spec n hi ie ep /\ R = rest hi n (p_pos it) L2 /\ length L2 < N /\ l = [(a, LS)].

Lemma pit_has_ok fu : forall it l R, pat fu it l R ->
  exists b it' l', pit_has fu it (St h r f l g) = Ok (b, it') (St h r f l' g) /\
    match R with
    | [] => b = false /\ p_node it' = None /\ l' = []
    | kv :: R' => b = true /\ pat fu (pit_next it') l' R' /\ pit_get it' (St h r f l' g) = Ok kv (St h r f l' g)
    end.
Proof.
  induction fu as [|fu IH]; intros it l R (lo & a & n & L2 & ep & ie & HS & Eit & He & -> & HN & ->); [lia|].
  destruct (suffix_leaf _ _ _ _ HS) as (Hi & Hok & d & Hd & Hr).
  rewrite Eit. set (pos := p_pos it) in *. cbn [pit_has p_node p_pos p_end p_isend p_hi].
  rewrite (mb_getn a d) by auto.
  destruct (rest_window sl hi lo n L2 pos ep ie) as (Hep & Hmore & ER); try apply HS; auto.
  destruct (skip_ok d n a _ pos ep Hr Hi Hok Hep eq_refl) as (pos' & A1 & A2 & A3 & A4).
  rewrite (mb_lift _ _ _ _ A1). destruct (pos' <? ep) eqn:Elt.
  - apply Nat.ltb_lt in Elt. destruct (A4 Elt) as (s & k & v & Hs & Hk & Hv & Hdel).
    do 3 eexists. split; [reflexivity|].
    destruct (rest_window sl hi lo n L2 pos' ep ie) as (_ & _ & ER'); try apply HS; auto.
    rewrite ER, <- A2, <- ER', (rest_cons lo a n L2 pos' ep ie s k v) by auto.
    split; auto. split.
    + exists lo, a, n, L2, ep, ie. unfold pit_next. cbn [p_node p_pos p_end p_isend p_hi]. auto 10.
    + unfold pit_get. cbn [p_node p_pos]. rewrite (mb_getn a d) by auto.
      destruct (B_record _ _ _ _ Hr Hi Hok Hs) as (_ & _ & Hrec). rewrite (Hrec k v) by auto. reflexivity.
  - apply Nat.ltb_ge in Elt. rewrite ER, <- A2, window_nil by auto. cbn [app].
    destruct ie.
    + rewrite mb_unlock by (try congruence; lks). lkn.
      do 3 eexists. split; [reflexivity|]. cbn [p_node]. auto.
    + destruct (Hmore eq_refl) as ([b m] & L3 & ->).
      destruct (suffix_next _ _ _ _ _ _ HS) as (HS' & Hab & _).
      destruct (B_hdr _ _ Hr) as (_ & _ & E & _). rewrite E, (sx_next _ _ _ _ HS). cbn [first_addr].
      destruct (suffix_leaf _ _ _ _ HS') as (Hi' & Hok' & d' & Hd' & Hr').
      rewrite mb_lock by (try congruence; lks).
      rewrite mb_unlock by (try congruence; lks). lkn.
      rewrite (mb_getn b d') by auto.
      destruct (B_endpos _ _ hi Hr' Hi' Hok' Hhi) as (ie' & ep' & B1 & B2).
      rewrite (mb_lift _ _ _ _ B1). cbv beta iota.
      destruct (IH (PIter (Some b) 0 ep' hi ie') [(b, LS)] (fbelow hi (recs ((b, m) :: L3)))) as (x & it' & l' & C1 & C2).
      { exists (hi_ext n), b, m, L3, ep', ie'. cbn [p_pos]. cbn [length] in HN.
        repeat (split; [first [solve [auto] | lia]|]). reflexivity. }
      exists x, it', l'. split; [exact C1|].
      destruct (fbelow hi (recs ((b, m) :: L3))) as [|kv R']; auto.
      destruct C2 as (C2 & C3 & C4). split; auto. split; auto.
      destruct C3 as (lo1 & a1 & n1 & L1 & ep1 & ie1 & D1 & D2 & D3 & D4 & D5 & D6).
      exists lo1, a1, n1, L1, ep1, ie1. auto 10.
Qed.

Lemma pit_take_ok fu limit : forall it l R, pat fu it l R ->
  exists it' l', pit_take fu limit it (St h r f l g) = Ok (firstn limit R, it') (St h r f l' g) /\
    pit_close it' (St h r f l' g) = Ok tt (St h r f [] g).
Proof.
  induction limit as [|limit IH]; intros it l R H; cbn [pit_take].
  - do 2 eexists. split; [reflexivity|].
    destruct H as (lo & a & n & L2 & ep & ie & HS & -> & He & _ & _ & ->). unfold pit_close. cbn [p_node].
    destruct (suffix_leaf _ _ _ _ HS) as (_ & _ & d & Hd & _).
    apply mb_tail. rewrite mb_unlock by (try congruence; lks). lkn. reflexivity.
  - destruct (pit_has_ok fu it l R H) as (b & it1 & l1 & A1 & A2). rewrite (mb_ok _ _ _ _ _ A1). cbv beta iota.
    destruct R as [|kv R].
    + destruct A2 as (-> & A2 & ->). do 2 eexists. split; [reflexivity|]. unfold pit_close. now rewrite A2.
    + destruct A2 as (-> & A2 & A3). rewrite (mb_ok _ _ _ _ _ A3).
      destruct (IH _ _ _ A2) as (it' & l' & B1 & B2). rewrite (mb_ok _ _ _ _ _ B1). cbv beta iota.
      do 2 eexists. split; [reflexivity|]. exact B2.
Qed.

(** *** Optimistic *)

Definition weight (L : lvl) : nat := list_sum (map (fun p => S (length (a_slots (snd p)))) L).

Definition oat (N : nat) (tls : option K) (it : oiter) (R : list (K * V)) : Prop :=
  exists lo a n L2 ep ie, suffix lo a n L2 /\
    it = OIter (Some a) (o_pos it) ep hi ie (o_has it) (o_closed it) (o_pay it) /\
    endpos_spec n hi ie ep /\ R = rest hi n (o_pos it) L2 /\
    length (a_slots n) - o_pos it + 1 + weight L2 <= N /\
    (o_has it = true -> exists key, tls = Some key /\ bvalid key /\ elt (Key key) (hi_ext n)).

Lemma it_check_range_here fu a k l d n : h a = Some d -> brep d n -> a_removed n = false ->
  elt (Key k) (hi_ext n) ->
  it_check_range (S fu) a k (St h r f l g) = Ok (Some a) (St h r f l g).
Proof.
  intros H1 H2 H3 H4. cbn [it_check_range]. rewrite (mb_getn a d) by auto.
  destruct (B_hdr _ _ H2) as (_ & E & _). rewrite E, H3.
  rewrite (B_comphigh _ _ k H2). unfold hi_ext in H4.
  destruct (a_high n); cbn in H4; [unfold klt in H4; rewrite H4|]; reflexivity.
Qed.

Lemma fabove_all key c l : (forall k v, In (k, v) l -> klt key k) -> fabove (Some (key, c)) l = l.
Proof.
  intros H. apply filter_all. intros [k v] Hk. apply aboveb_ok. cbn [fst]. specialize (H _ _ Hk).
  destruct c; cbn; auto. now apply klt_kle.
Qed.

(** Entering the next leaf. *)
Lemma oit_enter fu tls a n lo b m L3 pos0 ep0 ie0 hk cl py l :
  suffix lo a n ((b, m) :: L3) ->
  (hk = true -> exists key, tls = Some key /\ bvalid key /\ elt (Key key) (hi_ext n)) ->
  exists it', oit_reset (S fu) tls (OIter (Some b) pos0 ep0 hi ie0 hk cl py) (St h r f l g) = Ok it' (St h r f l g) /\
    oat (weight ((b, m) :: L3)) tls it' (fbelow hi (recs ((b, m) :: L3))).
Proof.
  intros HS Hkey. destruct (suffix_next _ _ _ _ _ _ HS) as (HS' & Hab & Hlt).
  destruct (suffix_leaf _ _ _ _ HS') as (Hi & Hok & d & Hd & Hr).
  destruct (B_endpos _ _ hi Hr Hi Hok Hhi) as (ie & ep & B1 & B2).
  unfold oit_reset. cbn [o_node o_has o_closed o_hi o_pay].
  change (weight ((b, m) :: L3)) with (S (length (a_slots m)) + weight L3).
  destruct hk.
  - destruct (Hkey eq_refl) as (key & -> & Hv & Hk).
    rewrite (mb_lift _ key) by auto.
    rewrite (mb_ok _ _ _ _ _ (it_check_range_here fu b key l d m Hd Hr (nw_alive _ _ _ _ (sx_wf _ _ _ _ HS'))
                                (elt_trans _ _ _ Hk Hlt))). cbv beta iota.
    rewrite (mb_getn b d) by auto.
    destruct (start_ok d m key cl Hr Hi Hok Hv) as (pos & C1 & C2 & C3).
    rewrite (mb_lift _ _ _ _ C1). rewrite (mb_lift _ _ _ _ B1). cbv beta iota.
    eexists. split; [reflexivity|].
    exists (hi_ext n), b, m, L3, ep, ie. cbn [o_pos o_has o_closed o_pay].
    split; auto. split; auto. split; auto. split; [|split].
    + unfold rest. rewrite C2, fabove_all; auto. intros k v Hkv. apply live_key_in in Hkv.
      pose proof (nw_lo _ _ _ _ (sx_wf _ _ _ _ HS') k Hkv) as Hge.
      apply (elt_ele_trans (Key key) (hi_ext n) (Key k)); auto.
    + lia.
    + intros _. exists key. split; auto. split; auto. eapply elt_trans; eauto.
  - rewrite (mb_getn b d) by auto. rewrite (mb_lift _ _ _ _ B1). cbv beta iota.
    eexists. split; [reflexivity|].
    exists (hi_ext n), b, m, L3, ep, ie. cbn [o_pos o_has o_closed o_pay].
    split; auto. split; auto. split; auto. split; [reflexivity|]. split; [lia|discriminate].
Qed.

Lemma oit_has_ok fu : forall tls it l R, oat fu tls it R ->
  exists b tls' it', oit_has fu tls it (St h r f l g) = Ok (b, (tls', it')) (St h r f l g) /\
    match R with
    | [] => b = false
    | kv :: R' => b = true /\ oat fu tls' (oit_next it') R' /\
                  oit_get tls' it' (St h r f l g) = Ok kv (St h r f l g)
    end.
Proof.
  induction fu as [|fu IH]; intros tls it l R (lo & a & n & L2 & ep & ie & HS & Eit & He & -> & HN & Hkey); [lia|].
  destruct (suffix_leaf _ _ _ _ HS) as (Hi & Hok & d & Hd & Hr).
  rewrite Eit. set (pos := o_pos it) in *. set (hk := o_has it) in *. set (cl := o_closed it) in *.
  set (py := o_pay it) in *. cbn [oit_has o_node o_pos o_end o_hi o_isend o_has o_closed o_pay].
  rewrite (mb_getn a d) by auto.
  destruct (rest_window sl hi lo n L2 pos ep ie) as (Hep & Hmore & ER); try apply HS; auto.
  assert (Hmono : forall N N' tls it R, N <= N' -> oat N tls it R -> oat N' tls it R).
  { clear. intros N N' tls it R Hle (lo & a & n & L2 & ep & ie & H1 & H2 & H3 & H4 & H5 & H6).
    exists lo, a, n, L2, ep, ie. repeat (split; [first [solve [auto] | lia]|]). auto. }
  destruct (pos <? ep) eqn:Elt.
  - apply Nat.ltb_lt in Elt. destruct (nth_error_ex (a_slots n) pos) as [s Hs]; [lia|].
    destruct (B_record _ _ _ _ Hr Hi Hok Hs) as (Hdel & Hkk & Hrec).
    destruct (Hok) as [Hlf _]. rewrite Forall_forall in Hlf.
    destruct (Hlf s (nth_error_In _ _ Hs)) as (k & v & Hk & Hv).
    assert (Hin : In k (keys_of (a_slots n))) by (apply in_keys_of; exists s; split; auto; eapply nth_error_In; eauto).
    assert (Hkb : bvalid k) by (eapply B_valid_key; eauto).
    assert (Hkh : elt (Key k) (hi_ext n)) by (apply (nw_hi _ _ _ _ (sx_wf _ _ _ _ HS)); exact Hin).
    rewrite Hk in Hkk. rewrite (mb_lift _ _ _ _ Hkk), (mb_lift _ _ _ _ Hdel).
    destruct (s_del s) eqn:Ed.
    + destruct (IH (Some k) (OIter (Some a) (S pos) ep hi ie true false py) l (rest hi n pos L2))
        as (b & tls' & it' & C1 & C2).
      { exists lo, a, n, L2, ep, ie. cbn [o_pos o_has o_closed o_pay].
        split; auto. split; auto. split; auto. split; [|split].
        - destruct (rest_window sl hi lo n L2 (S pos) ep ie) as (_ & _ & ER'); try apply HS; auto.
          rewrite ER, ER', (window_cons n pos ep s Hs Elt). unfold rec1 at 1. rewrite Ed.
          destruct (s_key s), (s_pay s); reflexivity.
        - lia.
        - intros _. exists k. auto. }
      exists b, tls', it'. split; [exact C1|]. destruct (rest hi n pos L2); auto.
      destruct C2 as (C2 & C3 & C4). split; auto. split; auto. eapply Hmono; [|exact C3]. lia.
    + rewrite (mb_lift _ _ _ _ (Hrec k v Hk Hv eq_refl)). cbv beta iota.
      do 3 eexists. split; [reflexivity|].
      rewrite (rest_cons lo a n L2 pos ep ie s k v) by auto. split; auto. split; [|reflexivity].
      exists lo, a, n, L2, ep, ie. unfold oit_next.
      cbn [o_node o_pos o_end o_hi o_isend o_has o_closed o_pay].
      split; auto. split; auto. split; auto. split; auto. split; [lia|]. intros _. exists k. auto.
  - apply Nat.ltb_ge in Elt. rewrite ER, window_nil by auto. cbn [app].
    destruct ie.
    + do 3 eexists. split; [reflexivity|]. auto.
    + destruct (Hmore eq_refl) as ([b m] & L3 & ->).
      destruct (B_hdr _ _ Hr) as (_ & _ & E & _). rewrite E, (sx_next _ _ _ _ HS). cbn [first_addr].
      destruct (oit_enter fu tls a n lo b m L3 pos ep false hk cl py l HS Hkey) as (it1 & D1 & D2).
      rewrite (mb_ok _ _ _ _ _ D1).
      destruct (IH tls it1 l (fbelow hi (recs ((b, m) :: L3)))) as (x & tls' & it' & C1 & C2).
      { eapply Hmono; [|exact D2]. lia. }
      exists x, tls', it'. split; [exact C1|].
      destruct (fbelow hi (recs ((b, m) :: L3))); auto.
      destruct C2 as (C2 & C3 & C4). split; auto. split; auto. eapply Hmono; [|exact C3]. lia.
Qed.

Lemma oit_take_ok fu limit : forall tls it l R, oat fu tls it R ->
  exists ti, oit_take fu limit tls it (St h r f l g) = Ok (firstn limit R, ti) (St h r f l g).
Proof.
  induction limit as [|limit IH]; intros tls it l R H; cbn [oit_take].
  - eexists. reflexivity.
  - destruct (oit_has_ok fu tls it l R H) as (b & tls1 & it1 & A1 & A2).
    rewrite (mb_ok _ _ _ _ _ A1). cbv beta iota. destruct R as [|kv R].
    + subst b. eexists. reflexivity.
    + destruct A2 as (-> & A2 & A3). rewrite (mb_ok _ _ _ _ _ A3).
      destruct (IH _ _ l _ A2) as (ti & B1). rewrite (mb_ok _ _ _ _ _ B1). cbv beta iota.
      eexists. reflexivity.
Qed.

End Loops.

(** ** A whole scan from the right leaf *)

Lemma weight_app L1 L2 : weight (L1 ++ L2) = weight L1 + weight L2.
Proof. unfold weight. now rewrite map_app, list_sum_app. Qed.

(** Where a scan with begin bound [lo] starts. *)
Definition starts (lo : bound) (L1 : lvl) (n : anode) : Prop :=
  match lo with
  | None => L1 = []
  | Some (k, _) => bvalid k /\ in_range (lasthi NegInf L1) k (hi_ext n)
  end.

Lemma scan_from_ok sl opt lo hi limit h r f g L1 a n L2 fu :
  level sl false (L1 ++ (a, n) :: L2) -> NoDup (map fst (L1 ++ (a, n) :: L2)) ->
  (forall b m, In (b, m) (L1 ++ (a, n) :: L2) -> exists d, h b = Some d /\ brep d m) ->
  starts lo L1 n -> (forall k c, hi = Some (k, c) -> bvalid k) ->
  weight (L1 ++ (a, n) :: L2) <= fu ->
  scan_from opt fu a lo hi limit (St h r f (if opt then [] else [(a, LS)]) g) =
  Ok (firstn limit (fbelow hi (fabove lo (recs (L1 ++ (a, n) :: L2))))) (St h r f [] g).
Proof.
  intros HL Hnd Hh Hst Hhi Hfu.
  destruct (seg_wf _ _ _ _ _ _ _ _ _ HL) as (Hwf & Hnx & Hseg).
  assert (HS : suffix sl h (lasthi NegInf L1) a n L2).
  { split; auto.
    - rewrite map_app in Hnd. apply NoDup_app_inv in Hnd as (_ & Hnd & _). exact Hnd.
    - intros b m Hb. apply Hh. apply in_or_app. now right. }
  destruct (suffix_leaf _ _ _ _ _ _ HS) as (Hi & Hok & d & Hd & Hr).
  destruct (B_endpos _ _ hi Hr Hi Hok Hhi) as (ie & ep & B1 & B2).
  assert (Hw : length L2 < fu /\ S (length (a_slots n)) + weight L2 <= fu).
  { rewrite weight_app in Hfu. change (weight ((a, n) :: L2)) with (S (length (a_slots n)) + weight L2) in Hfu.
    split; [|lia]. assert (length L2 <= weight L2); [|lia].
    clear. induction L2 as [|[b m] L2 IH]; [cbn; auto|].
    change (weight ((b, m) :: L2)) with (S (length (a_slots m)) + weight L2). cbn [length]. lia. }
  assert (Hstart : exists pos, match lo with Some (k, c) => start_pos d k c | None => Some 0 end = Some pos /\
     rest hi n pos L2 = fbelow hi (fabove lo (recs (L1 ++ (a, n) :: L2))) /\ True).
  { rewrite recs_app. change (recs ((a, n) :: L2)) with (live (a_slots n) ++ recs L2).
    destruct lo as [[k c]|]; cbn [starts] in Hst.
    - destruct Hst as [Hv [Hr1 Hr2]]. destruct (start_ok d n k c Hr Hi Hok Hv) as (pos & C1 & C2 & _).
      exists pos. split; auto. split; auto. unfold rest. f_equal. rewrite C2.
      unfold fabove. rewrite !filter_app. rewrite (filter_none _ (recs L1)).
      + cbn [app]. f_equal. symmetry. apply filter_all. intros [x v] Hx. apply aboveb_ok. cbn [fst].
        apply (in_map fst) in Hx. destruct (recs_keys _ _ _ _ _ _ Hseg Hx) as [Hge _]. cbn [fst] in Hge.
        assert (Hlt : klt k x) by exact (elt_ele_trans _ _ _ Hr2 Hge).
        destruct c; cbn; auto. now apply klt_kle.
      + intros [x v] Hx. cbn [fst]. apply seg_app in HL as [HL _].
        apply (in_map fst) in Hx. destruct (recs_keys _ _ _ _ _ _ HL Hx) as [_ Hlt]. cbn [fst] in Hlt.
        assert (Hlt' : klt x k) by exact (elt_ele_trans _ _ _ Hlt Hr1).
        destruct (aboveb (Some (k, c)) x) eqn:E; auto. exfalso. apply aboveb_ok in E. destruct c; cbn in E.
        * apply kle_not_lt in E. auto.
        * eapply klt_asym; eauto.
    - subst L1. exists 0. split; auto. split; auto. unfold rest. cbn [skipn]. f_equal.
      symmetry. apply filter_all. reflexivity. }
  destruct Hstart as (pos & P1 & P2 & _).
  unfold scan_from. destruct opt.
  - assert (Hmk : exists tls it, oit_make fu None a lo hi (St h r f [] g) = Ok (tls, it) (St h r f [] g) /\
       oat sl h hi fu tls it (fbelow hi (fabove lo (recs (L1 ++ (a, n) :: L2))))).
    { unfold oit_make, oit_reset. destruct lo as [[k c]|]; cbn [o_node o_has o_closed o_hi o_pay].
      - cbn [starts] in Hst. destruct Hst as [Hv [_ Hr2]]. rewrite mb_assoc, (mb_lift _ k) by auto.
        destruct fu as [|fu]; [lia|]. rewrite mb_assoc.
        rewrite (mb_ok _ _ _ _ _ (it_check_range_here h r f g fu a k [] d n Hd Hr (nw_alive _ _ _ _ Hwf) Hr2)).
        cbv beta iota. rewrite mb_assoc, (mb_getn a d) by auto. rewrite mb_assoc, (mb_lift _ _ _ _ P1).
        rewrite mb_assoc, (mb_lift _ _ _ _ B1). cbv beta iota.
        do 2 eexists. split; [reflexivity|]. exists (lasthi NegInf L1), a, n, L2, ep, ie.
        cbn [o_pos o_has o_closed o_pay].
        repeat (split; [first [solve [auto] | lia]|]). intros _. exists k. auto.
      - inv P1. rewrite mb_assoc, (mb_getn a d) by auto. rewrite mb_assoc, (mb_lift _ _ _ _ B1). cbv beta iota.
        do 2 eexists. split; [reflexivity|]. exists (lasthi NegInf L1), a, n, L2, ep, ie.
        cbn [o_pos o_has o_closed o_pay].
        repeat (split; [first [solve [auto] | lia]|]). discriminate. }
    destruct Hmk as (tls & it & M1 & M2). rewrite (mb_ok _ _ _ _ _ M1). cbv beta iota.
    destruct (oit_take_ok sl h r f g hi Hhi fu limit tls it [] _ M2) as (ti & T).
    rewrite (mb_ok _ _ _ _ _ T). reflexivity.
  - unfold pit_make. rewrite mb_assoc, (mb_getn a d) by auto. rewrite mb_assoc, (mb_lift _ _ _ _ P1).
    rewrite mb_assoc, (mb_lift _ _ _ _ B1). cbv beta iota. rewrite mb_ret.
    destruct (pit_take_ok sl h r f g hi Hhi fu limit (PIter (Some a) pos ep hi ie) [(a, LS)]
                (fbelow hi (fabove lo (recs (L1 ++ (a, n) :: L2))))) as (it' & l' & T1 & T2).
    { exists (lasthi NegInf L1), a, n, L2, ep, ie. cbn [p_pos]. repeat (split; [first [solve [auto] | lia]|]). auto. }
    rewrite (mb_ok _ _ _ _ _ T1). cbv beta iota. rewrite (mb_ok _ _ _ _ _ T2). reflexivity.
Qed.

(** The leftmost leaf. *)
Lemma leftmost_walk latched d : forall t fu h r f g, tok d t -> tin h d t ->
  (forall k p, k <= d -> In p (tl_at k t) -> a_removed (snd p) = false) -> d < fu ->
  exists p, hd_error (tl_at d t) = Some p /\
    leftmost latched fu (taddr t) (St h r f [] g) = Ok (fst p) (St h r f [] g).
Proof.
  induction d as [|d IH]; intros t fu h r f g Ht Hi Hrm Hfu; (destruct fu as [|fu]; [lia|]); cbn [leftmost].
  - destruct Hi as [(n & Hn & Hr) _]. destruct (B_hdr _ _ Hr) as (E1 & _).
    rewrite (mb_getn _ n) by auto. rewrite E1. destruct Ht as [Ht _]. rewrite Ht. exists (ttop t). auto.
  - destruct Hi as [(n & Hn & Hr) Hi]. destruct (B_hdr _ _ Hr) as (E1 & E2 & _).
    destruct (Ht) as (H1 & H2 & H3 & H4). destruct (tkids t) as [|c cs] eqn:Ek; [congruence|].
    rewrite (mb_getn _ n) by auto. rewrite E1, H1.
    inv H4. inv Hi. destruct (IH c fu h r f g) as (p & Hp & Hl); auto; try lia.
    { intros k p Hk Hp. apply (Hrm (S k) p); [lia|]. cbn [tl_at]. rewrite Ek. cbn. apply in_or_app. auto. }
    exists p. split.
    + cbn [tl_at]. rewrite Ek. cbn [flat_map]. destruct (tl_at d c); [discriminate|]. exact Hp.
    + assert (Hc : bn_child n 0 = Some (taddr c)).
      { eapply tok_child_read; eauto. now rewrite Ek. }
      assert (Hal : a_removed (snd (ttop t)) = false) by (apply (Hrm 0); [lia|cbn; auto]).
      rewrite E2, Hal. destruct latched.
      * rewrite mb_lock by (try congruence; lks). rewrite mb_assoc, (mb_lift _ _ _ _ Hc), mb_ret.
        rewrite mb_unlock by (try congruence; lks). lkn. exact Hl.
      * rewrite mb_ret, mb_assoc, (mb_lift _ _ _ _ Hc), mb_ret, mb_ret. exact Hl.
Qed.

Lemma tower_alive sl U : forall E root L p, tower sl E U root -> In L U -> In p L -> a_removed (snd p) = false.
Proof.
  induction U as [|L0 U IH]; intros E root L p HT Hin Hp; [destruct Hin|]. cbn in HT.
  destruct HT as (H1 & _ & H2). destruct Hin as [<-|Hin]; [|eauto].
  destruct (seg_all _ _ _ _ _ _ _ H1 Hp) as [lo' Hw]. apply (nw_alive _ _ _ _ Hw).
Qed.

Lemma leftmost_leaf sl latched s leafs U fu : holds_tree sl s leafs U -> lk s = [] -> length U < fu ->
  exists a n L, leafs = (a, n) :: L /\ leftmost latched fu (rt s) s = Ok a s.
Proof.
  intros H Hlk Hfu. destruct (tree_rose _ _ _ _ H) as (t & A1 & A2 & A3 & A4 & A5).
  destruct s as [h r f l g]. cbn [rt hp fr gb lk] in *. subst l.
  destruct (leftmost_walk latched _ t fu h r f g A2 A3) as (p & Hp & Hl); auto.
  { intros k p Hk Hp. rewrite A5 in Hp. destruct H as [[HL HT] _]. cbn [rt] in HT.
    destruct (Nat.eq_dec k (length U)) as [->|Hne].
    - rewrite app_nth2 in Hp by (rewrite rev_length; lia). rewrite rev_length, Nat.sub_diag in Hp. cbn in Hp.
      destruct (seg_all _ _ _ _ _ _ _ HL Hp) as [lo' Hw]. apply (nw_alive _ _ _ _ Hw).
    - rewrite app_nth1 in Hp by (rewrite rev_length; lia).
      eapply tower_alive; [exact HT| |exact Hp]. apply in_rev. apply nth_In. rewrite rev_length. lia. }
  rewrite A5, app_nth2 in Hp by (rewrite rev_length; lia). rewrite rev_length, Nat.sub_diag in Hp. cbn in Hp.
  destruct leafs as [|[a n] L]; [discriminate|]. inv Hp. exists a, n, L. split; auto.
Qed.

End IterProofs.
