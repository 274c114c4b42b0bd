(** What an observer can read from a node, independently of its layout, and what a split
    or a merge must do to it.  Used by the statements in PropNode.v. *)
From Coq Require Import List Arith Bool Lia Sorted.
From Verif Require Import Params Mem Common NodeAbs FixModel FixProofs VarModel VarProofs SLIface FixSL VarSL
  Levels.
Import ListNotations.

Section View.
Context {P : Params}.

(** The observations: header, per-position reads (None = unreadable), upper bound. *)
Record nview := NView {
  w_inner : bool;
  w_rc : nat;
  w_del : nat -> option bool;
  w_key : nat -> option K;
  w_rec : nat -> option (K * V);
  w_kid : nat -> option addr;
  w_high : option K;
  w_next : option addr;
}.

(** Records of a leaf in position order, skipping deleted ones. *)
Definition view_recs (w : nview) : list (K * V) :=
  flat_map (fun i => match w_del w i, w_rec w i with
                     | Some false, Some kv => [kv] | _, _ => [] end) (seq 0 (w_rc w)).

(** Children and separators of an inner node (position 0 has no separator). *)
Definition view_kids (w : nview) : list addr :=
  flat_map (fun i => match w_kid w i with Some c => [c] | None => [] end) (seq 0 (w_rc w)).
Definition view_seps (w : nview) : list K :=
  flat_map (fun i => match w_key w i with Some k => [k] | None => [] end) (seq 1 (w_rc w - 1)).

(** [old] was divided into [l] and [r] at [sep]. *)
Definition is_split (old l r : nview) (sep : K) : Prop :=
  w_inner l = w_inner old /\ w_inner r = w_inner old /\
  w_high l = Some sep /\ w_high r = w_high old /\
  if w_inner old then
    view_kids l ++ view_kids r = view_kids old /\ view_kids l <> [] /\ view_kids r <> [] /\
    view_seps l ++ sep :: view_seps r = view_seps old /\
    length (view_seps l) + 1 = length (view_kids l) /\ length (view_seps r) + 1 = length (view_kids r) /\
    (forall k, In k (view_seps l) -> klt k sep) /\ (forall k, In k (view_seps r) -> klt sep k)
  else
    view_recs l ++ view_recs r = view_recs old /\ view_recs l <> [] /\ view_recs r <> [] /\
    (forall k v, In (k, v) (view_recs l) -> klt k sep) /\
    (forall k v, In (k, v) (view_recs r) -> kle sep k).

(** [l] and its right neighbour [r] (which starts at [h]) were combined into [m]. *)
Definition is_merge (l r m : nview) (h : K) : Prop :=
  w_inner m = w_inner l /\ w_high m = w_high r /\
  if w_inner l then
    view_kids m = view_kids l ++ view_kids r /\
    view_seps m = view_seps l ++ h :: view_seps r
  else view_recs m = view_recs l ++ view_recs r.

Lemma flat_map_nth {A B} (f : nat -> list B) (g : A -> list B) l o :
  (forall i s, nth_error l i = Some s -> f (o + i) = g s) ->
  flat_map f (seq o (length l)) = flat_map g l.
Proof.
  revert o. induction l as [|x l IH]; intros o H; cbn [length seq flat_map]; auto.
  rewrite <- (H 0 x eq_refl), Nat.add_0_r. f_equal. apply IH. intros i s E.
  rewrite <- (H (S i) s E). f_equal. lia.
Qed.

(** A view showing the abstract node [a]. *)
Record shows (w : nview) (a : anode) : Prop := {
  sh_inner : w_inner w = a_inner a;
  sh_rc : w_rc w = length (a_slots a);
  sh_del : forall i s, nth_error (a_slots a) i = Some s -> w_del w i = Some (s_del s);
  sh_key : forall i k, kat (a_slots a) i = Some k -> w_key w i = Some k;
  sh_rec : forall i s k v, nth_error (a_slots a) i = Some s -> s_key s = Some k ->
           s_pay s = PV v -> w_rec w i = Some (k, v);
  sh_kid : forall i s c, nth_error (a_slots a) i = Some s -> s_pay s = PP c -> w_kid w i = Some c;
  sh_high : w_high w = a_high a;
  sh_next : w_next w = a_next a;
}.

(** Shape of the slots: leaves hold keys and payloads, inner nodes children with a key
    everywhere but possibly at position 0. *)
Definition shape (inner : bool) (l : list slot) : Prop :=
  if inner then Forall inner_slot l /\ Forall inner_slotk (tl l) else Forall leaf_slot l.

Lemma body_shape inner l : body_ok inner l -> shape inner l.
Proof.
  destruct inner; cbn; [|intros [H _]; exact H]. destruct l as [|s l]; [intros []|].
  intros (H0 & H1 & _). split; auto. constructor; auto. eapply Forall_impl; [|exact H1].
  intros x (A & k & c & _ & E). split; eauto.
Qed.

Lemma shows_recs' w a : shows w a -> Forall leaf_slot (a_slots a) -> view_recs w = live (a_slots a).
Proof.
  intros H Hl. unfold view_recs, live. rewrite (sh_rc _ _ H). apply flat_map_nth.
  intros i s E. cbn [Nat.add]. rewrite (sh_del _ _ H _ _ E).
  rewrite Forall_forall in Hl. destruct (Hl s (nth_error_In _ _ E)) as (k & v & E1 & E2).
  rewrite (sh_rec _ _ H _ _ _ _ E E1 E2). unfold rec1. rewrite E1, E2. destruct (s_del s); auto.
Qed.
Lemma shows_recs w a : shows w a -> leaf_ok (a_slots a) -> view_recs w = live (a_slots a).
Proof. intros H [Hl _]. now apply shows_recs'. Qed.

Lemma shows_kids' w a : shows w a -> Forall inner_slot (a_slots a) -> view_kids w = kids_of (a_slots a).
Proof.
  intros H Hi. unfold view_kids, kids_of. rewrite (sh_rc _ _ H). apply flat_map_nth.
  intros i s E. cbn [Nat.add]. rewrite Forall_forall in Hi.
  destruct (Hi s (nth_error_In _ _ E)) as (_ & c & Ec).
  rewrite (sh_kid _ _ H _ _ _ E Ec). unfold kid1. now rewrite Ec.
Qed.
Lemma shows_kids w a : shows w a -> inner_ok (a_slots a) -> view_kids w = kids_of (a_slots a).
Proof. intros H Hi. apply shows_kids'; auto. apply (body_shape true _ Hi). Qed.

Lemma shows_seps' w a : shows w a -> Forall inner_slotk (tl (a_slots a)) -> view_seps w = keys_of (tl (a_slots a)).
Proof.
  intros H Htl. unfold view_seps, keys_of. rewrite (sh_rc _ _ H).
  pose proof (sh_key _ _ H) as Hk. destruct (a_slots a) as [|s0 tl0]; [reflexivity|].
  cbn [length tl] in *. replace (S (length tl0) - 1) with (length tl0) by lia.
  apply flat_map_nth. intros i s E. rewrite Forall_forall in Htl.
  destruct (Htl _ (nth_error_In _ _ E)) as (_ & k & c & Ek & _).
  rewrite (Hk (1 + i) k).
  - unfold key1. now rewrite Ek.
  - unfold kat. cbn [Nat.add nth_error]. now rewrite E.
Qed.
Lemma shows_seps w a : shows w a -> inner_ok (a_slots a) -> view_seps w = keys_of (tl (a_slots a)).
Proof. intros H Hi. apply shows_seps'; auto. apply (body_shape true _ Hi). Qed.

Lemma keys_len s : inner_ok s -> length (keys_of (tl s)) + 1 = length (kids_of s).
Proof.
  destruct s as [|s0 tl0]; [intros []|]. intros ((_ & c0 & E0) & Htl & _). cbn [tl].
  unfold kids_of. cbn [flat_map]. unfold kid1 at 1. rewrite E0. cbn [app length].
  rewrite Nat.add_1_r. f_equal. unfold keys_of.
  induction Htl as [|s tl1 (_ & k & c & E1 & E2) _ IH]; cbn [flat_map]; auto.
  unfold key1 at 1, kid1 at 1. rewrite E1, E2. cbn [app length]. f_equal. exact IH.
Qed.

Context {O : OrdLaws P}.

Lemma inner_cut s1 s0 tl0 sep : inner_ok (s1 ++ s0 :: tl0) -> s1 <> [] -> s_key s0 = Some sep ->
  inner_ok s1 /\ inner_ok (s0 :: tl0) /\
  keys_of (tl (s1 ++ s0 :: tl0)) = keys_of (tl s1) ++ sep :: keys_of tl0 /\
  (forall k, In k (keys_of (tl s1)) -> klt k sep) /\ (forall k, In k (keys_of tl0) -> klt sep k).
Proof.
  intros H Hne Ek. destruct s1 as [|x s1]; [congruence|]. clear Hne. cbn [app inner_ok tl] in *.
  destruct H as (Hx & Hf & Hs). apply Forall_app in Hf as [Hf1 Hf2].
  assert (E : keys_of (s1 ++ s0 :: tl0) = keys_of s1 ++ sep :: keys_of tl0).
  { unfold keys_of. rewrite flat_map_app. cbn [flat_map]. unfold key1 at 2. now rewrite Ek. }
  rewrite E in Hs. pose proof Hs as Hs'. apply SS_app in Hs as (A & B & C). inversion Hf2 as [|? ? F1 F2]; subst.
  inversion B as [|? ? B1 B2]; subst.
  split; [auto|]. split.
  - split; [|split; auto]. destruct F1 as (F1 & ? & c & _ & F3). split; eauto.
  - split; auto. split.
    + intros k Hk. apply C; auto. now left.
    + now rewrite Forall_forall in B2.
Qed.

Lemma live_nonempty s : s <> [] -> leaf_ok s -> (forall x, In x s -> s_del x = false) -> live s <> [].
Proof.
  intros Hne [Hl _] Hd. destruct s as [|x s]; [congruence|].
  inversion Hl as [|? ? (k & v & E1 & E2) _]; subst. unfold live. cbn [flat_map]. unfold rec1 at 1.
  rewrite (Hd x (or_introl eq_refl)), E1, E2. discriminate.
Qed.

Lemma split_shows old l r a sep s1 s2 nx1 nx2 rm1 rm2 lw1 lw2 :
  shows old a -> body_ok (a_inner a) (a_slots a) ->
  shows l (ANode (a_inner a) rm1 nx1 lw1 (Some sep) s1) ->
  shows r (ANode (a_inner a) rm2 nx2 lw2 (a_high a) s2) ->
  split_spec a sep s1 s2 -> halves_live s1 s2 -> is_split old l r sep.
Proof.
  intros Ho Hb Hl Hr Hs (N1 & N2 & HD).
  unfold is_split. rewrite (sh_inner _ _ Ho), (sh_inner _ _ Hl), (sh_inner _ _ Hr),
    (sh_high _ _ Hl), (sh_high _ _ Hr), (sh_high _ _ Ho). cbn [a_inner a_high].
  split; [auto|]. split; [auto|]. split; [auto|]. split; [auto|].
  destruct Hs as [_ Hs]. destruct (a_inner a) eqn:Ei; cbn [body_ok] in Hb.
  - destruct Hs as (E & _ & s0 & tl0 & E2 & Ek). subst s2. rewrite E in Hb.
    destruct (inner_cut _ _ _ _ Hb N1 Ek) as (I1 & I2 & E3 & L1 & L2).
    rewrite (shows_kids _ _ Hl I1), (shows_kids _ _ Hr I2), (shows_seps _ _ Hl I1), (shows_seps _ _ Hr I2).
    cbn [a_slots tl]. rewrite (shows_kids _ _ Ho), (shows_seps _ _ Ho) by (rewrite E; exact Hb).
    rewrite E, E3. pose proof (keys_len _ I1). pose proof (keys_len _ I2). cbn [tl] in *.
    split; [unfold kids_of; now rewrite flat_map_app|].
    split; [intros Z; rewrite Z in *; cbn in *; lia|].
    split; [intros Z; rewrite Z in *; cbn in *; lia|]. auto 6.
  - destruct Hs as (E & I1 & I2 & _ & _ & L1 & L2 & _).
    rewrite (shows_recs _ _ Hl I1), (shows_recs _ _ Hr I2), (shows_recs _ _ Ho Hb). cbn [a_slots].
    split; [congruence|].
    split; [apply live_nonempty; auto; intros x Hx; apply HD, in_or_app; auto|].
    split; [apply live_nonempty; auto; intros x Hx; apply HD, in_or_app; auto|].
    split.
    + intros k v Hk. apply L1, live_keys_incl. apply in_map_iff. exists (k, v). auto.
    + intros k v Hk. apply L2, live_keys_incl. apply in_map_iff. exists (k, v). auto.
Qed.

Lemma merge_shows l r m al ar h s nx rm lw sl lo :
  shows l al -> shows r ar -> node_wf sl (a_inner al) lo al -> a_high al = Some h ->
  node_wf sl (a_inner al) (Key h) ar ->
  shows m (ANode (a_inner al) rm nx lw (a_high ar) s) ->
  merge_spec al ar s -> is_merge l r m h.
Proof.
  intros Hl Hr Wl Eh Wr Hm Hs. unfold is_merge.
  rewrite (sh_inner _ _ Hm), (sh_inner _ _ Hl), (sh_high _ _ Hm), (sh_high _ _ Hr). cbn [a_inner a_high].
  split; [auto|]. split; [auto|].
  pose proof (nw_body _ _ _ _ Wl) as Bl. pose proof (nw_body _ _ _ _ Wr) as Br.
  pose proof (nw_first _ _ _ _ Wr) as Hf. pose proof (nw_lo _ _ _ _ Wr) as Hlo.
  pose proof (nw_hi _ _ _ _ Wl) as Hhi.
  unfold merge_spec in Hs. destruct (a_inner al) eqn:Ei; cbn [body_ok rkeys] in *.
  - subst s. specialize (Hf eq_refl h eq_refl).
    assert (Im : inner_ok (a_slots al ++ a_slots ar)).
    { destruct (a_slots al) as [|x xs]; [destruct Bl|]. destruct (a_slots ar) as [|y ys]; [destruct Br|].
      cbn [app inner_ok tl] in *. destruct Bl as (B1 & B2 & B3), Br as (C1 & C2 & C3).
      unfold kat in Hf. cbn in Hf. split; auto. split.
      - apply Forall_app. split; auto. constructor; auto. destruct C1 as (D1 & c & D2). split; eauto.
      - unfold keys_of in *. rewrite flat_map_app. cbn [flat_map]. unfold key1 at 2. rewrite Hf. cbn [app].
        apply SS_app. split; [exact B3|]. split.
        + constructor; auto. apply Forall_forall. intros k Hk. exact (Hlo k Hk).
        + intros k k' Hk [<-|Hk'].
          * specialize (Hhi k Hk). unfold hi_ext in Hhi. rewrite Eh in Hhi. exact Hhi.
          * specialize (Hhi k Hk). unfold hi_ext in Hhi. rewrite Eh in Hhi. eapply klt_trans; [exact Hhi|].
            exact (Hlo k' Hk'). }
    rewrite (shows_kids _ _ Hm Im), (shows_seps _ _ Hm Im), (shows_kids _ _ Hl Bl), (shows_kids _ _ Hr Br),
      (shows_seps _ _ Hl Bl), (shows_seps _ _ Hr Br). cbn [a_slots].
    split; [unfold kids_of; now rewrite flat_map_app|].
    destruct (a_slots al) as [|x xs]; [destruct Bl|]. destruct (a_slots ar) as [|y ys]; [destruct Br|].
    cbn [app tl]. unfold kat in Hf. cbn in Hf. unfold keys_of. rewrite flat_map_app. cbn [flat_map].
    unfold key1 at 2. now rewrite Hf.
  - destruct Hs as (I & E & _). rewrite (shows_recs _ _ Hm I), (shows_recs _ _ Hl Bl), (shows_recs _ _ Hr Br).
    exact E.
Qed.

End View.

(** ** The two layouts as views *)

Definition fview {P : Params} (n : fnode) : nview :=
  NView (fn_inner n) (fn_rc n) (fx_recdel n) (fx_key n) (fx_record n) (fx_child n)
        (if fn_high n then fx_highkey n else None) (fn_next n).
Definition vview {P : Params} (n : vnode) : nview :=
  NView (vn_inner n) (vn_rc n) (vx_recdel n) (vx_key n) (vx_record n) (vx_child n)
        (if vn_hlen n =? 0 then None else vx_highkey n) (vn_next n).

Lemma fshows {P : Params} {O : OrdLaws P} {F : FixSizes P} n a : frep n a -> shows (fview n) a.
Proof.
  intros H. split; cbn [fview w_inner w_rc w_del w_key w_rec w_kid w_high w_next].
  - apply (fr_inner _ _ H).
  - apply (fr_rc _ _ H).
  - intros i s E. unfold fx_recdel. f_equal. pose proof (fr_kind _ _ H) as Hk.
    rewrite Forall_forall in Hk. symmetry. apply (Hk s (nth_error_In _ _ E)).
  - intros i k E. eapply frep_key; eauto.
  - intros i s k v E E1 E2. unfold fx_record. rewrite (frep_key _ _ i k H).
    + rewrite (frep_payload _ _ _ _ _ H E E2). reflexivity.
    + unfold kat. now rewrite E.
  - intros i s c E E1. eapply frep_child; eauto.
  - rewrite (fr_highb _ _ H). destruct (a_high a) as [h|] eqn:E; cbn; auto. eapply frep_highkey; eauto.
  - apply (fr_next _ _ H).
Qed.

Lemma vshows {P : Params} {O : OrdLaws P} {F : VarSizes P} n a : vrep n a -> shows (vview n) a.
Proof.
  intros (L & dead & H). split; cbn [vview w_inner w_rc w_del w_key w_rec w_kid w_high w_next].
  - apply (v_inner _ _ _ _ H).
  - rewrite (v_len _ _ _ _ H). apply (v_rc _ _ _ _ H).
  - intros i s E. eapply v_recdel; eauto.
  - intros i k E. eapply v_key; eauto.
  - intros i s k v E E1 E2. eapply v_record; eauto.
  - intros i s c E E1. eapply v_child; eauto.
  - rewrite (v_hlen _ _ _ _ H). destruct (a_high a) as [h|] eqn:E; cbn [klen_o]; auto.
    destruct (v_highv _ _ _ _ H h E) as [Hk _]. destruct (Nat.eqb_spec (klen h) 0) as [?|_]; [lia|].
    eapply v_highkey; eauto.
  - apply (v_next _ _ _ _ H).
Qed.
