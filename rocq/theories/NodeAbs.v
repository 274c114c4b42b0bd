(** Abstract node contents (slots) used to state and prove the node laws, together
    with list utilities and the correctness of the shared binary search. *)
From Coq Require Import List Arith ZArith Bool Lia Sorted.
From Verif Require Import Params Mem Common Spec.
Import ListNotations.

Ltac inv H := inversion H; subst; clear H.

Section NodeAbs.
Context {P : Params}.

(** One record as stored in a node: its key (absent when the bytes are unspecified,
    e.g. the first key of a leftmost inner node), its payload, and its tombstone flag. *)
Record slot := Slot {
  s_key : option K;
  s_pay : pay;
  s_del : bool;
}.

(** Abstract node: header information and slots. *)
Record anode := ANode {
  a_inner : bool;
  a_removed : bool;
  a_next : option addr;
  a_low : option K;       (* lowest key, when it is known to be stored *)
  a_high : option K;      (* highest key; None for a rightmost node *)
  a_slots : list slot;
}.

Definition s_live (s : slot) : bool := negb (s_del s).

(** Live user records of a list of slots. *)
Definition rec1 (s : slot) : list (K * V) :=
  match s_key s, s_pay s, s_del s with
  | Some k, PV v, false => [(k, v)]
  | _, _, _ => []
  end.
Definition live (l : list slot) : list (K * V) := flat_map rec1 l.

(** All keys physically present, tombstones included. *)
Definition key1 (s : slot) : list K :=
  match s_key s with Some k => [k] | None => [] end.
Definition keys_of (l : list slot) : list K := flat_map key1 l.

(** Children of an inner node. *)
Definition kid1 (s : slot) : list addr :=
  match s_pay s with PP a => [a] | PV _ => [] end.
Definition kids_of (l : list slot) : list addr := flat_map kid1 l.

Definition leaf_slot (s : slot) : Prop :=
  exists k v, s_key s = Some k /\ s_pay s = PV v.
Definition inner_slot (s : slot) : Prop :=
  s_del s = false /\ exists a, s_pay s = PP a.
Definition inner_slotk (s : slot) : Prop :=
  s_del s = false /\ exists k a, s_key s = Some k /\ s_pay s = PP a.

(** Well-formed leaf contents: every slot has a key and a payload, keys ascend strictly. *)
Definition leaf_ok (l : list slot) : Prop :=
  Forall leaf_slot l /\ StronglySorted klt (keys_of l).

(** Well-formed inner contents: the first key is irrelevant, the others ascend. *)
Definition inner_ok (l : list slot) : Prop :=
  match l with
  | [] => False
  | s :: tl => inner_slot s /\ Forall inner_slotk tl /\ StronglySorted klt (keys_of tl)
  end.

Definition body_ok (inner : bool) (l : list slot) : Prop :=
  if inner then inner_ok l else leaf_ok l.

(** Sorted association lists. *)
Fixpoint assoc (k : K) (l : list (K * V)) : option V :=
  match l with
  | [] => None
  | (k', v) :: l' => if keqb k k' then Some v else assoc k l'
  end.

Fixpoint upsert (k : K) (v : V) (l : list (K * V)) : list (K * V) :=
  match l with
  | [] => [(k, v)]
  | (k', v') :: l' =>
      if ltb k k' then (k, v) :: (k', v') :: l'
      else if keqb k k' then (k, v) :: l'
      else (k', v') :: upsert k v l'
  end.

Fixpoint remove_key (k : K) (l : list (K * V)) : list (K * V) :=
  match l with
  | [] => []
  | (k', v') :: l' => if keqb k k' then remove_key k l' else (k', v') :: remove_key k l'
  end.

Definition ksorted (l : list (K * V)) : Prop := StronglySorted klt (map fst l).

(** ** Generic list facts *)

Lemma SS_app {A} (R : A -> A -> Prop) l1 l2 :
  StronglySorted R (l1 ++ l2) <->
  StronglySorted R l1 /\ StronglySorted R l2 /\
  (forall x y, In x l1 -> In y l2 -> R x y).
Proof.
  induction l1 as [|a l1 IH]; cbn.
  - split; [intros H; repeat split; auto; [constructor | intros ? ? []] | tauto].
  - split.
    + intros H. inv H. apply IH in H2 as (H4 & H5 & H6).
      rewrite Forall_app in H3. destruct H3 as [H3 H3'].
      repeat split; auto.
      * constructor; auto.
      * intros x y [<-|Hx] Hy; auto. rewrite Forall_forall in H3'. auto.
    + intros (H1 & H2 & H3). inv H1. constructor.
      * apply IH. repeat split; auto.
      * apply Forall_app. split; auto. apply Forall_forall. auto.
Qed.

Lemma nth_error_split_eq {A} (l : list A) i x :
  nth_error l i = Some x -> l = firstn i l ++ x :: skipn (S i) l.
Proof.
  revert i. induction l as [|a l IH]; intros [|i] H; cbn in *; try discriminate.
  - now inv H.
  - f_equal. now apply IH.
Qed.

Lemma nth_error_insert {A} (l1 l2 : list A) x i :
  nth_error (l1 ++ x :: l2) i =
  if i <? length l1 then nth_error (l1 ++ l2) i
  else if i =? length l1 then Some x
  else nth_error (l1 ++ l2) (i - 1).
Proof.
  destruct (i <? length l1) eqn:E.
  - apply Nat.ltb_lt in E. now rewrite !nth_error_app1 by lia.
  - apply Nat.ltb_ge in E. destruct (i =? length l1) eqn:E2.
    + apply Nat.eqb_eq in E2. subst. rewrite nth_error_app2 by lia.
      now rewrite Nat.sub_diag.
    + apply Nat.eqb_neq in E2. rewrite !nth_error_app2 by lia.
      replace (i - length l1) with (S (i - 1 - length l1)) by lia. reflexivity.
Qed.

Lemma nth_error_mid {A} (l1 l2 : list A) x : nth_error (l1 ++ x :: l2) (length l1) = Some x.
Proof. rewrite nth_error_app2 by lia. now rewrite Nat.sub_diag. Qed.

Lemma nth_error_removed {A} (l1 l2 : list A) x i :
  nth_error (l1 ++ l2) i =
  if i <? length l1 then nth_error (l1 ++ x :: l2) i
  else nth_error (l1 ++ x :: l2) (i + 1).
Proof.
  destruct (i <? length l1) eqn:E.
  - apply Nat.ltb_lt in E. now rewrite !nth_error_app1 by lia.
  - apply Nat.ltb_ge in E. rewrite !nth_error_app2 by lia.
    replace (i + 1 - length l1) with (S (i - length l1)) by lia. reflexivity.
Qed.

Lemma nth_error_ge {A} (l : list A) i : length l <= i -> nth_error l i = None.
Proof. apply nth_error_None. Qed.

Lemma nth_error_lt {A} (l : list A) i x : nth_error l i = Some x -> i < length l.
Proof. intros H. apply nth_error_Some. congruence. Qed.

Lemma nth_error_ex {A} (l : list A) i : i < length l -> exists x, nth_error l i = Some x.
Proof.
  intros H. destruct (nth_error l i) eqn:E; eauto.
  apply nth_error_None in E. lia.
Qed.

Lemma live_app l1 l2 : live (l1 ++ l2) = live l1 ++ live l2.
Proof. apply flat_map_app. Qed.
Lemma keys_of_app l1 l2 : keys_of (l1 ++ l2) = keys_of l1 ++ keys_of l2.
Proof. apply flat_map_app. Qed.
Lemma kids_of_app l1 l2 : kids_of (l1 ++ l2) = kids_of l1 ++ kids_of l2.
Proof. apply flat_map_app. Qed.

Lemma in_keys_of k l : In k (keys_of l) <-> exists s, In s l /\ s_key s = Some k.
Proof.
  unfold keys_of. rewrite in_flat_map. split.
  - intros (s & H1 & H2). exists s. split; auto. unfold key1 in H2.
    destruct (s_key s); [destruct H2 as [->|[]]; auto | destruct H2].
  - intros (s & H1 & H2). exists s. split; auto. unfold key1. rewrite H2. now left.
Qed.

Lemma in_live k v l :
  In (k, v) (live l) <->
  exists s, In s l /\ s_key s = Some k /\ s_pay s = PV v /\ s_del s = false.
Proof.
  unfold live. rewrite in_flat_map. split.
  - intros (s & H1 & H2). exists s. split; auto. unfold rec1 in H2.
    destruct (s_key s); [|destruct H2].
    destruct (s_pay s); [|destruct H2].
    destruct (s_del s); [destruct H2|].
    destruct H2 as [H2|[]]. inv H2. auto.
  - intros (s & H1 & H2 & H3 & H4). exists s. split; auto.
    unfold rec1. rewrite H2, H3, H4. now left.
Qed.

Lemma live_key_in k v l : In (k, v) (live l) -> In k (keys_of l).
Proof. rewrite in_live, in_keys_of. intros (s & H1 & H2 & _). eauto. Qed.

Lemma keys_of_length l : Forall leaf_slot l -> length (keys_of l) = length l.
Proof.
  induction 1 as [|s l (k & v & H1 & H2) _ IH]; cbn; auto.
  rewrite app_length. unfold key1 at 1. rewrite H1. cbn. now rewrite <- IH.
Qed.

Lemma keys_of_nth l i s : Forall leaf_slot l -> nth_error l i = Some s ->
  nth_error (keys_of l) i = s_key s.
Proof.
  intros H. revert i. induction H as [|x l (k & v & H1 & H2) _ IH]; intros i Hi.
  - destruct i; discriminate.
  - cbn. unfold key1 at 1. rewrite H1. cbn. destruct i; cbn in *.
    + inv Hi. auto.
    + auto.
Qed.

Lemma keys_ofk_nth l i s : Forall inner_slotk l -> nth_error l i = Some s ->
  nth_error (keys_of l) i = s_key s.
Proof.
  intros H. revert i. induction H as [|x l (_ & k & v & H1 & H2) _ IH]; intros i Hi.
  - destruct i; discriminate.
  - cbn. unfold key1 at 1. rewrite H1. cbn. destruct i; cbn in *.
    + inv Hi. auto.
    + auto.
Qed.

Lemma SS_nth {A} (R : A -> A -> Prop) l i j x y :
  StronglySorted R l -> i < j -> nth_error l i = Some x -> nth_error l j = Some y -> R x y.
Proof.
  intros H. revert i j. induction H as [|a l Hl IH Ha]; intros i j Hij Hi Hj.
  - destruct i; discriminate.
  - destruct j; [lia|]. destruct i; cbn in *.
    + inv Hi. rewrite Forall_forall in Ha. apply Ha. eapply nth_error_In; eauto.
    + apply (IH i j); auto; lia.
Qed.

(** [strictly sorted from index b0]: the form used by the binary search. *)
Definition kat (l : list slot) (i : nat) : option K :=
  match nth_error l i with Some s => s_key s | None => None end.

Lemma body_ok_key inner l i :
  body_ok inner l -> b2n inner <= i -> i < length l -> exists k, kat l i = Some k.
Proof.
  intros H1 H2 H3. unfold kat. destruct (nth_error_ex l i H3) as [s E]. rewrite E.
  destruct inner; cbn in *.
  - destruct l as [|s0 tl]; [destruct H1|]. destruct H1 as (_ & H1 & _).
    destruct i; [lia|]. cbn in E. rewrite Forall_forall in H1.
    destruct (H1 s (nth_error_In _ _ E)) as (_ & k & a & H4 & H5). eauto.
  - destruct H1 as (H1 & _). rewrite Forall_forall in H1.
    destruct (H1 s (nth_error_In _ _ E)) as (k & a & H4 & H5). eauto.
Qed.

Lemma body_ok_lt inner l i j ki kj :
  body_ok inner l -> b2n inner <= i -> i < j ->
  kat l i = Some ki -> kat l j = Some kj -> klt ki kj.
Proof.
  unfold kat. intros H1 H2 H3 H4 H5.
  destruct (nth_error l i) as [si|] eqn:Ei; [|discriminate].
  destruct (nth_error l j) as [sj|] eqn:Ej; [|discriminate].
  destruct inner; cbn in *.
  - destruct l as [|s0 tl]; [destruct H1|]. destruct H1 as (_ & H1 & H6).
    destruct i; [lia|]. destruct j; [lia|]. cbn in *.
    eapply (SS_nth _ _ i j); eauto; try lia.
    + rewrite (keys_ofk_nth _ _ _ H1 Ei). auto.
    + rewrite (keys_ofk_nth _ _ _ H1 Ej). auto.
  - destruct H1 as (H1 & H6). eapply (SS_nth _ _ i j); eauto; try lia.
    + rewrite (keys_of_nth _ _ _ H1 Ei). auto.
    + rewrite (keys_of_nth _ _ _ H1 Ej). auto.
Qed.

Context {O : OrdLaws P}.

(** ** The binary search *)

Lemma bsearch_inv (kf : nat -> option K) key b0 n fuel b e :
  (forall i, b0 <= i < n -> exists k, kf i = Some k) ->
  (forall i j ki kj, b0 <= i -> i < j -> j < n ->
     kf i = Some ki -> kf j = Some kj -> klt ki kj) ->
  (Z.of_nat b0 <= b)%Z -> (e < Z.of_nat n)%Z ->
  (b <= e + 1 \/ (b = Z.of_nat b0 /\ e < b))%Z ->
  (Z.to_nat (e - b + 1) < fuel)%nat ->
  (forall i k, b0 <= i < n -> (Z.of_nat i < b)%Z -> kf i = Some k -> klt k key) ->
  (forall i k, b0 <= i < n -> (e < Z.of_nat i)%Z -> kf i = Some k -> klt key k) ->
  exists r, bsearch fuel kf key b e = Some r /\
  match r with
  | (true, p) => b0 <= Z.to_nat p < n /\ (0 <= p)%Z /\ kf (Z.to_nat p) = Some key
  | (false, p) =>
      (Z.of_nat b0 <= p)%Z /\ (Z.to_nat p <= n \/ Z.to_nat p = b0) /\
      (forall i k, b0 <= i < n -> i < Z.to_nat p -> kf i = Some k -> klt k key) /\
      (forall i k, b0 <= i < n -> Z.to_nat p <= i -> kf i = Some k -> klt key k)
  end.
Proof.
  intros Hk Hs. revert b e.
  induction fuel as [|fuel IH]; intros b e Hb He Hbe Hf Hlt Hgt; [lia|].
  cbn. destruct (Z.leb b e) eqn:E.
  - apply Z.leb_le in E.
    pose proof (Z.div_mod (b + e) 2 ltac:(lia)) as Hd.
    pose proof (Z.mod_pos_bound (b + e) 2 ltac:(lia)) as Hm.
    set (pos := ((b + e) / 2)%Z) in *.
    assert (Hp : (b <= pos <= e)%Z) by lia.
    destruct (Hk (Z.to_nat pos) ltac:(lia)) as [ik Hik]. rewrite Hik.
    destruct (ltb key ik) eqn:E1; [|destruct (ltb ik key) eqn:E2].
    + apply IH; try lia; auto.
      intros i k Hi Hei Hki.
      destruct (Z.eq_dec (Z.of_nat i) pos) as [Ep|Np].
      * assert (i = Z.to_nat pos) by lia. subst i. rewrite Hki in Hik. inv Hik. auto.
      * apply klt_trans with ik; auto.
        eapply (Hs (Z.to_nat pos) i); eauto; lia.
    + apply IH; try lia; auto.
      intros i k Hi Hei Hki.
      destruct (Z.eq_dec (Z.of_nat i) pos) as [Ep|Np].
      * assert (i = Z.to_nat pos) by lia. subst i. rewrite Hki in Hik. inv Hik. auto.
      * apply klt_trans with ik; auto.
        eapply (Hs i (Z.to_nat pos)); eauto; lia.
    + eexists. split; [reflexivity|]. cbn. repeat split; try lia.
      rewrite Hik. f_equal. symmetry. now apply ltb_total.
  - apply Z.leb_gt in E. eexists. split; [reflexivity|]. cbn.
    repeat split; try lia.
    + intros i k Hi Hip. apply Hlt; lia.
    + intros i k Hi Hip. apply Hgt; lia.
Qed.

Lemma bsearch_ok (kf : nat -> option K) key b0 n :
  (forall i, b0 <= i < n -> exists k, kf i = Some k) ->
  (forall i j ki kj, b0 <= i -> i < j -> j < n ->
     kf i = Some ki -> kf j = Some kj -> klt ki kj) ->
  exists r, bsearch (S n) kf key (Z.of_nat b0) (Z.of_nat n - 1) = Some r /\
  match r with
  | (true, p) => b0 <= Z.to_nat p < n /\ (0 <= p)%Z /\ kf (Z.to_nat p) = Some key
  | (false, p) =>
      (Z.of_nat b0 <= p)%Z /\ (Z.to_nat p <= n \/ Z.to_nat p = b0) /\
      (forall i k, b0 <= i < n -> i < Z.to_nat p -> kf i = Some k -> klt k key) /\
      (forall i k, b0 <= i < n -> Z.to_nat p <= i -> kf i = Some k -> klt key k)
  end.
Proof.
  intros Hk Hs. apply bsearch_inv; auto; try lia.
Qed.

(** Search results in terms of list splits. *)
Definition leaf_search_spec (l : list slot) (key : K) (rc : node_rc) (pos : nat) : Prop :=
  match rc with
  | kKeyAlreadyInserted =>
      exists l1 s l2, l = l1 ++ s :: l2 /\ pos = length l1 /\ s_key s = Some key /\
                      s_del s = false
  | kKeyAlreadyDeleted =>
      exists l1 s l2, l = l1 ++ s :: l2 /\ pos = length l1 /\ s_key s = Some key /\
                      s_del s = true
  | kKeyNotInserted =>
      exists l1 l2, l = l1 ++ l2 /\ pos = length l1 /\
        (forall k, In k (keys_of l1) -> klt k key) /\
        (forall k, In k (keys_of l2) -> klt key k)
  | _ => False
  end.

Definition inner_search_spec (l : list slot) (key : K) (rc : node_rc) (pos : nat) : Prop :=
  (exists l1 s l2, l = l1 ++ s :: l2 /\ pos = length l1 /\
     (l1 <> [] -> exists ks, s_key s = Some ks /\ kle ks key) /\
     (forall k, In k (keys_of l2) -> klt key k)) /\
  match rc with
  | kKeyAlreadyInserted => pos <> 0 /\ kat l pos = Some key
  | kKeyNotInserted => ~ In key (keys_of (tl l))
  | _ => False
  end.

Lemma keys_of_firstn_nth l i k : In k (keys_of (firstn i l)) ->
  exists j, j < i /\ j < length l /\ kat l j = Some k.
Proof.
  rewrite in_keys_of. intros (s & H1 & H2).
  destruct (In_nth_error _ _ H1) as [j Hj].
  pose proof (nth_error_lt _ _ _ Hj) as Hlt. rewrite firstn_length in Hlt.
  exists j. repeat split; try lia. unfold kat.
  rewrite <- (firstn_skipn i l). rewrite nth_error_app1 by (rewrite firstn_length; lia).
  now rewrite Hj.
Qed.

Lemma keys_of_skipn_nth l i k : In k (keys_of (skipn i l)) ->
  exists j, i <= j /\ j < length l /\ kat l j = Some k.
Proof.
  rewrite in_keys_of. intros (s & H1 & H2).
  destruct (In_nth_error _ _ H1) as [j Hj].
  pose proof (nth_error_lt _ _ _ Hj) as Hlt. rewrite skipn_length in Hlt.
  exists (i + j). repeat split; try lia. unfold kat.
  rewrite <- (firstn_skipn i l).
  rewrite nth_error_app2 by (rewrite firstn_length; lia).
  rewrite firstn_length. replace (i + j - Nat.min i (length l)) with j by lia.
  now rewrite Hj.
Qed.

Lemma leaf_bsearch_spec l key kf :
  leaf_ok l -> (forall i, i < length l -> kf i = kat l i) ->
  exists r, bsearch (S (length l)) kf key (Z.of_nat 0) (Z.of_nat (length l) - 1) = Some r /\
  match r with
  | (true, p) => Z.to_nat p < length l /\ (0 <= p)%Z /\ exists l1 s l2, l = l1 ++ s :: l2 /\ Z.to_nat p = length l1 /\ s_key s = Some key
  | (false, p) => leaf_search_spec l key kKeyNotInserted (Z.to_nat (p - 0))
  end.
Proof.
  intros Hok Hkf.
  destruct (bsearch_ok kf key 0 (length l)) as (r & Hr & Hs).
  - intros i Hi. rewrite Hkf by lia. apply (body_ok_key false); auto; cbn; lia.
  - intros i j ki kj H1 H2 H3 H4 H5. rewrite Hkf in H4, H5 by lia.
    apply (body_ok_lt false l i j); auto.
  - exists r. split; auto. destruct r as [[] p].
    + destruct Hs as (H1 & H2 & H3). rewrite Hkf in H3 by lia.
      unfold kat in H3. destruct (nth_error l (Z.to_nat p)) as [s|] eqn:E; [|discriminate].
      split; [lia|]. split; auto.
      exists (firstn (Z.to_nat p) l), s, (skipn (S (Z.to_nat p)) l).
      repeat split; auto.
      * now apply nth_error_split_eq.
      * rewrite firstn_length. lia.
    + destruct Hs as (H1 & H2 & H3 & H4). cbn.
      replace (Z.to_nat (p - 0)) with (Z.to_nat p) by lia.
      exists (firstn (Z.to_nat p) l), (skipn (Z.to_nat p) l). repeat split.
      * now rewrite firstn_skipn.
      * rewrite firstn_length. lia.
      * intros k Hk. destruct (keys_of_firstn_nth _ _ _ Hk) as (j & A & B & C).
        apply (H3 j); try lia. rewrite Hkf by lia. auto.
      * intros k Hk. destruct (keys_of_skipn_nth _ _ _ Hk) as (j & A & B & C).
        apply (H4 j); try lia. rewrite Hkf by lia. auto.
Qed.

Lemma inner_bsearch_spec l key kf :
  inner_ok l -> (forall i, 1 <= i < length l -> kf i = kat l i) ->
  exists r, bsearch (S (length l)) kf key (Z.of_nat 1) (Z.of_nat (length l) - 1) = Some r /\
  match r with
  | (true, p) => inner_search_spec l key kKeyAlreadyInserted (Z.to_nat p)
  | (false, p) => inner_search_spec l key kKeyNotInserted (Z.to_nat (p - 1))
  end.
Proof.
  intros Hok Hkf.
  assert (Hlen : 1 <= length l) by (destruct l; cbn in *; [tauto | lia]).
  destruct (bsearch_ok kf key 1 (length l)) as (r & Hr & Hs).
  - intros i Hi. rewrite Hkf by lia. apply (body_ok_key true); auto; cbn; lia.
  - intros i j ki kj H1 H2 H3 H4 H5. rewrite Hkf in H4, H5 by lia.
    apply (body_ok_lt true l i j); auto.
  - exists r. split; auto. destruct r as [[] p].
    + destruct Hs as (H1 & H2 & H3). rewrite Hkf in H3 by lia.
      split; [|split; [lia|auto]].
      unfold kat in H3. destruct (nth_error l (Z.to_nat p)) as [s|] eqn:E; [|discriminate].
      exists (firstn (Z.to_nat p) l), s, (skipn (S (Z.to_nat p)) l).
      repeat split; auto.
      * now apply nth_error_split_eq.
      * rewrite firstn_length. lia.
      * intros _. exists key. split; auto. apply kle_refl.
      * intros k Hk. destruct (keys_of_skipn_nth _ _ _ Hk) as (j & A & B & C).
        apply (body_ok_lt true l (Z.to_nat p) j); auto; cbn; try lia.
        unfold kat. now rewrite E.
    + destruct Hs as (H1 & H2 & H3 & H4).
      destruct (nth_error_ex l (Z.to_nat (p - 1)) ltac:(lia)) as [s E].
      split.
      * exists (firstn (Z.to_nat (p - 1)) l), s, (skipn (S (Z.to_nat (p-1))) l).
        repeat split.
        -- now apply nth_error_split_eq.
        -- rewrite firstn_length. lia.
        -- intros Hne. assert (Z.to_nat (p - 1) <> 0).
           { intros E0. rewrite E0 in Hne. apply Hne. reflexivity. }
           destruct (body_ok_key true l (Z.to_nat (p-1)) Hok ltac:(cbn; lia) ltac:(lia)) as [k Hk].
           exists k. split. { unfold kat in Hk. now rewrite E in Hk. }
           apply klt_kle. apply (H3 (Z.to_nat (p-1))); try lia. rewrite Hkf by lia. auto.
        -- intros k Hk. destruct (keys_of_skipn_nth _ _ _ Hk) as (j & A & B & C).
           apply (H4 j); try lia. rewrite Hkf by lia. auto.
      * destruct l as [|s0 tl0]; [cbn in Hlen; lia|]. cbn [tl].
        intros Hin. rewrite <- (skipn_O tl0) in Hin.
        destruct (keys_of_skipn_nth _ _ _ Hin) as (j & A & B & C).
        destruct (Nat.lt_ge_cases (S j) (Z.to_nat p)).
        -- apply (klt_irrefl key). apply (H3 (S j)); try (cbn; lia). rewrite Hkf by (cbn; lia). auto.
        -- apply (klt_irrefl key). apply (H4 (S j)); try (cbn; lia). rewrite Hkf by (cbn; lia). auto.
Qed.

(** ** Sorted association lists *)

Lemma assoc_in k v l : ksorted l -> (assoc k l = Some v <-> In (k, v) l).
Proof.
  induction l as [|[k' v'] l IH]; cbn; intros Hs.
  - split; [discriminate | tauto].
  - inv Hs. destruct (keqb k k') eqn:E.
    + apply keqb_eq in E. subst. split.
      * intros H. inv H. now left.
      * intros [H|H]; [now inv H|].
        exfalso. rewrite Forall_forall in H2. apply (klt_irrefl k').
        apply H2. apply in_map_iff. exists (k', v). auto.
    + apply keqb_neq in E. rewrite IH by auto. split; auto.
      intros [H|H]; auto. inv H. congruence.
Qed.

Lemma assoc_none k l : assoc k l = None <-> ~ In k (map fst l).
Proof.
  induction l as [|[k' v'] l IH]; cbn; [tauto|].
  destruct (keqb k k') eqn:E.
  - apply keqb_eq in E. subst. split; [discriminate|tauto].
  - apply keqb_neq in E. rewrite IH. intuition.
Qed.

Lemma assoc_app_l k l1 l2 :
  (forall k', In k' (map fst l1) -> k' <> k) -> assoc k (l1 ++ l2) = assoc k l2.
Proof.
  induction l1 as [|[k' v'] l1 IH]; cbn; auto. intros H.
  destruct (keqb k k') eqn:E.
  - apply keqb_eq in E. subst. exfalso. apply (H k'); auto.
  - apply IH. auto.
Qed.

Lemma assoc_app_r k l1 l2 :
  (forall k', In k' (map fst l2) -> k' <> k) -> assoc k (l1 ++ l2) = assoc k l1.
Proof.
  intros H. induction l1 as [|[k' v'] l1 IH]; cbn; auto.
  - apply assoc_none. intros Hin. now apply (H k).
  - destruct (keqb k k'); auto.
Qed.

Lemma assoc_mid k v l1 l2 : ~ In k (map fst l1) -> assoc k (l1 ++ (k, v) :: l2) = Some v.
Proof.
  intros H. rewrite assoc_app_l.
  - cbn. now rewrite keqb_refl.
  - intros k' H1 ->. auto.
Qed.

Lemma upsert_app k v l1 l2 :
  (forall k', In k' (map fst l1) -> klt k' k) -> upsert k v (l1 ++ l2) = l1 ++ upsert k v l2.
Proof.
  induction l1 as [|[k' v'] l1 IH]; cbn; auto. intros H.
  assert (H1 : klt k' k) by auto.
  destruct (ltb k k') eqn:E1; [exfalso; apply (klt_asym _ _ H1); auto|].
  destruct (keqb k k') eqn:E2.
  { apply keqb_eq in E2. subst. now apply klt_irrefl in H1. }
  rewrite IH; auto.
Qed.

Lemma upsert_lt k v l :
  (forall k', In k' (map fst l) -> klt k k') -> upsert k v l = (k, v) :: l.
Proof.
  destruct l as [|[k' v'] l]; cbn; auto. intros H.
  assert (H1 : klt k k') by auto. unfold klt in H1. now rewrite H1.
Qed.

Lemma upsert_eq k v v' l : upsert k v ((k, v') :: l) = (k, v) :: l.
Proof. cbn. rewrite ltb_irrefl. now rewrite keqb_refl. Qed.

Lemma upsert_app_r k v l1 l2 :
  (forall k', In k' (map fst l2) -> klt k k') -> upsert k v (l1 ++ l2) = upsert k v l1 ++ l2.
Proof.
  intros H. induction l1 as [|[k' v'] l1 IH]; cbn.
  - now apply upsert_lt.
  - destruct (ltb k k'); auto. destruct (keqb k k'); auto. now rewrite IH.
Qed.

Lemma in_upsert x k v l : In x (map fst (upsert k v l)) -> x = k \/ In x (map fst l).
Proof.
  induction l as [|[k' v'] l IH]; cbn.
  - intuition.
  - destruct (ltb k k'); [cbn; intuition|].
    destruct (keqb k k') eqn:E; cbn; [apply keqb_eq in E; subst; intuition|]. intuition.
Qed.

Lemma upsert_sorted k v l : ksorted l -> ksorted (upsert k v l).
Proof.
  unfold ksorted. induction l as [|[k' v'] l IH]; cbn; intros H.
  - constructor; constructor.
  - inv H. destruct (ltb k k') eqn:E1.
    + cbn. constructor.
      * constructor; auto.
      * constructor; auto. rewrite Forall_forall in *. intros x Hx.
        eapply klt_trans; eauto.
    + destruct (keqb k k') eqn:E2.
      * apply keqb_eq in E2. subst. cbn. constructor; auto.
      * cbn. constructor; auto. apply Forall_forall. intros x Hx.
        apply in_upsert in Hx as [->|Hx].
        -- apply kle_not_lt in E1. destruct (klt_cases k k') as [H|[H|H]]; auto; [tauto|].
           subst. now rewrite keqb_refl in E2.
        -- rewrite Forall_forall in H3. auto.
Qed.

Lemma assoc_upsert k v l k' :
  assoc k' (upsert k v l) = if keqb k' k then Some v else assoc k' l.
Proof.
  induction l as [|[x w] l IH]; cbn; auto.
  destruct (ltb k x) eqn:E1; cbn; auto.
  destruct (keqb k x) eqn:E2; cbn.
  - apply keqb_eq in E2. subst. destruct (keqb k' x); auto.
  - rewrite IH. destruct (keqb k' x) eqn:E3; auto.
    apply keqb_eq in E3. subst. destruct (keqb x k) eqn:E4; auto.
    apply keqb_eq in E4. subst. now rewrite keqb_refl in E2.
Qed.

Lemma assoc_remove k l k' :
  assoc k' (remove_key k l) = if keqb k' k then None else assoc k' l.
Proof.
  induction l as [|[x w] l IH]; cbn.
  - now destruct (keqb k' k).
  - destruct (keqb k x) eqn:E.
    + apply keqb_eq in E. subst. rewrite IH. now destruct (keqb k' x).
    + cbn. rewrite IH. destruct (keqb k' x) eqn:E2; auto.
      apply keqb_eq in E2. subst. destruct (keqb x k) eqn:E4; auto.
      apply keqb_eq in E4. subst. now rewrite keqb_refl in E.
Qed.

Lemma remove_key_app k l1 l2 : remove_key k (l1 ++ l2) = remove_key k l1 ++ remove_key k l2.
Proof.
  induction l1 as [|[x w] l1 IH]; cbn; auto. destruct (keqb k x); auto. cbn. now rewrite IH.
Qed.

Lemma remove_key_none k l : ~ In k (map fst l) -> remove_key k l = l.
Proof.
  induction l as [|[x w] l IH]; cbn; auto. intros H.
  destruct (keqb k x) eqn:E.
  - apply keqb_eq in E. subst. tauto.
  - rewrite IH; tauto.
Qed.

Lemma in_remove x k l : In x (map fst (remove_key k l)) -> In x (map fst l).
Proof.
  induction l as [|[x' w] l IH]; cbn; auto. destruct (keqb k x'); cbn; tauto.
Qed.

Lemma remove_sorted k l : ksorted l -> ksorted (remove_key k l).
Proof.
  unfold ksorted. induction l as [|[x w] l IH]; cbn; intros H; auto.
  inv H. destruct (keqb k x); auto. cbn. constructor; auto.
  rewrite Forall_forall in *. intros y Hy. apply in_remove in Hy. auto.
Qed.

(** ** Slots and association lists *)

Lemma live_keys_incl l x : In x (map fst (live l)) -> In x (keys_of l).
Proof.
  intros H. apply in_map_iff in H as ((k & v) & <- & H). eapply live_key_in; eauto.
Qed.

Lemma live_sorted l : StronglySorted klt (keys_of l) -> ksorted (live l).
Proof.
  unfold ksorted. induction l as [|s l IH]; cbn; intros H; [constructor|].
  apply SS_app in H as (H1 & H2 & H3). rewrite map_app. apply SS_app.
  split; [|split; auto].
  - unfold rec1. destruct (s_key s); [|constructor]. destruct (s_pay s); [|constructor].
    destruct (s_del s); [constructor|]. cbn. constructor; constructor.
  - intros x y Hx Hy. apply H3.
    + unfold rec1 in Hx. unfold key1. destruct (s_key s); [|destruct Hx].
      destruct (s_pay s); [|destruct Hx]. destruct (s_del s); [destruct Hx|]. cbn in *. auto.
    + now apply live_keys_incl.
Qed.

Lemma leaf_ok_app l1 l2 : leaf_ok (l1 ++ l2) <->
  leaf_ok l1 /\ leaf_ok l2 /\
  (forall x y, In x (keys_of l1) -> In y (keys_of l2) -> klt x y).
Proof.
  unfold leaf_ok. rewrite Forall_app, keys_of_app, SS_app. tauto.
Qed.

Lemma leaf_ok_cons s l k v : s_key s = Some k -> s_pay s = PV v ->
  (leaf_ok (s :: l) <-> leaf_ok l /\ (forall y, In y (keys_of l) -> klt k y)).
Proof.
  intros H1 H2. change (s :: l) with ([s] ++ l). rewrite leaf_ok_app.
  assert (keys_of [s] = [k]) by (cbn; unfold key1; now rewrite H1).
  assert (leaf_ok [s]).
  { split; [constructor; auto; exists k, v; auto | rewrite H; constructor; constructor]. }
  rewrite H. cbn. split.
  - intros (_ & A & B). split; auto.
  - intros (A & B). repeat split; try apply H0; try apply A. intros x y [<-|[]]; auto.
Qed.

Lemma live_cons s l : live (s :: l) = rec1 s ++ live l.
Proof. reflexivity. Qed.
Lemma keys_of_cons s l : keys_of (s :: l) = key1 s ++ keys_of l.
Proof. reflexivity. Qed.

Lemma live_insert l1 l2 k v :
  (forall x, In x (keys_of l1) -> klt x k) -> (forall x, In x (keys_of l2) -> klt k x) ->
  live (l1 ++ Slot (Some k) (PV v) false :: l2) = upsert k v (live (l1 ++ l2)).
Proof.
  intros H1 H2. rewrite !live_app, live_cons. cbn.
  rewrite upsert_app by (intros x Hx; apply H1; now apply live_keys_incl).
  f_equal. symmetry. apply upsert_lt. intros x Hx. apply H2. now apply live_keys_incl.
Qed.

Lemma leaf_ok_mid_keys l1 s l2 k :
  leaf_ok (l1 ++ s :: l2) -> s_key s = Some k ->
  (forall x, In x (keys_of l1) -> klt x k) /\ (forall x, In x (keys_of l2) -> klt k x).
Proof.
  intros (_ & H) Hk. rewrite keys_of_app in H. cbn in H.
  apply SS_app in H as (H1 & H2 & H3).
  assert (Hs : key1 s = [k]) by (unfold key1; now rewrite Hk). rewrite Hs in *. cbn in *.
  split.
  - intros x Hx. apply H3; auto.
  - inv H2. rewrite Forall_forall in H5. auto.
Qed.

Lemma live_replace l1 s l2 k v :
  leaf_ok (l1 ++ s :: l2) -> s_key s = Some k ->
  live (l1 ++ Slot (Some k) (PV v) false :: l2) = upsert k v (live (l1 ++ s :: l2)).
Proof.
  intros Hok Hk. destruct (leaf_ok_mid_keys _ _ _ _ Hok Hk) as (H1 & H2).
  rewrite !live_app, !live_cons. cbn [rec1 s_key s_pay s_del].
  rewrite upsert_app by (intros x Hx; apply H1; now apply live_keys_incl).
  f_equal.
  assert (E : rec1 s = [] \/ exists w, rec1 s = [(k, w)]).
  { unfold rec1. rewrite Hk. destruct (s_pay s); auto. destruct (s_del s); eauto. }
  destruct E as [E|[w E]]; rewrite E.
  - cbn. symmetry. apply upsert_lt. intros x Hx. apply H2. now apply live_keys_incl.
  - cbn [app]. now rewrite upsert_eq.
Qed.

Lemma live_remove l1 s l2 k :
  leaf_ok (l1 ++ s :: l2) -> s_key s = Some k ->
  live (l1 ++ l2) = remove_key k (live (l1 ++ s :: l2)).
Proof.
  intros Hok Hk. destruct (leaf_ok_mid_keys _ _ _ _ Hok Hk) as (H1 & H2).
  rewrite !live_app, !live_cons, !remove_key_app.
  rewrite (remove_key_none k (live l1)).
  2:{ intros Hx. apply (klt_irrefl k). apply H1. now apply live_keys_incl. }
  rewrite (remove_key_none k (live l2)).
  2:{ intros Hx. apply (klt_irrefl k). apply H2. now apply live_keys_incl. }
  f_equal.
  assert (E : remove_key k (rec1 s) = []).
  { unfold rec1. rewrite Hk. destruct (s_pay s); auto. destruct (s_del s); auto.
    cbn. now rewrite keqb_refl. }
  now rewrite E.
Qed.

Lemma assoc_live_found l1 s l2 k v :
  leaf_ok (l1 ++ s :: l2) -> s_key s = Some k -> s_pay s = PV v -> s_del s = false ->
  assoc k (live (l1 ++ s :: l2)) = Some v.
Proof.
  intros Hok Hk Hp Hd. destruct (leaf_ok_mid_keys _ _ _ _ Hok Hk) as (H1 & H2).
  rewrite live_app, live_cons. unfold rec1. rewrite Hk, Hp, Hd. cbn.
  apply assoc_mid. intros Hx. apply (klt_irrefl k). apply H1. now apply live_keys_incl.
Qed.

Lemma assoc_live_deleted l1 s l2 k :
  leaf_ok (l1 ++ s :: l2) -> s_key s = Some k -> s_del s = true ->
  assoc k (live (l1 ++ s :: l2)) = None.
Proof.
  intros Hok Hk Hd. destruct (leaf_ok_mid_keys _ _ _ _ Hok Hk) as (H1 & H2).
  apply assoc_none. intros Hx. rewrite live_app, live_cons in Hx.
  replace (rec1 s) with (@nil (K*V)) in Hx.
  2:{ unfold rec1. rewrite Hk, Hd. now destruct (s_pay s). }
  cbn in Hx. rewrite map_app in Hx. apply in_app_or in Hx as [Hx|Hx].
  - apply (klt_irrefl k). apply H1. now apply live_keys_incl.
  - apply (klt_irrefl k). apply H2. now apply live_keys_incl.
Qed.

Lemma assoc_live_notin l k : ~ In k (keys_of l) -> assoc k (live l) = None.
Proof. intros H. apply assoc_none. intros Hx. apply H. now apply live_keys_incl. Qed.

Lemma not_inserted_notin l1 l2 key :
  (forall k, In k (keys_of l1) -> klt k key) ->
  (forall k, In k (keys_of l2) -> klt key k) -> ~ In key (keys_of (l1 ++ l2)).
Proof.
  intros H1 H2 H. rewrite keys_of_app in H. apply in_app_or in H as [H|H].
  - apply (klt_irrefl key); auto.
  - apply (klt_irrefl key); auto.
Qed.

Lemma leaf_ok_insert l1 l2 k v d :
  leaf_ok (l1 ++ l2) ->
  (forall x, In x (keys_of l1) -> klt x k) -> (forall x, In x (keys_of l2) -> klt k x) ->
  leaf_ok (l1 ++ Slot (Some k) (PV v) d :: l2).
Proof.
  intros H H1 H2. apply leaf_ok_app in H as (A & B & C). apply leaf_ok_app.
  split; auto. split.
  - rewrite leaf_ok_cons by reflexivity. auto.
  - cbn. intros x y Hx [<-|Hy]; auto.
Qed.

Lemma leaf_ok_replace l1 s l2 k v d :
  leaf_ok (l1 ++ s :: l2) -> s_key s = Some k ->
  leaf_ok (l1 ++ Slot (Some k) (PV v) d :: l2).
Proof.
  intros Hok Hk. destruct (leaf_ok_mid_keys _ _ _ _ Hok Hk) as (H1 & H2).
  apply leaf_ok_insert; auto.
  apply leaf_ok_app in Hok as (A & B & C). apply leaf_ok_app. split; auto.
  destruct B as (B1 & B2). inv B1. cbn in B2. apply SS_app in B2 as (B2 & B3 & _).
  split; [split; auto|]. intros x y Hx Hy. apply C; auto. cbn. apply in_or_app. auto.
Qed.

Lemma leaf_ok_remove l1 s l2 :
  leaf_ok (l1 ++ s :: l2) -> leaf_ok (l1 ++ l2).
Proof.
  intros Hok.
  apply leaf_ok_app in Hok as (A & B & C). apply leaf_ok_app. split; auto.
  destruct B as (B1 & B2). inv B1. cbn in B2. apply SS_app in B2 as (B2 & B3 & _).
  split; [split; auto|]. intros x y Hx Hy. apply C; auto. cbn. apply in_or_app. auto.
Qed.

End NodeAbs.
