(** Shared latches of one thread do not disturb each other; several pessimistic iterators
    and reads can be interleaved freely. *)
From Coq Require Import List Arith Bool Lia Permutation.
From Verif Require Import Params Mem Common Spec BaseIface TreeState TreeHeap IterModel ShareModel.
Import ListNotations.

Section Frame.
Context {ND : Type}.

Definition sonly (l : list (addr * lmode)) : Prop := Forall (fun p => snd p = LS) l.

(** [c] only takes and gives back shared latches, so it does the same when the thread holds
    further shared latches [q]. *)
Definition sframed {A} (c : M ND A) : Prop :=
  forall h r f l g x s', sonly l -> c (St h r f l g) = Ok x s' ->
  exists l', s' = St h r f l' g /\ sonly l' /\
    forall q m, sonly q -> Permutation m (l ++ q) ->
    exists m', c (St h r f m g) = Ok x (St h r f m' g) /\ Permutation m' (l' ++ q).

Lemma sonly_perm l l' : Permutation l l' -> sonly l -> sonly l'.
Proof. intros H. unfold sonly. now rewrite H. Qed.
Lemma sonly_app l l' : sonly l -> sonly l' -> sonly (l ++ l').
Proof. intros. apply Forall_app; auto. Qed.

Lemma sonly_may l a : sonly l -> may_lock l a LS = true.
Proof.
  intros H. cbn. apply negb_true_iff. unfold holds. apply not_true_is_false. intros E.
  apply existsb_exists in E as ([b m] & Hin & E). cbn in E. apply andb_true_iff in E as [_ E].
  unfold sonly in H. rewrite Forall_forall in H. apply H in Hin. cbn in Hin. subst m. discriminate.
Qed.
Lemma holds_in l a m : holds l a m = true <-> In (a, m) l.
Proof.
  unfold holds. rewrite existsb_exists. split.
  - intros ([b k] & Hin & E). cbn in E. apply andb_true_iff in E as [E1 E2]. apply Nat.eqb_eq in E1. subst b.
    destruct k, m; try discriminate; exact Hin.
  - intros H. exists (a, m). split; auto. cbn. rewrite Nat.eqb_refl. now destruct m.
Qed.
Lemma unhold_perm l a m : In (a, m) l -> Permutation l ((a, m) :: unhold l a m).
Proof.
  induction l as [|[b k] l IH]; [contradiction|]. intros H. cbn [unhold fst snd].
  destruct (Nat.eqb b a && lmode_eqb k m) eqn:E.
  - apply andb_true_iff in E as [E1 E2]. apply Nat.eqb_eq in E1. subst b.
    destruct k, m; try discriminate; reflexivity.
  - destruct H as [H|H].
    + inversion H; subst. rewrite Nat.eqb_refl in E. now destruct m.
    + rewrite (IH H) at 1. apply perm_swap.
Qed.

Lemma sf_ret {A} (x : A) : sframed (mret x).
Proof.
  intros h r f l g y s' Hl E. inversion E; subst. exists l. split; auto. split; auto.
  intros q m Hq Hm. exists m. split; auto.
Qed.
Lemma sf_undef {A} : sframed (@mundef ND A).
Proof. intros h r f l g y s' Hl E. discriminate E. Qed.
Lemma sf_nofuel {A} : sframed (@mnofuel ND A).
Proof. intros h r f l g y s' Hl E. discriminate E. Qed.
Lemma sf_lift {A} (o : option A) : sframed (mlift o).
Proof. destruct o; [apply sf_ret|apply sf_undef]. Qed.
Lemma sf_getn a : sframed (@getn ND a).
Proof.
  intros h r f l g y s' Hl E. unfold getn in *. cbn in *. destruct (h a) eqn:Ea; inversion E; subst.
  exists l. split; auto. split; auto. intros q m Hq Hm. exists m. auto.
Qed.
Lemma sf_getroot : sframed (@getroot ND).
Proof.
  intros h r f l g y s' Hl E. inversion E; subst. exists l. split; auto. split; auto.
  intros q m Hq Hm. exists m. auto.
Qed.
Lemma sf_bind {A B} (c : M ND A) (k : A -> M ND B) :
  sframed c -> (forall x, sframed (k x)) -> sframed (mbind c k).
Proof.
  intros Hc Hk h r f l g y s' Hl E. unfold mbind in E.
  destruct (c (St h r f l g)) as [x s1| | |] eqn:E1; try discriminate E.
  destruct (Hc _ _ _ _ _ _ _ Hl E1) as (l1 & -> & Hl1 & F1).
  destruct (Hk _ _ _ _ _ _ _ _ Hl1 E) as (l2 & -> & Hl2 & F2).
  exists l2. split; auto. split; auto. intros q m Hq Hm.
  destruct (F1 q m Hq Hm) as (m1 & A1 & B1). destruct (F2 q m1 Hq B1) as (m2 & A2 & B2).
  exists m2. unfold mbind. rewrite A1. auto.
Qed.
Lemma sf_lock a : sframed (@lock ND LS a).
Proof.
  intros h r f l g y s' Hl E. unfold lock in *. cbn [hp lk rt fr gb] in *. destruct (h a) eqn:Ea; [|discriminate E].
  rewrite sonly_may in E by auto. inversion E; subst. exists ((a, LS) :: l). split; auto.
  split; [constructor; auto|]. intros q m Hq Hm. exists ((a, LS) :: m). rewrite sonly_may.
  - split; auto. cbn. now constructor.
  - eapply sonly_perm; [symmetry; exact Hm|]. now apply sonly_app.
Qed.
Lemma sf_unlock a : sframed (@unlock ND LS a).
Proof.
  intros h r f l g y s' Hl E. unfold unlock in *. cbn [hp lk rt fr gb] in *. destruct (h a) eqn:Ea; [|discriminate E].
  destruct (holds l a LS) eqn:Eh; [|discriminate E]. inversion E; subst.
  apply holds_in in Eh. pose proof (unhold_perm _ _ _ Eh) as Hp.
  exists (unhold l a LS). split; auto. split.
  - apply (sonly_perm _ _ Hp) in Hl. now inversion Hl.
  - intros q m Hq Hm. assert (Him : In (a, LS) m) by (rewrite Hm; apply in_or_app; auto).
    exists (unhold m a LS). destruct (holds m a LS) eqn:E2; [|apply holds_in in Him; congruence].
    split; auto. apply (Permutation_cons_inv (a := (a, LS))). rewrite <- (unhold_perm _ _ _ Him), Hm.
    rewrite Hp at 1. reflexivity.
Qed.
End Frame.

#[export] Hint Resolve sf_ret sf_undef sf_nofuel sf_lift sf_getn sf_getroot sf_lock sf_unlock : sframe.
Ltac sf := repeat (first [solve [auto with sframe] | apply sf_bind; [|intros ?] |
  match goal with
  | |- sframed (if ?b then _ else _) => destruct b
  | |- sframed (let (_, _) := ?p in _) => destruct p
  | |- sframed (match ?o with _ => _ end) => destruct o
  end]).

Section IterFrame.
Context {P : Params} {B : BaseOps P}.

Lemma sf_make a lo hi : sframed (pit_make a lo hi).
Proof. unfold pit_make. sf. Qed.
Lemma sf_has fu : forall it, sframed (pit_has fu it).
Proof. induction fu as [|fu IH]; intros it; cbn [pit_has]; sf. Qed.
Lemma sf_get it : sframed (pit_get it).
Proof. unfold pit_get. sf. Qed.
Lemma sf_close it : sframed (pit_close it).
Proof. unfold pit_close. sf. Qed.
Lemma sf_left fu : forall a, sframed (leftmost true fu a).
Proof. induction fu as [|fu IH]; intros a; cbn [leftmost]; sf. Qed.

Lemma pit_has_false fu : forall it s it' s', pit_has fu it s = Ok (false, it') s' -> p_node it' = None.
Proof.
  induction fu as [|fu IH]; intros it s it' s' E; [discriminate E|]. cbn [pit_has] in E.
  destruct (p_node it) as [a|] eqn:Ea; [|inversion E; subst; exact Ea].
  unfold mbind in E. destruct (getn a s) as [n s1| | |]; try discriminate E.
  destruct (skip_deleted (p_end it - p_pos it) n (p_pos it)) as [pos|]; [|discriminate E]. cbn [mlift mret] in E.
  destruct (pos <? p_end it); [discriminate E|]. destruct (p_isend it).
  - destruct (unlock LS a s1); inversion E; subst; reflexivity.
  - destruct (bn_next n) as [b|]; [|discriminate E].
    destruct (lock LS b s1) as [? s2| | |]; try discriminate E.
    destruct (unlock LS a s2) as [? s3| | |]; try discriminate E.
    destruct (getn b s3) as [nb s4| | |]; try discriminate E.
    destruct (bn_endpos nb (p_hi it)) as [[ie e]|]; [|discriminate E]. cbn [mlift mret] in E.
    eapply IH; exact E.
Qed.
End IterFrame.

Section Share.
Context {P : Params} {B : BaseOps P}.
Context (scan_leaf : nat -> bound -> M bn addr) (read : nat -> K -> M bn ret) (fuel : nat).
Context (okb : bound -> Prop) (okk : K -> Prop) (m : amap) (sc : bound -> bound -> list (K * V)).
Context (h : addr -> option bn) (r f : addr) (g : list addr).
Notation sto l := (St h r f l g).

Hypothesis Hfuel : fuel <> 0.
Hypothesis Fleaf : forall lo, sframed (scan_leaf fuel lo).
Hypothesis Fread : forall k, sframed (read fuel k).
Hypothesis Hscan : forall lo hi limit, okb lo -> okb hi ->
  (a <- scan_leaf fuel lo ;; scan_from false fuel a lo hi limit) (sto []) = Ok (firstn limit (sc lo hi)) (sto []).
Hypothesis Hread : forall k, okk k -> read fuel k (sto []) = Ok (RPayload (m k)) (sto []).

(** An iterator that, alone in the thread with its latches [l], would deliver [R]. *)
Definition solo (it : piter) (l : list (addr * lmode)) (R : list (K * V)) : Prop :=
  sonly l /\ forall limit, exists it' l', pit_take fuel limit it (sto l) = Ok (firstn limit R, it') (sto l') /\
    pit_close it' (sto l') = Ok tt (sto []).

Lemma solo_close it l R : solo it l R -> pit_close it (sto l) = Ok tt (sto []).
Proof. intros [_ H]. destruct (H 0) as (it' & l' & A & C). inversion A; subst. exact C. Qed.

Lemma solo_step it l R : solo it l R ->
  exists b it1 l1, pit_has fuel it (sto l) = Ok (b, it1) (sto l1) /\ sonly l1 /\
    match R with
    | [] => b = false /\ l1 = [] /\ solo it1 [] []
    | kv :: R' => b = true /\ pit_get it1 (sto l1) = Ok kv (sto l1) /\ solo (pit_next it1) l1 R'
    end.
Proof.
  intros [Hl H]. destruct (H 1) as (it0 & l0 & A & C). cbn [pit_take] in A. unfold mbind in A.
  destruct (pit_has fuel it (sto l)) as [[b it1] s1| | |] eqn:E; try discriminate A.
  destruct (sf_has fuel it _ _ _ _ _ _ _ Hl E) as (l1 & -> & Hl1 & _).
  exists b, it1, l1. split; auto. split; auto. destruct b.
  - destruct (pit_get it1 (sto l1)) as [kv s2| | |] eqn:E2; try discriminate A.
    destruct (sf_get it1 _ _ _ _ _ _ _ Hl1 E2) as (l2 & -> & Hl2 & _).
    assert (l2 = l1).
    { unfold pit_get in E2. destruct (p_node it1); [|discriminate E2]. unfold mbind, getn in E2. cbn in E2.
      destruct (h a); [|discriminate E2]. destruct (bn_record b (p_pos it1)); inversion E2; auto. }
    subst l2. cbn [mret] in A. destruct R as [|kv' R]; [discriminate A|].
    assert (kv' = kv) by (cbn [firstn] in A; inversion A; reflexivity). subst kv'. split; [reflexivity|]. split; [reflexivity|]. split; [exact Hl1|].
    intros limit. destruct (H (S limit)) as (it2 & l2 & A2 & C2). cbn [pit_take] in A2. unfold mbind in A2.
    rewrite E, E2 in A2.
    destruct (pit_take fuel limit (pit_next it1) (sto l1)) as [[rs it3] s3| | |] eqn:E3; try discriminate A2.
    cbn [firstn] in A2. unfold mret in A2.
    assert (X : rs = firstn limit R /\ it3 = it2 /\ s3 = sto l2) by (inversion A2; auto).
    destruct X as (-> & -> & ->). eauto.
  - cbn [mret] in A. destruct R as [|kv R]; [|discriminate A]. inversion A; subst.
    split; auto. apply pit_has_false in E as Hn. unfold pit_close in C. rewrite Hn in C. inversion C; subst.
    split; auto. split; [constructor|]. intros limit. destruct limit as [|limit]; cbn [pit_take].
    + exists it0, []. split; [reflexivity|]. unfold pit_close. now rewrite Hn.
    + exists it0, []. destruct fuel as [|fu]; [discriminate E|]. cbn [pit_has]. rewrite Hn.
      split; [reflexivity|]. unfold pit_close. now rewrite Hn.
Qed.

Lemma solo_none : solo (PIter None 0 0 None true) [] [].
Proof.
  split; [constructor|]. intros limit. exists (PIter None 0 0 None true), [].
  destruct limit as [|limit]; cbn [pit_take firstn]; [split; reflexivity|].
  destruct fuel as [|fu]; [exfalso; apply Hfuel; reflexivity|]. split; reflexivity.
Qed.

Lemma solo_open lo hi : okb lo -> okb hi ->
  exists a l0 it l, scan_leaf fuel lo (sto []) = Ok a (sto l0) /\ sonly l0 /\
    pit_make a lo hi (sto l0) = Ok it (sto l) /\ solo it l (sc lo hi).
Proof.
  intros H1 H2. pose proof (Hscan lo hi 0 H1 H2) as A. unfold mbind in A.
  destruct (scan_leaf fuel lo (sto [])) as [a s0| | |] eqn:E0; try discriminate A.
  destruct (Fleaf lo _ _ _ _ _ _ _ (Forall_nil _) E0) as (l0 & -> & Hl0 & _).
  unfold scan_from, mbind in A.
  destruct (pit_make a lo hi (sto l0)) as [it s1| | |] eqn:E1; try discriminate A.
  destruct (sf_make a lo hi _ _ _ _ _ _ _ Hl0 E1) as (l1 & -> & Hl1 & _).
  exists a, l0, it, l1. split; auto. split; auto. split; auto. split; auto.
  intros limit. pose proof (Hscan lo hi limit H1 H2) as C. unfold mbind in C. rewrite E0 in C.
  unfold scan_from, mbind in C. rewrite E1 in C.
  destruct (pit_take fuel limit it (sto l1)) as [[rs it'] s2| | |] eqn:E2; try discriminate C.
  destruct (pit_close it' s2) as [[] s3| | |] eqn:E3; try discriminate C.
  cbn [mret] in C. inversion C; subst.
  assert (Hf : forall n it0, sframed (pit_take fuel n it0)).
  { induction n as [|n IH]; intros it0; cbn [pit_take]; sf; auto using sf_has, sf_get. }
  destruct (Hf limit it _ _ _ _ _ _ _ Hl1 E2) as (l2 & -> & _ & _).
  exists it', l2. split; auto.
Qed.

(** All iterators together: the thread's latches are those of the iterators. *)
Inductive all_solo : list piter -> list (list (addr * lmode)) -> list (list (K * V)) -> Prop :=
| as_nil : all_solo [] [] []
| as_cons it l R env ls Rs : solo it l R -> all_solo env ls Rs -> all_solo (it :: env) (l :: ls) (R :: Rs).

Lemma all_snoc env ls Rs it l R : all_solo env ls Rs -> solo it l R ->
  all_solo (env ++ [it]) (ls ++ [l]) (Rs ++ [R]).
Proof. induction 1; intros H1; cbn; constructor; auto. constructor. Qed.

Lemma all_nth env ls Rs i : all_solo env ls Rs ->
  match nth_error env i with
  | None => nth_error Rs i = None
  | Some it => exists l R q, nth_error Rs i = Some R /\ solo it l R /\ sonly q /\
      Permutation (concat ls) (l ++ q) /\
      forall it' l' R', solo it' l' R' -> exists ls', all_solo (put i it' env) ls' (put i R' Rs) /\
        Permutation (concat ls') (l' ++ q)
  end.
Proof.
  intros H. revert i. induction H as [|it l R env ls Rs Hs Ha IH]; intros i.
  - destruct i; reflexivity.
  - assert (Hq : sonly (concat ls)).
    { clear - Ha. induction Ha; cbn; [constructor|]. apply sonly_app; [apply H|auto]. }
    destruct i as [|i]; cbn [nth_error].
    + exists l, R, (concat ls). repeat (split; auto). intros it' l' R' Hs'.
      exists (l' :: ls). split; [constructor; auto|reflexivity].
    + specialize (IH i). destruct (nth_error env i) as [it2|]; [|exact IH].
      destruct IH as (l2 & R2 & q & A1 & A2 & A3 & A4 & A5).
      exists l2, R2, (l ++ q). split; auto. split; auto. split; [apply sonly_app; [apply Hs|auto]|].
      split.
      * cbn [concat]. rewrite A4. rewrite !app_assoc. apply Permutation_app_tail, Permutation_app_comm.
      * intros it' l' R' Hs'. destruct (A5 it' l' R' Hs') as (ls' & B1 & B2).
        exists (l :: ls'). split; [cbn; constructor; auto|]. cbn [concat]. rewrite B2, !app_assoc.
        apply Permutation_app_tail, Permutation_app_comm.
Qed.

Lemma put_same {A} i (x : A) l : nth_error l i = Some x -> put i x l = l.
Proof. revert i. induction l as [|y l IH]; intros [|i] H; cbn in *; auto; [congruence|]. now rewrite IH. Qed.

Lemma share_end_ok env : forall ls Rs ms, all_solo env ls Rs -> Permutation ms (concat ls) ->
  share_end env (sto ms) = Ok tt (sto []).
Proof.
  induction env as [|it env IH]; intros ls Rs ms H Hp; inversion H as [|? l R ? ls0 Rs0 Hs Ha]; subst; cbn [share_end].
  - cbn in Hp. apply Permutation_sym, Permutation_nil in Hp. subst. reflexivity.
  - cbn [concat] in Hp.
    assert (Hq : sonly (concat ls0)).
    { clear - Ha. induction Ha; cbn; [constructor|]. apply sonly_app; [apply H|auto]. }
    destruct (sf_close it _ _ _ _ _ _ _ (proj1 Hs) (solo_close _ _ _ Hs)) as (l' & E & _ & Fr).
    inversion E; subst l'. destruct (Fr _ _ Hq Hp) as (m' & A1 & A2). unfold mbind. rewrite A1. eauto.
Qed.

Definition op_ok (o : cop) : Prop :=
  match o with COpen lo hi => okb lo /\ okb hi | CGet k => okk k | _ => True end.

Lemma share_run_ok ops : forall env ls Rs ms, Forall op_ok ops -> all_solo env ls Rs -> Permutation ms (concat ls) ->
  share_run scan_leaf read fuel env ops (sto ms) = Ok (share_spec sc m Rs ops) (sto []).
Proof.
  induction ops as [|o ops IH]; intros env ls Rs ms Hok Ha Hp.
  - cbn [share_run share_spec]. unfold mbind. erewrite share_end_ok; eauto.
  - assert (Ho : op_ok o) by (inversion Hok; auto). assert (Hok' : Forall op_ok ops) by (inversion Hok; auto).
    assert (Hq : sonly (concat ls)).
    { clear - Ha. induction Ha; cbn; [constructor|]. apply sonly_app; [apply H|auto]. }
    destruct o as [lo hi|i|i|k]; cbn [share_run share_spec].
    + destruct Ho as [Ho1 Ho2].
      destruct (solo_open lo hi Ho1 Ho2) as (a & l0 & it & l & E0 & S0 & E1 & S1).
      destruct (Fleaf lo _ _ _ _ _ _ _ (Forall_nil _) E0) as (l0' & E & _ & Fr0). inversion E; subst l0'.
      destruct (Fr0 _ ms Hq Hp) as (m0 & A0 & P0). unfold mbind. rewrite A0.
      destruct (sf_make a lo hi _ _ _ _ _ _ _ S0 E1) as (l1' & E' & _ & Fr1). inversion E'; subst l1'.
      destruct (Fr1 _ m0 Hq P0) as (m1 & A1 & P1). rewrite A1.
      rewrite (IH (env ++ [it]) (ls ++ [l]) (Rs ++ [sc lo hi]) m1); auto.
      * now apply all_snoc.
      * rewrite concat_app. cbn [concat]. rewrite app_nil_r, P1. apply Permutation_app_comm.
    + pose proof (all_nth env ls Rs i Ha) as Hn. destruct (nth_error env i) as [it|] eqn:Ei.
      * destruct Hn as (l & R & q & Hr & Hs & Hsq & Hc & Hput). rewrite Hr.
        destruct (solo_step _ _ _ Hs) as (b & it1 & l1 & E1 & S1 & Hcase).
        destruct (sf_has fuel it _ _ _ _ _ _ _ (proj1 Hs) E1) as (l1' & E & _ & Fr). inversion E; subst l1'.
        destruct (Fr q ms Hsq) as (m1 & A1 & P1); [now rewrite Hp|]. unfold mbind. rewrite A1.
        destruct R as [|kv R].
        -- destruct Hcase as (-> & -> & Hs'). destruct (Hput _ _ _ Hs') as (ls' & B1 & B2).
           rewrite (IH (put i it1 env) ls' (put i [] Rs) m1); auto.
           ++ rewrite (put_same i [] Rs Hr). reflexivity.
           ++ now rewrite P1, B2.
        -- destruct Hcase as (-> & Hg & Hs'). destruct (Hput _ _ _ Hs') as (ls' & B1 & B2).
           destruct (sf_get it1 _ _ _ _ _ _ _ S1 Hg) as (l2' & E2 & _ & Fr2). inversion E2; subst l2'.
           destruct (Fr2 q m1 Hsq P1) as (m2 & A2 & P2). rewrite A2.
           rewrite (IH (put i (pit_next it1) env) ls' (put i R Rs) m2); auto. now rewrite P2, B2.
      * rewrite Hn. unfold mbind. rewrite (IH env ls Rs ms); auto.
    + pose proof (all_nth env ls Rs i Ha) as Hn. destruct (nth_error env i) as [it|] eqn:Ei.
      * destruct Hn as (l & R & q & Hr & Hs & Hsq & Hc & Hput). rewrite Hr.
        destruct (sf_close it _ _ _ _ _ _ _ (proj1 Hs) (solo_close _ _ _ Hs)) as (l1' & E & _ & Fr). inversion E; subst l1'.
        destruct (Fr q ms Hsq) as (m1 & A1 & P1); [now rewrite Hp|]. unfold mbind. rewrite A1.
        destruct (Hput (PIter None 0 0 None true) [] []) as (ls' & B1 & B2); [apply solo_none|].
        rewrite (IH (put i (PIter None 0 0 None true) env) ls' (put i [] Rs) m1); auto.
        now rewrite P1, B2.
      * rewrite Hn. unfold mbind. rewrite (IH env ls Rs ms); auto.
    + pose proof (Hread k Ho) as E0.
      destruct (Fread k _ _ _ _ _ _ _ (Forall_nil _) E0) as (l0' & E & _ & Fr0). inversion E; subst l0'.
      destruct (Fr0 _ ms Hq Hp) as (m0 & A0 & P0). unfold mbind. rewrite A0.
      rewrite (IH env ls Rs m0); auto.
Qed.

End Share.

(** ** Tree functions that only read under shared latches *)
From Verif Require Import SLIface MLIface SLModel SLScanModel MLModel MLScanModel.

Section SLFrame.
Context {P : Params} {N : SLOps P}.
Lemma sf_check_read fu : forall a k, sframed (check_read fu a k).
Proof.
  induction fu as [|fu IH]; intros a k; cbn [check_read]; sf. unfold in_node. sf.
Qed.
Lemma sf_child_of a k : sframed (child_of a k).
Proof. unfold child_of. sf. Qed.
Hint Resolve sf_check_read sf_child_of : sframe.
Lemma sf_psl_search fu : forall a k, sframed (psl_search_read fu a k).
Proof. induction fu as [|fu IH]; intros a k; cbn [psl_search_read]; sf. Qed.
Hint Resolve sf_psl_search : sframe.
Lemma sf_psl_leaf fu lo : sframed (ND := nd) (sl_scan_leaf false fu lo).
Proof.
  unfold sl_scan_leaf. sf. apply (@sf_left P (base_of_sl N)).
Qed.
Lemma sf_psl_read fu k : sframed (sl_read false fu k).
Proof. unfold sl_read. sf. Qed.
End SLFrame.

Section MLFrame.
Context {P : Params} {N : MLOps P}.
Lemma sf_tlock : sframed (ND := mn) (tlock LS).
Proof.
  intros h r f l g y s' Hl E. unfold tlock in *. cbn [hp lk rt fr gb] in *.
  rewrite sonly_may in E by auto. inversion E; subst. exists ((tree_latch, LS) :: l). split; auto.
  split; [constructor; auto|]. intros q m Hq Hm. exists ((tree_latch, LS) :: m). rewrite sonly_may.
  - split; auto. cbn. now constructor.
  - eapply sonly_perm; [symmetry; exact Hm|]. now apply sonly_app.
Qed.
Lemma sf_tunlock : sframed (ND := mn) (tunlock LS).
Proof.
  intros h r f l g y s' Hl E. unfold tunlock in *. cbn [hp lk rt fr gb] in *.
  destruct (holds l tree_latch LS) eqn:Eh; [|discriminate E]. inversion E; subst.
  apply holds_in in Eh. pose proof (unhold_perm _ _ _ Eh) as Hp.
  exists (unhold l tree_latch LS). split; auto. split.
  - apply (sonly_perm _ _ Hp) in Hl. now inversion Hl.
  - intros q m Hq Hm. assert (Him : In (tree_latch, LS) m) by (rewrite Hm; apply in_or_app; auto).
    exists (unhold m tree_latch LS). destruct (holds m tree_latch LS) eqn:E2; [|apply holds_in in Him; congruence].
    split; auto. apply (Permutation_cons_inv (a := (tree_latch, LS))). rewrite <- (unhold_perm _ _ _ Him), Hm.
    rewrite Hp at 1. reflexivity.
Qed.
Hint Resolve sf_tlock sf_tunlock : sframe.
Lemma sf_root_read : sframed (ND := mn) pml_root_read.
Proof. unfold pml_root_read. sf. Qed.
Lemma sf_route a k : sframed (route a k).
Proof. unfold route. sf. Qed.
Hint Resolve sf_root_read sf_route : sframe.
Lemma sf_down_read fu : forall a k, sframed (pml_down_read fu a k).
Proof. induction fu as [|fu IH]; intros a k; cbn [pml_down_read]; sf. Qed.
Lemma sf_down_left fu : forall a, sframed (pml_down_left fu a).
Proof. induction fu as [|fu IH]; intros a; cbn [pml_down_left]; sf. Qed.
Hint Resolve sf_down_read sf_down_left : sframe.
Lemma sf_pml_leaf fu lo : sframed (ND := mn) (ml_scan_leaf false fu lo).
Proof. unfold ml_scan_leaf. sf. Qed.
Lemma sf_pml_read fu k : sframed (pml_read fu k).
Proof. unfold pml_read. sf. Qed.
End MLFrame.

(** ** Optimistic iterators, one at a time *)
Section ReadOnly.
Context {ND : Type}.
Definition ronly {A} (c : M ND A) : Prop := forall s x s', c s = Ok x s' -> s' = s.
Lemma ro_ret {A} (x : A) : ronly (mret x).
Proof. intros s y s' E. now inversion E. Qed.
Lemma ro_undef {A} : ronly (@mundef ND A).
Proof. intros s y s' E. discriminate E. Qed.
Lemma ro_nofuel {A} : ronly (@mnofuel ND A).
Proof. intros s y s' E. discriminate E. Qed.
Lemma ro_lift {A} (o : option A) : ronly (mlift o).
Proof. destruct o; [apply ro_ret|apply ro_undef]. Qed.
Lemma ro_getn a : ronly (@getn ND a).
Proof. intros s y s' E. unfold getn in E. destruct (hp s a); now inversion E. Qed.
Lemma ro_getroot : ronly (@getroot ND).
Proof. intros s y s' E. now inversion E. Qed.
Lemma ro_bind {A B} (c : M ND A) (k : A -> M ND B) :
  ronly c -> (forall x, ronly (k x)) -> ronly (mbind c k).
Proof.
  intros Hc Hk s y s' E. unfold mbind in E. destruct (c s) as [x s1| | |] eqn:E1; try discriminate E.
  apply Hc in E1. subst s1. eapply Hk; eauto.
Qed.
End ReadOnly.
#[export] Hint Resolve ro_ret ro_undef ro_nofuel ro_lift ro_getn ro_getroot : ronly.
Ltac ro := repeat (first [solve [auto with ronly] | apply ro_bind; [|intros ?] |
  match goal with
  | |- ronly (if ?b then _ else _) => destruct b
  | |- ronly (let (_, _) := ?p in _) => destruct p
  | |- ronly (match ?o with _ => _ end) => destruct o
  end]).

Section OptFrame.
Context {P : Params} {B : BaseOps P}.
Lemma ro_left fu : forall a, ronly (leftmost false fu a).
Proof. induction fu as [|fu IH]; intros a; cbn [leftmost]; ro. Qed.
Lemma ro_range fu : forall a k, ronly (it_check_range fu a k).
Proof. induction fu as [|fu IH]; intros a k; cbn [it_check_range]; ro. Qed.
Hint Resolve ro_range : ronly.
Lemma ro_reset fu tls it : ronly (oit_reset fu tls it).
Proof. unfold oit_reset. ro. Qed.
Hint Resolve ro_reset : ronly.
Lemma ro_make fu tls a lo hi : ronly (oit_make fu tls a lo hi).
Proof. unfold oit_make. ro. Qed.
Lemma ro_has fu : forall tls it, ronly (oit_has fu tls it).
Proof. induction fu as [|fu IH]; intros tls it; cbn [oit_has]; ro. Qed.
Lemma ro_get tls it : ronly (oit_get tls it).
Proof. unfold oit_get. ro. Qed.
Hint Resolve ro_make ro_has ro_get : ronly.
Lemma ro_take fu n : forall tls it, ronly (oit_take fu n tls it).
Proof. induction n as [|n IH]; intros tls it; cbn [oit_take]; ro. Qed.
End OptFrame.

Section OptShare.
Context {P : Params} {B : BaseOps P}.
Context (scan_leaf : nat -> bound -> M bn addr) (read : nat -> K -> M bn ret) (fuel : nat).
Context (okb : bound -> Prop) (okk : K -> Prop) (m : amap) (sc : bound -> bound -> list (K * V)).
Context (s : st bn).

Hypothesis Hfuel : fuel <> 0.
Hypothesis Rleaf : forall lo, ronly (scan_leaf fuel lo).
Hypothesis Hscan : forall lo hi limit, okb lo -> okb hi ->
  (a <- scan_leaf fuel lo ;; scan_from true fuel a lo hi limit) s = Ok (firstn limit (sc lo hi)) s.
Hypothesis Hread : forall k, okk k -> read fuel k s = Ok (RPayload (m k)) s.

Definition osolo (tls : option K) (it : oiter) (R : list (K * V)) : Prop :=
  forall limit, exists ti, oit_take fuel limit tls it s = Ok (firstn limit R, ti) s.

Lemma oit_has_false fu : forall tls it s0 tls' it' s', oit_has fu tls it s0 = Ok (false, (tls', it')) s' -> o_node it' = None.
Proof.
  induction fu as [|fu IH]; intros tls it s0 tls' it' s' E; [discriminate E|]. cbn [oit_has] in E.
  destruct (o_node it) as [a|] eqn:Ea; [|inversion E; subst; exact Ea].
  unfold mbind in E. destruct (getn a s0) as [n s1| | |]; try discriminate E.
  destruct (o_pos it <? o_end it).
  - destruct (mlift (bn_key n (o_pos it)) s1) as [k s2| | |]; try discriminate E.
    destruct (mlift (bn_recdel n (o_pos it)) s2) as [[|] s3| | |]; try discriminate E.
    + eapply IH; exact E.
    + destruct (mlift (bn_record n (o_pos it)) s3) as [[? ?] s4| | |]; discriminate E.
  - destruct (o_isend it); [inversion E; reflexivity|].
    destruct (bn_next n) as [b|]; [|discriminate E].
    destruct (oit_reset _ _ _ s1) as [it2 s2| | |]; try discriminate E. eapply IH; exact E.
Qed.

Lemma oit_reset_has fu t it s0 it1 s1 : oit_reset fu t it s0 = Ok it1 s1 -> o_has it1 = o_has it.
Proof.
  unfold oit_reset, mbind. destruct (o_node it) as [a|]; [|discriminate].
  destruct (o_has it) eqn:E.
  - destruct t as [k|]; [|discriminate]. cbn [mlift mret]. destruct (it_check_range fu a k s0) as [[b|] s2| | |]; try discriminate.
    destruct (getn b s2) as [n s3| | |]; try discriminate. destruct (start_pos n k (o_closed it)); [|discriminate]. cbn [mlift mret].
    destruct (bn_endpos n (o_hi it)) as [[ie e]|]; [|discriminate]. cbn [mlift mret]. intros X. now inversion X.
  - destruct (getn a s0) as [n s3| | |]; try discriminate.
    destruct (bn_endpos n (o_hi it)) as [[ie e]|]; [|discriminate]. cbn [mlift mret]. intros X. now inversion X.
Qed.

Lemma oit_has_keeps fu : forall t it s0 b t1 it1 s1, o_has it = true ->
  oit_has fu t it s0 = Ok (b, (t1, it1)) s1 -> o_has it1 = true.
Proof.
  induction fu as [|fu IH]; intros t it s0 b t1 it1 s1 Hh E; [discriminate E|]. cbn [oit_has] in E.
  destruct (o_node it) as [a|]; [|inversion E; subst; auto].
  unfold mbind in E. destruct (getn a s0) as [n s2| | |]; try discriminate E.
  destruct (o_pos it <? o_end it).
  - destruct (mlift (bn_key n (o_pos it)) s2) as [k s3| | |]; try discriminate E.
    destruct (mlift (bn_recdel n (o_pos it)) s3) as [[|] s4| | |]; try discriminate E.
    + eapply IH; [|exact E]. reflexivity.
    + destruct (mlift (bn_record n (o_pos it)) s4) as [[? ?] s5| | |]; inversion E; reflexivity.
  - destruct (o_isend it); [inversion E; subst; exact Hh|].
    destruct (bn_next n) as [c|]; [|discriminate E].
    destruct (oit_reset _ _ _ s2) as [it2 s3| | |] eqn:E2; try discriminate E.
    apply oit_reset_has in E2. eapply IH; [|exact E]. rewrite E2. exact Hh.
Qed.

(** Before the iterator has delivered or skipped a record it does not depend on the cell. *)
Lemma oit_has_indep fu : forall t t' it s0, o_has it = false ->
  match oit_has fu t it s0 with
  | Ok (b, (t1, it1)) s1 =>
      (o_has it1 = true /\ oit_has fu t' it s0 = Ok (b, (t1, it1)) s1) \/
      (b = false /\ t1 = t /\ oit_has fu t' it s0 = Ok (b, (t', it1)) s1)
  | _ => True
  end.
Proof.
  induction fu as [|fu IH]; intros t t' it s0 Hh; [exact I|]. cbn [oit_has].
  destruct (o_node it) as [a|] eqn:Ea; [|right; auto].
  unfold mbind. destruct (getn a s0) as [n s1| | |]; try exact I.
  destruct (o_pos it <? o_end it).
  - destruct (mlift (bn_key n (o_pos it)) s1) as [k s2| | |]; try exact I.
    destruct (mlift (bn_recdel n (o_pos it)) s2) as [[|] s3| | |]; try exact I.
    + match goal with |- match ?o with _ => _ end => destruct o as [[b [t1 it1]] s4| | |] eqn:E; try exact I end.
      left. split; auto. eapply oit_has_keeps; [|exact E]. reflexivity.
    + destruct (mlift (bn_record n (o_pos it)) s3) as [[? ?] s4| | |]; try exact I. left. auto.
  - destruct (o_isend it); [right; auto|].
    destruct (bn_next n) as [b|]; [|exact I].
    assert (Hr : forall t0, oit_reset (S fu) t0 (OIter (Some b) (o_pos it) (o_end it) (o_hi it) false (o_has it) (o_closed it) (o_pay it)) s1
      = oit_reset (S fu) t (OIter (Some b) (o_pos it) (o_end it) (o_hi it) false (o_has it) (o_closed it) (o_pay it)) s1).
    { intros t0. unfold oit_reset. cbn [o_node o_has]. rewrite Hh. reflexivity. }
    rewrite (Hr t'). destruct (oit_reset (S fu) t _ s1) as [it2 s2| | |] eqn:E; try exact I.
    apply oit_reset_has in E. cbn [o_has] in E. apply IH. congruence.
Qed.

Lemma oit_take_indep fu n t t' it s0 rs ti s1 : o_has it = false ->
  oit_take fu n t it s0 = Ok (rs, ti) s1 -> exists ti', oit_take fu n t' it s0 = Ok (rs, ti') s1.
Proof.
  intros Hh E. destruct n as [|n]; [inversion E; subst; cbn; unfold mret; eauto|]. cbn [oit_take] in *.
  unfold mbind in *. pose proof (oit_has_indep fu t t' it s0 Hh) as H.
  destruct (oit_has fu t it s0) as [[b [t1 it1]] s2| | |]; try discriminate E.
  destruct H as [[_ ->]|(-> & _ & ->)]; [eauto|]. inversion E; subst. unfold mret. eauto.
Qed.

Lemma osolo_end tls it : o_node it = None -> osolo tls it [].
Proof.
  intros Hn limit. exists (tls, it). destruct limit as [|limit]; [reflexivity|].
  cbn [oit_take]. destruct fuel as [|fu]; [now elim Hfuel|]. cbn [oit_has]. rewrite Hn. reflexivity.
Qed.

Lemma osolo_step tls it R : osolo tls it R ->
  exists b tls1 it1, oit_has fuel tls it s = Ok (b, (tls1, it1)) s /\
    match R with
    | [] => b = false /\ osolo tls1 it1 []
    | kv :: R' => b = true /\ oit_get tls1 it1 s = Ok kv s /\ osolo tls1 (oit_next it1) R'
    end.
Proof.
  intros H. destruct (H 1) as (ti & A). cbn [oit_take] in A. unfold mbind in A.
  destruct (oit_has fuel tls it s) as [[b [tls1 it1]] s1| | |] eqn:E; try discriminate A.
  pose proof (ro_has _ _ _ _ _ _ E) as ->. exists b, tls1, it1. split; auto. destruct b.
  - destruct (oit_get tls1 it1 s) as [kv s2| | |] eqn:E2; try discriminate A.
    pose proof (ro_get _ _ _ _ _ E2) as ->. destruct R as [|kv' R]; [discriminate A|].
    assert (kv' = kv) by (cbn [firstn] in A; inversion A; reflexivity). subst kv'.
    split; [reflexivity|]. split; [reflexivity|]. intros limit. destruct (H (S limit)) as (ti2 & A2).
    cbn [oit_take] in A2. unfold mbind in A2. rewrite E, E2 in A2.
    destruct (oit_take fuel limit tls1 (oit_next it1) s) as [[rs ti3] s3| | |] eqn:E3; try discriminate A2.
    pose proof (ro_take _ _ _ _ _ _ _ E3) as ->. cbn [firstn] in A2. unfold mret in A2.
    assert (X : rs = firstn limit R) by (inversion A2; auto). subst rs. eauto.
  - destruct R as [|kv R]; [|discriminate A]. split; auto. apply osolo_end. eapply oit_has_false; eauto.
Qed.

Lemma osolo_open tls lo hi : okb lo -> okb hi ->
  exists a tls1 it, scan_leaf fuel lo s = Ok a s /\ oit_make fuel tls a lo hi s = Ok (tls1, it) s /\
    osolo tls1 it (sc lo hi).
Proof.
  intros H1 H2.
  assert (X : exists a tls1 it, scan_leaf fuel lo s = Ok a s /\ oit_make fuel None a lo hi s = Ok (tls1, it) s /\
    osolo tls1 it (sc lo hi)).
  { pose proof (Hscan lo hi 0 H1 H2) as A. unfold mbind in A.
    destruct (scan_leaf fuel lo s) as [a s0| | |] eqn:E0; try discriminate A.
    pose proof (Rleaf _ _ _ _ E0) as ->. unfold scan_from, mbind in A.
    destruct (oit_make fuel None a lo hi s) as [[tls1 it] s1| | |] eqn:E1; try discriminate A.
    pose proof (ro_make _ _ _ _ _ _ _ _ E1) as ->. exists a, tls1, it. split; auto. split; auto.
    intros limit. pose proof (Hscan lo hi limit H1 H2) as C. unfold mbind in C. rewrite E0 in C.
    unfold scan_from, mbind in C. rewrite E1 in C.
    destruct (oit_take fuel limit tls1 it s) as [[rs ti] s2| | |] eqn:E2; try discriminate C.
    pose proof (ro_take _ _ _ _ _ _ _ E2) as ->. unfold mret in C.
    assert (X : rs = firstn limit (sc lo hi)) by (inversion C; auto). subst rs. eauto. }
  destruct X as (a & tls1 & it & A & C & D). destruct lo as [[k c]|].
  - exists a, tls1, it. repeat split; auto.
  - exists a, tls, it. split; auto. unfold oit_make, mbind in *.
    assert (Hr : forall t, oit_reset fuel t (OIter (Some a) 0 0 hi false false true None) s =
                           oit_reset fuel None (OIter (Some a) 0 0 hi false false true None) s) by reflexivity.
    rewrite Hr. destruct (oit_reset fuel None _ s) as [it2 s2| | |] eqn:E; try discriminate C.
    unfold mret in C. assert (X : tls1 = None /\ it2 = it /\ s2 = s) by (inversion C; auto).
    destruct X as (-> & -> & ->). split; [reflexivity|].
    intros limit. destruct (D limit) as (ti & Dt). eapply oit_take_indep; [|exact Dt].
    apply oit_reset_has in E. exact E.
Qed.

(** Iterators are only advanced while they are the youngest one. *)
Fixpoint newest (n : nat) (ops : list cop) : Prop :=
  match ops with
  | [] => True
  | COpen _ _ :: ops' => newest (S n) ops'
  | CNext i :: ops' => n <= S i /\ newest n ops'
  | _ :: ops' => newest n ops'
  end.

Definition oop_ok (o : cop) : Prop :=
  match o with COpen lo hi => okb lo /\ okb hi | CGet k => okk k | _ => True end.

Lemma nth_snoc {A} (l : list A) x i : length l <= i ->
  nth_error (l ++ [x]) i = if Nat.eqb i (length l) then Some x else None.
Proof.
  intros H. rewrite nth_error_app2 by lia. destruct (Nat.eqb_spec i (length l)) as [->|Hn].
  - now rewrite Nat.sub_diag.
  - destruct (i - length l) as [|j] eqn:E; [lia|]. cbn. now destruct j.
Qed.
Lemma put_snoc {A} (l : list A) x y : put (length l) y (l ++ [x]) = l ++ [y].
Proof. induction l; cbn; congruence. Qed.
Lemma put_len {A} i (x : A) l : length (put i x l) = length l.
Proof. revert i. induction l; intros [|i]; cbn; auto. Qed.
Lemma put_app {A} i (x : A) l y : i < length l -> put i x (l ++ [y]) = put i x l ++ [y].
Proof. revert i. induction l as [|z l IH]; intros [|i] H; cbn in *; try lia; auto. rewrite IH by lia. reflexivity. Qed.

(** [last]: the youngest iterator, if any, would deliver its list alone. *)
Definition young (tls : option K) (env : list oiter) (Rs : list (list (K * V))) : Prop :=
  length env = length Rs /\
  forall env0 it, env = env0 ++ [it] -> exists Rs0 R, Rs = Rs0 ++ [R] /\ length Rs0 = length env0 /\ osolo tls it R.

Lemma oshare_run_ok ops : forall tls env Rs, Forall oop_ok ops -> newest (length env) ops -> young tls env Rs ->
  oshare_run scan_leaf read fuel tls env ops s = Ok (share_spec sc m Rs ops) s.
Proof.
  induction ops as [|o ops IH]; intros tls env Rs Hok Hn [Hl Hy]; [reflexivity|].
  assert (Ho : oop_ok o) by (inversion Hok; auto). assert (Hok' : Forall oop_ok ops) by (inversion Hok; auto).
  destruct o as [lo hi|i|i|k]; cbn [oshare_run share_spec newest] in *.
  - destruct Ho as [Ho1 Ho2]. destruct (osolo_open tls lo hi Ho1 Ho2) as (a & tls1 & it & A & C & D).
    unfold mbind. rewrite A, C. rewrite (IH tls1 (env ++ [it]) (Rs ++ [sc lo hi])); auto.
    + rewrite app_length. cbn. now rewrite Nat.add_1_r.
    + split; [rewrite !app_length; cbn; lia|]. intros env0 it0 E. apply app_inj_tail in E as [<- <-]. eauto.
  - destruct Hn as [Hi Hn].
    destruct env as [|e env']; [|].
    + cbn in Hl. destruct Rs; [|discriminate Hl]. assert (Hz : nth_error (@nil oiter) i = None) by now destruct i.
      assert (Hz' : nth_error (@nil (list (K * V))) i = None) by now destruct i. rewrite Hz, Hz'.
      unfold mbind. rewrite (IH tls [] []); auto. split; auto.
    + destruct (@exists_last _ (e :: env')) as (env0 & it & E); [discriminate|].
      rewrite E in *. destruct (Hy env0 it eq_refl) as (Rs0 & R & -> & El & Hs).
      rewrite app_length in Hi. cbn in Hi.
      rewrite !nth_snoc by lia. rewrite El. destruct (Nat.eqb_spec i (length env0)) as [->|Hne].
      * destruct (osolo_step _ _ _ Hs) as (b & tls1 & it1 & A & Hc). unfold mbind. rewrite A.
        destruct R as [|kv R].
        -- destruct Hc as [-> Hs1]. rewrite put_snoc.
           rewrite (IH tls1 (env0 ++ [it1]) (Rs0 ++ [[]])); auto.
           ++ rewrite app_length in *. exact Hn.
           ++ split; [rewrite !app_length in *; cbn; lia|]. intros env2 it2 E2. apply app_inj_tail in E2 as [<- <-]. eauto.
        -- destruct Hc as (-> & Hg & Hs1). rewrite Hg, put_snoc. rewrite <- El, put_snoc.
           rewrite (IH tls1 (env0 ++ [oit_next it1]) (Rs0 ++ [R])); auto.
           ++ rewrite app_length in *. exact Hn.
           ++ split; [rewrite !app_length in *; cbn; lia|]. intros env2 it2 E2. apply app_inj_tail in E2 as [<- <-]. eauto.
      * unfold mbind. rewrite (IH tls (env0 ++ [it]) (Rs0 ++ [R])); auto. split; auto.
  - set (dead := OIter None 0 0 None true false true None).
    assert (Hy' : young tls (put i dead env) (put i [] Rs)).
    { split; [now rewrite !put_len|]. intros env0 it E.
      destruct env as [|e env']; [destruct i, env0; discriminate E|].
      destruct (@exists_last _ (e :: env')) as (env1 & it1 & E1); [discriminate|]. rewrite E1 in *.
      destruct (Hy env1 it1 eq_refl) as (Rs0 & R & -> & El & Hs).
      destruct (Nat.lt_trichotomy i (length env1)) as [Hlt|[->|Hgt]].
      - rewrite put_app in E by auto. apply app_inj_tail in E as [<- <-]. rewrite put_app by lia.
        exists (put i [] Rs0), R. rewrite !put_len. auto.
      - rewrite put_snoc in E. apply app_inj_tail in E as [<- <-]. rewrite <- El, put_snoc.
        exists Rs0, []. repeat split; auto. now apply osolo_end.
      - assert (Hp : forall A (x : A) l, length l <= i -> put i x l = l).
        { clear. intros A x l. revert i. induction l as [|y l IHl]; intros [|i] H; cbn in *; auto; try lia.
          rewrite IHl by lia. reflexivity. }
        rewrite Hp in E by (rewrite app_length; cbn; lia). apply app_inj_tail in E as [<- <-].
        rewrite Hp by (rewrite app_length; cbn; lia). eauto. }
    destruct (nth_error env i) as [it|] eqn:Ei.
    + assert (Hi : i < length Rs) by (rewrite <- Hl; apply nth_error_Some; congruence).
      destruct (nth_error Rs i) as [R|] eqn:Er; [|apply nth_error_None in Er; lia].
      unfold mbind. fold dead. rewrite (IH tls (put i dead env) (put i [] Rs)); auto. now rewrite put_len.
    + apply nth_error_None in Ei. assert (Er : nth_error Rs i = None) by (apply nth_error_None; lia). rewrite Er.
      unfold mbind. rewrite (IH tls env Rs); auto. split; auto.
  - unfold mbind. rewrite (Hread k Ho). rewrite (IH tls env Rs); auto. split; auto.
Qed.
End OptShare.

Section OptSLML.
Context {P : Params}.
Section SL.
Context {N : SLOps P}.
Lemma ro_check_range fu : forall a k, ronly (check_range fu a k).
Proof. induction fu as [|fu IH]; intros a k; cbn [check_range]; ro. unfold in_node. ro. Qed.
Hint Resolve ro_check_range : ronly.
Lemma ro_osl_search fu : forall a k, ronly (osl_search fu a k).
Proof. induction fu as [|fu IH]; intros a k; cbn [osl_search]; ro. Qed.
Hint Resolve ro_osl_search : ronly.
Lemma ro_osl_leaf fu lo : ronly (ND := nd) (sl_scan_leaf true fu lo).
Proof. unfold sl_scan_leaf. ro. apply (@ro_left P (base_of_sl N)). Qed.
End SL.
Section ML.
Context {N : MLOps P}.
Lemma ro_oml_search fu : forall a k, ronly (oml_search_read fu a k).
Proof. induction fu as [|fu IH]; intros a k; cbn [oml_search_read]; ro. unfold oml_in_node. ro. Qed.
Hint Resolve ro_oml_search : ronly.
Lemma ro_oml_leaf fu lo : ronly (ND := mn) (ml_scan_leaf true fu lo).
Proof. unfold ml_scan_leaf. ro. apply (@ro_left P (base_of_ml N)). Qed.
End ML.
End OptSLML.
