(** Executions of the concurrent pessimistic multi-layer tree.  Proof-side only. *)
From Coq Require Import List Arith Bool Lia Sorted Permutation.
From Verif Require Import Params Mem Common Spec NodeAbs SLIface MLIface TreeState Levels TreeHeap
  LevelOps SLModel SLSearch SLSplit SLMerge SLProofs MLModel MLSearch MLSteps ConcSpec ConcModel ConcLin
  MConcModel MConcInv MConcSteps.
Import ListNotations.

(** ** Lists *)
Section Lists.
Context {A : Type}.
Lemma NoDup_app_r (l l' : list A) : NoDup (l ++ l') -> NoDup l'.
Proof. induction l as [|x l IH]; cbn; auto. intros H. inversion H; auto. Qed.
Lemma NoDup_app_disj (l l' : list A) : NoDup (l ++ l') -> forall x, In x l -> In x l' -> False.
Proof.
  induction l as [|y l IH]; cbn; [tauto|]. intros H x [->|Hx] Hx'; inversion H; subst.
  - match goal with Q : ~ In x _ |- _ => apply Q end. apply in_or_app. auto.
  - eauto.
Qed.
Lemma NoDup_app_l (l l' : list A) : NoDup (l ++ l') -> NoDup l.
Proof.
  induction l as [|y l IH]; cbn; [constructor|]. intros H. inversion H; subst. constructor; auto.
  intros Hi. match goal with Q : ~ In y _ |- _ => apply Q end. apply in_or_app. auto.
Qed.
Lemma app_eq_app_len : forall (l l' r r' : list A), length l = length l' -> l ++ r = l' ++ r' -> l = l' /\ r = r'.
Proof.
  induction l as [|x l IH]; intros [|y l'] r r' H E; try discriminate; cbn in *; auto.
  injection E as -> E. injection H as H. destruct (IH _ _ _ H E) as [-> ->]. auto.
Qed.
End Lists.

(** ** Heights and parents *)
Section Heights.
Context {P : Params} {O : OrdLaws P}.

Fixpoint hgt (Ls : list lvl) (a : addr) : nat :=
  match Ls with
  | [] => 0
  | L :: D => if in_dec Nat.eq_dec a (map fst L) then S (length D) else hgt D a
  end.

Lemma hgt_le Ls a : hgt Ls a <= length Ls.
Proof.
  induction Ls as [|L D IH]; cbn; auto. destruct (in_dec _ _ _); lia.
Qed.

Lemma hgt_at a : forall (U : list lvl) L D, NoDup (map fst (concat (U ++ L :: D))) -> In a (map fst L) ->
  hgt (U ++ L :: D) a = S (length D).
Proof.
  induction U as [|T U IH]; intros L D Hn Ha; cbn [app hgt].
  - destruct (in_dec _ _ _); [auto|contradiction].
  - cbn [app concat] in Hn. rewrite map_app in Hn.
    destruct (in_dec _ _ _) as [Hi|Hi].
    + exfalso. eapply (NoDup_app_disj _ _ Hn a Hi).
      rewrite concat_app, map_app. apply in_or_app. right. cbn [concat]. rewrite map_app.
      apply in_or_app. now left.
    + apply IH; auto. eapply NoDup_app_r; eauto.
Qed.

(** [b] is a child of [a]. *)
Definition parent (Ls : list lvl) (a b : addr) : Prop :=
  exists U L C D n, Ls = U ++ L :: C :: D /\ In (a, n) L /\ In b (map kid (a_slots n)).

Definition kids (L : lvl) : list addr := flat_map (fun p => map kid (a_slots (snd p))) L.

Lemma sents_kids lo (l : list slot) : map snd (sents lo l) = map kid l.
Proof. destruct l; cbn; auto. now rewrite map_map. Qed.
Lemma kents_kids (L : lvl) : forall lo, map snd (kents lo L) = kids L.
Proof.
  induction L as [|[a n] L IH]; intros lo; cbn; auto.
  now rewrite map_app, sents_kids, IH.
Qed.
Lemma entries_fst (L : lvl) : forall lo, map snd (entries lo L) = map fst L.
Proof. induction L as [|[a n] L IH]; intros lo; cbn; auto. now rewrite IH. Qed.

Lemma kids_level U L C D root : dtree (U ++ L :: C :: D) root -> kids L = map fst C.
Proof.
  intros H. apply dtree_app in H as (_ & (_ & E & _) & _).
  now rewrite <- (kents_kids L NegInf), E, entries_fst.
Qed.

Context (Ls : list lvl) (root : addr) (HT : dtree Ls root) (HN : NoDup (map fst (concat Ls))).

Lemma parent_hgt a b : parent Ls a b -> hgt Ls a = S (hgt Ls b).
Proof.
  intros (U & L & C & D & n & -> & Ha & Hb).
  assert (HbC : In b (map fst C)).
  { rewrite <- (kids_level _ _ _ _ _ HT). apply in_flat_map. exists (a, n). auto. }
  rewrite (hgt_at a U L (C :: D) HN).
  - cbn [length]. change (U ++ L :: C :: D) with (U ++ [L] ++ C :: D).
    rewrite app_assoc, (hgt_at b (U ++ [L]) C D); auto. now rewrite <- app_assoc.
  - change a with (fst (a, n)). now apply in_map.
Qed.

Lemma flat_map_twice {A B} (f : A -> list B) (l : list A) x y b :
  NoDup (flat_map f l) -> In x l -> In y l -> In b (f x) -> In b (f y) -> x = y.
Proof.
  intros Hn Hx Hy Hbx Hby. apply in_split in Hx as (l1 & l2 & ->).
  apply in_app_or in Hy as [Hy|[Hy|Hy]]; auto; exfalso; rewrite flat_map_app in Hn; cbn [flat_map] in Hn.
  - eapply (NoDup_app_disj _ _ Hn b); [apply in_flat_map; eauto|]. apply in_or_app. now left.
  - apply NoDup_app_r in Hn. eapply (NoDup_app_disj _ _ Hn b); [auto|]. apply in_flat_map. eauto.
Qed.

Lemma parent_uniq a a' b : parent Ls a b -> parent Ls a' b -> a = a'.
Proof.
  intros H1 H2. pose proof (parent_hgt _ _ H1) as E1. pose proof (parent_hgt _ _ H2) as E2.
  destruct H1 as (U & L & C & D & n & EL & Ha & Hb).
  destruct H2 as (U' & L' & C' & D' & n' & EL' & Ha' & Hb').
  assert (HE : hgt Ls a = hgt Ls a') by lia. rewrite EL in HE at 1. rewrite EL' in HE.
  rewrite hgt_at in HE; [|rewrite <- EL; auto|change a with (fst (a, n)); now apply in_map].
  rewrite hgt_at in HE; [|rewrite <- EL'; auto|change a' with (fst (a', n')); now apply in_map].
  cbn [length] in HE.
  assert (HU : length U = length U').
  { assert (Hl : length (U ++ L :: C :: D) = length (U' ++ L' :: C' :: D')) by congruence.
    rewrite !app_length in Hl. cbn [length] in Hl. lia. }
  rewrite EL in EL'. apply app_eq_app_len in EL' as [-> EL']; auto. injection EL' as <- <- <-.
  assert (HC : NoDup (kids L)).
  { rewrite EL in HT. rewrite (kids_level _ _ _ _ _ HT).
    rewrite EL, concat_app, map_app in HN. apply NoDup_app_r in HN. cbn [concat] in HN.
    rewrite !map_app in HN. apply NoDup_app_r, NoDup_app_l in HN. exact HN. }
  enough (Q : (a, n) = (a', n')) by congruence.
  exact (flat_map_twice _ L _ _ b HC Ha Ha' Hb Hb').
Qed.

End Heights.

Section MConcMain.
Context {P : Params} {O : OrdLaws P} {N : MLOps P} {LW : MLLaws P N} (fx : bool).
#[local] Existing Instance no_leak.
Notation hinv := (@hinv P no_leak mn mrep).
Notation minv := (minv fx).
Notation is_read := ConcModel.is_read.

(** ** The initial configuration *)
Lemma minit_inv prog : (forall t c, In c (prog t) -> mvalid (call_key c)) ->
  minv (minit prog) [[(1, ANode false false None None None [])]].
Proof.
  intros Hk. constructor; cbn; auto.
  - split; [|reflexivity]. split; [|split; [auto|reflexivity]].
    split; cbn; try (intros; tauto); auto; try discriminate.
    split; constructor.
  - unfold TreeHeap.hinv. cbn. constructor; cbn.
    + repeat constructor. intros [].
    + intros a. destruct (Nat.eqb_spec a 1); split; intros; try congruence; auto.
      destruct H as [H|[]]. congruence.
    + intros a. destruct (Nat.eqb_spec a 1); intros H; [lia|congruence].
    + intros a n [Hin|[]]. inversion Hin; subst. eexists. split; [reflexivity|]. apply M_root0.
  - constructor; cbn; try tauto.
    + intros u a. split; [discriminate|tauto].
    + intros a. split; [discriminate|]. intros (u & []).
  - constructor.
Qed.

Theorem run_inv : forall sched s Ls, minv s Ls ->
  match mrun fx s sched with
  | Some s' => exists Ls', minv s' Ls'
  | None => fx = false
  end.
Proof.
  induction sched as [|t sched IH]; intros s Ls V; cbn [mrun]; [eauto|].
  pose proof (step_good fx no_reader s Ls t V (fun _ _ => eq_refl)) as G. unfold good in G.
  unfold mstep. destruct (mstepr fx no_reader t s) as [l s'| |].
  - destruct G as (Ls' & _ & V' & _). exact (IH _ _ V').
  - exact (IH _ _ V).
  - tauto.
Qed.

Theorem minv_linearizable s Ls : minv s Ls -> linearizable amap_empty (mhistory s).
Proof. intros V. apply jtrace_linearizable. apply (v_trace _ _ _ V). Qed.

(** ** Waiting *)
Section Wait.
Context (rd : addr -> bool) (s : mcfg) (Ls : list lvl) (V : minv s Ls).
Let VL : latches s (mth s) := v_lat _ _ _ V.
Let HT : dtree Ls (mrt s) := v_tree _ _ _ V.
Let HF : hinv (mch s) (mfr s) [] (concat Ls) := v_heap _ _ _ V.

Lemma nodup_tree : NoDup (map fst (concat Ls)).
Proof. pose proof (hi_nodup _ _ _ _ _ HF) as H. eapply NoDup_app_l. exact H. Qed.

Notation H := (hgt Ls).
Definition rk (p : mpc) : nat :=
  match p with
  | MRd _ a => 2 * H a
  | MWd _ a | MCh _ a _ _ | MCm _ a _ _ | MSp _ a _ _ | MSpX _ a _ _ | MMg _ a _ _
  | MMg1 _ a _ _ _ | MMg2 _ a _ _ _ | MMg3 _ a _ _ _ => 2 * H a + 1
  | MR1 _ => 2 * length Ls + 2
  | MW1 _ | MShr _ _ | MShrX _ _ | MRs _ _ | MRsX _ _ => 2 * length Ls + 3
  | MR0 _ | MW0 _ => 2 * length Ls + 4
  | MIdle | MRet _ => 0
  end.

Lemma hgt_root : H (mrt s) = length Ls.
Proof.
  destruct (root_dom _ _ _ _ HT HF) as (nr & D & d & EL & _). rewrite EL. cbn [hgt map fst].
  destruct (in_dec _ _ _) as [|Hn]; [auto|]. exfalso. apply Hn. now left.
Qed.

(** Children as the threads know them. *)
Lemma route_parent c a d pos b : mvalid (call_key c) -> onp Ls (call_key c) a -> mch s a = Some d ->
  mn_inner d = true -> routep d (call_key c) = Some (pos, b) -> parent Ls a b.
Proof.
  intros Hc Ho Hd Hi Er.
  destruct (at_ab _ _ _ _ _ _ _ HT HF Hc Ho Hd Hi) as
      (U & L1 & n & L2 & s1 & s0 & s2 & C1 & b' & m & C2 & D & db & EL & CX & Hn & Er' & _).
  assert (b' = b) by congruence. subst b'.
  exists U, (L1 ++ (a, n) :: L2), (C1 ++ (b, m) :: C2), D, n. split; [exact EL|].
  split; [apply in_or_app; right; now left|].
  rewrite (cx_sl _ _ _ _ _ _ _ _ _ _ _ _ _ CX). rewrite map_app. apply in_or_app. right. left.
  exact (cx_kid _ _ _ _ _ _ _ _ _ _ _ _ _ CX).
Qed.

Lemma right_parent c a b pos d r : downP Ls (mch s) c a b pos -> mch s a = Some d ->
  pos + 1 <> mn_rc d -> mn_child d (pos + 1) = Some r -> parent Ls a r /\ mch s r <> None.
Proof.
  intros HP Hd Hrc Hr.
  destruct (down_ab fx s Ls V c a b pos HP) as (U & L1 & n & L2 & s1 & s0 & s2 & C1 & m & C2 & D & d' & db & EL & Epos & CX &
    Hd' & Hn & Hrd & Hin & Er & Hdb & Hmb & Hab & HF2).
  assert (d' = d) by congruence. subst d'.
  destruct (right_core _ _ _ _ _ _ _ _ _ _ _ _ _ CX d Hn) as [[Hrc' _]|(r' & m2 & C2' & s' & s2' & _ & Hs2 & HC2 & Hr')];
    [congruence|].
  rewrite <- Epos, Hr in Hr'. injection Hr' as <-. split.
  - exists U, (L1 ++ (a, n) :: L2), (C1 ++ (b, m) :: C2), D, n. split; [exact EL|].
    split; [apply in_or_app; right; now left|].
    pose proof (cx_E2 _ _ _ _ _ _ _ _ _ _ _ _ _ CX) as E2. rewrite Hs2, HC2 in E2. cbn in E2. injection E2 as _ E2 _.
    rewrite (cx_sl _ _ _ _ _ _ _ _ _ _ _ _ _ CX), Hs2. rewrite map_app. apply in_or_app. right. right. left. auto.
  - destruct (hinv_get _ _ _ _ _ r m2 HF2) as (dr & Hdr & _); [|congruence].
    right. right. rewrite HC2. rewrite !in_app_iff. cbn. tauto.
Qed.

Lemma down_parent c a b pos : downP Ls (mch s) c a b pos -> parent Ls a b.
Proof.
  intros (Hc & Ho & _ & (d & Hd & Hi & Er) & _). eapply route_parent; eauto. apply Hc.
Qed.
Lemma merge_parent c a b r pos : downP Ls (mch s) c a b pos -> mergeP (mch s) a b r pos -> parent Ls a r.
Proof.
  intros HP (n & nb & nr & E1 & _ & _ & E2 & E3 & _). eapply right_parent; eauto.
Qed.

(** Somebody who reads [x] comes before everybody who writes at [x] or above. *)
Lemma reader x : canX rd s x = false -> x <> 0 ->
  (exists u, mth s u <> MIdle /\ rk (mth s u) <= 2 * H x) \/ rd x = true.
Proof.
  unfold canX. intros Hx H0. destruct (msh s x) as [|u l] eqn:E; [right; now apply negb_false_iff in Hx|left].
  assert (Hu : In u (msh s x)) by (rewrite E; now left).
  apply (l_s _ _ _ _ _ _ VL) in Hu. unfold holdS in Hu. exists u.
  destruct (mth s u); cbn in Hu; try tauto; destruct Hu as [<-|[]]; try tauto.
  split; [discriminate|]. cbn. lia.
Qed.

(** The tree latch in S mode. *)
Lemma reader0 : canX rd s 0 = false ->
  (exists u, mth s u <> MIdle /\ rk (mth s u) <= 2 * length Ls + 2) \/ rd 0 = true.
Proof.
  unfold canX. intros Hx. destruct (msh s 0) as [|u l] eqn:E; [right; now apply negb_false_iff in Hx|left].
  assert (Hu : In u (msh s 0)) by (rewrite E; now left).
  apply (l_s _ _ _ _ _ _ VL) in Hu. unfold holdS in Hu. exists u.
  pose proof (v_pc _ _ _ V u) as Hp.
  destruct (mth s u); cbn in Hu; try tauto; destruct Hu as [Hu|[]]; cbn in Hp; try tauto.
  split; [discriminate|]. cbn. lia.
Qed.

(** Who owns a page in SIX or X mode: one that is at the page itself, or one that is at its parent, or
    one that is still at the root. *)
Definition rootish (p : mpc) : Prop :=
  match p with MShr _ _ | MShrX _ _ | MRs _ _ | MRsX _ _ | MW1 _ => True | _ => False end.

Lemma owner x u : In x (sxl (mth s u)) -> x <> 0 ->
  mth s u <> MIdle /\
  ((rootish (mth s u) /\ x = mrt s) \/ rk (mth s u) = 2 * H x + 1 \/
   (exists a, parent Ls a x /\ In a (sxl (mth s u)) /\ a <> 0)).
Proof.
  intros Hx H0. pose proof (v_pc _ _ _ V u) as Hp.
  assert (Hz : forall a, onp Ls a = onp Ls a) by auto.
  assert (Hne : forall a, mch s a <> None -> a <> 0) by (intros a; apply (ne0 fx _ _ V)).
  assert (Hd : forall c a b pos, downP Ls (mch s) c a b pos -> parent Ls a b /\ a <> 0).
  { intros c a b pos HP. split; [eapply down_parent; eauto|].
    destruct HP as (_ & _ & (d & E & _) & _). apply Hne. congruence. }
  destruct (mth s u) eqn:E; cbn [sxl In pcok rk rootish] in *; try tauto; (split; [discriminate|]);
    repeat match goal with
    | Q : _ \/ _ |- _ => destruct Q as [Q|Q]; [subst|]
    | Q : False |- _ => destruct Q
    end; try congruence; auto; try (left; tauto).
  all: right; right;
    try (match goal with Q : context [onp Ls _ ?a] |- context [parent _ _ ?y] =>
          exists a; destruct (Hd _ a y _ ltac:(first [exact Q|exact (proj1 Q)])) as [? ?]; auto end; fail).
  all: destruct Hp as (HP & _ & Hm); exists a; split; [eapply merge_parent; eauto|];
    split; [auto|eapply Hd; eauto].
Qed.

Lemma ownerX x u : In x (xll (mth s u)) -> In x (sxl (mth s u)).
Proof. destruct (mth s u); cbn; tauto. Qed.

Lemma owner_of x : canSIX s x = false -> exists u, In x (sxl (mth s u)).
Proof.
  unfold canSIX. destruct (msx s x) as [u|] eqn:E; [|discriminate]. intros _. exists u.
  now apply (l_x _ _ _ _ _ _ VL).
Qed.
Lemma writer_of x : canS s x = false -> exists u, In x (xll (mth s u)).
Proof.
  unfold canS. intros Hx. apply negb_false_iff in Hx. now apply (l_w _ _ _ _ _ _ VL).
Qed.
Lemma owner_uniq x u v : In x (sxl (mth s u)) -> In x (sxl (mth s v)) -> u = v.
Proof. intros H1 H2. exact (lok_uniq _ _ _ _ _ _ VL v x u H2 H1). Qed.

Lemma rk_nonroot u : mth s u <> MIdle -> ~ rootish (mth s u) -> forall x, In x (sxl (mth s u)) -> rk (mth s u) <= 2 * length Ls + 1.
Proof.
  intros _ Hr x Hx. destruct (mth s u); cbn in *; try tauto;
  match goal with |- context [H ?a] => pose proof (hgt_le Ls a) end; lia.
Qed.

Lemma rk_pos x : mch s x <> None -> 0 < H x.
Proof.
  intros Hx. apply (hi_dom _ _ _ _ _ HF) in Hx. cbn in Hx. rewrite app_nil_r in Hx.
  clear - Hx. induction Ls as [|L D IH]; [destruct Hx|]. cbn [concat] in Hx. rewrite map_app in Hx. cbn [hgt].
  destruct (in_dec _ _ _); [lia|]. apply IH. apply in_app_or in Hx. tauto.
Qed.

(** A child whose SIX latch the owner of the parent has to wait for. *)
Lemma child_wait t a b : parent Ls a b -> b <> 0 -> In a (sxl (mth s t)) -> ~ In b (sxl (mth s t)) ->
  canSIX s b = false ->
  exists u, mth s u <> MIdle /\ rk (mth s u) < 2 * H a + 1.
Proof.
  intros Hp Hb Ha Hnb Hc. destruct (owner_of b Hc) as (u & Hu). exists u.
  pose proof (parent_hgt _ _ HT nodup_tree _ _ Hp) as Eh.
  destruct (owner b u Hu Hb) as (Hi & [(_ & ->)|[Q|(a' & Hp' & Ha' & _)]]); (split; [exact Hi|]).
  - rewrite hgt_root in Eh. pose proof (hgt_le Ls a). lia.
  - lia.
  - exfalso. assert (a' = a) by (eapply parent_uniq; eauto using nodup_tree). subst a'.
    assert (u = t) by (eapply owner_uniq; eauto). subst u. auto.
Qed.

(** A child whose S latch a reader of the parent has to wait for. *)
Lemma child_waitR a b : parent Ls a b -> b <> 0 -> mxl s a = false -> canS s b = false ->
  exists u, mth s u <> MIdle /\ rk (mth s u) < 2 * H a.
Proof.
  intros Hp Hb Ha Hc. destruct (writer_of b Hc) as (u & Hu). exists u.
  pose proof (parent_hgt _ _ HT nodup_tree _ _ Hp) as Eh.
  assert (HaX : forall v, ~ In a (xll (mth s v))).
  { intros v Hv. assert (mxl s a = true); [|congruence]. apply (l_w _ _ _ _ _ _ VL). exists v. exact Hv. }
  assert (HaU : forall c a' b' pos, downP Ls (mch s) c a' b' pos -> b' = b -> a' = a).
  { intros c a' b' pos HP ->. eapply parent_uniq; eauto using nodup_tree, down_parent. }
  pose proof (v_pc _ _ _ V u) as Hpc. specialize (HaX u).
  destruct (mth s u); cbn [xll In pcok rk] in *; try tauto; (split; [discriminate|]);
    repeat match goal with
    | Q : _ \/ _ |- _ => destruct Q as [Q|Q]; [subst|]
    | Q : False |- _ => destruct Q
    end; try congruence; try lia.
  exfalso. apply HaX. left. eapply HaU; [|reflexivity]. exact (proj1 Hpc).
Qed.
Lemma child_waitS t a b : parent Ls a b -> b <> 0 -> In a (shl (mth s t)) ->
  canS s b = false ->
  exists u, mth s u <> MIdle /\ rk (mth s u) < 2 * H a.
Proof.
  intros Hp Hb Ha Hc. apply (child_waitR a b); auto. destruct (mxl s a) eqn:Q; [exfalso|auto].
  apply (l_w _ _ _ _ _ _ VL) in Q as (v & Q). pose proof (l_ws _ _ _ _ _ _ VL v a Q) as Q1.
  pose proof (proj2 (l_s _ _ _ _ _ _ VL t a) Ha) as Q2. rewrite Q1 in Q2. destruct Q2.
Qed.

(** The tree latch, and the root's. *)
Lemma wait0 : canS s 0 = false -> exists u, mth s u <> MIdle /\ rk (mth s u) < 2 * length Ls + 4.
Proof.
  intros Ec. destruct (writer_of 0 Ec) as (u & Hu). exists u. pose proof (v_pc _ _ _ V u) as Hpu.
  assert (Hz : forall c a b pos, downP Ls (mch s) c a b pos -> a <> 0 /\ b <> 0).
  { intros c0 a b pos (_ & _ & (d & Q1 & _) & _ & Q2). split; apply (ne0 fx _ _ V); congruence. }
  destruct (mth s u); cbn [xll In pcok rk] in *; try tauto; (split; [discriminate|lia]) ||
    (exfalso; pose proof (Hz _ _ _ _ (proj1 Hpu)); tauto).
Qed.
Lemma wait_root : canS s (mrt s) = false -> exists u, mth s u <> MIdle /\ rk (mth s u) < 2 * length Ls + 2.
Proof.
  intros Ec. destruct (writer_of _ Ec) as (u & Hu). exists u. pose proof (ownerX _ _ Hu) as Hu'.
  assert (Hr0 : mrt s <> 0).
  { destruct (root_dom _ _ _ _ HT HF) as (nr & Dr & dr & _ & _ & Hdr & _ & _). apply (ne0 fx _ _ V). congruence. }
  assert (Hui : mth s u <> MIdle) by (intros Q; rewrite Q in Hu; destruct Hu).
  split; [auto|]. assert (Hnr : ~ rootish (mth s u)).
  { destruct (mth s u); cbn in *; intuition. }
  pose proof (rk_nonroot u Hui Hnr _ Hu'). lia.
Qed.

(** A leaf in X mode: a merge that waits for the readers of the next leaf. *)
Lemma leaf_writer b d : mch s b = Some d -> mn_inner d = false -> canS s b = false ->
  exists u c a r pos, mth s u = MMg3 c a b r pos.
Proof.
  intros Hb Hi Hc. destruct (writer_of b Hc) as (u & Hu). pose proof (v_pc _ _ _ V u) as Hpu.
  assert (Hz : forall c a b' pos, downP Ls (mch s) c a b' pos -> a <> b).
  { intros c0 a b' pos (_ & _ & _ & (d' & Q1 & Q2 & _) & _) Q. subst. congruence. }
  assert (H0 : b <> 0) by (apply (ne0 fx _ _ V); congruence).
  destruct (mth s u) as [| | | | | | | | | | | | | | | | |c a b' r pos|c a b' r pos|] eqn:E;
    cbn [xll In pcok] in *; try tauto;
    repeat match goal with
    | Q : _ \/ _ |- _ => destruct Q as [Q|Q]
    | Q : False |- _ => destruct Q
    end; try congruence; try (exfalso; eapply Hz; [exact (proj1 Hpu)|eassumption]).
  subst b'. eauto 10.
Qed.

Ltac unf := unfold kbind in *;
  repeat (match goal with
          | Q : context [match ?x with _ => _ end] |- _ => destruct x eqn:?
          end; try discriminate).

(** Somebody of lower rank than [r], in the configuration or outside. *)
Definition outer (x : addr) : nat := if Nat.eqb x 0 then 2 * length Ls + 2 else 2 * H x.
Definition behind (r : nat) : Prop :=
  (exists u, mth s u <> MIdle /\ rk (mth s u) < r) \/
  (exists x, rd x = true /\ (x = 0 \/ mch s x <> None) /\ outer x < r).

Theorem blocked t : mth s t <> MIdle -> mstepr fx rd t s = KBlock -> behind (rk (mth s t)).
Proof.
  intros Hi Hs. unfold mstepr in Hs. pose proof (v_pc _ _ _ V t) as Hp.
  assert (Hne : forall a, mch s a <> None -> a <> 0) by (intros a; apply (ne0 fx _ _ V)).
  destruct (root_dom _ _ _ _ HT HF) as (nr & Dr & dr & _ & _ & Hdr & _ & _).
  assert (Hr0 : mrt s <> 0) by (apply Hne; congruence).
  pose proof hgt_root as Hrt.
  assert (HX : forall a r, mch s a <> None -> canX rd s a = false -> 2 * H a < r -> behind r).
  { intros a r Ha Hc Hlt. pose proof (Hne a Ha) as Ha0.
    destruct (reader a Hc Ha0) as [(u & U1 & U2)|Hrd]; [left; exists u; split; [auto|lia]|right].
    exists a. split; [auto|]. split; [auto|]. unfold outer. destruct (Nat.eqb_spec a 0); [congruence|auto]. }
  assert (HXh : forall a b r, parent Ls a b -> canX rd s b = false -> mch s b <> None -> r = 2 * H a + 1 -> behind r).
  { intros a b r Hpa Hc Hb ->. apply (HX b); auto.
    pose proof (parent_hgt _ _ HT nodup_tree _ _ Hpa). lia. }
  assert (HX0 : forall r, canX rd s 0 = false -> 2 * length Ls + 2 < r -> behind r).
  { intros r Hc Hlt. destruct (reader0 Hc) as [(u & U1 & U2)|Hrd]; [left; exists u; split; [auto|lia]|right].
    exists 0. split; [auto|]. split; [auto|]. exact Hlt. }
  assert (HC : forall a o, canClean rd s a o = false -> canX rd s a = false).
  { intros a [n|]; cbn; auto. discriminate. }
  assert (HSr : forall x r, In 0 (sxl (mth s t)) -> ~ In x (sxl (mth s t)) -> x <> 0 -> canSIX s x = false -> 2 * length Ls + 1 < r -> behind r).
  { intros x r H0 Hnx Hx Hc Hlt. destruct (owner_of x Hc) as (u & Hu). left. exists u.
    assert (Hui : mth s u <> MIdle) by (intros Q; rewrite Q in Hu; destruct Hu).
    split; [auto|]. assert (Hnr : ~ rootish (mth s u)).
    { intros Hr. assert (u = t); [|subst; auto]. eapply owner_uniq; [|exact H0].
      destruct (mth s u); cbn in *; tauto. }
    pose proof (rk_nonroot u Hui Hnr x Hu). lia. }
  destruct (mth s t) eqn:E; cbn [pcok rk] in *; try discriminate.
  - congruence.
  - (* MR0 *) destruct (canS s 0) eqn:Ec; [discriminate|]. left. now apply wait0.
  - (* MR1 *) rewrite Hdr in Hs. cbn [kbind] in Hs. destruct (canS s (mrt s)) eqn:Ec; [discriminate|].
    left. now apply wait_root.
  - (* MRd *) destruct Hp as (Hc & H0 & Hlt & Hp). destruct Hp as [(Hfx & Hn)|(Hn & Ho)]; [now rewrite Hn in Hs|].
    destruct (mch s a) as [d|] eqn:Hd; [|congruence]. cbn [kbind] in Hs.
    destruct (mn_inner d) eqn:Ei; [|destruct (mleaf_op d c); discriminate].
    destruct (routep d (call_key c)) as [[pos b]|] eqn:Er; [|discriminate]. cbn [kbind snd] in Hs.
    destruct (mch s b) as [db|] eqn:Hb; [|discriminate]. cbn [kbind] in Hs.
    destruct (canS s b) eqn:Ec; [discriminate|].
    left. eapply (child_waitS t a b); auto.
    + eapply route_parent; eauto. apply Hc.
    + apply Hne. congruence.
    + rewrite E. now left.
  - (* MW0 *) destruct (canSIX s 0) eqn:Ec; [discriminate|]. destruct (owner_of 0 Ec) as (u & Hu). left. exists u.
    pose proof (v_pc _ _ _ V u) as Hpu.
    assert (Hz : forall c a b pos, downP Ls (mch s) c a b pos -> a <> 0 /\ b <> 0).
    { intros c0 a b pos (_ & _ & (d & Q1 & _) & _ & Q2). split; apply Hne; congruence. }
    assert (Hm : forall a b r pos, mergeP (mch s) a b r pos -> r <> 0).
    { intros a b r pos (n & nb & nr' & _ & _ & Q & _). apply Hne. congruence. }
    assert (Hm2 : forall a, roomat (mch s) a -> a <> 0).
    { intros a (d & Q & _). apply Hne. congruence. }
    destruct (mth s u); cbn [sxl In pcok rk] in *; try tauto; (split; [discriminate|lia]) ||
      (exfalso;
       match type of Hpu with
       | (_ /\ _ /\ roomat _ ?a) => pose proof (Hm2 _ (proj2 (proj2 Hpu))); tauto
       | (wrc _ /\ _ /\ _ /\ _ /\ _) => pose proof (Hz _ _ _ _ Hpu); tauto
       | (_ /\ _ /\ mergeP _ _ _ _ _) => pose proof (Hz _ _ _ _ (proj1 Hpu)); pose proof (Hm _ _ _ _ (proj2 (proj2 Hpu))); tauto
       | _ => pose proof (Hz _ _ _ _ (proj1 Hpu)); tauto
       end).
  - (* MW1 *) rewrite Hdr in Hs. cbn [kbind] in Hs. destruct (canSIX s (mrt s)) eqn:Ec; [discriminate|].
    eapply (HSr (mrt s)); auto; cbn; try tauto; try lia.
  - (* MShr *) destruct Hp as (Hc & -> & Hn). rewrite Hdr in Hs. cbn [kbind] in Hs.
    destruct (Nat.eqb (mn_rc dr) 1 && mn_inner dr).
    + destruct (canX rd s 0) eqn:Ec; [discriminate|]. apply HX0; auto; lia.
    + destruct (mn_need_split dr mn_maxlen) as [[bb o]|]; [|discriminate]. cbn [kbind fst snd] in Hs.
      destruct (canClean rd s (mrt s) o) eqn:Ec; [destruct bb; discriminate|].
      apply (HX (mrt s)); auto; [eauto|]. rewrite Hrt. lia.
  - (* MShrX *) destruct Hp as (Hc & -> & (d & Hd & Hrc & Hin)). rewrite Hd in Hs. cbn [kbind] in Hs.
    destruct (mn_child d 0) as [b|] eqn:Eb; [|discriminate]. cbn [kbind] in Hs.
    destruct (mch s b) as [db|] eqn:Hb; [|discriminate]. cbn [kbind] in Hs.
    destruct (canSIX s b) eqn:Ec; cbn [andb] in Hs.
    + apply (HX (mrt s)); [congruence| |rewrite Hrt; lia].
      destruct (canX rd s (mrt s)); [|auto]. rewrite orb_true_r in Hs. discriminate.
    + destruct (root_dom _ _ _ _ HT HF) as (nr' & D & d' & EL & HD & Hd' & Hrep & Ho).
      assert (d' = d) by congruence. subst d'.
      destruct (shrink_core _ _ _ _ HD Hrep ltac:(lia) Hin) as (_ & b' & mb & D' & ED & Hb' & HD').
      assert (b' = b) by congruence. subst b'.
      eapply (HSr b); auto; cbn; try tauto; try lia; [|apply Hne; congruence].
      intros [Q|[Q|[]]]; [apply (Hne b); congruence|].
      rewrite EL, ED in HF. eapply (hinv_two _ _ _ _ _ _ _ _ HF). exact Q.
  - (* MRs *) destruct (canX rd s 0) eqn:Ec; [discriminate|]. apply HX0; auto; lia.
  - (* MRsX *) destruct Hp as (Hc & -> & _). rewrite Hdr in Hs. cbn [kbind] in Hs.
    destruct (canX rd s (mrt s)) eqn:Ec.
    + exfalso. unf.
    + apply (HX (mrt s)); auto; [congruence|]. rewrite Hrt. lia.
  - (* MWd *) destruct Hp as (Hc & Ho & (d & Hd & _)). rewrite Hd in Hs. cbn [kbind] in Hs.
    destruct (mn_inner d) eqn:Ei.
    + destruct (routep d (call_key c)) as [[pos b]|] eqn:Er; [|discriminate]. cbn [kbind fst snd] in Hs.
      destruct (mch s b) as [db|] eqn:Hb; [|discriminate]. cbn [kbind] in Hs.
      destruct (canSIX s b) eqn:Ec; [discriminate|].
      assert (Hpa : parent Ls a b) by (eapply route_parent; eauto; apply Hc).
      left. eapply (child_wait t a b); auto; rewrite ?E; cbn.
      * apply Hne. congruence.
      * auto.
      * intros [<-|[]]. pose proof (parent_hgt _ _ HT nodup_tree _ _ Hpa). lia.
    + destruct (canX rd s a) eqn:Ec; [exfalso; unf|]. apply (HX a); auto; [congruence|lia].
  - (* MCh *) change (downP Ls (mch s) c a b pos) in Hp. destruct (mch s b) as [db|] eqn:Hb; [|discriminate]. cbn [kbind] in Hs.
    destruct (mn_need_split db mn_maxlen) as [[bb o]|]; [|discriminate]. cbn [kbind fst snd] in Hs.
    destruct (canClean rd s b o) eqn:Ec; [destruct bb; discriminate|].
    apply (HXh a b); eauto using down_parent; congruence.
  - (* MCm *) destruct Hp as [Hp _]. change (downP Ls (mch s) c a b pos) in Hp. destruct (mch s a) as [da|]; [|discriminate]. cbn [kbind] in Hs.
    destruct (mch s b) as [db|] eqn:Hb; [|discriminate]. cbn [kbind] in Hs.
    destruct (mn_need_merge db) as [[bb o]|]; [|discriminate]. cbn [kbind fst snd] in Hs.
    destruct (canClean rd s b o) eqn:Ec; [exfalso; unf|].
    apply (HXh a b); eauto using down_parent; congruence.
  - (* MSp *) destruct Hp as [Hp _]. change (downP Ls (mch s) c a b pos) in Hp. destruct (mch s a) as [da|] eqn:Ha; [|discriminate]. cbn [kbind] in Hs.
    destruct (canX rd s a) eqn:Ec; [discriminate|]. apply (HX a); auto; [congruence|lia].
  - (* MSpX *) destruct Hp as [Hp _]. change (downP Ls (mch s) c a b pos) in Hp. destruct (mch s a) as [da|] eqn:Ha; [|discriminate]. cbn [kbind] in Hs.
    destruct (mch s b) as [db|] eqn:Hb; [|discriminate]. cbn [kbind] in Hs.
    destruct (canX rd s b) eqn:Ec; [exfalso; unf|].
    apply (HXh a b); eauto using down_parent; congruence.
  - (* MMg *) destruct Hp as (Hp & _ & (d & Ha & Hrc)). change (downP Ls (mch s) c a b pos) in Hp. rewrite Ha in Hs. cbn [kbind] in Hs.
    destruct (mch s b) as [db|] eqn:Hb; [|discriminate]. cbn [kbind] in Hs.
    destruct (mn_child d (pos + 1)) as [r|] eqn:Er; [|discriminate]. cbn [kbind] in Hs.
    destruct (mch s r) as [dr'|] eqn:Hr; [|discriminate]. cbn [kbind] in Hs.
    destruct (canSIX s r) eqn:Ec; [exfalso; unf|].
    destruct (right_parent c a b pos d r Hp Ha Hrc Er) as [Hpr _].
    left. eapply (child_wait t a r); auto; rewrite ?E; cbn.
    + apply Hne. congruence.
    + auto.
    + intros [<-|[<-|[]]].
      * pose proof (parent_hgt _ _ HT nodup_tree _ _ Hpr). lia.
      * destruct (down_ab fx s Ls V c a b pos Hp) as (U & L1 & n & L2 & s1 & s0 & s2 & C1 & m & C2 & D & d' & db' & EL & Epos & CX &
          Hd' & Hn & Hrd & Hin & Er' & Hdb & Hmb & Hab & HF2).
        assert (d' = d) by congruence. subst d'.
        destruct (right_core _ _ _ _ _ _ _ _ _ _ _ _ _ CX d Hn) as [[Hrc' _]|(r' & m2 & C2' & s' & s2' & _ & Hs2 & HC2 & Hr')];
          [congruence|].
        rewrite <- Epos, Er in Hr'. injection Hr' as <-.
        eapply (hinv_neq _ _ _ _ [(a, n)] b m); [exact HF2| |reflexivity].
        rewrite HC2, !in_app_iff. cbn. tauto.
  - (* MMg1 *) destruct Hp as (Hp & _). change (downP Ls (mch s) c a b pos) in Hp. destruct (mch s a) as [da|] eqn:Ha; [|discriminate]. cbn [kbind] in Hs.
    destruct (canX rd s a) eqn:Ec; [discriminate|]. apply (HX a); auto; [congruence|lia].
  - (* MMg2 *) destruct Hp as (Hp & _). change (downP Ls (mch s) c a b pos) in Hp. destruct (mch s b) as [db|] eqn:Hb; [|discriminate]. cbn [kbind] in Hs.
    destruct (canX rd s b) eqn:Ec; [discriminate|].
    apply (HXh a b); eauto using down_parent; congruence.
  - (* MMg3 *) destruct Hp as (Hp & _ & Hm). change (downP Ls (mch s) c a b pos) in Hp. 
    pose proof (merge_parent _ _ _ _ _ Hp Hm) as Hpr.
    destruct (mch s a) as [da|] eqn:Ha; [|discriminate]. cbn [kbind] in Hs.
    destruct (mch s b) as [db|] eqn:Hb; [|discriminate]. cbn [kbind] in Hs.
    destruct (mch s r) as [dr'|] eqn:Hr; [|discriminate]. cbn [kbind] in Hs.
    destruct (canX rd s r) eqn:Ec; [exfalso; unf|].
    apply (HXh a r); eauto; congruence.
Qed.

End Wait.

Theorem progress s Ls (V : minv s Ls) t : mth s t <> MIdle ->
  exists u, mth s u <> MIdle /\ mstep fx u s <> KBlock.
Proof.
  remember (rk Ls (mth s t)) as r eqn:Er. revert t Er.
  induction r as [r IH] using (well_founded_induction lt_wf). intros t -> Ht.
  destruct (mstep fx t s) eqn:E; try (exists t; split; [auto|congruence]).
  destruct (blocked no_reader s Ls V t Ht E) as [(u & Hu & Hr)|(x & Hx & _)]; [|discriminate].
  eapply IH; eauto.
Qed.

(** ** Released pages *)
Theorem released rd t s Ls l s' x : minv s Ls -> mstepr fx rd t s = KOk l s' ->
  mch s x <> None -> mch s' x = None ->
  msx s x = Some t /\ ((msh s x = [] /\ rd x = false) \/ (fx = false /\ exists c, mth s t = MShrX c x)).
Proof.
  intros V Hs Hx Hx'. pose proof (v_lat _ _ _ V) as VL.
  assert (Ho : forall a, In a (sxl (mth s t)) -> msx s a = Some t).
  { intros a Ha. now apply (l_x _ _ _ _ _ _ VL). }
  assert (Hup : forall (h : addr -> option mn) a n, upd h a (Some n) x = None -> h x = None).
  { intros h a n. unfold upd. destruct (Nat.eqb x a); [discriminate|auto]. }
  assert (Hcl : forall a o, mch (m_clean s a o) x = None -> mch s x = None).
  { intros a [n|]; cbn; auto. apply Hup. }
  unfold mstepr in Hs. destruct (mth s t) eqn:E; unfold kbind in Hs;
    repeat (match goal with
          | Q : context [match ?x with _ => _ end] |- _ => destruct x eqn:?
          end; try discriminate); injection Hs as <- <-;
    cbn [m_goto m_lockS m_unlockS m_x m_root m_free m_own m_set m_new mch] in Hx';
    try (exfalso; apply Hx; eauto; fail).
  all: assert (Hfree : x = a \/ x <> a) by lia; try (assert (Hfree2 : x = r \/ x <> r) by lia).
  all: try (exfalso; apply Hx; eauto using Hup; fail).
  - (* MShrX *) match goal with Q : _ && _ = true |- _ => apply andb_true_iff in Q as [Hb1 Hb2] end. apply orb_true_iff in Hb2.
    destruct Hfree as [->|Hne]; [|rewrite upd_diff in Hx' by auto; congruence].
    split; [apply Ho; cbn; auto|]. destruct Hb2 as [Hb2|Hb2].
    + right. split; [now destruct fx|eauto].
    + left. split; [eapply canX_nil; eauto|eapply rd_X; eauto].
  - (* MMg3 *) destruct Hfree2 as [->|Hne]; [|rewrite upd_diff in Hx' by auto; exfalso; apply Hx; eauto].
    split; [apply Ho; cbn; auto|]. left. split; [eapply canX_nil; eauto|eapply rd_X; eauto].
Qed.

(** Nobody holds a latch between calls. *)
Theorem idle_free s Ls t a : minv s Ls -> mth s t = MIdle -> msx s a <> Some t /\ ~ In t (msh s a).
Proof.
  intros V Ht. pose proof (v_lat _ _ _ V) as VL. split; intros Ha.
  - apply (l_x _ _ _ _ _ _ VL) in Ha. unfold holdX in Ha. now rewrite Ht in Ha.
  - apply (l_s _ _ _ _ _ _ VL) in Ha. unfold holdS in Ha. now rewrite Ht in Ha.
Qed.

(** A thread that runs into undefined behaviour is a reader of a released page. *)
Theorem undef_only rd s Ls t : minv s Ls -> (forall x, mxl s x = true -> rd x = false) -> mstepr fx rd t s = KUndef ->
  fx = false /\ exists c a, mth s t = MRd c a /\ mch s a = None.
Proof. intros V Hr Hs. pose proof (step_good fx rd s Ls t V Hr) as G. unfold good in G. now rewrite Hs in G. Qed.

End MConcMain.

(** ** Calm executions: ShrinkTreeIfNeeded (pml/b_tree.hpp:662-675) never releases a root
    whose latch some thread holds in shared mode. *)
Section Calm.
Context {P : Params} {N : MLOps P}.

Definition mcalm_at (t : tid) (s : mcfg) : bool :=
  match mth s t with MShrX _ a => canX no_reader s a | _ => true end.

Fixpoint mcalm (s : mcfg) (sched : list tid) : bool :=
  match sched with
  | [] => true
  | t :: sched' =>
      mcalm_at t s &&
      match mstep false t s with
      | KOk l s' => mcalm (m_emit s' l) sched'
      | KBlock => mcalm s sched'
      | KUndef => true
      end
  end.

Lemma mcalm_step t s : mcalm_at t s = true -> mstep false t s = mstep true t s.
Proof.
  unfold mcalm_at, mstep, mstepr. destruct (mth s t); auto. intros ->. reflexivity.
Qed.

Lemma mcalm_run : forall sched s, mcalm s sched = true -> mrun false s sched = mrun true s sched.
Proof.
  induction sched as [|t sched IH]; intros s Hc; cbn [mrun mcalm] in *; auto.
  apply andb_true_iff in Hc as [H1 H2]. rewrite <- (mcalm_step t s H1).
  destruct (mstep false t s); auto.
Qed.

End Calm.
