(** Executions of the concurrent single-layer trees: with the three repairs named in
    ConcModel.v every execution is free of undefined behaviour and linearizable, and the
    code as it is agrees with the repaired one as long as its execution is calm.
    This file is proof-side only, except for the definition of calm executions. *)
From Coq Require Import List Arith Bool Lia Sorted.
From Verif Require Import Params Mem Common Spec ConcSpec NodeAbs SLIface TreeState Levels
  ConcModel ConcLin ConcInv ConcHeap ConcSmo ConcThreads ConcSteps.
Import ListNotations.

Section ConcMain.
Context {P : Params} {O : OrdLaws P} {N : SLOps P} {L : SLLaws P N}.
Context (osl : bool).

Notation inv := (inv amap_empty).

(** ** The initial configuration *)
Definition g0 : gh :=
  Gh (fun _ => 0) (fun _ => NegInf) (fun _ => 0) (fun _ => None) (fun _ => None)
     (fun _ => ANode false false None None None []).

Lemma init_inv prog : (forall t c, In c (prog t) -> kvalid (call_key c)) -> inv (cinit prog) g0.
Proof.
  intros Hk.
  assert (Hz : forall a d, ch (cinit prog) a = Some d -> a = 0 /\ d = nd_root0).
  { intros a d. cbn. destruct (Nat.eqb_spec a 0); [intros [= <-]; auto|discriminate]. }
  assert (Hrem : nd_removed nd_root0 = false).
  { destruct (L_hdr _ _ L_root0) as (_ & Q & _). now rewrite Q. }
  constructor.
  - constructor.
    + intros a Ha. cbn in Ha. exists nd_root0. cbn. replace a with 0 by lia. reflexivity.
    + intros a d Ha. apply Hz in Ha as [-> _]. cbn. lia.
    + intros a d Ha _. apply Hz in Ha as [-> ->]. constructor; cbn; auto; try discriminate; try tauto.
      * apply L_root0.
      * split; constructor.
    + intros a d Ha R. apply Hz in Ha as [-> ->]. congruence.
    + cbn. lia.
    + cbn. discriminate.
    + cbn. discriminate.
    + cbn. discriminate.
    + intros a b Ha Hb. cbn in *. lia.
    + reflexivity.
    + cbn. discriminate.
    + cbn. discriminate.
  - exists 0. constructor; cbn; auto.
    + split; auto.
    + intros t p [[r Q]|[r Q]]; discriminate.
    + discriminate.
  - intros a d T Ha _ D. discriminate.
  - intros t. exact I.
  - cbn. tauto.
  - intros t. reflexivity.
  - constructor.
  - reflexivity.
  - exact Hk.
Qed.

Theorem repaired_run prog sched : (forall t c, In c (prog t) -> kvalid (call_key c)) ->
  exists s G, crun osl repaired (cinit prog) sched = Some s /\ inv s G.
Proof. intros Hk. exact (run_good amap_empty osl sched _ _ (init_inv prog Hk)). Qed.

Lemma inv_linearizable s G : inv s G -> linearizable amap_empty (history s).
Proof. intros I. apply jtrace_linearizable. apply (i_trace _ _ _ I). Qed.

(** ** Calm executions

    The three situations in which the code and its repaired version part.  GetSeparatorKey
    (psl/b_tree.hpp:207, 726) must find the key at which the node was split; root_ must
    not change between the load and the store of TryRootSplit (psl/b_tree.hpp:750-765);
    TryShrinkTree (psl/b_tree.hpp:845-857) must not drop a root that has a right sibling. *)
Definition calm_at (t : tid) (s : cfg) : Prop :=
  match th s t with
  | PSep _ a r x sep _ => exists n, ch s x = Some n /\ nd_sepkey n (Nat.eqb x a) = Some sep
  | PTrySt _ _ l _ _ => croot s = l
  | PShr _ p => forall n, p = croot s -> ch s p = Some n -> nd_rc n = 1 -> nd_next n = None
  | PShrL _ p => forall n c m, ch s p = Some n -> nd_child n 0 = Some c -> ch s c = Some m ->
      nd_rc m = 1 -> nd_inner m = true -> nd_next m = None
  | _ => True
  end.

Fixpoint calm (s : cfg) (sched : list tid) : Prop :=
  match sched with
  | [] => True
  | t :: sched' =>
      calm_at t s /\
      match cstep osl as_is t s with
      | SOk l s' => calm (emit s' l) sched'
      | SBlock => calm s sched'
      | SUndef => True
      end
  end.

Lemma calm_step t s : calm_at t s -> cstep osl as_is t s = cstep osl repaired t s.
Proof.
  unfold calm_at, cstep. destruct (th s t); auto; intros Hc.
  - destruct Hc as (n & E1 & E2). cbn [fx_sep as_is repaired]. rewrite E1. cbn [sbind].
    rewrite E2. reflexivity.
  - cbn [fx_root as_is repaired negb orb]. now rewrite Hc, Nat.eqb_refl.
  - cbn [fx_shrink as_is repaired negb orb]. destruct (ch s p) as [n|]; auto. cbn [sbind].
    destruct (Nat.eqb_spec p (croot s)); cbn [andb]; auto.
    destruct (Nat.eqb_spec (nd_rc n) 1); cbn [andb]; auto.
    rewrite (Hc n); auto.
  - cbn [fx_shrink as_is repaired negb orb]. destruct (ch s p) as [n|]; auto. cbn [sbind].
    destruct (nd_child n 0) as [c|] eqn:Ec; auto. cbn [sbind].
    destruct (negb (free s c)); auto. destruct (ch s c) as [m|] eqn:Em; auto. cbn [sbind].
    destruct (Nat.eqb_spec (nd_rc m) 1); cbn [andb]; auto.
    destruct (nd_inner m) eqn:Ei; cbn [andb]; auto.
    rewrite (Hc n c m); auto.
Qed.

Lemma calm_run : forall sched s, calm s sched -> crun osl as_is s sched = crun osl repaired s sched.
Proof.
  induction sched as [|t sched IH]; intros s Hc; cbn [crun calm] in *; auto.
  destruct Hc as (H1 & H2). rewrite <- (calm_step t s H1).
  destruct (cstep osl as_is t s); auto.
Qed.

Theorem calm_good prog sched : (forall t c, In c (prog t) -> kvalid (call_key c)) ->
  calm (cinit prog) sched ->
  exists s G, crun osl as_is (cinit prog) sched = Some s /\ inv s G.
Proof. intros Hk Hc. rewrite (calm_run _ _ Hc). now apply repaired_run. Qed.

End ConcMain.
