(** Which latches the threads of the concurrent single-layer trees hold and wait for. *)
From Coq Require Import List Arith Bool Lia Sorted.
From Verif Require Import Params Mem Common Spec ConcSpec NodeAbs SLIface TreeState Levels
  ConcModel ConcLin ConcInv ConcHeap ConcSmo ConcThreads ConcSteps ConcMain.
Import ListNotations.

Section ConcWait.
Context {P : Params} {O : OrdLaws P} {N : SLOps P} {L : SLLaws P N}.
Context (osl : bool).

(** The SIX latch the next step of [t] needs: psl/node_fixlen.hpp:474-514 (PDesc, PComp,
    PMergeAt), 194-213 (PMerge), 882-899 (PShrL). *)
Definition wants (s : cfg) (t : tid) : option addr :=
  match th s t with
  | PDesc _ a _ => Some a
  | PComp _ _ x _ _ _ => Some x
  | PMerge _ _ _ l => match ch s l with Some n => nd_next n | None => None end
  | PMergeAt _ _ x _ _ _ => Some x
  | PShrL _ p => match ch s p with Some n => nd_child n 0 | None => None end
  | _ => None
  end.

(** [t] is in a call and cannot go on. *)
Definition waiting (fx : fixes) (s : cfg) (t : tid) : Prop :=
  th s t <> PIdle /\ cstep osl fx t s = SBlock.

(** Some call is in progress and no thread can make a step. *)
Definition deadlocked (fx : fixes) (s : cfg) : Prop :=
  (exists t, th s t <> PIdle) /\ forall t, cstep osl fx t s = SBlock.

Ltac unf := unfold sbind in *;
  repeat (match goal with
          | H : context [match ?x with _ => _ end] |- _ => destruct x eqn:?
          | |- context [match ?x with _ => _ end] => destruct x eqn:?
          end; try discriminate).

(** A thread that cannot go on waits for a latch that somebody owns. *)
Lemma waiting_wants fx s t : waiting fx s t ->
  exists a u, wants s t = Some a /\ six s a = Some u.
Proof.
  assert (Hf : forall a, negb (free s a) = true -> exists u, six s a = Some u).
  { intros a. unfold free. destruct (six s a); [eauto|discriminate]. }
  intros (Hi & Hs). unfold cstep, wants in *. destruct (th s t) eqn:E; try discriminate;
    try solve [unf].
  - congruence.
  - exists a. assert (Q : negb (free s a) = true); [|destruct (Hf _ Q); eauto].
    assert (HB : forall w, leaf_blocked osl s a c w = true -> negb (free s a) = true).
    { intros w. unfold leaf_blocked. destruct (is_read c); [discriminate|].
      destruct osl; auto. destruct w; [auto|discriminate]. }
    unf; eauto.
  - exists x. assert (Q : negb (free s x) = true); [|destruct (Hf _ Q); eauto].
    unf; apply andb_true_iff in Heqb0; tauto.
  - unf. exists a. destruct (Hf a); eauto.
  - exists x. assert (Q : negb (free s x) = true); [|destruct (Hf _ Q); eauto].
    unf; apply andb_true_iff in Heqb0; tauto.
  - unf. exists a. destruct (Hf a); eauto.
Qed.

(** ** The latches a thread holds *)
Definition held (s : cfg) (p : pc) (x : addr) : Prop :=
  match p with
  | PSplit _ a _ => x = a
  | PValid _ a r _ _ => x = a \/ x = r
  | PRetry _ _ _ y _ _ => x = y
  | PCompSplit _ _ p _ _ => x = p
  | PCompValid _ _ p pr _ _ _ => x = p \/ x = pr
  | PCompIns _ _ _ _ y _ _ _ => x = y
  | PFindRoot _ (KMerge _ l) _ _ r | PFind _ (KMerge _ l) _ _ _ r => x = l \/ x = r
  | PMerge _ _ _ l => x = l \/ exists n, ch s l = Some n /\ nd_next n = Some x
  | PMergeAt _ _ _ l r _ => x = l \/ x = r
  | PMrg1 _ l r up => x = l \/ x = r \/ exists p stk, up = Some (p, stk) /\ x = p
  | PMrg2 _ r _ up => x = r \/ exists p stk, up = Some (p, stk) /\ x = p
  | PShr _ p | PShrL _ p | PShrSt _ p | PShrEnd _ p => x = p
  | _ => False
  end.

Definition held_ok (s : cfg) : Prop := forall a u, six s a = Some u -> held s (th s u) a.

Section Step.
Context (s : cfg) (G : gh) (t : tid) (I : inv amap_empty s G) (HL : held_ok s).
Let H := i_heap _ _ _ I.

Lemma held_other s' : (forall u, u <> t -> th s' u = th s u) ->
  (forall b u, u <> t -> six s' b = Some u -> six s b = Some u) ->
  (forall b u, u <> t -> six s b = Some u -> ch s' b = ch s b) ->
  (forall a, six s' a = Some t -> held s' (th s' t) a) -> held_ok s'.
Proof.
  intros H1 H2 H3 H4 a u Ha. destruct (Nat.eq_dec u t) as [->|Hu]; auto.
  rewrite H1 by auto. pose proof (HL a u (H2 a u Hu Ha)) as Hh.
  destruct (th s u) eqn:E; auto. cbn [held] in *.
  pose proof (i_pc _ _ _ I u) as Hp. rewrite E in Hp. cbn [pc_ok] in Hp.
  rewrite (H3 l u Hu); auto. apply Hp.
Qed.

Lemma blocked_none x b : negb (free s x) && b = false -> b = true -> six s x = None.
Proof. intros Q ->. rewrite andb_true_r in Q. apply negb_false_iff in Q. now apply free_none. Qed.

Ltac oth := let b := fresh "b" in let u := fresh "u" in let Hu := fresh "Hu" in intros b u Hu; cbn; unfold supd, upd;
  repeat match goal with |- context [Nat.eqb ?a ?b] => destruct (Nat.eqb_spec a b); subst end;
  auto; try congruence.
Ltac ths := let u := fresh "u" in let Hu := fresh "Hu" in intros u Hu; cbn; rewrite ?supd_diff by auto; reflexivity.
Ltac mine E := let b := fresh "b" in let Hb := fresh "Hb" in let Hh := fresh "Hh" in intros b; cbn [th six goto own setp newp rootp emit ch]; rewrite ?supd_same, ?E;
  unfold supd;
  repeat match goal with |- context [Nat.eqb ?a ?b] => destruct (Nat.eqb_spec a b); subst end;
  intros Hb; try discriminate; auto;
  try (pose proof (HL _ _ Hb) as Hh; rewrite E in Hh; cbn [held] in Hh); try contradiction; cbn [held]; auto.

Lemma step_held l s' : cstep osl repaired t s = SOk l s' -> held_ok (emit s' l).
Proof.
  intros Hs. pose proof (i_pc _ _ _ I t) as Hp. unfold cstep in Hs.
  destruct (th s t) eqn:E; cbn [pc_ok] in Hp.
  - unf. injection Hs as <- <-. apply held_other; [ths|oth|oth|mine E].
  - injection Hs as <- <-. apply held_other; [ths|oth|oth|mine E].
  - assert (HB : forall w, w = true -> is_read c = false -> leaf_blocked osl s a c w = false -> six s a = None)
      by (intros; eapply blocked_six; eauto).
    destruct (ch s a) as [n|] eqn:Ea; [|discriminate]. cbn [sbind] in Hs.
    destruct (covers n (call_key c)) as [ok|] eqn:Eo; [|discriminate]. cbn [sbind] in Hs.
    destruct (nd_inner n) eqn:Ei.
    { unf; injection Hs as <- <-; (apply held_other; [ths|oth|oth|mine E]). }
    destruct ok.
    2:{ unf; injection Hs as <- <-; (apply held_other; [ths|oth|oth|mine E]). }
    destruct (leaf_op n c) as [lr|] eqn:El; [|discriminate]. cbn [sbind] in Hs.
    assert (Hrd : (forall r, lr <> Fail r) -> is_read c = false).
    { intros Q. destruct c; cbn in *; auto. destruct (nd_read n k); [|discriminate].
      injection El as <-. now elim (Q (RPayload o)). }
    destruct lr as [r|n'|n'|n'].
    + unf; injection Hs as <- <-; (apply held_other; [ths|oth|oth|mine E]).
    + destruct (leaf_blocked osl s a c true) eqn:Eb; [discriminate|].
      pose proof (HB _ eq_refl (Hrd ltac:(discriminate)) Eb) as Hf.
      injection Hs as <- <-; (apply held_other; [ths|oth|oth|mine E]).
    + destruct (leaf_blocked osl s a c true) eqn:Eb; [discriminate|].
      pose proof (HB _ eq_refl (Hrd ltac:(discriminate)) Eb) as Hf.
      injection Hs as <- <-; (apply held_other; [ths|oth|oth|mine E]).
    + destruct (leaf_blocked osl s a c true) eqn:Eb; [discriminate|].
      pose proof (HB _ eq_refl (Hrd ltac:(discriminate)) Eb) as Hf.
      injection Hs as <- <-; (apply held_other; [ths|oth|oth|mine E]).
  - (* PSplit *)
    destruct Hp as (_ & _ & Ho & Hl & _). unfold owns in Ho.
    pose proof (i_fresh _ _ _ I (cfr s) (le_n _)) as Hf.
    unf; injection Hs as <- <-; (apply held_other; [ths|oth|oth|mine E]).
  - (* PValid *)
    destruct Hp as (_ & _ & (Ho & Ho2 & _) & _). unfold owns in *.
    unf; injection Hs as <- <-; (apply held_other; [ths|oth|oth|mine E]); tauto.
  - (* PRetry *)
    destruct Hp as (Hk & Hput & Ho & Hl & Hlv & Hrng & Hfree & (d & Ed & Hroom) & _). unfold owns in *.
    destruct (leaf_live amap_empty s G I t0 d Hl Ed Hlv) as (Hn & Hi & Hok).
    rewrite Ed in Hs. cbn [sbind] in Hs.
    assert (HE : exists n', leaf_op2 d c = Some (kCompleted, n')).
    { destruct c as [k|k v|k v|k v|k]; cbn in Hput; try tauto; cbn [leaf_op2 call_key] in *.
      - destruct (L_write2 d (av G t0) k v (n_rep _ _ _ _ Hn) Hi Hok Hk Hroom Hfree) as
          (n' & A' & Q1 & _). eauto.
      - destruct (L_insert2 d (av G t0) k v (n_rep _ _ _ _ Hn) Hi Hok Hk Hroom Hfree) as
          (n' & A' & Q1 & _). eauto. }
    destruct HE as (n' & E2). rewrite E2 in Hs. cbn [sbind] in Hs.
    injection Hs as <- <-; (apply held_other; [ths|oth|oth|mine E]); congruence.
  - (* PSep *)
    cbn [fx_sep repaired] in Hs. injection Hs as <- <-.
    (apply held_other; [ths|oth|oth|]). mine E.
  - (* PComp *)
    unf; injection Hs as <- <-;
      try match goal with B : negb (free s ?x) && _ = false |- _ =>
        pose proof (blocked_none _ _ B ltac:(now rewrite ?orb_true_r)) end;
      (apply held_other; [ths|oth|oth|mine E]).
  - (* PCompSplit *)
    destruct Hp as (_ & Ho & Hl & _). unfold owns in Ho.
    pose proof (i_fresh _ _ _ I (cfr s) (le_n _)) as Hf.
    unf; injection Hs as <- <-; (apply held_other; [ths|oth|oth|mine E]).
  - (* PCompValid *)
    destruct Hp as (_ & _ & (Ho & Ho2 & _) & _). unfold owns in *.
    unf; injection Hs as <- <-; (apply held_other; [ths|oth|oth|mine E]); tauto.
  - (* PCompIns *)
    destruct Hp as (Hpend & Hpp & Ho & Hl & Hlv & Hrng & (d & Ed & Hroom) & _). unfold owns in *.
    rewrite Ed in Hs. cbn [sbind] in Hs. pose proof Hpend as (Pr & Plo & Pne).
    pose proof (h_node _ _ _ _ _ H t0 d Ed (live_not_removed _ _ _ _ _ _ _ H Ed (proj2 Hl))) as Hn.
    destruct (pend_range amap_empty s G H r sep t0 d Hpend Hl Ed Hlv (proj1 Hrng) (proj2 Hrng)) as (V4 & V5).
    destruct (node_inner _ _ _ _ Hn ltac:(lia)) as (Hi & Hok).
    destruct (L_insert_child d (av G t0) r sep (n_rep _ _ _ _ Hn) Hi Hok
      (h_key _ _ _ _ _ H r sep (proj1 Pr) Plo) V5) as
      (rc & n' & A' & E1 & HA & HF & [(-> & _)|(-> & -> & Hspl & Hno)]);
      rewrite E1 in Hs; cbn [sbind] in Hs; [|now elim Hno].
    injection Hs as <- <-; (apply held_other; [ths|oth|oth|mine E]); congruence.
  - unf; injection Hs as <- <-; (apply held_other; [ths|oth|oth|mine E]).
  - pose proof (i_fresh _ _ _ I (cfr s) (le_n _)) as Hf.
    unf; injection Hs as <- <-; (apply held_other; [ths|oth|oth|mine E]).
  - (* PFindRoot *)
    unf; injection Hs as <- <-; (apply held_other; [ths|oth|oth|mine E]).
  - (* PFind *)
    destruct Hp as (Hk & _). destruct k as [l0 r0 sep|node l0].
    + assert (Hc : forall stk0 x, held s (comp rt0 stk0 l0 r0 sep) x <-> False)
        by (intros [|]; reflexivity).
      unf; injection Hs as <- <-; (apply held_other; [ths|oth|oth|mine E]).
    + unf; injection Hs as <- <-; (apply held_other; [ths|oth|oth|mine E]).
      apply Nat.eqb_eq in Heqb1. subst. destruct Hk as ((K1 & K2 & K3 & K4 & K5) & _).
      destruct (live_node _ _ _ _ _ _ H (proj1 K3) (proj2 K3)) as (d & Ed & _ & Hn).
      destruct (L_hdr _ _ (n_rep _ _ _ _ Hn)) as (_ & _ & I3 & _).
      destruct Hh as [->| ->]; [auto|]. right. exists d. split; auto. congruence.
  - (* PMerge *)
    destruct Hp as (Ho & Hl & Hc). unfold owns in Ho.
    unf; injection Hs as <- <-;
      try match goal with B : negb (free s ?x) = false |- _ =>
        apply negb_false_iff, free_none in B end;
      (apply held_other; [ths|oth|oth|mine E]).
    all: destruct Hh as [Hh|(? & Hh1 & Hh2)]; try congruence; auto.
  - (* PMergeAt *)
    destruct Hp as ((K1 & K2 & K3 & K4 & K5) & _). unfold owns in K1, K2.
    unf; injection Hs as <- <-;
      try match goal with B : negb (free s ?x) && _ = false |- _ =>
        pose proof (blocked_none _ _ B ltac:(now rewrite ?orb_true_r)) end;
      (apply held_other; [ths|oth|oth|mine E]); try tauto.
    all: try (destruct Hh; subst; eauto; congruence).
    all: try (right; right; eauto; fail).
    destruct (live_node _ _ _ _ _ _ H (proj1 K3) (proj2 K3)) as (d & Ed & _ & Hn).
    destruct (L_hdr _ _ (n_rep _ _ _ _ Hn)) as (_ & _ & I3 & _).
    destruct Hh as [->| ->]; [auto|]. right. exists d. split; auto. congruence.
  - (* PMrg1 *)
    destruct Hp as ((K1 & K2 & K3 & K4 & K5) & _). unfold owns in K1, K2.
    unf; injection Hs as <- <-; (apply held_other; [ths|oth|oth|mine E]).
    destruct Hh as [Hh|[Hh|Hh]]; auto. congruence.
  - (* PMrg2 *)
    destruct Hp as (Ho & _). unfold owns in Ho.
    unf; injection Hs as <- <-; (apply held_other; [ths|oth|oth|mine E]).
    all: destruct Hh as [Hh|(p0 & stk0 & Q & Hh)]; try congruence.
    + left. congruence.
  - (* PShr *)
    destruct Hp as (Ho & _). unfold owns in Ho.
    unf; injection Hs as <- <-; (apply held_other; [ths|oth|oth|mine E]).
  - (* PShrL *)
    destruct Hp as (Ho & _). unfold owns in Ho.
    unf; injection Hs as <- <-;
      try match goal with B : negb (free s ?x) = false |- _ =>
        apply negb_false_iff, free_none in B end;
      (apply held_other; [ths|oth|oth|mine E]); congruence.
  - (* PShrSt *)
    injection Hs as <- <-; (apply held_other; [ths|oth|oth|mine E]).
  - destruct Hp. unf; injection Hs as <- <-; (apply held_other; [ths|oth|oth|mine E]); congruence.
  - unf; injection Hs as <- <-; (apply held_other; [ths|oth|oth|mine E]).
Qed.
End Step.

Lemma init_held prog : held_ok (cinit prog).
Proof. intros a u Ha. discriminate. Qed.

Lemma run_held : forall sched s G, inv amap_empty s G -> held_ok s ->
  exists s' G', crun osl repaired s sched = Some s' /\ inv amap_empty s' G' /\ held_ok s'.
Proof.
  induction sched as [|t sched IH]; intros s G I HL; cbn [crun]; [eauto|].
  pose proof (step_good amap_empty osl s G t I) as Hs.
  destruct (cstep osl repaired t s) as [l s'| |] eqn:E; cbn in Hs.
  - destruct Hs as (G' & I' & _). exact (IH _ G' I' (step_held s G t I HL l s' E)).
  - eauto.
  - destruct Hs.
Qed.

(** ** Programs without Delete *)
Definition is_del (c : call) : bool := match c with CDelete _ => true | _ => false end.

Definition plain (p : pc) : Prop :=
  match p with
  | PRoot c | PDesc c _ _ | PSplit c _ _ | PValid c _ _ _ _ | PRetry c _ _ _ _ _ => is_del c = false
  | PFindRoot _ (KMerge _ _) _ _ _ | PFind _ (KMerge _ _) _ _ _ _ => False
  | PMerge _ _ _ _ | PMergeAt _ _ _ _ _ _ | PMrg1 _ _ _ _ | PMrg2 _ _ _ _
  | PShr _ _ | PShrL _ _ | PShrSt _ _ | PShrEnd _ _ => False
  | _ => True
  end.

Definition plain_cfg (s : cfg) : Prop :=
  forall t, plain (th s t) /\ forall c, In c (pg s t) -> is_del c = false.

Lemma plain_upd s s' l t : plain_cfg s -> (forall u, u <> t -> th s' u = th s u) ->
  (forall u c, In c (pg s' u) -> In c (pg s u)) -> plain (th s' t) -> plain_cfg (emit s' l).
Proof.
  intros Hp H1 H2 H3 u. cbn. split; [|intros c Hc; apply (Hp u), H2, Hc].
  destruct (Nat.eq_dec u t) as [->|Hu]; auto. rewrite H1 by auto. apply Hp.
Qed.

Lemma leaf_op_merge n c n' : leaf_op n c = Some (NMerge n') -> is_del c = true.
Proof.
  destruct c; cbn; auto; repeat (match goal with |- context [match ?x with _ => _ end] => destruct x end;
    try discriminate).
Qed.

Lemma plain_step fx t s l s' : plain_cfg s -> cstep osl fx t s = SOk l s' -> plain_cfg (emit s' l).
Proof.
  intros Hp Hs. destruct (Hp t) as (Ht & Hg).
  assert (Hcomp : forall rt0 stk a r sep, plain (comp rt0 stk a r sep)) by (intros ? [|]; cbn; auto).
  unfold cstep in Hs. destruct (th s t) eqn:E; cbn [plain] in Ht; try contradiction;
  try (match goal with k : kont |- _ => destruct k; try contradiction end).
  all: unf; injection Hs as <- <-; apply (plain_upd s _ _ t); auto;
    try (intros u Hu; cbn; rewrite ?supd_diff by auto; reflexivity);
    try (cbn [th goto own setp newp rootp]; rewrite ?supd_same, ?E; cbn [plain]; auto; fail).
  - intros u c'. cbn. unfold supd. destruct (Nat.eqb_spec u t) as [->|]; auto.
    rewrite Heql0. intros; now right.
  - cbn. rewrite supd_same. cbn. apply Hg. now left.
  - cbn. rewrite supd_same. cbn. apply leaf_op_merge in Heqo1. congruence.
Qed.

Lemma plain_run fx : forall sched s s', plain_cfg s -> crun osl fx s sched = Some s' -> plain_cfg s'.
Proof.
  induction sched as [|t sched IH]; intros s s' Hp Hr; cbn [crun] in Hr; [now injection Hr as <-|].
  destruct (cstep osl fx t s) eqn:E; try discriminate; eauto. eapply IH; [|eassumption].
  eapply plain_step; eauto.
Qed.

(** Nobody waits for a thread that waits. *)
Lemma plain_progress s fx : plain_cfg s -> held_ok s -> ~ deadlocked fx s.
Proof.
  intros Hp HL ((t & Ht) & Hd).
  destruct (waiting_wants fx s t) as (a & u & _ & Hu); [split; auto|].
  pose proof (HL a u Hu) as Hh. destruct (Hp u) as (Hpu & _). specialize (Hd u).
  unfold cstep in Hd. destruct (th s u) eqn:E; cbn [plain held] in *; try contradiction;
    try (destruct k; contradiction); unf.
Qed.

End ConcWait.
