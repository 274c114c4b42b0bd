(** The concurrent optimistic multi-layer tree, as repaired: executions and waiting.
    Proof-side only. *)
From Coq Require Import List Arith Bool Lia Sorted Permutation.
From Verif Require Import Params Mem Common Spec NodeAbs SLIface MLIface TreeState Levels TreeHeap
  LevelOps SLModel SLSearch SLSplit SLMerge SLProofs MLModel MLSearch MLSteps MLProofs ConcSpec ConcModel
  ConcLin MConcModel MConcInv MConcSteps MConcMain OLaws OConcModel OConcInv OConcSteps.
Import ListNotations.

Section OConcMain.
Context {P : Params} {O : OrdLaws P} {N : MLOps P} {LW : MLLaws P N} {OW : OMLaws P N LW}.
#[local] Existing Instance no_leak.
Notation hinv := (@hinv P no_leak mn mrep).

Lemma oinit_inv prog : (forall t c, In c (prog t) -> mvalid (call_key c)) -> inv (oinit prog).
Proof.
  intros Hk.
  exists [[(1, ANode false false None None None [])]], (och (oinit prog)), (fun _ => NegInf).
  assert (HT : dtree [[(1, ANode false false None None None [])]] 1).
  { split; [|reflexivity]. split; [|split; [auto|reflexivity]].
    split; cbn; try (intros; tauto); auto; try discriminate. split; constructor. }
  assert (HF : hinv (och (oinit prog)) 2 [] (concat [[(1, ANode false false None None None [])]])).
  { unfold TreeHeap.hinv. cbn. constructor; cbn.
    + repeat constructor. intros [].
    + intros a. destruct (Nat.eqb_spec a 1); split; intros; try congruence; auto.
      destruct H as [H|[]]. congruence.
    + intros a. destruct (Nat.eqb_spec a 1); intros H; [lia|congruence].
    + intros a n [Hin|[]]. inversion Hin; subst. eexists. split; [reflexivity|]. apply M_root0. }
  assert (HL : lorel (fun _ => NegInf) [[(1, ANode false false None None None [])]]).
  { intros L e a [<-|[]] [H|[]]. now inversion H. }
  split.
  - constructor; cbn [oinit och ort ofr ovs osx ogb oac oth opg otr]; auto.
    + intros a. destruct (Nat.eqb_spec a 1); [lia|congruence].
    + intros a n Ha Hr. exfalso. rewrite (alive_not_removed _ _ _ _ _ HT HF HL a n Ha) in Hr. discriminate.
    + intros a m Hm. exists m. auto.
    + intros a n Ha. eapply (okp_alive _ _ _ _ _ HT HF HL); [|exact Ha]. intros x m Hx. eauto.
    + intros u a. cbn. split; [discriminate|tauto].
    + intros u. exact Logic.I.
    + intros u. cbn. congruence.
    + constructor.
    + intros u. reflexivity.
  - constructor; cbn [oinit och ort ofr ovs osx ogb oac oth opg otr]; try discriminate; try tauto.
    + intros u v r [].
Qed.

Theorem orun_inv : forall sched s, inv s ->
  exists s', orun true s sched = Some s' /\ inv s'.
Proof.
  induction sched as [|t sched IH]; intros s I; cbn [orun]; [eauto|].
  destruct I as (Ls & hv & lo & V & G).
  pose proof (ostep_good s Ls hv lo t V G) as Q. unfold ogood in Q.
  destruct (ostep true t s) as [l s'| |]; [apply IH; now apply nxt_inv in Q| |destruct Q].
  apply IH. now exists Ls, hv, lo.
Qed.

Theorem inv_linearizable s : inv s -> linearizable amap_empty (ohistory s).
Proof. intros (Ls & hv & lo & V & G). apply jtrace_linearizable. apply (i_trace _ _ _ _ V). Qed.

Theorem inv_idle s t a : inv s -> oth s t = OIdle -> osx s a <> Some t.
Proof.
  intros (Ls & hv & lo & V & G) E H. apply (i_own _ _ _ _ V) in H. rewrite E in H. destruct H.
Qed.

(** ** Waiting *)
Section Wait.
Context (s : ocfg) (Ls : list lvl) (hv : addr -> option mn) (lo : addr -> ext).
Context (V : oinv s Ls hv lo) (G : ginv s hv).
Let HT : dtree Ls (ort s) := i_tree _ _ _ _ V.
Let HF : hinv hv (ofr s) [] (concat Ls) := i_heap _ _ _ _ V.
Let HL : lorel lo Ls := i_lo _ _ _ _ V.
Notation H := (hgt Ls).

Definition rko (p : opc) : nat :=
  match p with
  | OSpB _ a _ _ _ _ | OMgB _ a _ _ _ _ | OMgC _ a _ _ _ => H a
  | OSpC _ _ _ _ _ _ _ | OMg1 _ _ _ _ _ | OMg3 _ _ _ _ _ _ => 0
  | _ => S (length Ls)
  end.

Lemma owns u x : In x (sxo (oth s u)) -> osx s x = Some u.
Proof. apply (i_own _ _ _ _ V). Qed.

Lemma ab_parent u c a b pos : wrc c -> here s lo u (call_key c) a -> now s (rt (call_key c) b pos) a ->
  osx s a = Some u -> pnd (oth s u) = [] ->
  parent Ls a b /\ forall d r, och s a = Some d -> mn_child d (pos + 1) = Some r -> pos + 1 <> mn_rc d ->
  parent Ls a r /\ r <> a /\ r <> b.
Proof.
  intros Hc Ha Hn Ho Hp.
  destruct (ab_at s Ls hv lo u V c a b pos Hc Ha Hn Ho Hp) as
    (U & L1 & n & L2 & s1 & s0 & s2 & C1 & m & C2 & D & d & db & EL & Epos & CX & Ed & Hva & Hrep & Hrd & Erd & Hin & Hvb & Hmb & Hab & HF2).
  split.
  - destruct Hn as (d' & Ed' & _ & _ & _ & Hch & Hrt). assert (d' = d) by congruence. subst d'.
    destruct (alive_route _ _ _ _ _ HT HF HL a d (call_key c) Hva Hin (proj2 Hc) (proj1 (proj2 Ha)) Hch)
      as (pos' & b' & E1 & E2 & E3 & E4). rewrite E1 in Hrt. injection Hrt as -> ->.
    eapply (kid_parent _ _ _ _ _ HT HF HL); eauto.
  - intros d' r Ed' Hch Hrc. assert (d' = d) by congruence. subst d'.
    destruct (right_core _ _ _ _ _ _ _ _ _ _ _ _ _ CX d Hrep) as [[Hrc' _]|(r0 & m2 & C2' & sl' & s2' & _ & Hs2 & HC2 & Hr)];
      [congruence|].
    rewrite <- Epos, Hch in Hr. injection Hr as <-.
    assert (HF3 : hinv hv (ofr s) [] ((a, n) :: (b, m) :: (r, m2) :: (concat U ++ L1 ++ L2 ++ C1 ++ C2' ++ concat D))).
    { eapply hinv_perm; [|exact HF2]. rewrite HC2. pfront. do 2 apply perm_skip. reflexivity. }
    split; [|split].
    + eapply (kid_parent _ _ _ _ _ HT HF HL); [exact Hva|exact Hin|]. exists (pos + 1). split; [|auto].
      rewrite (proj2 (proj2 (proj2 (M_hdr _ _ Hrep)))), (cx_sl _ _ _ _ _ _ _ _ _ _ _ _ _ CX), app_length.
      rewrite Hs2. cbn [length]. lia.
    + eapply (hinv_neq _ _ _ _ [] a n); [exact HF3|]. right. now left.
    + eapply (hinv_neq _ _ _ _ [(a, n)] b m); [exact HF3|]. right. now left.
Qed.

(** Who owns [x], and what it will wait for. *)
Lemma owner_rank u x : osx s x = Some u -> rko (oth s u) <= H x \/ exists a, parent Ls a x /\ osx s a = Some u.
Proof.
  intros Ho. pose proof (proj1 (i_own _ _ _ _ V u x) Ho) as Hi. pose proof (i_pc _ _ _ _ V u) as Hp.
  pose proof (owns u) as Hw.
  destruct (oth s u) eqn:E; cbn [sxo In] in Hi, Hw; cbn [pcok] in Hp; try tauto; cbn [rko].
  - destruct Hi as [->|[]]. left. lia.
  - left. lia.
  - destruct Hi as [->|[]]. left. lia.
  - destruct Hi as [->|[->|[]]]; [left; lia|right]. destruct Hp as ((H1 & H2 & H3 & H4) & _).
    assert (Hoa : osx s a = Some u) by auto.
    exists a. split; [|auto]. apply (ab_parent u c a x pos H1 H2 H4 Hoa). now rewrite E.
  - left. lia.
  - left. lia.
Qed.

Lemma wait_child t a b : parent Ls a b -> osx s a = Some t -> osx s b <> None -> osx s b <> Some t ->
  exists u, u <> t /\ oth s u <> OIdle /\ rko (oth s u) < H a.
Proof.
  intros Hp Ho Hb Hbt. destruct (osx s b) as [u|] eqn:Eb; [|congruence].
  exists u. split; [congruence|]. split.
  { intros E. apply (i_own _ _ _ _ V) in Eb. rewrite E in Eb. destruct Eb. }
  pose proof (parent_hgt Ls (ort s) HT (nodup_ls _ _ _ HF) a b Hp) as Eh.
  destruct (owner_rank u b Eb) as [Hr|(a' & Hp' & Ho')]; [lia|].
  exfalso. assert (a' = a) by (eapply (parent_uniq Ls (ort s) HT (nodup_ls _ _ _ HF)); eauto).
  congruence.
Qed.

Lemma wait_any t x : rko (oth s t) = S (length Ls) -> sxo (oth s t) = [] -> osx s x <> None ->
  exists u, oth s u <> OIdle /\ rko (oth s u) < rko (oth s t).
Proof.
  intros Hr Hs Hx. destruct (osx s x) as [u|] eqn:Ex; [|congruence].
  pose proof (proj1 (i_own _ _ _ _ V u x) Ex) as Hi. exists u.
  split; [intros E; rewrite E in Hi; destruct Hi|]. rewrite Hr.
  pose proof (i_pc _ _ _ _ V u) as Hp. pose proof (hgt_le Ls) as Hle.
  destruct (oth s u); cbn [sxo In] in Hi; cbn [rko]; try tauto; try lia; try (specialize (Hle a); lia).
  all: destruct Hp.
Qed.

Lemma ofree_owned x : ofree s x = false -> osx s x <> None.
Proof. unfold ofree. destruct (osx s x); congruence. Qed.

Theorem oblocked t : oth s t <> OIdle -> ostep true t s = XBlock ->
  exists u, oth s u <> OIdle /\ rko (oth s u) < rko (oth s t).
Proof.
  intros Ht Hs. pose proof (i_pc _ _ _ _ V t) as Hp. pose proof (owns t) as Hw.
  unfold ostep in Hs. destruct (oth s t) eqn:E; try congruence; cbn [pcok sxo In] in Hp, Hw.
  Ltac dig Hs := repeat (unfold xbind in Hs; match type of Hs with
    | context [match ?e with _ => _ end] =>
        match e with
        | ofree _ ?x => destruct e eqn:?; try discriminate Hs
        | _ => destruct e eqn:?; try discriminate Hs
        end
    end).
  all: try (dig Hs; fail).
  all: try (dig Hs; rewrite <- E; eapply (wait_any t); rewrite ?E; [reflexivity|reflexivity|eapply ofree_owned; eassumption]).
  all: cbn [rko].
  - (* OSpB *) destruct Hp as ((H1 & H2 & H3 & H4) & _).
    assert (Hoa : osx s a = Some t) by auto.
    assert (Hpar : parent Ls a b) by (apply (ab_parent t c a b pos H1 H2 H4 Hoa); now rewrite E).
    destruct (wait_child t a b) as (u & _ & Hu); eauto.
    + dig Hs. now apply ofree_owned.
    + intros Hb. apply (i_own _ _ _ _ V) in Hb. rewrite E in Hb. destruct Hb as [->|[]].
      pose proof (parent_hgt Ls (ort s) HT (nodup_ls _ _ _ HF) b b Hpar). lia.
  - (* OMgB *) destruct Hp as ((H1 & H2 & H3 & H4) & _).
    assert (Hoa : osx s a = Some t) by auto.
    assert (Hpar : parent Ls a b) by (apply (ab_parent t c a b pos H1 H2 H4 Hoa); now rewrite E).
    destruct (wait_child t a b) as (u & _ & Hu); eauto.
    + dig Hs. now apply ofree_owned.
    + intros Hb. apply (i_own _ _ _ _ V) in Hb. rewrite E in Hb. destruct Hb as [->|[]].
      pose proof (parent_hgt Ls (ort s) HT (nodup_ls _ _ _ HF) b b Hpar). lia.
  - (* OMgC *) destruct Hp as ((H1 & H2 & H3 & H4) & _).
    unfold xbind in Hs. destruct (opage s a) as [pn|] eqn:Ea; [|discriminate].
    destruct (opage s b) as [n|]; [|discriminate]. destruct (Nat.eqb_spec (pos + 1) (mn_rc pn)) as [|Hrc]; [discriminate|].
    destruct (mn_child pn (pos + 1)) as [r|] eqn:Er; [|discriminate].
    destruct (opage s r); [|discriminate]. destruct (ofree s r) eqn:Ef; [destruct (mn_can_merge n m); discriminate|].
    assert (Eo : och s a = Some pn).
    { rewrite <- (opage_held s t a); [exact Ea|apply H2]. }
    destruct (ab_parent t c a b pos H1 H2 H4 ltac:(auto) ltac:(now rewrite E)) as (_ & Q).
    destruct (Q pn r Eo Er Hrc) as (Hpar & Hra & Hrb).
    destruct (wait_child t a r) as (u & _ & Hu); eauto.
    + now apply ofree_owned.
    + intros Hb. apply (i_own _ _ _ _ V) in Hb. rewrite E in Hb. cbn in Hb. intuition congruence.
  - (* OWl *) dig Hs.
    all: change (S (length Ls)) with (rko (OWl c a)); rewrite <- E; apply (wait_any t a); rewrite ?E; auto; now apply ofree_owned.
Qed.

Theorem oprogress t : oth s t <> OIdle -> exists u l s', oth s u <> OIdle /\ ostep true u s = XOk l s'.
Proof.
  remember (rko (oth s t)) as r eqn:Er. revert t Er.
  induction r as [r IH] using (well_founded_induction lt_wf). intros t -> Ht.
  pose proof (ostep_good s Ls hv lo t V G) as Q. unfold ogood in Q.
  destruct (ostep true t s) as [l s'| |] eqn:E; [eauto| |destruct Q].
  destruct (oblocked t Ht E) as (u & Hu & Hr). eapply IH; eauto.
Qed.

End Wait.
End OConcMain.
