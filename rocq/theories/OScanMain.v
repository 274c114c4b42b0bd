(** Executions of the optimistic multi-layer tree with scans.  This file is proof-side only,
    except for the definition of calm executions. *)
From Coq Require Import List Arith Bool Lia Sorted.
From Verif Require Import Params Mem Common Spec ConcSpec ScanSpec NodeAbs SLIface BaseIface MLIface
  IterModel IterProofs TreeState Levels TreeHeap LevelOps SLModel SLSearch SLProofs MLModel MLSearch MLSteps
  ConcModel ConcLin ConcInv MConcModel MConcInv MConcSteps MConcMain OLaws OConcModel OConcInv OConcSteps
  OConcMain OConcCalm CScanModel CScanLin CScanProofs MScanModel MScanProofs MLeak OScanModel OScanProofs.
Import ListNotations.

Section Calm.
Context {P : Params} {N : MLOps P}.

(** The page the next step of a scanner looks at, and whether it reads root_. *)
Definition utouch (p : upc) : list addr :=
  match p with
  | UDesc _ _ a | UReset _ _ a _ _ | UPos _ _ a _ _ _ | UEnd _ _ a _ _ _ _ | ULoop _ _ a _ _ _ _ _ _ => [a]
  | UIdle | URoot _ _ | URet _ _ _ => []
  end.
Definition uroots (p : upc) : bool := match p with URoot _ _ => true | _ => false end.

(** The move does not meet a half-finished Merge or TryShrinkTree of a caller (see OConcCalm.v). *)
Definition half_calm (v : umove) (s : ucfg) : bool :=
  match v with
  | UCall t => ocalm_at t (ub s)
  | UScan u _ =>
      forallb (fun w =>
        forallb (fun r => negb (existsb (Nat.eqb r) (utouch (uth s u)))) (half (oth (ub s) w)) &&
        negb (halfroot (oth (ub s) w) && uroots (uth s u))) (oac (ub s))
  | UStop _ => true
  end.

(** The scanner does not go wrong by itself. *)
Definition scan_calm (v : umove) (s : ucfg) : bool :=
  match v with UScan u _ => scan_ok (ub s) (uth s u) | _ => true end.

(** All moves made from [s] on are such that [p]. *)
Fixpoint always (fx : bool) (p : umove -> ucfg -> bool) (s : ucfg) (sched : list umove) : bool :=
  match sched with
  | [] => true
  | v :: sched' =>
      match ustep fx v s with
      | UOk s' => p v s && always fx p s' sched'
      | UBlock => always fx p s sched'
      | UUndef => p v s
      end
  end.

End Calm.

Section OScanMain.
Context {P : Params} {O : OrdLaws P} {N : MLOps P} {LW : MLLaws P N} {OW : OMLaws P N LW}.
#[local] Existing Instance no_leak.

Ltac flds := cbn [o_goto o_set o_new o_root o_own o_retire o_emit o_begin o_end o_guard och ort ofr ovs osx ogb oac oth opg otr].

(** What a step of a caller leaves alone. *)
Lemma ostep_else fx t s l s' : ostep fx t s = XOk l s' ->
  otr s' = otr s /\ forall u, u <> t -> oth s' u = oth s u /\ (In u (oac s') <-> In u (oac s)).
Proof.
  intros Hs. unfold ostep, xbind in Hs. cbv zeta in Hs.
  repeat (match type of Hs with context [match ?x with _ => _ end] => destruct x eqn:? end; try discriminate);
    injection Hs as <- <-; flds; (split; [reflexivity|]); intros u Hu; (split; [now apply supd_diff|]); try tauto.
  all: first [rewrite in_drop; tauto | cbn [In]; split; [intros [Q|Q]; [congruence|auto]|auto]].
Qed.

(** ** The repaired tree *)
Section Repaired.
Context (cl : bool).
Notation uinv := (uinv cl).

Definition ufine (v : umove) (s : ucfg) (lw : addr -> ext) : Prop :=
  match ustep true v s with
  | UOk s' => exists Ls hv lw', uinv s' Ls hv lw' /\ forall x, och (ub s) x <> None -> lw' x = lw x
  | UBlock => True
  | UUndef => False
  end.

Lemma call_ufine s Ls hv lw t : uinv s Ls hv lw -> ufine (UCall t) s lw.
Proof.
  intros Q. unfold ufine. cbn [ustep]. destruct (uth s t) eqn:Et; auto.
  pose proof (ostep_good (ub s) Ls hv lw t (u_base _ _ _ _ _ Q) (u_garb _ _ _ _ _ Q)) as H. unfold ogood in H.
  destruct (ostep true t (ub s)) as [l c| |] eqn:E; auto.
  destruct H as (Ls' & hv' & lw' & V' & G' & F). exists Ls', hv', lw'.
  split; [|exact (fr_lo _ _ _ _ _ _ _ F)].
  destruct (ostep_else _ _ _ _ _ E) as (Etr & He).
  assert (Htr : otr (o_emit c l) = otr (ub s) ++ [l]) by (flds; now rewrite Etr).
  constructor; cbn [ub uth uq ulg]; try apply Q; auto.
  - now rewrite unmark_snoc, Htr, (u_log _ _ _ _ _ Q).
  - intros Hc. apply right_snoc; [now apply Q|]. discriminate.
  - intros u. pose proof (u_scan _ _ _ _ _ Q u) as Hu. unfold upc_ok in *.
    destruct (ubounds (uth s u)) as [[lo hi]|] eqn:Eb; auto. destruct Hu as (U1 & U2 & V1 & V2 & i0 & Hr & Hb).
    assert (Hut : u <> t) by (intros ->; rewrite Et in Eb; discriminate).
    destruct (He u Hut) as (E1 & E2). split; [flds; congruence|]. split; [flds; now apply E2|].
    split; [auto|]. split; [auto|]. exists i0. split; [apply running_snoc; auto; discriminate|].
    eapply (ubody_later cl (ub s) _ hv hv' lw lw' t u F Hut U2 [l]); eauto.
Qed.

(** Scanner [u] leaves its scan. *)
Lemma leave_inv s Ls hv lw u T : uinv s Ls hv lw -> oth (ub s) u = OIdle ->
  unmark T = unmark (ulg s) -> (cl = true -> trace_right amap_empty T) ->
  (forall v lo hi i0, v <> u -> running (ulg s) v lo hi i0 -> running T v lo hi i0) ->
  uinv (UCfg (o_end (ub s) u) (supd (uth s) u UIdle) (uq s) T) Ls hv lw.
Proof.
  intros Q Hi HT Hr Hrun.
  pose proof (unguard_inv (ub s) Ls hv lw u (u_base _ _ _ _ _ Q) (u_garb _ _ _ _ _ Q) Hi) as (V' & G').
  constructor; cbn [ub uth uq ulg]; auto; try apply Q.
  - flds. rewrite HT. apply Q.
  - intros v. unfold supd. destruct (Nat.eqb_spec v u) as [->|Hv]; [exact Logic.I|].
    pose proof (u_scan _ _ _ _ _ Q v) as Hu. unfold upc_ok in *.
    destruct (ubounds (uth s v)) as [[lo hi]|]; auto. destruct Hu as (U1 & U2 & V1 & V2 & i0 & Hr0 & Hb).
    split; [auto|]. split; [flds; apply in_drop; auto|]. split; [auto|]. split; [auto|]. exists i0.
    split; [auto|].
    eapply (ubody_later cl (ub s) _ hv hv lw lw u v (unguard_frame (ub s) hv lw u) Hv U2 []); auto.
    flds. now rewrite app_nil_r.
Qed.

Lemma scan_ufine s Ls hv lw u chk : uinv s Ls hv lw -> (cl = true -> scan_calm (UScan u chk) s = true) ->
  ufine (UScan u chk) s lw.
Proof.
  intros Q Hc. unfold ufine. cbn [ustep].
  pose proof (u_base _ _ _ _ _ Q) as V. pose proof (u_garb _ _ _ _ _ Q) as G.
  pose proof (u_scan _ _ _ _ _ Q u) as Hu. unfold upc_ok in Hu.
  destruct (ubounds (uth s u)) as [[lo hi]|] eqn:Eb.
  - destruct Hu as (U1 & U2 & V1 & V2 & i0 & Hr & Hb).
    assert (Hi0 : i0 <= length (otr (ub s))) by (rewrite (u_log _ _ _ _ _ Q); eapply running_len; eauto).
    destruct (uscan_body cl s Ls hv lw i0 u V G Hi0 chk lo hi Eb V1 V2 Hb Hc) as [(acc & E)|(p' & -> & Eb' & Hb')].
    + unfold scano_step. rewrite E in *. exists Ls, hv, lw. split; [|auto]. apply leave_inv; auto.
      * rewrite unmark_app. cbn [unmark]. now rewrite app_nil_r.
      * intros Hcl. apply right_snoc; [now apply Q|]. intros u' rs [= <- <-]. exists lo, hi, i0. split; [auto|].
        rewrite <- (u_log _ _ _ _ _ Q). now apply Hb.
      * intros v lo' hi' j0 Hv. apply running_snoc. intros m [= <-]. cbn. auto.
    + exists Ls, hv, lw. split; [|auto]. constructor; cbn [ub uth uq ulg]; try apply Q.
      intros v. unfold supd. destruct (Nat.eqb_spec v u) as [->|Hv]; [|apply Q].
      unfold upc_ok. rewrite Eb', Eb. split; [auto|]. split; [auto|]. split; [auto|]. split; [auto|]. exists i0. auto.
  - assert (E : uth s u = UIdle) by (destruct (uth s u); (discriminate || reflexivity)).
    unfold scano_step. rewrite E. destruct (oth (ub s) u) eqn:Eo; auto.
    destruct (uq s u) as [|[lo hi] q] eqn:Eq; auto. exists Ls, hv, lw.
    destruct (u_q _ _ _ _ _ Q u lo hi) as (V1 & V2); [rewrite Eq; now left|].
    destruct (guard_inv (ub s) Ls hv lw u V G) as (V' & G'). split; [|auto].
    constructor; cbn [ub uth uq ulg]; auto.
    + flds. rewrite (u_log _ _ _ _ _ Q), unmark_app. cbn [unmark]. now rewrite app_nil_r.
    + intros Hcl. apply right_snoc; [now apply Q|]. discriminate.
    + intros v. unfold supd. destruct (Nat.eqb_spec v u) as [->|Hv].
      * unfold upc_ok. cbn [ubounds]. split; [auto|]. split; [now left|]. split; [auto|]. split; [auto|].
        exists (length (unmark (ulg s))). split; [|exact Logic.I].
        exists (ulg s), []. split; [auto|]. split; [intros ? []|auto].
      * pose proof (u_scan _ _ _ _ _ Q v) as Hv2. unfold upc_ok in *.
        destruct (ubounds (uth s v)) as [[lo2 hi2]|]; auto. destruct Hv2 as (U1 & U2 & V3 & V4 & j0 & Hrun2 & Hb2).
        split; [auto|]. split; [now right|]. split; [auto|]. split; [auto|]. exists j0. split; [|].
        -- apply running_snoc; auto. intros m [= <-]. cbn. auto.
        -- eapply (ubody_later cl (ub s) _ hv hv lw lw u v (guard_frame (ub s) hv lw u) Hv U2 []); auto.
           flds. now rewrite app_nil_r.
    + intros v lo' hi'. unfold supd. destruct (Nat.eqb_spec v u) as [->|Hv]; [|apply Q].
      intros Hq. apply (u_q _ _ _ _ _ Q u). rewrite Eq. now right.
Qed.

Lemma stop_ufine s Ls hv lw u : uinv s Ls hv lw -> ufine (UStop u) s lw.
Proof.
  intros Q. unfold ufine. cbn [ustep]. unfold stop_step. destruct (uth s u) eqn:E; auto.
  exists Ls, hv, lw. split; [|auto]. pose proof (u_scan _ _ _ _ _ Q u) as Hu. rewrite E in Hu. cbn in Hu.
  apply leave_inv; auto; [apply Hu|apply Q].
Qed.

Lemma step_ufine s Ls hv lw v : uinv s Ls hv lw -> (cl = true -> scan_calm v s = true) -> ufine v s lw.
Proof.
  intros Q Hc. destruct v; [eapply call_ufine|eapply scan_ufine|eapply stop_ufine]; eauto.
Qed.

Theorem urun_inv : forall sched s Ls hv lw, uinv s Ls hv lw ->
  (cl = true -> always true scan_calm s sched = true) ->
  exists s' Ls' hv' lw', urun true s sched = Some s' /\ uinv s' Ls' hv' lw'.
Proof.
  induction sched as [|v sched IH]; intros s Ls hv lw Q Hc; cbn [urun always] in *; [eauto 10|].
  assert (H : (cl = true -> scan_calm v s = true) -> ufine v s lw) by (intros; eapply step_ufine; eauto).
  unfold ufine in H. destruct (ustep true v s) as [s'| |] eqn:E.
  - destruct H as (Ls' & hv' & lw' & Q' & _).
    + intros Hcl. specialize (Hc Hcl). now apply andb_true_iff in Hc.
    + apply (IH _ Ls' hv' lw' Q'). intros Hcl. specialize (Hc Hcl). now apply andb_true_iff in Hc.
  - eauto.
  - destruct H. auto.
Qed.

Lemma uinit_inv prog scans :
  (forall t c, In c (prog t) -> mvalid (call_key c)) ->
  (forall u lo hi, In (lo, hi) (scans u) -> mvb lo /\ mvb hi) ->
  exists Ls hv lw, uinv (uinit prog scans) Ls hv lw.
Proof.
  intros Hp Hs. destruct (oinit_inv prog Hp) as (Ls & hv & lw & V & G). exists Ls, hv, lw.
  constructor; cbn [uinit ub uth uq ulg]; auto.
  - intros _ T1 u lo hi T2 rs T3 E. destruct T1; discriminate.
  - intros u. exact Logic.I.
Qed.

Theorem uinv_scans s Ls hv lw : cl = true -> uinv s Ls hv lw -> scan_linearizable amap_empty (uhistory s).
Proof.
  intros Hcl Q. apply trace_scans; [|now apply Q].
  rewrite <- (u_log _ _ _ _ _ Q). apply (u_base _ _ _ _ _ Q).
Qed.

(** Scans never wait, and scanners do not keep callers waiting. *)
Theorem scan_goes s Ls hv lw u chk : uinv s Ls hv lw -> uth s u <> UIdle ->
  (cl = true -> scan_calm (UScan u chk) s = true) -> exists s', ustep true (UScan u chk) s = UOk s'.
Proof.
  intros Q Hu Hc. pose proof (u_scan _ _ _ _ _ Q u) as H. unfold upc_ok in H.
  destruct (ubounds (uth s u)) as [[lo hi]|] eqn:Eb; [|destruct (uth s u); (discriminate || congruence)].
  destruct H as (U1 & U2 & V1 & V2 & i0 & Hr & Hb).
  assert (Hi0 : i0 <= length (otr (ub s))) by (rewrite (u_log _ _ _ _ _ Q); eapply running_len; eauto).
  cbn [ustep].
  destruct (uscan_body cl s Ls hv lw i0 u (u_base _ _ _ _ _ Q) (u_garb _ _ _ _ _ Q) Hi0 chk lo hi Eb V1 V2 Hb Hc)
    as [(acc & E)|(p' & -> & _)].
  - unfold scano_step. rewrite E. eexists. reflexivity.
  - eexists. reflexivity.
Qed.

Lemma scanner_idle s Ls hv lw u : uinv s Ls hv lw -> oth (ub s) u <> OIdle -> uth s u = UIdle.
Proof.
  intros Q H. pose proof (u_scan _ _ _ _ _ Q u) as Hu. unfold upc_ok in Hu.
  destruct (uth s u); auto; exfalso; destruct Hu as (Hu & _); auto.
Qed.

Theorem call_goes s Ls hv lw t : uinv s Ls hv lw -> oth (ub s) t <> OIdle ->
  exists u s', oth (ub s) u <> OIdle /\ ustep true (UCall u) s = UOk s'.
Proof.
  intros Q H. destruct (oprogress (ub s) Ls hv lw (u_base _ _ _ _ _ Q) (u_garb _ _ _ _ _ Q) t H) as (u & l & c & Hu & E).
  exists u. eexists. split; [auto|]. cbn [ustep]. rewrite (scanner_idle _ _ _ _ u Q Hu), E. reflexivity.
Qed.

End Repaired.

(** ** Guards *)
Definition uguarded (s : ucfg) : Prop :=
  forall u, In u (oac (ub s)) -> oth (ub s) u <> OIdle \/ uth s u <> UIdle.

Lemma uguarded_step fx v s s' : uguarded s -> ustep fx v s = UOk s' -> uguarded s'.
Proof.
  intros H. assert (Hgo : forall u p, uth s u <> UIdle -> p <> UIdle ->
    u_goto s u p = UOk s' -> uguarded s').
  { intros u p Hu Hp [= <-] w Hw. cbn [ub uth] in *. unfold supd. destruct (Nat.eqb_spec w u) as [->|]; auto. }
  assert (Hend : forall u T, u_done s u T = UOk s' -> uguarded s').
  { intros u T [= <-] w Hw. cbn [ub uth o_end oac oth] in *. apply in_drop in Hw as (Hw & Hn).
    rewrite supd_diff by auto. now apply H. }
  destruct v as [t|u chk|u]; cbn [ustep].
  - destruct (uth s t) eqn:Et; try discriminate. destruct (ostep fx t (ub s)) as [l c| |] eqn:E; try discriminate.
    intros [= <-] u Hu. cbn [ub uth] in *. destruct (ostep_else _ _ _ _ _ E) as (_ & He).
    destruct (Nat.eq_dec u t) as [->|Hne].
    + left. assert (Ht : In t (oac (ub s)) -> oth (ub s) t <> OIdle).
      { intros Q. destruct (H t Q); congruence. }
      revert Hu Ht E. clear. intros Q H Hs. unfold ostep, xbind in Hs. cbv zeta in Hs.
      repeat (match type of Hs with context [match ?x with _ => _ end] => destruct x eqn:? end; try discriminate);
        injection Hs as <- <-; revert Q; flds; unfold supd; rewrite Nat.eqb_refl; try discriminate.
      rewrite in_drop. tauto.
    + destruct (He u Hne) as (E1 & E2). apply E2 in Hu. flds. rewrite E1. auto.
  - unfold scano_step. destruct (uth s u) eqn:Eu.
    + destruct (oth (ub s) u) eqn:Eo; try discriminate. destruct (uq s u) as [|[lo hi] q]; try discriminate.
      intros [= <-] w Hw. cbn [ub uth o_guard oac oth] in *. unfold supd. destruct (Nat.eqb_spec w u) as [->|Hne].
      * right. discriminate.
      * destruct Hw as [Hw|Hw]; [congruence|auto].
    + intros E. eapply Hgo; [| |exact E]; congruence.
    + unfold ubind. intros E.
      repeat (match type of E with context [match ?x with _ => _ end] => destruct x eqn:? end; try discriminate);
        (eapply Hgo; [| |exact E]; congruence).
    + unfold ubind. intros E.
      repeat (match type of E with context [match ?x with _ => _ end] => destruct x eqn:? end; try discriminate);
        (eapply Hgo; [| |exact E]; congruence).
    + unfold ubind. intros E.
      repeat (match type of E with context [match ?x with _ => _ end] => destruct x eqn:? end; try discriminate);
        (eapply Hgo; [| |exact E]; congruence).
    + unfold ubind. intros E.
      repeat (match type of E with context [match ?x with _ => _ end] => destruct x eqn:? end; try discriminate);
        (eapply Hgo; [| |exact E]; congruence).
    + unfold ubind. intros E.
      repeat (match type of E with context [match ?x with _ => _ end] => destruct x eqn:? end; try discriminate);
        (eapply Hgo; [| |exact E]; congruence).
    + apply Hend.
  - unfold stop_step. destruct (uth s u) eqn:Eu; try discriminate. apply Hend.
Qed.

Lemma uguarded_run fx : forall sched s s', uguarded s -> urun fx s sched = Some s' -> uguarded s'.
Proof.
  induction sched as [|t sched IH]; intros s s' H E; cbn [urun] in E; [now injection E as <-|].
  destruct (ustep fx t s) as [s1| |] eqn:Es; [|eauto|discriminate].
  eapply IH; [|exact E]. eapply uguarded_step; eauto.
Qed.

Lemma uguarded_idle s : uguarded s -> (forall t, oth (ub s) t = OIdle) -> (forall u, uth s u = UIdle) -> oac (ub s) = [].
Proof.
  intros H H1 H2. destruct (oac (ub s)) as [|u l] eqn:E; auto. exfalso.
  destruct (H u); [rewrite E; now left|auto|auto].
Qed.

(** ** The tree as it is *)
Record usim (s z : ucfg) : Prop := {
  us_base : sim (ub s) (ub z);
  us_th : forall u, uth z u = uth s u;
  us_q : forall u, uq z u = uq s u;
  us_h : mevents (ulg z) = mevents (ulg s);
}.

Lemma sim_idle s z u : sim s z -> oth z u = OIdle <-> oth s u = OIdle.
Proof.
  intros S. pose proof (m_th _ _ S u) as H. unfold pair in H.
  destruct (oth s u) eqn:E; try (rewrite H; tauto); destruct H as (-> & _); split; discriminate.
Qed.

Lemma sim_guard s z u : sim s z -> sim (o_guard s u) (o_guard z u).
Proof. intros S. destruct S. split; flds; auto. cbn. now rewrite m_ac. Qed.

Lemma sim_calm s z u p : sim s z -> inv z ->
  forallb (fun w =>
        forallb (fun r => negb (existsb (Nat.eqb r) (utouch p))) (half (oth s w)) &&
        negb (halfroot (oth s w) && uroots p)) (oac s) = true ->
  oth s u = OIdle -> (forall x, In x (utouch p) -> whole s x) /\ (uroots p = true -> wroot s).
Proof.
  intros S I Hc Hu. assert (I' := I). destruct I' as (Ls & hv & lo & V & G).
  assert (Hact : forall w, oth s w <> OIdle -> In w (oac s)).
  { intros w Hw. rewrite <- (m_ac _ _ S). apply (i_act _ _ _ _ V). now rewrite (sim_idle _ _ _ S). }
  rewrite forallb_forall in Hc.
  assert (Q : forall w, (forall x, In x (half (oth s w)) -> ~ In x (utouch p)) /\
                        (halfroot (oth s w) = true -> uroots p = false)).
  { intros w. destruct (oth s w) eqn:E; try (split; cbn; [tauto|discriminate]); rewrite <- E.
    all: assert (Hin : In w (oac s)) by (apply Hact; congruence).
    all: specialize (Hc w Hin); apply andb_true_iff in Hc as (H1 & H2); rewrite forallb_forall in H1; split.
    all: try (intros x Hx Hx'; specialize (H1 x Hx); apply negb_true_iff in H1;
      assert (existsb (Nat.eqb x) (utouch p) = true) by (apply existsb_exists; exists x; split; [auto|apply Nat.eqb_refl]);
      congruence).
    all: intros Hh; rewrite Hh in H2; now apply negb_true_iff in H2. }
  split.
  - intros x Hx w Hw. exact (proj1 (Q w) x Hw Hx).
  - intros Hr w. destruct (halfroot (oth s w)) eqn:E; [|auto]. destruct (Q w) as (_ & H). specialize (H E). congruence.
Qed.

Lemma usim_goto s z u p : usim s z ->
  usim (UCfg (ub s) (supd (uth s) u p) (uq s) (ulg s)) (UCfg (ub z) (supd (uth z) u p) (uq z) (ulg z)).
Proof.
  intros S. destruct S. split; cbn [ub uth uq ulg]; auto. intros w. unfold supd. destruct (Nat.eqb w u); auto.
Qed.

Lemma usim_done s z u T T' : usim s z -> oth (ub s) u = OIdle -> mevents T' = mevents T ->
  usim (UCfg (o_end (ub s) u) (supd (uth s) u UIdle) (uq s) T) (UCfg (o_end (ub z) u) (supd (uth z) u UIdle) (uq z) T').
Proof.
  intros S Hu Hm. destruct S. split; cbn [ub uth uq ulg]; auto.
  - apply sim_end; [auto|]. rewrite Hu. split; reflexivity.
  - intros w. unfold supd. destruct (Nat.eqb w u); auto.
Qed.

Lemma usim_scan s z u chk cl Ls hv lw : usim s z -> uinv cl z Ls hv lw -> half_calm (UScan u chk) s = true ->
  (scan_ok (ub z) (uth z u) = scan_ok (ub s) (uth s u)) /\
  match scano_step u chk s with
  | UOk s' => exists z', scano_step u chk z = UOk z' /\ usim s' z'
  | UBlock => scano_step u chk z = UBlock
  | UUndef => scano_step u chk z = UUndef
  end.
Proof.
  intros S Q Hc. cbn [half_calm] in Hc. pose proof (us_base _ _ S) as Sb.
  assert (I : inv (ub z)) by (exists Ls, hv, lw; split; apply Q).
  pose proof (u_scan _ _ _ _ _ Q u) as Hu. rewrite (us_th _ _ S) in Hu. unfold upc_ok in Hu.
  destruct (ubounds (uth s u)) as [[lo0 hi0]|] eqn:Eb.
  2:{ assert (E : uth s u = UIdle) by (destruct (uth s u); (discriminate || reflexivity)).
      unfold scano_step. rewrite (us_th _ _ S), (us_q _ _ S), E. split; [reflexivity|].
      destruct (oth (ub s) u) eqn:Eo.
      { rewrite (proj2 (sim_idle _ _ u Sb) Eo). destruct (uq s u) as [|[lo hi] q]; auto.
        eexists. split; [reflexivity|]. destruct S. split; cbn [ub uth uq ulg]; auto.
        - now apply sim_guard.
        - intros w. unfold supd. destruct (Nat.eqb w u); auto.
        - intros w. unfold supd. destruct (Nat.eqb w u); auto.
        - rewrite !mevents_app. now f_equal. }
      all: assert (Ez : oth (ub z) u <> OIdle) by (rewrite (sim_idle _ _ u Sb); congruence).
      all: destruct (oth (ub z) u); (reflexivity || congruence). }
  destruct Hu as (U1 & _). rewrite (sim_idle _ _ u Sb) in U1.
  destruct (sim_calm _ _ u (uth s u) Sb I Hc U1) as (W1 & W2).
  assert (Hpg : forall x, In x (utouch (uth s u)) -> opage (ub z) x = opage (ub s) x) by (intros; apply m_page; auto).
  assert (Hch : forall x, In x (utouch (uth s u)) -> och (ub z) x = och (ub s) x) by (intros x Hx; apply (m_pp _ _ Sb x); apply W1; exact Hx).
  assert (Hvs : forall x, In x (utouch (uth s u)) -> ovs (ub z) x = ovs (ub s) x) by (intros; apply m_vs; auto).
  assert (Hrt : uroots (uth s u) = true -> ort (ub z) = ort (ub s)) by (intros H; apply (m_rt _ _ Sb); now apply W2).
  unfold scano_step. rewrite (us_th _ _ S).
  destruct (uth s u) eqn:E; try discriminate; cbn [utouch uroots In scan_ok] in *.
  all: rewrite ?Hpg, ?Hch, ?Hvs, ?Hrt by auto.
  all: split; [reflexivity|].
  all: try (eexists; split; [reflexivity|]; now apply usim_goto).
  all: try (unfold ubind;
    repeat match goal with |- context [match ?x with _ => _ end] =>
      match type of x with ures => fail 1 | _ => destruct x eqn:? end end;
    solve [reflexivity | eexists; split; [reflexivity|]; now apply usim_goto]).
  eexists. split; [reflexivity|]. apply usim_done; auto. rewrite !mevents_app. f_equal. apply S.
Qed.

(** One move of the tree as it is: the repaired tree makes it too, or stays. *)
Lemma usim_step cl s z Ls hv lw v : usim s z -> uinv cl z Ls hv lw -> half_calm v s = true ->
  (cl = true -> scan_calm v s = true) ->
  match ustep false v s with
  | UOk s' => exists z' Ls' hv' lw', usim s' z' /\ uinv cl z' Ls' hv' lw' /\
      (forall x, och (ub z) x <> None -> lw' x = lw x) /\
      match v with UScan u chk => scano_step u chk z = UOk z' | _ => True end
  | UBlock => True
  | UUndef => False
  end.
Proof.
  intros S Q Hh Hc.
  assert (I : inv (ub z)) by (exists Ls, hv, lw; split; apply Q).
  destruct v as [t|u chk|u]; cbn [ustep].
  - destruct (uth s t) eqn:Et; auto. cbn [half_calm] in Hh.
    pose proof (sim_step (ub s) (ub z) t (us_base _ _ S) I Hh) as R.
    destruct (ostep false t (ub s)) as [l c| |] eqn:E; auto.
    destruct R as (zb & R1 & R2). destruct R1 as [(-> & ->)|(z1 & E1 & ->)].
    + exists z, Ls, hv, lw. split; [|auto]. destruct S. split; cbn [ub uth uq ulg]; auto.
      rewrite mevents_app. cbn. now rewrite app_nil_r.
    + pose proof (call_ufine cl z Ls hv lw t Q) as F. unfold ufine in F. cbn [ustep] in F.
      rewrite (us_th _ _ S), Et, E1 in F. destruct F as (Ls' & hv' & lw' & F).
      eexists _, Ls', hv', lw'. split; [|split; [exact (proj1 F)|split; [exact (proj2 F)|exact Logic.I]]]. destruct S. split; cbn [ub uth uq ulg]; auto.
      rewrite !mevents_app. now f_equal.
  - destruct (usim_scan s z u chk cl Ls hv lw S Q Hh) as (R1 & R2).
    pose proof (scan_ufine cl z Ls hv lw u chk Q) as F. unfold ufine in F. cbn [ustep scan_calm] in *.
    rewrite R1 in F. specialize (F Hc). destruct (scano_step u chk s) as [s'| |]; auto.
    + destruct R2 as (z' & E' & S'). rewrite E' in F. destruct F as (Ls' & hv' & lw' & F1 & F2). exists z', Ls', hv', lw'. auto.
    + now rewrite R2 in F.
  - pose proof (stop_ufine cl z Ls hv lw u Q) as F. unfold ufine in F. cbn [ustep] in *. unfold stop_step in *.
    rewrite (us_th _ _ S) in F. pose proof (u_scan _ _ _ _ _ Q u) as Hu. rewrite (us_th _ _ S) in Hu.
    destruct (uth s u) eqn:E; auto. cbn in Hu. destruct Hu as (U1 & _).
    rewrite (sim_idle _ _ u (us_base _ _ S)) in U1. cbn [u_done] in *. destruct F as (Ls' & hv' & lw' & F).
    eexists _, Ls', hv', lw'. split; [|split; [exact (proj1 F)|split; [exact (proj2 F)|exact Logic.I]]]. apply usim_done; auto. apply S.
Qed.

Theorem ucalm_run cl : forall sched s z Ls hv lw, usim s z -> uinv cl z Ls hv lw ->
  always false half_calm s sched = true -> (cl = true -> always false scan_calm s sched = true) ->
  exists s' z' Ls' hv' lw', urun false s sched = Some s' /\ usim s' z' /\ uinv cl z' Ls' hv' lw'.
Proof.
  induction sched as [|v sched IH]; intros s z Ls hv lw S Q Hh Hc; cbn [urun always] in *; [eauto 10|].
  pose proof (usim_step cl s z Ls hv lw v S Q) as R.
  destruct (ustep false v s) as [s'| |] eqn:E.
  - apply andb_true_iff in Hh as (Hh1 & Hh2). destruct (R Hh1) as (z' & Ls' & hv' & lw' & S' & Q' & _).
    + intros Hcl. specialize (Hc Hcl). now apply andb_true_iff in Hc.
    + apply (IH _ z' Ls' hv' lw'); auto. intros Hcl. specialize (Hc Hcl). now apply andb_true_iff in Hc.
  - eauto.
  - destruct (R Hh Hc).
Qed.

Lemma usim_init prog scans : usim (uinit prog scans) (uinit prog scans).
Proof. split; auto. apply sim_init. Qed.

End OScanMain.
