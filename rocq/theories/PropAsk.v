(** Asking an iterator again whether it has a record.

    HasRecord is a question: a client that asks twice before it goes on should see the same
    record as one that asks once.  With one thread that is so, for the iterators of all trees
    and layouts, in all states.  With other threads writing it is so as long as the leaf under
    the optimistic iterator does not change, and false otherwise: HasRecord itself marks its
    record as read, and when it is asked again and finds a new version it goes to the next. *)
From Coq Require Import List Arith Bool Lia.
From Verif Require Import Params Mem Common Spec ConcSpec ScanSpec SLIface BaseIface MLIface FixML VarML IterModel
  TreeState MLModel ConcModel MConcModel OConcModel CScanModel MScanModel OScanModel OScanMain AskModel ScanHist
  PropCScan PropMConc PropOScan Inst.
Import ListNotations.

Section Seq.
Context {P : Params} {B : BaseOps P}.

Lemma skip_again : forall m n pos q, skip_deleted m n pos = Some q -> q < pos + m ->
  pos <= q /\ bn_recdel n q = Some false.
Proof.
  induction m as [|m IH]; intros n pos q E Hq; cbn in E; [injection E as <-; lia|].
  destruct (bn_recdel n pos) as [[|]|] eqn:Ed; [|injection E as <-; auto|discriminate].
  destruct (IH _ _ _ E) as (H1 & H2); [lia|]. split; [lia|auto].
Qed.
Lemma skip_stays m n q : bn_recdel n q = Some false -> skip_deleted (S m) n q = Some q.
Proof. intros E. cbn. now rewrite E. Qed.

(** C48.  RecordIterator: asked again, HasRecord gives the same answer and changes nothing. *)
Theorem C48_asked_again_pessimistic : forall fuel it s b it1 s' fuel',
  pit_has fuel it s = Ok (b, it1) s' -> pit_has (S fuel') it1 s' = Ok (b, it1) s'.
Proof.
  induction fuel as [|f IH]; intros it s b it1 s' fuel' E; [discriminate|]. cbn [pit_has] in E.
  destruct (p_node it) as [a|] eqn:En; [|injection E as <- <- <-; cbn; now rewrite En].
  unfold mbind at 1 in E. unfold getn in E. destruct (hp s a) as [n|] eqn:Eh; [|discriminate].
  unfold mbind at 1 in E. destruct (skip_deleted (p_end it - p_pos it) n (p_pos it)) as [pos|] eqn:Ek; [|discriminate].
  cbn [mlift mret] in E. destruct (Nat.ltb_spec pos (p_end it)) as [Hp|Hp].
  - injection E as <- <- <-. destruct (skip_again _ _ _ _ Ek) as (_ & Hd); [lia|].
    cbn [pit_has p_node p_pos p_end p_hi p_isend]. unfold mbind at 1, getn. rewrite Eh. unfold mbind at 1.
    replace (p_end it - pos) with (S (p_end it - pos - 1)) by lia. rewrite (skip_stays _ _ _ Hd). cbn [mlift mret].
    destruct (Nat.ltb_spec pos (p_end it)); [reflexivity|lia].
  - destruct (p_isend it) eqn:Ei.
    + unfold mbind in E. destruct (unlock LS a s) as [u s1| | |]; try discriminate. injection E as <- <- <-. reflexivity.
    + destruct (bn_next n) as [c|]; [|discriminate].
      unfold mbind in E. destruct (lock LS c s) as [u s1| | |]; try discriminate.
      destruct (unlock LS a s1) as [u2 s2| | |]; try discriminate. destruct (hp s2 c) as [nb|]; [|discriminate].
      destruct (bn_endpos nb (p_hi it)) as [[ie e]|]; [|discriminate]. cbn [mlift mret] in E. eapply IH; eauto.
Qed.
(** C48.  OptimisticRecordIterator, no other thread writing and no other iterator of the thread
    used in between ([tls] is the thread's static key buffer). *)
Theorem C48_asked_again_optimistic : forall fuel tls it s b tls1 it1 s' fuel',
  oit_has fuel tls it s = Ok (b, (tls1, it1)) s' -> oit_has (S fuel') tls1 it1 s' = Ok (b, (tls1, it1)) s'.
Proof.
  induction fuel as [|f IH]; intros tls it s b tls1 it1 s' fuel' E; [discriminate|]. cbn [oit_has] in E.
  destruct (o_node it) as [a|] eqn:En; [|injection E as <- <- <- <-; cbn; now rewrite En].
  unfold mbind at 1 in E. unfold getn in E. destruct (hp s a) as [n|] eqn:Eh; [|discriminate].
  destruct (o_pos it <? IterModel.o_end it) eqn:Ep.
  - unfold mbind at 1 in E. destruct (bn_key n (o_pos it)) as [k|] eqn:Ek; [|discriminate]. cbn [mlift mret] in E.
    unfold mbind at 1 in E. destruct (bn_recdel n (o_pos it)) as [d|] eqn:Ed; [|discriminate]. cbn [mlift mret] in E.
    destruct d; [eapply IH; eauto|].
    unfold mbind at 1 in E. destruct (bn_record n (o_pos it)) as [[k' v]|] eqn:Er; [|discriminate]. cbn [mlift mret] in E.
    injection E as <- <- <- <-. cbn [oit_has o_node o_pos IterModel.o_end o_hi o_isend o_has o_closed o_pay].
    unfold mbind at 1, getn. rewrite Eh, Ep. unfold mbind at 1. rewrite Ek. cbn [mlift mret].
    unfold mbind at 1. rewrite Ed. cbn [mlift mret]. unfold mbind at 1. rewrite Er. reflexivity.
  - destruct (o_isend it) eqn:Ei; [injection E as <- <- <- <-; reflexivity|].
    destruct (bn_next n) as [c|]; [|discriminate]. unfold mbind at 1 in E.
    destruct (oit_reset _ _ _ s) as [it2 s2| | |]; try discriminate. eapply IH; eauto.
Qed.

Lemma pit_ask_once n : forall fuel it s, pit_ask n fuel it s = pit_has fuel it s.
Proof.
  induction n as [|n IH]; intros fuel it s; cbn [pit_ask]; unfold mbind;
    destruct (pit_has fuel it s) as [[b it1] s'| | |] eqn:E; auto.
  rewrite IH. destruct fuel; [discriminate|]. eapply C48_asked_again_pessimistic; eauto.
Qed.
Lemma oit_ask_once n : forall fuel tls it s, oit_ask n fuel tls it s = oit_has fuel tls it s.
Proof.
  induction n as [|n IH]; intros fuel tls it s; cbn [oit_ask]; unfold mbind;
    destruct (oit_has fuel tls it s) as [[b [tls1 it1]] s'| | |] eqn:E; auto.
  cbn [fst snd]. rewrite IH. destruct fuel; [discriminate|]. eapply C48_asked_again_optimistic; eauto.
Qed.
Lemma pit_take_same asks fuel : forall limit it s, pit_take_asking asks fuel limit it s = pit_take fuel limit it s.
Proof.
  induction limit as [|l IH]; intros it s; cbn [pit_take_asking pit_take]; auto. unfold mbind at 1 4. rewrite pit_ask_once.
  destruct (pit_has fuel it s) as [[[|] it1] s1| | |]; auto. unfold mbind at 1 3. destruct (pit_get it1 s1); auto.
  unfold mbind. now rewrite IH.
Qed.
Lemma oit_take_same asks fuel : forall limit tls it s, oit_take_asking asks fuel limit tls it s = oit_take fuel limit tls it s.
Proof.
  induction limit as [|l IH]; intros tls it s; cbn [oit_take_asking oit_take]; auto. unfold mbind at 1 4. rewrite oit_ask_once.
  destruct (oit_has fuel tls it s) as [[[|] [tls1 it1]] s1| | |]; auto. unfold mbind at 1 3. destruct (oit_get tls1 it1 s1); auto.
  unfold mbind. now rewrite IH.
Qed.

(** C48.  A scan whose client asks as often as it likes returns what a scan returns whose
    client asks once per record, and leaves the same state (no latch more or less). *)
Theorem C48_scan_asking_often : forall asks opt fuel a lo hi limit s,
  scan_from_asking asks opt fuel a lo hi limit s = scan_from opt fuel a lo hi limit s.
Proof.
  intros asks [|] fuel a lo hi limit s; unfold scan_from_asking, scan_from; unfold mbind at 1.
  - unfold mbind at 2. destruct (oit_make fuel None a lo hi s) as [[tls it] s1| | |]; auto.
    unfold mbind. now rewrite oit_take_same.
  - unfold mbind at 3. destruct (pit_make a lo hi s) as [it s1| | |]; auto.
    unfold mbind. now rewrite pit_take_same.
Qed.
End Seq.

(** ** BTreeOML while other threads write *)
Section Conc.
Context {P : Params} {N : MLOps P}.

(** C48.  HasRecord has returned true on leaf [a]; others have moved since ([s2]), but the leaf
    has neither another version nor other contents: asked again, HasRecord finds the same
    record.  Missing: leaves that changed (refuted below). *)
Theorem C48_asked_again_unchanged_leaf_oml_partial : forall fx u s s1 s2 lo hi a ver kk pos e ie acc,
  uth (wu s) u = ULoop lo hi a ver kk pos e ie acc ->
  wstep fx (WGo (UScan u true)) s = WOk s1 -> wgiven s1 u = true ->
  uth (wu s2) u = uth (wu s1) u -> wgiven s2 u = true ->
  opage (ub (wu s2)) a = opage (ub (wu s)) a -> ovs (ub (wu s2)) a = ovs (ub (wu s)) a ->
  exists s3 s4, wstep fx (WAgain u) s2 = WOk s3 /\ wstep fx (WGo (UScan u true)) s3 = WOk s4 /\
    uth (wu s4) u = uth (wu s1) u /\ wgiven s4 u = true /\ ub (wu s4) = ub (wu s2).
Proof.
  intros fx u s s1 s2 lo hi a ver kk pos e ie acc Hu E Hg Hu2 Hg2 Hp Hv.
  cbn [wstep ustep] in E. unfold scano_step in E. rewrite Hu in E.
  assert (Hs : forall p, wgiven (WCfg (UCfg (ub (wu s)) (supd (uth (wu s)) u p) (uq (wu s)) (ulg (wu s)))
     (supd (wgiven s) u (length acc <? length (acc_of p)))) u = (length acc <? length (acc_of p))).
  { intros p. cbn. unfold supd. now rewrite Nat.eqb_refl. }
  destruct (pos <? e) eqn:Epe.
  2:{ exfalso. destruct ie.
      - cbn in E. injection E as <-. cbn in Hg. unfold supd in Hg. rewrite Nat.eqb_refl in Hg. cbn in Hg.
        rewrite Nat.ltb_irrefl in Hg. discriminate.
      - destruct (opage (ub (wu s)) a) as [n|]; [|discriminate]. cbn [ubind] in E.
        destruct (true && Nat.eqb (ovs (ub (wu s)) a) ver).
        + destruct (mn_next n); [|discriminate]. cbn in E. injection E as <-. cbn in Hg. unfold supd in Hg.
          rewrite Nat.eqb_refl in Hg. cbn in Hg. rewrite Nat.ltb_irrefl in Hg. discriminate.
        + cbn in E. injection E as <-. cbn in Hg. unfold supd in Hg. rewrite Nat.eqb_refl in Hg. cbn in Hg.
          rewrite Nat.ltb_irrefl in Hg. discriminate. }
  destruct (opage (ub (wu s)) a) as [n|] eqn:En; [|discriminate]. cbn [ubind] in E.
  destruct (true && Nat.eqb (ovs (ub (wu s)) a) ver) eqn:Ev.
  2:{ exfalso. cbn in E. injection E as <-. cbn in Hg. unfold supd in Hg. rewrite Nat.eqb_refl in Hg. cbn in Hg.
      rewrite Nat.ltb_irrefl in Hg. discriminate. }
  destruct (mn_key n pos) as [k|] eqn:Ek; [|discriminate]. cbn [ubind] in E.
  destruct (mn_recdel n pos) as [d|] eqn:Ed; [|discriminate]. cbn [ubind] in E. destruct d.
  { exfalso. cbn in E. injection E as <-. cbn in Hg. unfold supd in Hg. rewrite Nat.eqb_refl in Hg. cbn in Hg.
    rewrite Nat.ltb_irrefl in Hg. discriminate. }
  destruct (mn_record n pos) as [r|] eqn:Er; [|discriminate]. cbn [ubind] in E. cbn in E. injection E as <-.
  cbn [wu uth] in Hu2 |- *. unfold supd in Hu2. rewrite Nat.eqb_refl in Hu2.
  eexists. eexists. split.
  { cbn [wstep]. rewrite Hg2, Hu2. reflexivity. }
  split.
  { cbn [wstep ustep wu]. unfold scano_step. cbn [uth ub]. unfold supd at 1. rewrite Nat.eqb_refl. rewrite Epe, Hp. cbn [ubind].
    rewrite Hv, Ev, Ek. cbn [ubind]. rewrite Ed. cbn [ubind]. rewrite Er. cbn [ubind]. unfold u_goto. reflexivity. }
  cbn [wu uth ub wgiven]. unfold supd. rewrite !Nat.eqb_refl. cbn [acc_of].
  rewrite removelast_last, app_length. cbn. split; [reflexivity|]. split; [|reflexivity]. apply Nat.ltb_lt. lia.
Qed.
End Conc.

(** C48, refuted: caller 0 writes 1, 2 and 3; scanner 1 begins to scan everything and HasRecord
    returns true, with the iterator at 1; caller 0 writes 3 again, in the same leaf; the client
    of scanner 1 calls HasRecord again, which returns true, with the iterator at 2.  The scan
    that asks so has lost the record with key 1, which nobody deletes.  No call and no scan
    meets a half-finished change, and no scan goes wrong by itself. *)
Definition ask_prog {P : Params} (mk : nat -> K) (mv : nat -> V) (t : tid) : list call :=
  match t with 0 => wr mk mv [1; 2; 3; 3] | _ => [] end.
Definition ask_scans {P : Params} (u : tid) : list (bound * bound) := match u with 1 => [(None, None)] | _ => [] end.
Definition wexpand (l : list (wmove * nat)) : list wmove := flat_map (fun x => repeat (fst x) (snd x)) l.
Definition ask_moves (x : nat) : list wmove :=
  wexpand [(WGo (UCall 0), x); (WGo (UScan 1 true), 6); (WGo (UCall 0), 20); (WAgain 1, 1); (WGo (UScan 1 true), 20)].
Definition both_calm {P : Params} {N : MLOps P} (v : umove) (s : ucfg) : bool := half_calm v s && scan_calm v s.
Definition ask_hist {P : Params} (N : MLOps P) (fx : bool) mk mv : list (marked event) :=
  hist_of (option_map (fun s => uhistory (wu s)) (wrun fx (winit (ask_prog mk mv) ask_scans) (ask_moves 21))).
Lemma ask_with {P : Params} {N : MLOps P} fx prog scans sched p h (Q : list (marked event) -> Prop) :
  option_map (fun s => uhistory (wu s)) (wrun fx (winit prog scans) sched) = Some h ->
  walways fx p (winit prog scans) sched = true -> Q h ->
  exists s, wrun fx (winit prog scans) sched = Some s /\ walways fx p (winit prog scans) sched = true /\ Q (uhistory (wu s)).
Proof. destruct (wrun fx _ _) as [s|]; intros [= <-] Hc Hq. exists s. auto. Qed.

(** What the refutations assume is what it is called: every move of the execution that is made
    is such that [p], none is undefined, and a record can be asked for again only once. *)
Lemma walways_means {P : Params} {N : MLOps P} fx p sched : forall s, walways fx p s sched = true ->
  wrun fx s sched <> None /\
  forall l1 m l2 s1 s2, sched = l1 ++ WGo m :: l2 -> wrun fx s l1 = Some s1 -> wstep fx (WGo m) s1 = WOk s2 ->
    p m (wu s1) = true.
Proof.
  induction sched as [|v sched IH]; intros s H.
  - split; [discriminate|]. intros [|? l1] m l2 s1 s2 E; discriminate.
  - cbn [walways wrun] in *. destruct (wstep fx v s) as [s'| |] eqn:E; [|..].
    + apply andb_true_iff in H as (Hp & H). destruct (IH s' H) as (I1 & I2). split; [auto|].
      intros [|x l1] m l2 s1 s2 El Er Es; cbn [app wrun] in *; injection El as -> El.
      * injection Er as <-. exact Hp.
      * rewrite E in Er. eauto.
    + destruct (IH s H) as (I1 & I2). split; [auto|].
      intros [|x l1] m l2 s1 s2 El Er Es; cbn [app wrun] in *; injection El as -> El.
      * injection Er as <-. congruence.
      * rewrite E in Er. eauto.
    + discriminate.
Qed.
Lemma again_once {P : Params} {N : MLOps P} fx u s s' : wstep fx (WAgain u) s = WOk s' ->
  wgiven s u = true /\ wstep fx (WAgain u) s' = WBlock.
Proof.
  cbn [wstep]. destruct (wgiven s u); [|discriminate]. destruct (uth (wu s) u); try discriminate.
  destruct pos; [discriminate|]. intros [= <-]. split; [reflexivity|]. cbn [wgiven]. unfold supd. now rewrite Nat.eqb_refl.
Qed.

(** Also of the repaired tree ([fx] = true): the repairs are not about the iterator. *)
Theorem C48_asked_again_skips_oml_fixlen_refuted : forall fx, exists prog scans sched s,
  wrun (N := fix_ml_ops (P := tiny)) fx (winit prog scans) sched = Some s /\
  walways (N := fix_ml_ops (P := tiny)) fx both_calm (winit prog scans) sched = true /\
  ~ scans_keep (uhistory (wu s)) /\ ~ scan_linearizable amap_empty (uhistory (wu s)).
Proof.
  intros fx. exists (ask_prog (P := tiny) (fun x => x) (fun x => x)), ask_scans, (ask_moves 21).
  apply ask_with with (h := @ask_hist tiny fix_ml_ops false (fun x => x) (fun x => x))
    (Q := fun h => ~ scans_keep h /\ ~ scan_linearizable amap_empty h);
    [destruct fx; vm_compute; reflexivity|destruct fx; vm_compute; reflexivity|].
  assert (Ea : scan_at (@ask_hist tiny fix_ml_ops false (fun x => x) (fun x => x)) 1 None None
    [(2 : @K tiny, 102 : @V tiny); (3, 103)]) by (vm_compute; reflexivity).
  rewrite Ea. apply (@missing_refutes tiny tiny_ord) with (k := (1 : @K tiny)) (v := (101 : @V tiny))
    (g1 := firstn 1 (unmark (before_scan (@ask_hist tiny fix_ml_ops false (fun x => x) (fun x => x)))))
    (g2 := skipn 2 (unmark (before_scan (@ask_hist tiny fix_ml_ops false (fun x => x) (fun x => x))))) (t := 0) (r := RSuccess);
    try (vm_compute; reflexivity); try exact Logic.I.
  intros [H|[H|[]]]; vm_compute in H; discriminate.
Qed.
Theorem C48_asked_again_skips_oml_varlen_refuted : forall fx, exists prog scans sched s,
  wrun (N := var_ml_ops (P := mvtiny)) fx (winit prog scans) sched = Some s /\
  walways (N := var_ml_ops (P := mvtiny)) fx both_calm (winit prog scans) sched = true /\
  ~ scans_keep (uhistory (wu s)) /\ ~ scan_linearizable amap_empty (uhistory (wu s)).
Proof.
  intros fx. exists (ask_prog (P := mvtiny) (fun x => x) (fun x => x)), ask_scans, (ask_moves 21).
  apply ask_with with (h := @ask_hist mvtiny var_ml_ops false (fun x => x) (fun x => x))
    (Q := fun h => ~ scans_keep h /\ ~ scan_linearizable amap_empty h);
    [destruct fx; vm_compute; reflexivity|destruct fx; vm_compute; reflexivity|].
  assert (Ea : scan_at (@ask_hist mvtiny var_ml_ops false (fun x => x) (fun x => x)) 1 None None
    [(2 : @K mvtiny, 102 : @V mvtiny); (3, 103)]) by (vm_compute; reflexivity).
  rewrite Ea. apply (@missing_refutes mvtiny mvtiny_ord) with (k := (1 : @K mvtiny)) (v := (101 : @V mvtiny))
    (g1 := firstn 1 (unmark (before_scan (@ask_hist mvtiny var_ml_ops false (fun x => x) (fun x => x)))))
    (g2 := skipn 2 (unmark (before_scan (@ask_hist mvtiny var_ml_ops false (fun x => x) (fun x => x))))) (t := 0) (r := RSuccess);
    try (vm_compute; reflexivity); try exact Logic.I.
  intros [H|[H|[]]]; vm_compute in H; discriminate.
Qed.

(** The same client, asking once, gets all three records. *)
Example asked_once : option_map (fun s => existsb (fun e => match e with Mk (MEnd 1 l) => Nat.eqb (length l) 3 | _ => false end)
    (uhistory (wu s)))
  (wrun (N := fix_ml_ops (P := tiny)) false (winit (ask_prog (P := tiny) (fun x => x) (fun x => x)) ask_scans)
    (filter (fun m => match m with WAgain _ => false | _ => true end) (ask_moves 21))) = Some true.
Proof. vm_compute. reflexivity. Qed.
(** [C48_asked_again_unchanged_leaf_oml_partial]: its hypotheses are met, [s2] being [s1]. *)
Definition nth_state (x : nat) : option wcfg := wrun (N := fix_ml_ops (P := tiny)) false
  (winit (ask_prog (P := tiny) (fun x => x) (fun x => x)) ask_scans) (repeat (WGo (UCall 0)) 21 ++ repeat (WGo (UScan 1 true)) x).
Example unchanged_met : exists n,
  option_map (fun s => match uth (wu s) 1 with ULoop _ _ _ _ _ pos e _ _ => (pos <? e) && negb (wgiven s 1) | _ => false end)
    (nth_state n) = Some true /\
  option_map (fun s => wgiven s 1) (nth_state (S n)) = Some true.
Proof. exists 5. split; vm_compute; reflexivity. Qed.

Print Assumptions C48_asked_again_pessimistic.
Print Assumptions C48_asked_again_optimistic.
Print Assumptions C48_scan_asking_often.
Print Assumptions C48_asked_again_unchanged_leaf_oml_partial.
Print Assumptions C48_asked_again_skips_oml_fixlen_refuted.
Print Assumptions C48_asked_again_skips_oml_varlen_refuted.
