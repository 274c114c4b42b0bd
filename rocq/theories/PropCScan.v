(** Scans of BTreePSL ([osl = false], C23) and BTreeOSL ([osl = true], C24) that run while
    other threads use the tree.

    [sreach osl as_is A prog scans s] (CScanModel.v): [s] is reached from a fresh tree, the
    callers making the calls [prog], the scanners the scans [scans], by steps that satisfy
    [A]; any number of callers and scanners, any schedule.  [swrong] is undefined behaviour.
    [scan_linearizable], [scans_sorted], [scans_keep] and [scans_real] are defined in
    ScanSpec.v and ScanHist.v from the history of calls and scans alone.

    Both properties fail for the code as it is, even in executions in which the callers do
    nothing that C16 would object to; the witnesses are at the end.  What holds:
    - scans are right in the executions in which no step of a scan is at a page that has
      been removed, or decides on positions of which one is older than the last change of
      the page ([scans_calm]);
    - scans of the pessimistic tree are right in all executions of programs without
      Delete. *)
From Coq Require Import List Arith Bool Lia Sorted.
From Verif Require Import Params Mem Common Spec ConcSpec ScanSpec NodeAbs FixModel FixProofs VarModel
  VarProofs SLIface FixSL VarSL BaseIface IterModel TreeState ConcModel ConcLin ConcHist ConcInv ConcMain
  ConcWait CScanModel CScanLin CScanProofs CScanMain CScanPlain ScanHist CScanRun PropConc PropConcBad Inst.
Import ListNotations.

(** ** All layouts *)
Section Any.
Context {P : Params} {O : OrdLaws P} {N : SLOps P} {L : SLLaws P N} (osl : bool).

(** What the users of the tree see of the scans. *)
Definition scans_fine (h : list (marked event)) : Prop :=
  scan_linearizable amap_empty h /\ scans_sorted h /\ scans_keep h /\ scans_real h.

Lemma fine_of h : scan_linearizable amap_empty h -> scans_fine h.
Proof.
  intros Hl. split; [auto|]. split; [eapply scan_linearizable_sorted; eauto|].
  split; [now apply scan_linearizable_keep|now apply scan_linearizable_real].
Qed.

(** The steps that are calm, for the callers and for the scanners. *)
Definition all_calm (v : mover) (s : scfg) : Prop := calls_calm v s /\ scans_calm v s.
Definition any_step (v : mover) (s : scfg) : Prop := True.

Lemma scans_any fx (A : mover -> scfg -> Prop) prog scans s :
  (forall v s, A v s -> fx_calm fx v s /\ scans_calm v s) ->
  (forall t c, In c (prog t) -> kvalid (call_key c)) ->
  (forall u lo hi, In (lo, hi) (scans u) -> vb lo /\ vb hi) ->
  sreach osl fx A prog scans s ->
  scans_fine (shistory s) /\ forall v, A v s -> ~ swrong osl fx v s.
Proof.
  intros HA Hp Hq Hr. destruct (sreach_inv osl fx A prog scans s HA Hp Hq Hr) as (G & Hi).
  split; [apply fine_of; eapply sinv_scans; eauto|]. intros v Hv. destruct (HA v s Hv).
  eapply sinv_safe; eauto. now apply calm_scans_soft.
Qed.

Lemma scans_nodel fx (A : mover -> scfg -> Prop) prog scans s : no_delete prog ->
  (forall v s, A v s -> fx_calm fx v s) ->
  (forall t c, In c (prog t) -> kvalid (call_key c)) ->
  (forall u lo hi, In (lo, hi) (scans u) -> vb lo /\ vb hi) ->
  sreach osl fx A prog scans s ->
  scans_fine (shistory s) /\ forall v, A v s -> ~ swrong osl fx v s.
Proof.
  intros Hd HA Hp Hq Hr.
  destruct (nodel_reach osl fx A prog scans s) as (G & Hn); auto.
  - intros t c Hc. split; [now apply (Hp t)|]. destruct c; auto. now elim (Hd t k).
  - split; [apply fine_of; eapply sinv_scans, nd_inv; eauto|]. intros v Hv.
    eapply sinv_safe; [apply nd_inv; eauto|now apply HA|now apply nodel_soft].
Qed.

(** A boolean form of calmness, for the examples. *)
Definition page_inb (s : cfg) (a : addr) : bool :=
  match ch s a with Some n => negb (nd_removed n) | None => true end.
Definition scan_calmb (s : cfg) (vs : addr -> nat) (p : spc) : bool :=
  match p with
  | SHold _ _ a false _ =>
      match ch s a with
      | Some n => match nd_next n with Some b => page_inb s b | None => true end
      | None => true
      end
  | OReset _ _ a None _ => page_inb s a
  | OPos _ _ a _ _ _ => page_inb s a
  | OEnd _ hi a ver _ pos _ => page_inb s a &&
      match ch s a with
      | Some n => match nd_endpos n hi with
                  | Some (true, e) => negb (e <=? pos) || Nat.eqb (vs a) ver
                  | _ => true
                  end
      | None => true
      end
  | _ => true
  end.
Definition calls_calmb (v : mover) (s : scfg) : bool :=
  match v with Caller t => calmb_at t (base s) | Scanner _ _ => true end.
Definition all_calmb (v : mover) (s : scfg) : bool :=
  calls_calmb v s && match v with Caller _ => true | Scanner u _ => scan_calmb (base s) (vn s) (sth s u) end.

Lemma page_inb_in s a : page_inb s a = true -> page_in s a.
Proof. unfold page_inb. intros Hb n E. rewrite E in Hb. now destruct (nd_removed n). Qed.

Lemma calls_calmb_calm v s : calls_calmb v s = true -> calls_calm v s.
Proof.
  destruct v as [t|]; cbn; auto. intros Hb.
  pose proof (calmb_calm osl [t] (base s)) as Q. cbn [calmb calm] in Q. rewrite Hb in Q.
  destruct (cstep osl as_is t (base s)); apply Q; reflexivity.
Qed.

Lemma all_calmb_calm v s : all_calmb v s = true -> all_calm v s.
Proof.
  unfold all_calmb. intros (H1 & H2)%andb_true_iff. split; [now apply calls_calmb_calm|].
  destruct v as [t|u chk]; cbn [scans_calm]; [exact Logic.I|].
  destruct (sth s u); cbn [scan_calmb scan_calm] in *; auto.
  - destruct ie; auto. intros n b E Q. rewrite E, Q in H2. now apply page_inb_in.
  - destruct kk; auto. now apply page_inb_in.
  - now apply page_inb_in.
  - apply andb_true_iff in H2 as (H2 & H3). split; [now apply page_inb_in|].
    intros n e E Q Hle. rewrite E, Q in H3. apply Nat.leb_le in Hle. rewrite Hle in H3. now apply Nat.eqb_eq.
Qed.

(** Executions given by a list of moves; the history is all that matters. *)
Definition moves := list (mover * nat).
Definition expand (l : moves) : list mover := flat_map (fun x => repeat (fst x) (snd x)) l.

Definition run_history (fx : fixes) (us : list tid) ok prog scans (l : moves) : option (list (marked event)) :=
  option_map shistory (srun osl fx us ok (sinit prog scans) (expand l)).

Lemma run_history_reach fx us ok (A : mover -> scfg -> Prop) prog scans l h :
  (forall v s, ok v s = true -> A v s) -> (forall u, ~ In u us -> scans u = []) ->
  run_history fx us ok prog scans l = Some h ->
  exists s, sreach osl fx A prog scans s /\ shistory s = h.
Proof.
  intros Hok Hus. unfold run_history. destruct (srun _ _ _ _ _ _) as [s|] eqn:E; [|discriminate].
  intros [= <-]. exists s. split; [|reflexivity].
  eapply srun_reach; [exact Hok|constructor| |exact E].
  intros u Hu. split; [reflexivity|]. cbn. now apply Hus.
Qed.

(** Two ways in which a history shows a wrong scan. *)
Definition is_mark {A} (x : marked A) : bool := match x with Mk _ => true | Ev _ => false end.
Lemma no_marks {A} u (h : list (marked A)) : forallb (fun x => negb (is_mark x)) h = true -> no_mark u h.
Proof. intros Hf m Hm. rewrite forallb_forall in Hf. now apply Hf in Hm. Qed.

Fixpoint sortedb (l : list K) : bool :=
  match l with
  | [] => true
  | a :: l' => forallb (fun b => ltb a b) l' && sortedb l'
  end.
Lemma sortedb_false l : sortedb l = false -> ~ StronglySorted klt l.
Proof.
  intros Hb Hs. induction Hs as [|a l Hs IH Hf]; cbn in Hb; [discriminate|].
  rewrite (proj2 (forallb_forall _ _)) in Hb; [auto|].
  intros x Hx. rewrite Forall_forall in Hf. now apply Hf.
Qed.

End Any.

(** [ok_scans]: the keys that bound the scans are non-empty and at most kMaxKeyLen bytes long. *)
Definition ok_bound {P : Params} (b : bound) : Prop := forall k c, b = Some (k, c) -> 0 < klen k <= maxkey.
Definition ok_scans {P : Params} (scans : tid -> list (bound * bound)) : Prop :=
  forall u lo hi, In (lo, hi) (scans u) -> ok_bound lo /\ ok_bound hi.

(** ** Fixed-length nodes, BTreePSL *)
Section FixPSL.
Context (P : Params) (O : OrdLaws P) (F : FixSizes P) (G : FixGood P).
#[local] Instance opsFixPSL : SLOps P := fix_sl_ops false.
#[local] Instance lawsFixPSL : SLLaws P opsFixPSL := fix_sl_laws false.

(** C23.  Missing: executions that are not calm (refuted below). *)
Theorem C23_calm_scans_fixlen_partial : forall prog scans s, 
  sreach false as_is all_calm prog scans s ->
  scans_fine (shistory s) /\ forall v, all_calm v s -> ~ swrong false as_is v s.
Proof.
  intros prog scans s Hr. eapply scans_any; [|intros; exact Logic.I|intros; split; intros ? ? ?; exact Logic.I|exact Hr].
  intros v s0 (Q1 & Q2). split; [right; auto|exact Q2].
Qed.

(** C23 on the tree with the three repairs of C16: only the scans have to be calm. *)
Theorem C23_repaired_calm_scans_fixlen_partial : forall prog scans s, 
  sreach false repaired scans_calm prog scans s ->
  scans_fine (shistory s) /\ forall v, scans_calm v s -> ~ swrong false repaired v s.
Proof.
  intros prog scans s Hr. eapply scans_any; [|intros; exact Logic.I|intros; split; intros ? ? ?; exact Logic.I|exact Hr].
  intros v s0 Q. split; [now left|exact Q].
Qed.

(** C23 for programs without Delete: nothing is asked of the scans.  Missing: programs
    with Delete (refuted below). *)
Theorem C23_scans_without_delete_fixlen_partial : forall prog scans s, no_delete prog ->
  sreach false as_is calls_calm prog scans s ->
  scans_fine (shistory s) /\ forall v, calls_calm v s -> ~ swrong false as_is v s.
Proof.
  intros prog scans s Hd Hr. eapply scans_nodel; [exact Hd| |intros; exact Logic.I|intros; split; intros ? ? ?; exact Logic.I|exact Hr].
  intros v s0 Q. right. auto.
Qed.
Theorem C23_repaired_scans_without_delete_fixlen_partial : forall prog scans s, no_delete prog ->
  sreach false repaired any_step prog scans s ->
  scans_fine (shistory s) /\ forall v, ~ swrong false repaired v s.
Proof.
  intros prog scans s Hd Hr. destruct (scans_nodel false repaired any_step prog scans s) as (Q1 & Q2);
    [exact Hd|now left|intros; exact Logic.I|intros; split; intros ? ? ?; exact Logic.I|exact Hr|].
  split; [exact Q1|]. intros v. apply Q2. exact Logic.I.
Qed.

End FixPSL.

(** ** Fixed-length nodes, BTreeOSL *)
Section FixOSL.
Context (P : Params) (O : OrdLaws P) (F : FixSizes P) (G : FixGood P).
#[local] Instance opsFixOSL : SLOps P := fix_sl_ops true.
#[local] Instance lawsFixOSL : SLLaws P opsFixOSL := fix_sl_laws true.

(** C24.  Missing: executions that are not calm (refuted below). *)
Theorem C24_calm_scans_fixlen_partial : forall prog scans s, 
  sreach true as_is all_calm prog scans s ->
  scans_fine (shistory s) /\ forall v, all_calm v s -> ~ swrong true as_is v s.
Proof.
  intros prog scans s Hr. eapply scans_any; [|intros; exact Logic.I|intros; split; intros ? ? ?; exact Logic.I|exact Hr].
  intros v s0 (Q1 & Q2). split; [right; auto|exact Q2].
Qed.

(** C24 on the tree with the three repairs of C16: only the scans have to be calm. *)
Theorem C24_repaired_calm_scans_fixlen_partial : forall prog scans s, 
  sreach true repaired scans_calm prog scans s ->
  scans_fine (shistory s) /\ forall v, scans_calm v s -> ~ swrong true repaired v s.
Proof.
  intros prog scans s Hr. eapply scans_any; [|intros; exact Logic.I|intros; split; intros ? ? ?; exact Logic.I|exact Hr].
  intros v s0 Q. split; [now left|exact Q].
Qed.

(** C24 for programs without Delete: nothing is asked of the scans.  Missing: programs
    with Delete (refuted below). *)
Theorem C24_scans_without_delete_fixlen_partial : forall prog scans s, no_delete prog ->
  sreach true as_is calls_calm prog scans s ->
  scans_fine (shistory s) /\ forall v, calls_calm v s -> ~ swrong true as_is v s.
Proof.
  intros prog scans s Hd Hr. eapply scans_nodel; [exact Hd| |intros; exact Logic.I|intros; split; intros ? ? ?; exact Logic.I|exact Hr].
  intros v s0 Q. right. auto.
Qed.
Theorem C24_repaired_scans_without_delete_fixlen_partial : forall prog scans s, no_delete prog ->
  sreach true repaired any_step prog scans s ->
  scans_fine (shistory s) /\ forall v, ~ swrong true repaired v s.
Proof.
  intros prog scans s Hd Hr. destruct (scans_nodel true repaired any_step prog scans s) as (Q1 & Q2);
    [exact Hd|now left|intros; exact Logic.I|intros; split; intros ? ? ?; exact Logic.I|exact Hr|].
  split; [exact Q1|]. intros v. apply Q2. exact Logic.I.
Qed.

End FixOSL.

(** ** Variable-length nodes, BTreePSL *)
Section VarPSL.
Context (P : Params) (O : OrdLaws P) (F : VarSizes P) (G : VarGood P).
#[local] Instance opsVarPSL : SLOps P := var_sl_ops false.
#[local] Instance lawsVarPSL : SLLaws P opsVarPSL := var_sl_laws false.

Lemma scans_validVarPSL scans : ok_scans scans -> forall u lo hi, In (lo, hi) (scans u) -> vb lo /\ vb hi.
Proof. intros Hv u lo hi Hin. exact (Hv u lo hi Hin). Qed.

(** C23.  Missing: executions that are not calm (refuted below). *)
Theorem C23_calm_scans_varlen_partial : forall prog scans s, ok_prog P prog -> ok_scans scans -> 
  sreach false as_is all_calm prog scans s ->
  scans_fine (shistory s) /\ forall v, all_calm v s -> ~ swrong false as_is v s.
Proof.
  intros prog scans s Hv Hb Hr. eapply scans_any; [|intros t c Hc; exact (Hv t c Hc)|exact (scans_validVarPSL scans Hb)|exact Hr].
  intros v s0 (Q1 & Q2). split; [right; auto|exact Q2].
Qed.

(** C23 on the tree with the three repairs of C16: only the scans have to be calm. *)
Theorem C23_repaired_calm_scans_varlen_partial : forall prog scans s, ok_prog P prog -> ok_scans scans -> 
  sreach false repaired scans_calm prog scans s ->
  scans_fine (shistory s) /\ forall v, scans_calm v s -> ~ swrong false repaired v s.
Proof.
  intros prog scans s Hv Hb Hr. eapply scans_any; [|intros t c Hc; exact (Hv t c Hc)|exact (scans_validVarPSL scans Hb)|exact Hr].
  intros v s0 Q. split; [now left|exact Q].
Qed.

(** C23 for programs without Delete: nothing is asked of the scans.  Missing: programs
    with Delete (refuted below). *)
Theorem C23_scans_without_delete_varlen_partial : forall prog scans s, ok_prog P prog -> ok_scans scans -> no_delete prog ->
  sreach false as_is calls_calm prog scans s ->
  scans_fine (shistory s) /\ forall v, calls_calm v s -> ~ swrong false as_is v s.
Proof.
  intros prog scans s Hv Hb Hd Hr. eapply scans_nodel; [exact Hd| |intros t c Hc; exact (Hv t c Hc)|exact (scans_validVarPSL scans Hb)|exact Hr].
  intros v s0 Q. right. auto.
Qed.
Theorem C23_repaired_scans_without_delete_varlen_partial : forall prog scans s, ok_prog P prog -> ok_scans scans -> no_delete prog ->
  sreach false repaired any_step prog scans s ->
  scans_fine (shistory s) /\ forall v, ~ swrong false repaired v s.
Proof.
  intros prog scans s Hv Hb Hd Hr. destruct (scans_nodel false repaired any_step prog scans s) as (Q1 & Q2);
    [exact Hd|now left|intros t c Hc; exact (Hv t c Hc)|exact (scans_validVarPSL scans Hb)|exact Hr|].
  split; [exact Q1|]. intros v. apply Q2. exact Logic.I.
Qed.

End VarPSL.

(** ** Variable-length nodes, BTreeOSL *)
Section VarOSL.
Context (P : Params) (O : OrdLaws P) (F : VarSizes P) (G : VarGood P).
#[local] Instance opsVarOSL : SLOps P := var_sl_ops true.
#[local] Instance lawsVarOSL : SLLaws P opsVarOSL := var_sl_laws true.

Lemma scans_validVarOSL scans : ok_scans scans -> forall u lo hi, In (lo, hi) (scans u) -> vb lo /\ vb hi.
Proof. intros Hv u lo hi Hin. exact (Hv u lo hi Hin). Qed.

(** C24.  Missing: executions that are not calm (refuted below). *)
Theorem C24_calm_scans_varlen_partial : forall prog scans s, ok_prog P prog -> ok_scans scans -> 
  sreach true as_is all_calm prog scans s ->
  scans_fine (shistory s) /\ forall v, all_calm v s -> ~ swrong true as_is v s.
Proof.
  intros prog scans s Hv Hb Hr. eapply scans_any; [|intros t c Hc; exact (Hv t c Hc)|exact (scans_validVarOSL scans Hb)|exact Hr].
  intros v s0 (Q1 & Q2). split; [right; auto|exact Q2].
Qed.

(** C24 on the tree with the three repairs of C16: only the scans have to be calm. *)
Theorem C24_repaired_calm_scans_varlen_partial : forall prog scans s, ok_prog P prog -> ok_scans scans -> 
  sreach true repaired scans_calm prog scans s ->
  scans_fine (shistory s) /\ forall v, scans_calm v s -> ~ swrong true repaired v s.
Proof.
  intros prog scans s Hv Hb Hr. eapply scans_any; [|intros t c Hc; exact (Hv t c Hc)|exact (scans_validVarOSL scans Hb)|exact Hr].
  intros v s0 Q. split; [now left|exact Q].
Qed.

(** C24 for programs without Delete: nothing is asked of the scans.  Missing: programs
    with Delete (refuted below). *)
Theorem C24_scans_without_delete_varlen_partial : forall prog scans s, ok_prog P prog -> ok_scans scans -> no_delete prog ->
  sreach true as_is calls_calm prog scans s ->
  scans_fine (shistory s) /\ forall v, calls_calm v s -> ~ swrong true as_is v s.
Proof.
  intros prog scans s Hv Hb Hd Hr. eapply scans_nodel; [exact Hd| |intros t c Hc; exact (Hv t c Hc)|exact (scans_validVarOSL scans Hb)|exact Hr].
  intros v s0 Q. right. auto.
Qed.
Theorem C24_repaired_scans_without_delete_varlen_partial : forall prog scans s, ok_prog P prog -> ok_scans scans -> no_delete prog ->
  sreach true repaired any_step prog scans s ->
  scans_fine (shistory s) /\ forall v, ~ swrong true repaired v s.
Proof.
  intros prog scans s Hv Hb Hd Hr. destruct (scans_nodel true repaired any_step prog scans s) as (Q1 & Q2);
    [exact Hd|now left|intros t c Hc; exact (Hv t c Hc)|exact (scans_validVarOSL scans Hb)|exact Hr|].
  split; [exact Q1|]. intros v. apply Q2. exact Logic.I.
Qed.

End VarOSL.

(** ** Refutations *)
Section Shown.
Context {P : Params} {O : OrdLaws P}.

Lemma unsorted_refutes h1 u lo hi h2 rs h3 :
  forallb (fun x => negb (is_mark x)) h2 = true -> sortedb (map fst rs) = false ->
  let h := h1 ++ Mk (MBeg u lo hi) :: h2 ++ Mk (MEnd u rs) :: h3 in
  ~ scans_sorted h /\ ~ scan_linearizable amap_empty h.
Proof.
  intros Hm Hs h.
  assert (Hn : ~ scans_sorted h).
  { intros Hr. apply (sortedb_false _ Hs). apply (Hr h1 u lo hi h2 rs h3 eq_refl). now apply no_marks. }
  split; [auto|]. intros Hl. apply Hn. eapply scan_linearizable_sorted; eauto.
Qed.

(** [k] was stored before the scan, is in range, is not deleted, and is missing. *)
Definition deletes (k : K) (e : event) : bool :=
  match e with EInv _ (CDelete k') => keqb k' k | _ => false end.
Lemma missing_refutes h1 u lo hi h2 rs h3 k v g1 g2 t r :
  forallb (fun x => negb (is_mark x)) h2 = true -> above lo k -> below hi k ->
  unmark h1 = g1 ++ ERes t r :: g2 -> pend g1 t None = Some (CWrite k v) ->
  forallb (fun e => negb (deletes k e)) (unmark (h1 ++ h2)) = true ->
  ~ In k (map fst rs) ->
  let h := h1 ++ Mk (MBeg u lo hi) :: h2 ++ Mk (MEnd u rs) :: h3 in
  ~ scans_keep h /\ ~ scan_linearizable amap_empty h.
Proof.
  intros Hm Ha Hb He Hp Hd Hk h.
  assert (Hn : ~ scans_keep h).
  { intros Hr. apply Hk. apply (Hr h1 u lo hi h2 rs h3 k eq_refl); auto.
    - now apply no_marks.
    - exists g1, g2, t, r, (CWrite k v). split; [auto|]. split; [auto|]. eauto.
    - intros t' Hin. rewrite forallb_forall in Hd. apply Hd in Hin. cbn in Hin.
      rewrite (proj2 (keqb_eq k k) eq_refl) in Hin. discriminate. }
  split; [auto|]. intros Hl. apply Hn. now apply scan_linearizable_keep.
Qed.

End Shown.

(** C23, PSL: the scan from 50 has delivered the leaf that starts with 50 and holds its
    shared latch.  Thread 1 deletes keys of the left sibling and merges that leaf into it;
    it waits for the exclusive latch that would mark the leaf as removed.  Thread 2 makes
    the merged leaf merge with the next one.  When the scan goes on, it follows the link of
    its own leaf to a page that has been removed, and from there to the page that contains
    the records again. *)
Definition wr {P : Params} (mk : nat -> K) (mv : nat -> V) (l : list nat) : list call :=
  map (fun k => CWrite (mk k) (mv (100 + k))) l.
Definition de {P : Params} (mk : nat -> K) (l : list nat) : list call := map (fun k => CDelete (mk k)) l.

Definition pf_prog (t : tid) : list (@call tiny) :=
  match t with
  | 0 => wr (P := tiny) (fun x => x) (fun x => x) (map (fun i => 10 * i) (seq 1 15))
  | 1 => de (P := tiny) (fun x => x) [10; 20]
  | 2 => wr (P := tiny) (fun x => x) (fun x => x) [51; 52; 53; 54] ++
         de (P := tiny) (fun x => x) [52; 53; 54; 51; 60]
  | _ => []
  end.
Definition pf_scans (u : tid) : list (@bound tiny * @bound tiny) :=
  match u with 0 => [(Some (50 : @K tiny, true), None)] | _ => [] end.
Definition pf_moves : moves :=
  [(Caller 0, 82); (Scanner 0 true, 4); (Caller 1, 12); (Caller 2, 54); (Scanner 0 true, 5)].

Definition pv_prog (t : tid) : list (@call vtiny) :=
  match t with
  | 0 => wr (P := vtiny) (fun x => x) (fun x => x) (map (fun i => 10 * i) (seq 1 15))
  | 1 => de (P := vtiny) (fun x => x) [10; 20; 30]
  | 2 => de (P := vtiny) (fun x => x) [60; 80; 90; 50]
  | _ => []
  end.
Definition pv_scans (u : tid) : list (@bound vtiny * @bound vtiny) :=
  match u with 0 => [(Some (50 : @K vtiny, true), None)] | _ => [] end.
Definition pv_moves : moves :=
  [(Caller 0, 84); (Scanner 0 true, 4); (Caller 1, 19); (Caller 2, 27); (Scanner 0 true, 5)].

(** C24, OSL: the scan from the last key has taken its begin position; the record before it
    is deleted and the leaf shrinks; the end position is now not behind the begin position,
    the leaf is the last one, and the scan ends without asking for the version. *)
Definition of_prog (t : tid) : list (@call dflt) :=
  match t with
  | 0 => wr (P := dflt) (fun x => x) (fun x => x) [1; 2]
  | 1 => de (P := dflt) (fun x => x) [1]
  | _ => []
  end.
Definition of_scans (u : tid) : list (@bound dflt * @bound dflt) :=
  match u with 0 => [(Some (2 : @K dflt, true), None)] | _ => [] end.
Definition of_moves : moves := [(Caller 0, 8); (Scanner 0 true, 5); (Caller 1, 5); (Scanner 0 false, 3)].

Definition ov_prog (t : tid) : list (@call vtiny) :=
  match t with
  | 0 => wr (P := vtiny) (fun x => x) (fun x => x) [1; 2; 3; 4; 5]
  | 1 => de (P := vtiny) (fun x => x) [1; 2] ++ wr (P := vtiny) (fun x => x) (fun x => x) [6]
  | _ => []
  end.
Definition ov_scans (u : tid) : list (@bound vtiny * @bound vtiny) :=
  match u with 0 => [(Some (5 : @K vtiny, true), None)] | _ => [] end.
Definition ov_moves : moves := [(Caller 0, 20); (Scanner 0 true, 5); (Caller 1, 12); (Scanner 0 false, 3)].

(** The scan in the history: what precedes it, what happens meanwhile, what follows it. *)
Fixpoint before_scan {P : Params} (h : list (marked event)) : list (marked event) :=
  match h with [] => [] | Mk _ :: _ => [] | e :: h' => e :: before_scan h' end.
Definition after_begin {P : Params} (h : list (marked event)) : list (marked event) :=
  skipn (S (length (before_scan h))) h.
Definition hist_of {P : Params} (o : option (list (marked event))) : list (marked event) :=
  match o with Some h => h | None => [] end.

Definition scan_at {P : Params} (h : list (marked event)) (u : tid) (lo hi : bound) (rs : list (K * V)) : Prop :=
  h = before_scan h ++ Mk (MBeg u lo hi) :: before_scan (after_begin h) ++ Mk (MEnd u rs) :: [].

(** The callers of these executions are calm: it is the scan alone that goes wrong. *)
Definition pf_hist : list (marked (@event tiny)) :=
  hist_of (run_history (N := fix_sl_ops (P := tiny) false) false as_is [0] calls_calmb pf_prog pf_scans pf_moves).
Definition pv_hist : list (marked (@event vtiny)) :=
  hist_of (run_history (N := var_sl_ops (P := vtiny) false) false as_is [0] calls_calmb pv_prog pv_scans pv_moves).
Definition of_hist : list (marked (@event dflt)) :=
  hist_of (run_history (N := fix_sl_ops (P := dflt) true) true as_is [0] calls_calmb of_prog of_scans of_moves).
Definition ov_hist : list (marked (@event vtiny)) :=
  hist_of (run_history (N := var_sl_ops (P := vtiny) true) true as_is [0] calls_calmb ov_prog ov_scans ov_moves).

Definition pf_result : list (@K tiny * @V tiny) :=
    [(50, 150); (60, 160); (70, 170); (80, 180); (90, 190); (100, 200); (70, 170); (80, 180);
     (90, 190); (100, 200); (110, 210); (120, 220); (130, 230); (140, 240); (150, 250)].

Theorem C23_scan_order_refuted_fixlen : exists prog scans s,
  sreach (N := fix_sl_ops (P := tiny) false) false as_is calls_calm prog scans s /\
  ~ scans_sorted (shistory s) /\ ~ scan_linearizable amap_empty (shistory s).
Proof.
  exists pf_prog, pf_scans.
  destruct (run_history_reach (N := fix_sl_ops (P := tiny) false) false as_is [0] calls_calmb calls_calm
              pf_prog pf_scans pf_moves pf_hist) as (s & Hr & Hh).
  - intros v s. apply (@calls_calmb_calm tiny tiny_ord _ false).
  - intros [|u] Hu; [now elim Hu; left|reflexivity].
  - unfold pf_hist. vm_compute. reflexivity.
  - exists s. split; [exact Hr|]. rewrite Hh.
    assert (E : scan_at pf_hist 0 (Some (50 : @K tiny, true)) None pf_result)
      by (vm_compute; reflexivity).
    rewrite E. apply (@unsorted_refutes tiny); vm_compute; reflexivity.
Qed.

Definition pv_result : list (@K vtiny * @V vtiny) :=
    [(50, 150); (60, 160); (70, 170); (100, 200); (110, 210); (40, 140); (70, 170); (100, 200);
     (110, 210); (120, 220); (130, 230); (140, 240); (150, 250)].

Theorem C23_scan_order_refuted_varlen : exists prog scans s,
  sreach (N := var_sl_ops (P := vtiny) false) false as_is calls_calm prog scans s /\
  ~ scans_sorted (shistory s) /\ ~ scan_linearizable amap_empty (shistory s).
Proof.
  exists pv_prog, pv_scans.
  destruct (run_history_reach (N := var_sl_ops (P := vtiny) false) false as_is [0] calls_calmb calls_calm
              pv_prog pv_scans pv_moves pv_hist) as (s & Hr & Hh).
  - intros v s. apply (@calls_calmb_calm vtiny vtiny_ord _ false).
  - intros [|u] Hu; [now elim Hu; left|reflexivity].
  - unfold pv_hist. vm_compute. reflexivity.
  - exists s. split; [exact Hr|]. rewrite Hh.
    assert (E : scan_at pv_hist 0 (Some (50 : @K vtiny, true)) None pv_result)
      by (vm_compute; reflexivity).
    rewrite E. apply (@unsorted_refutes vtiny); vm_compute; reflexivity.
Qed.

Theorem C24_scan_complete_refuted_fixlen : exists prog scans s,
  sreach (N := fix_sl_ops (P := dflt) true) true as_is calls_calm prog scans s /\
  ~ scans_keep (shistory s) /\ ~ scan_linearizable amap_empty (shistory s).
Proof.
  exists of_prog, of_scans.
  destruct (run_history_reach (N := fix_sl_ops (P := dflt) true) true as_is [0] calls_calmb calls_calm
              of_prog of_scans of_moves of_hist) as (s & Hr & Hh).
  - intros v s. apply (@calls_calmb_calm dflt dflt_ord _ true).
  - intros [|u] Hu; [now elim Hu; left|reflexivity].
  - unfold of_hist. vm_compute. reflexivity.
  - exists s. split; [exact Hr|]. rewrite Hh.
    assert (E : scan_at of_hist 0 (Some (2 : @K dflt, true)) None []) by (vm_compute; reflexivity).
    rewrite E. apply (@missing_refutes dflt dflt_ord) with (k := (2 : @K dflt)) (v := (102 : @V dflt))
      (g1 := firstn 3 (unmark (before_scan of_hist))) (g2 := []) (t := 0) (r := RSuccess);
      try (vm_compute; reflexivity).
    intros [].
Qed.

Theorem C24_scan_complete_refuted_varlen : exists prog scans s,
  sreach (N := var_sl_ops (P := vtiny) true) true as_is calls_calm prog scans s /\
  ~ scans_keep (shistory s) /\ ~ scan_linearizable amap_empty (shistory s).
Proof.
  exists ov_prog, ov_scans.
  destruct (run_history_reach (N := var_sl_ops (P := vtiny) true) true as_is [0] calls_calmb calls_calm
              ov_prog ov_scans ov_moves ov_hist) as (s & Hr & Hh).
  - intros v s. apply (@calls_calmb_calm vtiny vtiny_ord _ true).
  - intros [|u] Hu; [now elim Hu; left|reflexivity].
  - unfold ov_hist. vm_compute. reflexivity.
  - exists s. split; [exact Hr|]. rewrite Hh.
    assert (E : scan_at ov_hist 0 (Some (5 : @K vtiny, true)) None []) by (vm_compute; reflexivity).
    rewrite E. apply (@missing_refutes vtiny vtiny_ord) with (k := (5 : @K vtiny)) (v := (105 : @V vtiny))
      (g1 := firstn 9 (unmark (before_scan ov_hist))) (g2 := []) (t := 0) (r := RSuccess);
      try (vm_compute; reflexivity).
    intros [].
Qed.

(** ** The hypotheses are met *)

(** Thread 0 fills the tree until it has several leaves; the scan of everything starts and
    stops in the first leaf; thread 1 writes into the last leaf; the scan goes on. *)
Definition ex_prog {P : Params} (mk : nat -> K) (mv : nat -> V) (t : tid) : list call :=
  match t with
  | 0 => wr mk mv (map (fun i => 10 * i) (seq 1 15))
  | 1 => wr mk mv [145; 55]
  | _ => []
  end.
Definition ex_scans {P : Params} (lo : nat) (mk : nat -> K) (u : tid) : list (bound * bound) :=
  match u with 0 => [(Some (mk lo, false), Some (mk 145, true))] | _ => [] end.
Fixpoint results {P : Params} (h : list (marked event)) : list (list (K * V)) :=
  match h with [] => [] | Mk (MEnd _ rs) :: h' => rs :: results h' | _ :: h' => results h' end.
Definition ex_result : list (nat * nat) :=
  map (fun k => (k, 100 + k)) [30; 40; 50; 60; 70; 80; 90; 100; 110; 120; 130; 140; 145].

Example scan_met_psl_fixlen : exists s,
  sreach (N := fix_sl_ops (P := tiny) false) false as_is all_calm
    (@ex_prog tiny (fun x => x) (fun x => x)) (@ex_scans tiny 25 (fun x => x)) s /\
  results (shistory s) = [ex_result].
Proof.
  set (h := hist_of (run_history (N := fix_sl_ops (P := tiny) false) false as_is [0] all_calmb
    (@ex_prog tiny (fun x => x) (fun x => x)) (@ex_scans tiny 25 (fun x => x))
    [(Caller 0, 82); (Scanner 0 true, 4); (Caller 1, 8); (Scanner 0 true, 5)])).
  destruct (run_history_reach (N := fix_sl_ops (P := tiny) false) false as_is [0] all_calmb all_calm
    (@ex_prog tiny (fun x => x) (fun x => x)) (@ex_scans tiny 25 (fun x => x))
    [(Caller 0, 82); (Scanner 0 true, 4); (Caller 1, 8); (Scanner 0 true, 5)] h) as (s & Hr & Hh).
  - intros v s. apply (@all_calmb_calm tiny tiny_ord _ false).
  - intros [|u] Hu; [now elim Hu; left|reflexivity].
  - vm_compute. reflexivity.
  - exists s. split; [exact Hr|]. rewrite Hh. vm_compute. reflexivity.
Qed.

Example scan_met_psl_varlen : exists s,
  sreach (N := var_sl_ops (P := vtiny) false) false as_is all_calm
    (@ex_prog vtiny (fun x => x) (fun x => x)) (@ex_scans vtiny 25 (fun x => x)) s /\
  results (shistory s) = [ex_result].
Proof.
  set (h := hist_of (run_history (N := var_sl_ops (P := vtiny) false) false as_is [0] all_calmb
    (@ex_prog vtiny (fun x => x) (fun x => x)) (@ex_scans vtiny 25 (fun x => x))
    [(Caller 0, 84); (Scanner 0 true, 4); (Caller 1, 8); (Scanner 0 true, 5)])).
  destruct (run_history_reach (N := var_sl_ops (P := vtiny) false) false as_is [0] all_calmb all_calm
    (@ex_prog vtiny (fun x => x) (fun x => x)) (@ex_scans vtiny 25 (fun x => x))
    [(Caller 0, 84); (Scanner 0 true, 4); (Caller 1, 8); (Scanner 0 true, 5)] h) as (s & Hr & Hh).
  - intros v s. apply (@all_calmb_calm vtiny vtiny_ord _ false).
  - intros [|u] Hu; [now elim Hu; left|reflexivity].
  - vm_compute. reflexivity.
  - exists s. split; [exact Hr|]. rewrite Hh. vm_compute. reflexivity.
Qed.

Example scan_met_osl_fixlen : exists s,
  sreach (N := fix_sl_ops (P := tiny) true) true as_is all_calm
    (@ex_prog tiny (fun x => x) (fun x => x)) (@ex_scans tiny 25 (fun x => x)) s /\
  results (shistory s) = [ex_result].
Proof.
  set (h := hist_of (run_history (N := fix_sl_ops (P := tiny) true) true as_is [0] all_calmb
    (@ex_prog tiny (fun x => x) (fun x => x)) (@ex_scans tiny 25 (fun x => x))
    [(Caller 0, 82); (Scanner 0 true, 10); (Caller 1, 8); (Scanner 0 false, 1); (Scanner 0 true, 23)])).
  destruct (run_history_reach (N := fix_sl_ops (P := tiny) true) true as_is [0] all_calmb all_calm
    (@ex_prog tiny (fun x => x) (fun x => x)) (@ex_scans tiny 25 (fun x => x))
    [(Caller 0, 82); (Scanner 0 true, 10); (Caller 1, 8); (Scanner 0 false, 1); (Scanner 0 true, 23)] h) as (s & Hr & Hh).
  - intros v s. apply (@all_calmb_calm tiny tiny_ord _ true).
  - intros [|u] Hu; [now elim Hu; left|reflexivity].
  - vm_compute. reflexivity.
  - exists s. split; [exact Hr|]. rewrite Hh. vm_compute. reflexivity.
Qed.

Example scan_met_osl_varlen : exists s,
  sreach (N := var_sl_ops (P := vtiny) true) true as_is all_calm
    (@ex_prog vtiny (fun x => x) (fun x => x)) (@ex_scans vtiny 25 (fun x => x)) s /\
  results (shistory s) = [ex_result].
Proof.
  set (h := hist_of (run_history (N := var_sl_ops (P := vtiny) true) true as_is [0] all_calmb
    (@ex_prog vtiny (fun x => x) (fun x => x)) (@ex_scans vtiny 25 (fun x => x))
    [(Caller 0, 84); (Scanner 0 true, 9); (Caller 1, 8); (Scanner 0 false, 1); (Scanner 0 true, 24)])).
  destruct (run_history_reach (N := var_sl_ops (P := vtiny) true) true as_is [0] all_calmb all_calm
    (@ex_prog vtiny (fun x => x) (fun x => x)) (@ex_scans vtiny 25 (fun x => x))
    [(Caller 0, 84); (Scanner 0 true, 9); (Caller 1, 8); (Scanner 0 false, 1); (Scanner 0 true, 24)] h) as (s & Hr & Hh).
  - intros v s. apply (@all_calmb_calm vtiny vtiny_ord _ true).
  - intros [|u] Hu; [now elim Hu; left|reflexivity].
  - vm_compute. reflexivity.
  - exists s. split; [exact Hr|]. rewrite Hh. vm_compute. reflexivity.
Qed.

(** These programs have no Delete. *)
Example ex_no_delete : no_delete (@ex_prog tiny (fun x => x) (fun x => x)).
Proof.
  intros t k. destruct t as [|[|t]]; cbn; intros Hin; repeat destruct Hin as [Hin|Hin]; try discriminate; auto.
Qed.

Print Assumptions C23_calm_scans_fixlen_partial.
Print Assumptions C23_repaired_calm_scans_fixlen_partial.
Print Assumptions C23_scans_without_delete_fixlen_partial.
Print Assumptions C23_repaired_scans_without_delete_fixlen_partial.
Print Assumptions C24_calm_scans_fixlen_partial.
Print Assumptions C24_repaired_calm_scans_fixlen_partial.
Print Assumptions C23_calm_scans_varlen_partial.
Print Assumptions C23_repaired_calm_scans_varlen_partial.
Print Assumptions C23_scans_without_delete_varlen_partial.
Print Assumptions C23_repaired_scans_without_delete_varlen_partial.
Print Assumptions C24_calm_scans_varlen_partial.
Print Assumptions C24_repaired_calm_scans_varlen_partial.
Print Assumptions C24_scans_without_delete_fixlen_partial.
Print Assumptions C24_repaired_scans_without_delete_fixlen_partial.
Print Assumptions C24_scans_without_delete_varlen_partial.
Print Assumptions C24_repaired_scans_without_delete_varlen_partial.
Print Assumptions C23_scan_order_refuted_fixlen.
Print Assumptions C23_scan_order_refuted_varlen.
Print Assumptions C24_scan_complete_refuted_fixlen.
Print Assumptions C24_scan_complete_refuted_varlen.
