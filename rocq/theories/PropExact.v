(** C50, C51.  BTreeOML used without overlap (C49): what an iterator reports is what is in the tree
    at that moment.

    [calls_map h] (SeqHist.v) is the map after the calls of the history [h], computed with the
    specification of Spec.v; [next_record m b hi k v]: [(k, v)] is the first record of [m] above
    [b], and it is in range; [last_bound lo acc]: above the last record delivered, or above the
    left end of the scan if there is none.

    HasRecord may be called long after the leaf was read, and in between the client may have
    changed the tree: it reports no record that has been deleted or overwritten meanwhile and
    passes over none that has been inserted ahead of it.  When it says that there are no more
    records it may be wrong, if it says so without looking at the leaf again; but then
    there was none at some moment since the last record was delivered (C51). *)
From Coq Require Import List Arith Bool Lia Sorted.
From Verif Require Import Params Mem Common Spec ConcSpec ScanSpec NodeAbs FixModel FixProofs VarModel
  VarProofs SLIface FixSL VarSL BaseIface MLIface FixML VarML IterModel TreeState ConcModel ConcLin ConcHist
  MConcModel OLaws OConcModel OConcInv OConcSteps OConcMain OConcCalm CScanModel CScanLin ScanHist
  MScanProofs MLeak OScanModel OScanProofs OScanMain PropMConc PropConc PropCScan PropOConc PropOScan
  SeqHist AloneModel AloneProofs AloneExact PropAlone Inst.
Import ListNotations.

(** ** Fixed-length nodes *)
Section Fix.
Context (P : Params) (O : OrdLaws P) (F : FixSizes P) (G : FixMLGood P).
#[local] Instance exfops : MLOps P := fix_ml_ops.
#[local] Instance exflaws : MLLaws P exfops := fix_ml_laws.
#[local] Instance exfolaws : OMLaws P exfops exflaws := fix_o_laws.

Theorem C50_next_record_fixlen : forall prog scans sched u chk s s' k v lo hi,
  one_by_one false Nobody (uinit prog scans) (sched ++ [UScan u chk]) = true ->
  urun false (uinit prog scans) sched = Some s -> ustep false (UScan u chk) s = UOk s' ->
  ubounds (uth s u) = Some (lo, hi) -> given (uth s' u) = given (uth s u) ++ [(k, v)] ->
  next_record (calls_map (unmark (uhistory s))) (last_bound lo (given (uth s u))) hi k v.
Proof. intros prog scans sched u chk s s' k v lo hi. apply alone_next; [apply fix_k; auto|apply fix_b; auto]. Qed.
(** HasRecord that does not answer in its first step, that is, without looking at the leaf. *)
Theorem C51_end_after_looking_fixlen_partial : forall prog scans sched u chk s s' lo hi acc,
  one_by_one false Nobody (uinit prog scans) (sched ++ [UScan u chk]) = true ->
  urun false (uinit prog scans) sched = Some s -> ustep false (UScan u chk) s = UOk s' ->
  who false Nobody (uinit prog scans) sched = InHas u ->
  (forall acc', uth s u <> URet lo hi acc') -> uth s' u = URet lo hi acc ->
  forall k, above (last_bound lo acc) k -> below hi k -> calls_map (unmark (uhistory s)) k = None.
Proof. intros prog scans sched u chk s s' lo hi acc. apply alone_end; [apply fix_k; auto|apply fix_b; auto]. Qed.

(** In general: there was nothing more at some moment since the last record was delivered, when
    the scan was where it is now. *)
Theorem C51_end_was_right_fixlen_partial : forall prog scans sched u chk s s' lo hi acc,
  one_by_one false Nobody (uinit prog scans) (sched ++ [UScan u chk]) = true ->
  urun false (uinit prog scans) sched = Some s -> ustep false (UScan u chk) s = UOk s' ->
  (forall acc', uth s u <> URet lo hi acc') -> uth s' u = URet lo hi acc ->
  exists before since s1, sched = before ++ since /\ urun false (uinit prog scans) before = Some s1 /\
    (forall l l' x, since = l ++ l' -> urun false (uinit prog scans) (before ++ l) = Some x ->
       ubounds (uth x u) = Some (lo, hi) /\ given (uth x u) = acc) /\
    forall k, above (last_bound lo acc) k -> below hi k -> calls_map (unmark (uhistory s1)) k = None.
Proof. intros prog scans sched u chk s s' lo hi acc. apply alone_end_seen; [apply fix_k; auto|apply fix_b; auto]. Qed.
End Fix.

(** ** Variable-length nodes *)
Section Var.
Context (P : Params) (O : OrdLaws P) (F : VarSizes P) (G : VarGood P) (GM : VarMLGood P).
#[local] Instance exvops : MLOps P := var_ml_ops.
#[local] Instance exvlaws : MLLaws P exvops := var_ml_laws.
#[local] Instance exvolaws : OMLaws P exvops exvlaws := var_o_laws.

Theorem C50_next_record_varlen : forall prog scans sched u chk s s' k v lo hi,
  PropMConc.ok_prog P prog -> ok_scans scans ->
  one_by_one false Nobody (uinit prog scans) (sched ++ [UScan u chk]) = true ->
  urun false (uinit prog scans) sched = Some s -> ustep false (UScan u chk) s = UOk s' ->
  ubounds (uth s u) = Some (lo, hi) -> given (uth s' u) = given (uth s u) ++ [(k, v)] ->
  next_record (calls_map (unmark (uhistory s))) (last_bound lo (given (uth s u))) hi k v.
Proof. intros prog scans sched u chk s s' k v lo hi Hv Hs. apply alone_next; [apply var_k; auto|apply var_b; auto]. Qed.
Theorem C51_end_after_looking_varlen_partial : forall prog scans sched u chk s s' lo hi acc,
  PropMConc.ok_prog P prog -> ok_scans scans ->
  one_by_one false Nobody (uinit prog scans) (sched ++ [UScan u chk]) = true ->
  urun false (uinit prog scans) sched = Some s -> ustep false (UScan u chk) s = UOk s' ->
  who false Nobody (uinit prog scans) sched = InHas u ->
  (forall acc', uth s u <> URet lo hi acc') -> uth s' u = URet lo hi acc ->
  forall k, above (last_bound lo acc) k -> below hi k -> calls_map (unmark (uhistory s)) k = None.
Proof. intros prog scans sched u chk s s' lo hi acc Hv Hs. apply alone_end; [apply var_k; auto|apply var_b; auto]. Qed.
Theorem C51_end_was_right_varlen_partial : forall prog scans sched u chk s s' lo hi acc,
  PropMConc.ok_prog P prog -> ok_scans scans ->
  one_by_one false Nobody (uinit prog scans) (sched ++ [UScan u chk]) = true ->
  urun false (uinit prog scans) sched = Some s -> ustep false (UScan u chk) s = UOk s' ->
  (forall acc', uth s u <> URet lo hi acc') -> uth s' u = URet lo hi acc ->
  exists before since s1, sched = before ++ since /\ urun false (uinit prog scans) before = Some s1 /\
    (forall l l' x, since = l ++ l' -> urun false (uinit prog scans) (before ++ l) = Some x ->
       ubounds (uth x u) = Some (lo, hi) /\ given (uth x u) = acc) /\
    forall k, above (last_bound lo acc) k -> below hi k -> calls_map (unmark (uhistory s1)) k = None.
Proof. intros prog scans sched u chk s s' lo hi acc Hv Hs. apply alone_end_seen; [apply var_k; auto|apply var_b; auto]. Qed.
End Var.

(** ** No more records *)

(** "When HasRecord says that there are no more records, the map has none above the last one
    delivered." *)
Definition end_right {P : Params} (N : MLOps P) : Prop := forall prog scans sched u chk s s' lo hi acc,
  one_by_one false Nobody (uinit prog scans) (sched ++ [UScan u chk]) = true ->
  urun false (uinit prog scans) sched = Some s -> ustep false (UScan u chk) s = UOk s' ->
  (forall acc', uth s u <> URet lo hi acc') -> uth s' u = URet lo hi acc ->
  forall k, above (last_bound lo acc) k -> below hi k -> calls_map (unmark (uhistory s)) k = None.

(** Two records are written and read; then the client writes a third one and asks again. *)
Definition late_prog {P : Params} (mk : nat -> K) (mv : nat -> V) (t : tid) : list call :=
  match t with 0 => map (fun i => CWrite (mk i) (mv i)) [1; 2; 3] | _ => [] end.
Definition late_scans {P : Params} (u : tid) : list (bound * bound) := match u with 1 => [(None, None)] | _ => [] end.
Definition late_acts : list umove := [UCall 0; UCall 0; UScan 1 true; UScan 1 true; UScan 1 true; UCall 0].

Definition ended {P : Params} (p : upc) : option (list (K * V)) :=
  match p with URet None None acc => Some acc | _ => None end.

Lemma late_refutes {P : Params} (N : MLOps P) prog scans sched u acc k v :
  one_by_one false Nobody (uinit prog scans) (sched ++ [UScan u true]) = true ->
  option_map (fun s => (ended (uth s u),
                        match ustep false (UScan u true) s with UOk s' => ended (uth s' u) | _ => None end,
                        calls_map (unmark (uhistory s)) k))
    (urun false (uinit prog scans) sched) = Some (None, Some acc, Some v) ->
  above (last_bound None acc) k -> ~ end_right N.
Proof.
  intros Ho E Hk H. destruct (urun false (uinit prog scans) sched) as [s|] eqn:Er; [|discriminate].
  cbn [option_map] in E. injection E as E1 E2 E3.
  change (scano_step u true s) with (ustep false (UScan u true) s) in E2.
  destruct (ustep false (UScan u true) s) as [s'| |] eqn:Es; try discriminate.
  assert (E4 : uth s' u = URet None None acc).
  { revert E2. unfold ended. destruct (uth s' u); try discriminate.
    match goal with |- context [URet ?a ?b _ = _] => destruct a, b; congruence end. }
  rewrite (H prog scans sched u true s s' None None acc Ho Er Es) in E3; auto; [discriminate| |exact Logic.I].
  intros acc' E5. rewrite E5 in E1. discriminate.
Qed.

Theorem C51_end_of_scan_fixlen_refuted : ~ end_right (fix_ml_ops (P := tiny)).
Proof.
  apply (late_refutes _ (late_prog (P := tiny) (fun x => x) (fun x => x)) late_scans
           (play (N := fix_ml_ops (P := tiny)) late_acts (uinit (late_prog (P := tiny) (fun x => x) (fun x => x)) late_scans))
           1 [(1, 1); (2, 2)] 3 3); vm_compute; auto.
Qed.
Theorem C51_end_of_scan_varlen_refuted : ~ end_right (var_ml_ops (P := mvtiny)).
Proof.
  apply (late_refutes _ (late_prog (P := mvtiny) (fun x => x) (fun x => x)) late_scans
           (play (N := var_ml_ops (P := mvtiny)) late_acts (uinit (late_prog (P := mvtiny) (fun x => x) (fun x => x)) late_scans))
           1 [(1, 1); (2, 2)] 3 3); vm_compute; auto.
Qed.

(** ** Executions *)

(** Ten records are written; the client reads 1, then deletes 2, overwrites 3 with 30, deletes 4
    and writes 5 again with 50, and reads on.  The iterator, opened before, delivers the records
    as they are now, and the last step of the schedule is one that delivers. *)
Definition fresh_prog {P : Params} (mk : nat -> K) (mv : nat -> V) (t : tid) : list call :=
  match t with
  | 0 => map (fun i => CWrite (mk i) (mv i)) (seq 1 10) ++
         [CDelete (mk 2); CWrite (mk 3) (mv 30); CDelete (mk 4); CWrite (mk 5) (mv 50)]
  | _ => []
  end.
Definition fresh_acts : list umove := repeat (UCall 0) 10 ++ [UScan 1 true; UScan 1 true] ++ repeat (UCall 0) 4 ++ repeat (UScan 1 true) 3.
Definition fresh_end {P : Params} {N : MLOps P} (mk : nat -> K) (s : ucfg) :=
  (given (uth s 1), map (fun i => calls_map (unmark (uhistory s)) (mk i)) [2; 3; 4; 5; 6]).

Example fresh_fixlen :
  let i := uinit (fresh_prog (P := tiny) (fun x => x) (fun x => x)) late_scans in
  let sched := play (N := fix_ml_ops (P := tiny)) fresh_acts i in
  one_by_one (N := fix_ml_ops (P := tiny)) false Nobody i sched = true /\
  option_map (fun s => given (uth s 1)) (urun (N := fix_ml_ops (P := tiny)) false i (removelast sched)) =
    Some [(1, 1); (3, 30); (5, 50)] /\
  option_map (fresh_end (P := tiny) (fun x => x)) (urun (N := fix_ml_ops (P := tiny)) false i sched) =
    Some ([(1, 1); (3, 30); (5, 50); (6, 6)], [None; Some 30; None; Some 50; Some 6]).
Proof. vm_compute. repeat split; reflexivity. Qed.
Example fresh_varlen :
  let i := uinit (fresh_prog (P := mvtiny) (fun x => x) (fun x => x)) late_scans in
  let sched := play (N := var_ml_ops (P := mvtiny)) fresh_acts i in
  one_by_one (N := var_ml_ops (P := mvtiny)) false Nobody i sched = true /\
  option_map (fun s => given (uth s 1)) (urun (N := var_ml_ops (P := mvtiny)) false i (removelast sched)) =
    Some [(1, 1); (3, 30); (5, 50)] /\
  option_map (fresh_end (P := mvtiny) (fun x => x)) (urun (N := var_ml_ops (P := mvtiny)) false i sched) =
    Some ([(1, 1); (3, 30); (5, 50); (6, 6)], [None; Some 30; None; Some 50; Some 6]).
Proof. vm_compute. repeat split; reflexivity. Qed.

(** [C51_end_after_looking_*_partial]: three records are written, one is read, the others are
    deleted; HasRecord looks at the leaf again and says that there are no more. *)
Definition gone_prog {P : Params} (mk : nat -> K) (mv : nat -> V) (t : tid) : list call :=
  match t with 0 => map (fun i => CWrite (mk i) (mv i)) [1; 2; 3] ++ [CDelete (mk 2); CDelete (mk 3)] | _ => [] end.
Definition gone_acts : list umove := repeat (UCall 0) 3 ++ [UScan 1 true; UScan 1 true; UCall 0; UCall 0; UScan 1 true].
Definition inside_has (w : inside) : bool := match w with InHas 1 => true | _ => false end.
Example gone_fixlen :
  let i := uinit (gone_prog (P := tiny) (fun x => x) (fun x => x)) late_scans in
  let sched := play (N := fix_ml_ops (P := tiny)) gone_acts i in
  one_by_one (N := fix_ml_ops (P := tiny)) false Nobody i sched = true /\
  inside_has (who (N := fix_ml_ops (P := tiny)) false Nobody i (removelast sched)) = true /\
  option_map (fun s => ended (uth s 1)) (urun (N := fix_ml_ops (P := tiny)) false i (removelast sched)) = Some None /\
  option_map (fun s => ended (uth s 1)) (urun (N := fix_ml_ops (P := tiny)) false i sched) = Some (Some [(1, 1)]).
Proof. vm_compute. repeat split; reflexivity. Qed.
Example gone_varlen :
  let i := uinit (gone_prog (P := mvtiny) (fun x => x) (fun x => x)) late_scans in
  let sched := play (N := var_ml_ops (P := mvtiny)) gone_acts i in
  one_by_one (N := var_ml_ops (P := mvtiny)) false Nobody i sched = true /\
  inside_has (who (N := var_ml_ops (P := mvtiny)) false Nobody i (removelast sched)) = true /\
  option_map (fun s => ended (uth s 1)) (urun (N := var_ml_ops (P := mvtiny)) false i (removelast sched)) = Some None /\
  option_map (fun s => ended (uth s 1)) (urun (N := var_ml_ops (P := mvtiny)) false i sched) = Some (Some [(1, 1)]).
Proof. vm_compute. repeat split; reflexivity. Qed.

Print Assumptions C50_next_record_fixlen.
Print Assumptions C50_next_record_varlen.
Print Assumptions C51_end_of_scan_fixlen_refuted.
Print Assumptions C51_end_of_scan_varlen_refuted.
Print Assumptions C51_end_after_looking_fixlen_partial.
Print Assumptions C51_end_after_looking_varlen_partial.
Print Assumptions C51_end_was_right_fixlen_partial.
Print Assumptions C51_end_was_right_varlen_partial.
