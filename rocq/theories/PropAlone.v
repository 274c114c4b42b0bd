(** C49.  BTreeOML used without overlap: one thread that calls Write, Delete, ... while it holds
    iterators, or several threads under one lock of their own.

    [one_by_one false Nobody (uinit prog scans) sched] (AloneModel.v): in the execution [sched]
    of the model of the code (OScanModel.v) no call, Scan or HasRecord begins before the one
    that runs has returned.  Between them anything may happen: an open iterator may find its
    leaf split, merged or changed.  [scans_fine] is that of PropCScan.v: the history with its
    scans is linearizable, scans are sorted, miss no key that stays, and deliver only what
    has been stored. *)
From Coq Require Import List Arith Bool Lia Sorted.
From Verif Require Import Params Mem Common Spec ConcSpec ScanSpec NodeAbs FixModel FixProofs VarModel
  VarProofs SLIface FixSL VarSL BaseIface MLIface FixML VarML IterModel TreeState ConcModel ConcLin ConcHist
  MConcModel OLaws OConcModel OConcInv OConcSteps OConcMain OConcCalm CScanModel CScanLin ScanHist
  MScanProofs MLeak OScanModel OScanProofs OScanMain PropMConc PropConc PropCScan PropOConc PropOScan
  AloneModel AloneProofs Inst.
Import ListNotations.

Section Any.
Context {P : Params} {O : OrdLaws P} {N : MLOps P} {L : MLLaws P N} {OW : OMLaws P N L}.

Lemma any_alone prog scans sched : keys_ok prog -> bounds_ok scans ->
  one_by_one false Nobody (uinit prog scans) sched = true ->
  exists s, urun false (uinit prog scans) sched = Some s /\ scans_fine (uhistory s) /\
    linearizable amap_empty (unmark (uhistory s)).
Proof.
  intros Hk Hb H. destruct (alone_calm prog scans sched Hk Hb H) as (H1 & H2).
  destruct (any_scans_calm prog scans sched Hk Hb H1 H2) as (s & E & Q).
  destruct (any_safe_calm prog scans sched Hk Hb H1) as (s' & E' & Q').
  exists s. assert (s' = s) by congruence. subst s'. auto.
Qed.

(** When everything has returned and the iterators are gone, exactly the tree is left. *)
Lemma any_alone_leak prog scans sched s : keys_ok prog -> bounds_ok scans ->
  one_by_one false Nobody (uinit prog scans) sched = true ->
  urun false (uinit prog scans) sched = Some s ->
  (forall t, oth (ub s) t = OIdle) -> (forall u, uth s u = UIdle) ->
  forall a, opage (ub s) a <> None <-> mreach (opage (ub s)) (ort (ub s)) a.
Proof.
  intros Hk Hb H. destruct (alone_calm prog scans sched Hk Hb H) as (H1 & _).
  exact (any_noleak_calm prog scans sched s Hk Hb H1).
Qed.

(** The functions [acts], each run until it returns. *)
Fixpoint run_out (fuel : nat) (w : inside) (v : umove) (s : ucfg) : list umove * ucfg :=
  match fuel with
  | 0 => ([], s)
  | S f =>
      match ustep false v s with
      | UOk s' =>
          match moved w v s s' with
          | Nobody => ([v], s')
          | w' => let (l, e) := run_out f w' v s' in (v :: l, e)
          end
      | _ => ([], s)
      end
  end.
Fixpoint play (acts : list umove) (s : ucfg) : list umove :=
  match acts with
  | [] => []
  | v :: acts' => let (l, s') := run_out 200 Nobody v s in l ++ play acts' s'
  end.

End Any.

(** ** Fixed-length nodes *)
Section Fix.
Context (P : Params) (O : OrdLaws P) (F : FixSizes P) (G : FixMLGood P).
#[local] Instance afops : MLOps P := fix_ml_ops.
#[local] Instance aflaws : MLLaws P afops := fix_ml_laws.
#[local] Instance afolaws : OMLaws P afops aflaws := fix_o_laws.

Theorem C49_scan_and_change_fixlen : forall prog scans sched,
  one_by_one false Nobody (uinit prog scans) sched = true ->
  exists s, urun false (uinit prog scans) sched = Some s /\ scans_fine (uhistory s) /\
    linearizable amap_empty (unmark (uhistory s)).
Proof. intros prog scans sched. apply any_alone; [apply fix_k; auto|apply fix_b; auto]. Qed.

Theorem C49_no_leak_fixlen : forall prog scans sched s,
  one_by_one false Nobody (uinit prog scans) sched = true ->
  urun false (uinit prog scans) sched = Some s ->
  (forall t, oth (ub s) t = OIdle) -> (forall u, uth s u = UIdle) ->
  forall a, opage (ub s) a <> None <-> mreach (opage (ub s)) (ort (ub s)) a.
Proof. intros prog scans sched s. apply any_alone_leak; [apply fix_k; auto|apply fix_b; auto]. Qed.
End Fix.

(** ** Variable-length nodes *)
Section Var.
Context (P : Params) (O : OrdLaws P) (F : VarSizes P) (G : VarGood P) (GM : VarMLGood P).
#[local] Instance avops : MLOps P := var_ml_ops.
#[local] Instance avlaws : MLLaws P avops := var_ml_laws.
#[local] Instance avolaws : OMLaws P avops avlaws := var_o_laws.

Theorem C49_scan_and_change_varlen : forall prog scans sched, PropMConc.ok_prog P prog -> ok_scans scans ->
  one_by_one false Nobody (uinit prog scans) sched = true ->
  exists s, urun false (uinit prog scans) sched = Some s /\ scans_fine (uhistory s) /\
    linearizable amap_empty (unmark (uhistory s)).
Proof. intros prog scans sched Hv Hs. apply any_alone; [apply var_k; auto|apply var_b; auto]. Qed.

Theorem C49_no_leak_varlen : forall prog scans sched s, PropMConc.ok_prog P prog -> ok_scans scans ->
  one_by_one false Nobody (uinit prog scans) sched = true ->
  urun false (uinit prog scans) sched = Some s ->
  (forall t, oth (ub s) t = OIdle) -> (forall u, uth s u = UIdle) ->
  forall a, opage (ub s) a <> None <-> mreach (opage (ub s)) (ort (ub s)) a.
Proof. intros prog scans sched s Hv Hs. apply any_alone_leak; [apply var_k; auto|apply var_b; auto]. Qed.
End Var.

(** ** Executions *)

(** A thread writes the keys 1, ..., [n], opens a scan of everything and, after every record it
    reads, deletes two keys, some behind and some ahead of its iterator: leaves are emptied and
    merged under the iterator.  A second scan is open since before the deletions. *)
Definition sweep_prog {P : Params} (mk : nat -> K) (mv : nat -> V) (n : nat) (t : tid) : list call :=
  match t with
  | 0 => map (fun i => CWrite (mk i) (mv i)) (seq 1 n) ++ flat_map (fun i => [CDelete (mk i); CDelete (mk (n + 1 - i))]) (seq 1 n)
  | _ => []
  end.
Definition sweep_scans {P : Params} (mk : nat -> K) (u : tid) : list (bound * bound) :=
  match u with 1 => [(None, None)] | 2 => [(Some (mk 3, true), None)] | _ => [] end.
Definition sweep_acts (n : nat) : list umove :=
  repeat (UCall 0) n ++ [UScan 1 true; UScan 2 true; UScan 2 true] ++
  concat (repeat [UScan 1 true; UCall 0; UCall 0] n) ++ repeat (UScan 2 true) 4.
Definition sweep_end {P : Params} {N : MLOps P} (s : ucfg) :=
  (results (uhistory s), (ofr (ub s), retired (ub s))).

(** No function overlaps another one; the records of the scans, pages made, pages retired. *)
Example sweep_fixlen :
  let i := uinit (sweep_prog (P := tiny) (fun x => x) (fun x => x) 12) (sweep_scans (P := tiny) (fun x => x)) in
  let sched := play (N := fix_ml_ops (P := tiny)) (sweep_acts 12) i in
  one_by_one (N := fix_ml_ops (P := tiny)) false Nobody i sched = true /\ length sched = 348 /\
  option_map sweep_end (urun (N := fix_ml_ops (P := tiny)) false i sched) =
    Some ([[(1, 1); (2, 2); (3, 3); (4, 4); (5, 5); (6, 6)]; [(3, 3)]], (5, 3)).
Proof. vm_compute. repeat split; reflexivity. Qed.
Example sweep_varlen :
  let i := uinit (sweep_prog (P := mvtiny) (fun x => x) (fun x => x) 12) (sweep_scans (P := mvtiny) (fun x => x)) in
  let sched := play (N := var_ml_ops (P := mvtiny)) (sweep_acts 12) i in
  one_by_one (N := var_ml_ops (P := mvtiny)) false Nobody i sched = true /\ length sched = 377 /\
  option_map sweep_end (urun (N := var_ml_ops (P := mvtiny)) false i sched) =
    Some ([[(1, 1); (2, 2); (3, 3); (4, 4); (5, 5); (6, 6)]; [(3, 3)]], (5, 3)).
Proof. vm_compute. repeat split; reflexivity. Qed.

Print Assumptions C49_scan_and_change_fixlen.
Print Assumptions C49_no_leak_fixlen.
Print Assumptions C49_scan_and_change_varlen.
Print Assumptions C49_no_leak_varlen.
