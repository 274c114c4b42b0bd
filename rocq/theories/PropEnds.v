(** C52, C53.  BTreeOML used without overlap (C49): HasRecord of an open iterator
    returns, and so does Scan.

    HasRecord goes round: it reads the version of the leaf again, starts again from the position
    of the last key if the leaf has been changed, goes to the next leaf when it has used up this one,
    and passes over deleted records.  Whatever the client has done since the iterator was opened
    (splits and merges of the leaf it is on included), if HasRecord is called and nobody
    else is inside, it comes to an answer in finitely many steps: one more record, or the end of
    the scan.  [UScan u true] is a step of iterator [u] in which HasSameVersion does not fail when
    the version is the same (C35).

    C53: Scan called while nobody else is inside comes to an open iterator for the range asked
    for, and the loop over the iterator, if nothing is called in between, comes to the end of the
    scan, in finitely many steps. *)
From Coq Require Import List Arith Bool Lia Sorted.
From Verif Require Import Params Mem Common Spec ConcSpec ScanSpec NodeAbs FixModel FixProofs VarModel
  VarProofs SLIface FixSL VarSL BaseIface MLIface FixML VarML IterModel TreeState ConcModel ConcLin ConcHist
  MConcModel OLaws OConcModel OConcInv OConcSteps OConcMain OConcCalm CScanModel CScanLin ScanHist
  MScanProofs MLeak OScanModel OScanProofs OScanMain PropMConc PropConc PropCScan PropOConc PropOScan
  SeqHist AloneModel AloneProofs AloneExact AloneEnds AloneOpens PropAlone PropExact Inst.
Import ListNotations.

(** ** Fixed-length nodes *)
Section Fix.
Context (P : Params) (O : OrdLaws P) (F : FixSizes P) (G : FixMLGood P).
#[local] Instance enfops : MLOps P := fix_ml_ops.
#[local] Instance enflaws : MLLaws P enfops := fix_ml_laws.
#[local] Instance enfolaws : OMLaws P enfops enflaws := fix_o_laws.

Theorem C52_has_record_returns_fixlen : forall prog scans sched u s,
  one_by_one false Nobody (uinit prog scans) sched = true -> urun false (uinit prog scans) sched = Some s ->
  who false Nobody (uinit prog scans) sched = Nobody ->
  (exists lo hi a ver kk pos e ie acc, uth s u = ULoop lo hi a ver kk pos e ie acc) ->
  exists n s', urun false (uinit prog scans) (sched ++ repeat (UScan u true) n) = Some s' /\
    one_by_one false Nobody (uinit prog scans) (sched ++ repeat (UScan u true) n) = true /\
    who false Nobody (uinit prog scans) (sched ++ repeat (UScan u true) n) = Nobody /\
    ((exists r, given (uth s' u) = given (uth s u) ++ [r]) \/
     exists lo hi, uth s' u = URet lo hi (given (uth s u))).
Proof. intros prog scans sched u s. apply alone_answers; [apply fix_k; auto|apply fix_b; auto]. Qed.

Theorem C53_scan_returns_fixlen : forall prog scans sched u s lo hi q,
  one_by_one false Nobody (uinit prog scans) sched = true -> urun false (uinit prog scans) sched = Some s ->
  who false Nobody (uinit prog scans) sched = Nobody ->
  uth s u = UIdle -> uq s u = (lo, hi) :: q ->
  exists n s', urun false (uinit prog scans) (sched ++ repeat (UScan u true) n) = Some s' /\
    one_by_one false Nobody (uinit prog scans) (sched ++ repeat (UScan u true) n) = true /\
    who false Nobody (uinit prog scans) (sched ++ repeat (UScan u true) n) = Nobody /\
    exists a ver kk pos e ie, uth s' u = ULoop lo hi a ver kk pos e ie [].
Proof. intros prog scans sched u s lo hi q. apply alone_opens; [apply fix_k; auto|apply fix_b; auto]. Qed.

Theorem C53_scan_loop_ends_fixlen : forall prog scans sched u s,
  one_by_one false Nobody (uinit prog scans) sched = true -> urun false (uinit prog scans) sched = Some s ->
  who false Nobody (uinit prog scans) sched = Nobody -> uth s u = UIdle -> uq s u <> [] ->
  exists n s', urun false (uinit prog scans) (sched ++ repeat (UScan u true) n) = Some s' /\
    one_by_one false Nobody (uinit prog scans) (sched ++ repeat (UScan u true) n) = true /\
    who false Nobody (uinit prog scans) (sched ++ repeat (UScan u true) n) = Nobody /\
    exists lo hi acc, uth s' u = URet lo hi acc.
Proof. intros prog scans sched u s. apply alone_whole; [apply fix_k; auto|apply fix_b; auto]. Qed.
End Fix.

(** ** Variable-length nodes *)
Section Var.
Context (P : Params) (O : OrdLaws P) (F : VarSizes P) (G : VarGood P) (GM : VarMLGood P).
#[local] Instance envops : MLOps P := var_ml_ops.
#[local] Instance envlaws : MLLaws P envops := var_ml_laws.
#[local] Instance envolaws : OMLaws P envops envlaws := var_o_laws.

Theorem C52_has_record_returns_varlen : forall prog scans sched u s,
  PropMConc.ok_prog P prog -> ok_scans scans ->
  one_by_one false Nobody (uinit prog scans) sched = true -> urun false (uinit prog scans) sched = Some s ->
  who false Nobody (uinit prog scans) sched = Nobody ->
  (exists lo hi a ver kk pos e ie acc, uth s u = ULoop lo hi a ver kk pos e ie acc) ->
  exists n s', urun false (uinit prog scans) (sched ++ repeat (UScan u true) n) = Some s' /\
    one_by_one false Nobody (uinit prog scans) (sched ++ repeat (UScan u true) n) = true /\
    who false Nobody (uinit prog scans) (sched ++ repeat (UScan u true) n) = Nobody /\
    ((exists r, given (uth s' u) = given (uth s u) ++ [r]) \/
     exists lo hi, uth s' u = URet lo hi (given (uth s u))).
Proof. intros prog scans sched u s Hv Hs. apply alone_answers; [apply var_k; auto|apply var_b; auto]. Qed.

Theorem C53_scan_returns_varlen : forall prog scans sched u s lo hi q,
  PropMConc.ok_prog P prog -> ok_scans scans ->
  one_by_one false Nobody (uinit prog scans) sched = true -> urun false (uinit prog scans) sched = Some s ->
  who false Nobody (uinit prog scans) sched = Nobody ->
  uth s u = UIdle -> uq s u = (lo, hi) :: q ->
  exists n s', urun false (uinit prog scans) (sched ++ repeat (UScan u true) n) = Some s' /\
    one_by_one false Nobody (uinit prog scans) (sched ++ repeat (UScan u true) n) = true /\
    who false Nobody (uinit prog scans) (sched ++ repeat (UScan u true) n) = Nobody /\
    exists a ver kk pos e ie, uth s' u = ULoop lo hi a ver kk pos e ie [].
Proof. intros prog scans sched u s lo hi q Hv Hs. apply alone_opens; [apply var_k; auto|apply var_b; auto]. Qed.

Theorem C53_scan_loop_ends_varlen : forall prog scans sched u s,
  PropMConc.ok_prog P prog -> ok_scans scans ->
  one_by_one false Nobody (uinit prog scans) sched = true -> urun false (uinit prog scans) sched = Some s ->
  who false Nobody (uinit prog scans) sched = Nobody -> uth s u = UIdle -> uq s u <> [] ->
  exists n s', urun false (uinit prog scans) (sched ++ repeat (UScan u true) n) = Some s' /\
    one_by_one false Nobody (uinit prog scans) (sched ++ repeat (UScan u true) n) = true /\
    who false Nobody (uinit prog scans) (sched ++ repeat (UScan u true) n) = Nobody /\
    exists lo hi acc, uth s' u = URet lo hi acc.
Proof. intros prog scans sched u s Hv Hs. apply alone_whole; [apply var_k; auto|apply var_b; auto]. Qed.
End Var.

(** ** Executions *)

(** Three records are written, one is read, the others are deleted: the iterator is open and
    nobody is inside; the first step of HasRecord gives no answer. *)
Definition nobody (w : inside) : bool := match w with Nobody => true | _ => false end.
Definition looping {P : Params} (p : upc) : bool := match p with ULoop _ _ _ _ _ _ _ _ _ => true | _ => false end.
Example returns_fixlen :
  let i := uinit (gone_prog (P := tiny) (fun x => x) (fun x => x)) late_scans in
  let sched := play (N := fix_ml_ops (P := tiny)) (removelast gone_acts) i in
  let go n := option_map (fun s => (given (uth s 1), ended (uth s 1)))
                (urun (N := fix_ml_ops (P := tiny)) false i (sched ++ repeat (UScan 1 true) n)) in
  one_by_one (N := fix_ml_ops (P := tiny)) false Nobody i sched = true /\
  nobody (who (N := fix_ml_ops (P := tiny)) false Nobody i sched) = true /\
  option_map (fun s => looping (uth s 1)) (urun (N := fix_ml_ops (P := tiny)) false i sched) = Some true /\
  go 1 = Some ([(1, 1)], None) /\ go 5 = Some ([(1, 1)], Some [(1, 1)]).
Proof. vm_compute. repeat split; reflexivity. Qed.
Example returns_varlen :
  let i := uinit (gone_prog (P := mvtiny) (fun x => x) (fun x => x)) late_scans in
  let sched := play (N := var_ml_ops (P := mvtiny)) (removelast gone_acts) i in
  let go n := option_map (fun s => (given (uth s 1), ended (uth s 1)))
                (urun (N := var_ml_ops (P := mvtiny)) false i (sched ++ repeat (UScan 1 true) n)) in
  one_by_one (N := var_ml_ops (P := mvtiny)) false Nobody i sched = true /\
  nobody (who (N := var_ml_ops (P := mvtiny)) false Nobody i sched) = true /\
  option_map (fun s => looping (uth s 1)) (urun (N := var_ml_ops (P := mvtiny)) false i sched) = Some true /\
  go 1 = Some ([(1, 1)], None) /\ go 7 = Some ([(1, 1)], Some [(1, 1)]).
Proof. vm_compute. repeat split; reflexivity. Qed.

(** [C53]: ten records are written, two of them deleted and two overwritten; then a scan of everything is opened
    and read to its end. *)
Definition idle {P : Params} (p : upc) : bool := match p with UIdle => true | _ => false end.
Definition fresh_values : list nat := [0; 1; 2; 30; 4; 50; 6; 7; 8; 9; 10].
Example loop_fixlen :
  let i := uinit (fresh_prog (P := tiny) (fun x => x) (fun x => x)) late_scans in
  let sched := play (N := fix_ml_ops (P := tiny)) (repeat (UCall 0) 14) i in
  let go n := option_map (fun s => (looping (uth s 1), given (uth s 1), ended (uth s 1)))
                (urun (N := fix_ml_ops (P := tiny)) false i (sched ++ repeat (UScan 1 true) n)) in
  one_by_one (N := fix_ml_ops (P := tiny)) false Nobody i sched = true /\
  nobody (who (N := fix_ml_ops (P := tiny)) false Nobody i sched) = true /\
  option_map (fun s => (idle (uth s 1), uq s 1)) (urun (N := fix_ml_ops (P := tiny)) false i sched) =
    Some (true, [(None, None)]) /\
  go 6 = Some (true, [], None) /\
  go 19 = Some (false, map (fun i => (i, nth i fresh_values 0)) [1; 3; 5; 6; 7; 8; 9; 10],
              Some (map (fun i => (i, nth i fresh_values 0)) [1; 3; 5; 6; 7; 8; 9; 10])).
Proof. vm_compute. repeat split; reflexivity. Qed.
Example loop_varlen :
  let i := uinit (fresh_prog (P := mvtiny) (fun x => x) (fun x => x)) late_scans in
  let sched := play (N := var_ml_ops (P := mvtiny)) (repeat (UCall 0) 14) i in
  let go n := option_map (fun s => (looping (uth s 1), given (uth s 1), ended (uth s 1)))
                (urun (N := var_ml_ops (P := mvtiny)) false i (sched ++ repeat (UScan 1 true) n)) in
  one_by_one (N := var_ml_ops (P := mvtiny)) false Nobody i sched = true /\
  nobody (who (N := var_ml_ops (P := mvtiny)) false Nobody i sched) = true /\
  option_map (fun s => (idle (uth s 1), uq s 1)) (urun (N := var_ml_ops (P := mvtiny)) false i sched) =
    Some (true, [(None, None)]) /\
  go 6 = Some (true, [], None) /\
  go 25 = Some (false, map (fun i => (i, nth i fresh_values 0)) [1; 3; 5; 6; 7; 8; 9; 10],
              Some (map (fun i => (i, nth i fresh_values 0)) [1; 3; 5; 6; 7; 8; 9; 10])).
Proof. vm_compute. repeat split; reflexivity. Qed.

Print Assumptions C52_has_record_returns_fixlen.
Print Assumptions C52_has_record_returns_varlen.
Print Assumptions C53_scan_returns_fixlen.
Print Assumptions C53_scan_returns_varlen.
Print Assumptions C53_scan_loop_ends_fixlen.
Print Assumptions C53_scan_loop_ends_varlen.
