(** Bulkload: C10, C11, C12 and C34, for all four trees and both node layouts.

    [bulkload fuel entries threads] (BulkModel.v) executes the model of the C++ code.
    [bk_run] runs a session of calls, garbage collections and bulkloads ([bevent]); the
    specification [spec_brun] (Spec.v) ignores the number of threads, and a non-empty
    bulkload replaces the contents by the entries (that the old contents are lost is
    C34's finding; loading into a fresh tree is the intended use). *)
From Coq Require Import List Arith Bool Lia Sorted.
From Verif Require Import Params Mem Common Spec NodeAbs FixModel FixProofs FixSL FixML
  VarModel VarProofs VarSL VarML SLIface MLIface BaseIface TreeState SLModel MLModel WalkModel WalkProofs
  IterModel SLScanModel MLScanModel SLProofs MLProofs SLScan SLApi MLApi Levels TreeHeap
  BulkModel BulkProofs BulkFix BulkVar BulkApi BulkFit Inst.
Import ListNotations.

(** Strictly ascending keys. *)
Definition sorted {P : Params} (l : list (K * V)) : Prop := StronglySorted klt (map fst l).

(** The loads the code can handle ([big l]: the entries do not fit in one leaf): nothing,
    or ascending entries that either do not fit in one leaf or are at least as many as
    the threads, of which there are two or more. *)
Definition loadable {P : Params} (okp : (K -> Prop) * (list (K * V) -> nat)) (l : list (K * V)) (t : nat) : Prop :=
  l = [] \/ (sorted l /\ (forall e, In e l -> fst okp (fst e)) /\
             (2 <= t <= length l \/ bulkcap < snd okp l)).

Definition ok_event {P : Params} (okp : (K -> Prop) * (list (K * V) -> nat)) (e : bevent) : Prop :=
  match e with
  | VCall c => fst okp (call_key c)
  | VGC => True
  | VLoad l t => loadable okp l t
  end.

Definition ok_range {P : Params} (ok : K -> Prop) (b : bound) : Prop := forall k c, b = Some (k, c) -> ok k.

(** Admissible keys: any, if all keys have the same length; else non-empty and at most
    [maxkey] bytes long. *)
Definition any_key {P : Params} (k : K) : Prop := True.
Definition short_key {P : Params} (k : K) : Prop := 0 < klen k <= maxkey.
Definition fixed {P : Params} : (K -> Prop) * (list (K * V) -> nat) := (any_key, leaf_bytes_fix).
Definition varied {P : Params} : (K -> Prop) * (list (K * V) -> nat) := (short_key, leaf_bytes_var).

(** C11.  The slices of the worker threads: there are [t], they are disjoint, in order and
    cover all entries; none is empty if there are at least as many entries as threads.
    (With fewer, Bulkload does not start threads.) *)
Theorem C11_slices_cover {P : Params} : forall t (es : list (K * pay)), 0 < t ->
  concat (bk_slices t 0 t (length es) es) = es /\
  length (bk_slices t 0 t (length es) es) = t /\
  (t <= length es -> Forall (fun sl => sl <> []) (bk_slices t 0 t (length es) es)).
Proof.
  intros t es Ht.
  destruct (slices_ok t (length es) t 0 es Ht (slices_total t (length es) Ht)) as (A & B & C).
  split; [exact A|]. split; [exact B|]. intros H. eapply Forall_impl; [|exact (C H)].
  intros x [Hx _]. exact Hx.
Qed.

(** ** BTreePSL and BTreeOSL, fixed-length nodes *)
Section slf.
Context (P : Params) (O : OrdLaws P) (F : FixSizes P) (G : FixGood P) (GB : FixBulkGood P) (slo : bool).
#[local] Instance ops_slf : SLOps P := fix_sl_ops slo.
#[local] Instance laws_slf : SLLaws P ops_slf := fix_sl_laws slo.
#[local] Instance wops_slf : BaseOps P := base_of_sl ops_slf.
#[local] Instance bops_slf : BulkOps P nd := fix_bulk true.
#[local] Instance blaws_slf : BulkLaws P nd bops_slf true rep kvalid := fix_bulk_laws_sl.

Lemma load_slf l t : loadable fixed l t -> good_load kvalid l t.
Proof.
  intros [->|(Hs & Hv & Hb)]; [now left|].
  destruct l as [|e l]; [now left|]. right. split; [exact Hs|]. split; [exact Hv|].
  destruct Hb as [Hb|Hb]; [left|apply fx_wide; [discriminate|exact Hb]].
  unfold pvs. now rewrite map_length.
Qed.

(** C10.  Bulkload with one thread into a fresh tree. *)
Theorem C10_bulkload_single_layer_fixlen : forall l fuel,
  l <> [] -> sorted l -> (forall e, In e l -> any_key (fst e)) -> bulkcap < leaf_bytes_fix l ->
  2 * length l + 3 <= fuel ->
  exists s, bulkload fuel l 1 sl_init = Ok tt s /\
    (forall k, any_key k -> sl_call slo fuel (CRead k) s = Ok (RPayload (amap_of l k)) s) /\
    (exists F, forall fuel' limit, F <= fuel' ->
       sl_scan slo fuel' None None limit s = Ok (firstn limit l) s) /\
    (forall es fuel', (forall c, In c (calls_of es) -> any_key (call_key c)) ->
       2 * length l + length es + 3 <= fuel' ->
       exists s', sl_run slo fuel' es s = Ok (snd (spec_run (amap_of l) (calls_of es))) s').
Proof.
  intros l fu Hne Hs Hv Hb Hfu.
  assert (Hg : good_load kvalid l 1) by (apply load_slf; right; auto).
  destruct (sl_b_load bops_slf blaws_slf 0 sl_init amap_empty l 1 fu JS_init Hne Hg) as (s & E & HJ); [lia|].
  exists s. split; [exact E|]. split; [|split].
  - intros k Hk. eapply sl_b_read; eauto. lia.
  - destruct (sl_b_scan slo _ _ _ None None HJ) as (l' & F' & Hsc & Hr); [discriminate..|].
    apply scan_all in Hsc; [|exact Hs]. subst l'. eauto.
  - intros es fu' Hk Hfu'. destruct (sl_b_run slo _ _ _ es fu' HJ Hk) as (s' & E' & _); [lia|]. eauto.
Qed.

(** C11.  Sessions of calls and bulkloads, each with any number of threads: the results and
    the final contents are those of the map, which knows nothing of threads. *)
Theorem C11_bulkload_sessions_single_layer_fixlen : forall es fuel,
  Forall (ok_event fixed) es -> bcost es + 3 <= fuel ->
  exists s, bk_run (sl_call slo) fuel es sl_init = Ok (snd (spec_brun amap_empty (bcalls_of es))) s /\
    forall lo hi, ok_range any_key lo -> ok_range any_key hi ->
    exists l F, is_scan (fst (spec_brun amap_empty (bcalls_of es))) lo hi l /\
      forall fuel' limit, F <= fuel' -> sl_scan slo fuel' lo hi limit s = Ok (firstn limit l) s.
Proof.
  intros es fu Hes Hfu.
  destruct (sl_brun_ok bops_slf blaws_slf slo es fu) as (s & E & HJ); [|exact Hfu|].
  { eapply Forall_impl; [|exact Hes]. intros [c| |l t]; cbn; auto. apply load_slf. }
  exists s. split; [exact E|]. intros lo hi Hlo Hhi. eapply sl_b_scan; eauto.
Qed.

(** C11.  One load with any two thread counts, after any session: every later session
    returns the same results, and scans deliver the same records. *)
Theorem C11_thread_count_irrelevant_single_layer_fixlen : forall es l t1 t2 fuel rs s,
  Forall (ok_event fixed) es -> bk_run (sl_call slo) fuel es sl_init = Ok rs s -> bcost es + 3 <= fuel ->
  l <> [] -> loadable fixed l t1 -> loadable fixed l t2 -> length l <= fuel ->
  exists s1 s2, bulkload fuel l t1 s = Ok tt s1 /\ bulkload fuel l t2 s = Ok tt s2 /\
    (forall es' fuel', (forall c, In c (calls_of es') -> any_key (call_key c)) ->
       2 * length l + length es' + 3 <= fuel' ->
       exists rs' s1' s2', sl_run slo fuel' es' s1 = Ok rs' s1' /\ sl_run slo fuel' es' s2 = Ok rs' s2') /\
    exists F, forall fuel' limit, F <= fuel' ->
      sl_scan slo fuel' None None limit s1 = Ok (firstn limit l) s1 /\
      sl_scan slo fuel' None None limit s2 = Ok (firstn limit l) s2.
Proof.
  intros es l t1 t2 fu rs s Hes Hr Hfu Hne Hl1 Hl2 Hfu2.
  destruct (sl_brun_ok bops_slf blaws_slf slo es fu) as (s' & E & HJ); [|exact Hfu|].
  { eapply Forall_impl; [|exact Hes]. intros [c| |l0 t]; cbn; auto. apply load_slf. }
  assert (Es : Ok (snd (spec_brun amap_empty (bcalls_of es))) s' = Ok rs s) by (rewrite <- E; exact Hr).
  injection Es as _ ->.
  assert (Hs : sorted l) by (destruct Hl1 as [->|(? & _)]; [now elim Hne|assumption]).
  destruct (sl_b_load _ blaws_slf _ _ _ l t1 fu HJ Hne (load_slf _ _ Hl1)) as (s1 & E1 & J1); [lia|].
  destruct (sl_b_load _ blaws_slf _ _ _ l t2 fu HJ Hne (load_slf _ _ Hl2)) as (s2 & E2 & J2); [lia|].
  exists s1, s2. split; [exact E1|]. split; [exact E2|]. split.
  - intros es' fu' Hk Hfu'.
    destruct (sl_b_run slo _ _ _ es' fu' J1 Hk) as (s1' & E1' & _); [lia|].
    destruct (sl_b_run slo _ _ _ es' fu' J2 Hk) as (s2' & E2' & _); [lia|]. eauto.
  - destruct (sl_b_scan slo _ _ _ None None J1) as (l1 & F1 & Hsc1 & Hr1); [discriminate..|].
    destruct (sl_b_scan slo _ _ _ None None J2) as (l2 & F2 & Hsc2 & Hr2); [discriminate..|].
    apply scan_all in Hsc1; [|exact Hs]. apply scan_all in Hsc2; [|exact Hs]. subst l1 l2.
    exists (Nat.max F1 F2). intros fu' limit Hfu'. split; [apply Hr1|apply Hr2]; lia.
Qed.

(** C15 for sessions with bulkloads: balance and the leaf chain. *)
Theorem C15_balanced_after_bulkload_single_layer_fixlen : forall es fuel rs s,
  Forall (ok_event fixed) es -> bcost es + 3 <= fuel ->
  bk_run (sl_call slo) fuel es sl_init = Ok rs s ->
  exists D a l, (forall d x, at_depth s d x -> (is_leaf s x <-> d = D)) /\
    leftmost_path s (rt s) a /\ chain s a l /\ NoDup l /\
    (forall x, In x l <-> at_depth s D x) /\
    (forall l1 x l2 y l3 nx ny i j kx ky, l = l1 ++ x :: l2 ++ y :: l3 ->
       hp s x = Some nx -> hp s y = Some ny -> i < bn_rc nx -> j < bn_rc ny ->
       bn_key nx i = Some kx -> bn_key ny j = Some ky -> klt kx ky).
Proof.
  intros es fu rs s Hes Hfu Hr.
  destruct (sl_brun_ok bops_slf blaws_slf slo es fu) as (s' & E & HJ); [|exact Hfu|].
  { eapply Forall_impl; [|exact Hes]. intros [c| |l0 t]; cbn; auto. apply load_slf. }
  assert (Es : Ok (snd (spec_brun amap_empty (bcalls_of es))) s' = Ok rs s) by (rewrite <- E; exact Hr).
  injection Es as _ ->. destruct HJ as [W Hi]. eapply api_balance; eauto.
Qed.

(** C12.  Bulkload with fewer than two worker threads (or more threads than entries) of
    entries that fit in one leaf is undefined behaviour, whatever the tree holds. *)
Theorem C12_small_bulkload_undefined_single_layer_fixlen : forall l t fuel s,
  l <> [] -> (forall e, In e l -> any_key (fst e)) -> t <= 1 \/ length l < t ->
  leaf_bytes_fix l <= bulkcap -> 0 < fuel -> bulkload fuel l t s = Undef.
Proof. intros l t fu s Hne Hv Ht Hb Hfu. eapply fx_small; eauto. Qed.

(** C34.  Bulkload into a tree that a session has filled: only the new entries are found
    afterwards, and when the tree is destroyed exactly the pages of the tree before the
    load are still allocated. *)
Theorem C34_old_tree_lost_single_layer_fixlen : forall es l t fuel rs s,
  (forall c, In c (calls_of es) -> any_key (call_key c)) -> length es + 3 <= fuel ->
  sl_run slo fuel es sl_init = Ok rs s ->
  l <> [] -> loadable fixed l t -> 2 * length l + 1 <= fuel ->
  exists s1 s2, bulkload fuel l t s = Ok tt s1 /\ sl_destroy fuel s1 = Ok tt s2 /\
    (forall k, any_key k -> sl_call slo (fuel + 2) (CRead k) s1 = Ok (RPayload (amap_of l k)) s1) /\
    forall a, hp s2 a <> None <-> exists d, at_depth s d a.
Proof.
  intros es l t fu rs s Hk Hfu Hr Hne Hl Hfu2.
  exact (sl_b_leak bops_slf blaws_slf slo es l t fu rs s Hk Hfu Hr Hne (load_slf _ _ Hl) Hfu2).
Qed.

End slf.

(** ** BTreePSL and BTreeOSL, variable-length nodes *)
Section slv.
Context (P : Params) (O : OrdLaws P) (F : VarSizes P) (G : VarGood P) (GB : VarBulkGood P) (slo : bool).
#[local] Instance ops_slv : SLOps P := var_sl_ops slo.
#[local] Instance laws_slv : SLLaws P ops_slv := var_sl_laws slo.
#[local] Instance wops_slv : BaseOps P := base_of_sl ops_slv.
#[local] Instance bops_slv : BulkOps P nd := var_bulk true.
#[local] Instance blaws_slv : BulkLaws P nd bops_slv true rep kvalid := var_bulk_laws true.

Lemma load_slv l t : loadable varied l t -> good_load kvalid l t.
Proof.
  intros [->|(Hs & Hv & Hb)]; [now left|].
  destruct l as [|e l]; [now left|]. right. split; [exact Hs|]. split; [exact Hv|].
  destruct Hb as [Hb|Hb]; [left|apply vx_wide; [discriminate|exact Hv|exact Hb]].
  unfold pvs. now rewrite map_length.
Qed.

(** C10.  Bulkload with one thread into a fresh tree. *)
Theorem C10_bulkload_single_layer_varlen : forall l fuel,
  l <> [] -> sorted l -> (forall e, In e l -> short_key (fst e)) -> bulkcap < leaf_bytes_var l ->
  2 * length l + 3 <= fuel ->
  exists s, bulkload fuel l 1 sl_init = Ok tt s /\
    (forall k, short_key k -> sl_call slo fuel (CRead k) s = Ok (RPayload (amap_of l k)) s) /\
    (exists F, forall fuel' limit, F <= fuel' ->
       sl_scan slo fuel' None None limit s = Ok (firstn limit l) s) /\
    (forall es fuel', (forall c, In c (calls_of es) -> short_key (call_key c)) ->
       2 * length l + length es + 3 <= fuel' ->
       exists s', sl_run slo fuel' es s = Ok (snd (spec_run (amap_of l) (calls_of es))) s').
Proof.
  intros l fu Hne Hs Hv Hb Hfu.
  assert (Hg : good_load kvalid l 1) by (apply load_slv; right; auto).
  destruct (sl_b_load bops_slv blaws_slv 0 sl_init amap_empty l 1 fu JS_init Hne Hg) as (s & E & HJ); [lia|].
  exists s. split; [exact E|]. split; [|split].
  - intros k Hk. eapply sl_b_read; eauto. lia.
  - destruct (sl_b_scan slo _ _ _ None None HJ) as (l' & F' & Hsc & Hr); [discriminate..|].
    apply scan_all in Hsc; [|exact Hs]. subst l'. eauto.
  - intros es fu' Hk Hfu'. destruct (sl_b_run slo _ _ _ es fu' HJ Hk) as (s' & E' & _); [lia|]. eauto.
Qed.

(** C11.  Sessions of calls and bulkloads, each with any number of threads: the results and
    the final contents are those of the map, which knows nothing of threads. *)
Theorem C11_bulkload_sessions_single_layer_varlen : forall es fuel,
  Forall (ok_event varied) es -> bcost es + 3 <= fuel ->
  exists s, bk_run (sl_call slo) fuel es sl_init = Ok (snd (spec_brun amap_empty (bcalls_of es))) s /\
    forall lo hi, ok_range short_key lo -> ok_range short_key hi ->
    exists l F, is_scan (fst (spec_brun amap_empty (bcalls_of es))) lo hi l /\
      forall fuel' limit, F <= fuel' -> sl_scan slo fuel' lo hi limit s = Ok (firstn limit l) s.
Proof.
  intros es fu Hes Hfu.
  destruct (sl_brun_ok bops_slv blaws_slv slo es fu) as (s & E & HJ); [|exact Hfu|].
  { eapply Forall_impl; [|exact Hes]. intros [c| |l t]; cbn; auto. apply load_slv. }
  exists s. split; [exact E|]. intros lo hi Hlo Hhi. eapply sl_b_scan; eauto.
Qed.

(** C11.  One load with any two thread counts, after any session: every later session
    returns the same results, and scans deliver the same records. *)
Theorem C11_thread_count_irrelevant_single_layer_varlen : forall es l t1 t2 fuel rs s,
  Forall (ok_event varied) es -> bk_run (sl_call slo) fuel es sl_init = Ok rs s -> bcost es + 3 <= fuel ->
  l <> [] -> loadable varied l t1 -> loadable varied l t2 -> length l <= fuel ->
  exists s1 s2, bulkload fuel l t1 s = Ok tt s1 /\ bulkload fuel l t2 s = Ok tt s2 /\
    (forall es' fuel', (forall c, In c (calls_of es') -> short_key (call_key c)) ->
       2 * length l + length es' + 3 <= fuel' ->
       exists rs' s1' s2', sl_run slo fuel' es' s1 = Ok rs' s1' /\ sl_run slo fuel' es' s2 = Ok rs' s2') /\
    exists F, forall fuel' limit, F <= fuel' ->
      sl_scan slo fuel' None None limit s1 = Ok (firstn limit l) s1 /\
      sl_scan slo fuel' None None limit s2 = Ok (firstn limit l) s2.
Proof.
  intros es l t1 t2 fu rs s Hes Hr Hfu Hne Hl1 Hl2 Hfu2.
  destruct (sl_brun_ok bops_slv blaws_slv slo es fu) as (s' & E & HJ); [|exact Hfu|].
  { eapply Forall_impl; [|exact Hes]. intros [c| |l0 t]; cbn; auto. apply load_slv. }
  assert (Es : Ok (snd (spec_brun amap_empty (bcalls_of es))) s' = Ok rs s) by (rewrite <- E; exact Hr).
  injection Es as _ ->.
  assert (Hs : sorted l) by (destruct Hl1 as [->|(? & _)]; [now elim Hne|assumption]).
  destruct (sl_b_load _ blaws_slv _ _ _ l t1 fu HJ Hne (load_slv _ _ Hl1)) as (s1 & E1 & J1); [lia|].
  destruct (sl_b_load _ blaws_slv _ _ _ l t2 fu HJ Hne (load_slv _ _ Hl2)) as (s2 & E2 & J2); [lia|].
  exists s1, s2. split; [exact E1|]. split; [exact E2|]. split.
  - intros es' fu' Hk Hfu'.
    destruct (sl_b_run slo _ _ _ es' fu' J1 Hk) as (s1' & E1' & _); [lia|].
    destruct (sl_b_run slo _ _ _ es' fu' J2 Hk) as (s2' & E2' & _); [lia|]. eauto.
  - destruct (sl_b_scan slo _ _ _ None None J1) as (l1 & F1 & Hsc1 & Hr1); [discriminate..|].
    destruct (sl_b_scan slo _ _ _ None None J2) as (l2 & F2 & Hsc2 & Hr2); [discriminate..|].
    apply scan_all in Hsc1; [|exact Hs]. apply scan_all in Hsc2; [|exact Hs]. subst l1 l2.
    exists (Nat.max F1 F2). intros fu' limit Hfu'. split; [apply Hr1|apply Hr2]; lia.
Qed.

(** C15 for sessions with bulkloads: balance and the leaf chain. *)
Theorem C15_balanced_after_bulkload_single_layer_varlen : forall es fuel rs s,
  Forall (ok_event varied) es -> bcost es + 3 <= fuel ->
  bk_run (sl_call slo) fuel es sl_init = Ok rs s ->
  exists D a l, (forall d x, at_depth s d x -> (is_leaf s x <-> d = D)) /\
    leftmost_path s (rt s) a /\ chain s a l /\ NoDup l /\
    (forall x, In x l <-> at_depth s D x) /\
    (forall l1 x l2 y l3 nx ny i j kx ky, l = l1 ++ x :: l2 ++ y :: l3 ->
       hp s x = Some nx -> hp s y = Some ny -> i < bn_rc nx -> j < bn_rc ny ->
       bn_key nx i = Some kx -> bn_key ny j = Some ky -> klt kx ky).
Proof.
  intros es fu rs s Hes Hfu Hr.
  destruct (sl_brun_ok bops_slv blaws_slv slo es fu) as (s' & E & HJ); [|exact Hfu|].
  { eapply Forall_impl; [|exact Hes]. intros [c| |l0 t]; cbn; auto. apply load_slv. }
  assert (Es : Ok (snd (spec_brun amap_empty (bcalls_of es))) s' = Ok rs s) by (rewrite <- E; exact Hr).
  injection Es as _ ->. destruct HJ as [W Hi]. eapply api_balance; eauto.
Qed.

(** C12.  Bulkload with fewer than two worker threads (or more threads than entries) of
    entries that fit in one leaf is undefined behaviour, whatever the tree holds. *)
Theorem C12_small_bulkload_undefined_single_layer_varlen : forall l t fuel s,
  l <> [] -> (forall e, In e l -> short_key (fst e)) -> t <= 1 \/ length l < t ->
  leaf_bytes_var l <= bulkcap -> 0 < fuel -> bulkload fuel l t s = Undef.
Proof. intros l t fu s Hne Hv Ht Hb Hfu. eapply vx_small; eauto. Qed.

(** C34.  Bulkload into a tree that a session has filled: only the new entries are found
    afterwards, and when the tree is destroyed exactly the pages of the tree before the
    load are still allocated. *)
Theorem C34_old_tree_lost_single_layer_varlen : forall es l t fuel rs s,
  (forall c, In c (calls_of es) -> short_key (call_key c)) -> length es + 3 <= fuel ->
  sl_run slo fuel es sl_init = Ok rs s ->
  l <> [] -> loadable varied l t -> 2 * length l + 1 <= fuel ->
  exists s1 s2, bulkload fuel l t s = Ok tt s1 /\ sl_destroy fuel s1 = Ok tt s2 /\
    (forall k, short_key k -> sl_call slo (fuel + 2) (CRead k) s1 = Ok (RPayload (amap_of l k)) s1) /\
    forall a, hp s2 a <> None <-> exists d, at_depth s d a.
Proof.
  intros es l t fu rs s Hk Hfu Hr Hne Hl Hfu2.
  exact (sl_b_leak bops_slv blaws_slv slo es l t fu rs s Hk Hfu Hr Hne (load_slv _ _ Hl) Hfu2).
Qed.

End slv.

(** ** BTreePML and BTreeOML, fixed-length nodes *)
Section mlf.
Context (P : Params) (O : OrdLaws P) (F : FixSizes P) (G : FixMLGood P) (GB : FixBulkGood P) (mlo : bool).
#[local] Instance ops_mlf : MLOps P := fix_ml_ops.
#[local] Instance laws_mlf : MLLaws P ops_mlf := fix_ml_laws.
#[local] Instance wops_mlf : BaseOps P := base_of_ml ops_mlf.
#[local] Instance bops_mlf : BulkOps P mn := fix_bulk false.
#[local] Instance blaws_mlf : BulkLaws P mn bops_mlf false mrep mvalid := fix_bulk_laws_ml.

Lemma load_mlf l t : loadable fixed l t -> good_load mvalid l t.
Proof.
  intros [->|(Hs & Hv & Hb)]; [now left|].
  destruct l as [|e l]; [now left|]. right. split; [exact Hs|]. split; [exact Hv|].
  destruct Hb as [Hb|Hb]; [left|apply fx_wide; [discriminate|exact Hb]].
  unfold pvs. now rewrite map_length.
Qed.

(** C10.  Bulkload with one thread into a fresh tree. *)
Theorem C10_bulkload_multi_layer_fixlen : forall l fuel,
  l <> [] -> sorted l -> (forall e, In e l -> any_key (fst e)) -> bulkcap < leaf_bytes_fix l ->
  2 * length l + 3 <= fuel ->
  exists s, bulkload fuel l 1 ml_init = Ok tt s /\
    (forall k, any_key k -> ml_call mlo fuel (CRead k) s = Ok (RPayload (amap_of l k)) s) /\
    (exists F, forall fuel' limit, F <= fuel' ->
       ml_scan mlo fuel' None None limit s = Ok (firstn limit l) s) /\
    (forall es fuel', (forall c, In c (calls_of es) -> any_key (call_key c)) ->
       2 * length l + length es + 3 <= fuel' ->
       exists s', ml_run mlo fuel' es s = Ok (snd (spec_run (amap_of l) (calls_of es))) s').
Proof.
  intros l fu Hne Hs Hv Hb Hfu.
  assert (Hg : good_load mvalid l 1) by (apply load_mlf; right; auto).
  destruct (ml_b_load bops_mlf blaws_mlf mlo 0 ml_init amap_empty l 1 fu (JM_init mlo) Hne Hg) as (s & E & HJ); [lia|].
  exists s. split; [exact E|]. split; [|split].
  - intros k Hk. eapply ml_b_read; eauto. lia.
  - destruct (ml_b_scan mlo _ _ _ None None HJ) as (l' & F' & Hsc & Hr); [discriminate..|].
    apply scan_all in Hsc; [|exact Hs]. subst l'. eauto.
  - intros es fu' Hk Hfu'. destruct (ml_b_run mlo _ _ _ es fu' HJ Hk) as (s' & E' & _); [lia|]. eauto.
Qed.

(** C11.  Sessions of calls and bulkloads, each with any number of threads: the results and
    the final contents are those of the map, which knows nothing of threads. *)
Theorem C11_bulkload_sessions_multi_layer_fixlen : forall es fuel,
  Forall (ok_event fixed) es -> bcost es + 3 <= fuel ->
  exists s, bk_run (ml_call mlo) fuel es ml_init = Ok (snd (spec_brun amap_empty (bcalls_of es))) s /\
    forall lo hi, ok_range any_key lo -> ok_range any_key hi ->
    exists l F, is_scan (fst (spec_brun amap_empty (bcalls_of es))) lo hi l /\
      forall fuel' limit, F <= fuel' -> ml_scan mlo fuel' lo hi limit s = Ok (firstn limit l) s.
Proof.
  intros es fu Hes Hfu.
  destruct (ml_brun_ok bops_mlf blaws_mlf mlo es fu) as (s & E & HJ); [|exact Hfu|].
  { eapply Forall_impl; [|exact Hes]. intros [c| |l t]; cbn; auto. apply load_mlf. }
  exists s. split; [exact E|]. intros lo hi Hlo Hhi. eapply ml_b_scan; eauto.
Qed.

(** C11.  One load with any two thread counts, after any session: every later session
    returns the same results, and scans deliver the same records. *)
Theorem C11_thread_count_irrelevant_multi_layer_fixlen : forall es l t1 t2 fuel rs s,
  Forall (ok_event fixed) es -> bk_run (ml_call mlo) fuel es ml_init = Ok rs s -> bcost es + 3 <= fuel ->
  l <> [] -> loadable fixed l t1 -> loadable fixed l t2 -> length l <= fuel ->
  exists s1 s2, bulkload fuel l t1 s = Ok tt s1 /\ bulkload fuel l t2 s = Ok tt s2 /\
    (forall es' fuel', (forall c, In c (calls_of es') -> any_key (call_key c)) ->
       2 * length l + length es' + 3 <= fuel' ->
       exists rs' s1' s2', ml_run mlo fuel' es' s1 = Ok rs' s1' /\ ml_run mlo fuel' es' s2 = Ok rs' s2') /\
    exists F, forall fuel' limit, F <= fuel' ->
      ml_scan mlo fuel' None None limit s1 = Ok (firstn limit l) s1 /\
      ml_scan mlo fuel' None None limit s2 = Ok (firstn limit l) s2.
Proof.
  intros es l t1 t2 fu rs s Hes Hr Hfu Hne Hl1 Hl2 Hfu2.
  destruct (ml_brun_ok bops_mlf blaws_mlf mlo es fu) as (s' & E & HJ); [|exact Hfu|].
  { eapply Forall_impl; [|exact Hes]. intros [c| |l0 t]; cbn; auto. apply load_mlf. }
  assert (Es : Ok (snd (spec_brun amap_empty (bcalls_of es))) s' = Ok rs s) by (rewrite <- E; exact Hr).
  injection Es as _ ->.
  assert (Hs : sorted l) by (destruct Hl1 as [->|(? & _)]; [now elim Hne|assumption]).
  destruct (ml_b_load _ blaws_mlf mlo _ _ _ l t1 fu HJ Hne (load_mlf _ _ Hl1)) as (s1 & E1 & J1); [lia|].
  destruct (ml_b_load _ blaws_mlf mlo _ _ _ l t2 fu HJ Hne (load_mlf _ _ Hl2)) as (s2 & E2 & J2); [lia|].
  exists s1, s2. split; [exact E1|]. split; [exact E2|]. split.
  - intros es' fu' Hk Hfu'.
    destruct (ml_b_run mlo _ _ _ es' fu' J1 Hk) as (s1' & E1' & _); [lia|].
    destruct (ml_b_run mlo _ _ _ es' fu' J2 Hk) as (s2' & E2' & _); [lia|]. eauto.
  - destruct (ml_b_scan mlo _ _ _ None None J1) as (l1 & F1 & Hsc1 & Hr1); [discriminate..|].
    destruct (ml_b_scan mlo _ _ _ None None J2) as (l2 & F2 & Hsc2 & Hr2); [discriminate..|].
    apply scan_all in Hsc1; [|exact Hs]. apply scan_all in Hsc2; [|exact Hs]. subst l1 l2.
    exists (Nat.max F1 F2). intros fu' limit Hfu'. split; [apply Hr1|apply Hr2]; lia.
Qed.

(** C15 for sessions with bulkloads: balance and the leaf chain. *)
Theorem C15_balanced_after_bulkload_multi_layer_fixlen : forall es fuel rs s,
  Forall (ok_event fixed) es -> bcost es + 3 <= fuel ->
  bk_run (ml_call mlo) fuel es ml_init = Ok rs s ->
  exists D a l, (forall d x, at_depth s d x -> (is_leaf s x <-> d = D)) /\
    leftmost_path s (rt s) a /\ chain s a l /\ NoDup l /\
    (forall x, In x l <-> at_depth s D x) /\
    (forall l1 x l2 y l3 nx ny i j kx ky, l = l1 ++ x :: l2 ++ y :: l3 ->
       hp s x = Some nx -> hp s y = Some ny -> i < bn_rc nx -> j < bn_rc ny ->
       bn_key nx i = Some kx -> bn_key ny j = Some ky -> klt kx ky).
Proof.
  intros es fu rs s Hes Hfu Hr.
  destruct (ml_brun_ok bops_mlf blaws_mlf mlo es fu) as (s' & E & HJ); [|exact Hfu|].
  { eapply Forall_impl; [|exact Hes]. intros [c| |l0 t]; cbn; auto. apply load_mlf. }
  assert (Es : Ok (snd (spec_brun amap_empty (bcalls_of es))) s' = Ok rs s) by (rewrite <- E; exact Hr).
  injection Es as _ ->. destruct HJ as [W Hi]. eapply (mapi_balance mlo); eauto.
Qed.

(** C12.  Bulkload with fewer than two worker threads (or more threads than entries) of
    entries that fit in one leaf is undefined behaviour, whatever the tree holds. *)
Theorem C12_small_bulkload_undefined_multi_layer_fixlen : forall l t fuel s,
  l <> [] -> (forall e, In e l -> any_key (fst e)) -> t <= 1 \/ length l < t ->
  leaf_bytes_fix l <= bulkcap -> 0 < fuel -> bulkload fuel l t s = Undef.
Proof. intros l t fu s Hne Hv Ht Hb Hfu. eapply fx_small; eauto. Qed.

(** C34.  Bulkload into a tree that a session has filled: only the new entries are found
    afterwards, and when the tree is destroyed exactly the pages of the tree before the
    load are still allocated. *)
Theorem C34_old_tree_lost_multi_layer_fixlen : forall es l t fuel rs s,
  (forall c, In c (calls_of es) -> any_key (call_key c)) -> length es + 3 <= fuel ->
  ml_run mlo fuel es ml_init = Ok rs s ->
  l <> [] -> loadable fixed l t -> 2 * length l + 1 <= fuel ->
  exists s1 s2, bulkload fuel l t s = Ok tt s1 /\ ml_destroy fuel s1 = Ok tt s2 /\
    (forall k, any_key k -> ml_call mlo (fuel + 2) (CRead k) s1 = Ok (RPayload (amap_of l k)) s1) /\
    forall a, hp s2 a <> None <-> exists d, at_depth s d a.
Proof.
  intros es l t fu rs s Hk Hfu Hr Hne Hl Hfu2.
  exact (ml_b_leak bops_mlf blaws_mlf mlo es l t fu rs s Hk Hfu Hr Hne (load_mlf _ _ Hl) Hfu2).
Qed.

End mlf.

(** ** BTreePML and BTreeOML, variable-length nodes *)
Section mlv.
Context (P : Params) (O : OrdLaws P) (F : VarSizes P) (G : VarGood P) (GM : VarMLGood P) (GB : VarBulkGood P) (mlo : bool).
#[local] Instance ops_mlv : MLOps P := var_ml_ops.
#[local] Instance laws_mlv : MLLaws P ops_mlv := var_ml_laws.
#[local] Instance wops_mlv : BaseOps P := base_of_ml ops_mlv.
#[local] Instance bops_mlv : BulkOps P mn := var_bulk false.
#[local] Instance blaws_mlv : BulkLaws P mn bops_mlv false mrep mvalid := var_bulk_laws false.

Lemma load_mlv l t : loadable varied l t -> good_load mvalid l t.
Proof.
  intros [->|(Hs & Hv & Hb)]; [now left|].
  destruct l as [|e l]; [now left|]. right. split; [exact Hs|]. split; [exact Hv|].
  destruct Hb as [Hb|Hb]; [left|apply vx_wide; [discriminate|exact Hv|exact Hb]].
  unfold pvs. now rewrite map_length.
Qed.

(** C10.  Bulkload with one thread into a fresh tree. *)
Theorem C10_bulkload_multi_layer_varlen : forall l fuel,
  l <> [] -> sorted l -> (forall e, In e l -> short_key (fst e)) -> bulkcap < leaf_bytes_var l ->
  2 * length l + 3 <= fuel ->
  exists s, bulkload fuel l 1 ml_init = Ok tt s /\
    (forall k, short_key k -> ml_call mlo fuel (CRead k) s = Ok (RPayload (amap_of l k)) s) /\
    (exists F, forall fuel' limit, F <= fuel' ->
       ml_scan mlo fuel' None None limit s = Ok (firstn limit l) s) /\
    (forall es fuel', (forall c, In c (calls_of es) -> short_key (call_key c)) ->
       2 * length l + length es + 3 <= fuel' ->
       exists s', ml_run mlo fuel' es s = Ok (snd (spec_run (amap_of l) (calls_of es))) s').
Proof.
  intros l fu Hne Hs Hv Hb Hfu.
  assert (Hg : good_load mvalid l 1) by (apply load_mlv; right; auto).
  destruct (ml_b_load bops_mlv blaws_mlv mlo 0 ml_init amap_empty l 1 fu (JM_init mlo) Hne Hg) as (s & E & HJ); [lia|].
  exists s. split; [exact E|]. split; [|split].
  - intros k Hk. eapply ml_b_read; eauto. lia.
  - destruct (ml_b_scan mlo _ _ _ None None HJ) as (l' & F' & Hsc & Hr); [discriminate..|].
    apply scan_all in Hsc; [|exact Hs]. subst l'. eauto.
  - intros es fu' Hk Hfu'. destruct (ml_b_run mlo _ _ _ es fu' HJ Hk) as (s' & E' & _); [lia|]. eauto.
Qed.

(** C11.  Sessions of calls and bulkloads, each with any number of threads: the results and
    the final contents are those of the map, which knows nothing of threads. *)
Theorem C11_bulkload_sessions_multi_layer_varlen : forall es fuel,
  Forall (ok_event varied) es -> bcost es + 3 <= fuel ->
  exists s, bk_run (ml_call mlo) fuel es ml_init = Ok (snd (spec_brun amap_empty (bcalls_of es))) s /\
    forall lo hi, ok_range short_key lo -> ok_range short_key hi ->
    exists l F, is_scan (fst (spec_brun amap_empty (bcalls_of es))) lo hi l /\
      forall fuel' limit, F <= fuel' -> ml_scan mlo fuel' lo hi limit s = Ok (firstn limit l) s.
Proof.
  intros es fu Hes Hfu.
  destruct (ml_brun_ok bops_mlv blaws_mlv mlo es fu) as (s & E & HJ); [|exact Hfu|].
  { eapply Forall_impl; [|exact Hes]. intros [c| |l t]; cbn; auto. apply load_mlv. }
  exists s. split; [exact E|]. intros lo hi Hlo Hhi. eapply ml_b_scan; eauto.
Qed.

(** C11.  One load with any two thread counts, after any session: every later session
    returns the same results, and scans deliver the same records. *)
Theorem C11_thread_count_irrelevant_multi_layer_varlen : forall es l t1 t2 fuel rs s,
  Forall (ok_event varied) es -> bk_run (ml_call mlo) fuel es ml_init = Ok rs s -> bcost es + 3 <= fuel ->
  l <> [] -> loadable varied l t1 -> loadable varied l t2 -> length l <= fuel ->
  exists s1 s2, bulkload fuel l t1 s = Ok tt s1 /\ bulkload fuel l t2 s = Ok tt s2 /\
    (forall es' fuel', (forall c, In c (calls_of es') -> short_key (call_key c)) ->
       2 * length l + length es' + 3 <= fuel' ->
       exists rs' s1' s2', ml_run mlo fuel' es' s1 = Ok rs' s1' /\ ml_run mlo fuel' es' s2 = Ok rs' s2') /\
    exists F, forall fuel' limit, F <= fuel' ->
      ml_scan mlo fuel' None None limit s1 = Ok (firstn limit l) s1 /\
      ml_scan mlo fuel' None None limit s2 = Ok (firstn limit l) s2.
Proof.
  intros es l t1 t2 fu rs s Hes Hr Hfu Hne Hl1 Hl2 Hfu2.
  destruct (ml_brun_ok bops_mlv blaws_mlv mlo es fu) as (s' & E & HJ); [|exact Hfu|].
  { eapply Forall_impl; [|exact Hes]. intros [c| |l0 t]; cbn; auto. apply load_mlv. }
  assert (Es : Ok (snd (spec_brun amap_empty (bcalls_of es))) s' = Ok rs s) by (rewrite <- E; exact Hr).
  injection Es as _ ->.
  assert (Hs : sorted l) by (destruct Hl1 as [->|(? & _)]; [now elim Hne|assumption]).
  destruct (ml_b_load _ blaws_mlv mlo _ _ _ l t1 fu HJ Hne (load_mlv _ _ Hl1)) as (s1 & E1 & J1); [lia|].
  destruct (ml_b_load _ blaws_mlv mlo _ _ _ l t2 fu HJ Hne (load_mlv _ _ Hl2)) as (s2 & E2 & J2); [lia|].
  exists s1, s2. split; [exact E1|]. split; [exact E2|]. split.
  - intros es' fu' Hk Hfu'.
    destruct (ml_b_run mlo _ _ _ es' fu' J1 Hk) as (s1' & E1' & _); [lia|].
    destruct (ml_b_run mlo _ _ _ es' fu' J2 Hk) as (s2' & E2' & _); [lia|]. eauto.
  - destruct (ml_b_scan mlo _ _ _ None None J1) as (l1 & F1 & Hsc1 & Hr1); [discriminate..|].
    destruct (ml_b_scan mlo _ _ _ None None J2) as (l2 & F2 & Hsc2 & Hr2); [discriminate..|].
    apply scan_all in Hsc1; [|exact Hs]. apply scan_all in Hsc2; [|exact Hs]. subst l1 l2.
    exists (Nat.max F1 F2). intros fu' limit Hfu'. split; [apply Hr1|apply Hr2]; lia.
Qed.

(** C15 for sessions with bulkloads: balance and the leaf chain. *)
Theorem C15_balanced_after_bulkload_multi_layer_varlen : forall es fuel rs s,
  Forall (ok_event varied) es -> bcost es + 3 <= fuel ->
  bk_run (ml_call mlo) fuel es ml_init = Ok rs s ->
  exists D a l, (forall d x, at_depth s d x -> (is_leaf s x <-> d = D)) /\
    leftmost_path s (rt s) a /\ chain s a l /\ NoDup l /\
    (forall x, In x l <-> at_depth s D x) /\
    (forall l1 x l2 y l3 nx ny i j kx ky, l = l1 ++ x :: l2 ++ y :: l3 ->
       hp s x = Some nx -> hp s y = Some ny -> i < bn_rc nx -> j < bn_rc ny ->
       bn_key nx i = Some kx -> bn_key ny j = Some ky -> klt kx ky).
Proof.
  intros es fu rs s Hes Hfu Hr.
  destruct (ml_brun_ok bops_mlv blaws_mlv mlo es fu) as (s' & E & HJ); [|exact Hfu|].
  { eapply Forall_impl; [|exact Hes]. intros [c| |l0 t]; cbn; auto. apply load_mlv. }
  assert (Es : Ok (snd (spec_brun amap_empty (bcalls_of es))) s' = Ok rs s) by (rewrite <- E; exact Hr).
  injection Es as _ ->. destruct HJ as [W Hi]. eapply (mapi_balance mlo); eauto.
Qed.

(** C12.  Bulkload with fewer than two worker threads (or more threads than entries) of
    entries that fit in one leaf is undefined behaviour, whatever the tree holds. *)
Theorem C12_small_bulkload_undefined_multi_layer_varlen : forall l t fuel s,
  l <> [] -> (forall e, In e l -> short_key (fst e)) -> t <= 1 \/ length l < t ->
  leaf_bytes_var l <= bulkcap -> 0 < fuel -> bulkload fuel l t s = Undef.
Proof. intros l t fu s Hne Hv Ht Hb Hfu. eapply vx_small; eauto. Qed.

(** C34.  Bulkload into a tree that a session has filled: only the new entries are found
    afterwards, and when the tree is destroyed exactly the pages of the tree before the
    load are still allocated. *)
Theorem C34_old_tree_lost_multi_layer_varlen : forall es l t fuel rs s,
  (forall c, In c (calls_of es) -> short_key (call_key c)) -> length es + 3 <= fuel ->
  ml_run mlo fuel es ml_init = Ok rs s ->
  l <> [] -> loadable varied l t -> 2 * length l + 1 <= fuel ->
  exists s1 s2, bulkload fuel l t s = Ok tt s1 /\ ml_destroy fuel s1 = Ok tt s2 /\
    (forall k, short_key k -> ml_call mlo (fuel + 2) (CRead k) s1 = Ok (RPayload (amap_of l k)) s1) /\
    forall a, hp s2 a <> None <-> exists d, at_depth s d a.
Proof.
  intros es l t fu rs s Hk Hfu Hr Hne Hl Hfu2.
  exact (ml_b_leak bops_mlv blaws_mlv mlo es l t fu rs s Hk Hfu Hr Hne (load_mlv _ _ Hl) Hfu2).
Qed.

End mlv.

(** ** Refutations and non-vacuity *)
Lemma tiny_bulk : FixBulkGood tiny.
Proof. split; apply Nat.leb_le; vm_compute; reflexivity. Qed.
Lemma dflt_bulk : FixBulkGood dflt.
Proof. split; apply Nat.leb_le; vm_compute; reflexivity. Qed.
Lemma vtiny_bulk : VarBulkGood vtiny.
Proof. split; apply Nat.leb_le; vm_compute; reflexivity. Qed.
Lemma vdflt_bulk : VarBulkGood vdflt.
Proof. split; apply Nat.leb_le; vm_compute; reflexivity. Qed.
Lemma mvtiny_bulk : VarBulkGood mvtiny.
Proof. split; apply Nat.leb_le; vm_compute; reflexivity. Qed.
Lemma tiny_mlgood : FixMLGood tiny.
Proof. split; apply Nat.leb_le; vm_compute; reflexivity. Qed.
Lemma dflt_mlgood : FixMLGood dflt.
Proof. split; apply Nat.leb_le; vm_compute; reflexivity. Qed.
Lemma mvtiny_mlgood : VarMLGood mvtiny.
Proof. split; apply Nat.leb_le; vm_compute; reflexivity. Qed.
Lemma vdflt_mlgood : VarMLGood vdflt.
Proof. split; apply Nat.leb_le; vm_compute; reflexivity. Qed.
Lemma nat_short_vtiny k : @short_key vtiny k.
Proof. unfold short_key. cbn. pose proof (Nat.mod_upper_bound k 3). lia. Qed.
Lemma nat_short_mvtiny k : @short_key mvtiny k.
Proof. unfold short_key. cbn. pose proof (Nat.mod_upper_bound k 3). lia. Qed.
Lemma nat_short_vdflt k : @short_key vdflt k.
Proof.
  unfold short_key. change (0 < S (k mod 64) <= 64). pose proof (Nat.mod_upper_bound k 64 ltac:(discriminate)).
  set (x := k mod 64) in *. clearbody x. lia.
Qed.

(** The entries (1, 1), ..., (n, n). *)
Definition some_entries (n : nat) : list (nat * nat) := map (fun i => (i, i)) (seq 1 n).

Lemma seq_sorted n : forall i, StronglySorted (fun a b => Nat.ltb a b = true) (seq i n).
Proof.
  induction n as [|n IH]; intros i; [constructor|]. cbn. constructor; [apply IH|].
  apply Forall_forall. intros x Hx. apply in_seq in Hx. apply Nat.ltb_lt. lia.
Qed.
Lemma some_sorted n :
  StronglySorted (fun a b => Nat.ltb a b = true) (map fst (some_entries n)).
Proof. unfold some_entries. rewrite map_map. cbn. rewrite map_id. apply seq_sorted. Qed.
Definition demo_slf : list (@bevent tiny) :=
  [VCall (@CInsert tiny 3 4); @VLoad tiny (some_entries 30) 1; VCall (@CRead tiny 3); VCall (@CDelete tiny 7); VGC;
   VCall (@CInsert tiny 40 1); @VLoad tiny (some_entries 4) 2; VCall (@CRead tiny 40)].

(** *** BTreePSL and BTreeOSL, fixed-length keys *)

(** C12 is false: one entry is already too few (1 KiB pages, default settings). *)
Theorem C12_refuted_single_layer_fixlen : forall fuel, 0 < fuel ->
  let l : list (nat * nat) := [(1, 10)] in
  l <> [] /\ @sorted dflt l /\
  @bulkload dflt fnode (@fix_bulk dflt true) fuel l 1 (@sl_init dflt (@fix_sl_ops dflt false)) = Undef.
Proof.
  intros fu Hfu l. split; [discriminate|]. split; [repeat constructor|].
  apply (C12_small_bulkload_undefined_single_layer_fixlen dflt dflt_ord dflt_sizes dflt_bulk false); auto; [discriminate|intros; exact I|].
  apply Nat.leb_le. vm_compute. reflexivity.
Qed.

(** C34 is false: key 0 was stored; Bulkload succeeds, key 0 is gone, and the root of the
    old tree is never released. *)
Theorem C34_refuted_single_layer_fixlen : forall slo, exists s s1 s2,
  @sl_run tiny (@fix_sl_ops tiny slo) slo 100 [ECall (@CInsert tiny 0 5); ECall (@CRead tiny 0)] (@sl_init tiny (@fix_sl_ops tiny slo)) =
    Ok [@RSuccess tiny; @RPayload tiny (Some 5)] s /\
  @bulkload tiny fnode (@fix_bulk tiny true) 100 (some_entries 20) 1 s = Ok tt s1 /\
  @sl_call tiny (@fix_sl_ops tiny slo) slo 102 (@CRead tiny 0) s1 = Ok (@RPayload tiny None) s1 /\
  @sl_destroy tiny (@fix_sl_ops tiny slo) 100 s1 = Ok tt s2 /\ hp s2 (rt s) <> None.
Proof.
  intros o.
  set (es := [ECall (@CInsert tiny 0 5); ECall (@CRead tiny 0)]).
  assert (Hk : forall c, In c (@calls_of tiny es) -> @any_key tiny (call_key c)) by (intros; exact I).
  destruct (@sl_b_run tiny tiny_ord (@fix_sl_ops tiny o) (@fix_sl_laws tiny tiny_ord tiny_sizes tiny_good o) o 0 _ _ es 100 (@JS_init tiny (@fix_sl_ops tiny o) (@fix_sl_laws tiny tiny_ord tiny_sizes tiny_good o)) Hk) as (s & E & _); [cbn; lia|].
  destruct (C34_old_tree_lost_single_layer_fixlen tiny tiny_ord tiny_sizes tiny_good tiny_bulk o es (some_entries 20) 1 100 [@RSuccess tiny; @RPayload tiny (Some 5)] s Hk) as (s1 & s2 & E1 & E2 & E3 & E4).
  { cbn. lia. } { exact E. } { discriminate. }
  { right. split; [now apply some_sorted|]. split; [intros; exact I|]. right. apply Nat.leb_le. vm_compute. reflexivity. }
  { cbn. lia. }
  exists s, s1, s2. split; [exact E|]. split; [exact E1|]. split.
  { apply (E3 0). exact I. }
  split; [exact E2|]. apply E4. exists 0. exact (@ad_root tiny (wops_slf tiny o) s).
Qed.

(** The theorems apply: a load on small pages, with one, three and twenty threads. *)
Example loads_single_layer_fixlen : forall slo,
  map (fun t => match @bulkload tiny fnode (@fix_bulk tiny true) 100 (some_entries 30) t (@sl_init tiny (@fix_sl_ops tiny slo)) with
                | Ok _ s => match @sl_scan tiny (@fix_sl_ops tiny slo) slo 100 None None 100 s with
                            | Ok l _ => (length l, fst (hd (0, 0) l), fst (last l (0, 0))) | _ => (0, 0, 0) end
                | _ => (0, 0, 0) end) [1; 3; 20] = [(30, 1, 30); (30, 1, 30); (30, 1, 30)].
Proof. intros []; vm_compute; reflexivity. Qed.

Example session_single_layer_fixlen : forall slo,
  Forall (@ok_event tiny fixed) demo_slf /\
  exists s, @bk_run tiny fnode (@fix_bulk tiny true) (@sl_call tiny (@fix_sl_ops tiny slo) slo) 300 demo_slf (@sl_init tiny (@fix_sl_ops tiny slo)) =
    Ok (snd (@spec_brun tiny amap_empty (@bcalls_of tiny demo_slf))) s.
Proof.
  intros o. assert (H : Forall (@ok_event tiny fixed) demo_slf).
  { unfold demo_slf. repeat apply Forall_cons; try apply Forall_nil; cbn [ok_event]; try exact I;
      try (right; split; [apply some_sorted|split; [intros; exact I|]]); try (cbn [fst fixed]; exact I).
    - right. apply Nat.leb_le. vm_compute. reflexivity.
    - left. split; apply Nat.leb_le; vm_compute; reflexivity. }
  split; [exact H|].
  destruct (C11_bulkload_sessions_single_layer_fixlen tiny tiny_ord tiny_sizes tiny_good tiny_bulk o demo_slf 300 H) as (s & E & _).
  { apply Nat.leb_le. vm_compute. reflexivity. }
  exists s. exact E.
Qed.
Definition demo_slv : list (@bevent vtiny) :=
  [VCall (@CInsert vtiny 3 4); @VLoad vtiny (some_entries 30) 1; VCall (@CRead vtiny 3); VCall (@CDelete vtiny 7); VGC;
   VCall (@CInsert vtiny 40 1); @VLoad vtiny (some_entries 4) 2; VCall (@CRead vtiny 40)].

(** *** BTreePSL and BTreeOSL, variable-length keys *)

(** C12 is false: one entry is already too few (1 KiB pages, default settings). *)
Theorem C12_refuted_single_layer_varlen : forall fuel, 0 < fuel ->
  let l : list (nat * nat) := [(1, 10)] in
  l <> [] /\ @sorted vdflt l /\
  @bulkload vdflt vnode (@var_bulk vdflt true) fuel l 1 (@sl_init vdflt (@var_sl_ops vdflt false)) = Undef.
Proof.
  intros fu Hfu l. split; [discriminate|]. split; [repeat constructor|].
  apply (C12_small_bulkload_undefined_single_layer_varlen vdflt vdflt_sizes vdflt_bulk false); auto; [discriminate|intros; apply nat_short_vdflt|].
  apply Nat.leb_le. vm_compute. reflexivity.
Qed.

(** C34 is false: key 0 was stored; Bulkload succeeds, key 0 is gone, and the root of the
    old tree is never released. *)
Theorem C34_refuted_single_layer_varlen : forall slo, exists s s1 s2,
  @sl_run vtiny (@var_sl_ops vtiny slo) slo 100 [ECall (@CInsert vtiny 0 5); ECall (@CRead vtiny 0)] (@sl_init vtiny (@var_sl_ops vtiny slo)) =
    Ok [@RSuccess vtiny; @RPayload vtiny (Some 5)] s /\
  @bulkload vtiny vnode (@var_bulk vtiny true) 100 (some_entries 20) 1 s = Ok tt s1 /\
  @sl_call vtiny (@var_sl_ops vtiny slo) slo 102 (@CRead vtiny 0) s1 = Ok (@RPayload vtiny None) s1 /\
  @sl_destroy vtiny (@var_sl_ops vtiny slo) 100 s1 = Ok tt s2 /\ hp s2 (rt s) <> None.
Proof.
  intros o.
  set (es := [ECall (@CInsert vtiny 0 5); ECall (@CRead vtiny 0)]).
  assert (Hk : forall c, In c (@calls_of vtiny es) -> @short_key vtiny (call_key c)) by (intros; apply nat_short_vtiny).
  destruct (@sl_b_run vtiny vtiny_ord (@var_sl_ops vtiny o) (@var_sl_laws vtiny vtiny_ord vtiny_sizes vtiny_good o) o 0 _ _ es 100 (@JS_init vtiny (@var_sl_ops vtiny o) (@var_sl_laws vtiny vtiny_ord vtiny_sizes vtiny_good o)) Hk) as (s & E & _); [cbn; lia|].
  destruct (C34_old_tree_lost_single_layer_varlen vtiny vtiny_ord vtiny_sizes vtiny_good vtiny_bulk o es (some_entries 20) 1 100 [@RSuccess vtiny; @RPayload vtiny (Some 5)] s Hk) as (s1 & s2 & E1 & E2 & E3 & E4).
  { cbn. lia. } { exact E. } { discriminate. }
  { right. split; [now apply some_sorted|]. split; [intros; apply nat_short_vtiny|]. right. apply Nat.leb_le. vm_compute. reflexivity. }
  { cbn. lia. }
  exists s, s1, s2. split; [exact E|]. split; [exact E1|]. split.
  { apply (E3 0). apply nat_short_vtiny. }
  split; [exact E2|]. apply E4. exists 0. exact (@ad_root vtiny (wops_slv vtiny o) s).
Qed.

(** The theorems apply: a load on small pages, with one, three and twenty threads. *)
Example loads_single_layer_varlen : forall slo,
  map (fun t => match @bulkload vtiny vnode (@var_bulk vtiny true) 100 (some_entries 30) t (@sl_init vtiny (@var_sl_ops vtiny slo)) with
                | Ok _ s => match @sl_scan vtiny (@var_sl_ops vtiny slo) slo 100 None None 100 s with
                            | Ok l _ => (length l, fst (hd (0, 0) l), fst (last l (0, 0))) | _ => (0, 0, 0) end
                | _ => (0, 0, 0) end) [1; 3; 20] = [(30, 1, 30); (30, 1, 30); (30, 1, 30)].
Proof. intros []; vm_compute; reflexivity. Qed.

Example session_single_layer_varlen : forall slo,
  Forall (@ok_event vtiny varied) demo_slv /\
  exists s, @bk_run vtiny vnode (@var_bulk vtiny true) (@sl_call vtiny (@var_sl_ops vtiny slo) slo) 300 demo_slv (@sl_init vtiny (@var_sl_ops vtiny slo)) =
    Ok (snd (@spec_brun vtiny amap_empty (@bcalls_of vtiny demo_slv))) s.
Proof.
  intros o. assert (H : Forall (@ok_event vtiny varied) demo_slv).
  { unfold demo_slv. repeat apply Forall_cons; try apply Forall_nil; cbn [ok_event]; try exact I;
      try (right; split; [apply some_sorted|split; [intros; apply nat_short_vtiny|]]); try (cbn [fst varied]; apply nat_short_vtiny).
    - right. apply Nat.leb_le. vm_compute. reflexivity.
    - left. split; apply Nat.leb_le; vm_compute; reflexivity. }
  split; [exact H|].
  destruct (C11_bulkload_sessions_single_layer_varlen vtiny vtiny_ord vtiny_sizes vtiny_good vtiny_bulk o demo_slv 300 H) as (s & E & _).
  { apply Nat.leb_le. vm_compute. reflexivity. }
  exists s. exact E.
Qed.
Definition demo_mlf : list (@bevent tiny) :=
  [VCall (@CInsert tiny 3 4); @VLoad tiny (some_entries 30) 1; VCall (@CRead tiny 3); VCall (@CDelete tiny 7); VGC;
   VCall (@CInsert tiny 40 1); @VLoad tiny (some_entries 4) 2; VCall (@CRead tiny 40)].

(** *** BTreePML and BTreeOML, fixed-length keys *)

(** C12 is false: one entry is already too few (1 KiB pages, default settings). *)
Theorem C12_refuted_multi_layer_fixlen : forall fuel, 0 < fuel ->
  let l : list (nat * nat) := [(1, 10)] in
  l <> [] /\ @sorted dflt l /\
  @bulkload dflt fnode (@fix_bulk dflt false) fuel l 1 (@ml_init dflt (@fix_ml_ops dflt)) = Undef.
Proof.
  intros fu Hfu l. split; [discriminate|]. split; [repeat constructor|].
  apply (C12_small_bulkload_undefined_multi_layer_fixlen dflt dflt_ord dflt_sizes dflt_bulk); auto; [discriminate|intros; exact I|].
  apply Nat.leb_le. vm_compute. reflexivity.
Qed.

(** C34 is false: key 0 was stored; Bulkload succeeds, key 0 is gone, and the root of the
    old tree is never released. *)
Theorem C34_refuted_multi_layer_fixlen : forall mlo, exists s s1 s2,
  @ml_run tiny (@fix_ml_ops tiny) mlo 100 [ECall (@CInsert tiny 0 5); ECall (@CRead tiny 0)] (@ml_init tiny (@fix_ml_ops tiny)) =
    Ok [@RSuccess tiny; @RPayload tiny (Some 5)] s /\
  @bulkload tiny fnode (@fix_bulk tiny false) 100 (some_entries 20) 1 s = Ok tt s1 /\
  @ml_call tiny (@fix_ml_ops tiny) mlo 102 (@CRead tiny 0) s1 = Ok (@RPayload tiny None) s1 /\
  @ml_destroy tiny (@fix_ml_ops tiny) 100 s1 = Ok tt s2 /\ hp s2 (rt s) <> None.
Proof.
  intros o.
  set (es := [ECall (@CInsert tiny 0 5); ECall (@CRead tiny 0)]).
  assert (Hk : forall c, In c (@calls_of tiny es) -> @any_key tiny (call_key c)) by (intros; exact I).
  destruct (@ml_b_run tiny tiny_ord (@fix_ml_ops tiny) (@fix_ml_laws tiny tiny_ord tiny_sizes tiny_mlgood) o 0 _ _ es 100 (@JM_init tiny (@fix_ml_ops tiny) (@fix_ml_laws tiny tiny_ord tiny_sizes tiny_mlgood) o) Hk) as (s & E & _); [cbn; lia|].
  destruct (C34_old_tree_lost_multi_layer_fixlen tiny tiny_ord tiny_sizes tiny_mlgood tiny_bulk o es (some_entries 20) 1 100 [@RSuccess tiny; @RPayload tiny (Some 5)] s Hk) as (s1 & s2 & E1 & E2 & E3 & E4).
  { cbn. lia. } { exact E. } { discriminate. }
  { right. split; [now apply some_sorted|]. split; [intros; exact I|]. right. apply Nat.leb_le. vm_compute. reflexivity. }
  { cbn. lia. }
  exists s, s1, s2. split; [exact E|]. split; [exact E1|]. split.
  { apply (E3 0). exact I. }
  split; [exact E2|]. apply E4. exists 0. exact (@ad_root tiny (wops_mlf tiny) s).
Qed.

(** The theorems apply: a load on small pages, with one, three and twenty threads. *)
Example loads_multi_layer_fixlen : forall mlo,
  map (fun t => match @bulkload tiny fnode (@fix_bulk tiny false) 100 (some_entries 30) t (@ml_init tiny (@fix_ml_ops tiny)) with
                | Ok _ s => match @ml_scan tiny (@fix_ml_ops tiny) mlo 100 None None 100 s with
                            | Ok l _ => (length l, fst (hd (0, 0) l), fst (last l (0, 0))) | _ => (0, 0, 0) end
                | _ => (0, 0, 0) end) [1; 3; 20] = [(30, 1, 30); (30, 1, 30); (30, 1, 30)].
Proof. intros []; vm_compute; reflexivity. Qed.

Example session_multi_layer_fixlen : forall mlo,
  Forall (@ok_event tiny fixed) demo_mlf /\
  exists s, @bk_run tiny fnode (@fix_bulk tiny false) (@ml_call tiny (@fix_ml_ops tiny) mlo) 300 demo_mlf (@ml_init tiny (@fix_ml_ops tiny)) =
    Ok (snd (@spec_brun tiny amap_empty (@bcalls_of tiny demo_mlf))) s.
Proof.
  intros o. assert (H : Forall (@ok_event tiny fixed) demo_mlf).
  { unfold demo_mlf. repeat apply Forall_cons; try apply Forall_nil; cbn [ok_event]; try exact I;
      try (right; split; [apply some_sorted|split; [intros; exact I|]]); try (cbn [fst fixed]; exact I).
    - right. apply Nat.leb_le. vm_compute. reflexivity.
    - left. split; apply Nat.leb_le; vm_compute; reflexivity. }
  split; [exact H|].
  destruct (C11_bulkload_sessions_multi_layer_fixlen tiny tiny_ord tiny_sizes tiny_mlgood tiny_bulk o demo_mlf 300 H) as (s & E & _).
  { apply Nat.leb_le. vm_compute. reflexivity. }
  exists s. exact E.
Qed.
Definition demo_mlv : list (@bevent mvtiny) :=
  [VCall (@CInsert mvtiny 3 4); @VLoad mvtiny (some_entries 30) 1; VCall (@CRead mvtiny 3); VCall (@CDelete mvtiny 7); VGC;
   VCall (@CInsert mvtiny 40 1); @VLoad mvtiny (some_entries 4) 2; VCall (@CRead mvtiny 40)].

(** *** BTreePML and BTreeOML, variable-length keys *)

(** C12 is false: one entry is already too few (1 KiB pages, default settings). *)
Theorem C12_refuted_multi_layer_varlen : forall fuel, 0 < fuel ->
  let l : list (nat * nat) := [(1, 10)] in
  l <> [] /\ @sorted vdflt l /\
  @bulkload vdflt vnode (@var_bulk vdflt false) fuel l 1 (@ml_init vdflt (@var_ml_ops vdflt)) = Undef.
Proof.
  intros fu Hfu l. split; [discriminate|]. split; [repeat constructor|].
  apply (C12_small_bulkload_undefined_multi_layer_varlen vdflt vdflt_sizes vdflt_bulk); auto; [discriminate|intros; apply nat_short_vdflt|].
  apply Nat.leb_le. vm_compute. reflexivity.
Qed.

(** C34 is false: key 0 was stored; Bulkload succeeds, key 0 is gone, and the root of the
    old tree is never released. *)
Theorem C34_refuted_multi_layer_varlen : forall mlo, exists s s1 s2,
  @ml_run mvtiny (@var_ml_ops mvtiny) mlo 100 [ECall (@CInsert mvtiny 0 5); ECall (@CRead mvtiny 0)] (@ml_init mvtiny (@var_ml_ops mvtiny)) =
    Ok [@RSuccess mvtiny; @RPayload mvtiny (Some 5)] s /\
  @bulkload mvtiny vnode (@var_bulk mvtiny false) 100 (some_entries 20) 1 s = Ok tt s1 /\
  @ml_call mvtiny (@var_ml_ops mvtiny) mlo 102 (@CRead mvtiny 0) s1 = Ok (@RPayload mvtiny None) s1 /\
  @ml_destroy mvtiny (@var_ml_ops mvtiny) 100 s1 = Ok tt s2 /\ hp s2 (rt s) <> None.
Proof.
  intros o.
  set (es := [ECall (@CInsert mvtiny 0 5); ECall (@CRead mvtiny 0)]).
  assert (Hk : forall c, In c (@calls_of mvtiny es) -> @short_key mvtiny (call_key c)) by (intros; apply nat_short_mvtiny).
  destruct (@ml_b_run mvtiny mvtiny_ord (@var_ml_ops mvtiny) (@var_ml_laws mvtiny mvtiny_ord mvtiny_sizes mvtiny_good mvtiny_mlgood) o 0 _ _ es 100 (@JM_init mvtiny (@var_ml_ops mvtiny) (@var_ml_laws mvtiny mvtiny_ord mvtiny_sizes mvtiny_good mvtiny_mlgood) o) Hk) as (s & E & _); [cbn; lia|].
  destruct (C34_old_tree_lost_multi_layer_varlen mvtiny mvtiny_ord mvtiny_sizes mvtiny_good mvtiny_mlgood mvtiny_bulk o es (some_entries 20) 1 100 [@RSuccess mvtiny; @RPayload mvtiny (Some 5)] s Hk) as (s1 & s2 & E1 & E2 & E3 & E4).
  { cbn. lia. } { exact E. } { discriminate. }
  { right. split; [now apply some_sorted|]. split; [intros; apply nat_short_mvtiny|]. right. apply Nat.leb_le. vm_compute. reflexivity. }
  { cbn. lia. }
  exists s, s1, s2. split; [exact E|]. split; [exact E1|]. split.
  { apply (E3 0). apply nat_short_mvtiny. }
  split; [exact E2|]. apply E4. exists 0. exact (@ad_root mvtiny (wops_mlv mvtiny) s).
Qed.

(** The theorems apply: a load on small pages, with one, three and twenty threads. *)
Example loads_multi_layer_varlen : forall mlo,
  map (fun t => match @bulkload mvtiny vnode (@var_bulk mvtiny false) 100 (some_entries 30) t (@ml_init mvtiny (@var_ml_ops mvtiny)) with
                | Ok _ s => match @ml_scan mvtiny (@var_ml_ops mvtiny) mlo 100 None None 100 s with
                            | Ok l _ => (length l, fst (hd (0, 0) l), fst (last l (0, 0))) | _ => (0, 0, 0) end
                | _ => (0, 0, 0) end) [1; 3; 20] = [(30, 1, 30); (30, 1, 30); (30, 1, 30)].
Proof. intros []; vm_compute; reflexivity. Qed.

Example session_multi_layer_varlen : forall mlo,
  Forall (@ok_event mvtiny varied) demo_mlv /\
  exists s, @bk_run mvtiny vnode (@var_bulk mvtiny false) (@ml_call mvtiny (@var_ml_ops mvtiny) mlo) 300 demo_mlv (@ml_init mvtiny (@var_ml_ops mvtiny)) =
    Ok (snd (@spec_brun mvtiny amap_empty (@bcalls_of mvtiny demo_mlv))) s.
Proof.
  intros o. assert (H : Forall (@ok_event mvtiny varied) demo_mlv).
  { unfold demo_mlv. repeat apply Forall_cons; try apply Forall_nil; cbn [ok_event]; try exact I;
      try (right; split; [apply some_sorted|split; [intros; apply nat_short_mvtiny|]]); try (cbn [fst varied]; apply nat_short_mvtiny).
    - right. apply Nat.leb_le. vm_compute. reflexivity.
    - left. split; apply Nat.leb_le; vm_compute; reflexivity. }
  split; [exact H|].
  destruct (C11_bulkload_sessions_multi_layer_varlen mvtiny mvtiny_ord mvtiny_sizes mvtiny_good mvtiny_mlgood mvtiny_bulk o demo_mlv 300 H) as (s & E & _).
  { apply Nat.leb_le. vm_compute. reflexivity. }
  exists s. exact E.
Qed.

Print Assumptions C11_slices_cover.
Print Assumptions C10_bulkload_single_layer_fixlen.
Print Assumptions C11_bulkload_sessions_single_layer_fixlen.
Print Assumptions C11_thread_count_irrelevant_single_layer_fixlen.
Print Assumptions C15_balanced_after_bulkload_single_layer_fixlen.
Print Assumptions C12_small_bulkload_undefined_single_layer_fixlen.
Print Assumptions C12_refuted_single_layer_fixlen.
Print Assumptions C34_old_tree_lost_single_layer_fixlen.
Print Assumptions C34_refuted_single_layer_fixlen.
Print Assumptions C10_bulkload_single_layer_varlen.
Print Assumptions C11_bulkload_sessions_single_layer_varlen.
Print Assumptions C11_thread_count_irrelevant_single_layer_varlen.
Print Assumptions C15_balanced_after_bulkload_single_layer_varlen.
Print Assumptions C12_small_bulkload_undefined_single_layer_varlen.
Print Assumptions C12_refuted_single_layer_varlen.
Print Assumptions C34_old_tree_lost_single_layer_varlen.
Print Assumptions C34_refuted_single_layer_varlen.
Print Assumptions C10_bulkload_multi_layer_fixlen.
Print Assumptions C11_bulkload_sessions_multi_layer_fixlen.
Print Assumptions C11_thread_count_irrelevant_multi_layer_fixlen.
Print Assumptions C15_balanced_after_bulkload_multi_layer_fixlen.
Print Assumptions C12_small_bulkload_undefined_multi_layer_fixlen.
Print Assumptions C12_refuted_multi_layer_fixlen.
Print Assumptions C34_old_tree_lost_multi_layer_fixlen.
Print Assumptions C34_refuted_multi_layer_fixlen.
Print Assumptions C10_bulkload_multi_layer_varlen.
Print Assumptions C11_bulkload_sessions_multi_layer_varlen.
Print Assumptions C11_thread_count_irrelevant_multi_layer_varlen.
Print Assumptions C15_balanced_after_bulkload_multi_layer_varlen.
Print Assumptions C12_small_bulkload_undefined_multi_layer_varlen.
Print Assumptions C12_refuted_multi_layer_varlen.
Print Assumptions C34_old_tree_lost_multi_layer_varlen.
Print Assumptions C34_refuted_multi_layer_varlen.
