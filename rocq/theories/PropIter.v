(** C25, C26, C38: iterators used by one thread.

    A client program is a list of steps ([cop], ShareModel.v): open a scan, advance the
    i-th iterator (HasRecord, operator*, operator++), destroy it, read a key.  [share_run]
    executes it with the pessimistic iterators and the tree's own Read; [oshare_run] with
    the optimistic iterators, whose [key_] is one thread_local cell.  [share_spec] is what a
    client expects: each iterator delivers the records of its own range one after the other. *)
From Coq Require Import List Arith Bool Lia Sorted.
From Verif Require Import Params Mem Common Spec NodeAbs FixModel FixProofs VarModel VarProofs SLIface MLIface
  BaseIface FixSL VarSL FixML VarML TreeState SLModel SLProofs SLScanModel SLScan SLApi MLModel MLScanModel MLProofs
  MLApi IterModel ShareModel ShareProofs ShareApi Inst PropMLFix PropMLVar.
Import ListNotations.

(** ** Pessimistic trees: BTreePSL and BTreePML *)

Definition ok_kv {P : Params} (k : K) : Prop := 0 < klen k <= maxkey.
Definition ok_bv {P : Params} (b : bound) : Prop := forall k c, b = Some (k, c) -> ok_kv k.
Definition ok_ops {P : Params} (ops : list cop) : Prop := forall o, In o ops ->
  match o with COpen lo hi => ok_bv lo /\ ok_bv hi | CGet k => ok_kv k | _ => True end.
Definition ok_es {P : Params} (es : list event) : Prop := forall c, In c (calls_of es) -> ok_kv (call_key c).

Section Pess.
Context (P : Params) (O : OrdLaws P).

Theorem C25_pess_single_layer_fixlen (F : FixSizes P) (G : FixGood P) : forall es fuel rs s,
  length es + 3 <= fuel -> @sl_run P (fix_sl_ops false) false fuel es sl_init = Ok rs s ->
  let m := fst (spec_run amap_empty (calls_of es)) in
  exists sc F, (forall lo hi, is_scan m lo hi (sc lo hi)) /\
    forall fuel' ops, F <= fuel' ->
      @share_run P (base_of_sl (fix_sl_ops false)) (sl_scan_leaf false) (sl_read false) fuel' [] ops s =
      Ok (share_spec sc m [] ops) s.
Proof.
  intros es fuel rs s Hf Hr m.
  destruct (@api_reached P O (fix_sl_ops false) (fix_sl_laws false) false es fuel rs s) as [_ Hi]; auto; [intros ? _; exact I|].
  destruct (@psl_share P O (fix_sl_ops false) (fix_sl_laws false) _ _ _ _ Hi) as (sc & F0 & A & B).
  exists sc, F0. split; [intros lo hi; apply A; intros ? ? ?; exact I|].
  intros fuel' ops Hf'. apply B; auto. apply Forall_forall. intros [lo hi|i|i|k] _; cbn; auto; try exact I.
  split; intros ? ? ?; exact I.
Qed.

Theorem C25_pess_single_layer_varlen (F : VarSizes P) (G : VarGood P) : forall es fuel rs s,
  ok_es es -> length es + 3 <= fuel -> @sl_run P (var_sl_ops false) false fuel es sl_init = Ok rs s ->
  let m := fst (spec_run amap_empty (calls_of es)) in
  exists sc F, (forall lo hi, ok_bv lo -> ok_bv hi -> is_scan m lo hi (sc lo hi)) /\
    forall fuel' ops, F <= fuel' -> ok_ops ops ->
      @share_run P (base_of_sl (var_sl_ops false)) (sl_scan_leaf false) (sl_read false) fuel' [] ops s =
      Ok (share_spec sc m [] ops) s.
Proof.
  intros es fuel rs s Hv Hf Hr m.
  destruct (@api_reached P O (var_sl_ops false) (var_sl_laws false) false es fuel rs s) as [_ Hi]; auto.
  destruct (@psl_share P O (var_sl_ops false) (var_sl_laws false) _ _ _ _ Hi) as (sc & F0 & A & B).
  exists sc, F0. split; [exact A|].
  intros fuel' ops Hf' Ho. apply B; auto. apply Forall_forall. intros o Hin. specialize (Ho o Hin). destruct o; exact Ho.
Qed.

Theorem C25_pess_multi_layer_fixlen (F : FixSizes P) (G : FixGood P) (GM : FixMLGood P) : forall es fuel rs s,
  length es + 3 <= fuel -> @ml_run P fix_ml_ops false fuel es ml_init = Ok rs s ->
  let m := fst (spec_run amap_empty (calls_of es)) in
  exists sc F, (forall lo hi, is_scan m lo hi (sc lo hi)) /\
    forall fuel' ops, F <= fuel' ->
      @share_run P (base_of_ml fix_ml_ops) (ml_scan_leaf false) (fun f k => ml_call false f (CRead k)) fuel' [] ops s =
      Ok (share_spec sc m [] ops) s.
Proof.
  intros es fuel rs s Hf Hr m.
  destruct (@mapi_reached P O fix_ml_ops fix_ml_laws false es fuel rs s) as [_ Hi]; auto; [intros ? _; exact I|].
  destruct (@pml_share P O fix_ml_ops fix_ml_laws _ _ _ _ Hi) as (sc & F0 & A & B).
  exists sc, F0. split; [intros lo hi; apply A; intros ? ? ?; exact I|].
  intros fuel' ops Hf'. apply B; auto. apply Forall_forall. intros [lo hi|i|i|k] _; cbn; auto; try exact I.
  split; intros ? ? ?; exact I.
Qed.

Theorem C25_pess_multi_layer_varlen (F : VarSizes P) (G : VarGood P) (GM : VarMLGood P) : forall es fuel rs s,
  ok_es es -> length es + 3 <= fuel -> @ml_run P var_ml_ops false fuel es ml_init = Ok rs s ->
  let m := fst (spec_run amap_empty (calls_of es)) in
  exists sc F, (forall lo hi, ok_bv lo -> ok_bv hi -> is_scan m lo hi (sc lo hi)) /\
    forall fuel' ops, F <= fuel' -> ok_ops ops ->
      @share_run P (base_of_ml var_ml_ops) (ml_scan_leaf false) (fun f k => ml_call false f (CRead k)) fuel' [] ops s =
      Ok (share_spec sc m [] ops) s.
Proof.
  intros es fuel rs s Hv Hf Hr m.
  destruct (@mapi_reached P O var_ml_ops var_ml_laws false es fuel rs s) as [_ Hi]; auto.
  destruct (@pml_share P O var_ml_ops var_ml_laws _ _ _ _ Hi) as (sc & F0 & A & B).
  exists sc, F0. split; [exact A|].
  intros fuel' ops Hf' Ho. apply B; auto. apply Forall_forall. intros o Hin. specialize (Ho o Hin). destruct o; exact Ho.
Qed.

(** ** Optimistic trees: BTreeOSL and BTreeOML

    [newest 0 ops]: only the iterator opened last is advanced.  Without this the claim is
    false, see below. *)

Theorem C25_opt_single_layer_fixlen_partial (F : FixSizes P) (G : FixGood P) : forall es fuel rs s,
  length es + 3 <= fuel -> @sl_run P (fix_sl_ops true) true fuel es sl_init = Ok rs s ->
  let m := fst (spec_run amap_empty (calls_of es)) in
  exists sc F, (forall lo hi, is_scan m lo hi (sc lo hi)) /\
    forall fuel' ops tls, F <= fuel' -> newest 0 ops ->
      @oshare_run P (base_of_sl (fix_sl_ops true)) (sl_scan_leaf true) (sl_read true) fuel' tls [] ops s =
      Ok (share_spec sc m [] ops) s.
Proof.
  intros es fuel rs s Hf Hr m.
  destruct (@api_reached P O (fix_sl_ops true) (fix_sl_laws true) true es fuel rs s) as [_ Hi]; auto; [intros ? _; exact I|].
  destruct (@osl_share P O (fix_sl_ops true) (fix_sl_laws true) _ _ _ _ Hi) as (sc & F0 & A & B).
  exists sc, F0. split; [intros lo hi; apply A; intros ? ? ?; exact I|].
  intros fuel' ops tls Hf' Hn. apply B; auto. apply Forall_forall. intros [lo hi|i|i|k] _; cbn; auto; try exact I.
  split; intros ? ? ?; exact I.
Qed.

Theorem C25_opt_single_layer_varlen_partial (F : VarSizes P) (G : VarGood P) : forall es fuel rs s,
  ok_es es -> length es + 3 <= fuel -> @sl_run P (var_sl_ops true) true fuel es sl_init = Ok rs s ->
  let m := fst (spec_run amap_empty (calls_of es)) in
  exists sc F, (forall lo hi, ok_bv lo -> ok_bv hi -> is_scan m lo hi (sc lo hi)) /\
    forall fuel' ops tls, F <= fuel' -> ok_ops ops -> newest 0 ops ->
      @oshare_run P (base_of_sl (var_sl_ops true)) (sl_scan_leaf true) (sl_read true) fuel' tls [] ops s =
      Ok (share_spec sc m [] ops) s.
Proof.
  intros es fuel rs s Hv Hf Hr m.
  destruct (@api_reached P O (var_sl_ops true) (var_sl_laws true) true es fuel rs s) as [_ Hi]; auto.
  destruct (@osl_share P O (var_sl_ops true) (var_sl_laws true) _ _ _ _ Hi) as (sc & F0 & A & B).
  exists sc, F0. split; [exact A|].
  intros fuel' ops tls Hf' Ho Hn. apply B; auto. apply Forall_forall. intros o Hin. specialize (Ho o Hin). destruct o; exact Ho.
Qed.

Theorem C25_opt_multi_layer_fixlen_partial (F : FixSizes P) (G : FixGood P) (GM : FixMLGood P) : forall es fuel rs s,
  length es + 3 <= fuel -> @ml_run P fix_ml_ops true fuel es ml_init = Ok rs s ->
  let m := fst (spec_run amap_empty (calls_of es)) in
  exists sc F, (forall lo hi, is_scan m lo hi (sc lo hi)) /\
    forall fuel' ops tls, F <= fuel' -> newest 0 ops ->
      @oshare_run P (base_of_ml fix_ml_ops) (ml_scan_leaf true) (fun f k => ml_call true f (CRead k)) fuel' tls [] ops s =
      Ok (share_spec sc m [] ops) s.
Proof.
  intros es fuel rs s Hf Hr m.
  destruct (@mapi_reached P O fix_ml_ops fix_ml_laws true es fuel rs s) as [_ Hi]; auto; [intros ? _; exact I|].
  destruct (@oml_share P O fix_ml_ops fix_ml_laws _ _ _ _ Hi) as (sc & F0 & A & B).
  exists sc, F0. split; [intros lo hi; apply A; intros ? ? ?; exact I|].
  intros fuel' ops tls Hf' Hn. apply B; auto. apply Forall_forall. intros [lo hi|i|i|k] _; cbn; auto; try exact I.
  split; intros ? ? ?; exact I.
Qed.

Theorem C25_opt_multi_layer_varlen_partial (F : VarSizes P) (G : VarGood P) (GM : VarMLGood P) : forall es fuel rs s,
  ok_es es -> length es + 3 <= fuel -> @ml_run P var_ml_ops true fuel es ml_init = Ok rs s ->
  let m := fst (spec_run amap_empty (calls_of es)) in
  exists sc F, (forall lo hi, ok_bv lo -> ok_bv hi -> is_scan m lo hi (sc lo hi)) /\
    forall fuel' ops tls, F <= fuel' -> ok_ops ops -> newest 0 ops ->
      @oshare_run P (base_of_ml var_ml_ops) (ml_scan_leaf true) (fun f k => ml_call true f (CRead k)) fuel' tls [] ops s =
      Ok (share_spec sc m [] ops) s.
Proof.
  intros es fuel rs s Hv Hf Hr m.
  destruct (@mapi_reached P O var_ml_ops var_ml_laws true es fuel rs s) as [_ Hi]; auto.
  destruct (@oml_share P O var_ml_ops var_ml_laws _ _ _ _ Hi) as (sc & F0 & A & B).
  exists sc, F0. split; [exact A|].
  intros fuel' ops tls Hf' Ho Hn. apply B; auto. apply Forall_forall. intros o Hin. specialize (Ho o Hin). destruct o; exact Ho.
Qed.

(** ** C26: reading back what a scan delivered, keys passed by value

    Whatever the program, a read of a delivered key returns the delivered payload, even
    while the iterators are open. *)

Theorem C26_by_value_single_layer_fixlen (F : FixSizes P) (G : FixGood P) : forall es fuel rs s,
  length es + 3 <= fuel -> @sl_run P (fix_sl_ops false) false fuel es sl_init = Ok rs s ->
  exists F, forall fuel' ops, F <= fuel' -> exists res,
    @share_run P (base_of_sl (fix_sl_ops false)) (sl_scan_leaf false) (sl_read false) fuel' [] ops s = Ok res s /\
    reads_back ops res.
Proof.
  intros es fuel rs s Hf Hr. destruct (C25_pess_single_layer_fixlen F G es fuel rs s Hf Hr) as (sc & F0 & A & B).
  exists F0. intros fuel' ops Hf'. eexists. split; [apply B; auto|]. apply share_spec_back. auto.
Qed.

Theorem C26_by_value_single_layer_varlen (F : VarSizes P) (G : VarGood P) : forall es fuel rs s,
  ok_es es -> length es + 3 <= fuel -> @sl_run P (var_sl_ops false) false fuel es sl_init = Ok rs s ->
  exists F, forall fuel' ops, F <= fuel' -> ok_ops ops -> exists res,
    @share_run P (base_of_sl (var_sl_ops false)) (sl_scan_leaf false) (sl_read false) fuel' [] ops s = Ok res s /\
    reads_back ops res.
Proof.
  intros es fuel rs s Hv Hf Hr. destruct (C25_pess_single_layer_varlen F G es fuel rs s Hv Hf Hr) as (sc & F0 & A & B).
  exists F0. intros fuel' ops Hf' Ho. eexists. split; [apply B; auto|]. apply share_spec_back.
  intros lo hi Hin. apply (Ho _) in Hin. apply A; apply Hin.
Qed.

Theorem C26_by_value_multi_layer_fixlen (F : FixSizes P) (G : FixGood P) (GM : FixMLGood P) : forall es fuel rs s,
  length es + 3 <= fuel -> @ml_run P fix_ml_ops false fuel es ml_init = Ok rs s ->
  exists F, forall fuel' ops, F <= fuel' -> exists res,
    @share_run P (base_of_ml fix_ml_ops) (ml_scan_leaf false) (fun f k => ml_call false f (CRead k)) fuel' [] ops s = Ok res s /\
    reads_back ops res.
Proof.
  intros es fuel rs s Hf Hr. destruct (C25_pess_multi_layer_fixlen F G GM es fuel rs s Hf Hr) as (sc & F0 & A & B).
  exists F0. intros fuel' ops Hf'. eexists. split; [apply B; auto|]. apply share_spec_back. auto.
Qed.

Theorem C26_by_value_multi_layer_varlen (F : VarSizes P) (G : VarGood P) (GM : VarMLGood P) : forall es fuel rs s,
  ok_es es -> length es + 3 <= fuel -> @ml_run P var_ml_ops false fuel es ml_init = Ok rs s ->
  exists F, forall fuel' ops, F <= fuel' -> ok_ops ops -> exists res,
    @share_run P (base_of_ml var_ml_ops) (ml_scan_leaf false) (fun f k => ml_call false f (CRead k)) fuel' [] ops s = Ok res s /\
    reads_back ops res.
Proof.
  intros es fuel rs s Hv Hf Hr. destruct (C25_pess_multi_layer_varlen F G GM es fuel rs s Hv Hf Hr) as (sc & F0 & A & B).
  exists F0. intros fuel' ops Hf' Ho. eexists. split; [apply B; auto|]. apply share_spec_back.
  intros lo hi Hin. apply (Ho _) in Hin. apply A; apply Hin.
Qed.

(** The optimistic trees, where [*iter] gives the iterator's own copy of the key. *)
Theorem C26_optimistic_single_layer_fixlen (F : FixSizes P) (G : FixGood P) : forall es fuel rs s,
  length es + 3 <= fuel -> @sl_run P (fix_sl_ops true) true fuel es sl_init = Ok rs s ->
  exists F, forall fuel' ops tls, F <= fuel' -> newest 0 ops -> exists res,
    @oshare_run P (base_of_sl (fix_sl_ops true)) (sl_scan_leaf true) (sl_read true) fuel' tls [] ops s = Ok res s /\
    reads_back ops res.
Proof.
  intros es fuel rs s Hf Hr. destruct (C25_opt_single_layer_fixlen_partial F G es fuel rs s Hf Hr) as (sc & F0 & A & B).
  exists F0. intros fuel' ops tls Hf' Hn. eexists. split; [apply B; auto|]. apply share_spec_back. auto.
Qed.

Theorem C26_optimistic_single_layer_varlen (F : VarSizes P) (G : VarGood P) : forall es fuel rs s,
  ok_es es -> length es + 3 <= fuel -> @sl_run P (var_sl_ops true) true fuel es sl_init = Ok rs s ->
  exists F, forall fuel' ops tls, F <= fuel' -> ok_ops ops -> newest 0 ops -> exists res,
    @oshare_run P (base_of_sl (var_sl_ops true)) (sl_scan_leaf true) (sl_read true) fuel' tls [] ops s = Ok res s /\
    reads_back ops res.
Proof.
  intros es fuel rs s Hv Hf Hr. destruct (C25_opt_single_layer_varlen_partial F G es fuel rs s Hv Hf Hr) as (sc & F0 & A & B).
  exists F0. intros fuel' ops tls Hf' Ho Hn. eexists. split; [apply B; auto|]. apply share_spec_back.
  intros lo hi Hin. apply (Ho _) in Hin. apply A; apply Hin.
Qed.

Theorem C26_optimistic_multi_layer_fixlen (F : FixSizes P) (G : FixGood P) (GM : FixMLGood P) : forall es fuel rs s,
  length es + 3 <= fuel -> @ml_run P fix_ml_ops true fuel es ml_init = Ok rs s ->
  exists F, forall fuel' ops tls, F <= fuel' -> newest 0 ops -> exists res,
    @oshare_run P (base_of_ml fix_ml_ops) (ml_scan_leaf true) (fun f k => ml_call true f (CRead k)) fuel' tls [] ops s = Ok res s /\
    reads_back ops res.
Proof.
  intros es fuel rs s Hf Hr. destruct (C25_opt_multi_layer_fixlen_partial F G GM es fuel rs s Hf Hr) as (sc & F0 & A & B).
  exists F0. intros fuel' ops tls Hf' Hn. eexists. split; [apply B; auto|]. apply share_spec_back. auto.
Qed.

Theorem C26_optimistic_multi_layer_varlen (F : VarSizes P) (G : VarGood P) (GM : VarMLGood P) : forall es fuel rs s,
  ok_es es -> length es + 3 <= fuel -> @ml_run P var_ml_ops true fuel es ml_init = Ok rs s ->
  exists F, forall fuel' ops tls, F <= fuel' -> ok_ops ops -> newest 0 ops -> exists res,
    @oshare_run P (base_of_ml var_ml_ops) (ml_scan_leaf true) (fun f k => ml_call true f (CRead k)) fuel' tls [] ops s = Ok res s /\
    reads_back ops res.
Proof.
  intros es fuel rs s Hv Hf Hr. destruct (C25_opt_multi_layer_varlen_partial F G GM es fuel rs s Hv Hf Hr) as (sc & F0 & A & B).
  exists F0. intros fuel' ops tls Hf' Ho Hn. eexists. split; [apply B; auto|]. apply share_spec_back.
  intros lo hi Hin. apply (Ho _) in Hin. apply A; apply Hin.
Qed.
End Pess.

(** ** What fails *)

(** Keys 1..10 with payloads 10..100, inserted in order. *)
Definition ins10 (P : Params) (k : nat -> @K P) (v : nat -> @V P) : list (@event P) :=
  map (fun i => ECall (@CInsert P (k i) (v i))) (seq 1 10).

(** A full scan delivers [n] records; a second scan is opened at [k]; the first scan is
    advanced until it reports its end. *)
Definition two_scans (P : Params) (n : nat) (k : @K P) : list (@cop P) :=
  [COpen None None] ++ repeat (CNext 0) n ++ [COpen (Some (k, true)) None; CNext 0; CNext 0].

(** The session ran, the program ran, iterator 0 reached its end, key 5 was never delivered. *)
Definition misses5 {P : Params} (key : @K P -> nat) (res : list (@cres P)) : bool :=
  match last res ROpened with REnd => true | _ => false end &&
  negb (existsb (fun r => match r with RRec (k, _) => Nat.eqb (key k) 5 | _ => false end) res).

Lemma misses5_ok {P : Params} (key : @K P -> nat) res : misses5 key res = true ->
  last res ROpened = REnd /\ forall k v, key k = 5 -> ~ In (RRec (k, v)) res.
Proof.
  unfold misses5. intros H. apply andb_true_iff in H as [H1 H2]. split.
  - destruct (last res ROpened); try discriminate H1. reflexivity.
  - intros k v Hk Hin. apply negb_true_iff in H2.
    assert (X : existsb (fun r => match r with RRec (k, _) => Nat.eqb (key k) 5 | _ => false end) res = true).
    { apply existsb_exists. exists (RRec (k, v)). split; auto. now apply Nat.eqb_eq. }
    rewrite X in H2. discriminate H2.
Qed.

(** The key of the second iterator makes the first one skip every record up to it. *)
Theorem C25_opt_single_layer_fixlen_refuted :
  let es := ins10 tiny (fun i => i) (fun i => i * 10) in
  exists rs s res s', @sl_run tiny (@fix_sl_ops tiny true) true 30 es (@sl_init tiny (@fix_sl_ops tiny true)) = Ok rs s /\
    fst (spec_run (@amap_empty tiny) (@calls_of tiny es)) 5 = Some 50 /\
    @oshare_run tiny (base_of_sl (@fix_sl_ops tiny true)) (@sl_scan_leaf tiny (@fix_sl_ops tiny true) true) (@sl_read tiny (@fix_sl_ops tiny true) true) 30 None [] (two_scans tiny 4 9) s = Ok res s' /\
    last res ROpened = REnd /\ forall v, ~ In (@RRec tiny (5, v)) res.
Proof.
  cbv zeta.
  assert (Hc : match @sl_run tiny (@fix_sl_ops tiny true) true 30 (ins10 tiny (fun i => i) (fun i => i * 10)) (@sl_init tiny (@fix_sl_ops tiny true)) with
    | Ok _ s => match @oshare_run tiny (base_of_sl (@fix_sl_ops tiny true)) (@sl_scan_leaf tiny (@fix_sl_ops tiny true) true) (@sl_read tiny (@fix_sl_ops tiny true) true) 30 None [] (two_scans tiny 4 9) s with
                | Ok res _ => @misses5 tiny (fun k => k) res | _ => false end
    | _ => false end = true) by (vm_compute; reflexivity).
  destruct (@sl_run tiny (@fix_sl_ops tiny true) true 30 (ins10 tiny (fun i => i) (fun i => i * 10)) (@sl_init tiny (@fix_sl_ops tiny true))) as [rs s| | |] eqn:E1; try discriminate Hc.
  destruct (@oshare_run tiny (base_of_sl (@fix_sl_ops tiny true)) (@sl_scan_leaf tiny (@fix_sl_ops tiny true) true) (@sl_read tiny (@fix_sl_ops tiny true) true) 30 None [] (two_scans tiny 4 9) s) as [res s'| | |] eqn:E2; try discriminate Hc.
  exists rs, s, res, s'. split; [reflexivity|]. split; [vm_compute; reflexivity|]. split; [exact E2|].
  destruct (@misses5_ok tiny _ _ Hc) as [H1 H2]. split; [exact H1|]. intros v. now apply (H2 5 v).
Qed.

(** The key of the second iterator makes the first one skip every record up to it. *)
Theorem C25_opt_single_layer_varlen_refuted :
  let es := ins10 vtiny (fun i => i) (fun i => i * 10) in
  exists rs s res s', @sl_run vtiny (@var_sl_ops vtiny true) true 30 es (@sl_init vtiny (@var_sl_ops vtiny true)) = Ok rs s /\
    fst (spec_run (@amap_empty vtiny) (@calls_of vtiny es)) 5 = Some 50 /\
    @oshare_run vtiny (base_of_sl (@var_sl_ops vtiny true)) (@sl_scan_leaf vtiny (@var_sl_ops vtiny true) true) (@sl_read vtiny (@var_sl_ops vtiny true) true) 30 None [] (two_scans vtiny 3 9) s = Ok res s' /\
    last res ROpened = REnd /\ forall v, ~ In (@RRec vtiny (5, v)) res.
Proof.
  cbv zeta.
  assert (Hc : match @sl_run vtiny (@var_sl_ops vtiny true) true 30 (ins10 vtiny (fun i => i) (fun i => i * 10)) (@sl_init vtiny (@var_sl_ops vtiny true)) with
    | Ok _ s => match @oshare_run vtiny (base_of_sl (@var_sl_ops vtiny true)) (@sl_scan_leaf vtiny (@var_sl_ops vtiny true) true) (@sl_read vtiny (@var_sl_ops vtiny true) true) 30 None [] (two_scans vtiny 3 9) s with
                | Ok res _ => @misses5 vtiny (fun k => k) res | _ => false end
    | _ => false end = true) by (vm_compute; reflexivity).
  destruct (@sl_run vtiny (@var_sl_ops vtiny true) true 30 (ins10 vtiny (fun i => i) (fun i => i * 10)) (@sl_init vtiny (@var_sl_ops vtiny true))) as [rs s| | |] eqn:E1; try discriminate Hc.
  destruct (@oshare_run vtiny (base_of_sl (@var_sl_ops vtiny true)) (@sl_scan_leaf vtiny (@var_sl_ops vtiny true) true) (@sl_read vtiny (@var_sl_ops vtiny true) true) 30 None [] (two_scans vtiny 3 9) s) as [res s'| | |] eqn:E2; try discriminate Hc.
  exists rs, s, res, s'. split; [reflexivity|]. split; [vm_compute; reflexivity|]. split; [exact E2|].
  destruct (@misses5_ok vtiny _ _ Hc) as [H1 H2]. split; [exact H1|]. intros v. now apply (H2 5 v).
Qed.

(** The key of the second iterator makes the first one skip every record up to it. *)
Theorem C25_opt_multi_layer_fixlen_refuted :
  let es := ins10 tiny (fun i => i) (fun i => i * 10) in
  exists rs s res s', @ml_run tiny (@fix_ml_ops tiny) true 30 es (@ml_init tiny (@fix_ml_ops tiny)) = Ok rs s /\
    fst (spec_run (@amap_empty tiny) (@calls_of tiny es)) 5 = Some 50 /\
    @oshare_run tiny (base_of_ml (@fix_ml_ops tiny)) (@ml_scan_leaf tiny (@fix_ml_ops tiny) true) (fun f k => @ml_call tiny (@fix_ml_ops tiny) true f (@CRead tiny k)) 30 None [] (two_scans tiny 4 9) s = Ok res s' /\
    last res ROpened = REnd /\ forall v, ~ In (@RRec tiny (5, v)) res.
Proof.
  cbv zeta.
  assert (Hc : match @ml_run tiny (@fix_ml_ops tiny) true 30 (ins10 tiny (fun i => i) (fun i => i * 10)) (@ml_init tiny (@fix_ml_ops tiny)) with
    | Ok _ s => match @oshare_run tiny (base_of_ml (@fix_ml_ops tiny)) (@ml_scan_leaf tiny (@fix_ml_ops tiny) true) (fun f k => @ml_call tiny (@fix_ml_ops tiny) true f (@CRead tiny k)) 30 None [] (two_scans tiny 4 9) s with
                | Ok res _ => @misses5 tiny (fun k => k) res | _ => false end
    | _ => false end = true) by (vm_compute; reflexivity).
  destruct (@ml_run tiny (@fix_ml_ops tiny) true 30 (ins10 tiny (fun i => i) (fun i => i * 10)) (@ml_init tiny (@fix_ml_ops tiny))) as [rs s| | |] eqn:E1; try discriminate Hc.
  destruct (@oshare_run tiny (base_of_ml (@fix_ml_ops tiny)) (@ml_scan_leaf tiny (@fix_ml_ops tiny) true) (fun f k => @ml_call tiny (@fix_ml_ops tiny) true f (@CRead tiny k)) 30 None [] (two_scans tiny 4 9) s) as [res s'| | |] eqn:E2; try discriminate Hc.
  exists rs, s, res, s'. split; [reflexivity|]. split; [vm_compute; reflexivity|]. split; [exact E2|].
  destruct (@misses5_ok tiny _ _ Hc) as [H1 H2]. split; [exact H1|]. intros v. now apply (H2 5 v).
Qed.

(** The key of the second iterator makes the first one skip every record up to it. *)
Theorem C25_opt_multi_layer_varlen_refuted :
  let es := ins10 mvtiny (fun i => i) (fun i => i * 10) in
  exists rs s res s', @ml_run mvtiny (@var_ml_ops mvtiny) true 30 es (@ml_init mvtiny (@var_ml_ops mvtiny)) = Ok rs s /\
    fst (spec_run (@amap_empty mvtiny) (@calls_of mvtiny es)) 5 = Some 50 /\
    @oshare_run mvtiny (base_of_ml (@var_ml_ops mvtiny)) (@ml_scan_leaf mvtiny (@var_ml_ops mvtiny) true) (fun f k => @ml_call mvtiny (@var_ml_ops mvtiny) true f (@CRead mvtiny k)) 30 None [] (two_scans mvtiny 4 9) s = Ok res s' /\
    last res ROpened = REnd /\ forall v, ~ In (@RRec mvtiny (5, v)) res.
Proof.
  cbv zeta.
  assert (Hc : match @ml_run mvtiny (@var_ml_ops mvtiny) true 30 (ins10 mvtiny (fun i => i) (fun i => i * 10)) (@ml_init mvtiny (@var_ml_ops mvtiny)) with
    | Ok _ s => match @oshare_run mvtiny (base_of_ml (@var_ml_ops mvtiny)) (@ml_scan_leaf mvtiny (@var_ml_ops mvtiny) true) (fun f k => @ml_call mvtiny (@var_ml_ops mvtiny) true f (@CRead mvtiny k)) 30 None [] (two_scans mvtiny 4 9) s with
                | Ok res _ => @misses5 mvtiny (fun k => k) res | _ => false end
    | _ => false end = true) by (vm_compute; reflexivity).
  destruct (@ml_run mvtiny (@var_ml_ops mvtiny) true 30 (ins10 mvtiny (fun i => i) (fun i => i * 10)) (@ml_init mvtiny (@var_ml_ops mvtiny))) as [rs s| | |] eqn:E1; try discriminate Hc.
  destruct (@oshare_run mvtiny (base_of_ml (@var_ml_ops mvtiny)) (@ml_scan_leaf mvtiny (@var_ml_ops mvtiny) true) (fun f k => @ml_call mvtiny (@var_ml_ops mvtiny) true f (@CRead mvtiny k)) 30 None [] (two_scans mvtiny 4 9) s) as [res s'| | |] eqn:E2; try discriminate Hc.
  exists rs, s, res, s'. split; [reflexivity|]. split; [vm_compute; reflexivity|]. split; [exact E2|].
  destruct (@misses5_ok mvtiny _ _ Hc) as [H1 H2]. split; [exact H1|]. intros v. now apply (H2 5 v).
Qed.

(** C26 with variable-length keys and the pessimistic trees: [*iter] returns a pointer to
    GetKey's buffer; passing that pointer to Read makes every comparison compare the
    buffer with itself.  The scan's third record is
    (3, 30); Read of that pointer returns the payload of another key. *)
Theorem C26_pointer_single_layer_varlen_refuted :
  exists rs s l s1 o s2, @sl_run vtiny (@var_sl_ops vtiny false) false 30 (ins10 vtiny (fun i => i) (fun i => i * 10)) (@sl_init vtiny (@var_sl_ops vtiny false)) = Ok rs s /\
    @sl_scan vtiny (@var_sl_ops vtiny false) false 30 None None 3 s = Ok l s1 /\ nth_error l 2 = Some (3, 30) /\
    @alias_read vtiny (base_of_sl (@var_sl_ops vtiny false)) true 30 (rt s) 3 s = Ok (Some o) s2 /\ o = 50.
Proof.
  assert (Hc : match @sl_run vtiny (@var_sl_ops vtiny false) false 30 (ins10 vtiny (fun i => i) (fun i => i * 10)) (@sl_init vtiny (@var_sl_ops vtiny false)) with
    | Ok _ s => match @sl_scan vtiny (@var_sl_ops vtiny false) false 30 None None 3 s, @alias_read vtiny (base_of_sl (@var_sl_ops vtiny false)) true 30 (rt s) 3 s with
                | Ok l _, Ok (Some v) _ =>
                    match nth_error l 2 with Some (k0, v0) => Nat.eqb k0 3 && Nat.eqb v0 30 && Nat.eqb v 50 | None => false end
                | _, _ => false end
    | _ => false end = true) by (vm_compute; reflexivity).
  destruct (@sl_run vtiny (@var_sl_ops vtiny false) false 30 (ins10 vtiny (fun i => i) (fun i => i * 10)) (@sl_init vtiny (@var_sl_ops vtiny false))) as [rs s| | |] eqn:E1; try discriminate Hc.
  destruct (@sl_scan vtiny (@var_sl_ops vtiny false) false 30 None None 3 s) as [l s1| | |] eqn:E2; try discriminate Hc.
  destruct (@alias_read vtiny (base_of_sl (@var_sl_ops vtiny false)) true 30 (rt s) 3 s) as [[o|] s2| | |] eqn:E3; try discriminate Hc.
  destruct (nth_error l 2) as [[k0 v0]|] eqn:E4; [|discriminate Hc].
  apply andb_true_iff in Hc as [Hc H3]. apply andb_true_iff in Hc as [H1 H2].
  apply Nat.eqb_eq in H1, H2, H3.
  exists rs, s, l, s1, o, s2. split; [reflexivity|]. split; [exact E2|]. split; [rewrite E4, H1, H2; reflexivity|]. auto.
Qed.

Theorem C26_pointer_multi_layer_varlen_refuted :
  exists rs s l s1 o s2, @ml_run mvtiny (@var_ml_ops mvtiny) false 30 (ins10 mvtiny (fun i => i) (fun i => i * 10)) (@ml_init mvtiny (@var_ml_ops mvtiny)) = Ok rs s /\
    @ml_scan mvtiny (@var_ml_ops mvtiny) false 30 None None 3 s = Ok l s1 /\ nth_error l 2 = Some (3, 30) /\
    @alias_read mvtiny (base_of_ml (@var_ml_ops mvtiny)) false 30 (rt s) 3 s = Ok (Some o) s2 /\ o = 70.
Proof.
  assert (Hc : match @ml_run mvtiny (@var_ml_ops mvtiny) false 30 (ins10 mvtiny (fun i => i) (fun i => i * 10)) (@ml_init mvtiny (@var_ml_ops mvtiny)) with
    | Ok _ s => match @ml_scan mvtiny (@var_ml_ops mvtiny) false 30 None None 3 s, @alias_read mvtiny (base_of_ml (@var_ml_ops mvtiny)) false 30 (rt s) 3 s with
                | Ok l _, Ok (Some v) _ =>
                    match nth_error l 2 with Some (k0, v0) => Nat.eqb k0 3 && Nat.eqb v0 30 && Nat.eqb v 70 | None => false end
                | _, _ => false end
    | _ => false end = true) by (vm_compute; reflexivity).
  destruct (@ml_run mvtiny (@var_ml_ops mvtiny) false 30 (ins10 mvtiny (fun i => i) (fun i => i * 10)) (@ml_init mvtiny (@var_ml_ops mvtiny))) as [rs s| | |] eqn:E1; try discriminate Hc.
  destruct (@ml_scan mvtiny (@var_ml_ops mvtiny) false 30 None None 3 s) as [l s1| | |] eqn:E2; try discriminate Hc.
  destruct (@alias_read mvtiny (base_of_ml (@var_ml_ops mvtiny)) false 30 (rt s) 3 s) as [[o|] s2| | |] eqn:E3; try discriminate Hc.
  destruct (nth_error l 2) as [[k0 v0]|] eqn:E4; [|discriminate Hc].
  apply andb_true_iff in Hc as [Hc H3]. apply andb_true_iff in Hc as [H1 H2].
  apply Nat.eqb_eq in H1, H2, H3.
  exists rs, s, l, s1, o, s2. split; [reflexivity|]. split; [exact E2|]. split; [rewrite E4, H1, H2; reflexivity|]. auto.
Qed.

(** C38.  The end bound is read again, through the caller's reference, at every leaf:
    a scan opened with end key 6 delivers keys up to 9 once the caller's variable holds 9. *)
Theorem C38_pess_single_layer_refuted :
  exists rs s l s', @sl_run tiny (@fix_sl_ops tiny false) false 30 (ins10 tiny (fun i => i) (fun i => i * 10)) (@sl_init tiny (@fix_sl_ops tiny false)) = Ok rs s /\
    @rebound_scan tiny (base_of_sl (@fix_sl_ops tiny false)) (@sl_scan_leaf tiny (@fix_sl_ops tiny false) false) 30 None (Some (6, true)) (Some (9, true)) 1 10 s = Ok l s' /\
    map fst l = [1; 2; 3; 4; 5; 6; 7; 8; 9].
Proof.
  assert (Hc : match @sl_run tiny (@fix_sl_ops tiny false) false 30 (ins10 tiny (fun i => i) (fun i => i * 10)) (@sl_init tiny (@fix_sl_ops tiny false)) with
    | Ok _ s => match @rebound_scan tiny (base_of_sl (@fix_sl_ops tiny false)) (@sl_scan_leaf tiny (@fix_sl_ops tiny false) false) 30 None (Some (6, true)) (Some (9, true)) 1 10 s with
                | Ok l _ => if list_eq_dec Nat.eq_dec (map fst l) [1; 2; 3; 4; 5; 6; 7; 8; 9] then true else false | _ => false end
    | _ => false end = true) by (vm_compute; reflexivity).
  destruct (@sl_run tiny (@fix_sl_ops tiny false) false 30 (ins10 tiny (fun i => i) (fun i => i * 10)) (@sl_init tiny (@fix_sl_ops tiny false))) as [rs s| | |] eqn:E1; try discriminate Hc.
  destruct (@rebound_scan tiny (base_of_sl (@fix_sl_ops tiny false)) (@sl_scan_leaf tiny (@fix_sl_ops tiny false) false) 30 None (Some (6, true)) (Some (9, true)) 1 10 s) as [l s'| | |] eqn:E2; try discriminate Hc.
  destruct (list_eq_dec Nat.eq_dec (map fst l) [1; 2; 3; 4; 5; 6; 7; 8; 9]) as [E3|]; [|discriminate Hc].
  exists rs, s, l, s'. auto.
Qed.

Theorem C38_opt_single_layer_refuted :
  exists rs s l s', @sl_run tiny (@fix_sl_ops tiny true) true 30 (ins10 tiny (fun i => i) (fun i => i * 10)) (@sl_init tiny (@fix_sl_ops tiny true)) = Ok rs s /\
    @orebound_scan tiny (base_of_sl (@fix_sl_ops tiny true)) (@sl_scan_leaf tiny (@fix_sl_ops tiny true) true) 30 None (Some (6, true)) (Some (9, true)) 1 10 s = Ok l s' /\
    map fst l = [1; 2; 3; 4; 5; 6; 7; 8; 9].
Proof.
  assert (Hc : match @sl_run tiny (@fix_sl_ops tiny true) true 30 (ins10 tiny (fun i => i) (fun i => i * 10)) (@sl_init tiny (@fix_sl_ops tiny true)) with
    | Ok _ s => match @orebound_scan tiny (base_of_sl (@fix_sl_ops tiny true)) (@sl_scan_leaf tiny (@fix_sl_ops tiny true) true) 30 None (Some (6, true)) (Some (9, true)) 1 10 s with
                | Ok l _ => if list_eq_dec Nat.eq_dec (map fst l) [1; 2; 3; 4; 5; 6; 7; 8; 9] then true else false | _ => false end
    | _ => false end = true) by (vm_compute; reflexivity).
  destruct (@sl_run tiny (@fix_sl_ops tiny true) true 30 (ins10 tiny (fun i => i) (fun i => i * 10)) (@sl_init tiny (@fix_sl_ops tiny true))) as [rs s| | |] eqn:E1; try discriminate Hc.
  destruct (@orebound_scan tiny (base_of_sl (@fix_sl_ops tiny true)) (@sl_scan_leaf tiny (@fix_sl_ops tiny true) true) 30 None (Some (6, true)) (Some (9, true)) 1 10 s) as [l s'| | |] eqn:E2; try discriminate Hc.
  destruct (list_eq_dec Nat.eq_dec (map fst l) [1; 2; 3; 4; 5; 6; 7; 8; 9]) as [E3|]; [|discriminate Hc].
  exists rs, s, l, s'. auto.
Qed.

Theorem C38_pess_multi_layer_refuted :
  exists rs s l s', @ml_run tiny (@fix_ml_ops tiny) false 30 (ins10 tiny (fun i => i) (fun i => i * 10)) (@ml_init tiny (@fix_ml_ops tiny)) = Ok rs s /\
    @rebound_scan tiny (base_of_ml (@fix_ml_ops tiny)) (@ml_scan_leaf tiny (@fix_ml_ops tiny) false) 30 None (Some (6, true)) (Some (9, true)) 1 10 s = Ok l s' /\
    map fst l = [1; 2; 3; 4; 5; 6; 7; 8; 9].
Proof.
  assert (Hc : match @ml_run tiny (@fix_ml_ops tiny) false 30 (ins10 tiny (fun i => i) (fun i => i * 10)) (@ml_init tiny (@fix_ml_ops tiny)) with
    | Ok _ s => match @rebound_scan tiny (base_of_ml (@fix_ml_ops tiny)) (@ml_scan_leaf tiny (@fix_ml_ops tiny) false) 30 None (Some (6, true)) (Some (9, true)) 1 10 s with
                | Ok l _ => if list_eq_dec Nat.eq_dec (map fst l) [1; 2; 3; 4; 5; 6; 7; 8; 9] then true else false | _ => false end
    | _ => false end = true) by (vm_compute; reflexivity).
  destruct (@ml_run tiny (@fix_ml_ops tiny) false 30 (ins10 tiny (fun i => i) (fun i => i * 10)) (@ml_init tiny (@fix_ml_ops tiny))) as [rs s| | |] eqn:E1; try discriminate Hc.
  destruct (@rebound_scan tiny (base_of_ml (@fix_ml_ops tiny)) (@ml_scan_leaf tiny (@fix_ml_ops tiny) false) 30 None (Some (6, true)) (Some (9, true)) 1 10 s) as [l s'| | |] eqn:E2; try discriminate Hc.
  destruct (list_eq_dec Nat.eq_dec (map fst l) [1; 2; 3; 4; 5; 6; 7; 8; 9]) as [E3|]; [|discriminate Hc].
  exists rs, s, l, s'. auto.
Qed.

Theorem C38_opt_multi_layer_refuted :
  exists rs s l s', @ml_run tiny (@fix_ml_ops tiny) true 30 (ins10 tiny (fun i => i) (fun i => i * 10)) (@ml_init tiny (@fix_ml_ops tiny)) = Ok rs s /\
    @orebound_scan tiny (base_of_ml (@fix_ml_ops tiny)) (@ml_scan_leaf tiny (@fix_ml_ops tiny) true) 30 None (Some (6, true)) (Some (9, true)) 1 10 s = Ok l s' /\
    map fst l = [1; 2; 3; 4; 5; 6; 7; 8; 9].
Proof.
  assert (Hc : match @ml_run tiny (@fix_ml_ops tiny) true 30 (ins10 tiny (fun i => i) (fun i => i * 10)) (@ml_init tiny (@fix_ml_ops tiny)) with
    | Ok _ s => match @orebound_scan tiny (base_of_ml (@fix_ml_ops tiny)) (@ml_scan_leaf tiny (@fix_ml_ops tiny) true) 30 None (Some (6, true)) (Some (9, true)) 1 10 s with
                | Ok l _ => if list_eq_dec Nat.eq_dec (map fst l) [1; 2; 3; 4; 5; 6; 7; 8; 9] then true else false | _ => false end
    | _ => false end = true) by (vm_compute; reflexivity).
  destruct (@ml_run tiny (@fix_ml_ops tiny) true 30 (ins10 tiny (fun i => i) (fun i => i * 10)) (@ml_init tiny (@fix_ml_ops tiny))) as [rs s| | |] eqn:E1; try discriminate Hc.
  destruct (@orebound_scan tiny (base_of_ml (@fix_ml_ops tiny)) (@ml_scan_leaf tiny (@fix_ml_ops tiny) true) 30 None (Some (6, true)) (Some (9, true)) 1 10 s) as [l s'| | |] eqn:E2; try discriminate Hc.
  destruct (list_eq_dec Nat.eq_dec (map fst l) [1; 2; 3; 4; 5; 6; 7; 8; 9]) as [E3|]; [|discriminate Hc].
  exists rs, s, l, s'. auto.
Qed.

(** ** The theorems apply: two interleaved scans and reads on a three-leaf tree *)
Definition inter : list (@cop tiny) :=
  [COpen None None; CNext 0; CNext 0; CNext 0; CNext 0; COpen (P := tiny) (Some (7, true)) (Some (9, false));
   CNext 0; CNext 1; CGet (P := tiny) 7; CNext 0; CNext 1; CNext 1; CClose 0; CNext 0].
Definition inter_expected : list (@cres tiny) :=
  [ROpened; @RRec tiny (1, 10); @RRec tiny (2, 20); @RRec tiny (3, 30); @RRec tiny (4, 40); ROpened; @RRec tiny (5, 50); @RRec tiny (7, 70);
   @RVal tiny (@RPayload tiny (Some 70)); @RRec tiny (6, 60); @RRec tiny (8, 80); REnd; RClosed; REnd].

Example inter_psl :
  match @sl_run tiny (@fix_sl_ops tiny false) false 30 (ins10 tiny (fun i => i) (fun i => i * 10)) sl_init with
  | Ok _ s => match @share_run tiny (base_of_sl (@fix_sl_ops tiny false)) (@sl_scan_leaf tiny (@fix_sl_ops tiny false) false)
                      (@sl_read tiny (@fix_sl_ops tiny false) false) 30 [] inter s with
              | Ok l s' => l = inter_expected /\ lk s' = [] | _ => False end
  | _ => False end.
Proof. vm_compute; split; reflexivity. Qed.
Example inter_pml :
  match @ml_run tiny (@fix_ml_ops tiny) false 30 (ins10 tiny (fun i => i) (fun i => i * 10)) ml_init with
  | Ok _ s => match @share_run tiny (base_of_ml (@fix_ml_ops tiny)) (@ml_scan_leaf tiny (@fix_ml_ops tiny) false)
                      (fun f k => @ml_call tiny (@fix_ml_ops tiny) false f (@CRead tiny k)) 30 [] inter s with
              | Ok l s' => l = inter_expected /\ lk s' = [] | _ => False end
  | _ => False end.
Proof. vm_compute; split; reflexivity. Qed.

Definition nested : list (@cop tiny) :=
  [COpen None None; CNext 0; CNext 0; CGet (P := tiny) 2; COpen (P := tiny) (Some (7, true)) (Some (9, false));
   CNext 1; CNext 1; CGet (P := tiny) 8; CNext 1].
Example nested_is_newest : newest 0 nested.
Proof. cbn. lia. Qed.
Example nested_osl :
  match @sl_run tiny (@fix_sl_ops tiny true) true 30 (ins10 tiny (fun i => i) (fun i => i * 10)) sl_init with
  | Ok _ s => match @oshare_run tiny (base_of_sl (@fix_sl_ops tiny true)) (@sl_scan_leaf tiny (@fix_sl_ops tiny true) true)
                      (@sl_read tiny (@fix_sl_ops tiny true) true) 30 None [] nested s with
              | Ok l s' => l = [ROpened; @RRec tiny (1, 10); @RRec tiny (2, 20); @RVal tiny (@RPayload tiny (Some 20)); ROpened; @RRec tiny (7, 70);
                                @RRec tiny (8, 80); @RVal tiny (@RPayload tiny (Some 80)); REnd] | _ => False end
  | _ => False end.
Proof. vm_compute; reflexivity. Qed.

Print Assumptions C25_pess_single_layer_fixlen.
Print Assumptions C25_pess_single_layer_varlen.
Print Assumptions C25_pess_multi_layer_fixlen.
Print Assumptions C25_pess_multi_layer_varlen.
Print Assumptions C25_opt_single_layer_fixlen_partial.
Print Assumptions C25_opt_single_layer_varlen_partial.
Print Assumptions C25_opt_multi_layer_fixlen_partial.
Print Assumptions C25_opt_multi_layer_varlen_partial.
Print Assumptions C26_by_value_single_layer_fixlen.
Print Assumptions C26_by_value_single_layer_varlen.
Print Assumptions C26_by_value_multi_layer_fixlen.
Print Assumptions C26_by_value_multi_layer_varlen.
Print Assumptions C26_optimistic_single_layer_fixlen.
Print Assumptions C26_optimistic_single_layer_varlen.
Print Assumptions C26_optimistic_multi_layer_fixlen.
Print Assumptions C26_optimistic_multi_layer_varlen.
Print Assumptions C25_opt_single_layer_fixlen_refuted.
Print Assumptions C25_opt_single_layer_varlen_refuted.
Print Assumptions C25_opt_multi_layer_fixlen_refuted.
Print Assumptions C25_opt_multi_layer_varlen_refuted.
Print Assumptions C26_pointer_single_layer_varlen_refuted.
Print Assumptions C26_pointer_multi_layer_varlen_refuted.
Print Assumptions C38_pess_single_layer_refuted.
Print Assumptions C38_opt_single_layer_refuted.
Print Assumptions C38_pess_multi_layer_refuted.
Print Assumptions C38_opt_multi_layer_refuted.
