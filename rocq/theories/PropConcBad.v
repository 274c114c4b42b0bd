(** Executions of the concurrent single-layer trees in which the code as it is goes wrong:
    C16, C17, C21 and C36 are refuted, on both layouts and for both trees.

    The configurations satisfy every condition the sequential theorems need
    ([tiny_good], [vtiny_good], [dflt_good] in Inst.v); [dflt] is the default 1 KiB page with
    8-byte keys and payloads. *)
From Coq Require Import List Arith Bool Lia.
From Verif Require Import Params Mem Common Spec ConcSpec NodeAbs FixProofs VarModel VarProofs SLIface
  FixSL VarSL TreeState ConcModel ConcLin ConcHist ConcInv ConcMain ConcSeps ConcWait PropConc Inst.
Import ListNotations.

Section Generic.
Context {P : Params} {O : OrdLaws P} {N : SLOps P} (osl : bool).

(** A key inserted at the beginning, never deleted, and missed by the last Read. *)
Definition is_nodel (e : event) : bool := match e with EInv _ (CDelete _) => false | _ => true end.
Lemma nodel_never k h : forallb is_nodel h = true -> never_deleted k h.
Proof. intros Hf t Hin. rewrite forallb_forall in Hf. now apply Hf in Hin. Qed.

Lemma missed_refutes h1 h2 t u k v :
  forallb is_nodel (h1 ++ h2) = true -> pend h1 u None = Some (CInsert k v) ->
  let h := (h1 ++ ERes u RSuccess :: h2) ++ EInv t (CRead k) :: [] ++ ERes t (RPayload None) :: [] in
  ~ reads_keep h /\ ~ linearizable amap_empty h.
Proof.
  intros Hn Hp h.
  assert (Hk : ~ reads_keep h).
  { intros Hr. apply (Hr (h1 ++ ERes u RSuccess :: h2) [] [] t k); auto.
    - exists h1, h2, u, RSuccess, (CInsert k v). split; [auto|]. split; [auto|]. eauto.
    - rewrite app_nil_r. apply nodel_never. rewrite forallb_app in *. cbn. auto. }
  split; auto. intros Hl. apply Hk. now apply linearizable_reads_keep.
Qed.

Lemma run_witness {A B} (f : B -> A) (r : option B) x :
  option_map f r = Some x -> exists s, r = Some s /\ f s = x.
Proof. destruct r as [s|]; [intros [= <-]; eauto|discriminate]. Qed.

End Generic.

(** Thread 0 fills the root leaf with d, 2d, ...; thread 1 inserts d/2, splits the leaf and
    stops before it reads the separator (GetSeparatorKey, psl/b_tree.hpp:726-733); thread 2
    inserts d+1, d+2, ... until it has split the left half again; thread 1 goes on and
    installs the end of the left half, which is now lower, as the separator of the first
    right half; thread 3 reads a key between the two. *)
Definition lost_prog {P : Params} (mk : nat -> K) (one : V) (d n m k : nat) (t : tid) : list call :=
  match t with
  | 0 => map (fun i => CInsert (mk (d * i)) one) (seq 1 n)
  | 1 => [CInsert (mk (d / 2)) one]
  | 2 => map (fun i => CInsert (mk (d + i)) one) (seq 1 m)
  | 3 => [CRead (mk k)]
  | _ => []
  end.
Definition lost_sched (n x : nat) : list tid :=
  repeat 0 (4 * n) ++ repeat 1 6 ++ repeat 2 x ++ repeat 1 4 ++ repeat 3 5.

(** The history of these executions. *)
Definition lost_hist {P : Params} (mk : nat -> K) (one : V) (d n m k : nat) : list event :=
  flat_map (fun i => [EInv 0 (CInsert (mk (d * i)) one); ERes 0 RSuccess]) (seq 1 n) ++
  [EInv 1 (CInsert (mk (d / 2)) one)] ++
  flat_map (fun i => [EInv 2 (CInsert (mk (d + i)) one); ERes 2 RSuccess]) (seq 1 m) ++
  [EInv 2 (CInsert (mk (S (d + m))) one); ERes 1 RSuccess;
   EInv 3 (CRead (mk k)); ERes 3 (RPayload None)].

Notation fix_run P osl := (@crun P (fix_sl_ops osl) osl).
Notation var_run P osl := (@crun P (var_sl_ops osl) osl).

Lemma lost_tiny osl :
  option_map history (fix_run tiny osl as_is (cinit (@lost_prog tiny (fun x => x) 1 10 8 9 20))
    (lost_sched 8 14)) = Some (@lost_hist tiny (fun x => x) 1 10 8 2 20).
Proof. destruct osl; vm_compute; reflexivity. Qed.
Lemma lost_vtiny osl :
  option_map history (var_run vtiny osl as_is (cinit (@lost_prog vtiny (fun x => x) 1 10 6 9 20))
    (lost_sched 6 14)) = Some (@lost_hist vtiny (fun x => x) 1 10 6 2 20).
Proof. destruct osl; vm_compute; reflexivity. Qed.
Lemma lost_dflt :
  option_map history (fix_run dflt false as_is (cinit (@lost_prog dflt (fun x => x) 1 100 62 60 200))
    (lost_sched 62 122)) = Some (@lost_hist dflt (fun x => x) 1 100 62 29 200).
Proof. vm_compute; reflexivity. Qed.

(** C16, C36.  The Read of thread 3 returns "absent" although the insert of its key has
    returned long before and nobody deletes anything. *)
Lemma lost_refutes P (O : OrdLaws P) N (r : option (@cfg P N)) (mk : nat -> K) one d n m :
  option_map history r = Some (@lost_hist P mk one d (S (S n)) m (d * 2)) ->
  exists s, r = Some s /\
    ~ linearizable amap_empty (history s) /\ ~ reads_keep (history s).
Proof.
  intros E. apply run_witness in E as (s & E1 & E2). exists s. split; [auto|]. rewrite E2.
  set (f := fun i => [EInv 0 (CInsert (mk (d * i)) one); ERes 0 RSuccess]).
  set (g := fun i => [EInv 2 (CInsert (mk (d + i)) one); ERes 2 RSuccess]).
  set (h1 := [EInv 0 (CInsert (mk (d * 1)) one); ERes 0 RSuccess; EInv 0 (CInsert (mk (d * 2)) one)]).
  set (h2 := flat_map f (seq 3 n) ++ [EInv 1 (CInsert (mk (d / 2)) one)] ++ flat_map g (seq 1 m) ++
    [EInv 2 (CInsert (mk (S (d + m))) one); ERes 1 RSuccess]).
  assert (Eh : lost_hist mk one d (S (S n)) m (d * 2) =
    (h1 ++ ERes 0 RSuccess :: h2) ++ EInv 3 (CRead (mk (d * 2))) :: [] ++ ERes 3 (RPayload None) :: []).
  { unfold lost_hist, h1, h2. cbn [seq flat_map app]. do 4 f_equal. fold f g.
    repeat (rewrite <- !app_assoc; cbn [app]). reflexivity. }
  rewrite Eh.
  assert (Hn : forallb is_nodel (h1 ++ h2) = true).
  { unfold h2. rewrite !forallb_app. cbn [forallb is_nodel h1].
    assert (F1 : forall l, forallb is_nodel (flat_map f l) = true)
      by (induction l; cbn; auto).
    assert (F2 : forall l, forallb is_nodel (flat_map g l) = true)
      by (induction l; cbn; auto).
    now rewrite F1, F2. }
  destruct (missed_refutes h1 h2 3 0 (mk (d * 2)) one Hn eq_refl) as (Q1 & Q2). auto.
Qed.

Theorem C16_C36_fixlen_refuted : forall osl, exists prog sched s,
  fix_run tiny osl as_is (cinit prog) sched = Some s /\
  ~ linearizable amap_empty (history s) /\ ~ reads_keep (history s).
Proof.
  intros osl. eexists _, _. exact (lost_refutes tiny tiny_ord _ _ (fun x => x) 1 10 6 2 (lost_tiny osl)).
Qed.
Theorem C16_C36_varlen_refuted : forall osl, exists prog sched s,
  var_run vtiny osl as_is (cinit prog) sched = Some s /\
  ~ linearizable amap_empty (history s) /\ ~ reads_keep (history s).
Proof.
  intros osl. eexists _, _. exact (lost_refutes vtiny vtiny_ord _ _ (fun x => x) 1 10 4 2 (lost_vtiny osl)).
Qed.
Theorem C16_C36_default_page_refuted : exists prog sched s,
  fix_run dflt false as_is (cinit prog) sched = Some s /\
  ~ linearizable amap_empty (history s) /\ ~ reads_keep (history s).
Proof.
  eexists _, _. exact (lost_refutes dflt dflt_ord _ _ (fun x => x) 1 100 60 29 lost_dflt).
Qed.

(** C08/C16: the same race leads to undefined behaviour when thread 2 goes on (it wants to
    put its own new node into the wrong parent). *)
Lemma no_result {A} (r : option A) : option_map (fun _ => 0) r = None -> r = None.
Proof. destruct r; [discriminate|auto]. Qed.
Definition ub_sched (n x : nat) : list tid :=
  repeat 0 (4 * n) ++ repeat 1 6 ++ repeat 2 x ++ repeat 1 4 ++ repeat 2 50.
Theorem C16_undefined_behaviour_fixlen_refuted : forall osl, exists prog sched,
  fix_run tiny osl as_is (cinit prog) sched = None.
Proof.
  intros osl. exists (@lost_prog tiny (fun x => x) 1 10 8 9 20), (ub_sched 8 14).
  apply no_result. destruct osl; vm_compute; reflexivity.
Qed.
Theorem C16_undefined_behaviour_varlen_refuted : forall osl, exists prog sched,
  var_run vtiny osl as_is (cinit prog) sched = None.
Proof.
  intros osl. exists (@lost_prog vtiny (fun x => x) 1 10 6 9 20), (ub_sched 6 14).
  apply no_result. destruct osl; vm_compute; reflexivity.
Qed.

(** C17.  In the state after thread 1 has returned, the root (page 3) routes key 20 to page
    1, although page 2, the left neighbour of page 1, ends above 20. *)
Section Seps.
Context {P : Params} {N : SLOps P} {L : SLLaws P N}.
Definition misrouted (s : cfg) (p l : addr) (i : nat) (key : K) : bool :=
  match ch s p, ch s l with
  | Some n, Some m =>
      match nd_child n (S i), nd_highkey m, nd_next m, childp n key with
      | Some r, Some h, Some r', Some c =>
          negb (nd_removed n) && nd_inner n && Nat.ltb (S i) (nd_rc n) && negb (nd_removed m) &&
          Nat.eqb r r' && Nat.eqb r c && ltb key h
      | _, _, _, _ => false
      end
  | _, _ => false
  end.
Lemma misrouted_bad s p l i key : kvalid key -> misrouted s p l i key = true -> ~ seps_right s.
Proof.
  intros Hk Hm Hs. unfold misrouted in Hm.
  destruct (ch s p) as [n|] eqn:E1; [|discriminate]. destruct (ch s l) as [m|] eqn:E2; [|discriminate].
  destruct (nd_child n (S i)) as [r|] eqn:E3; [|discriminate].
  destruct (nd_highkey m) as [h|] eqn:E4; [|discriminate].
  destruct (nd_next m) as [r'|] eqn:E5; [|discriminate].
  destruct (childp n key) as [c|] eqn:E6; [|discriminate].
  repeat (apply andb_true_iff in Hm as (Hm & ?)).
  apply negb_true_iff in Hm, H2. apply Nat.eqb_eq in H1, H0. apply Nat.ltb_lt in H3. subst r' c.
  destruct (Hs p n i r l m h E1 Hm H4 H3 E3 E2 H2 E5 E4) as (_ & Hb).
  exact (Hb key Hk H E6).
Qed.
End Seps.

Definition sep_sched (n x : nat) : list tid :=
  repeat 0 (4 * n) ++ repeat 1 6 ++ repeat 2 x ++ repeat 1 4.
Theorem C17_fixlen_refuted : forall osl, exists prog sched s,
  fix_run tiny osl as_is (cinit prog) sched = Some s /\
  ~ @seps_right tiny (fix_sl_ops osl) (@fix_sl_laws tiny tiny_ord tiny_sizes tiny_good osl) s.
Proof.
  intros osl.
  assert (E : option_map (fun s => misrouted s 3 2 0 (20 : @K tiny))
    (fix_run tiny osl as_is (cinit (@lost_prog tiny (fun x => x) 1 10 8 9 20)) (sep_sched 8 14)) = Some true)
    by (destruct osl; vm_compute; reflexivity).
  apply run_witness in E as (s & E1 & E2). eexists _, _, s. split; [exact E1|].
  eapply misrouted_bad; [|exact E2]. exact Logic.I.
Qed.
Theorem C17_varlen_refuted : forall osl, exists prog sched s,
  var_run vtiny osl as_is (cinit prog) sched = Some s /\
  ~ @seps_right vtiny (var_sl_ops osl) (@var_sl_laws vtiny vtiny_ord vtiny_sizes vtiny_good osl) s.
Proof.
  intros osl.
  assert (E : option_map (fun s => misrouted s 3 2 0 (20 : @K vtiny))
    (var_run vtiny osl as_is (cinit (@lost_prog vtiny (fun x => x) 1 10 6 9 20)) (sep_sched 6 14)) = Some true)
    by (destruct osl; vm_compute; reflexivity).
  apply run_witness in E as (s & E1 & E2). eexists _, _, s. split; [exact E1|].
  eapply misrouted_bad; [|exact E2]. split; apply Nat.leb_le; vm_compute; reflexivity.
Qed.

(** ** C21: deadlocks *)
Section Dead.
Context {P : Params} {N : SLOps P} (osl : bool).

Definition blockedb (fx : fixes) (s : cfg) (t : tid) : bool :=
  match cstep osl fx t s with SBlock => true | _ => false end.
(** [t] waits for a latch that [u] holds. *)
Definition waits_for (fx : fixes) (s : cfg) (t u : tid) : Prop :=
  waiting osl fx s t /\ exists a, wants s t = Some a /\ six s a = Some u.
Definition busyb (s : cfg) (t : tid) : bool := match th s t with PIdle => false | _ => true end.
Definition waits_forb (fx : fixes) (s : cfg) (t u : tid) : bool :=
  blockedb fx s t && busyb s t &&
  match wants s t with
  | Some a => match six s a with Some u' => Nat.eqb u' u | None => false end
  | None => false
  end.
Lemma waits_forb_ok fx s t u : waits_forb fx s t u = true -> waits_for fx s t u.
Proof.
  unfold waits_forb, waits_for, waiting, blockedb, busyb. intros H.
  apply andb_true_iff in H as (H & H3). apply andb_true_iff in H as (H1 & H2).
  destruct (wants s t) as [a|]; [|discriminate]. destruct (six s a) as [u'|] eqn:E; [|discriminate].
  apply Nat.eqb_eq in H3. subst. split; [split|eauto].
  - intros Q. rewrite Q in H2. discriminate.
  - destruct (cstep osl fx t s); auto; discriminate.
Qed.
Lemma waits_busy fx s t u : waits_forb fx s t u = true -> busyb s t = true.
Proof. unfold waits_forb. intros H. apply andb_true_iff in H as (H & _). now apply andb_true_iff in H. Qed.

Lemma deadlock_ok fx prog sched s n t : crun osl fx (cinit prog) sched = Some s ->
  (forall u, n <= u -> prog u = [] /\ ~ In u sched) ->
  forallb (blockedb fx s) (seq 0 n) = true -> busyb s t = true -> deadlocked osl fx s.
Proof.
  intros E Hn Hb Ht. split.
  - exists t. intros Q. unfold busyb in Ht. rewrite Q in Ht. discriminate.
  - intros u. destruct (Nat.lt_ge_cases u n) as [Hu|Hu].
    + rewrite forallb_forall in Hb. specialize (Hb u). unfold blockedb in Hb.
      destruct (cstep osl fx u s); auto; (assert (false = true); [|discriminate]); apply Hb, in_seq; lia.
    + destruct (Hn u Hu) as (Q1 & Q2). destruct (crun_other osl fx sched _ s u E Q2) as (Q3 & Q4).
      unfold cstep. rewrite Q3. cbn. rewrite Q4. cbn. now rewrite Q1.
Qed.
End Dead.

(** A thread waits for a latch it holds itself.  Thread 1 starts Delete(10) while the root
    is a leaf; thread 0 splits that leaf and deletes some records of its own; thread 1
    deletes, finds its leaf too small and its stack empty.  Merge (psl/b_tree.hpp:773-795)
    has latched the right sibling by then, rebuilds the stack and starts its loop again by
    latching the right sibling. *)
Definition self_prog {P : Params} (mk : nat -> K) (one : V) (n : nat) (t : tid) : list call :=
  match t with
  | 0 => map (fun i => CInsert (mk (10 * i)) one) (seq 1 n) ++
         [CDelete (mk 20); CDelete (mk (10 * n)); CDelete (mk (10 * n - 10))]
  | 1 => [CDelete (mk 10)]
  | _ => []
  end.
Definition self_sched (x : nat) : list tid := repeat 1 2 ++ repeat 0 x ++ repeat 1 20.

Lemma two_threads {P : Params} mk one n x u : 2 <= u ->
  @self_prog P mk one n u = [] /\ ~ In u (self_sched x).
Proof.
  intros Hu. split; [destruct u as [|[|]]; [lia|lia|reflexivity]|].
  unfold self_sched. rewrite !in_app_iff.
  intros [Q|[Q|Q]]; apply repeat_spec in Q; lia.
Qed.

Theorem C21_self_deadlock_fixlen_refuted : forall osl, exists prog sched s,
  fix_run tiny osl as_is (cinit prog) sched = Some s /\
  waits_for osl as_is s 1 1 /\ deadlocked osl as_is s.
Proof.
  intros osl.
  assert (E : option_map (fun s => waits_forb osl as_is s 1 1 && forallb (blockedb osl as_is s) (seq 0 2))
    (fix_run tiny osl as_is (cinit (@self_prog tiny (fun x => x) 1 9)) (self_sched 57)) = Some true)
    by (destruct osl; vm_compute; reflexivity).
  apply run_witness in E as (s & E1 & E2). apply andb_true_iff in E2 as (E2 & E3).
  eexists _, _, s. split; [exact E1|]. split; [exact (waits_forb_ok _ _ _ _ _ E2)|].
  refine (deadlock_ok osl as_is _ _ s 2 1 E1 _ E3 (waits_busy _ _ _ _ _ E2)).
  intros u Hu. exact (two_threads _ _ _ _ u Hu).
Qed.
Theorem C21_self_deadlock_varlen_refuted : forall osl, exists prog sched s,
  var_run vtiny osl as_is (cinit prog) sched = Some s /\
  waits_for osl as_is s 1 1 /\ deadlocked osl as_is s.
Proof.
  intros osl.
  assert (E : option_map (fun s => waits_forb osl as_is s 1 1 && forallb (blockedb osl as_is s) (seq 0 2))
    (var_run vtiny osl as_is (cinit (@self_prog vtiny (fun x => x) 1 7)) (self_sched 51)) = Some true)
    by (destruct osl; vm_compute; reflexivity).
  apply run_witness in E as (s & E1 & E2). apply andb_true_iff in E2 as (E2 & E3).
  eexists _, _, s. split; [exact E1|]. split; [exact (waits_forb_ok _ _ _ _ _ E2)|].
  refine (deadlock_ok osl as_is _ _ s 2 1 E1 _ E3 (waits_busy _ _ _ _ _ E2)).
  intros u Hu. exact (two_threads _ _ _ _ u Hu).
Qed.
(** The three repairs do not help against it. *)
Theorem C21_self_deadlock_repaired_refuted : forall osl, exists prog sched s,
  fix_run tiny osl repaired (cinit prog) sched = Some s /\
  waits_for osl repaired s 1 1 /\ deadlocked osl repaired s.
Proof.
  intros osl.
  assert (E : option_map (fun s => waits_forb osl repaired s 1 1 && forallb (blockedb osl repaired s) (seq 0 2))
    (fix_run tiny osl repaired (cinit (@self_prog tiny (fun x => x) 1 9)) (self_sched 57)) = Some true)
    by (destruct osl; vm_compute; reflexivity).
  apply run_witness in E as (s & E1 & E2). apply andb_true_iff in E2 as (E2 & E3).
  eexists _, _, s. split; [exact E1|]. split; [exact (waits_forb_ok _ _ _ _ _ E2)|].
  refine (deadlock_ok osl repaired _ _ s 2 1 E1 _ E3 (waits_busy _ _ _ _ _ E2)).
  intros u Hu. exact (two_threads _ _ _ _ u Hu).
Qed.

(** Two threads wait for each other.  Thread 1 removes the root (TryShrinkTree,
    psl/b_tree.hpp:845-857): it holds the root and waits for its only child.  Thread 2
    merges that child with the node thread 3 has just split off: it holds the child and
    waits for the root. *)
Definition cycle_prog {P : Params} (mk : nat -> K) (one : V) (t : tid) : list call :=
  match t with
  | 0 => map (fun i => CInsert (mk (10 * i)) one) (seq 1 9) ++ map (fun x => CDelete (mk x)) [20; 90; 80]
  | 1 => [CDelete (mk 10)]
  | 2 => map (fun x => CInsert (mk x) one) [31; 32; 33] ++ map (fun x => CDelete (mk x)) [70; 60; 30; 31; 32]
  | 3 => [CInsert (mk 34) one]
  | _ => []
  end.
Definition cycle_sched : list tid :=
  repeat 0 57 ++ repeat 1 9 ++ repeat 2 15 ++ repeat 3 7 ++ repeat 2 60 ++ repeat 1 2 ++ repeat 3 2.

Theorem C21_deadlock_cycle_fixlen_refuted : forall osl, exists prog sched s,
  fix_run tiny osl as_is (cinit prog) sched = Some s /\
  waits_for osl as_is s 1 2 /\ waits_for osl as_is s 2 1 /\ deadlocked osl as_is s.
Proof.
  intros osl.
  assert (E : option_map (fun s => waits_forb osl as_is s 1 2 && waits_forb osl as_is s 2 1 &&
      forallb (blockedb osl as_is s) (seq 0 4))
    (fix_run tiny osl as_is (cinit (@cycle_prog tiny (fun x => x) 1)) cycle_sched) = Some true)
    by (destruct osl; vm_compute; reflexivity).
  apply run_witness in E as (s & E1 & E2). apply andb_true_iff in E2 as (E2 & E3).
  apply andb_true_iff in E2 as (E2 & E4).
  eexists _, _, s. split; [exact E1|]. split; [exact (waits_forb_ok _ _ _ _ _ E2)|].
  split; [exact (waits_forb_ok _ _ _ _ _ E4)|].
  refine (deadlock_ok osl as_is _ _ s 4 1 E1 _ E3 (waits_busy _ _ _ _ _ E2)).
  intros u Hu. split; [destruct u as [|[|[|[|]]]]; try lia; reflexivity|].
  unfold cycle_sched. rewrite !in_app_iff.
  intros [Q|[Q|[Q|[Q|[Q|[Q|Q]]]]]]; apply repeat_spec in Q; lia.
Qed.

(** ** The positive theorems are not vacuous

    Three threads in turn, with splits, a merge and the removal of a root: the execution is
    calm. *)
Definition calm_prog {P : Params} (mk : nat -> K) (one : V) (n : nat) (t : tid) : list call :=
  match t with
  | 0 => map (fun i => CInsert (mk (10 * i)) one) (seq 1 n) ++ map (fun i => CDelete (mk (10 * i))) (seq 1 n)
  | 1 => map (fun i => CWrite (mk (10 * i + 1)) one) (seq 1 n) ++ map (fun i => CDelete (mk (10 * i + 1))) (seq 1 n)
  | 2 => map (fun i => CRead (mk (10 * i))) (seq 1 n)
  | _ => []
  end.
Definition turns (n : nat) : list tid := concat (repeat [0; 1; 2; 1; 0] n).
(** Eight pages are allocated, the tree ends as a single leaf again. *)
Example calm_fixlen : forall osl,
  calmb osl (N := fix_sl_ops osl) (cinit (@calm_prog tiny (fun x => x) 1 12)) (turns 100) = true /\
  option_map (fun s => (length (history s), croot s, cfr s, map (busyb s) [0; 1; 2]))
    (fix_run tiny osl as_is (cinit (@calm_prog tiny (fun x => x) 1 12)) (turns 100)) =
    Some (120, 0, 8, [false; false; false]).
Proof. intros osl. destruct osl; split; vm_compute; reflexivity. Qed.
Example calm_varlen : forall osl,
  calmb osl (N := var_sl_ops osl) (cinit (@calm_prog vtiny (fun x => x) 1 12)) (turns 100) = true /\
  option_map (fun s => (length (history s), croot s, cfr s, map (busyb s) [0; 1; 2]))
    (var_run vtiny osl as_is (cinit (@calm_prog vtiny (fun x => x) 1 12)) (turns 100)) =
    Some (120, 0, 7, [false; false; false]).
Proof. intros osl. destruct osl; split; vm_compute; reflexivity. Qed.

(** So C16_calm_linearizable_fixlen_partial applies to it. *)
Example calm_fixlen_linearizable : forall osl, exists s,
  fix_run tiny osl as_is (cinit (@calm_prog tiny (fun x => x) 1 12)) (turns 100) = Some s /\
  linearizable amap_empty (history s).
Proof.
  intros osl. apply (C16_calm_linearizable_fixlen_partial tiny tiny_ord tiny_sizes tiny_good osl).
  apply (@calmb_calm tiny tiny_ord). exact (proj1 (calm_fixlen osl)).
Qed.
(** Programs without deletes, with a key inserted twice. *)
Example no_delete_prog : no_delete (P := tiny)
  (fun t => map (fun i => CInsert (i : @K tiny) 1) (seq t 20)).
Proof.
  intros t k H. apply in_map_iff in H as (i & [=] & _).
Qed.

Print Assumptions C16_calm_linearizable_fixlen_partial.
Print Assumptions C16_calm_linearizable_varlen_partial.
Print Assumptions C16_repaired_linearizable_fixlen_partial.
Print Assumptions C16_repaired_linearizable_varlen_partial.
Print Assumptions C21_no_deadlock_without_delete_fixlen_partial.
Print Assumptions C21_no_deadlock_without_delete_varlen_partial.
Print Assumptions C33_calm_idle_thread_holds_no_latch_fixlen.
Print Assumptions C33_calm_idle_thread_holds_no_latch_varlen.
Print Assumptions C36_calm_reads_fixlen_partial.
Print Assumptions C36_calm_reads_varlen_partial.
Print Assumptions C17_calm_separators_fixlen_partial.
Print Assumptions C17_calm_separators_varlen_partial.
Print Assumptions C16_C36_fixlen_refuted.
Print Assumptions C16_C36_varlen_refuted.
Print Assumptions C16_C36_default_page_refuted.
Print Assumptions C17_fixlen_refuted.
Print Assumptions C21_self_deadlock_fixlen_refuted.
Print Assumptions C21_deadlock_cycle_fixlen_refuted.
