(** Executions of the concurrent optimistic multi-layer tree (OConcModel.v, the code as it
    is) that go wrong: a lost key (C39) and uses of released pages (C40), on both
    layouts.

    The configurations satisfy every condition the sequential theorems need ([tiny_good],
    [dflt_good] in Inst.v and the corresponding facts on [mvtiny]); [dflt] is the default
    1 KiB page with 8-byte keys and payloads. *)
From Coq Require Import List Arith Bool Lia.
From Verif Require Import Params Mem Common Spec ConcSpec NodeAbs MLIface FixML VarML TreeState MLModel
  ConcModel ConcHist MConcModel OConcModel Inst.
Import ListNotations.

Section Generic.
Context {P : Params} {O : OrdLaws P}.

Definition not_del (k : K) (e : event) : bool :=
  match e with EInv _ (CDelete k') => ltb k k' || ltb k' k | _ => true end.
Lemma not_del_never k h : forallb (not_del k) h = true -> never_deleted k h.
Proof.
  intros Hf t Hin. rewrite forallb_forall in Hf. apply Hf in Hin. cbn in Hin.
  now rewrite !ltb_irrefl in Hin.
Qed.

(** A history that ends with the return of Insert(k), and a Read of k that misses it. *)
Definition lost_end (h : list event) : bool :=
  match rev h with
  | ERes t (RPayload None) :: EInv t' (CRead k) :: ERes u RSuccess :: h' =>
      Nat.eqb t t' && forallb (not_del k) h &&
      match pend (rev h') u None with
      | Some (CInsert k' _) => negb (ltb k k') && negb (ltb k' k)
      | _ => false
      end
  | _ => false
  end.

Lemma lost_end_ok h : lost_end h = true ->
  ~ reads_keep h /\ ~ linearizable amap_empty h.
Proof.
  unfold lost_end. intros H. pose proof (rev_involutive h) as Er.
  destruct (rev h) as [|e1 [|e2 [|e3 h']]]; try discriminate.
  { destruct e1 as [|t r1]; [discriminate|]. destruct r1 as [[|]| | |]; discriminate. }
  { destruct e1 as [|t r1]; [discriminate|]. destruct r1 as [[|]| | |]; try discriminate.
    destruct e2 as [t' c2|]; [|discriminate]. destruct c2; discriminate. }
  destruct e1 as [|t r1]; [discriminate|]. destruct r1 as [[|]| | |]; try discriminate.
  destruct e2 as [t' c2|]; [|discriminate]. destruct c2 as [k| | | |]; try discriminate.
  destruct e3 as [|u r3]; [discriminate|]. destruct r3; try discriminate.
  apply andb_true_iff in H as (H & H3). apply andb_true_iff in H as (H1 & H2).
  apply Nat.eqb_eq in H1. subst t'.
  destruct (pend (rev h') u None) as [[| |k' v| |]|] eqn:Ep; try discriminate.
  apply andb_true_iff in H3 as (H3 & H4). apply negb_true_iff in H3, H4.
  assert (k' = k) by (symmetry; now apply ltb_total). subst k'.
  cbn [rev] in Er. rewrite <- !app_assoc in Er. cbn [app] in Er.
  assert (Hk : ~ reads_keep h).
  { intros Hr. apply (Hr (rev h' ++ [ERes u RSuccess]) [] [] t k).
    - rewrite <- Er, <- !app_assoc. reflexivity.
    - intros c [].
    - exists (rev h'), [], u, RSuccess, (CInsert k v). split; [auto|]. split; [auto|]. eauto.
    - rewrite app_nil_r. apply not_del_never. rewrite <- Er in H2. rewrite forallb_app in H2 |- *.
      apply andb_true_iff in H2 as (-> & H2). reflexivity. }
  split; auto. intros Hl. apply Hk. now apply linearizable_reads_keep.
Qed.

Lemma lost_witness N (r : option (@ocfg P N)) :
  option_map (fun s => lost_end (ohistory s)) r = Some true ->
  exists s, r = Some s /\ ~ linearizable amap_empty (ohistory s) /\ ~ reads_keep (ohistory s).
Proof.
  destruct r as [s|]; [|discriminate]. intros [= E]. exists s. split; auto.
  destruct (lost_end_ok _ E). auto.
Qed.

(** Thread [t] is about to look at a page that every call which was in progress when it was
    retired has left behind. *)
Definition dangling {N : MLOps P} (s : ocfg) (t : tid) : bool :=
  match oth s t with
  | ORd c a => match och s a, ogb s a with Some _, Some [] => true | _, _ => false end
  | _ => false
  end.
Lemma dangling_witness N (r : option (@ocfg P N)) t : option_map (fun s => dangling s t) r = Some true ->
  exists s c a, r = Some s /\ oth s t = ORd c a /\ och s a <> None /\ ogb s a = Some [] /\
    ostep false t s = XUndef.
Proof.
  destruct r as [s|]; [|discriminate]. intros [= E]. unfold dangling in E.
  destruct (oth s t) as [| |c a| | | | | | | | | | | | | | | | | | |] eqn:E1; try discriminate.
  destruct (och s a) eqn:E2; [|discriminate]. destruct (ogb s a) as [[|]|] eqn:E3; try discriminate.
  exists s, c, a. split; [auto|]. split; [auto|]. split; [congruence|]. split; [auto|].
  unfold ostep. rewrite E1. unfold opage. now rewrite E3.
Qed.

(** ** A lost key

    Thread 0 fills the root leaf with 10, 20, ..., 10n.  Thread 1 wants to insert 10n+5 and
    stops after it has found this leaf.  Thread 2 goes on inserting, which splits the leaf,
    and then deletes keys of both halves.  Thread 3 deletes a key and merges the two leaves on
    the way; it stops in Merge after the left leaf has been unlocked and before the right leaf
    is marked as removed (oml/node_fixlen.hpp:1031-1032, oml/node_varlen.hpp likewise).
    Thread 1 goes on: its leaf, which has all the keys again, takes the record, and the Insert
    returns.  Thread 4 then reads 10n+5: the parent still leads it to the right leaf. *)
Definition lost_prog (mk : nat -> K) (one : V) (n dr dl : nat) (t : tid) : list call :=
  match t with
  | 0 => map (fun i => CInsert (mk (10 * i)) one) (seq 1 n)
  | 1 => [CInsert (mk (10 * n + 5)) one]
  | 2 => map (fun i => CInsert (mk (10 * i)) one) (seq (S n) 2) ++
         map (fun i => CDelete (mk (10 * i))) (rev (seq (n + 3 - dr) dr)) ++
         map (fun i => CDelete (mk (10 * i))) (seq 1 dl)
  | 3 => [CDelete (mk (10 * S dl))]
  | 4 => [CRead (mk (10 * n + 5))]
  | _ => []
  end.
Definition lost_sched (n x : nat) : list tid :=
  repeat 0 (20 * n) ++ repeat 1 4 ++ repeat 2 (40 * n) ++ repeat 3 x ++ repeat 1 2 ++ repeat 4 5.

(** ** Use of a released root

    Thread 0 inserts 10, ..., 10n, which makes an inner root with two leaves, and deletes them
    until the leaves have been merged, so that the root has one child.  Thread 1 makes a
    call and comes to TryShrinkTree, which hands the root to the garbage collector before
    root_ is changed (oml/b_tree.hpp:751-753).  Thread 2 starts a Read and loads root_.  Thread
    1 finishes its call; now no call that was in progress when the root was retired is left, and
    the page may be released.  Thread 2 goes on and uses it. *)
Definition root_prog (mk : nat -> K) (one : V) (n dr m : nat) (t : tid) : list call :=
  match t with
  | 0 => map (fun i => CInsert (mk (10 * i)) one) (seq 1 n) ++
         map (fun i => CDelete (mk (10 * i))) (rev (seq (n + 1 - dr) dr) ++ seq 1 m)
  | 1 => [CDelete (mk (10 * S m))]
  | 2 => [CRead (mk (10 * S (S m)))]
  | _ => []
  end.
Definition root_sched (n x : nat) : list tid :=
  repeat 0 (40 * n) ++ repeat 1 x ++ repeat 2 2 ++ repeat 1 10.

(** ** Use of a released leaf through a merged inner node

    Thread 0 builds a tree of three levels and deletes until the first inner node has two
    leaves.  Thread 1 merges this inner node with its right sibling and stops before the
    sibling is marked as removed.  Thread 2 makes a call that merges the last leaf of the left
    node with the leaf that came from the sibling, retires that leaf, and returns.  Thread 3 starts
    a Read, which the root still leads to the sibling and from there to the retired leaf.
    Thread 1 finishes its call, so that the leaf may be released.  Thread 3 uses it. *)
Definition leaf_prog (mk : nat -> K) (one : V) (t : tid) : list call :=
  match t with
  | 0 => map (fun i => CInsert (mk (10 * i)) one) (seq 1 37) ++
         map (fun i => CDelete (mk (10 * i))) [8; 9; 10; 11; 12; 2; 3; 4]
  | 1 => [CDelete (mk 50)]
  | 2 => [CDelete (mk 130)]
  | 3 => [CRead (mk 150)]
  | _ => []
  end.
Definition leaf_sched : list tid :=
  repeat 0 (20 * 50) ++ repeat 1 9 ++ repeat 2 40 ++ repeat 3 4 ++ repeat 1 40.

End Generic.

Notation fix_orun P := (@orun P fix_ml_ops).
Notation var_orun P := (@orun P var_ml_ops).

(** C39.  An Insert has returned, nobody deletes its key, and a Read that starts later
    does not find it. *)
Theorem C39_lost_key_fixlen_refuted : exists prog sched s,
  fix_orun tiny false (oinit prog) sched = Some s /\
  ~ linearizable amap_empty (ohistory s) /\ ~ reads_keep (ohistory s).
Proof.
  exists (@lost_prog tiny (fun x => x) 1 7 2 2), (lost_sched 7 10).
  apply (@lost_witness tiny tiny_ord). vm_compute. reflexivity.
Qed.
Theorem C39_lost_key_varlen_refuted : exists prog sched s,
  var_orun mvtiny false (oinit prog) sched = Some s /\
  ~ linearizable amap_empty (ohistory s) /\ ~ reads_keep (ohistory s).
Proof.
  exists (@lost_prog mvtiny (fun x => x) 1 5 2 1), (lost_sched 5 10).
  apply (@lost_witness mvtiny mvtiny_ord). vm_compute. reflexivity.
Qed.
Theorem C39_lost_key_default_page_refuted : exists prog sched s,
  fix_orun dflt false (oinit prog) sched = Some s /\
  ~ linearizable amap_empty (ohistory s) /\ ~ reads_keep (ohistory s).
Proof.
  exists (@lost_prog dflt (fun x => x) 1 61 2 28), (lost_sched 61 10).
  apply (@lost_witness dflt dflt_ord). vm_compute. reflexivity.
Qed.

(** C40.  A released root is used. *)
Theorem C40_released_root_fixlen_refuted : exists prog sched s t c a,
  fix_orun tiny false (oinit prog) sched = Some s /\ oth s t = ORd c a /\
  och s a <> None /\ ogb s a = Some [] /\ ostep false t s = XUndef.
Proof.
  exists (@root_prog tiny (fun x => x) 1 9 2 3), (root_sched 9 4).
  assert (E : option_map (fun s => dangling s 2) (fix_orun tiny false (oinit (@root_prog tiny (fun x => x) 1 9 2 3)) (root_sched 9 4)) = Some true)
    by (vm_compute; reflexivity).
  apply dangling_witness in E as (s & c & a & E). exists s, 2, c, a. exact E.
Qed.
Theorem C40_released_root_varlen_refuted : exists prog sched s t c a,
  var_orun mvtiny false (oinit prog) sched = Some s /\ oth s t = ORd c a /\
  och s a <> None /\ ogb s a = Some [] /\ ostep false t s = XUndef.
Proof.
  exists (@root_prog mvtiny (fun x => x) 1 7 0 3), (root_sched 7 4).
  assert (E : option_map (fun s => dangling s 2) (var_orun mvtiny false (oinit (@root_prog mvtiny (fun x => x) 1 7 0 3)) (root_sched 7 4)) = Some true)
    by (vm_compute; reflexivity).
  apply dangling_witness in E as (s & c & a & E). exists s, 2, c, a. exact E.
Qed.
Theorem C40_released_root_default_page_refuted : exists prog sched s t c a,
  fix_orun dflt false (oinit prog) sched = Some s /\ oth s t = ORd c a /\
  och s a <> None /\ ogb s a = Some [] /\ ostep false t s = XUndef.
Proof.
  exists (@root_prog dflt (fun x => x) 1 63 0 29), (root_sched 63 4).
  assert (E : option_map (fun s => dangling s 2) (fix_orun dflt false (oinit (@root_prog dflt (fun x => x) 1 63 0 29)) (root_sched 63 4)) = Some true)
    by (vm_compute; reflexivity).
  apply dangling_witness in E as (s & c & a & E). exists s, 2, c, a. exact E.
Qed.

(** C40.  A released leaf is used; this has nothing to do with the root. *)
Theorem C40_released_leaf_fixlen_refuted : exists prog sched s t c a,
  fix_orun tiny false (oinit prog) sched = Some s /\ oth s t = ORd c a /\
  och s a <> None /\ ogb s a = Some [] /\ ostep false t s = XUndef.
Proof.
  exists (@leaf_prog tiny (fun x => x) 1), leaf_sched.
  assert (E : option_map (fun s => dangling s 3) (fix_orun tiny false (oinit (@leaf_prog tiny (fun x => x) 1)) leaf_sched) = Some true)
    by (vm_compute; reflexivity).
  apply dangling_witness in E as (s & c & a & E). exists s, 3, c, a. exact E.
Qed.

(** The same programs and schedules do no harm in the repaired tree. *)
Example repaired_same_schedules :
  option_map (fun s => (lost_end (ohistory s), length (ohistory s)))
    (fix_orun tiny true (oinit (@lost_prog tiny (fun x => x) 1 7 2 2)) (lost_sched 7 10)) = Some (false, 30) /\
  option_map (fun s => length (ohistory s))
    (fix_orun tiny true (oinit (@root_prog tiny (fun x => x) 1 9 2 3)) (root_sched 9 4)) = Some 31 /\
  option_map (fun s => length (ohistory s))
    (fix_orun tiny true (oinit (@leaf_prog tiny (fun x => x) 1)) leaf_sched) = Some 95.
Proof. vm_compute. repeat split; reflexivity. Qed.

Print Assumptions C39_lost_key_fixlen_refuted.
Print Assumptions C39_lost_key_varlen_refuted.
Print Assumptions C39_lost_key_default_page_refuted.
Print Assumptions C40_released_root_fixlen_refuted.
Print Assumptions C40_released_root_varlen_refuted.
Print Assumptions C40_released_root_default_page_refuted.
Print Assumptions C40_released_leaf_fixlen_refuted.
