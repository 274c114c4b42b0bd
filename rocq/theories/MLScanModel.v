(** Scan, the statistics and the destructor of the multi-layer trees. *)
From Coq Require Import List Arith Bool Lia.
From Verif Require Import Params Mem Common Spec MLIface BaseIface TreeState MLModel IterModel WalkModel.
Import ListNotations.

Section MLScanModel.
Context {P : Params} {N : MLOps P} (oml : bool).
Notation MM := (M mn).
#[local] Existing Instance base_of_ml.

(** The leaf a scan starts in: pml/b_tree.hpp:148-156 (left latched), oml/b_tree.hpp:156-157. *)
Definition ml_scan_leaf (fuel : nat) (lo : bound) : MM addr :=
  match lo with
  | Some (key, _) =>
      if oml then r <- getroot ;; oml_search_read fuel r key
      else r <- pml_root_read ;; pml_down_read fuel r key
  | None =>
      if oml then r <- getroot ;; leftmost false fuel r
      else r <- pml_root_read ;; pml_down_left fuel r
  end.

(** Scan, then a client loop that stops after [limit] records and destroys the iterator:
    pml/b_tree.hpp:141-161, oml/b_tree.hpp:150-161. *)
Definition ml_scan (fuel : nat) (lo hi : bound) (limit : nat) : MM (list (K * V)) :=
  a <- ml_scan_leaf fuel lo ;;
  scan_from oml fuel a lo hi limit.

(** The destructor (pml/b_tree.hpp:101-104, oml/b_tree.hpp:109-112). *)
Definition ml_destroy (fuel : nat) : MM unit := destroy fuel.

(** CollectStatisticalData: pml/b_tree.hpp:338-350 holds the tree latch, oml/b_tree.hpp:354-364 does not. *)
Definition ml_statistics (fuel : nat) : MM (list stat) :=
  if oml then statistics fuel
  else tlock LS ;;; sd <- statistics fuel ;; tunlock LS ;;; mret sd.

End MLScanModel.
