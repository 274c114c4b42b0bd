(** Scan of the single-layer trees. *)
From Coq Require Import List Arith Bool Lia.
From Verif Require Import Params Mem Common Spec SLIface BaseIface TreeState SLModel IterModel WalkModel.
Import ListNotations.

Section SLScanModel.
Context {P : Params} {N : SLOps P} (osl : bool).
Notation MM := (M nd).
#[local] Existing Instance base_of_sl.

(** The leaf a scan starts in: psl/b_tree.hpp:159-167, osl/b_tree.hpp:156. *)
Definition sl_scan_leaf (fuel : nat) (lo : bound) : MM addr :=
  r <- getroot ;;
  match lo with
  | Some (key, _) => if osl then osl_search fuel r key else psl_search_read fuel r key
  | None =>
      if osl then leftmost false fuel r
      else a <- leftmost true fuel r ;; lock LS a ;;; mret a
  end.

(** Scan, then a client loop that stops after [limit] records and destroys the iterator:
    psl/b_tree.hpp:150-173, osl/b_tree.hpp:150-160. *)
Definition sl_scan (fuel : nat) (lo hi : bound) (limit : nat) : MM (list (K * V)) :=
  a <- sl_scan_leaf fuel lo ;;
  scan_from osl fuel a lo hi limit.

(** The destructor and the statistics of a single-layer tree. *)
Definition sl_destroy (fuel : nat) : MM unit := destroy fuel.
Definition sl_statistics (fuel : nat) : MM (list stat) := statistics fuel.

End SLScanModel.
