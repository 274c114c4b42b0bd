(** State and outcomes of the sequential tree models.

    A state is a heap of nodes, the root pointer (root_), the next unused address, the
    latches the running thread holds, and the pages handed to the garbage collector.

    - Page allocation (GetNodePage, psl/b_tree.hpp:463-469) always returns an address that
      was never used before.  Reuse of collected pages is thereby not modelled; the proofs
      show that a page given to the collector is no longer reachable from the root.
    - [free_garbage] models the collector running between two operations: every page
      handed to it disappears from the heap, so that a later access would be [Undef].
    - Latches are those of one thread: an acquisition that conflicts with a latch the
      same thread already holds can never succeed, which is the outcome [Blocked]; a
      release of a latch that is not held is [Undef].
    - [NoFuel] marks a loop that did not terminate within the given fuel. *)
From Coq Require Import List Arith Bool Lia.
From Verif Require Import Params.
Import ListNotations.

Inductive lmode := LS | LSIX | LX.

Definition lmode_eqb (a b : lmode) : bool :=
  match a, b with LS, LS | LSIX, LSIX | LX, LX => true | _, _ => false end.

Section TreeState.
Context {ND : Type}.

Record st := St {
  hp : addr -> option ND;
  rt : addr;
  fr : addr;
  lk : list (addr * lmode);
  gb : list addr;
}.

Inductive out (A : Type) :=
| Ok (a : A) (s : st)
| Undef
| NoFuel
| Blocked.
Arguments Ok {A} a s.
Arguments Undef {A}.
Arguments NoFuel {A}.
Arguments Blocked {A}.

Definition M (A : Type) := st -> out A.

Definition mret {A} (a : A) : M A := fun s => Ok a s.
Definition mbind {A B} (m : M A) (f : A -> M B) : M B :=
  fun s => match m s with
           | Ok a s' => f a s'
           | Undef => Undef
           | NoFuel => NoFuel
           | Blocked => Blocked
           end.
Definition mundef {A} : M A := fun _ => Undef.
Definition mnofuel {A} : M A := fun _ => NoFuel.

(** A node function that may have undefined behaviour. *)
Definition mlift {A} (o : option A) : M A :=
  match o with Some a => mret a | None => mundef end.

Definition upd (h : addr -> option ND) (a : addr) (o : option ND) : addr -> option ND :=
  fun x => if Nat.eqb x a then o else h x.

Definition getn (a : addr) : M ND :=
  fun s => match hp s a with Some n => Ok n s | None => Undef end.
Definition setn (a : addr) (n : ND) : M unit :=
  fun s => match hp s a with
           | Some _ => Ok tt (St (upd (hp s) a (Some n)) (rt s) (fr s) (lk s) (gb s))
           | None => Undef
           end.
Definition alloc (n : ND) : M addr :=
  fun s => Ok (fr s) (St (upd (hp s) (fr s) (Some n)) (rt s) (S (fr s)) (lk s) (gb s)).
Definition getroot : M addr := fun s => Ok (rt s) s.
Definition setroot (a : addr) : M unit :=
  fun s => Ok tt (St (hp s) a (fr s) (lk s) (gb s)).
Definition add_garbage (a : addr) : M unit :=
  fun s => Ok tt (St (hp s) (rt s) (fr s) (lk s) (a :: gb s)).

(** ::dbgroup::memory::Release<Page>(node): the page disappears; releasing it a second
    time is undefined. *)
Definition release (a : addr) : M unit :=
  fun s => match hp s a with
           | Some _ => Ok tt (St (upd (hp s) a None) (rt s) (fr s) (lk s) (gb s))
           | None => Undef
           end.

(** Latches. *)
Definition holds (l : list (addr * lmode)) (a : addr) (m : lmode) : bool :=
  existsb (fun p => Nat.eqb (fst p) a && lmode_eqb (snd p) m) l.
Definition may_lock (l : list (addr * lmode)) (a : addr) (m : lmode) : bool :=
  match m with
  | LS => negb (holds l a LX)
  | LSIX => negb (holds l a LSIX || holds l a LX)
  | LX => negb (holds l a LS || holds l a LSIX || holds l a LX)
  end.
Fixpoint unhold (l : list (addr * lmode)) (a : addr) (m : lmode) : list (addr * lmode) :=
  match l with
  | [] => []
  | p :: l' => if Nat.eqb (fst p) a && lmode_eqb (snd p) m then l' else p :: unhold l' a m
  end.

Definition lock (m : lmode) (a : addr) : M unit :=
  fun s => match hp s a with
           | None => Undef
           | Some _ =>
               if may_lock (lk s) a m
               then Ok tt (St (hp s) (rt s) (fr s) ((a, m) :: lk s) (gb s))
               else Blocked
           end.
Definition unlock (m : lmode) (a : addr) : M unit :=
  fun s => match hp s a with
           | None => Undef
           | Some _ =>
               if holds (lk s) a m
               then Ok tt (St (hp s) (rt s) (fr s) (unhold (lk s) a m) (gb s))
               else Undef
           end.
(** UpgradeToX: from SIX to X once all shared latches are gone. *)
Definition upgradeX (a : addr) : M unit :=
  fun s => match hp s a with
           | None => Undef
           | Some _ =>
               if holds (lk s) a LSIX then
                 if holds (lk s) a LS then Blocked
                 else Ok tt (St (hp s) (rt s) (fr s) ((a, LX) :: unhold (lk s) a LSIX) (gb s))
               else Undef
           end.
(** DowngradeToSIX. *)
Definition downgradeSIX (a : addr) : M unit :=
  fun s => match hp s a with
           | None => Undef
           | Some _ =>
               if holds (lk s) a LX
               then Ok tt (St (hp s) (rt s) (fr s) ((a, LSIX) :: unhold (lk s) a LX) (gb s))
               else Undef
           end.

(** The garbage collector frees what it was given. *)
Definition free_garbage (s : st) : st :=
  St (fun a => if existsb (Nat.eqb a) (gb s) then None else hp s a)
     (rt s) (fr s) (lk s) [].

End TreeState.

Arguments st : clear implicits.
Arguments out : clear implicits.
Arguments M : clear implicits.
Arguments Ok {ND A} a s.
Arguments Undef {ND A}.
Arguments NoFuel {ND A}.
Arguments Blocked {ND A}.

Notation "x <- m ;; k" := (mbind m (fun x => k))
  (at level 61, m at next level, right associativity, only parsing).
Notation "'( x , y ) <- m ;; k" := (mbind m (fun p => match p with (x, y) => k end))
  (at level 61, m at next level, right associativity, only parsing).
Notation "m ;;; k" := (mbind m (fun _ => k)) (at level 61, right associativity, only parsing).
