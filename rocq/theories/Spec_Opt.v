(** Independent specifications for the optimiser loop and the iterative
    solver. *)

From Coq Require Import Reals List Arith ZArith.
From Verif Require Import Base Model_Opt.
Import ListNotations.
Open Scope R_scope.

(** Largest absolute entry of a vector. *)
Definition is_max_abs (v : vec) (m : R) : Prop := (forall x, In x v -> Rabs x <= m) /\ exists x, In x v /\ Rabs x = m.

(** [m] is the largest of [norm 1 .. norm i]. *)
Definition is_peak (norm : nat -> R) (i : nat) (m : R) : Prop :=
  (forall j, (1 <= j <= i)%nat -> norm j <= m) /\ exists j, (1 <= j <= i)%nat /\ norm j = m.

(** Iteration [i] is a drop: its norm is below [ratio] times the largest so
    far. *)
Definition drop (ratio : R) (norm : nat -> R) (i : nat) : Prop := exists m, is_peak norm i m /\ norm i < ratio * m.

(** [n] of the iterations [1 .. i] are drops. *)
Inductive drops (ratio : R) (norm : nat -> R) : nat -> nat -> Prop :=
| drops_0 : drops ratio norm 0 0
| drops_yes i n : drop ratio norm (S i) -> drops ratio norm i n -> drops ratio norm (S i) (S n)
| drops_no i n : ~ drop ratio norm (S i) -> drops ratio norm i n -> drops ratio norm (S i) n.

(** The optimiser is to stop after iteration [i]. *)
Definition stop (s : ada) (norm : nat -> R) (i : nat) : Prop :=
  (max_it s <= Z.of_nat i)%Z \/ exists n, drops (min_grad_ratio s) norm i n /\ (permitted_drops s <= Z.of_nat n)%Z.

(** [k] iterations with a call of the callback after each. *)
Definition ada_trace (k : nat) : list ada_event := concat (map (fun i => [Iterate i; Callback]) (seq 1 k)).

(** Euclidean distance of [F x] from [y]. *)
Definition gap (n : nat) (F : nat -> nat -> R) (y x : vec) : R :=
  sqrt (Rsum n (fun i => (vget y i - Rsum n (fun j => F i j * vget x j)) ^ 2)).

(** The solver's vectors have [n] entries. *)
Definition sized (n : nat) (t : krylov) : Prop :=
  Forall (fun x => length x = n) (k_iterates t) /\ forall x succ, k_result t = Ok (x, succ) -> length x = n.

(** After the [c]-th iterate the solver is to be interrupted. *)
Definition interrupts (n : nat) (F : nat -> nat -> R) (y : vec) (tol : R) (t : krylov) (c : nat) (x : vec) : Prop :=
  nth_error (k_iterates t) (c - 1) = Some x /\ (0 < c)%nat /\ (exists q, c = 100 * q)%nat /\ gap n F y x < tol.

(** Euclidean distance of [x] from [z]. *)
Definition dist2 (n : nat) (x z : vec) : R := sqrt (Rsum n (fun i => (vget x i - vget z i) ^ 2)).

(** The operator multiplies by [F]. *)
Definition acts (n : nat) (F : nat -> nat -> R) (op : Model_Linalg.linop) : Prop :=
  Model_Linalg.lo_shape op = (n, n) /\ forall x, length x = n -> length (Model_Linalg.lo_matvec op x) = n /\
    forall i, (i < n)%nat -> vget (Model_Linalg.lo_matvec op x) i = Rsum n (fun j => F i j * vget x j).
