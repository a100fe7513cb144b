(** Vocabulary for the testing utilities. *)

From Coq Require Import Reals List Arith.
From Verif Require Import Base PSD.
Import ListNotations.
Open Scope R_scope.

(** Entries of the symmetric Toeplitz matrix with first row [top]. *)
Definition toep (top : vec) (i j : nat) : R := vget top (max i j - min i j).

(** [lam] is the smallest eigenvalue of the symmetric matrix [F] (the smallest
    value of its quadratic form on unit vectors, attained at an eigenvector). *)
Definition min_eig (n : nat) (F : nat -> nat -> R) (lam : R) : Prop :=
  (forall x, lam * nrm2 n x <= qf n F x) /\ exists v, eigpair n F lam v.

(** [u] can be drawn from [np.random.rand]. *)
Definition drawn (u : R) : Prop := 0 <= u < 1.
