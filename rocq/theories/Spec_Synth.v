(** Independent specification of the synthetic benchmark data. *)

From Coq Require Import Reals List.
From Verif Require Import Base NDArray Model_Util Model_Linalg.
Import ListNotations.
Open Scope R_scope.

Definition sqdist (x y : nat -> R) : R := (x 0%nat - y 0%nat) ^ 2 + (x 1%nat - y 1%nat) ^ 2.

(** The covariance of the latent value of output [a] at [x] and of output [b]
    at [y]: two shared Gaussian processes mixed by [u0] and [u1], and one of
    its own for each output. *)
Definition synth_cov (u0 u1 : vec) (a : nat) (x : nat -> R) (b : nat) (y : nat -> R) : R :=
  vget u0 a * vget u0 b * exp (- (5 / 2) * sqdist x y)
  + vget u1 a * vget u1 b * exp (- (1 / 4) * sqdist x y)
  + (if Nat.eqb a b then exp (- sqdist x y) else 0).

(** Coordinate [p] of sample [i] of output [a] in an array of shape (5, N, 2). *)
Definition coord (N : nat) (X : ndarr) (a i p : nat) : R := vget (a_data X) (a * (N * 2) + (i * 2 + p)).
