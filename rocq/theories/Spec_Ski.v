(** Independent specifications for the accuracy of structured kernel
    interpolation. *)

From Coq Require Import Reals List Arith.
From Coquelicot Require Import Coquelicot.
From Verif Require Import Base NDArray Model_Util Model_Kern Spec_Kern Model_FK Spec_FK Spec_Lik Model_Grid Spec_Grid Spec_GP Model_GP Spec_Pred.
Import ListNotations.
Open Scope R_scope.

(** [phi] has a first and a second derivative, the latter with Lipschitz
    constant [B]. *)
Definition lip2 (phi : R -> R) (B : R) : Prop :=
  exists phi1 phi2 : R -> R, (forall t, is_derive phi t (phi1 t) /\ is_derive phi1 t (phi2 t)) /\
    forall t u, Rabs (phi2 t - phi2 u) <= B * Rabs (t - u).

(** So has the function [h] of the distance -- the kernel, say -- as a function
    of one of the [nd] coordinates of the difference of two points; [c] is the sum of the squares of the others. *)
Definition smooth_fn (h : R -> R) (nd : nat) (B : R) : Prop :=
  forall c, 0 <= c -> (nd = 1%nat -> c = 0) -> lip2 (fun t => h (sqrt (t ^ 2 + c))) B.
Definition smooth_kern (k : kern) (nd : nat) (B : R) : Prop := smooth_fn (k_doc k) nd B.

(** The point lies in the grid of the dimensions [ad], not in its outermost
    cells; the spacing of axis [p] of that grid. *)
Definition axis (g : gp) (ad : dims) (p : nat) : vec := nth p (ag_axes (grid_at (gp_grids g) ad)) [].
Definition inside (g : gp) (x : nat -> R) : Prop :=
  forall ad p, group (gp_f g) ad <> [] -> (p < length ad)%nat ->
    vget (axis g ad p) 1 <= x (nth p ad 0%nat) < vget (axis g ad p) (length (axis g ad p) - 2).
Definition spacing (g : gp) (ad : dims) (p : nat) : R := vget (axis g ad p) 1 - vget (axis g ad p) 0.

(** The bound on the error of the covariance of outputs [a] and [b], where
    [Bs q] is the Lipschitz constant for kernel [q]. *)
Definition ski_error (g : gp) (Bs : nat -> R) (a b : nat) : R :=
  Rsum (f_Q (gp_f g)) (fun q => Rabs (B_of (gp_f g) q a b) *
    (2 * Bs q * Rsum (length (qdims (gp_f g) q)) (fun p => spacing g (qdims (gp_f g) q) p ^ 3))).
