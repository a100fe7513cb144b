(** Vocabulary for models with one more sample. *)

From Coq Require Import Reals List Arith Permutation.
From Verif Require Import Base NDArray Model_Util Model_Linalg Model_Interp Model_Kern Model_FK Model_Grid Model_Lik Spec_Lik Spec_GP Model_GP Spec_Pred Spec_Order.
Import ListNotations.
Open Scope R_scope.

(** The samples of [g'] are those of [g] and the value [y] of output [d] at
    [x], in any order. *)
Definition one_more (g g' : gp) (d : nat) (x : nat -> R) (y : R) : Prop :=
  forall e, Permutation (data_of g e ++ (if Nat.eqb e d then [(tab (mg_P (gp_data g)) x, y)] else [])) (data_of g' e).

(** The log density at [y] of the normal distribution with mean [mu] and
    variance [v]. *)
Definition normal_ln (mu v y : R) : R := - (1 / 2) * (ln (2 * PI * v) + (y - mu) ^ 2 / v).
