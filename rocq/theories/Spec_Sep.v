(** Vocabulary for C91. *)

From Coq Require Import Reals List Arith.
From Verif Require Import Base NDArray Model_Util Model_Linalg Model_Interp Model_Kern Model_FK Spec_FK Model_Grid Model_Lik Spec_Lik Spec_GP Model_GP Spec_Pred Spec_Order Spec_Depend.
Import ListNotations.
Open Scope R_scope.

(** Models with the same parameters and the same data (points, and values as
    the model sees them) of the outputs in [S], over the same grid. *)
Record same_data (S : nat -> bool) (lo hi : grid_arg R) (m : grid_arg nat) (g g' : gp) : Prop := {
  sd_in : same_inputs S g g';
  sd_ys : forall a, (a < f_D (gp_f g))%nat -> S a = true -> nth a (mg_Ys (gp_data g')) [] = nth a (mg_Ys (gp_data g)) [];
  sd_w : within lo hi m g g';
  sd_w' : within lo hi m g' g
}.
