(** Vocabulary for what predictions depend on. *)

From Coq Require Import Reals List Arith.
From Verif Require Import Base NDArray Model_Util Model_Linalg Model_Interp Model_Kern Model_FK Spec_FK Model_Grid Model_Lik Spec_Lik Spec_GP Model_GP Spec_Pred Spec_Order.
Import ListNotations.
Open Scope R_scope.

(** No kernel correlates outputs inside [S] with outputs outside. *)
Definition uncorrelated (f : fkernel) (S : nat -> bool) : Prop :=
  forall q a b, (q < f_Q f)%nat -> (a < f_D f)%nat -> (b < f_D f)%nat -> S a <> S b -> B_of f q a b = 0.

(** Models with the same parameters whose outputs in [S] were observed at the
    same points.  Their values, and the other outputs, may differ. *)
Record same_inputs (S : nat -> bool) (g g' : gp) : Prop := {
  si_P : mg_P (gp_data g') = mg_P (gp_data g);
  si_f : gp_f g' = gp_f g;
  si_mode : gp_mode g' = gp_mode g;
  si_len : forall a, (a < f_D (gp_f g))%nat -> S a = true -> length (nth a (mg_Ys (gp_data g')) []) = length (nth a (mg_Ys (gp_data g)) []);
  si_pts : forall a l c, (a < f_D (gp_f g))%nat -> S a = true -> (l < length (nth a (mg_Ys (gp_data g)) []))%nat -> (c < mg_P (gp_data g))%nat ->
    point (mg_P (gp_data g)) (mg_Xs (gp_data g')) a l c = point (mg_P (gp_data g)) (mg_Xs (gp_data g)) a l c
}.

(** The normalisation of output [a], if any. *)
Definition norm_of (g : gp) (a : nat) : option norm := option_map (fun l => nth a l (mk_norm 0 1)) (mg_norm (gp_data g)).
