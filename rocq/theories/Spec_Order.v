(** Vocabulary for models whose data differ in order or size. *)

From Coq Require Import Reals List Arith Permutation.
From Verif Require Import Base NDArray Model_Util Model_Linalg Model_Interp Model_Kern Model_FK Model_Grid Model_Lik Spec_Lik Spec_GP Model_GP Spec_Pred.
Import ListNotations.
Open Scope R_scope.

(** The samples of output [d]: [P] coordinates and the observed value. *)
Definition samples (P : nat) (Xs : list ndarr) (Ys : list vec) (d : nat) : list (vec * R) :=
  tab (length (nth d Ys [])) (fun i => (tab P (point P Xs d i), vget (nth d Ys []) i)).
Definition data_of (g : gp) : nat -> list (vec * R) :=
  samples (mg_P (gp_data g)) (mg_Xs (gp_data g)) (mg_Ys (gp_data g)).

(** Two models that differ only in their data, and have the same grids'
    arguments. *)
Record comparable (g g' : gp) : Prop := {
  cp_P : mg_P (gp_data g') = mg_P (gp_data g);
  cp_f : gp_f g' = gp_f g;
  cp_mode : gp_mode g' = gp_mode g;
  cp_norm : mg_norm (gp_data g') = mg_norm (gp_data g)
}.

(** The same samples in another order. *)
Definition same_samples (g g' : gp) : Prop := forall d, Permutation (data_of g d) (data_of g' d).

(** All samples of [g] and maybe others. *)
Definition more_samples (g g' : gp) : Prop := forall d, exists extra, Permutation (data_of g d ++ extra) (data_of g' d).

(** The inputs of [g'] lie between inputs of [g] or the bounds given for the
    grid, and the number of grid cells asked for is the same. *)
Definition within (lo hi : grid_arg R) (m : grid_arg nat) (g g' : gp) : Prop :=
  let P := mg_P (gp_data g) in
  let lens g := map (@length R) (mg_Ys (gp_data g)) in
  forall p, (p < P)%nat -> cells_for m (lens g') p = cells_for m (lens g) p /\
  forall x, coord P (mg_Xs (gp_data g')) (lens g') p x ->
    exists a b, (coord P (mg_Xs (gp_data g)) (lens g) p a \/ arg_at lo p = Some a) /\
                (coord P (mg_Xs (gp_data g)) (lens g) p b \/ arg_at hi p = Some b) /\ a <= x <= b.
