(** Vocabulary for predictions far from the data. *)

From Coq Require Import Reals List Arith.
From Verif Require Import Base NDArray Model_Util Model_Linalg Model_Kern Model_FK Spec_Kern Spec_FK Model_Grid Model_Lik Spec_Lik Spec_GP Model_GP Spec_Pred.
Import ListNotations.
Open Scope R_scope.

(** A coordinate at the upper end of an axis of equispaced points [v], or at
    least one spacing beyond it; likewise for the lower end. *)
Definition above (v : vec) (c : R) : Prop := c = vget v (length v - 1) \/ vget v (length v - 1) + (vget v 1 - vget v 0) <= c.
Definition below (v : vec) (c : R) : Prop := c = vget v 0 \/ c <= vget v 0 - (vget v 1 - vget v 0).

(** Two points no axis of the grids of [g] tells apart: in each coordinate they
    agree or are past the same end. *)
Definition indistinct (g : gp) (x y : nat -> R) : Prop :=
  forall ad p, group (gp_f g) ad <> [] -> (p < length ad)%nat ->
    let v := nth p (ag_axes (grid_at (gp_grids g) ad)) [] in let c := x (nth p ad 0%nat) in let c' := y (nth p ad 0%nat) in
    c = c' \/ (above v c /\ above v c') \/ (below v c /\ below v c').

(** Kernels whose values tend to zero. *)
Fixpoint fades (k : kern) : Prop :=
  match k with RBF _ | Matern32 _ => True | Scaled k _ => fades k | _ => False end.
