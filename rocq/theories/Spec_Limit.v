(** Independent specifications for the limit of fine grids. *)

From Coq Require Import Reals List Arith.
From Verif Require Import Base NDArray Model_Util Model_Kern Model_FK Spec_FK Spec_Lik Model_Grid Spec_GP Model_GP.
Import ListNotations.
Open Scope R_scope.

(** In every dimension some kernel looks at, [x] lies between two values that
    are each a coordinate of an input or, respectively, the bound [lo] or [hi]. *)
Definition between (f : fkernel) (data : multigp) (lo hi : grid_arg R) (x : nat -> R) : Prop :=
  let lens := map (@length R) (mg_Ys data) in
  forall ad d, group f ad <> [] -> In d ad -> exists u v,
    (coord (mg_P data) (mg_Xs data) lens d u \/ arg_at lo d = Some u) /\
    (coord (mg_P data) (mg_Xs data) lens d v \/ arg_at hi d = Some v) /\ u <= x d <= v.

(** At least [M] cells are asked for in every such dimension. *)
Definition at_least (f : fkernel) (M : nat) (m : grid_arg nat) (data : multigp) : Prop :=
  forall ad d, group f ad <> [] -> In d ad -> (M <= cells_for m (map (@length R) (mg_Ys data)) d)%nat.
