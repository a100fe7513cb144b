(** Independent specifications for priors and the objective. *)

From Coq Require Import Reals List Arith.
From Coquelicot Require Import Coquelicot.
From Verif Require Import Base Model_Prior.
Import ListNotations.
Open Scope R_scope.

(** Admissible parameters of a prior and points of its domain. *)
Definition valid (p : prior) : Prop :=
  match p with
  | Gaussian _ var => 0 < var
  | Gamma a b | InverseGamma a b => 0 < a /\ 0 < b
  | HalfLaplace b => 0 < b
  end.
Definition in_domain (p : prior) (x : R) : Prop := match p with Gaussian _ _ => True | _ => 0 < x end.

(** The Gamma function, by its integral. *)
Definition is_Gamma (G : R -> R) : Prop :=
  forall a, 0 < a -> is_RInt_gen (fun t => Rpower t (a - 1) * exp (- t)) (at_right 0) (Rbar_locally p_infty) (G a).

(** The densities, as in the textbooks; [G] is the Gamma function. *)
Definition density (G : R -> R) (p : prior) (x : R) : R :=
  match p with
  | Gaussian mu var => exp (- (x - mu) ^ 2 / (2 * var)) / sqrt (2 * PI * var)
  | Gamma a b => Rpower b a / G a * Rpower x (a - 1) * exp (- b * x)
  | InverseGamma a b => Rpower b a / G a * Rpower x (- a - 1) * exp (- b / x)
  | HalfLaplace b => exp (- x / b) / b
  end.

(** ** The posterior *)

Definition has_prior (s : params) (p : prior) (i : nat) : Prop := exists idx, In (p, idx) (priors s) /\ In i idx.
Definition constrained (s : params) (c : constr) (i : nat) : Prop := exists idx, In (c, idx) (constraints s) /\ In i idx.

(** paramz keeps each index under at most one prior and at most one
    constraint. *)
Definition tidy {A} (n : nat) (l : list (A * list nat)) : Prop := NoDup (flat_map snd l) /\ forall i, In i (flat_map snd l) -> (i < n)%nat.

(** The parameters with the [k]-th replaced. *)
Definition with_theta (s : params) (k : nat) (t : R) : params :=
  mk_params (tab (length (theta s)) (fun i => if Nat.eqb i k then t else vget (theta s) i)) (priors s) (constraints s).
