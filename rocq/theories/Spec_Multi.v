(** Vocabulary for multilevel priors (C99). *)

From Coq Require Import Reals List Arith.
From Verif Require Import Base Model_Prior Spec_Prior Model_Multi.
Import ListNotations.
Open Scope R_scope.

(** The distribution that the user means, when the parameters are [th]. *)
Definition meant (th : vec) (c : form) : prior :=
  match c with
  | FGaussian mu var => Gaussian (value th mu) (value th var)
  | FGamma a b => Gamma (value th a) (value th b)
  | FInverseGamma a b => InverseGamma (value th a) (value th b)
  | FHalfLaplace b => HalfLaplace (value th b)
  end.

(** The model with these numbers in place of the parameters: its log prior is
    log p(theta | phi), with all levels. *)
Definition plain (s : mparams) : params := mk_params (mtheta s) (map (fun q => (meant (mtheta s) (mp_form (fst q)), snd q)) (mpriors s)) (mconstraints s).

(** The [k]-th parameter replaced. *)
Definition with_mtheta (s : mparams) (k : nat) (t : R) : mparams :=
  mk_mparams (tab (length (mtheta s)) (fun i => if Nat.eqb i k then t else vget (mtheta s) i)) (mpriors s) (mconstraints s).

(** [p] depends on parameter [k]. *)
Definition is_ref (k : nat) (a : arg) : bool := match a with Num _ => false | Ref i => Nat.eqb i k end.
Definition refers (k : nat) (c : form) : bool :=
  match c with
  | FGaussian a b | FGamma a b | FInverseGamma a b => (is_ref k a || is_ref k b)%bool
  | FHalfLaplace b => is_ref k b
  end.

(** The logarithm of the factor of the density that does not depend on the point. *)
Definition log_factor (gammaln : R -> R) (p : prior) : R :=
  match p with
  | Gaussian _ var => - (1 / 2) * ln (2 * PI * var)
  | Gamma a b | InverseGamma a b => a * ln b - gammaln a
  | HalfLaplace b => - ln b
  end.

(** The derivative of the log density at [x] in the parameter [k] on which the
    prior depends, and the part of it that is left when the factor is constant.
    The first parameter of [InverseGamma] is a number here. *)
Definition d_hyper (th : vec) (k : nat) (c : form) (x : R) : R :=
  match c with
  | FGaussian mu var =>
    let m := value th mu in let v := value th var in
    (if is_ref k mu then (x - m) / v else 0) + (if is_ref k var then (x - m) ^ 2 / (2 * v ^ 2) - 1 / (2 * v) else 0)
  | FInverseGamma a b => if is_ref k b then value th a / value th b - 1 / x else 0
  | FHalfLaplace b => if is_ref k b then x / value th b ^ 2 - 1 / value th b else 0
  | FGamma _ _ => 0
  end.
Definition d_hyper_fixed (th : vec) (k : nat) (c : form) (x : R) : R :=
  match c with
  | FGaussian mu var =>
    let m := value th mu in let v := value th var in
    (if is_ref k mu then (x - m) / v else 0) + (if is_ref k var then (x - m) ^ 2 / (2 * v ^ 2) else 0)
  | FInverseGamma a b => if is_ref k b then - (1 / x) else 0
  | FHalfLaplace b => if is_ref k b then x / value th b ^ 2 else 0
  | FGamma _ _ => 0
  end.

(** Priors on the level below [k]: they do not cover [k] itself, their
    parameters and points are admissible, and neither parameter of a Gamma prior
    nor the first of an inverse Gamma prior is [k]. *)
Definition below (s : mparams) (k : nat) : Prop :=
  forall p idx, In (p, idx) (mpriors s) -> refers k (mp_form p) = true ->
    ~ In k idx /\ valid (meant (mtheta s) (mp_form p)) /\ (forall i, In i idx -> in_domain (meant (mtheta s) (mp_form p)) (vget (mtheta s) i)) /\
    match mp_form p with FGamma _ _ => False | FInverseGamma a _ => is_ref k a = false | _ => True end.

(** The sum over all priors and the points they cover. *)
Definition over (s : mparams) (f : form -> R -> R) : R :=
  lsum (map (fun q => lsum (map (fun i => f (mp_form (fst q)) (vget (mtheta s) i)) (snd q))) (mpriors s)).
