(** Vocabulary for random observations: what a prediction is a prediction of. *)

From Coq Require Import Reals List Arith.
From Verif Require Import Base NDArray Model_Util Model_Linalg Model_Kern Model_FK Spec_Kern Spec_FK Model_Grid Spec_Grid Model_Lik Spec_Lik Spec_GP Model_GP Spec_Pred.
Import ListNotations.
Open Scope R_scope.

(** Expected values on a space [W] of outcomes: [E] is defined for the
    variables in [L]; linear, positive, and 1 for the constant 1. *)
Record expected {W : Type} (L : (W -> R) -> Prop) (E : (W -> R) -> R) : Prop := {
  ex_ext : forall X Y, (forall o, X o = Y o) -> L X -> L Y /\ E X = E Y;
  ex_lin : forall a X b Y, L X -> L Y -> L (fun o => a * X o + b * Y o) /\ E (fun o => a * X o + b * Y o) = a * E X + b * E Y;
  ex_pos : forall X, L X -> (forall o, 0 <= X o) -> 0 <= E X;
  ex_one : L (fun _ => 1) /\ E (fun _ => 1) = 1 }.

(** The covariance of two variables. *)
Definition cov_of {W : Type} (E : (W -> R) -> R) (X Y : W -> R) : R := E (fun o => X o * Y o) - E X * E Y.

(** [Y i] is the random [i]-th (normalised) observation of the model [g], [T] a
    new noisy observation of output [d] at [x]; means zero, the covariances
    are those of the linear model of coregionalisation, and the noise of an
    observation is its own. *)
Record drawn {W : Type} (L : (W -> R) -> Prop) (E : (W -> R) -> R) (g : gp) (d : nat) (x : nat -> R)
    (Y : nat -> W -> R) (T : W -> R) : Prop := {
  dr_one : forall i, (i < n_obs g)%nat -> L (Y i) /\ E (Y i) = 0;
  dr_new : L T /\ E T = 0;
  dr_two : forall i j, (i < n_obs g)%nat -> (j < n_obs g)%nat -> L (fun o => Y i o * Y j o) /\
    let lens := map (@length R) (mg_Ys (gp_data g)) in
    let pt := obs (mg_P (gp_data g)) (mg_Xs (gp_data g)) lens in
    cov_of E (Y i) (Y j) = lmc_cov (gp_f g) (owner lens i) (pt i) (owner lens j) (pt j) +
      (if Nat.eqb i j then vget (f_noise (gp_f g)) (owner lens i) else 0);
  dr_cross : forall i, (i < n_obs g)%nat -> L (fun o => T o * Y i o) /\
    let lens := map (@length R) (mg_Ys (gp_data g)) in
    cov_of E T (Y i) = lmc_cov (gp_f g) d x (owner lens i) (obs (mg_P (gp_data g)) (mg_Xs (gp_data g)) lens i);
  dr_self : L (fun o => T o * T o) /\ cov_of E T T = lmc_cov (gp_f g) d x d x + vget (f_noise (gp_f g)) d }.

(** The error of the guess [b + sum of w i * Y i] for [T], squared. *)
Definition sq_err {W : Type} (n : nat) (Y : nat -> W -> R) (T : W -> R) (b : R) (w : nat -> R) : W -> R :=
  fun o => (T o - (b + Rsum n (fun i => w i * Y i o))) ^ 2.
