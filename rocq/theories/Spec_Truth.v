(** Vocabulary for data drawn from the model it is fitted with. *)

From Coq Require Import Reals List Arith.
From Verif Require Import Base NDArray Model_Util Model_Linalg Model_Kern Model_FK Spec_Kern Spec_FK Model_Grid Spec_Grid Model_Lik Spec_Lik Spec_GP Model_GP Spec_Pred Spec_Best.
Import ListNotations.
Open Scope R_scope.

(** The random values [Y i], [i < n], have mean zero and covariances [K]. *)
Definition random_values {W : Type} (L : (W -> R) -> Prop) (E : (W -> R) -> R) (n : nat) (K : nat -> nat -> R) (Y : W -> nat -> R) : Prop :=
  (forall i, (i < n)%nat -> L (fun o => Y o i) /\ E (fun o => Y o i) = 0) /\
  forall i j, (i < n)%nat -> (j < n)%nat -> L (fun o => Y o i * Y o j) /\ cov_of E (fun o => Y o i) (fun o => Y o j) = K i j.

(** [X] is a variable with expected value [v]. *)
Definition has_mean {W : Type} (L : (W -> R) -> Prop) (E : (W -> R) -> R) (X : W -> R) (v : R) : Prop := L X /\ E X = v.

(** A model fitted on data that lie on its grid: its solver is exact, its
    noise positive, and its covariance has no surplus term. *)
Record on_grid_fit (g : gp) (k : gp_kernel) : Prop := {
  og_run : exists lo hi m solve bits n_it, gp_ready g lo hi m /\ fitted solve bits n_it g k /\ exact_solver (n_obs g) (K_fit g) solve;
  og_proper : proper (gp_f g);
  og_grid : on_grid (gp_f g) (mg_P (gp_data g)) (mg_Xs (gp_data g)) (map (@length R) (mg_Ys (gp_data g))) (gp_grids g);
  og_surplus : forall ad, group (gp_f g) ad <> [] -> ~ surplus (gp_f g) ad }.

(** Models [g o] with the same parameters [f] and the same inputs, whatever the
    outcome [o]; only the values differ. *)
Record same_inputs {W : Type} (f : fkernel) (P : nat) (Xs : list ndarr) (lens : list nat) (g : W -> gp) : Prop := {
  si_f : forall o, gp_f (g o) = f;
  si_P : forall o, mg_P (gp_data (g o)) = P;
  si_Xs : forall o, mg_Xs (gp_data (g o)) = Xs;
  si_lens : forall o, map (@length R) (mg_Ys (gp_data (g o))) = lens }.
