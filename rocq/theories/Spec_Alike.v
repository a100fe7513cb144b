(** Vocabulary for models with the same covariance: outputs numbered, or
    kernels listed, in another way. *)

From Coq Require Import Reals List Arith Permutation.
From Verif Require Import Base NDArray Model_Util Model_Linalg Model_Interp Model_Kern Spec_Kern Model_FK Spec_FK Model_Grid Spec_Grid Model_Lik Spec_Lik Spec_GP Model_GP Spec_Pred Spec_Order.
Import ListNotations.
Open Scope R_scope.

(** The covariance of outputs [a] and [b] at distance [r], of all kernels on the
    dimensions [ad]. *)
Definition cov_on (f : fkernel) (ad : dims) (a b : nat) (r : R) : R :=
  lsum (map (fun q => B_of f q a b * k_doc (kern_of f q) r) (group f ad)).

(** Output [a] of the first is output [p a] of the second: the covariance
    functions are the same, in each set of dimensions. *)
Record same_cov (p : nat -> nat) (f f' : fkernel) : Prop := {
  sc_D : f_D f' = f_D f;
  sc_p : forall a, (a < f_D f)%nat -> (p a < f_D f)%nat;
  sc_inj : forall a b, (a < f_D f)%nat -> (b < f_D f)%nat -> p a = p b -> a = b;
  sc_dims : forall ad, (exists q, (q < f_Q f')%nat /\ dims_of f' q = Some ad) <-> (exists q, (q < f_Q f)%nat /\ dims_of f q = Some ad);
  sc_cov : forall ad a b r, (a < f_D f)%nat -> (b < f_D f)%nat -> 0 <= r -> cov_on f' ad (p a) (p b) r = cov_on f ad a b r;
  sc_noise : forall a, (a < f_D f)%nat -> vget (f_noise f') (p a) = vget (f_noise f) a
}.

(** The same data. *)
Record same_data (p : nat -> nat) (g g' : gp) : Prop := {
  sd_P : mg_P (gp_data g') = mg_P (gp_data g);
  sd_norm : match mg_norm (gp_data g), mg_norm (gp_data g') with
            | None, None => True
            | Some l, Some l' => forall a, (a < f_D (gp_f g))%nat -> nth (p a) l' (mk_norm 0 1) = nth a l (mk_norm 0 1)
            | _, _ => False
            end;
  sd_samples : forall a, (a < f_D (gp_f g))%nat -> Permutation (data_of g a) (data_of g' (p a))
}.
