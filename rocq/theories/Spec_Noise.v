(** Vocabulary for models that differ in their noise only. *)

From Coq Require Import Reals List Arith.
From Verif Require Import Base NDArray Model_Util Model_Linalg Model_Kern Model_FK Spec_Kern Spec_FK Model_Grid Model_Lik Spec_Lik Spec_GP Model_GP Spec_Pred.
Import ListNotations.
Open Scope R_scope.

(** The functional kernel [f] with noise [v], one variance per output; nothing
    else changes. *)
Definition set_noise (f : fkernel) (v : vec) : fkernel :=
  mk_fk (f_D f) (f_kernels f) (f_vecs f) (f_diags f) v (f_nl f) (f_ns f) (f_P f) (f_active f) (f_lmc f) (f_slfm f) (f_indep f).

(** The model [g] with noise [v]. *)
Definition noisy (g : gp) (v : vec) : gp := with_params g (set_noise (gp_f g) v).
