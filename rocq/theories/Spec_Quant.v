(** Vocabulary for quantiles and for the log prior as a density (C100). *)

From Coq Require Import Reals List Arith.
From Coquelicot Require Import Coquelicot.
From Verif Require Import Base Model_Prior Spec_Prior Spec_Bench.
Import ListNotations.
Open Scope R_scope.

(** What [scipy.stats.norm.ppf] documents: the inverse of the distribution
    function of the standard normal distribution. *)
Definition is_ppf (ppf : R -> R) : Prop :=
  forall p, 0 < p < 1 -> is_RInt_gen (normal_pdf 0 1) (Rbar_locally m_infty) (at_point (ppf p)) p.

(** The parameters with the prior of the [k]-th unset. *)
Definition unset (s : params) (k : nat) : params :=
  mk_params (theta s) (map (fun q => (fst q, filter (fun i => negb (Nat.eqb i k)) (snd q))) (priors s)) (constraints s).

(** paramz's positive parameters: softplus of a real number. *)
Definition softplus (u : R) : R := ln (1 + exp u).
