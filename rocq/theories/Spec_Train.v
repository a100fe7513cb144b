(** Vocabulary for predictions at points that were observed. *)

From Coq Require Import Reals List Arith.
From Verif Require Import Base NDArray Model_Util Model_Linalg Model_Interp Model_Kern Model_FK Model_Grid Spec_Grid Model_Lik Spec_Lik Spec_GP Model_GP Spec_Pred.
Import ListNotations.
Open Scope R_scope.

(** [s] lists [c] different observations, all of output [d] at the point [x]. *)
Definition observed (g : gp) (d : nat) (x : nat -> R) (c : nat) (s : nat -> nat) : Prop :=
  (forall i j, (i < c)%nat -> (j < c)%nat -> s i = s j -> i = j) /\
  forall i, (i < c)%nat -> (s i < n_obs g)%nat /\
    let lens := map (@length R) (mg_Ys (gp_data g)) in
    owner lens (s i) = d /\ forall p, (p < mg_P (gp_data g))%nat -> obs (mg_P (gp_data g)) (mg_Xs (gp_data g)) lens (s i) p = x p.

(** The standard deviations the outputs were divided by are positive. *)
Definition norm_pos (g : gp) : Prop := forall l nm, mg_norm (gp_data g) = Some l -> In nm l -> 0 < n_std nm.

(** What an output was divided by. *)
Definition unit_of (g : gp) (d : nat) : R :=
  match mg_norm (gp_data g) with Some l => n_std (nth d l (mk_norm 0 1)) | None => 1 end.
