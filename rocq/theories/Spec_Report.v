(** Vocabulary for the report of the optimisation benchmark. *)

From Coq Require Import Reals List Arith.
From Verif Require Import Base Model_Linalg Model_Kern Model_FK Model_Lik.
Import ListNotations.
Open Scope R_scope.

(** Gradients of a model with [Q] kernels, [D] outputs, where kernel [q] has
    rank [rk q] and [np q] parameters. *)
Record grads_shape (Q D : nat) (rk np : nat -> nat) (g : gradients) : Prop := {
  gs_kernels : length (g_kernels g) = Q /\ forall q, (q < Q)%nat -> length (nth q (g_kernels g) []) = np q;
  gs_vecs : length (g_vecs g) = Q /\ forall q, (q < Q)%nat -> is_mx (rk q) D (nth q (g_vecs g) []);
  gs_diags : length (g_diags g) = Q /\ forall q, (q < Q)%nat -> length (nth q (g_diags g) []) = D;
  gs_noise : length (g_noise g) = D }.

(** Number of kernel parameters. *)
Definition n_kparams (Q : nat) (np : nat -> nat) : nat := nsum (map np (seq 0 Q)).

(** A sum over all partial derivatives of the model, [h] of the exact and the
    approximate one. *)
Definition over_partials (Q D : nat) (rk np : nat -> nat) (h : R -> R -> R) (e a : gradients) : R :=
  Rsum Q (fun q => Rsum (np q) (fun j => h (nth j (nth q (g_kernels e) []) 0) (nth j (nth q (g_kernels a) []) 0))) +
  Rsum Q (fun q => Rsum (rk q) (fun r => Rsum D (fun d => h (mget (nth q (g_vecs e) []) r d) (mget (nth q (g_vecs a) []) r d)))) +
  Rsum Q (fun q => Rsum D (fun d => h (vget (nth q (g_diags e) []) d) (vget (nth q (g_diags a) []) d))) +
  Rsum D (fun d => h (vget (g_noise e) d) (vget (g_noise a) d)).
