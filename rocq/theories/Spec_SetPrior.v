(** Vocabulary for priors set on parameters. *)

From Coq Require Import Reals List Arith.
From Verif Require Import Base Model_Prior Model_SetPrior.
Import ListNotations.
Open Scope R_scope.

(** Index [i] of the model has the property [k]. *)
Definition has (d : index_ops) (i k : nat) : Prop := exists idx, In (k, idx) d /\ In i idx.
Definition in_leaf (l : leaf) (i : nat) : Prop := (lf_off l <= i < lf_off l + lf_size l)%nat.

(** The states a model can get into. *)
Inductive history (dom : nat -> domain) : pstate -> Prop :=
| h_new : forall v, history dom (mk_ps v [] [])
| h_step : forall s o, history dom s -> history dom (pstep dom s o).

(** The set a domain stands for. *)
Definition in_domain (d : domain) (x : R) : Prop :=
  match d with DPositive => 0 < x | DNegative => x < 0 | _ => True end.
