(** Vocabulary for continuity of predictions. *)

From Coq Require Import Reals List.
From Verif Require Import Base NDArray.
Open Scope R_scope.

(** The distance of two points: sum of the distances of their [P] coordinates. *)
Definition apart (P : nat) (x y : nat -> R) : R := Rsum P (fun p => Rabs (x p - y p)).
