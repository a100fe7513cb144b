(** Vocabulary for the scores and splits of the benchmarks. *)

From Coq Require Import Reals List Arith.
From Verif Require Import Base.
Import ListNotations.
Open Scope R_scope.

(** Entry [i] of output [d]. *)
Definition ent (Y : list vec) (d i : nat) : R := nth i (nth d Y []) 0.
Definition n_ent (Y : list vec) (d : nat) : nat := length (nth d Y []).

(** The same outputs with the same numbers of entries. *)
Definition same_shape (Y Z : list vec) : Prop := length Y = length Z /\ forall d, n_ent Y d = n_ent Z d.

(** Average of [f d] over the outputs [d < D] that satisfy [p]. *)
Definition average (D : nat) (p : nat -> bool) (f : nat -> R) : R :=
  Rsum D (fun d => if p d then f d else 0) / Rsum D (fun d => if p d then 1 else 0).

(** The output has test points. *)
Definition tested (T : list vec) (d : nat) : bool := Nat.ltb 0 (n_ent T d).

Definition mean_of (Y : list vec) (d : nat) : R := Rsum (n_ent Y d) (ent Y d) / INR (n_ent Y d).
Definition sq_error (T P : list vec) (d : nat) : R := Rsum (n_ent T d) (fun i => (ent T d i - ent P d i) ^ 2).
Definition sq_spread (T C : list vec) (d : nat) : R := Rsum (n_ent T d) (fun i => (ent T d i - mean_of C d) ^ 2).

(** The density of the normal distribution. *)
Definition normal_pdf (m v y : R) : R := exp (- (y - m) ^ 2 / (2 * v)) / sqrt (2 * PI * v).

(** Test points with a predictive variance other than 0. *)
Definition counted (V : list vec) (d i : nat) : bool := if Req_EM_T (ent V d i) 0 then false else true.
Definition n_counted (V : list vec) (d : nat) : R := Rsum (n_ent V d) (fun i => if counted V d i then 1 else 0).
Definition some_counted (V : list vec) (d : nat) : bool := existsb (counted V d) (seq 0 (n_ent V d)).

(** Average negative log density over the counted points of output [d]. *)
Definition surprise (T P V : list vec) (d : nat) : R :=
  average (n_ent V d) (counted V d) (fun i => - ln (normal_pdf (ent P d i) (ent V d i) (ent T d i))).

(** Output [d] in other units. *)
Definition units (c b : nat -> R) (Y : list vec) : list vec :=
  map (fun d => map (fun y => c d * y + b d) (nth d Y [])) (seq 0 (length Y)).
