(** Independent specifications for the kernels. *)

From Coq Require Import Reals List Arith.
From Verif Require Import Base Model_Linalg Model_Kern.
Import ListNotations.
Open Scope R_scope.

(** The formulas of the class documentation. *)
Fixpoint k_doc (k : kern) (r : R) : R :=
  match k with
  | RBF g => exp (- g * r ^ 2 / 2)
  | Matern32 g => (1 + r * g * sqrt 3) * exp (- g * r * sqrt 3)
  | StdPeriodic g T => exp (- g / 2 * (sin (PI * r / T)) ^ 2)
  | KIdentity => if Req_EM_T r 0 then 1 else 0
  | Scaled k s => s * k_doc k r
  end.

(** Parameters in the order of [kernel_gradient]'s rows. *)
Fixpoint params (k : kern) : list R :=
  match k with
  | RBF g | Matern32 g => [g]
  | StdPeriodic g T => [g; T]
  | KIdentity => []
  | Scaled k s => params k ++ [s]
  end.

(** The kernel with parameter [j] replaced. *)
Fixpoint with_param (k : kern) (j : nat) (v : R) : kern :=
  match k with
  | RBF g => if Nat.eqb j 0 then RBF v else k
  | Matern32 g => if Nat.eqb j 0 then Matern32 v else k
  | StdPeriodic g T =>
      if Nat.eqb j 0 then StdPeriodic v T else if Nat.eqb j 1 then StdPeriodic g v else k
  | KIdentity => KIdentity
  | Scaled k' s =>
      if Nat.eqb j (length (params k')) then Scaled k' v else Scaled (with_param k' j v) s
  end.

(** Positive parameters (the Logexp constraint). *)
Definition positive (k : kern) : Prop := forall v, In v (params k) -> 0 < v.

(** No period below e^-200 (std_periodic.py:45). *)
Fixpoint no_tiny_period (k : kern) : Prop :=
  match k with
  | StdPeriodic _ T => -200 <= ln T
  | Scaled k _ => no_tiny_period k
  | _ => True
  end.

(** A StdPeriodic kernel, possibly scaled. *)
Fixpoint has_periodic (k : kern) : bool :=
  match k with StdPeriodic _ _ => true | Scaled k _ => has_periodic k | _ => false end.

(** Same class, any parameters. *)
Fixpoint same_class (k k' : kern) : Prop :=
  match k, k' with
  | RBF _, RBF _ | Matern32 _, Matern32 _ | StdPeriodic _ _, StdPeriodic _ _ | KIdentity, KIdentity => True
  | Scaled a _, Scaled b _ => same_class a b
  | _, _ => False
  end.

Definition unscaled (k : kern) : Prop := match k with Scaled _ _ => False | _ => True end.

(** GPy's kernel functions of the distance (GPy manual). *)
Definition gpy_at (k : gpy_kern) (r : R) : R :=
  match k with
  | GpyRBF v l => v * exp (- (1 / 2) * (r / l) ^ 2)
  | GpyMatern32 v l => v * (1 + sqrt 3 * (r / l)) * exp (- (sqrt 3 * (r / l)))
  | GpyStdPeriodic v l T => v * exp (- (1 / 2) * (sin (PI * r / T) / l) ^ 2)
  end.

(** Euclidean distance of points with [P] coordinates. *)
Definition euclid (P : nat) (x y : nat -> R) : R :=
  sqrt (Rsum P (fun p => (x p - y p) ^ 2)).

(** Positive semi-definiteness of the matrix of a function of the distance on
    points [x 0 .. x (n-1)]. *)
Definition pd_on (P : nat) (k : R -> R) : Prop :=
  forall n (x : nat -> nat -> R) (c : nat -> R),
    0 <= Rsum n (fun i => Rsum n (fun j => c i * c j * k (euclid P (x i) (x j)))).

(** The kernel object evaluates to [v] at distance [d] (in an array). *)
Definition kval (k : kern) (d v : R) : Prop :=
  from_dist k (Arr (mk_arr [1%nat] [d])) = Ok (KArr (mk_arr [1%nat] [v])).

(** Cell [i] of an evaluation that returned an array. *)
Definition cell (i : nat) (r : result kvalue) : R :=
  match r with Ok (KArr a) => vget (a_data a) i | _ => 0 end.

(** No period at or below e^-200. *)
Fixpoint periods_ok (k : kern) : Prop :=
  match k with
  | StdPeriodic _ T => -200 < ln T
  | Scaled k _ => periods_ok k
  | _ => True
  end.
