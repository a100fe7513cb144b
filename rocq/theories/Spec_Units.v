(** Vocabulary for changes of the units of inputs and outputs. *)

From Coq Require Import Reals List Arith ZArith.
From Verif Require Import Base NDArray Model_Util Model_Linalg Model_Interp Model_Kern Model_FK Model_Grid Model_Lik Model_GP.
Import ListNotations.
Open Scope R_scope.

(** Inputs in other units: a number x of column p becomes a x + t p.  A 1-D
    array is a single column. *)
Definition in_units (a : R) (t : nat -> R) (X : ndarr) : ndarr :=
  mk_arr (a_shape X) (tab (length (a_data X)) (fun k => a * vget (a_data X) k + t (k mod nth 1 (a_shape X) 1)%nat)).

(** Bounds of the grid in other units; a single number bounds column 0. *)
Definition bound_in_units (a : R) (t : nat -> R) (x : grid_arg R) : grid_arg R :=
  match x with
  | GNone => GNone
  | GNum v => GNum (a * v + t 0%nat)
  | GArr l => GArr (tab (length l) (fun p => a * vget l p + t p))
  end.

(** How many new units of each parameter make one old unit when distances are
    multiplied by [a]: inverse squared lengths, inverse lengths, lengths and
    numbers without dimension. *)
Fixpoint unit_factors (a : R) (k : kern) : list R :=
  match k with
  | RBF _ => [/ (a * a)]
  | Matern32 _ => [/ a]
  | StdPeriodic _ _ => [1; a]
  | KIdentity => []
  | Scaled k _ => unit_factors a k ++ [1]
  end.

(** The same kernel for distances multiplied by [a]. *)
Fixpoint kern_in_units (a : R) (k : kern) : kern :=
  match k with
  | RBF g => RBF (g * / (a * a))
  | Matern32 g => Matern32 (g * / a)
  | StdPeriodic g T => StdPeriodic g (T * a)
  | KIdentity => KIdentity
  | Scaled k s => Scaled (kern_in_units a k) s
  end.

Definition fk_in_units (a : R) (f : fkernel) : fkernel :=
  mk_fk (f_D f) (map (fun k => (kern_in_units a (fst k), snd k)) (f_kernels f)) (f_vecs f) (f_diags f) (f_noise f)
        (f_nl f) (f_ns f) (f_P f) (f_active f) (f_lmc f) (f_slfm f) (f_indep f).

(** std_periodic.py:45 gives up on periods below exp(-200); whether it does
    must not depend on the units. *)
Fixpoint period_safe (a : R) (k : kern) : Prop :=
  match k with
  | StdPeriodic _ T => ln (T * a) < -200 <-> ln T < -200
  | Scaled k _ => period_safe a k
  | _ => True
  end.

(** Derivatives with respect to parameters in other units: divided by the
    factor of the parameter. *)
Fixpoint kern_grad_in_units (a : R) (k : kern) : kern :=
  match k with
  | RBF g => RBF (g * (a * a))
  | Matern32 g => Matern32 (g * a)
  | StdPeriodic g T => StdPeriodic g (T / a)
  | KIdentity => KIdentity
  | Scaled k s => Scaled (kern_grad_in_units a k) s
  end.
Definition slots_in_units (a : R) (s : grad_slots) : grad_slots :=
  mk_slots (s_vecs s) (s_diags s) (map (kern_grad_in_units a) (s_kernels s)) (s_noise s).

(** Arrays of one or two dimensions with as many elements as their shape says. *)
Definition sample_array (X : ndarr) : Prop :=
  exists n, (a_shape X = [n] /\ length (a_data X) = n) \/ exists p, a_shape X = [n; p] /\ length (a_data X) = (n * p)%nat.

(** A bound given as one number is for one coordinate (whichever it is), so it
    only makes sense if all move alike. *)
Definition moves_alike (t : nat -> R) (x : grid_arg R) : Prop :=
  match x with GNum _ => forall d, t d = t 0%nat | _ => True end.

(** Two computations fail alike, or both succeed with related results. *)
Definition alike {A B} (P : A -> B -> Prop) (r : result A) (r' : result B) : Prop :=
  match r, r' with Ok x, Ok y => P x y | Err e, Err e' => e = e' | _, _ => False end.

(** Output [d] in other units: y becomes c d y + b d. *)
Definition each {A B} (h : nat -> A -> B) (l : list A) : list B := map (fun p => h (fst p) (snd p)) (combine (seq 0 (length l)) l).
Definition out_units (c b : nat -> R) (Ys : list ndarr) : list ndarr :=
  each (fun d Y => mk_arr (a_shape Y) (map (fun y => c d * y + b d) (a_data Y))) Ys.
