(** Model of runlmc/kern/*.py. *)

From Coq Require Import Reals List Arith.
From Verif Require Import Base NDArray Model_Util Model_Linalg.
Import ListNotations.
Open Scope R_scope.

(** A kernel object by its current parameter values (rbf.py:33-37,
    matern32.py:33-37, std_periodic.py:34-42, identity.py:26-27,
    scaled.py:15-20).  Parameters are one-element [Param] arrays. *)
Inductive kern : Type :=
| RBF (inv_lengthscale : R)
| Matern32 (inv_lengthscale : R)
| StdPeriodic (inv_lengthscale period : R)
| KIdentity
| Scaled (k : kern) (scale : R).

(** The Python value handed to [from_dist]: a number that is not a numpy
    object, or an array. *)
Inductive dists_arg : Type :=
| PyNum (d : R)
| Arr (a : ndarr).

(** What [from_dist] returns: an array, or the float [np.nan]
    (std_periodic.py:45-46) possibly multiplied by scales. *)
Inductive kvalue : Type :=
| KArr (a : ndarr)
| KNan.

(** Elementwise function of an array that also involves a one-element
    parameter array: the result has the shape of the argument, and shape (1,)
    if the argument has none (broadcasting). *)
Definition ufunc (f : R -> R) (d : dists_arg) : ndarr :=
  match d with
  | PyNum x => mk_arr [1%nat] [f x]
  | Arr a => mk_arr (match a_shape a with [] => [1%nat] | s => s end) (map f (a_data a))
  end.

(** rbf.py:40 *)
Definition rbf_at (g d : R) : R := exp (- (1 / 2) * (d * d) * g).
(** matern32.py:40-41 *)
Definition matern32_at (g d : R) : R :=
  let scaled_dist := d * sqrt 3 * g in (1 + scaled_dist) * exp (- scaled_dist).
(** std_periodic.py:47-48 *)
Definition std_periodic_at (g T d : R) : R :=
  let s := sin (PI / T * d) in exp (- (1 / 2) * (s * s) * g).
(** identity.py:30 *)
Definition identity_at (d : R) : R := if Req_EM_T d 0 then 1 else 0.

(** [from_dist]: rbf.py:39-40, matern32.py:39-41, std_periodic.py:44-48,
    identity.py:29-30 ([dists == 0.0] of a plain number is a [bool], which has
    no [astype]), scaled.py:22-23. *)
Fixpoint from_dist (k : kern) (d : dists_arg) : result kvalue :=
  match k with
  | RBF g => Ok (KArr (ufunc (rbf_at g) d))
  | Matern32 g => Ok (KArr (ufunc (matern32_at g) d))
  | StdPeriodic g T =>
      if Rlt_dec (ln T) (-200) then Ok KNan
      else Ok (KArr (ufunc (std_periodic_at g T) d))
  | KIdentity =>
      match d with
      | PyNum _ => Err AttributeError
      | Arr a => Ok (KArr (mk_arr (a_shape a) (map identity_at (a_data a))))
      end
  | Scaled k s =>
      let! v := from_dist k d in
      match v with
      | KNan => Ok KNan
      | KArr a => Ok (KArr (ufunc (fun x => s * x) (Arr a)))
      end
  end.

(** [kernel_gradient] on one distance (lists of per-parameter values):
    rbf.py:51-54, matern32.py:52-57, std_periodic.py:60-67, identity.py:35-36,
    scaled.py:28-31.  [sub] is [self.k.from_dist] at that distance. *)
Definition rbf_grad_at (g d : R) : list R :=
  let sqdists := d * d in
  let e := exp (- (1 / 2) * sqdists * g) in
  [e * - (1 / 2) * sqdists].
Definition matern32_grad_at (g d : R) : list R :=
  let scaled_dist := d * sqrt 3 * g in
  let d_scaled_dist := d * sqrt 3 in
  let e := exp (- scaled_dist) in
  let dexp := e * - d_scaled_dist in
  [(1 + scaled_dist) * dexp + d_scaled_dist * e].
Definition std_periodic_grad_at (g T d : R) : list R :=
  let scaled := PI / T * d in
  let s := sin scaled in
  let dsin := cos scaled * scaled in
  let dsin := dsin * (-1 / T * g) in
  let sqsin := s * s in
  let e := exp (- (1 / 2) * sqsin * g) in
  [e * - (1 / 2) * sqsin; e * -1 * s * dsin].

(** [kernel_gradient] on an array of distances: one array per parameter.  The
    array argument is what [eval_kernel_gradients] passes
    (functional_kernel.py:252). *)
Definition columns (n : nat) (f : R -> list R) (a : ndarr) : list ndarr :=
  tab n (fun j => ufunc (fun d => nth j (f d) 0) (Arr a)).

Fixpoint kernel_gradient (k : kern) (a : ndarr) : result (list kvalue) :=
  match k with
  | RBF g => Ok (map KArr (columns 1 (rbf_grad_at g) a))
  | Matern32 g => Ok (map KArr (columns 1 (matern32_grad_at g) a))
  | StdPeriodic g T => Ok (map KArr (columns 2 (std_periodic_grad_at g T) a))
  | KIdentity => Ok []
  | Scaled k s =>
      let! gs := kernel_gradient k a in
      let grad := map (fun v => match v with
                                | KNan => KNan
                                | KArr g => KArr (ufunc (fun x => s * x) (Arr g))
                                end) gs in
      let! v := from_dist k (Arr a) in
      Ok (grad ++ [v])
  end.

(** Python list indexing. *)
Definition py_index {A} (l : list A) (i : nat) : result A :=
  match nth_error l i with Some x => Ok x | None => Err IndexError end.
Definition py_last {A} (l : list A) : result A :=
  match rev l with x :: _ => Ok x | [] => Err IndexError end.

(** [update_gradient]: rbf.py:56-57, matern32.py:59-60, std_periodic.py:69-71,
    identity.py:38-39, scaled.py:33-35.  The result holds, in the place of
    every parameter, the value stored in its [gradient]. *)
Fixpoint update_gradient (k : kern) (grad : list R) : result kern :=
  match k with
  | RBF _ => let! a := py_index grad 0 in Ok (RBF a)
  | Matern32 _ => let! a := py_index grad 0 in Ok (Matern32 a)
  | StdPeriodic _ _ => let! a := py_index grad 0 in let! b := py_index grad 1 in Ok (StdPeriodic a b)
  | KIdentity => Ok KIdentity
  | Scaled k _ =>
      let! k' := update_gradient k (removelast grad) in
      let! s := py_last grad in
      Ok (Scaled k' s)
  end.

(** Parameter handles, to say which ones are linked (i.e. seen by the
    optimiser). *)
Inductive pname : Set := InvLengthscale | Period | ScaleP.
Definition pname_eqb (a b : pname) : bool :=
  match a, b with
  | InvLengthscale, InvLengthscale | Period, Period | ScaleP, ScaleP => true
  | _, _ => false
  end.

(** [link_parameter] calls of the constructors: rbf.py:37, matern32.py:37,
    std_periodic.py:39 and 42, scaled.py:19 (which links [k] only; the [scale]
    parameter of line 20 is never linked).  A parameter is named with its
    nesting depth. *)
Fixpoint linked_at (depth : nat) (k : kern) : list (nat * pname * R) :=
  match k with
  | RBF g | Matern32 g => [(depth, InvLengthscale, g)]
  | StdPeriodic g T => [(depth, InvLengthscale, g); (depth, Period, T)]
  | KIdentity => []
  | Scaled k _ => linked_at (S depth) k
  end.
Definition linked (k : kern) : list (nat * pname * R) := linked_at 0 k.

(** [to_gpy]: rbf.py:42-49, matern32.py:43-50, std_periodic.py:50-58,
    identity.py:32-33, scaled.py:25-26.  The variance is fixed to 1. *)
Inductive gpy_kern : Type :=
| GpyRBF (variance lengthscale : R)
| GpyMatern32 (variance lengthscale : R)
| GpyStdPeriodic (variance lengthscale period : R).

(** [g ** -0.5] for a float [g > 0]. *)
Definition pow_mhalf (g : R) : R := / sqrt g.

Definition to_gpy (k : kern) : result gpy_kern :=
  match k with
  | RBF g => Ok (GpyRBF 1 (pow_mhalf g))
  | Matern32 g => Ok (GpyMatern32 1 (1 / g))
  | StdPeriodic g T => Ok (GpyStdPeriodic 1 (pow_mhalf g) T)
  | KIdentity => Err NotImplementedError
  | Scaled _ _ => Err NotImplementedError
  end.
