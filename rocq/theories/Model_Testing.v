(** Model of runlmc/util/testing_utils.py (generators of matrices, BasicModel,
    error_context) and of [smallest_eig] of runlmc/util/numpy_convenience.py.
    Random numbers are arguments. *)

From Coq Require Import String Reals List Arith.
From Verif Require Import Base NDArray Det Model_Fourier Model_Util Model_Linalg Model_Kern.
Import ListNotations.
Open Scope R_scope.

(** ** Generators *)

Section Generators.
  (** [la.eigvalsh(T).min()] of the symmetric matrix [T] of size [n] *)
  Variable eig_min : nat -> mx -> R.

  (** numpy_convenience.py:72-82 [smallest_eig]; the minimum of no numbers is an error *)
  Definition smallest_eig (top : vec) : result R :=
    match length top with
    | 0%nat => Err ValueError
    | 1%nat => Ok (vget top 0)
    | n => Ok (eig_min n (la_toeplitz top))
    end.

  (** [while smallest_eig(top) < 0: top[0] = bump(top[0])], at most [fuel]
      rounds; [None]: still running *)
  Fixpoint bump_until (fuel : nat) (bump : R -> R) (top : vec) : option (result vec) :=
    match smallest_eig top with
    | Err e => Some (Err e)
    | Ok lam =>
      if Rlt_dec lam 0 then
        match fuel with
        | 0%nat => None
        | S fuel => bump_until fuel bump (match top with [] => [] | t :: rest => bump t :: rest end)
        end
      else Some (Ok top)
    end.

  (** testing_utils.py:61-72 [poor_cond_toep(n)], [u = np.random.rand()] *)
  Definition poor_cond_toep (fuel : nat) (u : R) (n : nat) : option (result vec) :=
    bump_until fuel (fun t => t * 2) (tab n (fun i => INR (n - 1 - i) * (u + 1 / 1000))).

  (** [top[::-1].sort()]: sort in descending order *)
  Fixpoint insert_desc (x : R) (l : vec) : vec :=
    match l with [] => [x] | y :: l' => if Rle_dec y x then x :: l else y :: insert_desc x l' end.
  Definition sort_desc (l : vec) : vec := fold_right insert_desc [] l.

  (** testing_utils.py:75-83 [random_toep(n)], [us = np.random.rand(n)] *)
  Definition random_toep (fuel : nat) (us : vec) : option (result vec) :=
    bump_until fuel (fun t => t + 1) (sort_desc (map Rabs us)).
End Generators.

(** testing_utils.py:86-93 [exp_decr_toep(n)], [u = np.random.rand()] *)
Definition exp_decr_toep (u : R) (n : nat) : vec := tab n (fun i => exp (- u * INR i)).

(** testing_utils.py:159-166 [rand_pd(n)], [A0 = np.random.rand(n, n)] *)
Definition rand_pd (n : nat) (A0 : mx) : mx :=
  let A := mk n n (fun i j => (mget A0 i j + mget A0 j i) / 2) in
  mk n n (fun i j => mget A i j + (if Nat.eqb i j then Rsum n (fun k => Rabs (mget A i k)) + 1 else 0)).

(** ** BasicModel *)

Section Basic.
  (** [la.solve_toeplitz(c, b)] for a vector [b] *)
  Variable solve_toeplitz : vec -> vec -> result vec.

  (** The array that [from_dist] returns; [la.solve_toeplitz] raises
      ValueError for nan *)
  Definition finite (v : kvalue) : result vec := match v with KArr a => Ok (a_data a) | KNan => Err ValueError end.

  (** testing_utils.py:205-215 [BasicModel.log_likelihood]: the determinant is
      that of the matrix with 1e-10 added to its diagonal *)
  Definition basic_log_likelihood (k : kern) (dists : ndarr) (Y : vec) : result R :=
    let! v := from_dist k (Arr dists) in
    let! K_top := finite v in
    let! KinvY := solve_toeplitz K_top Y in
    let n := length K_top in
    let d := det n (fun i j => mget (la_toeplitz K_top) i j + 1 / 10 ^ 10 * (if Nat.eqb i j then 1 else 0)) in
    if Rlt_dec 0 d then Ok (- (1 / 2) * np_vdot Y KinvY - 1 / 2 * ln d) else Err AssertionError.

  (** testing_utils.py:217-231 [BasicModel.parameters_changed]: the kernel
      with the gradients it was given.  [la.solve_toeplitz] of a matrix solves
      for each column. *)
  Definition basic_parameters_changed (k : kern) (dists : ndarr) (Y : vec) : result kern :=
    let! v := from_dist k (Arr dists) in
    let! K_top := finite v in
    let! a := solve_toeplitz K_top Y in
    let! all_grad := kernel_gradient k dists in
    let! likelihood_grad := map_result (fun g =>
      let! top := finite g in
      let n := length top in
      let dKdt := la_toeplitz top in
      let! cols := map_result (fun j => solve_toeplitz K_top (tab n (fun i => mget dKdt i j))) (seq 0 n) in
      let aaT_dKdt := mk n n (fun i j => vget a i * Rsum n (fun l => mget dKdt j l * vget a l)) in
      Ok (1 / 2 * Rsum n (fun i => mget aaT_dKdt i i - vget (nth i cols []) i))) all_grad in
    update_gradient k likelihood_grad.
End Basic.

(** ** error_context *)

(** What the body of a [with] block does: finish, or raise an exception of
    some class with some arguments. *)
Inductive outcome := Done | Raises (e : err) (args : list string).

(** testing_utils.py:234-240 [error_context(s)]: [e.args[0]] fails when the
    exception has no arguments *)
Definition error_context (s : string) (body : outcome) : outcome :=
  match body with
  | Raises AssertionError args =>
    match args with
    | [] => Raises IndexError ["tuple index out of range"%string]
    | a :: rest => Raises AssertionError ((a ++ String (Ascii.ascii_of_nat 10) s)%string :: rest)
    end
  | o => o
  end.
