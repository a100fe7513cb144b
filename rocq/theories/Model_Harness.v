(** Model of the rest of runlmc/util/testing_utils.py: vectorize_inputs,
    RandomTest, run_main, check_np_lists, SingleGradOptimizer. *)

From Coq Require Import Reals List Arith ZArith Bool.
From Verif Require Import Base NDArray Model_Util Model_Linalg Model_Grid Model_Testing Model_Regex Model_Bench Model_BenchPy.
Import ListNotations.
Open Scope R_scope.

(** testing_utils.py:29-32 [vectorize_inputs(f)] on a matrix with [N] rows and
    [k] columns; [f] gets a list of arrays with one column each.  [np.hsplit]
    into no parts divides by zero. *)
Definition vectorize_inputs {A} (f : list mx -> A) (N k : nat) (args : mx) : result A :=
  if Nat.eqb k 0 then Err ZeroDivisionError
  else Ok (f (map (fun j => mk N 1 (fun i _ => mget args i j)) (seq 0 k))).

(** testing_utils.py:47-58 [RandomTest.setUp]: the seed used and printed.
    [env] is the number in the variable SEED if that is set, [clock] stands for
    [int(time.time() * 37 + os.getpid())].  [astype(np.uint32)] wraps. *)
Definition setup_seed (env : option Z) (clock : Z) : Z :=
  let seed := match env with Some s => s | None => clock end in
  (seed mod 2 ^ 32)%Z.

(** ** run_main *)

Record sys_cfg := mk_sys { s_n : Z; s_d : Z; s_q : Z; s_eps : R; s_seed : Z }.

(** testing_utils.py:110-138 [run_main] up to the seeding of the generator;
    [None] when the usage is printed and the program left.  [int] and [float]
    of strings are parameters; [np.random.seed] takes 32 bits. *)
Definition run_main_args (to_int : str -> option Z) (to_float : str -> option R) (argv : list str) : result (option sys_cfg) :=
  if negb (Nat.eqb (length argv) 5 || Nat.eqb (length argv) 6) then Ok None
  else
    let arg i := nth i argv [] in
    let! n := conv (to_int (arg 1%nat)) in
    let! d := conv (to_int (arg 2%nat)) in
    let! q := conv (to_int (arg 3%nat)) in
    let! eps := conv (to_float (arg 4%nat)) in
    let! seed := (if (5 <? length argv)%nat then conv (to_int (arg 5%nat)) else Ok 1234%Z) in
    let! _ := assert_that (8 <? n)%Z in
    let! _ := assert_that (0 <? d)%Z in
    let! _ := assert_that (0 <? q)%Z in
    let! _ := assert_that (if Rle_dec 0 eps then true else false) in
    if ((0 <=? seed) && (seed <? 2 ^ 32))%Z then Ok (Some (mk_sys n d q eps seed)) else Err ValueError.

(** testing_utils.py:148-151: the sum of Kronecker products of one case *)
Definition case_matrix (d n : nat) (dense_mats : list mx) (toep_tops : list vec) : result Mat :=
  let! Ks := map_result (fun p =>
    let! A := np_mat d d (fst p) in
    let! T := toeplitz (np1 (snd p)) in
    kronecker A T) (combine dense_mats toep_tops) in
  sum_matrix Ks.

(** testing_utils.py:152-155: the object made in one case, [self], with the new
    [matvec].  The lambda looks up the variable [my_mat] when it is called:
    [var] is the matrix of the case that the loop has reached by then.
    [matmat] is inherited and calls [matvec]; [as_numpy] and
    [upper_eig_bound] are not replaced.  (Its [logdet] calls [approx_eigs],
    which no class has.) *)
Definition case_object (eps : R) (var self : Mat) : Mat :=
  let mv x := vadd (matvec var x) (map (Rmult eps) x) in
  mk_mat (shape self) mv (default_matmat (fst (shape self)) mv) (as_numpy self) (upper_eig_bound self).

(** ** check_np_lists *)

(** [np.testing.assert_allclose] of one-dimensional arrays *)
Definition assert_allclose (atol rtol : R) (actual desired : vec) : result unit :=
  if Nat.eqb (length actual) (length desired) then
    assert_that (forallb (fun p => if Rle_dec (Rabs (fst p - snd p)) (atol + rtol * Rabs (snd p)) then true else false) (combine actual desired))
  else Err AssertionError.

(** testing_utils.py:169-178 [check_np_lists] of lists of one-dimensional arrays *)
Definition check_np_lists (atol rtol : R) (a b : list vec) : result unit :=
  let! _ := assert_that (Nat.eqb (length a) (length b)) in
  fold_left (fun acc p => let! _ := acc in assert_allclose atol rtol (fst p) (snd p)) (combine a b) (Ok tt).

(** ** SingleGradOptimizer *)

(** testing_utils.py:181-194 [SingleGradOptimizer.opt]: [gradient_observed]
    and [x_opt] *)
Definition single_grad_opt (L : R) (fp : vec -> vec) (x_init : vec) : vec * vec :=
  let gradient_observed := map Ropp (fp x_init) in
  (gradient_observed, vadd x_init (map (fun g => g / L) gradient_observed)).
