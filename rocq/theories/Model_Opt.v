(** Model of the optimiser loop (runlmc/models/optimization.py) and of the
    iterative solver (runlmc/approx/iterative.py). *)

From Coq Require Import Reals List Arith ZArith.
From Verif Require Import Base NDArray Model_Util Model_Linalg Model_Interp Model_Kern Model_FK Model_Grid Model_Lik Model_GP Model_State.
Import ListNotations.
Open Scope R_scope.

(** ** AdaDelta *)

(** optimization.py:18-25, the settings that the loop of [opt] reads; the
    others go to climin. *)
Record ada := mk_ada { max_it : Z; min_grad_ratio : R; permitted_drops : Z }.
Definition ada_default : ada := mk_ada 100 (1 / 10) 5.

(** What happens in [opt]: climin's [i]-th iteration, the [i]-th call of the
    callback. *)
Inductive ada_event := Iterate (i : nat) | Callback.

(** optimization.py:69-81, the loop: [grad i] is climin's [i]-th gradient
    ([info['n_iter']] is [i], counted from 1), whatever the update rule, the
    function and the callback.  [None]: still running after [fuel] iterations.
    An exception of [la.norm] (empty gradient) ends the loop. *)
Fixpoint ada_loop (s : ada) (grad : nat -> vec) (fuel i : nat) (rolling_max : R) (drops : Z) : option (list ada_event * result unit) :=
  match fuel with
  | O => None
  | S fuel =>
    match inf_norm (grad i) with
    | Err e => Some ([Iterate i], Err e)
    | Ok grad_norm =>
      let rolling_max := Rmax grad_norm rolling_max in
      let drops := if Rlt_dec grad_norm (min_grad_ratio s * rolling_max) then (drops - 1)%Z else drops in
      if ((max_it s <=? Z.of_nat i) || (drops <=? 0))%Z%bool then Some ([Iterate i; Callback], Ok tt)
      else option_map (fun o => (Iterate i :: Callback :: fst o, snd o)) (ada_loop s grad fuel (S i) rolling_max drops)
    end
  end.

(** optimization.py:59-83 [opt] without printing. *)
Definition ada_opt (s : ada) (grad : nat -> vec) (fuel : nat) : option (list ada_event * result unit) :=
  ada_loop s grad fuel 1 0 (permitted_drops s).

(** ** Iterative.solve *)

(** What [scipy.sparse.linalg.minres] or [cg] does when the callback never
    raises: the iterates it hands to the callback, and its return value (or an
    exception of its own). *)
Record krylov := mk_krylov { k_iterates : list vec; k_result : result (vec * Z) }.

(** [la.norm(v)] *)
Definition norm2 (v : vec) : R := sqrt (lsum (map (fun x => x * x) v)).

(** iterative.py:41, 55: [la.norm(y - op.matvec(x))] *)
Definition residual (op : linop) (y x : vec) : result R :=
  if Nat.eqb (length (lo_matvec op x)) (length y) then Ok (norm2 (vsub y (lo_matvec op x))) else Err ValueError.

(** iterative.py:36-43 [cb] on successive iterates: the number of calls, and
    the iterate of an early termination.  [Err] is an exception other than
    [_EarlyTerm] in the callback. *)
Fixpoint callbacks (op : linop) (y : vec) (tol : R) (ctr : nat) (xs : list vec) : result (nat * option vec) :=
  match xs with
  | [] => Ok (ctr, None)
  | x :: xs =>
    let ctr := S ctr in
    if Nat.eqb (ctr mod 100) 0 then
      let! r := residual op y x in
      if Rlt_dec r tol then Ok (ctr, Some x) else callbacks op y tol ctr xs
    else callbacks op y tol ctr xs
  end.

(** iterative.py:24-62 [solve]; the outcome also says whether the failure was
    logged.  [method] gets the arguments that minres or cg gets (the operator,
    y, tol, maxiter and whether it is minres). *)
Record solved := mk_solved { so_x : vec; so_ctr : nat; so_error : R; so_logged : bool }.
Definition iterative_solve (method : bool -> linop -> vec -> R -> nat -> krylov) (K : Mat) (y : vec) (minres : bool) (tol : R) : result solved :=
  let op := fst (as_linear_operator (mk_obj K None)) in
  let n := fst (shape K) in
  let t := method minres op y (Rmin (/ 10 ^ 10) tol) n in
  let! (ctr, early) := callbacks op y tol 0 (k_iterates t) in
  let! (x, succ) := match early with Some x => Ok (x, 0%Z) | None => k_result t end in
  let! error := residual op y x in
  Ok (mk_solved x ctr error (orb (if Rlt_dec tol error then true else false) (negb (Z.eqb succ 0)))).

(** iterative.py:60-62: without [verbose], the solution only; this is the
    [solve] of the likelihoods. *)
Definition iterative_x (method : bool -> linop -> vec -> R -> nat -> krylov) (minres : bool) (tol : R) (K : Mat) (y : vec) : result vec :=
  let! s := iterative_solve method K y minres tol in Ok (so_x s).
Definition iterative_info (method : bool -> linop -> vec -> R -> nat -> krylov) (minres : bool) (tol : R) (K : Mat) (y : vec) : R * R :=
  match iterative_solve method K y minres tol with Ok s => (INR (so_ctr s), so_error s) | Err _ => (0, 0) end.
