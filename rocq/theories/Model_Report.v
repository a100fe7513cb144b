(** Model of what the optimisation benchmark prints about gradients
    (benchmarks/benchlib/bench.py, lines 235-279).  Timings are not modelled. *)

From Coq Require Import Reals List Arith Bool.
From Verif Require Import Base Model_Linalg Model_Util Model_Kern Model_FK Model_Grid Model_Lik Model_Bench Model_BenchPy.
Import ListNotations.
Open Scope R_scope.

(** [np.hstack] of one-dimensional arrays *)
Definition hstack_vecs (l : list vec) : result vec := match l with [] => Err ValueError | _ => Ok (concat l) end.

(** [np.hstack] of matrices: they are put side by side *)
Definition hstack_mxs (l : list mx) : result mx :=
  match l with
  | [] => Err ValueError
  | m :: _ => if forallb (fun m' => Nat.eqb (length m') (length m)) l
              then Ok (tab (length m) (fun i => concat (map (fun m' => nth i m' []) l)))
              else Err ValueError
  end.

(** [a - b] of two matrices; the two come from the same functional kernel, so
    broadcasting is not modelled *)
Definition mx_minus (a b : mx) : result mx :=
  if (Nat.eqb (length a) (length b) && forallb (fun p => Nat.eqb (length (fst p)) (length (snd p))) (combine a b))%bool
  then Ok (map (fun p => map (fun q => fst q - snd q) (combine (fst p) (snd p))) (combine a b)) else Err ValueError.

(** bench.py:235-254 [check_grads]: the printed number of gradients, [err] and
    [exact_kgrad]; the two arrays flattened, as [np.append] of lines 268-269
    does.  The time per gradient is a Python division by [ngrad]. *)
Record checked := mk_checked { ck_ngrad : nat; ck_err : vec; ck_exact : vec }.

Definition count_grads {A} (exact approx : list (list A)) : result nat :=
  let ngrad := nsum (map (@length A) exact) in
  if Nat.eqb ngrad 0 then Err ZeroDivisionError
  else if Nat.eqb ngrad (nsum (map (@length A) approx)) then Ok ngrad else Err AssertionError.

Definition check_vecs (exact approx : list vec) : result checked :=
  let! ngrad := count_grads exact approx in
  let! e := hstack_vecs exact in
  let! a := hstack_vecs approx in
  let! err := np_sub e a in
  Ok (mk_checked ngrad err e).

Definition check_mxs (exact approx : list mx) : result checked :=
  let! ngrad := count_grads exact approx in
  let! e := hstack_mxs exact in
  let! a := hstack_mxs approx in
  let! err := mx_minus e a in
  Ok (mk_checked ngrad (concat err) (concat e)).

(** bench.py:256-279: the four kinds of gradients and the summary: the counts
    of the kinds, the number of partial derivatives, the average error and
    magnitude and the two ratios. *)
Record report := mk_report { rp_counts : list nat; rp_total : nat; rp_err : npf; rp_grad : npf; rp_ratios : npf * npf }.

Definition opt_report (exact approx : gradients) : result report :=
  let! k := check_vecs (g_kernels exact) (g_kernels approx) in
  let! v := check_mxs (g_vecs exact) (g_vecs approx) in
  let! d := check_vecs (g_diags exact) (g_diags approx) in
  let! n := check_vecs [g_noise exact] [g_noise approx] in
  let errs := ck_err k ++ ck_err v ++ ck_err d ++ ck_err n in
  let grads := ck_exact k ++ ck_exact v ++ ck_exact d ++ ck_exact n in
  let! ratios := vector_errors (tab (length errs) (fun i => vget errs i + vget grads i)) grads in
  Ok (mk_report (map ck_ngrad [k; v; d; n]) (length errs) (arr_mean (map Rabs errs)) (arr_mean (map Rabs grads)) ratios).
