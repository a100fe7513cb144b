(** Model of benchmarks/grad-grid/slurm-job.sh and of the summary that
    benchmarks/grad-grid/run.sh makes of the jobs' files.

    A file is represented by what the script greps in it, a file's name by the
    values it is made of.  Numbers are exact: bc's twenty digits and the digits
    printed by bench.py are not modelled. *)

From Coq Require Import Reals List Arith ZArith String Bool.
From Verif Require Import Base Model_Util.
Import ListNotations.
Open Scope R_scope.

(** ** The jobs *)

(** An error as printed: [None] is nan or inf. *)
Definition num := option R.

(** The output of a run of bench.py in its test 'opt' (bench.py:225-283): the
    last two times (cholesky, runlmc), relative errors of the gradient and of
    alpha.  [None]: the line is not there, the run has failed before. *)
Record report := mk_report { p_times : option (R * R); p_g1 : option num; p_g2 : option num; p_a1 : option num; p_a2 : option num }.

(** slurm-job.sh:20-32 and run.sh:79-95: the lists and the grid of indices, in
    the order of the shell's brace expansion *)
Definition QQs (validation : bool) : list nat := if validation then [1; 5]%nat else [1; 5; 10]%nat.
Definition EPSs (validation : bool) : list R :=
  if validation then [1; 1 / 10] else [1; 1 / 10; 1 / 100; 1 / 1000; 1 / 10000].
Definition KERNs : list string := ["rbf"; "periodic"; "matern"; "mix"]%string.
Definition grid (validation : bool) : list (nat * nat * nat) :=
  let '(a, b) := if validation then (2, 2)%nat else (3, 5)%nat in
  flat_map (fun i => flat_map (fun j => map (fun l => (i, j, l)) (seq 0 4)) (seq 0 b)) (seq 0 a).

(** slurm-job.sh:38-41, run.sh:103-105 *)
Definition point (validation : bool) (g : nat * nat * nat) : nat * R * string :=
  let '(i, j, l) := g in (nth i (QQs validation) 0%nat, nth j (EPSs validation) 0, nth l KERNs ""%string).

(** slurm-job.sh:43-50, run.sh:82-94: SIZE, dimension, rank *)
Definition sizes (validation : bool) : nat * nat * nat := if validation then (10, 1, 1)%nat else (500, 10, 3)%nat.

(** What bench.py is called with: points per output, D, R, Q, eps, kernel, and
    the number of the run, on which the seed depends (slurm-job.sh:57-59) *)
Definition call := (nat * nat * nat * nat * R * string * nat)%type.

(** The name of a file: n, D, R, Q, eps, kernel, run *)
Definition fname := (nat * nat * nat * nat * R * string * nat)%type.

(** slurm-job.sh:34-59: the task with number [id] *)
Definition job (validation : bool) (bench : call -> report) (id : nat) : list (fname * report) :=
  if (List.length (grid validation) <=? id)%nat then []
  else
    let '(q, eps, k) := point validation (nth id (grid validation) (0, 0, 0)%nat) in
    let '(size, d, r) := sizes validation in
    map (fun i => ((size * 10, d, r, q, eps, k, i)%nat, bench (size, d, r, q, eps, k, i))) (seq 0 5).

(** slurm-job.sh:8 [--array=0-59] *)
Definition all_jobs (validation : bool) (bench : call -> report) : list (fname * report) :=
  flat_map (job validation bench) (seq 0 60).

(** ** The summary *)

Definition fname_eqb (a b : fname) : bool :=
  let '(n, d, r, q, e, k, i) := a in
  let '(n', d', r', q', e', k', i') := b in
  ((n =? n') && (d =? d') && (r =? r') && (q =? q') && (if Req_EM_T e e' then true else false) && String.eqb k k' && (i =? i'))%nat%bool.
Definition lookup (files : list (fname * report)) (n : fname) : option report :=
  match find (fun p => fname_eqb (fst p) n) files with Some p => Some (snd p) | None => None end.

Definition somes {A} (l : list (option A)) : list A := flat_map (fun o => match o with Some x => [x] | None => [] end) l.
Definition total (l : list R) : R := fold_left Rplus l 0.

(** run.sh:130 awk's average of the times there are *)
Definition awk_mean (l : list R) : R := total l / INR (List.length l).

(** run.sh:167-175: bc's average of five.  To bc, [nan] and [inf] are the names
    of variables that were not assigned, whose value is 0. *)
Definition bc_val (x : num) : R := match x with Some v => v | None => 0 end.
Definition bc_avg (l : list num) : R := total (map bc_val l) / (4 + 1).

(** A line of extracted_summary.csv: n, d, r, q, eps, k, time_ratio, relgrad_l1,
    relgrad_l2, relalpha_l1, relalpha_l2 *)
Record srow := mk_srow { s_n : nat; s_d : nat; s_r : nat; s_q : nat; s_eps : R; s_k : string;
  s_time : R; s_g1 : R; s_g2 : R; s_a1 : R; s_a2 : R }.

(** run.sh:101-177: the line for a point of the grid, if any; run 4's entry is
    missing unless all five runs have the line.  Division by a time of 0, for
    which bc prints nothing, is not modelled. *)
Definition summary_row (validation : bool) (files : list (fname * report)) (g : nat * nat * nat) : list srow :=
  let '(q, eps, k) := point validation g in
  let '(size, d, r) := sizes validation in
  let runs := somes (map (fun i => lookup files (size * 10, d, r, q, eps, k, i)%nat) (seq 0 5)) in
  if negb (List.length runs =? 5)%nat then []
  else
    let times := somes (map p_times runs) in
    let time_ratio := awk_mean (map fst times) / awk_mean (map snd times) in
    let ratios1 := somes (map p_g1 runs) in
    let ratios2 := somes (map p_g2 runs) in
    let alphas1 := somes (map p_a1 runs) in
    let alphas2 := somes (map p_a2 runs) in
    if (List.length ratios1 <=? 4)%nat then []
    else if (List.length ratios2 <=? 4)%nat then []
    else if (List.length alphas1 <=? 4)%nat then []
    else if (List.length alphas2 <=? 4)%nat then []
    else [mk_srow 5000 10 3 q eps k time_ratio (bc_avg ratios1) (bc_avg ratios2) (bc_avg alphas1) (bc_avg alphas2)].

(** run.sh:100-178: the lines of the summary between the heading and the empty
    line at its end *)
Definition summary (validation : bool) (files : list (fname * report)) : list srow :=
  flat_map (summary_row validation files) (grid validation).
