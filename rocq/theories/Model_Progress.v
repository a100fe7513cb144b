(** Model of the progress lines of AdaDelta (runlmc/models/optimization.py), of
    the curves of benchmarks/pictures/fxmetrics.py, and of the choice of worker
    processes (runlmc/models/interpolated_llgp.py). *)

From Coq Require Import Reals List Arith ZArith Bool.
From Verif Require Import Base Model_Linalg Model_Util Model_Bench Model_Opt.
Import ListNotations.
Open Scope R_scope.

(** ** Progress lines *)

(** optimization.py:52-57 [_print_update]: whether iteration [i] is printed *)
Definition print_update (max_it verbosity : Z) (i : nat) : bool :=
  let printing_delta := (if verbosity =? 0 then 0 else Z.max (max_it / verbosity) 1)%Z in
  (negb (verbosity =? 0) && (Z.of_nat i mod printing_delta =? 0))%Z%bool.

(** optimization.py:69-74: the iterations printed in a run with these events;
    printing comes after the norm was computed and before the callback *)
Fixpoint printed (max_it verbosity : Z) (es : list ada_event) : list nat :=
  match es with
  | Iterate i :: Callback :: es => (if print_update max_it verbosity i then [i] else []) ++ printed max_it verbosity es
  | _ => []
  end.

(** ** Curves *)

(** [op.accumulate(l)] *)
Fixpoint accum (op : R -> R -> R) (acc : R) (l : vec) : vec :=
  match l with [] => [] | x :: l => op acc x :: accum op (op acc x) l end.
Definition np_accumulate (op : R -> R -> R) (l : vec) : vec :=
  match l with [] => [] | x :: l => x :: accum op x l end.

(** fxmetrics.py:41-46 [moving_average], for [n >= 0]: [sums[:-0]] is empty;
    assigning to a slice and dividing in place broadcast a single element *)
Definition moving_average (a : vec) (n : nat) : result vec :=
  let sums := np_accumulate Rplus a in
  let tl := skipn n sums in
  let before := if Nat.eqb n 0 then [] else firstn (length sums - n) sums in
  let! d := np_sub tl before in
  let! tl := (if Nat.eqb (length d) (length tl) then Ok d else if Nat.eqb (length d) 1 then Ok (repeat (vget d 0) (length tl)) else Err ValueError) in
  let tl := map (fun x => x / INR n) tl in
  let hd := firstn n sums in
  if Nat.eqb (length hd) n then Ok (tab n (fun i => vget hd i / INR (S i)) ++ tl)
  else if Nat.eqb n 1 then Ok (hd ++ tl) else Err ValueError.

(** fxmetrics.py:49-52 [div_rolled_max] *)
Definition div_rolled_max (a : vec) (n : nat) : result vec :=
  let! ma := moving_average a n in
  Ok (np_accumulate Rmax ma).

(** fxmetrics.py:71-73, the line labelled 'min grad cutoff' *)
Definition cutoff_line (a : vec) : result vec :=
  let! m := div_rolled_max a 1 in
  Ok (map (fun x => 2 / 10 * x) m).

(** ** Worker processes *)

(** interpolated_llgp.py:176-185 [_check_omp]: whether it warns; [omp] is
    whether OMP_NUM_THREADS is set, [cpus] is [cpu_count()] *)
Definition check_omp (omp : bool) (cpus : Z) (procs_requested : option Z) : bool :=
  let procs := match procs_requested with Some p => if (p =? 0)%Z then cpus else p | None => cpus end in
  (negb omp && (1 <? procs)%Z)%bool.

(** interpolated_llgp.py:164-174 [_generate_pool]: whether it warns, and the
    number of worker processes ([None]: serial); [ny] is [len(self.y)].
    [Pool(processes)] raises for less than one process. *)
Definition generate_pool (omp : bool) (cpus : Z) (max_procs : option Z) (ny : nat) : bool * result (option Z) :=
  let procs := match max_procs with None => cpus | Some p => p end in
  (check_omp omp cpus max_procs,
   if ((procs =? 1)%Z || Nat.ltb ny 300)%bool then Ok None
   else if (procs <? 1)%Z then Err ValueError else Ok (Some procs)).
