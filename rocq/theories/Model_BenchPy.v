(** Model of benchmarks/benchlib/bench.py: the command line, the kernels and the
    relative errors. *)

From Coq Require Import Reals List Arith ZArith Ascii String Bool.
From Coq Require Import List.
From Verif Require Import Base NDArray Model_Linalg Model_Util Model_Kern Model_Interp Model_Regex Model_Clean Model_Bench.
Import ListNotations.
Open Scope R_scope.

Record bench_cfg := { b_n_o : Z; b_d : Z; b_r_q : Z; b_q : Z; b_eps : R; b_kern : str; b_seed : Z; b_test : str }.

Definition kerntypes : list str := map list_ascii_of_string ["rbf"; "periodic"; "matern"; "mix"]%string.
Definition testtypes : list str := map list_ascii_of_string ["inv"; "opt"]%string.
Definition str_in (s : str) (l : list str) : bool := existsb (str_eqb s) l.

Definition conv {A} (o : option A) : result A := match o with Some a => Ok a | None => Err ValueError end.
Definition assert_that (b : bool) : result unit := if b then Ok tt else Err AssertionError.

(** bench.py:78-105 [_main] up to the seeding of the generator; [None] when the
    usage is printed and the program left.  [int] and [float] of strings are
    parameters. *)
Definition main_args (to_int : str -> option Z) (to_float : str -> option R) (argv : list str) : result (option bench_cfg) :=
  if negb ((6 <=? List.length argv) && (List.length argv <=? 9))%nat then Ok None
  else
    let arg i := nth i argv [] in
    let! n_o := conv (to_int (arg 1%nat)) in
    let! d := conv (to_int (arg 2%nat)) in
    let! r_q := conv (to_int (arg 3%nat)) in
    let! q := conv (to_int (arg 4%nat)) in
    let! eps := conv (to_float (arg 5%nat)) in
    let kern := if (6 <? List.length argv)%nat then arg 6%nat else list_ascii_of_string "rbf" in
    let! seed := (if (7 <? List.length argv)%nat then conv (to_int (arg 7%nat)) else Ok 1234%Z) in
    let testtype := if (8 <? List.length argv)%nat then arg 8%nat else list_ascii_of_string "inversion" in
    let! _ := assert_that (7 <? n_o)%Z in
    let! _ := assert_that (0 <? d)%Z in
    let! _ := assert_that (0 <? r_q)%Z in
    let! _ := assert_that (r_q <=? d)%Z in
    let! _ := assert_that (0 <? q)%Z in
    let! _ := assert_that (if Rlt_dec 0 eps then true else false) in
    let! _ := assert_that (str_in kern kerntypes) in
    let! _ := assert_that (str_in testtype testtypes) in
    (* np.random.seed *)
    if ((0 <=? seed) && (seed <? 2 ^ 32))%Z then
      Ok (Some {| b_n_o := n_o; b_d := d; b_r_q := r_q; b_q := q; b_eps := eps; b_kern := kern; b_seed := seed; b_test := testtype |})
    else Err ValueError.

(** [np.logspace(a, b, n)] *)
Definition np_logspace (a b : R) (n : nat) : vec := map (fun x => Rpower 10 x) (np_linspace a b n).

(** bench.py:287 [kern_funcs] *)
Definition kern_funcs : list (R -> kern) := [RBF; fun period => StdPeriodic 1 period; Matern32].

(** bench.py:286-299 [gen_kernels] *)
Definition gen_kernels (q : nat) : list (list kern) :=
  let kernels := map (fun kfunc => map kfunc (np_logspace 0 1 q)) kern_funcs in
  let mix := flat_map (fun gamma => map (fun kfunc : R -> kern => kfunc gamma) kern_funcs) (np_logspace 0 1 (Nat.max (q / 3) 1)) in
  let mix := if (q <? List.length mix)%nat then firstn q mix
             else mix ++ map (fun _ => RBF 1) (seq (List.length mix) (q - List.length mix)) in
  kernels ++ [mix].

(** bench.py:122-123, 131 [kdict[kern]] *)
Definition kdict (q : nat) (name : str) : result (list kern) :=
  match find (fun p => str_eqb (fst p) name) (combine kerntypes (gen_kernels q)) with
  | Some p => Ok (snd p)
  | None => Err KeyError
  end.

(** [la.norm(x, 1)], [la.norm(x, 2)] *)
Definition norm1 (x : vec) : R := fold_right (fun a s => Rabs a + s) 0 x.
Definition norm2 (x : vec) : R := sqrt (fold_right (fun a s => a ^ 2 + s) 0 x).

(** bench.py:302-306 [vector_errors] *)
Definition vector_errors (approx exact : vec) : result (npf * npf) :=
  let! diff := np_sub approx exact in
  let e1 := npf_div (Some (norm1 diff)) (Some (norm1 exact)) in
  let e2 := npf_div (Some (norm2 diff)) (Some (norm2 exact)) in
  Ok (e1, e2).
