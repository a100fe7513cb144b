(** Model of data/synth/mkdata.py, which draws the synthetic benchmark data, and
    of [synth], [gen_random_k] and [synth_gen] in
    benchmarks/benchlib/standard_tester.py.

    Random draws are parameters; files written are values returned ([np.save]
    followed by [np.load], and [np.savetxt], keep arrays as they are); not-a-number
    is [None]. *)

From Coq Require Import Reals List Arith ZArith Bool.
From Verif Require Import Base NDArray Model_Util Model_Linalg Model_Kern Model_FK Model_Grid Model_Lik.
Import ListNotations.
Open Scope R_scope.

(** standard_tester.py:444-452 [gen_random_k]; [rand] as in [fk_init] *)
Definition gen_random_k (rand : nat -> nat -> nat -> R) : result fkernel :=
  let ks := [(RBF 5, None); (RBF (1 / 2), None)] in
  let indeps := map (fun _ => (RBF 2, None)) (seq 0 5) in
  fk_init rand (Some 5%nat) (Some []) (Some []) (Some ks) (Some indeps) None.

(** [fk.coreg_vecs[q][:] = v] for a 1-D array: each row of the array becomes [v]
    (functional_kernel.py:262-264 returns the arrays themselves). *)
Definition assign_vec (q : nat) (v : vec) (f : fkernel) : result fkernel :=
  let! a := py_index (f_vecs f) q in
  if Nat.eqb (length v) (f_D f) then
    Ok (mk_fk (f_D f) (f_kernels f) (tab (length (f_vecs f)) (fun i => if Nat.eqb i q then repeat v (length a) else nth i (f_vecs f) []))
          (f_diags f) (f_noise f) (f_nl f) (f_ns f) (f_P f) (f_active f) (f_lmc f) (f_slfm f) (f_indep f))
  else Err ValueError.

(** [list(X)] for a 3-D array *)
Definition list_of (X : ndarr) : result (list ndarr) :=
  match a_shape X with
  | [d; n; p] => Ok (tab d (fun a => mk_arr [n; p] (tab (n * p) (fun i => vget (a_data X) (a * (n * p) + i)))))
  | _ => Err ValueError
  end.

(** [np.linalg.cholesky(K)]: the lower factor, in exact arithmetic *)
Definition np_cholesky (K : ndarr) : result mx :=
  let! U := cho_factor K in
  let n := length U in
  Ok (mk n n (fun i j => mget U j i)).

(** [a.reshape(d, -1)] for a 1-D array *)
Definition reshape_rows (d : nat) (a : vec) : result mx :=
  if Nat.eqb (length a mod d) 0 then Ok (arr_rows d (length a / d) a) else Err ValueError.

(** [a[s:e, c] = v] on a 2-D array, given as its rows *)
Definition set_block {A} (s e c : nat) (v : list A) (d : A) (rows : list (list A)) : list (list A) :=
  tab (length rows) (fun r =>
    if Nat.leb s r && Nat.ltb r e
    then tab (length (nth r rows [])) (fun k => if Nat.eqb k c then nth (r - s) v d else nth k (nth r rows []) d)
    else nth r rows []).

(** What mkdata.py writes: xss.npy, yss.npy, xss.csv, yss.csv. *)
Record synth_files := mk_sf { sf_xss : list ndarr; sf_yss : mx; sf_xcsv : mx; sf_ycsv : list (list (option R)) }.

(** mkdata.py:31-38: the outputs one below the other *)
Definition cogp_ys (D N : nat) (Ys : mx) : list (list (option R)) :=
  fold_left (fun rows i => set_block (i * N) ((i + 1) * N) i (map Some (nth i Ys [])) None rows) (seq 0 D)
    (repeat (repeat None D) (D * N)).

(** mkdata.py:8-39: [u0] and [u1] are drawn for the coregionalization vectors,
    [X] of shape (5, N, 2) for the inputs and [z] for the values; [N] is
    [NperD], 10000 in the script. *)
Definition mkdata (rand : nat -> nat -> nat -> R) (N : nat) (u0 u1 : vec) (X : ndarr) (z : vec) : result synth_files :=
  let! fk := gen_random_k rand in
  let! fk := assign_vec 0 u0 fk in
  let! fk := assign_vec 1 u1 fk in
  let! Xs := list_of X in
  let! fk := set_input_dim fk 2 in
  let! K := kernel_from_indices Xs Xs fk in
  let! K := arr_add K (arr_diag (map (fun o => o / 10) (repeat 1 (nth 0 (a_shape K) 0%nat)))) in
  let! L := np_cholesky K in
  let! Ys := reshape_rows 5 (np_dot1 L z) in
  let! xcsv := reshape_rows (length (a_data X) / 2) (a_data X) in
  Ok (mk_sf Xs Ys xcsv (cogp_ys 5 N Ys)).

(** ** The benchmark's split *)

(** [X[sel]] for a 2-D array and a boolean array *)
Definition sel_rows (sel : list bool) (rows : mx) : mx := map snd (filter fst (combine sel rows)).
(** [y[sel]] *)
Definition sel_vec (sel : list bool) (y : vec) : vec := map snd (filter fst (combine sel y)).

(** [l[-1] = v] *)
Definition set_last {A} (l : list A) (v : A) : list A := removelast l ++ [v].

(** [x >= 0.5] *)
Definition upper (x : R) : bool := if Rle_dec (1 / 2) x then true else false.

(** standard_tester.py:151-167 [synth]: inputs as lists of rows.  Boolean
    indices must have the length of the array. *)
Definition synth (xss : list mx) (yss : list vec) : result (list mx * list vec * list mx * list vec) :=
  match rev xss, rev yss with
  | x :: _, y :: _ =>
    let sel := map (forallb upper) x in
    if Nat.eqb (length y) (length sel) then
      let test_xss := repeat [] 4 ++ [sel_rows sel x] in
      let test_yss := repeat [] 4 ++ [sel_vec sel y] in
      Ok (set_last xss (sel_rows (map negb sel) x), set_last yss (sel_vec (map negb sel) y), test_xss, test_yss)
    else Err IndexError
  | _, _ => Err IndexError
  end.

(** standard_tester.py:455-459 [synth_gen]: the kernels of one run, [kgen()],
    [rgen()], [slfmgen()] and [indepgen()], as arguments of FunctionalKernel; all
    with inverse lengthscale 1 (rbf.py:20). *)
Definition synth_gen : list (kern * option dims) * list Z * list (kern * option dims) * list (kern * option dims) :=
  ([], [], [(RBF 1, None); (RBF 1, None)], map (fun _ => (RBF 1, None)) (seq 0 5)).
