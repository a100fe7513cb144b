(** Model of the scores and data splits of benchmarks/benchlib/standard_tester.py.

    Floating point numbers that are nan or infinite are [None]; they stay so in
    every operation used here. *)

From Coq Require Import Reals List Arith.
From Verif Require Import Base Model_Linalg Model_Util.
Import ListNotations.
Open Scope R_scope.

(** ** numpy *)

(** A number, or nan or an infinity. *)
Definition npf := option R.

(** [np.mean], nan for no elements *)
Definition npf_mean (l : list npf) : npf :=
  match l with
  | [] => None
  | _ => match fold_right (fun x acc => match x, acc with Some a, Some s => Some (a + s) | _, _ => None end) (Some 0) l with
         | Some s => Some (s / INR (length l))
         | None => None
         end
  end.
Definition arr_mean (v : vec) : npf := npf_mean (map Some v).

(** [/] *)
Definition npf_div (a b : npf) : npf :=
  match a, b with Some x, Some y => if Req_EM_T y 0 then None else Some (x / y) | _, _ => None end.

(** [np.log]: -inf at 0, nan below *)
Definition np_log (x : R) : npf := if Rlt_dec 0 x then Some (ln x) else None.

(** [a - b] of two one-dimensional arrays with broadcasting *)
Definition np_sub (a b : vec) : result vec :=
  if Nat.eqb (length a) (length b) then Ok (tab (length a) (fun i => vget a i - vget b i))
  else if Nat.eqb (length b) 1 then Ok (map (fun x => x - vget b 0) a)
  else if Nat.eqb (length a) 1 then Ok (map (fun y => vget a 0 - y) b)
  else Err ValueError.

Definition np_square (a : vec) : vec := map (fun x => x ^ 2) a.

(** [ls[i]] and [x[select]] with an array of indices *)
Definition getitem {A} (l : list A) (i : nat) : result A := match nth_error l i with Some x => Ok x | None => Err IndexError end.
Definition take {A} (l : list A) (ixs : list nat) : result (list A) := map_result (getitem l) ixs.

(** [np.flatnonzero] *)
Definition np_flatnonzero (v : vec) : list nat := filter (fun i => if Req_EM_T (vget v i) 0 then false else true) (seq 0 (length v)).

Definition zip3 {A B C} (a : list A) (b : list B) (c : list C) : list (A * B * C) := combine (combine a b) c.

(** ** Scores *)

(** standard_tester.py:192-193 [filter_list] *)
Definition filter_list {A} (ls : list A) (ixs : list nat) : result (list A) := take ls ixs.

(** standard_tester.py:196-198 [filter_nonempty_cols] *)
Definition filter_nonempty_cols (a b c : list vec) : result (list vec * list vec * list vec) :=
  let nonempty_ixs := filter (fun i => Nat.ltb 0 (length (nth i a []))) (seq 0 (length a)) in
  let! a' := filter_list a nonempty_ixs in
  let! b' := filter_list b nonempty_ixs in
  let! c' := filter_list c nonempty_ixs in
  Ok (a', b', c').

(** standard_tester.py:201-202 [filter_by_selection] *)
Definition filter_by_selection (a b c : list vec) (selects : list (list nat)) : result (list vec * list vec * list vec) :=
  let one xs := map_result (fun p => take (fst p) (snd p)) (combine xs selects) in
  let! a' := one a in
  let! b' := one b in
  let! c' := one c in
  Ok (a', b', c').

(** standard_tester.py:205-211 [smse] *)
Definition smse (test_yss pred_yss train_yss : list vec) : result npf :=
  let! (test_yss, pred_yss, train_yss) := filter_nonempty_cols test_yss pred_yss train_yss in
  let! scores := map_result (fun '(test_ys, pred_ys, train_ys) =>
    let! diff := np_sub test_ys pred_ys in
    Ok (npf_div (arr_mean (np_square diff))
                (match arr_mean train_ys with
                 | Some m => arr_mean (np_square (map (fun y => m - y) test_ys))
                 | None => None
                 end))) (zip3 test_yss pred_yss train_yss) in
  Ok (npf_mean scores).

(** standard_tester.py:214-233 [nlpd]; the warning is not modelled *)
Definition nlpd (test_yss pred_yss pred_vss : list vec) : result npf :=
  let! (test_yss, pred_yss, pred_vss) := filter_nonempty_cols test_yss pred_yss pred_vss in
  let selectors := map np_flatnonzero pred_vss in
  let! (test_yss, pred_yss, pred_vss) := filter_by_selection test_yss pred_yss pred_vss selectors in
  let! (test_yss, pred_yss, pred_vss) := filter_nonempty_cols test_yss pred_yss pred_vss in
  let! scores := map_result (fun '(test_ys, pred_ys, pred_vs) =>
    let! diff := np_sub test_ys pred_ys in
    let terms := map (fun i => match npf_div (Some (vget diff i ^ 2)) (Some (vget pred_vs i)), np_log (2 * PI * vget pred_vs i) with
                               | Some a, Some b => Some (a + b) | _, _ => None end) (seq 0 (length diff)) in
    Ok (match npf_mean terms with Some x => Some (1 / 2 * x) | None => None end)) (zip3 test_yss pred_yss pred_vss) in
  Ok (npf_mean scores).

(** ** Splits *)

(** standard_tester.py:93-115 [foreign_exchange_2007], one column: the values
    ([None]: null) and the held-out slice [lo:hi]; the training inputs and
    outputs and the test inputs and outputs.  [np.reciprocal] of 0 is an
    infinity. *)
Definition np_reciprocal (y : npf) : npf := match y with Some x => if Req_EM_T x 0 then None else Some (/ x) | None => None end.
Definition fx_split (col : list npf) (lo hi : nat) : list nat * list npf * (list nat * list npf) :=
  let n := length col in
  let select i := andb (match nth i col None with Some _ => true | None => false end) (negb (andb (Nat.leb lo i) (Nat.ltb i hi))) in
  let holdin := filter select (seq 0 n) in
  let slice {A} (l : list A) := firstn (hi - lo) (skipn lo l) in
  (holdin, map (fun i => np_reciprocal (nth i col None)) holdin, (slice (seq 0 n), map np_reciprocal (slice col))).

(** standard_tester.py:126-147 [weather], one sensor: times and temperatures
    (-1: missing), the number of missing values expected and the held-out
    interval *)
Definition weather_split (x y : vec) (expected_na : nat) (hold : option (R * R)) : result (vec * vec * (vec * vec)) :=
  let is_m1 v := if Req_EM_T v (-1) then true else false in
  if negb (Nat.eqb (length (filter is_m1 x)) 0) then Err AssertionError
  else if negb (Nat.eqb (length (filter is_m1 y)) expected_na) then Err AssertionError
  else
    let xy := filter (fun p => negb (is_m1 (snd p))) (combine x y) in
    match hold with
    | None => Ok (map fst xy, map snd xy, ([], []))
    | Some (lo, hi) =>
      let sel (p : R * R) := if Rle_dec lo (fst p) then if Rle_dec (fst p) hi then true else false else false in
      let test := filter sel xy in
      let train := filter (fun p => negb (sel p)) xy in
      Ok (map fst train, map snd train, (map fst test, map snd test))
    end.
