(** Model of benchmarks/pictures/pics.py: what the pictures of the exchange
    rates and of the temperatures show. *)

From Coq Require Import Reals List Arith String.
From Verif Require Import Base NDArray Model_Linalg Model_Util Model_GP Model_Bench Model_Heat.
Import ListNotations.
Open Scope R_scope.

(** ** matplotlib *)

(** [ax.plot] and [ax.scatter]: arrays of different lengths raise ValueError *)
Definition plot {A} (xs : vec) (ys : list A) : result (list (R * A)) :=
  if Nat.eqb (List.length xs) (List.length ys) then Ok (combine xs ys) else Err ValueError.

(** [ax.fill_between] *)
Definition fill_between (xs : vec) (bot top : list npf) : result (list (R * npf * npf)) :=
  if Nat.eqb (List.length xs) (List.length bot) then
    if Nat.eqb (List.length xs) (List.length top) then Ok (combine (combine xs bot) top) else Err ValueError
  else Err ValueError.

(** ** Panels *)

Record panel := mk_panel {
  pn_title : string;
  pn_cogp : list (R * R); pn_cogp_band : list (R * npf * npf);
  pn_mean : list (R * R); pn_band : list (R * npf * npf);
  pn_hold : list (R * npf); pn_train : list (R * R) }.

(** [np.sqrt], nan below 0 *)
Definition np_sqrt (x : R) : npf := if Rle_dec 0 x then Some (sqrt x) else None.

(** pics.py:77-79, 84-86 and 157-159, 163-165: [mu + c * sd] for [c] = 2 or -2.
    pandas aligns Series by position and fills with nan; the arrays that
    [predict] returns have the same lengths. *)
Definition shift (mu : vec) (var : vec) (c : R) : list npf :=
  tab (Nat.max (List.length mu) (List.length var)) (fun i =>
    match nth_error mu i, nth_error (map np_sqrt var) i with Some m, Some (Some s) => Some (m + c * s) | _, _ => None end).

(** pics.py:75-104 and 155-179, for one column (the title is "output {} (95%)" of it) *)
Definition draw (title : string) (xs cogp_m cogp_v pred_m pred_v : vec) (test_xs : vec) (test_ys : list npf) (rest_xs rest_ys : vec) : result panel :=
  let! a := plot xs cogp_m in
  let! b := fill_between xs (shift cogp_m cogp_v (-2)) (shift cogp_m cogp_v 2) in
  let! c := plot xs pred_m in
  let! d := fill_between xs (shift pred_m pred_v (-2)) (shift pred_m pred_v 2) in
  let! e := plot test_xs test_ys in
  let! f := plot rest_xs rest_ys in
  Ok (mk_panel title a b c d e f).

(** ** Lookups *)

(** [list(cols).index(col)] *)
Fixpoint index_of (cols : list string) (col : string) : result nat :=
  match cols with
  | [] => Err ValueError
  | c :: r => if String.eqb c col then Ok O else let! i := index_of r col in Ok (S i)
  end.

(** [{col: x for col, x in zip(cols, xs)}[col]]: the last of equal keys wins *)
Fixpoint look {A} (cols : list string) (xs : list A) (col : string) : result A :=
  match cols, xs with
  | c :: r, x :: s => match look r s col with Ok y => Ok y | Err _ => if String.eqb c col then Ok x else Err KeyError end
  | _, _ => Err KeyError
  end.
Definition memb (l : list string) (s : string) : bool := existsb (String.eqb s) l.

(** [np.array(l)] for numbers *)
Definition arr1 (l : vec) : ndarr := mk_arr [List.length l] l.

(** ** Exchange rates *)

(** [min(xs.min() for xs in xss)] and [max(xs.max() for xs in xss)]: positions of
    rows; ValueError for an empty array and for no arrays *)
Definition least (l : list nat) : result nat := match l with [] => Err ValueError | x :: r => Ok (fold_right Nat.min x r) end.
Definition most (l : list nat) : result nat := match l with [] => Err ValueError | x :: r => Ok (fold_right Nat.max x r) end.

(** pics.py:60-61 *)
Definition fx_days (xss : list (list nat)) : result (list nat) :=
  let! los := map_result least xss in
  let! lo := least los in
  let! his := map_result most xss in
  let! hi := most his in
  Ok (seq lo (hi + 1 - lo)).

Section Pics.
  Variable solve : Mat -> vec -> result vec.

  (** [lmc.prediction = 'precompute'] *)
  Definition precompute (g : gp) : gp := mk_gp (gp_data g) (gp_f g) (gp_grids g) Precompute.

  (** pics.py:62-104, after the training of [g] (fitted: [k]) and COGP's
      results, which have a column for each name of [test_fx].  The figure has
      three panels. *)
  Definition fx_picture (g : gp) (k : gp_kernel) (xss : list (list nat)) (yss : list vec) (test_xss : list (list nat)) (test_yss : list (list npf))
             (test_fx cols : list string) (cogp_names : list string) (cogp_mu cogp_var : list vec) : result (list panel) :=
    let! days := fx_days xss in
    let all_xs := map INR days in
    let! test_ix := map_result (index_of cols) test_fx in
    let! (pred_yss, pred_vss) := gp_predict solve (precompute g) k (map (fun col => arr1 (if memb test_fx col then all_xs else [])) cols) in
    map_result (fun '(col, ix) =>
      let! cm := look cogp_names cogp_mu col in
      let! cv := look cogp_names cogp_var col in
      let! pm := look cols pred_yss col in
      let! pv := look cols pred_vss col in
      let! tx := getitem test_xss ix in
      let! ty := getitem test_yss ix in
      let! rx := getitem xss ix in
      let! ry := getitem yss ix in
      draw col all_xs cm cv pm pv (map INR tx) ty (map INR rx) ry) (firstn 3 (combine test_fx test_ix)).

  (** ** Temperatures *)

  (** [(10 <= xs) & (xs <= 15)] *)
  Definition shown (x : R) : bool := if Rle_dec 10 x then if Rle_dec x 15 then true else false else false.

  (** [a[sel]] for a boolean array *)
  Definition mask {A} (a : list A) (sel : list bool) : result (list A) :=
    if Nat.eqb (List.length a) (List.length sel) then Ok (map fst (filter (fun p => snd p) (combine a sel))) else Err IndexError.

  (** pics.py:140-179, after the training of [g] and COGP's results; [levels] is [np.unique].  The figure has two panels. *)
  Definition weather_picture (g : gp) (k : gp_kernel) (xss yss test_xss test_yss : list vec)
             (test_fx cols : list string) (cogp_names : list string) (cogp_mu cogp_var : list vec) : result (list panel) :=
    let all_xs := levels (List.concat xss) in
    let sel := map shown all_xs in
    let! test_ix := map_result (index_of cols) test_fx in
    let! xs := mask all_xs sel in
    let! (pred_yss, pred_vss) := gp_predict solve (precompute g) k (map (fun col => arr1 (if memb test_fx col then xs else [])) cols) in
    map_result (fun '(col, ix) =>
      let! cm := look cogp_names cogp_mu col in
      let! cm := mask cm sel in
      let! cv := look cogp_names cogp_var col in
      let! cv := mask cv sel in
      let! pm := look cols pred_yss col in
      let! pv := look cols pred_vss col in
      let! tx := getitem test_xss ix in
      let! ty := getitem test_yss ix in
      let! rx := getitem xss ix in
      let! ry := getitem yss ix in
      let selx := map shown rx in
      let! rx := mask rx selx in
      let! ry := mask ry selx in
      draw col xs cm cv pm pv tx (map Some ty) rx ry) (firstn 2 (combine test_fx test_ix)).
End Pics.
