(** Model of runlmc/linalg/*.py (except shur.py) and runlmc/approx/ski.py.

    A [Mat] is an instance of (a subclass of) linalg/matrix.py:7 [Matrix],
    given by its observable attributes.  A class is a function from
    constructor arguments to [result Mat].  Only float64 arrays are modelled,
    so the [astype('float64', casting='safe')] conversions are identities. *)

From Coq Require Import Reals List Arith.
From Verif Require Import Base NDArray Model_Util Model_Fourier.
Import ListNotations.
Open Scope R_scope.

Record Mat := mk_mat {
  shape : nat * nat;
  matvec : vec -> vec;
  matmat : mx -> mx;
  as_numpy : mx;
  upper_eig_bound : result R   (* AttributeError if the class has no such method *)
}.

(** An n-dimensional float array: shape and elements in C order. *)
Record ndarr := mk_arr { a_shape : list nat; a_data : vec }.

(** [len(a)]: TypeError on 0-d arrays. *)
Definition np_len (a : ndarr) : result nat :=
  match a_shape a with [] => Err TypeError | n :: _ => Ok n end.

(** [a.size] *)
Definition np_size (a : ndarr) : nat := nprod (a_shape a).

(** [a.shape != (len(a),)] for an array that has a length. *)
Definition is_1d (a : ndarr) : bool := Nat.eqb (length (a_shape a)) 1.

(** Rows of a 2-D array. *)
Definition arr_rows (r c : nat) (d : vec) : mx := mk r c (fun i j => vget d (i * c + j)).

(** ** matrix.py *)

(** matrix.py:19-24 [Matrix.__init__]: the size check.  (Negative sizes, which
    cannot be written here, fail the same test.) *)
Definition matrix_init (n m : nat) : result (nat * nat) :=
  if (Nat.ltb n 1 || Nat.ltb m 1)%bool then Err ValueError else Ok (n, m).

(** matrix.py:55-67 [Matrix.matmat], inherited default: one matvec per
    column; [rows] is [self.shape[0]]. *)
Definition default_matmat (rows : nat) (mv : vec -> vec) (X : mx) : mx :=
  np_T rows (map mv (np_T (ncols X) X)).

(** matrix.py:39-43 [Matrix.as_numpy], inherited default. *)
Definition default_as_numpy (cols : nat) (mm : mx -> mx) : mx := mm (np_identity cols).

(** matrix.py:72-74, 84-90 [Matrix.wrap] / [_MatrixImpl]. *)
Definition wrap (sh : nat * nat) (mvm : vec -> vec) : result Mat :=
  let! s := matrix_init (fst sh) (snd sh) in
  let mm := default_matmat (fst s) mvm in
  Ok (mk_mat s mvm mm (default_as_numpy (snd s) mm) (Err AttributeError)).

(** ** toeplitz.py *)

Definition EPS : R := / 2 ^ 52.  (* numpy_convenience.py:52, np.finfo('float64').eps *)

Definition prefix_sums (l : vec) : vec := tab (length l) (fun i => Rsum (S i) (vget l)).

(** [np.max] of a non-empty array. *)
Definition np_max (l : vec) : R := fold_left Rmax (tl l) (hd 0 l).

(** toeplitz.py:69-84 [upper_eig_bound] up to [totals]. *)
Definition toeplitz_totals (top : vec) : vec :=
  let abstop := map Rabs top in
  let n := length top in
  let totals := tab n (fun i => if Nat.eqb i 0 then lsum abstop
                                else vget abstop i - vget (rev (skipn 1 abstop)) (i - 1)) in
  prefix_sums totals.

(** toeplitz.py:85 *)
Definition toeplitz_upper_eig_bound (top : vec) : R :=
  np_max (toeplitz_totals top) * (1 + EPS * INR (length top)).

(** toeplitz.py:34-44 [Toeplitz.__init__]; as_numpy 54-55; matvec 57-67. *)
Definition toeplitz (top : ndarr) : result Mat :=
  let! n := np_len top in
  if negb (is_1d top) then Err ValueError
  else if Nat.eqb (np_size top) 0 then Err ValueError
  else
    let! s := matrix_init n n in
    let t := a_data top in
    let mv := toeplitz_matvec t in
    Ok (mk_mat s mv (default_matmat (fst s) mv) (la_toeplitz t)
               (Ok (toeplitz_upper_eig_bound t))).

(** ** bttb.py *)

(** bttb.py:91-108 [BTTB.__init__]; as_numpy 135-142; matvec 144-148.  [sizes]
    is a 1-D sequence of natural numbers (the 1-D check of line 97 is not
    modelled).  With no sizes at all, [rfftn] of a 0-d array (line 108) fails
    with an IndexError. *)
Definition bttb (top : ndarr) (sizes : list nat) : result Mat :=
  let! n := np_len top in
  if negb (is_1d top) then Err ValueError
  else if Nat.eqb (np_size top) 0 then Err ValueError
  else if negb (Nat.eqb (nprod sizes) (np_size top)) then Err ValueError
  else
    let! s := matrix_init n n in
    match sizes with
    | [] => Err IndexError
    | _ =>
      let t := a_data top in
      let mv := bttb_matvec t sizes in
      Ok (mk_mat s mv (default_matmat (fst s) mv) (bttb_as_numpy t sizes) (Err AttributeError))
    end.

(** ** kronecker.py *)

(** [x.reshape(-1, n)] of an array whose C-order elements are [x]. *)
Definition np_reshape2 (x : vec) (n : nat) : mx := arr_rows (length x / n) n x.

(** [np.kron] of 2-D arrays. *)
Definition np_kron (A B : mx) : mx :=
  let rb := length B in let cb := ncols B in
  mk (length A * rb) (ncols A * cb)
     (fun i j => mget A (i / rb) (j / cb) * mget B (i mod rb) (j mod cb)).

(** kronecker.py:42-45, one pass of the loop on the C-order elements [x]. *)
Definition kron_pass (M : Mat) (x : vec) : mx :=
  let n := snd (shape M) in
  matmat M (np_T n (np_reshape2 x n)).

(** kronecker.py:31-34 [__init__], 36-37 [as_numpy], 39-46 [matvec],
    51-52 [upper_eig_bound]. *)
Definition kron_matvec (A B : Mat) (x : vec) : vec :=
  concat (fold_left (fun x M => kron_pass M (concat x)) [B; A] [x]).

Definition kronecker (A B : Mat) : result Mat :=
  let! s := matrix_init (fst (shape A) * fst (shape B)) (snd (shape A) * snd (shape B)) in
  let mv := kron_matvec A B in
  Ok (mk_mat s mv (default_matmat (fst s) mv)
       (np_kron (as_numpy A) (as_numpy B))
       (let! a := upper_eig_bound A in let! b := upper_eig_bound B in Ok (a * b))).

(** ** sum_matrix.py *)

(** Python's [sum] over arrays: starts from the scalar 0. *)
Definition py_sum_vec (l : list vec) : vec :=
  match l with [] => [] | v :: r => fold_left vadd r (map (Rplus 0) v) end.
Definition py_sum_mx (l : list mx) : mx :=
  match l with [] => [] | M :: r => fold_left madd r (map (map (Rplus 0)) M) end.

(** Python's [sum] over numbers, each of which may fail to evaluate. *)
Definition py_sum_result (l : list (result R)) : result R :=
  fold_left (fun acc r => let! a := acc in let! x := r in Ok (a + x)) l (Ok 0).

Definition shape_eqb (s t : nat * nat) : bool :=
  (Nat.eqb (fst s) (fst t) && Nat.eqb (snd s) (snd t))%bool.

(** sum_matrix.py:19-29 [__init__], 31-32 [matvec], 34-35 [as_numpy],
    43-45 [upper_eig_bound]. *)
Definition sum_matrix (Ks : list Mat) : result Mat :=
  match Ks with
  | [] => Err ValueError
  | K :: _ =>
    if negb (forallb (fun K' => shape_eqb (shape K') (shape K)) Ks) then Err ValueError
    else
      let! s := matrix_init (fst (shape K)) (snd (shape K)) in
      let mv := fun x => py_sum_vec (map (fun K => matvec K x) Ks) in
      Ok (mk_mat s mv (default_matmat (fst s) mv)
           (py_sum_mx (map as_numpy Ks))
           (py_sum_result (map upper_eig_bound Ks)))
  end.

(** ** block_diag.py *)

(** [a[b:e] = v] where [v] has length [e - b]. *)
Definition set_slice (b : nat) (v : vec) (l : vec) : vec :=
  tab (length l) (fun i => if (Nat.leb b i && Nat.ltb i (b + length v))%bool
                           then vget v (i - b) else vget l i).

(** [scipy.linalg.block_diag] of a list of 2-D arrays. *)
Fixpoint la_block_diag (l : list mx) : mx :=
  match l with
  | [] => []
  | A :: rest =>
      let c := nsum (map ncols rest) in
      map (fun row => row ++ tab c (fun _ => 0)) A
      ++ map (fun row => tab (ncols A) (fun _ => 0) ++ row) (la_block_diag rest)
  end.

(** block_diag.py:23-29 [__init__], 31-34 [_iterate_all], 36-40 [matvec] (the
    uninitialised [np.empty] array is an arbitrary array, here zeros: every
    cell is overwritten, see the proofs), 42-43 [as_numpy]. *)
Fixpoint zip_all {A} (rb re cb ce : list nat) (bl : list A) : list (nat * nat * nat * nat * A) :=
  match rb, re, cb, ce, bl with
  | a :: rb', b :: re', c :: cb', d :: ce', x :: bl' => (a, b, c, d, x) :: zip_all rb' re' cb' ce' bl'
  | _, _, _, _, _ => []
  end.

Definition block_diag_matvec (rb re cb ce : list nat) (blocks : list Mat)
           (empty : vec) (x : vec) : vec :=
  fold_left (fun res t => let '(rbegin, rend, cbegin, cend, block) := t in
                          set_slice rbegin (matvec block (slice cbegin cend x)) res)
            (zip_all rb re cb ce blocks) empty.

Definition block_diag (blocks : list Mat) : result Mat :=
  let row_lens := map (fun b => fst (shape b)) blocks in
  let col_lens := map (fun b => snd (shape b)) blocks in
  let! s := matrix_init (nsum row_lens) (nsum col_lens) in
  let! (rbegins, rends) := begin_end_indices row_lens in
  let! (cbegins, cends) := begin_end_indices col_lens in
  let mv := block_diag_matvec rbegins rends cbegins cends blocks
              (tab (fst s) (fun _ => 0)) in
  Ok (mk_mat s mv (default_matmat (fst s) mv)
       (la_block_diag (map as_numpy blocks)) (Err AttributeError)).

(** ** block_matrix.py *)

(** [np.arange(0, stop, step)] *)
Definition np_arange (stop step : nat) : list nat :=
  tab ((stop + step - 1) / step) (fun i => i * step)%nat.

(** [a[b:e] += v] where [v] has length [e - b]. *)
Definition add_slice (b : nat) (v : vec) (l : vec) : vec :=
  tab (length l) (fun i => if (Nat.leb b i && Nat.ltb i (b + length v))%bool
                           then vget l i + vget v (i - b) else vget l i).

(** [z[r:r+h, c:c+w] = B] for a 2-D array [B] of shape (h, w). *)
Definition set_block (r c : nat) (B : mx) (z : mx) : mx :=
  mk (length z) (ncols z) (fun i j =>
    if (Nat.leb r i && Nat.ltb i (r + length B)
        && Nat.leb c j && Nat.ltb j (c + ncols B))%bool
    then mget B (i - r) (j - c) else mget z i j).

(** [scipy.linalg.norm(M, 1)]: largest absolute column sum. *)
Definition la_norm1 (n : nat) (F : nat -> nat -> R) : R :=
  np_max (tab n (fun j => Rsum n (fun i => Rabs (F i j)))).

Definition zip3 {A} (b e : list nat) (l : list A) : list (nat * nat * A) :=
  combine (combine b e) l.

(** [l[i][j]] *)
Definition get2 (d : Mat) (l : list (list Mat)) (i j : nat) : Mat := nth j (nth i l []) d.

(** A 2-D array of numbers that may have failed to evaluate: the first
    failure is raised. *)
Definition collect2 (n : nat) (F : nat -> nat -> option (result R)) : result (nat -> nat -> R) :=
  let cells := flat_map (fun i => map (pair i) (seq 0 n)) (seq 0 n) in
  match find (fun ij => match F (fst ij) (snd ij) with Some (Err _) => true | _ => false end) cells with
  | Some ij => match F (fst ij) (snd ij) with Some (Err e) => Err e | _ => Err ValueError end
  | None => Ok (fun i j => match F i j with Some (Ok x) => x | _ => 0 end)
  end.

(** block_matrix.py:21-30 [__init__], 32-37 [matvec], 39-44 [as_numpy],
    46-49 [upper_eig_bound].  [blocks] is the documented 2-D (object) array, so
    that [arr[i, j]] indexing works. *)
Definition symm_matvec (begins ends : list nat) (blocks : list (list Mat)) (x : vec) : vec :=
  fold_left (fun res t => let '(rbegin, rend, row) := t in
    fold_left (fun res u => let '(cbegin, cend, block) := u in
                 add_slice rbegin (matvec block (slice cbegin cend x)) res)
              (zip3 begins ends row) res)
    (zip3 begins ends blocks) (tab (length x) (fun _ => 0)).

Definition symm_as_numpy (n : nat) (begins ends : list nat) (blocks : list (list Mat)) : mx :=
  fold_left (fun z t => let '(rbegin, rend, row) := t in
    fold_left (fun z u => let '(cbegin, cend, block) := u in
                 set_block rbegin cbegin (as_numpy block) z)
              (zip3 begins ends row) z)
    (zip3 begins ends blocks) (mk n n (fun _ _ => 0)).

Definition symm_block_matrix (blocks : list (list Mat)) : result Mat :=
  let D := length blocks in
  match blocks with
  | [] => Err ValueError   (* set() != {0} *)
  | row0 :: _ =>
    if negb (forallb (fun row => Nat.eqb (length row) D) blocks) then Err ValueError
    else
      match row0 with
      | [] => Err IndexError   (* unreachable: len(row0) = D > 0 *)
      | b00 :: _ =>
        let m := fst (shape b00) in
        let n := (D * m)%nat in
        let! s := matrix_init n n in
        let begins := np_arange (fst s) m in
        let ends := map (fun b => b + m)%nat begins in
        let mv := symm_matvec begins ends blocks in
        Ok (mk_mat s mv (default_matmat (fst s) mv)
             (symm_as_numpy n begins ends blocks)
             (let! F := collect2 D (symm_2d_list_map upper_eig_bound (get2 b00 blocks) D) in
              Ok (la_norm1 D F)))
      end
  end.

(** ** composition.py *)

(** composition.py:10-12 [__init__] (no shape check), 14-17 [matvec],
    19-22 [matmat]; [as_numpy] is inherited. *)
Definition comp_matvec (mats : list Mat) (x : vec) : vec :=
  fold_left (fun x M => matvec M x) (rev mats) x.
Definition comp_matmat (mats : list Mat) (X : mx) : mx :=
  fold_left (fun X M => matmat M X) (rev mats) X.

Definition composition (mats : list Mat) : result Mat :=
  match mats with
  | [] => Err IndexError
  | M0 :: _ =>
    let! s := matrix_init (fst (shape M0)) (snd (shape (last mats M0))) in
    let mm := comp_matmat mats in
    Ok (mk_mat s (comp_matvec mats) mm (default_as_numpy (snd s) mm) (Err AttributeError))
  end.

(** ** diag.py *)

(** diag.py:17-22 [__init__], 24-25, 27-30, 32-33, 38-39. *)
Definition diag (v : ndarr) : result Mat :=
  let! n := np_len v in
  let! s := matrix_init n n in
  if negb (is_1d v) then Err ValueError
  else
    let d := a_data v in
    Ok (mk_mat s
         (fun x => map (fun p => fst p * snd p) (combine x d))
         (fun X => map (fun p => map (Rmult (fst p)) (snd p)) (combine d X))
         (np_diag d)
         (Ok (np_max d))).

(** ** identity.py *)

(** identity.py:12-25. *)
Definition identity (n : nat) : result Mat :=
  let! s := matrix_init n n in
  Ok (mk_mat s (fun x => x) (fun X => X) (np_identity n) (Ok 1)).

(** ** numpy_matrix.py *)

(** numpy_matrix.py:17-31. *)
Definition numpy_matrix (a : ndarr) : result Mat :=
  match a_shape a with
  | [r; c] =>
    let! s := matrix_init r c in
    let A := arr_rows r c (a_data a) in
    Ok (mk_mat s (np_dot1 A) (np_dot2 A) A (Err AttributeError))
  | _ => Err ValueError
  end.

(** ** ski.py *)

(** A scipy sparse matrix, by shape and entries; [dot] with vectors and dense
    matrices computes the product. *)
Record sparse := mk_sparse { sp_r : nat; sp_c : nat; sp_get : nat -> nat -> R }.
Definition sp_dot1 (W : sparse) (x : vec) : vec :=
  tab (sp_r W) (fun i => Rsum (sp_c W) (fun j => sp_get W i j * vget x j)).
Definition sp_dot2 (W : sparse) (X : mx) : mx :=
  mk (sp_r W) (ncols X) (fun i l => Rsum (sp_c W) (fun j => sp_get W i j * mget X j l)).
Definition sp_T (W : sparse) : sparse := mk_sparse (sp_c W) (sp_r W) (fun i j => sp_get W j i).

(** ski.py:9-16 [__init__], 18-20 [as_numpy], 22-23 [upper_eig_bound]
    ([self.m] does not exist: AttributeError once [K]'s bound succeeded). *)
Definition ski (K : Mat) (W WT : sparse) : result Mat :=
  let! L := wrap (sp_r W, sp_c W) (sp_dot1 W) in
  let! Rm := wrap (sp_r WT, sp_c WT) (sp_dot1 WT) in
  let! C := composition [L; K; Rm] in
  Ok (mk_mat (shape C) (matvec C) (matmat C)
       (let KT := np_T (snd (shape K)) (as_numpy K) in
        let WKT := sp_dot2 W KT in
        sp_dot2 W (np_T (ncols WKT) WKT))
       (let! _ := upper_eig_bound K in Err AttributeError)).

(** ** Operator caching and pickling: matrix.py:26-37, 76-82 *)

(** A scipy LinearOperator, by what it multiplies with. *)
Record linop := mk_linop { lo_shape : nat * nat; lo_matvec : vec -> vec; lo_matmat : mx -> mx }.

(** A live [Matrix] object with its mutable [_op] slot. *)
Record obj := mk_obj { o_mat : Mat; o_op : option linop }.

(** matrix.py:24: fresh objects have [_op = None]. *)
Definition new_obj (M : Mat) : obj := mk_obj M None.

(** matrix.py:26-37 *)
Definition as_linear_operator (o : obj) : linop * obj :=
  match o_op o with
  | Some op => (op, o)
  | None =>
      let op := mk_linop (shape (o_mat o)) (matvec (o_mat o)) (matmat (o_mat o)) in
      (op, mk_obj (o_mat o) (Some op))
  end.

(** matrix.py:76-79 [__getstate__], 81-82 [__setstate__]: the attribute
    dictionary is copied with [_op] cleared, and restored into a new object. *)
Definition getstate (o : obj) : Mat * option linop := (o_mat o, None).
Definition setstate (st : Mat * option linop) : obj := mk_obj (fst st) (snd st).
Definition pickle_roundtrip (o : obj) : obj := setstate (getstate o).
