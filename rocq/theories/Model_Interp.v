(** Model of runlmc/approx/interpolation.py. *)

From Coq Require Import Reals List Arith ZArith.
From Verif Require Import Base NDArray Model_Util Model_Linalg.
Import ListNotations.
Open Scope R_scope.

(** ** scipy.sparse.csr_matrix *)

Record csr := mk_csr {
  c_r : nat; c_c : nat;
  c_indptr : list nat;
  c_indices : list nat;
  c_data : vec
}.

(** The stored (column, value) pairs of row [i]. *)
Definition csr_row (A : csr) (i : nat) : list (nat * R) :=
  slice (nth i (c_indptr A) 0%nat) (nth (S i) (c_indptr A) 0%nat)
        (combine (c_indices A) (c_data A)).

(** Entry (i, j): duplicates are summed. *)
Definition csr_get (A : csr) (i j : nat) : R :=
  lsum (map (fun p => if Nat.eqb (fst p) j then snd p else 0) (csr_row A i)).

(** [A.nnz]: the number of stored entries. *)
Definition csr_nnz (A : csr) : nat := last (c_indptr A) 0%nat.

(** [A.dot(x)] *)
Definition csr_dot1 (A : csr) (x : vec) : vec :=
  tab (c_r A) (fun i => lsum (map (fun p => snd p * vget x (fst p)) (csr_row A i))).

Definition csr_from_rows (c : nat) (rows : list (list (nat * R))) : csr :=
  mk_csr (length rows) c (0%nat :: accumulate (map (@length _) rows))
         (map fst (concat rows)) (map snd (concat rows)).

(** The matrix with entries [F], storing the nonzero ones by column. *)
Definition csr_of (r c : nat) (F : nat -> nat -> R) : csr :=
  csr_from_rows c (tab r (fun i =>
    filter (fun p => if Req_EM_T (snd p) 0 then false else true)
           (map (fun j => (j, F i j)) (seq 0 c)))).

(** [csr_matrix((r, c))] *)
Definition csr_zero (r c : nat) : csr := mk_csr r c (repeat 0%nat (S r)) [] [].

(** [A + B]: scipy's [csr_binop_csr] keeps the nonzero sums, in column order. *)
Definition csr_add (A B : csr) : csr :=
  csr_of (c_r A) (c_c A) (fun i j => csr_get A i j + csr_get B i j).

(** [scipy.sparse.vstack] of matrices with the same number of columns. *)
Definition csr_vstack (c : nat) (l : list csr) : csr :=
  csr_from_rows c (concat (map (fun A => tab (c_r A) (csr_row A)) l)).

(** [A.dot(B)] of sparse matrices; the order in which scipy stores the
    entries of a row of the product is not modelled (column order here). *)
Definition csr_mul (A B : csr) : csr :=
  csr_of (c_r A) (c_c B) (fun i j => Rsum (c_c A) (fun k => csr_get A i k * csr_get B k j)).

(** ** interpolation.py *)

(** interpolation.py:50, 52 on one element. *)
Definition cubic_val (v : R) : R :=
  if Rleb v 1 then ((3 / 2 * v - 5 / 2) * v) * v + 1
  else ((- (1 / 2) * v + 5 / 2) * v - 4) * v + 2.

(** interpolation.py:21-53 *)
Definition cubic_kernel (x : vec) : result vec :=
  let x := map Rabs x in
  if existsb (fun v => Rltb 2 v) x then Err ValueError
  else Ok (map cubic_val x).

(** [np.floor] *)
Definition np_floor (x : R) : Z := Int_part x.

(** interpolation.py:107-108 (also 291-292, 303-304). *)
Definition clamp_idx (size : nat) (z : Z) : nat :=
  let z := if Z.ltb z 0 then 0%Z else z in
  let z := if Z.leb (Z.of_nat size) z then (Z.of_nat size - 1)%Z else z in
  Z.to_nat z.

(** [range(-2, 2)] *)
Definition conv_window : list Z := [-2; -1; 0; 1]%Z.

(** interpolation.py:99-102 *)
Definition factors (g0 delta : R) (samples : vec) : vec := map (fun s => (s - g0) / delta) samples.
Definition closest (fs : vec) : list Z := map np_floor fs.
Definition dists_to (fs : vec) : vec := map (fun f => f - IZR (np_floor f)) fs.

(** interpolation.py:106-115: the summand of one window position. *)
Definition interp_term (n size : nat) (idx : list Z) (dist : vec) (conv : Z) : result csr :=
  let! data := cubic_kernel (map (fun d => d + IZR conv) dist) in
  Ok (mk_csr n size (seq 0 (n + 1)) (map (fun z => clamp_idx size (z - conv)) idx) data).

(** A loop [acc += term(conv)] that may raise. *)
Definition add_terms (term : Z -> result csr) (convs : list Z) (acc : csr) : result csr :=
  fold_left (fun acc conv => let! a := acc in let! t := term conv in Ok (csr_add a t)) convs (Ok acc).

(** interpolation.py:56-116 [interp_cubic]; the warning of lines 94-96 is not
    modelled. *)
Definition interp_cubic (grid samples : ndarr) : result csr :=
  let! size := np_len grid in
  let n := np_size samples in
  if Nat.eqb n 0 then Ok (csr_zero 0 size)
  else if negb (Nat.eqb (length (a_shape grid)) 1) then Err ValueError
  else if negb (Nat.eqb (length (a_shape samples)) 1) then Err ValueError
  else if Nat.ltb size 4 then Err ValueError
  else
    let g := a_data grid in
    let delta := vget g 1 - vget g 0 in
    let fs := factors (vget g 0) delta (a_data samples) in
    add_terms (interp_term n size (closest fs) (dists_to fs)) conv_window (csr_zero n size).

(** Column [p] of a 2-D array with [P] columns. *)
Definition arr_col (P p : nat) (X : ndarr) : vec :=
  tab (hd 0%nat (a_shape X)) (fun i => vget (a_data X) (i * P + p)).

(** interpolation.py:302-312: one summand of [xcsr]. *)
Definition bicubic_xterm (n mx my : nat) (ycoeff : list nat) (idx : list Z) (dist : vec) (conv : Z)
  : result csr :=
  let! data := cubic_kernel (map (fun d => d + IZR conv) dist) in
  let col := map (fun p => (clamp_idx mx (fst p - conv) * my + snd p)%nat) (combine idx ycoeff) in
  Ok (mk_csr n (mx * my) (seq 0 (n + 1)) col data).

(** interpolation.py:290-313: [xcsr] for one [yconv_idx]. *)
Definition bicubic_xcsr (n mx my : nat) (idx_x idx_y : list Z) (dist_x : vec) (yconv : Z) : result csr :=
  let ycoeff := map (fun z => clamp_idx my (z - yconv)) idx_y in
  add_terms (bicubic_xterm n mx my ycoeff idx_x dist_x) conv_window (csr_zero n (mx * my)).

(** interpolation.py:320-325: one summand of [ycsr]. *)
Definition bicubic_yterm (n : nat) (dist_y : vec) (yconv : Z) : result csr :=
  let! data := cubic_kernel (map (fun d => d + IZR yconv) dist_y) in
  let col := map (fun i => (i + n * Z.to_nat (yconv + 2))%nat) (seq 0 n) in
  Ok (mk_csr n (n * 4) (seq 0 (n + 1)) col data).

(** interpolation.py:218-328 [interp_bicubic].  The two accumulations of the
    loop at line 289 are independent and are folded one after the other. *)
Definition interp_bicubic (gridx gridy samples : ndarr) : result csr :=
  let mx := np_size gridx in
  let my := np_size gridy in
  match a_shape samples with
  | [] => Err IndexError
  | n :: _ =>
    if Nat.eqb n 0 then Ok (csr_zero 0 (mx * my))
    else if negb (Nat.eqb (length (a_shape gridx)) 1) then Err ValueError
    else if Nat.ltb mx 4 then Err ValueError
    else if negb (Nat.eqb (length (a_shape gridy)) 1) then Err ValueError
    else if Nat.ltb my 4 then Err ValueError
    else
      match a_shape samples with
      | [_; 2%nat] =>
        let gx := a_data gridx in let gy := a_data gridy in
        let dx := vget gx 1 - vget gx 0 in let dy := vget gy 1 - vget gy 0 in
        let fy := factors (vget gy 0) dy (arr_col 2 1 samples) in
        let fx := factors (vget gx 0) dx (arr_col 2 0 samples) in
        let! xcsrs := map_result (bicubic_xcsr n mx my (closest fx) (closest fy) (dists_to fx)) conv_window in
        let! ycsr := add_terms (bicubic_yterm n (dists_to fy)) conv_window (csr_zero n (n * 4)) in
        Ok (csr_mul ycsr (csr_vstack (mx * my) xcsrs))
      | _ => Err ValueError
      end
  end.

(** [np.repeat] with counts. *)
Definition np_repeat {A} (l : list A) (counts : list nat) : list A :=
  concat (map (fun p => repeat (fst p) (snd p)) (combine l counts)).

(** [a[b:b+len(v)] = op(a[b:b+len(v)], v)] *)
Definition upd_slice {A} (op : A -> A -> A) (b : nat) (v : list A) (l : list A) : list A :=
  map (fun p => if (Nat.leb b (fst p) && Nat.ltb (fst p) (b + length v))%bool
                then op (snd p) (nth (fst p - b) v (snd p)) else snd p)
      (combine (seq 0 (length l)) l).

(** interpolation.py:153-176: assembly of the block diagonal matrix from [Ws]
    for inputs of [row_lens] points, with [m] grid points.  [np.empty] data
    (line 164) are zeros here; every cell is overwritten (see the proofs). *)
Definition assemble (m : nat) (row_lens : list nat) (Ws : list csr) : result csr :=
  let multiout_grid_sizes := tab (length row_lens) (fun k => (k * m)%nat) in
  let! (row_begins, row_ends) := begin_end_indices row_lens in
  let order := last row_ends 0%nat in
  let col_lens := map csr_nnz Ws in
  let! (col_begins, col_ends) := begin_end_indices col_lens in
  let width := last col_ends 0%nat in
  let ind_starts := 0%nat :: removelast (accumulate (map (fun W => last (c_indptr W) 0%nat) Ws)) in
  let ind_ptr := np_repeat ind_starts row_lens ++ [width] in
  let data := repeat 0 width in
  let col_indices := np_repeat multiout_grid_sizes col_lens in
  let '(ind_ptr, data, col_indices) :=
    fold_left (fun acc t =>
      let '(ip, d, ci) := acc in
      let '(rb, cb, W) := t in
      (upd_slice Nat.add rb (removelast (c_indptr W)) ip,
       upd_slice (fun _ v => v) cb (c_data W) d,
       upd_slice Nat.add cb (c_indices W) ci))
      (combine (combine row_begins col_begins) Ws) (ind_ptr, data, col_indices) in
  Ok (mk_csr order (length row_lens * m) ind_ptr col_indices data).

(** [X.ravel()] *)
Definition np_ravel (X : ndarr) : ndarr := mk_arr [np_size X] (a_data X).

(** interpolation.py:119-176 [multi_interpolant]. *)
Definition multi_interpolant (Xs grids : list ndarr) : result csr :=
  let! glens := map_result np_len grids in
  let m := nprod glens in
  match Xs with
  | [] => Err IndexError
  | X0 :: _ =>
    let one_dim := match a_shape X0 with [_] => true | _ :: p :: _ => Nat.eqb p 1 | [] => false end in
    let! Ws :=
      (match a_shape X0 with
       | [] => Err IndexError
       | _ =>
         if one_dim then
           match grids with
           | g :: _ => map_result (fun X => interp_cubic g (np_ravel X)) Xs
           | [] => Err IndexError
           end
         else
           match grids with
           | gx :: gy :: _ => map_result (interp_bicubic gx gy) Xs
           | _ => Err IndexError
           end
       end) in
    let! row_lens := map_result np_len Xs in
    assemble m row_lens Ws
  end.

(** [np.linspace(l, h, num)] *)
Definition np_linspace (l h : R) (num : nat) : vec :=
  tab num (fun k => if Nat.eqb num 1 then l else l + INR k * ((h - l) / INR (num - 1))).

Definition np_min (l : vec) : R := fold_left Rmin (tl l) (hd 0 l).

(** The [m] argument of autogrid: absent, a Python list, or a numpy array
    (which [np.asarray] does not copy). *)
Inductive marg := MNone | MList (l : list nat) | MArray (l : list nat).

Definition opt_len_ok {A} (P : nat) (o : option (list A)) : bool :=
  match o with None => true | Some l => Nat.eqb (length l) P end.

(** interpolation.py:179-215 [autogrid], returning also the caller's [m]
    object as it is after the call (line 212 adds in place). Grid sizes are
    integers. *)
Definition autogrid (Xs : list ndarr) (lo hi : option vec) (m : marg) : result (list vec * marg) :=
  match Xs with
  | [] => Err IndexError
  | X0 :: _ =>
    match a_shape X0 with
    | _ :: P :: _ =>
      if negb (opt_len_ok P lo) then Err AssertionError
      else if negb (opt_len_ok P hi) then Err AssertionError
      else if negb (match m with MNone => true | MList l | MArray l => Nat.eqb (length l) P end)
      then Err AssertionError
      else if existsb (fun X => Nat.eqb (hd 0%nat (a_shape X)) 0) Xs then Err ValueError
      else
        let max_lo := tab P (fun p => np_min (map (fun X => np_min (arr_col P p X)) Xs)) in
        let min_hi := tab P (fun p => np_max (map (fun X => np_max (arr_col P p X)) Xs)) in
        let mv := match m with
                  | MNone => tab P (fun _ => (nsum (map (fun X => hd 0%nat (a_shape X)) Xs) / length Xs)%nat)
                  | MList l | MArray l => l
                  end in
        let lo := match lo with None => max_lo
                  | Some l => map (fun p => Rmin (fst p) (snd p)) (combine l max_lo) end in
        let hi := match hi with None => min_hi
                  | Some l => map (fun p => Rmax (fst p) (snd p)) (combine l min_hi) end in
        let delta := tab P (fun p => (vget hi p - vget lo p) / INR (nth p mv 0%nat)) in
        let lo := tab P (fun p => vget lo p - 2 * vget delta p) in
        let hi := tab P (fun p => vget hi p + 2 * vget delta p) in
        let mv' := map (fun k => (k + 4)%nat) mv in
        Ok (tab P (fun p => np_linspace (vget lo p) (vget hi p) (nth p mv' 0%nat)),
            match m with MArray _ => MArray mv' | _ => m end)
    | _ => Err IndexError
    end
  end.
