(** Model of runlmc/lmc/grid_kernel.py and of the grid construction of
    runlmc/models/interpolated_llgp.py. *)

From Coq Require Import Reals List Arith ZArith.
From Verif Require Import Base NDArray Model_Util Model_Fourier Model_Linalg Model_Interp Model_Kern Model_FK.
Import ListNotations.
Open Scope R_scope.

(** 1-D and 2-D arrays from their values. *)
Definition np1 (v : vec) : ndarr := mk_arr [length v] v.
Definition np2 (r c : nat) (M : mx) : ndarr := mk_arr [r; c] (concat M).

(** ** Grid representations

    [grid_k] is the list of slices of the (Q + 1)-dimensional array returned
    by [eval_kernels_fixed_dim]; [grid_k.shape[1:]] is the shape of a slice.
    (No group of kernels is empty, so there is a slice.) *)
Definition slice_shape (grid_k : list ndarr) : list nat :=
  match grid_k with a :: _ => a_shape a | [] => [] end.

(** [BTTB(top.ravel(), sizes)] *)
Definition bttb_of (sizes : list nat) (top : vec) : result Mat := bttb (np1 top) sizes.

(** [NumpyMatrix(A)] for an array with [r] rows and [c] columns *)
Definition np_mat (r c : nat) (A : mx) : result Mat := numpy_matrix (np2 r c A).

(** grid_kernel.py:126-136 [_gen_sum_grid] *)
Definition gen_sum_grid (f : fkernel) (grid_k : list ndarr) (ad : dims) : result Mat :=
  let sizes := slice_shape grid_k in
  let! Ks := map_result (fun a => bttb_of sizes (a_data a)) grid_k in
  let! As := coreg_mats f (Some ad) in
  let! products := map_result (fun AK => let! A := np_mat (f_D f) (f_D f) (fst AK) in kronecker A (snd AK))
                              (combine As Ks) in
  sum_matrix products.

(** [np.tensordot(Bs, tops, axes=(0, 0))[a, b]] *)
Definition tensordot (m : nat) (Bs : list mx) (tops : list vec) (a b : nat) : vec :=
  tab m (fun t => lsum (map (fun p => mget (fst p) a b * vget (snd p) t) (combine Bs tops))).

(** An object array, every cell of which may have failed to evaluate. *)
Definition collect_grid (D : nat) (G : nat -> nat -> option (result Mat)) : result (list (list Mat)) :=
  map_result (fun i => map_result (fun j => match G i j with Some r => r | None => Err TypeError end) (seq 0 D))
             (seq 0 D).

(** grid_kernel.py:115-123 [_gen_bt_grid] *)
Definition gen_bt_grid (f : fkernel) (grid_k : list ndarr) (ad : dims) : result Mat :=
  let! Bs := coreg_mats f (Some ad) in
  let sizes := slice_shape grid_k in
  let bt := tensordot (nprod sizes) Bs (map a_data grid_k) in
  let! blocked := collect_grid (f_D f) (symm_2d_list_map (bttb_of sizes) bt (f_D f)) in
  symm_block_matrix blocked.

(** grid_kernel.py:83-100 [_gen_coreg_Ks] *)
Definition gen_coreg_Ks (f : fkernel) (grid_k : list ndarr) (m : nat) (ad : dims) : result Mat :=
  let! kidxs := dict_get (f_active f) ad in
  let non_indep := filter_non_indep f kidxs in
  let all_coreg := map (fun idx => nth idx (f_vecs f) []) non_indep in
  match all_coreg with
  | [] => identity m
  | _ =>
    let ranks := map (@length vec) all_coreg in
    let stacked := concat all_coreg in                       (* np.vstack *)
    let A_star := np_T (ncols stacked) stacked in
    let sizes := slice_shape grid_k in
    let! I_m := identity (nprod sizes) in
    let! a := np_mat (ncols stacked) (length stacked) A_star in
    let! lft := kronecker a I_m in
    let! b := np_mat (length stacked) (ncols stacked) (np_T (length stacked) A_star) in
    let! rgt := kronecker b I_m in
    let! deduped := map_result (fun top => bttb_of (a_shape top) (a_data top)) (firstn (length all_coreg) grid_k) in
    let! toeps := block_diag (np_repeat deduped ranks) in
    composition [lft; toeps; rgt]
  end.

(** grid_kernel.py:103-112 [_gen_diag_Ks]; [np.column_stack] makes [diags] a
    (D, Q) array, [diag_tops] is (D, m). *)
Definition gen_diag_Ks (f : fkernel) (grid_k : list ndarr) (m : nat) (ad : dims) : result Mat :=
  let! nl := dict_get (f_lmc f) ad in
  let! both := (if Nat.eqb nl 0 then let! ni := dict_get (f_indep f) ad in Ok (Nat.eqb ni 0) else Ok false) in
  if (both : bool) then identity m
  else
    let! kidxs := dict_get (f_active f) ad in
    let diags := map (fun k => nth k (f_diags f) []) kidxs in
    if negb (Nat.eqb (length grid_k) (length kidxs)) then Err AssertionError
    else
      let sizes := slice_shape grid_k in
      let diag_tops := tab (f_D f) (fun d => tab (nprod sizes) (fun t =>
        lsum (map (fun p => vget (fst p) d * vget (a_data (snd p)) t) (combine diags grid_k)))) in
      let! tops := map_result (bttb_of sizes) diag_tops in
      block_diag tops.

(** grid_kernel.py:77-80 [_gen_slfm_grid] *)
Definition gen_slfm_grid (f : fkernel) (grid_k : list ndarr) (m : nat) (ad : dims) : result Mat :=
  let! c := gen_coreg_Ks f grid_k m ad in
  let! d := gen_diag_Ks f grid_k m ad in
  sum_matrix [c; d].

(** ** GridKernel *)

Inductive ktype := KtSum | KtBt | KtSlfm.

(** A GridKernel: the operator itself, and its [grid_K]. *)
Record gridkernel := mk_gk { gk_mat : Mat; gk_grid : Mat }.

(** A pair (interpolant, its transpose). *)
Definition interpolants := dict (sparse * sparse).

Definition sparse_of_csr (A : csr) : sparse := mk_sparse (c_r A) (c_c A) (csr_get A).

(** grid_kernel.py:22-44.  GridKernel overrides [matvec] only. *)
Definition grid_kernel (f : fkernel) (dists : ndarr) (W WT : sparse) (kt : ktype) (ad : dims) : result gridkernel :=
  let n := sp_r W in
  let! s := matrix_init n n in
  let! grid_k := eval_kernels_fixed_dim f dists ad in
  let! grid_K := (match kt with
                  | KtSum => gen_sum_grid f grid_k ad
                  | KtBt => gen_bt_grid f grid_k ad
                  | KtSlfm => gen_slfm_grid f grid_k (sp_c W) ad
                  end) in
  let! k := ski grid_K W WT in
  let mm := default_matmat (fst s) (matvec k) in
  Ok (mk_gk (mk_mat s (matvec k) mm (default_as_numpy (snd s) mm) (Err AttributeError)) grid_K).

(** grid_kernel.py:52-64: the choice of representation. *)
Definition choose_ktype (f : fkernel) (ad : dims) : result ktype :=
  if Nat.eqb (f_Q f) 1 then Ok KtSum
  else
    let! tot_rank := total_rank f ad in
    let! nl := dict_get (f_lmc f) ad in
    let! none := (if Nat.eqb nl 0 then let! ni := dict_get (f_indep f) ad in Ok (Nat.eqb ni 0) else Ok false) in
    let correction := if (none : bool) then f_D f else 0%nat in
    Ok (if Nat.ltb (tot_rank + f_D f) (f_D f * f_D f + correction) then KtSlfm else KtBt).

(** grid_kernel.py:49-74 [gen_grid_kernel].  ([np.repeat] of D noise values
    needs D counts; a single count would be broadcast: not modelled.) *)
Definition gen_grid_kernel (f : fkernel) (dists : dict ndarr) (interps : interpolants) (lens : list nat)
  : result (Mat * dict gridkernel) :=
  let! kerns := map_result (fun ad =>
      let! kt := choose_ktype f ad in
      let! gd := dict_get dists ad in
      let! w := dict_get interps ad in
      let! k := grid_kernel f gd (fst w) (snd w) kt ad in
      Ok (ad, k)) (map fst (f_active f)) in
  if negb (Nat.eqb (length lens) (length (f_noise f))) then Err ValueError
  else
    let! noise := diag (np1 (np_repeat (f_noise f) lens)) in
    let! s := sum_matrix (map (fun p => gk_mat (snd p)) kerns ++ [noise]) in
    Ok (s, kerns).

(** ** Grids of the model *)

(** [scipy.linalg.norm(row - first)] *)
Definition la_dist (u v : vec) : R := sqrt (lsum (map (fun p => (fst p - snd p) ^ 2) (combine u v))).

(** interpolated_llgp.py:423-431: distances of the grid points to the first
    one, in the shape of the grid. *)
Definition grid_dists (axes : list vec) : result ndarr :=
  let! grid := cartesian_product axes in
  match grid with
  | [] => Err IndexError
  | first :: _ => Ok (mk_arr (map (@length R) axes) (map (fun row => la_dist row first) grid))
  end.

(** [X[:, active_dim]] of an array with P columns. *)
Definition take_cols (ad : dims) (X : ndarr) : result ndarr :=
  match a_shape X with
  | [n; P] =>
    if forallb (fun d => Nat.ltb d P) ad then
      Ok (mk_arr [n; length ad] (concat (tab n (fun i => map (fun d => vget (a_data X) (i * P + d)) ad))))
    else Err IndexError
  | _ => Err IndexError
  end.

(** The [lo], [hi] and [m] arguments: absent, one number, or an array. *)
Inductive grid_arg (A : Type) := GNone | GNum (x : A) | GArr (l : list A).
Arguments GNone {A}. Arguments GNum {A}. Arguments GArr {A}.

(** interpolated_llgp.py:405-413 [_wrap] *)
Definition wrap_arg {A} (x : grid_arg A) (ad : dims) : result (option (list A)) :=
  match x with
  | GNone => Ok None
  | GNum v => if Nat.eqb (length ad) 1 then Ok (Some [v]) else Err AssertionError
  | GArr l => let! r := map_result (fun d => match nth_error l d with Some v => Ok v | None => Err IndexError end) ad in
              Ok (Some r)
  end.

(** What is kept for a group of active dimensions: [grid_axes], [dists],
    [interpolants]. *)
Record ad_grid := mk_ag { ag_axes : list vec; ag_dists : ndarr; ag_W : csr; ag_WT : csr }.

(** [A.transpose().tocsr()] *)
Definition csr_T (A : csr) : csr := csr_of (c_c A) (c_r A) (fun i j => csr_get A j i).

(** interpolated_llgp.py:418-438, one pass of the loop. *)
Definition generate_grid (Xs : list ndarr) (lo hi : grid_arg R) (m : grid_arg nat) (ad : dims) : result ad_grid :=
  let! wlo := wrap_arg lo ad in
  let! whi := wrap_arg hi ad in
  let! wm := wrap_arg m ad in
  let! Xa := map_result (take_cols ad) Xs in
  let! (axes, _) := autogrid Xa wlo whi (match wm with None => MNone | Some l => MArray l end) in
  let! ds := grid_dists axes in
  let! W := multi_interpolant Xa (map np1 axes) in
  Ok (mk_ag axes ds W (csr_T W)).

(** interpolated_llgp.py:415-443 [_generate_grids] *)
Definition generate_grids (f : fkernel) (Xs : list ndarr) (lo hi : grid_arg R) (m : grid_arg nat)
  : result (dict ad_grid) :=
  map_result (fun ad => let! g := generate_grid Xs lo hi m ad in Ok (ad, g)) (map fst (f_active f)).

Definition grids_dists (g : dict ad_grid) : dict ndarr := map (fun p => (fst p, ag_dists (snd p))) g.
Definition grids_interps (g : dict ad_grid) : interpolants :=
  map (fun p => (fst p, (sparse_of_csr (ag_W (snd p)), sparse_of_csr (ag_WT (snd p))))) g.
