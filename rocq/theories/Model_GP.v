(** Model of runlmc/models/multigp.py and of the likelihood and prediction of
    runlmc/models/interpolated_llgp.py. *)

From Coq Require Import Reals List Arith ZArith.
From Verif Require Import Base NDArray Model_Util Model_Linalg Model_Interp Model_Kern Model_FK Model_Grid Model_Lik.
Import ListNotations.
Open Scope R_scope.

(** ** MultiGP: data *)

(** [len(set(l))] and [set(l).pop()] for a set with one element *)
Definition one_value (l : list nat) : option nat :=
  match nodup Nat.eq_dec l with [v] => Some v | _ => None end.

(** [np.std(Y) == 0]; for an empty array the left hand side is nan. *)
Definition zero_std (Y : vec) : bool :=
  match Y with [] => false | _ => if Req_EM_T (np_std Y) 0 then true else false end.

(** multigp.py:205-214, the checks of one pair (for output arrays that are not
    1-D the standard deviation is never reached). *)
Definition validate_pair (XY : ndarr * ndarr) : result unit :=
  let! nx := np_len (fst XY) in
  let! ny := np_len (snd XY) in
  if negb (Nat.eqb nx ny) then Err ValueError
  else if negb (existsb (Nat.eqb (length (a_shape (fst XY)))) [1%nat; 2%nat]) then Err ValueError
  else if negb (Nat.eqb (length (a_shape (snd XY))) 1) then Err ValueError
  else Ok tt.

(** multigp.py:199-227 [_validate_io] *)
Definition validate_io (Xs Ys : list ndarr) : result (nat * nat) :=
  match Xs with
  | [] => Err ValueError
  | _ =>
    if negb (Nat.eqb (length Xs) (length Ys)) then Err ValueError
    else
      let! _ := map_result validate_pair (combine Xs Ys) in
      let ds := map (fun X => nth 1 (a_shape X) 0%nat) (filter (fun X => Nat.ltb 1 (length (a_shape X))) Xs) in
      let ds := match ds with [] => [1%nat] | _ => ds end in
      match one_value ds with
      | None => Err ValueError
      | Some P => if existsb (fun Y => zero_std (a_data Y)) Ys then Err ValueError else Ok (P, length Xs)
      end
  end.

(** multigp.py:229-235 [_pad_dims] *)
Definition pad1 (X : ndarr) : ndarr :=
  match a_shape X with [n] => mk_arr [n; 1%nat] (a_data X) | _ => X end.
Definition pad_dims (P : nat) (Xs : list ndarr) : result (list ndarr) :=
  let Xs := map pad1 Xs in
  let! _ := map_result (fun X => match nth_error (a_shape X) 1 with
                                 | None => Err IndexError
                                 | Some p => if Nat.eqb p P then Ok tt else Err ValueError
                                 end) Xs in
  Ok Xs.

(** The attributes set by [MultiGP.__init__]. *)
Record multigp := mk_multi {
  mg_P : nat; mg_D : nat; mg_norm : option (list norm); mg_Ys : list vec; mg_Xs : list ndarr
}.

(** multigp.py:59-73 [__init__] *)
Definition multigp_init (Xs Ys : list ndarr) (normalized : bool) : result multigp :=
  let! (P, D) := validate_io Xs Ys in
  let Ys := map a_data Ys in
  let norms := if normalized then Some (map scale_by Ys) else None in
  let! Ys := (match norms with
              | None => Ok Ys
              | Some l => map_result (fun nY => normalize (Some (fst nY)) (snd nY)) (combine l Ys)
              end) in
  let! Xs := pad_dims P Xs in
  Ok (mk_multi P D norms Ys Xs).

(** ** InterpolatedLLGP *)

Inductive mode := OnTheFly | Precompute | Exact.

(** The attributes set by [InterpolatedLLGP.__init__]: those of MultiGP, the
    functional kernel, the grids and the prediction mode. *)
Record gp := mk_gp { gp_data : multigp; gp_f : fkernel; gp_grids : dict ad_grid; gp_mode : mode }.

(** interpolated_llgp.py:127-160 [__init__]; [None] is a prediction method
    that is not in the table.  (The pool, the derivative service and the
    metrics are not part of this record.) *)
Definition gp_init (Xs Ys : list ndarr) (normalized : bool) (lo hi : grid_arg R) (m : grid_arg nat)
           (pred : option mode) (fk : option fkernel) : result gp :=
  let! d := multigp_init Xs Ys normalized in
  match fk with
  | None => Err ValueError
  | Some f =>
    match pred with
    | None => Err ValueError
    | Some md =>
      let! f := set_input_dim f (mg_P d) in
      let! g := generate_grids f (mg_Xs d) lo hi m in
      Ok (mk_gp d f g md)
    end
  end.

(** [self.kernel]: the approximate likelihood and its [_grid_kernels]. *)
Record gp_kernel := mk_gpk { gpk_lik : approx_lik; gpk_grids : dict gridkernel }.

(** interpolated_llgp.py:195-206, 224 [parameters_changed] without metrics;
    the second component is what the gradient slots [old] become. *)
Definition parameters_changed (solve : Mat -> vec -> result vec) (bits : list (list bool)) (n_it : nat)
           (g : gp) (old : grad_slots) : result (gp_kernel * grad_slots) :=
  let f := gp_f g in
  let Ys := mg_Ys (gp_data g) in
  let! (K, gks) := gen_grid_kernel f (grids_dists (gp_grids g)) (grids_interps (gp_grids g)) (map (@length R) Ys) in
  let! l := approx_init solve bits n_it f K (grids_dists (gp_grids g)) (grids_interps (gp_grids g)) Ys in
  let! dg := all_gradients (approx_ops f l) f in
  let! s := fk_update_gradient f dg old in
  Ok (mk_gpk l gks, s).

(** ** Likelihood *)

(** interpolated_llgp.py:247-250 [_dense] *)
Definition gp_dense (g : gp) : result exact_lik := exact_init (gp_f g) (mg_Xs (gp_data g)) (mg_Ys (gp_data g)).

(** interpolated_llgp.py:252-260 [K] *)
Definition gp_K (g : gp) : result ndarr := let! e := gp_dense g in Ok (el_K e).

(** A float that may be infinite. *)
Inductive ext := Fin (x : R) | PInf | NInf.

(** interpolated_llgp.py:262-276 [log_det_K].  ([np.sign]; logarithms of
    numbers that are not positive only enter when the result is -inf.) *)
Definition np_sign (x : R) : R := if Rlt_dec 0 x then 1 else if Rlt_dec x 0 then -1 else 0.
Definition gp_log_det_K (g : gp) : result ext :=
  let! e := gp_dense g in
  let d := tab (length (el_L e)) (fun i => mget (el_L e) i i) in
  let lgdet := lsum (map ln d) * 2 in
  let sgn := fold_right Rmult 1 (map np_sign d) in
  if Rle_dec sgn 0 then Ok NInf else Ok (Fin lgdet).

(** interpolated_llgp.py:278-285 [normal_quadratic] *)
Definition gp_normal_quadratic (g : gp) (k : gp_kernel) : R :=
  np_vdot (concat (mg_Ys (gp_data g))) (sd_alpha (al_deriv (gpk_lik k))).

(** interpolated_llgp.py:287-290 [log_likelihood] *)
Definition gp_log_likelihood (g : gp) (k : gp_kernel) : result ext :=
  let! d := gp_log_det_K g in
  match d with
  | Fin v => Ok (Fin (- (1 / 2) * (v + gp_normal_quadratic g k + INR (length (concat (mg_Ys (gp_data g)))) * ln (2 * PI))))
  | NInf => Ok PInf
  | PInf => Ok NInf
  end.

(** ** Prediction *)

(** interpolated_llgp.py:293-300 [_grid_alpha] *)
Definition grid_alpha (g : gp) (k : gp_kernel) : result (dict vec) :=
  map_result (fun ad =>
    let! W := dict_get (grids_interps (gp_grids g)) ad in
    let! gk := dict_get (gpk_grids k) ad in
    Ok (ad, matvec (gk_grid gk) (sp_dot1 (snd W) (sd_alpha (al_deriv (gpk_lik k)))))) (map fst (f_active (gp_f g))).

(** [np.column_stack] of 1-D arrays: rows of the resulting array. *)
Definition column_stack (l : list vec) : result mx :=
  match l with
  | [] => Err ValueError
  | v :: _ =>
    if forallb (fun w => Nat.eqb (length w) (length v)) l
    then Ok (mk (length v) (length l) (fun i j => vget (nth j l []) i)) else Err ValueError
  end.

(** [np.square(a).sum(axis=0)] *)
Definition square_sum0 (a : mx) : vec := tab (ncols a) (fun d => lsum (map (fun row => vget row d * vget row d) a)).

(** interpolated_llgp.py:303-314 [_native_variance].  [coregs.dot(kernels)]
    needs every kernel to evaluate to an array of one element: the list is
    then a (Q, 1) array and the product (D, 1).  (A nan among them makes the
    list ragged: an error, which kind depends on numpy.) *)
Definition native_variance (f : fkernel) : result vec :=
  let! c := column_stack (map square_sum0 (f_vecs f)) in
  let! d := column_stack (f_diags f) in
  if negb (Nat.eqb (length c) (length d) && Nat.eqb (ncols c) (ncols d)) then Err ValueError
  else
    let coregs := madd c d in
    let zero_dist := map (fun p => (fst p, PyNum 0)) (f_active f) in
    let! kernels := eval_kernels f zero_dist in
    let! ks := map_result (fun v => match v with
                                    | KArr a => match a_shape a with [1%nat] => Ok (vget (a_data a) 0) | _ => Err ValueError end
                                    | KNan => Err ValueError
                                    end) kernels in
    if negb (Nat.eqb (ncols coregs) (length ks)) then Err ValueError
    else
      let v := np_dot1 coregs ks in
      if negb (Nat.eqb (length v) (length (f_noise f))) then Err ValueError
      else Ok (vadd v (f_noise f)).

(** [A.dot(B)] for arrays with (r, n) and (n, c) entries, then [np.diag] (of a
    square result). *)
Definition diag_of_product (r n : nat) (A : vec) (B : mx) : vec :=
  tab r (fun i => Rsum n (fun l => vget A (i * n + l) * mget B l i)).

(** The rows of a 2-D array. *)
Definition array_rows (a : ndarr) : result (nat * nat * mx) :=
  match a_shape a with
  | [r; c] => Ok (r, c, arr_rows r c (a_data a))
  | _ => Err TypeError
  end.

(** interpolated_llgp.py:350-356 [_var_predict_exact] *)
Definition var_exact (g : gp) (Xs : list ndarr) : result vec :=
  let! e := gp_dense g in
  let! Kt := kernel_from_indices Xs (mg_Xs (gp_data g)) (gp_f g) in
  let! (rc, rows) := array_rows Kt in
  let! sol := cho_solve_mat (el_L e) (fst rc) (np_T (snd rc) rows) in
  Ok (diag_of_product (fst rc) (snd rc) (a_data Kt) sol).

(** interpolated_llgp.py:390-397 [_var_predict_on_the_fly]: without test
    points [inverted] is an array of shape (0,), which cannot be multiplied
    (unless there are no observations either). *)
Definition var_on_the_fly (solve : Mat -> vec -> result vec) (g : gp) (k : gp_kernel) (Xs : list ndarr) : result vec :=
  let! Kt := kernel_from_indices Xs (mg_Xs (gp_data g)) (gp_f g) in
  let! (rc, rows) := array_rows Kt in
  let! inverted := map_result (solve (al_K (gpk_lik k))) rows in
  if Nat.eqb (fst rc) 0 then Err ValueError
  else if negb (forallb (fun v => Nat.eqb (length v) (snd rc)) inverted) then Err ValueError
  else Ok (diag_of_product (fst rc) (snd rc) (a_data Kt) (np_T (snd rc) inverted)).

(** interpolated_llgp.py:358-365 [_var_solve] *)
Definition var_solve (solve : Mat -> vec -> result vec) (i : nat) (K K_XU K_UX : Mat) : result R :=
  let x := tab (snd (shape K_XU)) (fun j => if Nat.eqb j i then 1 else 0) in
  let x := matvec K_XU x in
  let! x := solve K x in
  Ok (vget (matvec K_UX x) i).

(** interpolated_llgp.py:367-382 [_precomputed_nu]; the first summand of
    [kernel.K] is the grid kernel of the first set of active dimensions. *)
Definition precomputed_nu (solve : Mat -> vec -> result vec) (g : gp) (k : gp_kernel) : result vec :=
  let interps := grids_interps (gp_grids g) in
  if negb (Nat.eqb (length interps) 1) then Err ValueError
  else
    let! W := dict_get interps (seq 0 (mg_P (gp_data g))) in
    let! K_UU := (match gpk_grids k with [] => Err AttributeError | p :: _ => Ok (gk_grid (snd p)) end) in
    let! w := wrap (sp_r (fst W), sp_c (fst W)) (sp_dot1 (fst W)) in
    let! K_XU := composition [w; K_UU] in
    let! wt := wrap (sp_r (snd W), sp_c (snd W)) (sp_dot1 (snd W)) in
    let! K_UX := composition [K_UU; wt] in
    map_result (fun i => var_solve solve i (al_K (gpk_lik k)) K_XU K_UX) (seq 0 (snd (shape K_XU))).

(** [W.dot(x)] *)
Definition csr_dot (W : csr) (x : vec) : result vec :=
  if Nat.eqb (c_c W) (length x) then Ok (csr_dot1 W x) else Err ValueError.

(** interpolated_llgp.py:384-388 [_var_predict_precompute] *)
Definition var_precompute (solve : Mat -> vec -> result vec) (g : gp) (k : gp_kernel) (Ws : dict csr) : result vec :=
  let! nu := precomputed_nu solve g k in
  if negb (Nat.eqb (length Ws) 1) then Err AssertionError
  else match Ws with (_, W) :: _ => csr_dot W nu | [] => Err AssertionError end.

(** [mean += W.dot(v)] *)
Definition add_pass (n : nat) (m v : vec) : result vec :=
  if Nat.eqb (length v) n then Ok (vadd m v) else Err ValueError.

(** [a - b] for arrays of one length *)
Definition vsub (u v : vec) : vec := map (fun p => fst p - snd p) (combine u v).

(** [var[var < 0] = 0] *)
Definition clip0 (v : vec) : vec := map (fun x => if Rlt_dec x 0 then 0 else x) v.

(** interpolated_llgp.py:324-348 [_raw_predict], once [self.kernel] is set. *)
Definition raw_predict (solve : Mat -> vec -> result vec) (g : gp) (k : gp_kernel) (Xs : list ndarr)
  : result (list vec * list vec) :=
  let! lens := map_result np_len Xs in
  let! ga := grid_alpha g k in
  let! nv := native_variance (gp_f g) in
  let! Ws := map_result (fun p =>
      let! Xa := map_result (take_cols (fst p)) Xs in
      let! ag := dict_get (gp_grids g) (fst p) in
      let! W := multi_interpolant Xa (map np1 (ag_axes ag)) in
      let! d := csr_dot W (snd p) in
      Ok (fst p, W, d)) ga in
  let! mean := fold_left (fun acc x => let! m := acc in add_pass (nsum lens) m (snd x)) Ws (Ok (repeat 0 (nsum lens))) in
  let! nv := repeat_counts nv lens in
  let! explained := (match gp_mode g with
                     | OnTheFly => var_on_the_fly solve g k Xs
                     | Precompute => var_precompute solve g k (map fst Ws)
                     | Exact => var_exact g Xs
                     end) in
  if negb (Nat.eqb (length nv) (length explained)) then Err ValueError
  else
    let var := clip0 (vsub nv explained) in
    let endpoints := removelast (accumulate lens) in
    Ok (np_split mean endpoints, np_split var endpoints).

(** multigp.py:106-117 [_predict] *)
Definition gp_predict_norm (solve : Mat -> vec -> result vec) (g : gp) (k : gp_kernel) (Xs : list ndarr) (unnorm : bool)
  : result (list vec * list vec) :=
  let d := gp_data g in
  if negb (Nat.eqb (length Xs) (mg_D d)) then Err AssertionError
  else if negb (forallb (fun X => Nat.eqb (nth 1 (a_shape X) 0%nat) (mg_P d)) Xs) then Err AssertionError
  else
    let! (mu, var) := raw_predict solve g k Xs in
    match mg_norm d, unnorm with
    | Some norms, true => Ok (map (fun nm => inverse_mean (fst nm) (snd nm)) (combine norms mu),
                              map (fun nv => inverse_variance (fst nv) (snd nv)) (combine norms var))
    | _, _ => Ok (mu, var)
    end.

(** multigp.py:119-141 [predict] *)
Definition gp_predict (solve : Mat -> vec -> result vec) (g : gp) (k : gp_kernel) (Xs : list ndarr) : result (list vec * list vec) :=
  let! Xs := pad_dims (mg_P (gp_data g)) Xs in
  gp_predict_norm solve g k Xs true.

(** multigp.py:143-165 [predict_quantiles]; [ppf] is [scipy.stats.norm.ppf].
    [Norm.inverse_mean] works elementwise on the 2-D arrays. *)
Definition gp_predict_quantiles (ppf : R -> R) (solve : Mat -> vec -> result vec) (g : gp) (k : gp_kernel) (Xs : list ndarr)
           (quantiles : vec) : result (list mx) :=
  let! Xs := pad_dims (mg_P (gp_data g)) Xs in
  let! (mu, var) := gp_predict_norm solve g k Xs false in
  let zs := map (fun q => ppf (q / 100)) quantiles in
  let qs := map (fun mv => mk (length (snd mv)) (length zs) (fun i j =>
                   sqrt (vget (snd mv) i) * vget zs j + vget (fst mv) i)) (combine mu var) in
  match mg_norm (gp_data g) with
  | Some norms => Ok (map (fun nq => map (inverse_mean (fst nq)) (snd nq)) (combine norms qs))
  | None => Ok qs
  end.
