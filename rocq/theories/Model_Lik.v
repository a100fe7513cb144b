(** Model of runlmc/lmc/likelihood.py, derivative.py, exact_deriv.py and
    stochastic_deriv.py. *)

From Coq Require Import Reals List Arith ZArith.
From Verif Require Import Base NDArray Model_Util Model_Linalg Model_Interp Model_Kern Model_FK Model_Grid.
Import ListNotations.
Open Scope R_scope.

(** ** numpy and scipy operations

    Stand-ins, in exact arithmetic, for what the code calls. *)

(** [np.atleast_2d] on the shape *)
Definition atleast_2d (a : ndarr) : ndarr :=
  match a_shape a with
  | [] => mk_arr [1%nat; 1%nat] (a_data a)
  | [n] => mk_arr [1%nat; n] (a_data a)
  | s => mk_arr s (a_data a)
  end.

(** [np.vstack]: ValueError on an empty list or if the arrays (made at least
    2-D) differ in the number of columns.  (More than two dimensions: not
    modelled, an error.) *)
Definition vstack (Xs : list ndarr) : result ndarr :=
  match map atleast_2d Xs with
  | [] => Err ValueError
  | a :: _ =>
    let P := nth 1 (a_shape a) 0%nat in
    if forallb (fun x => match a_shape (atleast_2d x) with [_; p] => Nat.eqb p P | _ => false end) Xs then
      Ok (mk_arr [nsum (map (fun x => nth 0 (a_shape (atleast_2d x)) 0%nat) Xs); P] (concat (map a_data Xs)))
    else Err ValueError
  end.

(** Row [i] of a 2-D array with [P] columns. *)
Definition row_of (P : nat) (a : ndarr) (i : nat) : vec := tab P (fun p => vget (a_data a) (i * P + p)).

(** [scipy.spatial.distance.cdist], Euclidean. *)
Definition cdist (X Z : ndarr) : result ndarr :=
  match a_shape X, a_shape Z with
  | [n; P], [m; P'] =>
    if Nat.eqb P P' then
      Ok (mk_arr [n; m] (concat (tab n (fun i => tab m (fun j => la_dist (row_of P X i) (row_of P Z j))))))
    else Err ValueError
  | _, _ => Err ValueError
  end.

(** [sum(arrays)] and [a + b] for arrays of one shape.  (The list is never
    empty: there is at least one kernel.) *)
Definition arr_eqshape (a b : ndarr) : bool := dims_eqb (a_shape a) (a_shape b).
Definition arr_add (a b : ndarr) : result ndarr :=
  if arr_eqshape a b then Ok (mk_arr (a_shape a) (vadd (a_data a) (a_data b))) else Err ValueError.
Fixpoint arr_sum_from (acc : ndarr) (l : list ndarr) : result ndarr :=
  match l with
  | [] => Ok acc
  | a :: l' => let! s := arr_add acc a in arr_sum_from s l'
  end.
Definition arr_sum (l : list ndarr) : result ndarr :=
  match l with [] => Err TypeError | a :: l' => arr_sum_from a l' end.

(** [np.diag(v)] for a 1-D array. *)
Definition arr_diag (v : vec) : ndarr := np2 (length v) (length v) (np_diag v).

(** [np.repeat(v, counts)] with a list of counts.  (A single count is
    broadcast by numpy: not modelled, an error.) *)
Definition repeat_counts (v : vec) (counts : list nat) : result vec :=
  if Nat.eqb (length counts) (length v) then Ok (np_repeat v counts) else Err ValueError.

(** The upper Cholesky factor by the textbook recursion (LAPACK's potrf in
    exact arithmetic); None when a pivot is not positive. *)
Fixpoint chol (n : nat) (F : nat -> nat -> R) : option (nat -> nat -> R) :=
  match n with
  | O => Some (fun _ _ => 0)
  | S m =>
    if Rlt_dec 0 (F O O) then
      let r := sqrt (F O O) in
      match chol m (fun i j => F (S i) (S j) - F O (S i) / r * (F O (S j) / r)) with
      | Some U => Some (fun i j => match i, j with
                                   | O, _ => F O j / r
                                   | S _, O => 0
                                   | S i', S j' => U i' j'
                                   end)
      | None => None
      end
    else None
  end.

(** [scipy.linalg.cho_factor(K)[0]] *)
Definition cho_factor (K : ndarr) : result mx :=
  match a_shape K with
  | [n; m] =>
    if Nat.eqb n m then
      match chol n (fun i j => vget (a_data K) (i * n + j)) with
      | Some U => Ok (mk n n U)
      | None => Err LinAlgError
      end
    else Err ValueError
  | _ => Err ValueError
  end.

(** Solution of [U^T U x = b] for upper triangular [U]: forward then backward
    substitution (LAPACK's potrs in exact arithmetic). *)
Fixpoint potrs (n : nat) (U : nat -> nat -> R) (b : nat -> R) : nat -> R :=
  match n with
  | O => fun _ => 0
  | S m =>
    let z := b O / U O O in
    let x := potrs m (fun i j => U (S i) (S j)) (fun i => b (S i) - U O (S i) * z) in
    fun i => match i with
             | O => (z - Rsum m (fun j => U O (S j) * x j)) / U O O
             | S i' => x i'
             end
  end.

(** [scipy.linalg.cho_solve] for a vector, and for a matrix with [k] columns *)
Definition cho_solve (L : mx) (b : vec) : result vec :=
  let n := length L in
  if Nat.eqb (length b) n then Ok (tab n (potrs n (mget L) (vget b))) else Err ValueError.
Definition cho_solve_mat (L : mx) (k : nat) (B : mx) : result mx :=
  let n := length L in
  if Nat.eqb (length B) n then Ok (mk n k (fun i j => potrs n (mget L) (fun r => mget B r j) i)) else Err ValueError.

(** ** LMCLikelihood

    What a subclass supplies (likelihood.py:33-46); [T] is the type of
    matrices it works with. *)
Record lik_ops (T : Type) := mk_ops {
  dK_dA : mx -> nat -> result T;          (* _dKdt_from_dAdt *)
  dKs_dKq : mx -> nat -> result (list T); (* _dKdts_from_dKqdts *)
  dK_dEps : vec -> result T;              (* _dKdt_from_dEpsdt *)
  dL_dK : T -> result R                   (* _dLdt_from_dKdt *)
}.
Arguments mk_ops {T}. Arguments dK_dA {T}. Arguments dKs_dKq {T}. Arguments dK_dEps {T}. Arguments dL_dK {T}.

(** likelihood.py:54-57: zeros with row [j], then column [j], increased by
    [ai]. *)
Definition dA_vec (D : nat) (ai : vec) (j : nat) : mx :=
  let dA := mk D D (fun _ _ => 0) in
  let dA := mk D D (fun r c => if Nat.eqb r j then mget dA r c + vget ai c else mget dA r c) in
  mk D D (fun r c => if Nat.eqb c j then mget dA r c + vget ai r else mget dA r c).

(** likelihood.py:48-62 [coreg_vec_gradients] *)
Definition coreg_vec_gradients {T} (o : lik_ops T) (f : fkernel) : result (list mx) :=
  map_result (fun qa =>
    map_result (fun ai =>
      map_result (fun j => let! dK := dK_dA o (dA_vec (f_D f) ai j) (fst qa) in dL_dK o dK) (seq 0 (f_D f)))
    (snd qa)) (combine (seq 0 (length (f_vecs f))) (f_vecs f)).

(** likelihood.py:64-77 [coreg_diags_gradients]: [zeros] is restored after
    every use. *)
Definition dA_diag (D i : nat) : mx :=
  mk D D (fun r c => if (Nat.eqb r i && Nat.eqb c i)%bool then 1 else 0).
Definition coreg_diags_gradients {T} (o : lik_ops T) (f : fkernel) : result (list vec) :=
  map_result (fun q =>
    map_result (fun i => let! dK := dK_dA o (dA_diag (f_D f) i) q in dL_dK o dK) (seq 0 (f_D f)))
    (seq 0 (f_Q f)).

(** likelihood.py:79-87 [kernel_gradients] *)
Definition kernel_gradients {T} (o : lik_ops T) (f : fkernel) : result (list (list R)) :=
  let! As := coreg_mats f None in
  map_result (fun qA => let! dKs := dKs_dKq o (snd qA) (fst qA) in map_result (dL_dK o) dKs)
             (combine (seq 0 (length As)) As).

(** likelihood.py:89-96 [noise_gradient] *)
Definition d_noise (D i : nat) : vec := tab D (fun r => if Nat.eqb r i then 1 else 0).
Definition noise_gradient {T} (o : lik_ops T) (f : fkernel) : result vec :=
  let n := length (f_noise f) in
  let! g := map_result (fun i => let! dK := dK_dEps o (d_noise (f_D f) i) in
                                 let! v := dL_dK o dK in
                                 if Nat.ltb i n then Ok v else Err IndexError) (seq 0 (f_D f)) in
  Ok (g ++ repeat 0 (n - f_D f)).

(** What [FunctionalKernel.update_gradient] reads off a likelihood. *)
Definition all_gradients {T} (o : lik_ops T) (f : fkernel) : result gradients :=
  let! v := coreg_vec_gradients o f in
  let! d := coreg_diags_gradients o f in
  let! k := kernel_gradients o f in
  let! n := noise_gradient o f in
  Ok (mk_grads v d k n).

(** derivative.py:5-6 *)
Definition derivative (quadratic logdet : R) : R := 1 / 2 * (quadratic - logdet).

(** ** ExactLMCLikelihood *)

(** [K[rb:re, cb:ce] *= c] on an n x m array *)
Definition scale_block (n m rb re cb ce : nat) (c : R) (data : vec) : vec :=
  concat (tab n (fun i => tab m (fun j =>
    if (Nat.leb rb i && Nat.ltb i re && Nat.leb cb j && Nat.ltb j ce)%bool
    then vget data (i * m + j) * c else vget data (i * m + j)))).

(** likelihood.py:155-165 [_coreg_scale]; [A] is D x D.  A kernel evaluated
    to [np.nan] is copied to an array without dimensions: IndexError. *)
Definition coreg_scale (A : mx) (K : kvalue) (rlens clens : list nat) (D : nat) : result ndarr :=
  let! r := begin_end_indices rlens in
  let! c := begin_end_indices clens in
  match K with
  | KNan => Err IndexError
  | KArr a =>
    match a_shape a with
    | [n; m] =>
      let! d := fold_left (fun acc ij =>
          let! data := acc in
          let! rb := py_index (fst r) (fst ij) in
          let! re := py_index (snd r) (fst ij) in
          let! cb := py_index (fst c) (snd ij) in
          let! ce := py_index (snd c) (snd ij) in
          Ok (scale_block n m rb re cb ce (mget A (fst ij) (snd ij)) data))
        (list_prod (seq 0 D) (seq 0 D)) (Ok (a_data a)) in
      Ok (mk_arr [n; m] d)
    | _ => Err IndexError
    end
  end.

(** likelihood.py:171-178 [_gen_dists] *)
Definition gen_dists (ads : list dims) (X Z : ndarr) : result (dict ndarr) :=
  map_result (fun ad => let! x := take_cols ad X in
                        let! z := take_cols ad Z in
                        let! d := cdist x z in Ok (ad, d)) ads.

Definition as_args (d : dict ndarr) : dict dists_arg := map (fun p => (fst p, Arr (snd p))) d.

(** The scaled kernel matrices summed (likelihood.py:146-148, 197-199). *)
Definition sum_scaled (f : fkernel) (Kqs : list kvalue) (rlens clens : list nat) : result ndarr :=
  let! As := coreg_mats f None in
  let! l := map_result (fun AK => coreg_scale (fst AK) (snd AK) rlens clens (f_D f)) (combine As Kqs) in
  arr_sum l.

(** likelihood.py:180-200 [kernel_from_indices] ([vstack] never returns a 1-D
    array, so the two reshapes do nothing). *)
Definition kernel_from_indices (Xs Zs : list ndarr) (f : fkernel) : result ndarr :=
  let! rlens := map_result np_len Xs in
  let! clens := map_result np_len Zs in
  let! X := vstack Xs in
  let! Z := vstack Zs in
  let! dists := gen_dists (map fst (f_active f)) X Z in
  let! Kqs := eval_kernels f (as_args dists) in
  sum_scaled f Kqs rlens clens.

(** An ExactLMCLikelihood with its ExactDeriv. *)
Record exact_lik := mk_el {
  el_y : vec;
  el_lens : list nat;
  el_kernels : list kvalue;          (* materialized_kernels *)
  el_K : ndarr;
  el_L : mx;                         (* L[0] *)
  el_Kinv : mx;                      (* deriv.Kinv *)
  el_alpha : vec;                    (* deriv.alpha *)
  el_grads : list (list kvalue)      (* materialized_grads *)
}.

(** likelihood.py:28-31 and 138-153 [__init__], exact_deriv.py:13-17. *)
Definition exact_init (f : fkernel) (Xs : list ndarr) (Ys : list vec) : result exact_lik :=
  let y := concat Ys in                           (* np.hstack *)
  let lens := map (@length R) Ys in
  let! X := vstack Xs in
  let! dists := gen_dists (map fst (f_active f)) X X in
  let! Kqs := eval_kernels f (as_args dists) in
  let! K := sum_scaled f Kqs lens lens in
  let! eps := repeat_counts (f_noise f) lens in
  let! K := arr_add K (arr_diag eps) in
  let! L := cho_factor K in
  let! Kinv := cho_solve_mat L (length L) (np_identity (length L)) in
  let! alpha := cho_solve L y in
  let! grads := eval_kernel_gradients f dists in
  Ok (mk_el y lens Kqs K L Kinv alpha grads).

(** exact_deriv.py:19-23, [dKdt] a dense array of the shape of [K]. *)
Definition exact_d_quadratic (e : exact_lik) (dK : ndarr) : result R :=
  let n := length (el_alpha e) in
  if dims_eqb (a_shape dK) [n; n] then
    Ok (np_vdot (el_alpha e) (np_dot1 (arr_rows n n (a_data dK)) (el_alpha e)))
  else Err ValueError.
Definition exact_d_logdet (e : exact_lik) (dK : ndarr) : result R :=
  let n := length (el_Kinv e) in
  if dims_eqb (a_shape dK) [n; n] then
    Ok (lsum (map (fun p => fst p * snd p) (combine (a_data dK) (concat (el_Kinv e)))))
  else Err ValueError.

(** [l[q]] for a list attribute *)
Definition py_item {A} (l : list A) (q : nat) : result A := py_index l q.

(** likelihood.py:167-169 and 202-217 *)
Definition exact_ops (f : fkernel) (e : exact_lik) : lik_ops ndarr :=
  let scale A K := coreg_scale A K (el_lens e) (el_lens e) (f_D f) in
  mk_ops
    (fun dA q => let! K := py_item (el_kernels e) q in scale dA K)
    (fun A q => let! g := py_item (el_grads e) q in map_result (scale A) g)
    (fun eps => let! v := repeat_counts eps (el_lens e) in Ok (arr_diag v))
    (fun dK => let! a := exact_d_quadratic e dK in
               let! b := exact_d_logdet e dK in Ok (derivative a b)).

(** ** ApproxLMCLikelihood *)

(** What [StochasticDerivService.generate] returns. *)
Record stoch_deriv := mk_sd { sd_alpha : vec; sd_rs : list vec; sd_inv_rs : list vec; sd_n_it : nat }.

(** stochastic_deriv.py:33-49 [generate]: [bits] is the array drawn by
    [np.random.randint(0, 2, (n_it, n))]; [solve] is [Iterative.solve] with the
    operator first.  (The metrics recorded do not enter the result.) *)
Definition sd_generate (solve : Mat -> vec -> result vec) (bits : list (list bool)) (n_it : nat) (K : Mat) (y : vec)
  : result stoch_deriv :=
  let rs := map (map (fun b : bool => (if b then 1 else 0) * 2 - 1)) bits in
  let! solved := map_result (solve K) (y :: rs) in
  match solved with
  | [] => Err IndexError
  | a :: inv => Ok (mk_sd a rs inv n_it)
  end.

(** stochastic_deriv.py:69-70 *)
Definition sd_d_quadratic (s : stoch_deriv) (dK : Mat) : R := np_vdot (sd_alpha s) (matvec dK (sd_alpha s)).
(** stochastic_deriv.py:72-78.  ([n_it = 0] is a division by zero.) *)
Definition sd_d_logdet (s : stoch_deriv) (dK : Mat) : result R :=
  if Nat.eqb (sd_n_it s) 0 then Err ZeroDivisionError
  else Ok (lsum (map (fun p => np_vdot (snd p) (matvec dK (fst p))) (combine (sd_rs s) (sd_inv_rs s))) / INR (sd_n_it s)).

Record approx_lik := mk_al {
  al_lens : list nat;
  al_kernels : list Mat;
  al_K : Mat;
  al_deriv : stoch_deriv;
  al_grads : list (list kvalue);
  al_interps : interpolants
}.

(** [BTTB(d.ravel(), d.shape)]; [np.nan] has no [ravel]. *)
Definition bttb_of_value (v : kvalue) : result Mat :=
  match v with KArr a => bttb_of (a_shape a) (a_data a) | KNan => Err AttributeError end.

(** likelihood.py:100-110 [__init__] *)
Definition approx_init (solve : Mat -> vec -> result vec) (bits : list (list bool)) (n_it : nat)
           (f : fkernel) (K : Mat) (dists : dict ndarr) (interps : interpolants) (Ys : list vec) : result approx_lik :=
  let! Kqs := eval_kernels f (as_args dists) in
  let! ms := map_result bttb_of_value Kqs in
  let! d := sd_generate solve bits n_it K (concat Ys) in
  let! grads := eval_kernel_gradients f dists in
  Ok (mk_al (map (@length R) Ys) ms K d grads interps).

(** likelihood.py:112-115 [_ski] *)
Definition approx_ski (f : fkernel) (l : approx_lik) (q : nat) (X : Mat) : result Mat :=
  let! k := py_item (f_kernels f) q in
  let! W := get_ad (al_interps l) (snd k) in
  ski X (fst W) (snd W).

(** likelihood.py:117-134 *)
Definition approx_ops (f : fkernel) (l : approx_lik) : lik_ops Mat :=
  let kron A (K : Mat) := let! a := np_mat (f_D f) (f_D f) A in kronecker a K in
  mk_ops
    (fun dA q => let! K := py_item (al_kernels l) q in
                 let! X := kron dA K in approx_ski f l q X)
    (fun A q => let! g := py_item (al_grads l) q in
                map_result (fun v => let! K := bttb_of_value v in
                                     let! X := kron A K in approx_ski f l q X) g)
    (fun eps => let! v := repeat_counts eps (al_lens l) in diag (np1 v))
    (fun dK => let! b := sd_d_logdet (al_deriv l) dK in
               Ok (derivative (sd_d_quadratic (al_deriv l) dK) b)).
