(** Model of the state of InterpolatedLLGP objects: the caches that
    [functools.lru_cache] attaches to the class, the attribute [kernel] and the
    metrics (runlmc/models/interpolated_llgp.py, runlmc/lmc/metrics.py).

    Methods run in a state monad; a state change made before an exception
    stays. *)

From Coq Require Import Reals List Arith ZArith.
From Verif Require Import Base NDArray Model_Util Model_Linalg Model_Interp Model_Kern Model_FK Model_Grid Model_Lik Model_GP.
Import ListNotations.
Open Scope R_scope.

(** metrics.py:4-10 *)
Record metrics := mk_metrics {
  iterations : list R; grad_norms : list R; grad_error : list R; solv_error : list R; log_likely : list ext
}.
Definition no_metrics : metrics := mk_metrics [] [] [] [] [].

(** An InterpolatedLLGP object.  Metrics objects are shared by reference with
    the derivative service ([in_service]); references are numbers. *)
Record inst := mk_inst {
  in_gp : gp; in_kernel : option gp_kernel; in_slots : grad_slots; in_metrics : option nat; in_service : option nat
}.

(** All objects, the metrics objects and the four caches of the class, each
    with at most one entry ([maxsize=1]) under the object it was called on. *)
Record world := mk_world {
  w_inst : nat -> option inst; w_count : nat;
  w_heap : nat -> metrics; w_next : nat;
  c_dense : option (nat * exact_lik);
  c_alpha : option (nat * dict vec);
  c_native : option (nat * vec);
  c_nu : option (nat * vec)
}.
Definition no_world : world := mk_world (fun _ => None) 0 (fun _ => no_metrics) 0 None None None None.

Definition M (A : Type) := world -> world * result A.
Definition ret {A} (a : A) : M A := fun w => (w, Ok a).
Definition lift {A} (r : result A) : M A := fun w => (w, r).
Definition mbind {A B} (m : M A) (k : A -> M B) : M B :=
  fun w => match snd (m w) with Ok a => k a (fst (m w)) | Err e => (fst (m w), Err e) end.
Notation "'do!' x ':=' m 'in' k" := (mbind m (fun x => k)) (at level 200, x pattern, m at level 100, k at level 200).

Definition at_key {A} (i : nat) (a : A) (f : nat -> A) : nat -> A := fun j => if Nat.eqb j i then a else f j.

(** The object itself ([self]). *)
Definition self_ (i : nat) : M inst := fun w => match w_inst w i with Some o => (w, Ok o) | None => (w, Err AttributeError) end.
Definition set_self (i : nat) (o : inst) : M unit :=
  fun w => (mk_world (at_key i (Some o) (w_inst w)) (w_count w) (w_heap w) (w_next w)
                     (c_dense w) (c_alpha w) (c_native w) (c_nu w), Ok tt).
Definition new_metrics : M nat :=
  fun w => (mk_world (w_inst w) (w_count w) (at_key (w_next w) no_metrics (w_heap w)) (S (w_next w))
                     (c_dense w) (c_alpha w) (c_native w) (c_nu w), Ok (w_next w)).
Definition on_metrics (r : nat) (u : metrics -> metrics) : M unit :=
  fun w => (mk_world (w_inst w) (w_count w) (at_key r (u (w_heap w r)) (w_heap w)) (w_next w)
                     (c_dense w) (c_alpha w) (c_native w) (c_nu w), Ok tt).

(** [functools.lru_cache(maxsize=1)]: a call on the object in the cache returns
    the cached value; another call replaces the entry unless it raises. *)
Definition lru {A} (get : world -> option (nat * A)) (put : option (nat * A) -> world -> world) (i : nat) (m : M A) : M A :=
  fun w =>
    match get w with
    | Some (j, a) => if Nat.eqb i j then (w, Ok a) else mbind m (fun a w => (put (Some (i, a)) w, Ok a)) w
    | None => mbind m (fun a w => (put (Some (i, a)) w, Ok a)) w
    end.
Definition put_dense c w := mk_world (w_inst w) (w_count w) (w_heap w) (w_next w) c (c_alpha w) (c_native w) (c_nu w).
Definition put_alpha c w := mk_world (w_inst w) (w_count w) (w_heap w) (w_next w) (c_dense w) c (c_native w) (c_nu w).
Definition put_native c w := mk_world (w_inst w) (w_count w) (w_heap w) (w_next w) (c_dense w) (c_alpha w) c (c_nu w).
Definition put_nu c w := mk_world (w_inst w) (w_count w) (w_heap w) (w_next w) (c_dense w) (c_alpha w) (c_native w) c.

(** interpolated_llgp.py:399-403 [_clear_caches]: [cache_clear] empties the
    cache of the class, for all objects. *)
Definition clear_caches : M unit :=
  fun w => (put_nu None (put_native None (put_alpha None (put_dense None w))), Ok tt).

(** [self.kernel.x] *)
Definition kernel_ (i : nat) : M gp_kernel :=
  do! o := self_ i in match in_kernel o with Some k => ret k | None => lift (Err AttributeError) end.

(** interpolated_llgp.py:247-250 [_dense] *)
Definition st_dense (i : nat) : M exact_lik :=
  lru c_dense put_dense i (do! o := self_ i in lift (gp_dense (in_gp o))).

(** interpolated_llgp.py:252-260 [K] *)
Definition st_K (i : nat) : M ndarr := do! e := st_dense i in ret (el_K e).

(** interpolated_llgp.py:262-276 [log_det_K] *)
Definition st_log_det_K (i : nat) : M ext :=
  do! e := st_dense i in
  let d := tab (length (el_L e)) (fun i => mget (el_L e) i i) in
  let lgdet := lsum (map ln d) * 2 in
  let sgn := fold_right Rmult 1 (map np_sign d) in
  if Rle_dec sgn 0 then ret NInf else ret (Fin lgdet).

(** interpolated_llgp.py:278-285 [normal_quadratic] *)
Definition st_normal_quadratic (i : nat) : M R :=
  do! o := self_ i in
  do! k := kernel_ i in
  ret (gp_normal_quadratic (in_gp o) k).

(** interpolated_llgp.py:287-290 [log_likelihood] *)
Definition st_log_likelihood (i : nat) : M ext :=
  do! d := st_log_det_K i in
  do! q := st_normal_quadratic i in
  do! o := self_ i in
  match d with
  | Fin v => ret (Fin (- (1 / 2) * (v + q + INR (length (concat (mg_Ys (gp_data (in_gp o))))) * ln (2 * PI))))
  | NInf => ret PInf
  | PInf => ret NInf
  end.

(** [np.concatenate] of a list of vectors, [la.norm(v, np.inf)], [np.mean] *)
Definition np_concat (l : list vec) : result vec := match l with [] => Err ValueError | _ => Ok (concat l) end.
Definition inf_norm (v : vec) : result R :=
  match v with [] => Err ValueError | x :: l => Ok (fold_left (fun m y => Rmax m (Rabs y)) l (Rabs x)) end.
Definition np_mean_l (l : list R) : R := lsum l / INR (length l).

(** interpolated_llgp.py:229-236: all gradients of a likelihood in one array *)
Definition flat_gradient {T} (o : lik_ops T) (f : fkernel) : result vec :=
  let! v := coreg_vec_gradients o f in
  let! v := np_concat (map (@concat R) v) in
  let! d := coreg_diags_gradients o f in
  let! d := np_concat d in
  let! k := kernel_gradients o f in
  let! k := np_concat k in
  let! n := noise_gradient o f in
  Ok (v ++ d ++ k ++ n).

Section Machine.
  (** [Iterative.solve]: solution; iteration count and error when verbose. *)
  Variable solve : Mat -> vec -> result vec.
  Variable info : Mat -> vec -> R * R.
  (** trace_iterations, and whether DEBUG messages are logged. *)
  Variable n_it : nat.
  Variable debug : bool.
  (** [scipy.stats.norm.ppf] *)
  Variable ppf : R -> R.

  (** stochastic_deriv.py:33-49 [generate] with its metrics *)
  Definition st_generate (i : nat) (bits : list (list bool)) (K : Mat) (y : vec) : M stoch_deriv :=
    do! d := lift (sd_generate solve bits n_it K y) in
    do! o := self_ i in
    match in_service o with
    | None => ret d
    | Some r =>
      let done := map (info K) (y :: sd_rs d) in
      do! _ := on_metrics r (fun m => mk_metrics (iterations m ++ [np_mean_l (map fst done)]) (grad_norms m) (grad_error m)
                                                 (solv_error m ++ [np_mean_l (map snd done)]) (log_likely m)) in
      ret d
    end.

  (** likelihood.py:100-110 [ApproxLMCLikelihood.__init__] *)
  Definition st_approx_init (i : nat) (bits : list (list bool)) (K : Mat) : M approx_lik :=
    do! o := self_ i in
    let f := gp_f (in_gp o) in
    let dists := grids_dists (gp_grids (in_gp o)) in
    let Ys := mg_Ys (gp_data (in_gp o)) in
    do! Kqs := lift (eval_kernels f (as_args dists)) in
    do! ms := lift (map_result bttb_of_value Kqs) in
    do! d := st_generate i bits K (concat Ys) in
    do! grads := lift (eval_kernel_gradients f dists) in
    ret (mk_al (map (@length R) Ys) ms K d grads (grids_interps (gp_grids (in_gp o)))).

  (** interpolated_llgp.py:226-245: the metrics of one update *)
  Definition st_record (i : nat) : M unit :=
    do! o := self_ i in
    match in_metrics o with
    | None => ret tt
    | Some r =>
      let f := gp_f (in_gp o) in
      do! k := kernel_ i in
      do! e := st_dense i in
      do! ga := lift (flat_gradient (approx_ops f (gpk_lik k)) f) in
      do! ge := lift (flat_gradient (exact_ops f e) f) in
      do! na := lift (inf_norm ga) in
      do! ne := lift (inf_norm ge) in
      do! nd := lift (if Nat.eqb (length ga) (length ge) then inf_norm (vsub ga ge) else Err ValueError) in
      do! _ := on_metrics r (fun m => mk_metrics (iterations m) (grad_norms m ++ [na]) (grad_error m) (solv_error m) (log_likely m)) in
      do! _ := on_metrics r (fun m => mk_metrics (iterations m) (grad_norms m) (grad_error m ++ [nd / ne]) (solv_error m) (log_likely m)) in
      do! l := st_log_likelihood i in
      on_metrics r (fun m => mk_metrics (iterations m) (grad_norms m) (grad_error m) (solv_error m) (log_likely m ++ [l]))
    end.

  (** interpolated_llgp.py:192-245 [parameters_changed] *)
  Definition st_parameters_changed (i : nat) (bits : list (list bool)) : M unit :=
    do! _ := clear_caches in
    do! o := self_ i in
    let g := in_gp o in
    let f := gp_f g in
    do! (K, gks) := lift (gen_grid_kernel f (grids_dists (gp_grids g)) (grids_interps (gp_grids g))
                                          (map (@length R) (mg_Ys (gp_data g)))) in
    do! l := st_approx_init i bits K in
    do! _ := set_self i (mk_inst g (Some (mk_gpk l gks)) (in_slots o) (in_metrics o) (in_service o)) in
    do! _ := (if debug then do! _ := st_log_likelihood i in
                            do! _ := st_normal_quadratic i in
                            do! _ := st_log_det_K i in ret tt
              else ret tt) in
    do! dg := lift (all_gradients (approx_ops f l) f) in
    do! s := lift (fk_update_gradient f dg (in_slots o)) in
    do! _ := set_self i (mk_inst g (Some (mk_gpk l gks)) s (in_metrics o) (in_service o)) in
    st_record i.

  (** interpolated_llgp.py:293-300 [_grid_alpha] *)
  Definition st_grid_alpha (i : nat) : M (dict vec) :=
    lru c_alpha put_alpha i (do! o := self_ i in do! k := kernel_ i in lift (grid_alpha (in_gp o) k)).
  (** interpolated_llgp.py:303-314 [_native_variance] *)
  Definition st_native_variance (i : nat) : M vec :=
    lru c_native put_native i (do! o := self_ i in lift (native_variance (gp_f (in_gp o)))).
  (** interpolated_llgp.py:367-382 [_precomputed_nu] *)
  Definition st_precomputed_nu (i : nat) : M vec :=
    lru c_nu put_nu i (do! o := self_ i in do! k := kernel_ i in lift (precomputed_nu solve (in_gp o) k)).

  (** interpolated_llgp.py:350-397, the three ways to the explained variance *)
  Definition st_var_exact (i : nat) (Xs : list ndarr) : M vec :=
    do! e := st_dense i in
    do! o := self_ i in
    do! Kt := lift (kernel_from_indices Xs (mg_Xs (gp_data (in_gp o))) (gp_f (in_gp o))) in
    do! (rc, rows) := lift (array_rows Kt) in
    do! sol := lift (cho_solve_mat (el_L e) (fst rc) (np_T (snd rc) rows)) in
    ret (diag_of_product (fst rc) (snd rc) (a_data Kt) sol).
  Definition st_var_precompute (i : nat) (Ws : dict csr) : M vec :=
    do! nu := st_precomputed_nu i in
    if negb (Nat.eqb (length Ws) 1) then lift (Err AssertionError)
    else match Ws with (_, W) :: _ => lift (csr_dot W nu) | [] => lift (Err AssertionError) end.
  Definition st_var_on_the_fly (i : nat) (Xs : list ndarr) : M vec :=
    do! o := self_ i in
    do! k := kernel_ i in
    lift (var_on_the_fly solve (in_gp o) k Xs).

  (** interpolated_llgp.py:329-348, the part of [_raw_predict] once there is a
      kernel *)
  Definition st_raw_rest (i : nat) (Xs : list ndarr) (lens : list nat) : M (list vec * list vec) :=
    do! ga := st_grid_alpha i in
    do! nv := st_native_variance i in
    do! o := self_ i in
    let g := in_gp o in
    do! Ws := lift (map_result (fun p =>
        let! Xa := map_result (take_cols (fst p)) Xs in
        let! ag := dict_get (gp_grids g) (fst p) in
        let! W := multi_interpolant Xa (map np1 (ag_axes ag)) in
        let! d := csr_dot W (snd p) in
        Ok (fst p, W, d)) ga) in
    do! mean := lift (fold_left (fun acc x => let! m := acc in add_pass (nsum lens) m (snd x)) Ws (Ok (repeat 0 (nsum lens)))) in
    do! nv := lift (repeat_counts nv lens) in
    do! explained := (match gp_mode g with
                      | OnTheFly => st_var_on_the_fly i Xs
                      | Precompute => st_var_precompute i (map fst Ws)
                      | Exact => st_var_exact i Xs
                      end) in
    if negb (Nat.eqb (length nv) (length explained)) then lift (Err ValueError)
    else
      let var := clip0 (vsub nv explained) in
      let endpoints := removelast (accumulate lens) in
      ret (np_split mean endpoints, np_split var endpoints).

  (** interpolated_llgp.py:324-348 [_raw_predict]; [bits] are drawn only if
      there is no kernel yet. *)
  Definition st_raw_predict (i : nat) (bits : list (list bool)) (Xs : list ndarr) : M (list vec * list vec) :=
    do! lens := lift (map_result np_len Xs) in
    do! o := self_ i in
    do! _ := (match in_kernel o with None => st_parameters_changed i bits | Some _ => ret tt end) in
    st_raw_rest i Xs lens.

  (** multigp.py:106-117 [_predict] *)
  Definition st_predict_norm (i : nat) (bits : list (list bool)) (Xs : list ndarr) (unnorm : bool) : M (list vec * list vec) :=
    do! o := self_ i in
    let d := gp_data (in_gp o) in
    if negb (Nat.eqb (length Xs) (mg_D d)) then lift (Err AssertionError)
    else if negb (forallb (fun X => Nat.eqb (nth 1 (a_shape X) 0%nat) (mg_P d)) Xs) then lift (Err AssertionError)
    else
      do! (mu, var) := st_raw_predict i bits Xs in
      match mg_norm d, unnorm with
      | Some norms, true => ret (map (fun nm => inverse_mean (fst nm) (snd nm)) (combine norms mu),
                                 map (fun nv => inverse_variance (fst nv) (snd nv)) (combine norms var))
      | _, _ => ret (mu, var)
      end.

  (** multigp.py:119-141 [predict] *)
  Definition st_predict (i : nat) (bits : list (list bool)) (Xs : list ndarr) : M (list vec * list vec) :=
    do! o := self_ i in
    do! Xs := lift (pad_dims (mg_P (gp_data (in_gp o))) Xs) in
    st_predict_norm i bits Xs true.

  (** multigp.py:143-165 [predict_quantiles] *)
  Definition st_predict_quantiles (i : nat) (bits : list (list bool)) (Xs : list ndarr) (quantiles : vec) : M (list mx) :=
    do! o := self_ i in
    do! Xs := lift (pad_dims (mg_P (gp_data (in_gp o))) Xs) in
    do! (mu, var) := st_predict_norm i bits Xs false in
    let zs := map (fun q => ppf (q / 100)) quantiles in
    let qs := map (fun mv => mk (length (snd mv)) (length zs) (fun i j =>
                     sqrt (vget (snd mv) i) * vget zs j + vget (fst mv) i)) (combine mu var) in
    match mg_norm (gp_data (in_gp o)) with
    | Some norms => ret (map (fun nq => map (inverse_mean (fst nq)) (snd nq)) (combine norms qs))
    | None => ret qs
    end.

  (** What a user can do.  [New] builds an object (paramz calls
      [parameters_changed] once the constructor has returned); [Update] assigns
      values to linked parameters, upon which paramz calls
      [parameters_changed]; [Rescale] assigns to the scale of a [Scaled] kernel,
      which is not linked (scaled.py:22), so that nothing is called; [Begin]
      is the start of [optimize] (interpolated_llgp.py:186-190), whose steps are
      further updates; [Switch] assigns one of the three names to the attribute
      [prediction] (interpolated_llgp.py:139, as benchmarks/pictures/pics.py:64
      and 145 do), which [_raw_predict] reads anew (line 342) and upon which
      nothing is called.  An unknown name, which is not checked there, is not
      modelled. *)
  Inductive event :=
  | New (Xs Ys : list ndarr) (normalized : bool) (lo hi : grid_arg R) (m : grid_arg nat)
        (pred : option mode) (fk : option fkernel) (with_metrics : bool) (slots : grad_slots) (bits : list (list bool))
  | Update (i : nat) (f : fkernel) (bits : list (list bool))
  | Rescale (i q : nat) (s : R)
  | Begin (i : nat)
  | Switch (i : nat) (md : mode)
  | AskK (i : nat)
  | AskLogDet (i : nat)
  | AskQuadratic (i : nat)
  | AskLogLik (i : nat)
  | AskPredict (i : nat) (Xs : list ndarr) (bits : list (list bool))
  | AskQuantiles (i : nat) (Xs : list ndarr) (quantiles : vec) (bits : list (list bool)).

  Inductive reply :=
  | RUnit | RArr (a : ndarr) | RExt (x : ext) | RNum (x : R) | RPred (p : list vec * list vec) | RQuant (q : list mx).

  Definition as_reply {A} (c : A -> reply) (m : M A) : M reply := do! a := m in ret (c a).

  (** Assigning to the scale of kernel [q]. *)
  Fixpoint on_nth {A} (q : nat) (u : A -> A) (l : list A) : list A :=
    match l, q with
    | [], _ => []
    | a :: l', O => u a :: l'
    | a :: l', S q' => a :: on_nth q' u l'
    end.
  Definition rescale (q : nat) (s : R) (f : fkernel) : fkernel :=
    let u (kd : kern * option dims) := match fst kd with Scaled k _ => (Scaled k s, snd kd) | _ => kd end in
    mk_fk (f_D f) (on_nth q u (f_kernels f)) (f_vecs f) (f_diags f) (f_noise f) (f_nl f) (f_ns f) (f_P f)
          (f_active f) (f_lmc f) (f_slfm f) (f_indep f).

  Definition set_f (o : inst) (f : fkernel) : inst :=
    mk_inst (mk_gp (gp_data (in_gp o)) f (gp_grids (in_gp o)) (gp_mode (in_gp o)))
            (in_kernel o) (in_slots o) (in_metrics o) (in_service o).

  Definition set_mode (o : inst) (md : mode) : inst :=
    mk_inst (mk_gp (gp_data (in_gp o)) (gp_f (in_gp o)) (gp_grids (in_gp o)) md)
            (in_kernel o) (in_slots o) (in_metrics o) (in_service o).

  Definition add_inst (o : inst) : M nat :=
    fun w => (mk_world (at_key (w_count w) (Some o) (w_inst w)) (S (w_count w)) (w_heap w) (w_next w)
                       (c_dense w) (c_alpha w) (c_native w) (c_nu w), Ok (w_count w)).

  Definition step (e : event) : M reply :=
    match e with
    | New Xs Ys nrm lo hi m pred fk wm slots bits =>
      do! g := lift (gp_init Xs Ys nrm lo hi m pred fk) in
      do! r := (if wm then do! r := new_metrics in ret (Some r) else ret None) in
      do! i := add_inst (mk_inst g None slots r r) in
      do! _ := st_parameters_changed i bits in
      ret RUnit
    | Update i f bits =>
      do! o := self_ i in
      do! _ := set_self i (set_f o f) in
      do! _ := st_parameters_changed i bits in
      ret RUnit
    | Rescale i q s =>
      do! o := self_ i in
      do! _ := set_self i (set_f o (rescale q s (gp_f (in_gp o)))) in
      ret RUnit
    | Begin i =>
      do! o := self_ i in
      match in_metrics o with
      | None => ret RUnit
      | Some _ =>
        do! r := new_metrics in
        do! _ := set_self i (mk_inst (in_gp o) (in_kernel o) (in_slots o) (Some r) (Some r)) in
        ret RUnit
      end
    | Switch i md =>
      do! o := self_ i in
      do! _ := set_self i (set_mode o md) in
      ret RUnit
    | AskK i => as_reply RArr (st_K i)
    | AskLogDet i => as_reply RExt (st_log_det_K i)
    | AskQuadratic i => as_reply RNum (st_normal_quadratic i)
    | AskLogLik i => as_reply RExt (st_log_likelihood i)
    | AskPredict i Xs bits => as_reply RPred (st_predict i bits Xs)
    | AskQuantiles i Xs qs bits => as_reply RQuant (st_predict_quantiles i bits Xs qs)
    end.

  (** The state after a history (the latest event first) and the reply to an
      event after it. *)
  Fixpoint run (h : list event) : world := match h with [] => no_world | e :: h' => fst (step e (run h')) end.
  Definition answer (h : list event) (e : event) : result reply := snd (step e (run h)).
End Machine.
