(** Model of the benchmark of the library itself: the generators of kernels
    and the loop of runs of benchmarks/benchlib/standard_tester.py (lines
    35-54, 236-266) and the trackers of benchmarks/asv. *)

From Coq Require Import Reals List Arith ZArith.
From Verif Require Import Base NDArray Model_Util Model_Linalg Model_Interp Model_Kern Model_FK Model_Grid Model_Lik Model_GP Model_Bench Model_Table.
Import ListNotations.
Open Scope R_scope.

(** ** Generators *)

(** What [kgen()], [rgen()], [slfmgen()] and [indepgen()] return; those of the
    benchmarks return new objects with these values at each call. *)
Record gens := mk_gens {
  g_k : list (kern * option dims); g_r : list Z; g_slfm : list (kern * option dims); g_indep : list (kern * option dims) }.

(** standard_tester.py:35-45 [slfm_gp]; rbf.py:33 and scaled.py:20: lengthscale
    and scale 1, no active dimensions *)
Definition slfm_gp (num_outputs slfm_rank : nat) : gens :=
  mk_gens [] [] (repeat (RBF 1, None) slfm_rank) (repeat (Scaled (RBF 1) 1, None) num_outputs).

(** standard_tester.py:48-53 [alvarez_and_lawrence_gp] *)
Definition alvarez_and_lawrence_gp : gens := mk_gens [(RBF 1, None)] [2%Z] [] [].

(** ** Statistics of numbers that may be nan *)

(** [np.std] *)
Definition npf_std (x : list npf) : npf :=
  match npf_mean x with
  | Some m => match npf_mean (map (fun y => match y with Some v => Some ((v - m) ^ 2) | None => None end) x) with
              | Some v => Some (sqrt v) | None => None end
  | None => None
  end.

(** standard_tester.py:263 *)
Definition npf_stats (x : list npf) : npf * npf := (npf_mean x, npf_div (npf_std x) (Some (sqrt (INR (length x))))).

(** ** Runs *)

(** Values for the parameters of a FunctionalKernel. *)
Record values := mk_values { v_kernels : list kern; v_vecs : list mx; v_diags : list vec; v_noise : vec }.

(** [self.optimizer_array = x] of paramz, as far as the FunctionalKernel goes *)
Definition assign (f : fkernel) (v : values) : fkernel :=
  mk_fk (f_D f) (combine (v_kernels v) (map snd (f_kernels f))) (v_vecs v) (v_diags v) (v_noise v) (f_nl f) (f_ns f) (f_P f)
        (f_active f) (f_lmc f) (f_slfm f) (f_indep f).

(** What the arguments of a run do not determine: the random initial
    coregionalization vectors, the initial contents of the gradients, the
    probes used upon construction, the values that the optimiser tries, one
    after the other, with the probes used for each, and the time it takes. *)
Record run_env := mk_env {
  e_rand : nat -> nat -> nat -> R; e_slots : grad_slots; e_bits : list (list bool);
  e_steps : list (values * list (list bool)); e_time : R }.

Section Bench.
  (** [Iterative.solve] and [StochasticDeriv.N_IT] *)
  Variable solve : Mat -> vec -> result vec.
  Variable n_it : nat.

  (** [lmc.optimize(optimizer=opt)]: the model and what parameters_changed
      left at the last of the steps *)
  Fixpoint opt_steps (g : gp) (k : gp_kernel) (s : grad_slots) (steps : list (values * list (list bool))) : result (gp * gp_kernel) :=
    match steps with
    | [] => Ok (g, k)
    | (v, bits) :: r =>
      let g := mk_gp (gp_data g) (assign (gp_f g) v) (gp_grids g) (gp_mode g) in
      let! (k, s) := parameters_changed solve bits n_it g s in
      opt_steps g k s r
    end.

  (** standard_tester.py:243-259: one turn of the loop; [lo], [hi], [md] are
      among [kwargs].  Saving the parameters and printing are not modelled. *)
  Definition one_run (xss yss test_xss : list ndarr) (test_yss : list vec) (gn : gens)
             (lo hi : grid_arg R) (m : grid_arg nat) (md : mode) (e : run_env) : result (R * npf * npf * gp) :=
    let! fk := fk_init (e_rand e) (Some (length xss)) (Some (g_k gn)) (Some (g_r gn)) (Some (g_slfm gn)) (Some (g_indep gn)) None in
    let! lmc := gp_init xss yss true lo hi m (Some md) (Some fk) in
    let! (k, s) := parameters_changed solve (e_bits e) n_it lmc (e_slots e) in
    let! (lmc, k) := opt_steps lmc k s (e_steps e) in
    let! (pred_yss, pred_vss) := gp_predict solve lmc k test_xss in
    let! sm := smse test_yss pred_yss (map a_data yss) in
    let! nl := nlpd test_yss pred_yss pred_vss in
    Ok (e_time e, sm, nl, lmc).

  (** What [bench_runlmc] does: returns the statistics, or these and the model
      of the last run, or raises UnboundLocalError *)
  Inductive bench_out := Stats (s : list (npf * npf)) | StatsModel (s : list (npf * npf)) (lmc : gp) | UnboundLocal.

  (** standard_tester.py:236-266 [bench_runlmc]; [return_lmc] is the value of
      that keyword, if it is given: lines 239-241 look only at whether it is *)
  Definition bench_runlmc (num_runs : nat) (m : grid_arg nat) (xss yss test_xss : list ndarr) (test_yss : list vec) (gn : gens)
             (lo hi : grid_arg R) (md : mode) (return_lmc : option bool) (env : nat -> run_env) : result bench_out :=
    let return_lmc := match return_lmc with Some _ => true | None => false end in
    let! runs := map_result (fun i => one_run xss yss test_xss test_yss gn lo hi m md (env i)) (seq 0 num_runs) in
    let times := map (fun r => Some (fst (fst (fst r)))) runs in
    let smses := map (fun r => snd (fst (fst r))) runs in
    let nlpds := map (fun r => snd (fst r)) runs in
    let stats := map npf_stats [times; smses; nlpds] in
    Ok (if return_lmc then match rev runs with r :: _ => StatsModel stats (snd r) | [] => UnboundLocal end else Stats stats).
End Bench.

(** ** Trackers *)

(** asv/fx2007/fx2007.py and asv/weather/weather.py (lines 28-50)
    [track_mean_time], [track_se_time], [track_mean_smse], [track_se_smse],
    [track_mean_nlpd], [track_se_nlpd] *)
Definition unpack3 {A} (l : list A) : result (A * A * A) := match l with [a; b; c] => Ok (a, b, c) | _ => Err ValueError end.
Definition track_mean_time (s : list (npf * npf)) : result npf := let! ((mean_time, _), _, _) := unpack3 s in Ok mean_time.
Definition track_se_time (s : list (npf * npf)) : result npf := let! ((_, se_time), _, _) := unpack3 s in Ok se_time.
Definition track_mean_smse (s : list (npf * npf)) : result npf := let! (_, (mean_smse, _), _) := unpack3 s in Ok mean_smse.
Definition track_se_smse (s : list (npf * npf)) : result npf := let! (_, (_, se_smse), _) := unpack3 s in Ok se_smse.
Definition track_mean_nlpd (s : list (npf * npf)) : result npf := let! (_, _, (mean_nlpd, _)) := unpack3 s in Ok mean_nlpd.
Definition track_se_nlpd (s : list (npf * npf)) : result npf := let! (_, _, (_, se_nlpd)) := unpack3 s in Ok se_nlpd.
