(** Vocabulary for repeated runs of the benchmark (C97). *)

From Coq Require Import Reals List Arith ZArith.
From Verif Require Import Base NDArray PSD Model_Util Model_Linalg Spec_Linalg Proofs_Linalg Model_Interp Model_Kern Spec_Kern Model_FK Spec_FK Model_Grid Spec_Grid Model_Lik Spec_Lik
  Model_GP Spec_GP Spec_Pred Spec_State Model_Bench Spec_Bench Model_Run.
Import ListNotations.
Open Scope R_scope.

(** ** Statistics *)
Definition mean_over (n : nat) (x : nat -> R) : R := Rsum n x / INR n.
Definition error_over (n : nat) (x : nat -> R) : R := sqrt (Rsum n (fun i => (x i - mean_over n x) ^ 2)) / INR n.

(** ** Kernels *)

(** Kernels without active dimensions, none of them an Identity or periodic,
    with parameters in their ranges; ranks for the LMC kernels; no more
    independent kernels than outputs. *)
Record plain (gn : gens) (D : nat) : Prop := {
  pl_ranks : ranks_ok (g_k gn) (g_r gn);
  pl_some : (0 < length (g_k gn) + length (g_slfm gn) + length (g_indep gn))%nat;
  pl_indep : (length (g_indep gn) <= D)%nat;
  pl_kern : forall k ad, In (k, ad) (g_k gn ++ g_slfm gn ++ g_indep gn) ->
    ad = None /\ positive k /\ no_tiny_period k /\ identity_based k = false /\ has_periodic k = false
}.

(** ** Optimisation *)

(** The values may be given to the parameters of [f]: no shape changes, kernel
    parameters, diagonals and noise are in their ranges. *)
Definition may_take (f : fkernel) (v : values) : Prop :=
  update_ok f (v_kernels v) (v_vecs v) (v_diags v) (v_noise v) /\ kernels_ok (assign f v) /\ proper (assign f v).

(** Only values that are linked change: not the scales of Scaled kernels. *)
Fixpoint scales (k : kern) : list R := match k with Scaled k s => s :: scales k | _ => [] end.
Definition only_linked (f : fkernel) (v : values) : Prop := map scales (v_kernels v) = map scales (map fst (f_kernels f)).

(** The parameters after all steps, and what the steps satisfy. *)
Fixpoint final (f : fkernel) (steps : list (values * list (list bool))) : fkernel :=
  match steps with [] => f | (v, _) :: r => final (assign f v) r end.
Fixpoint path (n_it n : nat) (f : fkernel) (steps : list (values * list (list bool))) : Prop :=
  match steps with
  | [] => True
  | (v, bits) :: r => may_take f v /\ In bits (draws n_it n) /\ path n_it n (assign f v) r
  end.
Fixpoint linked_path (f : fkernel) (steps : list (values * list (list bool))) : Prop :=
  match steps with [] => True | (v, _) :: r => only_linked f v /\ linked_path (assign f v) r end.

(** ** Runs *)

(** The kernel a run starts with. *)
Definition starts (gn : gens) (D P : nat) (e : run_env) (f : fkernel) : Prop :=
  exists f0, fk_init (e_rand e) (Some D) (Some (g_k gn)) (Some (g_r gn)) (Some (g_slfm gn)) (Some (g_indep gn)) None = Ok f0 /\ set_input_dim f0 P = Ok f.

(** What may happen in a run on [n] observations. *)
Definition may_run (n_it n : nat) (gn : gens) (D P : nat) (e : run_env) : Prop :=
  forall f, starts gn D P e f -> slots_fit (e_slots e) f /\ In (e_bits e) (draws n_it n) /\ path n_it n f (e_steps e).

(** Data for the benchmark: arrays of the shapes they claim, documented
    requirements on the data, inputs in [P] dimensions, arguments that the grid
    can be built with. *)
Record bench_data (P : nat) (xss yss : list ndarr) (lo hi : grid_arg R) (m : grid_arg nat) : Prop := {
  bd_x : forall X, In X xss -> length (a_data X) = nprod (a_shape X);
  bd_y : forall Y, In Y yss -> length (a_data Y) = nprod (a_shape Y);
  bd_valid : valid_data xss yss;
  bd_width : forall X, In X xss -> width X = P;
  bd_some : forall Y, In Y yss -> a_data Y <> [];
  bd_pos : (0 < P)%nat;
  bd_args : grid_args_ok P xss (map (fun Y => length (a_data Y)) yss) lo hi m (seq 0 P)
}.

(** A solver that returns vectors of the right length for every matrix. *)
Definition returning (solve : Mat -> vec -> result vec) : Prop :=
  forall n K Ko, represents Ko (mk_den n n K) -> returns n (solve Ko).

(** The run with [e] ends with the model [g], built from the data and new
    kernels and with the last values of the optimiser, which predicts [mu] and [var]. *)
Definition ends (solve : Mat -> vec -> result vec) (n_it : nat) (xss yss test_xss : list ndarr) (gn : gens) (lo hi : grid_arg R) (m : grid_arg nat) (md : mode)
  (P : nat) (e : run_env) (g : gp) (mu var : list vec) : Prop :=
  exists f0 f g0 bits k,
    fk_init (e_rand e) (Some (length xss)) (Some (g_k gn)) (Some (g_r gn)) (Some (g_slfm gn)) (Some (g_indep gn)) None = Ok f0 /\
    set_input_dim f0 P = Ok f /\ gp_init xss yss true lo hi m (Some md) (Some f0) = Ok g0 /\ gp_f g0 = f /\
    g = with_params g0 (final f (e_steps e)) /\ fitted solve bits n_it g k /\ gp_predict solve g k test_xss = Ok (mu, var).
