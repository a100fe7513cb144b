(** Change of the units of the inputs: construction of the model, kernels,
    exact likelihood, prediction. *)

From Coq Require Import Reals List Arith ZArith Lia Lra.
From Verif Require Import Base NDArray Model_Util Model_Linalg Model_Interp Model_Kern Model_FK Model_Grid Model_Lik Model_GP.
From Verif Require Import Spec_Units Proofs_Eig Proofs_Ski3 Proofs_Linalg Proofs_Units.
Import ListNotations.
Open Scope R_scope.

Definition shift_ad (t : nat -> R) (ad : dims) : nat -> R := fun p => t (nth p ad 0%nat).
Definition num_ok (t : nat -> R) (x : grid_arg R) : Prop := match x with GNum _ => forall d, t d = t 0%nat | _ => True end.
Definition ag_units (a : R) (t : nat -> R) (g : ad_grid) : ad_grid := mk_ag (axes_units a t (ag_axes g)) (scale_arr a (ag_dists g)) (ag_W g) (ag_WT g).

Lemma wrap_arg_units a t x ad : num_ok t x ->
  wrap_arg (bound_in_units a t x) ad = rmap (option_map (vec_units a (shift_ad t ad))) (wrap_arg x ad).
Proof.
  intros Hn. destruct x as [|v|l]; cbn [bound_in_units wrap_arg]; [reflexivity| |].
  - destruct (Nat.eqb (length ad) 1) eqn:E; [|reflexivity]. cbn [rmap option_map]. do 2 f_equal.
    unfold vec_units. cbn [length]. rewrite tab_S_l. cbn [tab]. unfold shift_ad. cbn in Hn. rewrite (Hn (nth 0 ad 0%nat)). reflexivity.
  - assert (E : map_result (fun d => match nth_error (tab (length l) (fun p => a * vget l p + t p)) d with Some v => Ok v | None => Err IndexError end) ad
              = rmap (vec_units a (shift_ad t ad)) (map_result (fun d => match nth_error l d with Some v => Ok v | None => Err IndexError end) ad)).
    { assert (G : forall off, map_result (fun d => match nth_error (tab (length l) (fun p => a * vget l p + t p)) d with Some v => Ok v | None => Err IndexError end) (skipn off ad)
              = rmap (vec_units a (shift_ad t (skipn off ad))) (map_result (fun d => match nth_error l d with Some v => Ok v | None => Err IndexError end) (skipn off ad))).
      { intros off. generalize (skipn off ad). clear. induction l0 as [|d ad IH]; [reflexivity|]. cbn [map_result].
        destruct (nth_error l d) as [v|] eqn:E.
        - assert (Hd : (d < length l)%nat) by (apply nth_error_Some; congruence).
          rewrite (nth_error_nth' _ 0) by (now rewrite tab_length). rewrite nth_tab by easy. cbn [bind]. rewrite IH.
          destruct (map_result (fun d => match nth_error l d with Some v => Ok v | None => Err IndexError end) ad) as [r|]; [|reflexivity]. cbn [rmap bind]. f_equal.
          unfold vec_units. cbn [length]. rewrite tab_S_l. unfold shift_ad. cbn [nth]. f_equal.
          unfold vget at 1. rewrite (nth_error_nth _ _ 0 E). reflexivity.
        - apply nth_error_None in E. assert (E' : nth_error (tab (length l) (fun p => a * vget l p + t p)) d = None) by (apply nth_error_None; now rewrite tab_length).
          rewrite E'. reflexivity. }
      exact (G 0%nat). }
    cbv beta in E |- *. rewrite E. destruct (map_result (fun d => match nth_error l d with Some v => Ok v | None => Err IndexError end) ad); reflexivity.
Qed.

Definition grid_arrays (P : nat) (Xs : list ndarr) : Prop := forall X, In X Xs -> exists n, a_shape X = [n; P] /\ wfa X.

Lemma grid_arrays_cols P ad Xs Xa : grid_arrays P Xs -> map_result (take_cols ad) Xs = Ok Xa -> grid_arrays (length ad) Xa.
Proof.
  intros _ H X HX. destruct (map_result_ok_back _ _ _ H X HX) as [Y [_ E]]. exact (take_cols_shape ad Y X E).
Qed.

Lemma take_all_units a t ad P Xs : grid_arrays P Xs ->
  map_result (take_cols ad) (map (in_units a t) Xs) = rmap (map (in_units a (shift_ad t ad))) (map_result (take_cols ad) Xs).
Proof. intros H. apply map_result_rmap. intros X HX. destruct (H X HX) as [n [_ W]]. now apply take_cols_units. Qed.

Lemma generate_grid_units a t P Xs lo hi m ad : 0 < a -> grid_arrays P Xs -> num_ok t lo -> num_ok t hi ->
  generate_grid (map (in_units a t) Xs) (bound_in_units a t lo) (bound_in_units a t hi) m ad =
  rmap (ag_units a (shift_ad t ad)) (generate_grid Xs lo hi m ad).
Proof.
  intros Ha HX H1 H2. unfold generate_grid. rewrite !wrap_arg_units by easy.
  destruct (wrap_arg lo ad) as [wlo|]; [|reflexivity]. destruct (wrap_arg hi ad) as [whi|]; [|reflexivity]. cbn [rmap bind].
  destruct (wrap_arg m ad) as [wm|]; [|reflexivity]. cbn [bind]. rewrite (take_all_units a t ad P) by easy.
  destruct (map_result (take_cols ad) Xs) as [Xa|] eqn:E; [|reflexivity]. cbn [rmap bind].
  pose proof (grid_arrays_cols P ad Xs Xa HX E) as HXa.
  rewrite (autogrid_units a (shift_ad t ad) (length ad)) by easy.
  destruct (autogrid Xa wlo whi _) as [[axes m']|]; [|reflexivity]. cbn [rmap bind fst snd].
  rewrite grid_dists_units by easy. destruct (grid_dists axes) as [ds|]; [|reflexivity]. cbn [rmap bind].
  rewrite (multi_interpolant_units a (shift_ad t ad) (length ad)) by (easy || lra).
  now destruct (multi_interpolant Xa (map np1 axes)).
Qed.

Definition grids_units (a : R) (t : nat -> R) (g : dict ad_grid) : dict ad_grid := map (fun p => (fst p, ag_units a (shift_ad t (fst p)) (snd p))) g.

Lemma generate_grids_units a t P f Xs lo hi m : 0 < a -> grid_arrays P Xs -> num_ok t lo -> num_ok t hi ->
  generate_grids (fk_in_units a f) (map (in_units a t) Xs) (bound_in_units a t lo) (bound_in_units a t hi) m =
  rmap (grids_units a t) (generate_grids f Xs lo hi m).
Proof.
  intros Ha HX H1 H2. unfold generate_grids. cbn [fk_in_units f_active].
  rewrite <- (map_id (map fst (f_active f))) at 1. apply map_result_rmap. intros ad _.
  rewrite (generate_grid_units a t P) by easy. now destruct (generate_grid Xs lo hi m ad).
Qed.

(** ** MultiGP *)

Lemma iu_shape a t X : a_shape (in_units a t X) = a_shape X.
Proof. reflexivity. Qed.

Lemma validate_io_units a t Xs Ys : validate_io (map (in_units a t) Xs) Ys = validate_io Xs Ys.
Proof.
  unfold validate_io. destruct Xs as [|X Xs]; [reflexivity|]. cbn [map]. rewrite <- (map_cons (in_units a t) X Xs). remember (X :: Xs) as l eqn:El. clear El X Xs.
  rewrite map_length. destruct (negb _); [reflexivity|].
  assert (V : map_result validate_pair (combine (map (in_units a t) l) Ys) = map_result validate_pair (combine l Ys)).
  { revert Ys. induction l as [|X l IH]; intros [|Y Ys]; try reflexivity. cbn [map combine map_result]. rewrite IH. reflexivity. }
  assert (D : map (fun X => nth 1 (a_shape X) 0%nat) (filter (fun X => Nat.ltb 1 (length (a_shape X))) (map (in_units a t) l))
            = map (fun X => nth 1 (a_shape X) 0%nat) (filter (fun X => Nat.ltb 1 (length (a_shape X))) l)).
  { clear V. induction l as [|X l IH]; [reflexivity|]. cbn [map filter]. rewrite iu_shape. destruct (Nat.ltb 1 _); cbn [map]; rewrite IH; reflexivity. }
  rewrite V, D. reflexivity.
Qed.

Lemma pad1_units a t X : pad1 (in_units a t X) = in_units a t (pad1 X).
Proof.
  unfold pad1. rewrite iu_shape. destruct (a_shape X) as [|n [|? ?]] eqn:E; try reflexivity.
  unfold in_units. cbn [a_shape a_data]. rewrite E. reflexivity.
Qed.
Lemma pad1_wfa X : wfa X -> wfa (pad1 X).
Proof.
  unfold pad1. destruct (a_shape X) as [|n [|? ?]] eqn:E; try easy. unfold wfa. cbn [a_data a_shape]. rewrite E. unfold nprod. cbn. lia.
Qed.

Lemma pad_dims_units a t P Xs : pad_dims P (map (in_units a t) Xs) = rmap (map (in_units a t)) (pad_dims P Xs).
Proof.
  unfold pad_dims. rewrite (map_map (in_units a t) pad1), (map_ext _ (fun X => in_units a t (pad1 X))) by (intros; apply pad1_units).
  rewrite <- (map_map pad1 (in_units a t)). generalize (map pad1 Xs). intros l.
  assert (E : map_result (fun X => match nth_error (a_shape X) 1 with None => Err IndexError | Some p => if Nat.eqb p P then Ok tt else Err ValueError end) (map (in_units a t) l)
            = map_result (fun X => match nth_error (a_shape X) 1 with None => Err IndexError | Some p => if Nat.eqb p P then Ok tt else Err ValueError end) l).
  { induction l as [|X l IH]; [reflexivity|]. cbn [map map_result]. rewrite IH. reflexivity. }
  rewrite E. now destruct (map_result _ l).
Qed.

Definition few_dims (X : ndarr) : Prop := wfa X /\ (length (a_shape X) = 1 \/ length (a_shape X) = 2)%nat.

Lemma pad_dims_arrays P Xs Xs' : (forall X, In X Xs -> few_dims X) -> pad_dims P Xs = Ok Xs' -> grid_arrays P Xs'.
Proof.
  intros H E X HX. unfold pad_dims in E. destruct (map_result _ (map pad1 Xs)) as [u|] eqn:M; [|discriminate]. cbn [bind] in E.
  apply Ok_inj in E. subst Xs'. pose proof HX as HX'. apply in_map_iff in HX. destruct HX as [Y [<- HY]].
  destruct (H Y HY) as [W S]. destruct (map_result_ok_all _ _ _ M _ HX') as [z [_ Z]].
  pose proof (pad1_wfa Y W) as W'. unfold pad1 in *. destruct (a_shape Y) as [|n [|p [|? ?]]] eqn:E; cbn [length] in S; try lia.
  - cbn [a_shape nth_error] in Z |- *. destruct (Nat.eqb 1 P) eqn:Q; [|discriminate]. apply Nat.eqb_eq in Q. subst P. now exists n.
  - rewrite E in Z |- *. cbn [nth_error] in Z. destruct (Nat.eqb p P) eqn:Q; [|discriminate]. apply Nat.eqb_eq in Q. subst P. now exists n.
Qed.

Definition multi_units (a : R) (t : nat -> R) (d : multigp) : multigp :=
  mk_multi (mg_P d) (mg_D d) (mg_norm d) (mg_Ys d) (map (in_units a t) (mg_Xs d)).

Lemma multigp_init_units a t Xs Ys nrm : multigp_init (map (in_units a t) Xs) Ys nrm = rmap (multi_units a t) (multigp_init Xs Ys nrm).
Proof.
  unfold multigp_init. rewrite validate_io_units. destruct (validate_io Xs Ys) as [[P D]|]; [|reflexivity]. cbn [bind].
  destruct nrm; cbv beta zeta iota.
  - destruct (map_result _ (combine _ _)) as [ys|]; [|reflexivity]. cbn [bind]. rewrite pad_dims_units. now destruct (pad_dims P Xs).
  - cbn [bind]. rewrite pad_dims_units. now destruct (pad_dims P Xs).
Qed.

Lemma multigp_init_arrays Xs Ys nrm d : (forall X, In X Xs -> wfa X) -> multigp_init Xs Ys nrm = Ok d -> grid_arrays (mg_P d) (mg_Xs d).
Proof.
  intros W H. unfold multigp_init in H. destruct (validate_io Xs Ys) as [[P D]|] eqn:V; [|discriminate]. cbn [bind] in H.
  assert (F : forall X, In X Xs -> few_dims X).
  { intros X HX. split; [now apply W|]. unfold validate_io in V. destruct Xs as [|X0 Xs]; [easy|]. remember (X0 :: Xs) as l eqn:El. clear El.
    destruct (negb (Nat.eqb (length l) (length Ys))) eqn:L; [discriminate|]. apply Bool.negb_false_iff, Nat.eqb_eq in L.
    destruct (map_result validate_pair (combine l Ys)) as [u|] eqn:M; [|discriminate].
    destruct (In_nth l X X HX) as [i [Hi Ei]]. assert (HI : In (X, nth i Ys X) (combine l Ys)).
    { rewrite <- Ei at 1. rewrite <- (combine_nth l Ys i X X L). apply nth_In. rewrite combine_length. lia. }
    destruct (map_result_ok_all _ _ _ M _ HI) as [z [_ Z]]. unfold validate_pair in Z. cbn [fst snd] in Z.
    destruct (np_len X) as [nx|]; [|discriminate]. cbn [bind] in Z. destruct (np_len (nth i Ys X)) as [ny|]; [|discriminate]. cbn [bind] in Z.
    destruct (negb (Nat.eqb nx ny)); [discriminate|]. destruct (negb (existsb _ _)) eqn:Q; [discriminate|].
    apply Bool.negb_false_iff, existsb_exists in Q. destruct Q as [k [K1 K2]]. apply Nat.eqb_eq in K2. rewrite K2. cbn in K1. lia. }
  destruct nrm; cbv beta zeta iota in H.
  - destruct (map_result _ (combine _ _)) as [ys|] in H; [|discriminate]. cbn [bind] in H. destruct (pad_dims P Xs) as [xs|] eqn:E; [|discriminate].
    cbn [bind] in H. apply Ok_inj in H. subst d. cbn [mg_P mg_Xs]. exact (pad_dims_arrays P Xs xs F E).
  - cbn [bind] in H. destruct (pad_dims P Xs) as [xs|] eqn:E; [|discriminate].
    cbn [bind] in H. apply Ok_inj in H. subst d. cbn [mg_P mg_Xs]. exact (pad_dims_arrays P Xs xs F E).
Qed.

(** ** FunctionalKernel *)

Definition ku (a : R) (k : kern * option dims) : kern * option dims := (kern_in_units a (fst k), snd k).

Lemma combine_map_r {A B C} (h : B -> C) (l : list A) m : combine l (map h m) = map (fun p => (fst p, h (snd p))) (combine l m).
Proof. revert m. induction l as [|x l IH]; intros [|y m]; try reflexivity. cbn [map combine fst snd]. now rewrite IH. Qed.

Lemma set_dim_step_units a P f i : set_dim_step P (fk_in_units a f) i = fk_in_units a (set_dim_step P f i).
Proof.
  unfold set_dim_step. cbn [fk_in_units f_kernels f_active f_nl f_ns f_lmc f_slfm f_indep f_D f_vecs f_diags f_noise f_P].
  change (fun k => (kern_in_units a (fst k), snd k)) with (ku a).
  change (@KIdentity, @None dims) with (ku a (KIdentity, None)) at 1. rewrite map_nth.
  destruct (nth i (f_kernels f) (KIdentity, None)) as [k ad]. unfold ku at 1. cbn [fst snd].
  destruct (if Nat.ltb i (f_nl f) then _ else _) as [[l s] n]. unfold fk_in_units. cbn [f_kernels f_active f_nl f_ns f_lmc f_slfm f_indep f_D f_vecs f_diags f_noise f_P]. f_equal.
  rewrite map_length, combine_map_r, !map_map. apply map_ext. intros [j kd]. cbn [fst snd]. now destruct (Nat.eqb j i).
Qed.

Definition fk_ini (f : fkernel) (P : nat) : fkernel :=
  mk_fk (f_D f) (f_kernels f) (f_vecs f) (f_diags f) (f_noise f) (f_nl f) (f_ns f) (Some P) (f_active f) (f_lmc f) (f_slfm f) (f_indep f).
Definition fk_fin (f : fkernel) : fkernel :=
  mk_fk (f_D f) (f_kernels f) (f_vecs f) (f_diags f) (f_noise f) (f_nl f) (f_ns f) (f_P f) (f_active f) (fill_zeros (f_active f) (f_lmc f))
        (fill_zeros (f_active f) (f_slfm f)) (fill_zeros (f_active f) (f_indep f)).
Lemma set_input_dim_eq f P : set_input_dim f P =
  match f_P f with
  | Some P' => if Nat.eqb P' P then Ok f else Err ValueError
  | None => Ok (fk_fin (fold_left (set_dim_step P) (seq 0 (length (f_kernels f))) (fk_ini f P)))
  end.
Proof. reflexivity. Qed.

Lemma set_input_dim_units a f P : set_input_dim (fk_in_units a f) P = rmap (fk_in_units a) (set_input_dim f P).
Proof.
  rewrite !set_input_dim_eq. change (f_P (fk_in_units a f)) with (f_P f). destruct (f_P f) as [P'|]; [now destruct (Nat.eqb P' P)|].
  cbn [rmap]. f_equal. change (fk_ini (fk_in_units a f) P) with (fk_in_units a (fk_ini f P)).
  assert (L : length (f_kernels (fk_in_units a f)) = length (f_kernels f)) by apply map_length. rewrite L.
  assert (F : forall l h, fold_left (set_dim_step P) l (fk_in_units a h) = fk_in_units a (fold_left (set_dim_step P) l h)).
  { induction l as [|i l IH]; intros h; [reflexivity|]. cbn [fold_left]. now rewrite set_dim_step_units, IH. }
  rewrite F. reflexivity.
Qed.

Definition gp_units (a : R) (t : nat -> R) (g : gp) : gp := mk_gp (multi_units a t (gp_data g)) (fk_in_units a (gp_f g)) (grids_units a t (gp_grids g)) (gp_mode g).

Lemma gp_init_units a t Xs Ys nrm lo hi m pred fk : 0 < a -> (forall X, In X Xs -> wfa X) -> num_ok t lo -> num_ok t hi ->
  gp_init (map (in_units a t) Xs) Ys nrm (bound_in_units a t lo) (bound_in_units a t hi) m pred (option_map (fk_in_units a) fk) =
  rmap (gp_units a t) (gp_init Xs Ys nrm lo hi m pred fk).
Proof.
  intros Ha W H1 H2. unfold gp_init. rewrite multigp_init_units. destruct (multigp_init Xs Ys nrm) as [d|] eqn:E; [|reflexivity]. cbn [rmap bind].
  destruct fk as [f|]; [|reflexivity]. cbn [option_map]. destruct pred as [md|]; [|reflexivity].
  cbn [multi_units mg_P mg_Xs]. rewrite set_input_dim_units. destruct (set_input_dim f (mg_P d)) as [f'|]; [|reflexivity]. cbn [rmap bind].
  rewrite (generate_grids_units a t (mg_P d)) by (easy || exact (multigp_init_arrays Xs Ys nrm d W E)).
  now destruct (generate_grids f' (mg_Xs d) lo hi m).
Qed.

(** ** Kernels *)

Definition scale_arg (a : R) (d : dists_arg) : dists_arg := match d with PyNum x => PyNum (a * x) | Arr X => Arr (scale_arr a X) end.
Definition kv_scale (c : R) (v : kvalue) : kvalue := match v with KArr g => KArr (scale_arr c g) | KNan => KNan end.

Lemma ufunc_scale a h h' d : (forall x, h' (a * x) = h x) -> ufunc h' (scale_arg a d) = ufunc h d.
Proof.
  intros H. destruct d as [x|X]; cbn [scale_arg ufunc]; [now rewrite H|]. cbn [scale_arr a_shape a_data]. rewrite map_map. f_equal.
  apply map_ext. exact H.
Qed.

Lemma rbf_at_units a g x : a <> 0 -> rbf_at (g * / (a * a)) (a * x) = rbf_at g x.
Proof. intros Ha. unfold rbf_at. f_equal. field. easy. Qed.
Lemma matern32_at_units a g x : a <> 0 -> matern32_at (g * / a) (a * x) = matern32_at g x.
Proof. intros Ha. unfold matern32_at. cbv zeta. replace (a * x * sqrt 3 * (g * / a)) with (x * sqrt 3 * g) by (field; easy). reflexivity. Qed.
Lemma sp_arg_units a T x : a <> 0 -> PI / (T * a) * (a * x) = PI / T * x.
Proof.
  intros Ha. unfold Rdiv. rewrite Rinv_mult. replace (PI * (/ T * / a) * (a * x)) with ((a * / a) * (PI * / T * x)) by ring.
  rewrite Rinv_r by easy. ring.
Qed.
Lemma std_periodic_at_units a g T x : a <> 0 -> std_periodic_at g (T * a) (a * x) = std_periodic_at g T x.
Proof. intros Ha. unfold std_periodic_at. cbv zeta. now rewrite sp_arg_units. Qed.
Lemma identity_at_units a x : a <> 0 -> identity_at (a * x) = identity_at x.
Proof. intros Ha. unfold identity_at. destruct (Req_EM_T (a * x) 0), (Req_EM_T x 0); try reflexivity; exfalso; subst; try lra. apply Rmult_integral in e. tauto. Qed.

Lemma from_dist_units a k d : a <> 0 -> period_safe a k -> from_dist (kern_in_units a k) (scale_arg a d) = from_dist k d.
Proof.
  intros Ha. induction k as [g|g|g T| |k IH s]; intros S; cbn [kern_in_units from_dist].
  - do 2 f_equal. apply ufunc_scale. intros x. now apply rbf_at_units.
  - do 2 f_equal. apply ufunc_scale. intros x. now apply matern32_at_units.
  - cbn [period_safe] in S. destruct (Rlt_dec (ln (T * a)) (-200)), (Rlt_dec (ln T) (-200)); try tauto; try reflexivity.
    do 2 f_equal. apply ufunc_scale. intros x. now apply std_periodic_at_units.
  - destruct d as [x|X]; cbn [scale_arg]; [reflexivity|]. cbn [scale_arr a_shape a_data]. rewrite map_map. do 3 f_equal. apply map_ext. intros x. now apply identity_at_units.
  - cbn [period_safe] in S. now rewrite (IH S).
Qed.

(** Gradients: divided by the factors of the parameters. *)
Definition div_factors (a : R) (k : kern) (gs : list kvalue) : list kvalue :=
  map (fun p => kv_scale (/ fst p) (snd p)) (combine (unit_factors a k) gs).

Lemma ufunc_grad a c h h' X : (forall x, h' (a * x) = c * h x) -> ufunc h' (Arr (scale_arr a X)) = scale_arr c (ufunc h (Arr X)).
Proof.
  intros H. cbn [ufunc scale_arr a_shape a_data]. unfold scale_arr. cbn [a_shape a_data]. rewrite !map_map. f_equal.
  apply map_ext. exact H.
Qed.

Lemma kernel_gradient_len k X gs : kernel_gradient k X = Ok gs -> forall a, length (unit_factors a k) = length gs.
Proof.
  revert gs. induction k as [g|g|g T| |k IH s]; intros gs H a; cbn [kernel_gradient] in H; try (apply Ok_inj in H; subst gs; reflexivity).
  destruct (kernel_gradient k X) as [g0|]; [|discriminate]. cbn [bind] in H. destruct (from_dist k (Arr X)) as [v|]; [|discriminate]. cbn [bind] in H.
  apply Ok_inj in H. subst gs. cbn [unit_factors]. rewrite !app_length, map_length. cbn [length]. now rewrite (IH g0 eq_refl).
Qed.

Lemma combine_app {A B} (l1 l2 : list A) (m1 m2 : list B) : length l1 = length m1 -> combine (l1 ++ l2) (m1 ++ m2) = combine l1 m1 ++ combine l2 m2.
Proof. revert m1. induction l1 as [|x l IH]; intros [|y m]; intros H; cbn in H; try lia; [reflexivity|]. cbn [app combine]. now rewrite IH by lia. Qed.

Lemma kv_scale_1 v : kv_scale (/ 1) v = v.
Proof.
  destruct v as [[sh d]|]; [|reflexivity]. cbn. unfold scale_arr. cbn. do 2 f_equal. rewrite Rinv_1. rewrite (map_ext _ (fun x => x)) by (intros; ring). apply map_id.
Qed.

Lemma kernel_gradient_units a k X : a <> 0 -> period_safe a k ->
  kernel_gradient (kern_in_units a k) (scale_arr a X) = rmap (div_factors a k) (kernel_gradient k X).
Proof.
  intros Ha. induction k as [g|g|g T| |k IH s]; intros S; cbn [kern_in_units kernel_gradient rmap]; try reflexivity.
  - unfold div_factors, columns. rewrite !tab_S_l. cbn [tab seq map combine unit_factors kv_scale fst snd nth rbf_grad_at]. do 3 f_equal.
    apply ufunc_grad. intros x. rewrite Rinv_inv. cbv zeta. replace (- (1 / 2) * (a * x * (a * x)) * (g * / (a * a))) with (- (1 / 2) * (x * x) * g) by (field; easy). ring.
  - unfold div_factors, columns. rewrite !tab_S_l. cbn [tab seq map combine unit_factors kv_scale fst snd nth matern32_grad_at]. do 3 f_equal.
    apply ufunc_grad. intros x. rewrite Rinv_inv. cbv zeta. replace (a * x * sqrt 3 * (g * / a)) with (x * sqrt 3 * g) by (field; easy). ring.
  - unfold div_factors, columns. rewrite !tab_S_l. cbn [tab seq map combine unit_factors kv_scale fst snd nth std_periodic_grad_at]. do 3 f_equal; [|do 2 f_equal].
    + apply ufunc_grad. intros x. cbv zeta. rewrite sp_arg_units by easy. rewrite Rinv_1. ring.
    + apply ufunc_grad. intros x. cbv zeta. rewrite sp_arg_units by easy. unfold Rdiv. rewrite Rinv_mult. ring.
  - cbn [period_safe] in S. rewrite (IH S). destruct (kernel_gradient k X) as [gs|] eqn:E; [|reflexivity]. cbn [rmap bind].
    change (Arr (scale_arr a X)) with (scale_arg a (Arr X)). rewrite from_dist_units by easy. destruct (from_dist k (Arr X)) as [v|]; [|reflexivity]. cbn [bind rmap].
    f_equal. unfold div_factors. cbn [unit_factors]. rewrite combine_app by (rewrite map_length; exact (kernel_gradient_len k X gs E a)).
    rewrite map_app. cbn [combine map fst snd]. rewrite kv_scale_1. f_equal. rewrite combine_map_r, !map_map. apply map_ext. intros [c w]. cbn [fst snd].
    destruct w as [[sh d]|]; [|reflexivity]. cbn. unfold scale_arr. cbn. do 2 f_equal. rewrite !map_map. apply map_ext. intros x. ring.
Qed.
