(** Change of the units of the inputs: kernel matrices, exact likelihood and
    prediction. *)

From Coq Require Import Reals List Arith ZArith Lia Lra.
From Verif Require Import Base NDArray Model_Util Model_Linalg Model_Interp Model_Kern Model_FK Model_Grid Model_Lik Model_GP.
From Verif Require Import Spec_Units Proofs_Eig Proofs_Ski3 Proofs_Linalg Proofs_Units Proofs_Units2.
Import ListNotations.
Open Scope R_scope.

Definition all_safe (a : R) (f : fkernel) : Prop := forall k, In k (f_kernels f) -> period_safe a (fst k).

Definition dmap {V W} (h : V -> W) (d : dict V) : dict W := map (fun p => (fst p, h (snd p))) d.

Lemma dict_get_dmap {V W} (h : V -> W) d k : dict_get (dmap h d) k = rmap h (dict_get d k).
Proof. induction d as [|[k' v] d IH]; [reflexivity|]. cbn [dmap map dict_get fst snd]. destruct (dims_eqb k k'); [reflexivity|exact IH]. Qed.
Lemma get_ad_dmap {V W} (h : V -> W) d k : get_ad (dmap h d) k = rmap h (get_ad d k).
Proof. destruct k as [k|]; [apply dict_get_dmap|reflexivity]. Qed.

Lemma map_id_result {A} (r : result (list A)) : rmap (map (fun v => v)) r = r.
Proof. destruct r; [|reflexivity]. cbn. now rewrite map_id. Qed.

Lemma eval_kernels_units a f d : a <> 0 -> all_safe a f -> eval_kernels (fk_in_units a f) (dmap (scale_arg a) d) = eval_kernels f d.
Proof.
  intros Ha S. unfold eval_kernels. change (assert_P (fk_in_units a f)) with (assert_P f). destruct (assert_P f); [|reflexivity]. cbn [bind].
  change (f_kernels (fk_in_units a f)) with (map (ku a) (f_kernels f)).
  rewrite (map_result_rmap (fun k => let! d := get_ad d (snd k) in from_dist (fst k) d) _ (ku a) (fun v => v)).
  - apply map_id_result.
  - intros k Hk. cbn [ku snd fst]. rewrite get_ad_dmap. destruct (get_ad d (snd k)) as [x|]; [|reflexivity]. cbn [rmap bind].
    rewrite from_dist_units by (auto). now destruct (from_dist (fst k) x).
Qed.

Lemma as_args_scale a d : as_args (dmap (scale_arr a) d) = dmap (scale_arg a) (as_args d).
Proof. unfold as_args, dmap. rewrite !map_map. apply map_ext. intros [k X]. reflexivity. Qed.

Lemma eval_fixed_units a f X ad : a <> 0 -> all_safe a f -> eval_kernels_fixed_dim (fk_in_units a f) (scale_arr a X) ad = eval_kernels_fixed_dim f X ad.
Proof.
  intros Ha S. unfold eval_kernels_fixed_dim. change (f_active (fk_in_units a f)) with (f_active f). destruct (dict_get (f_active f) ad) as [idxs|]; [|reflexivity]. cbn [bind].
  apply map_result_same. intros q _. change (f_kernels (fk_in_units a f)) with (map (ku a) (f_kernels f)).
  assert (E : nth q (map (ku a) (f_kernels f)) (KIdentity, None) = ku a (nth q (f_kernels f) (KIdentity, None))) by exact (map_nth (ku a) (f_kernels f) (KIdentity, None) q).
  rewrite E. cbn [ku fst]. change (Arr (scale_arr a X)) with (scale_arg a (Arr X)). rewrite from_dist_units; [reflexivity|easy|].
  destruct (Nat.lt_ge_cases q (length (f_kernels f))) as [H|H]; [apply S; now apply nth_In|]. rewrite nth_overflow by easy. exact I.
Qed.

Lemma choose_ktype_units a f ad : choose_ktype (fk_in_units a f) ad = choose_ktype f ad.
Proof. unfold choose_ktype, f_Q. change (f_kernels (fk_in_units a f)) with (map (ku a) (f_kernels f)). rewrite map_length. reflexivity. Qed.

Lemma grid_kernel_units a f X W WT kt ad : a <> 0 -> all_safe a f -> grid_kernel (fk_in_units a f) (scale_arr a X) W WT kt ad = grid_kernel f X W WT kt ad.
Proof. intros Ha S. unfold grid_kernel. rewrite eval_fixed_units by easy. reflexivity. Qed.

Lemma gen_grid_kernel_units a f d i lens : a <> 0 -> all_safe a f ->
  gen_grid_kernel (fk_in_units a f) (dmap (scale_arr a) d) i lens = gen_grid_kernel f d i lens.
Proof.
  intros Ha S. unfold gen_grid_kernel. change (f_active (fk_in_units a f)) with (f_active f). change (f_noise (fk_in_units a f)) with (f_noise f).
  rewrite (map_result_same (fun ad => let! kt := choose_ktype f ad in let! gd := dict_get d ad in
     let! w := dict_get i ad in let! k := grid_kernel f gd (fst w) (snd w) kt ad in Ok (ad, k))
     (fun ad => let! kt := choose_ktype (fk_in_units a f) ad in let! gd := dict_get (dmap (scale_arr a) d) ad in
     let! w := dict_get i ad in let! k := grid_kernel (fk_in_units a f) gd (fst w) (snd w) kt ad in Ok (ad, k))); [reflexivity|].
  intros ad _. rewrite choose_ktype_units. destruct (choose_ktype f ad); [|reflexivity]. cbn [bind]. rewrite dict_get_dmap.
  destruct (dict_get d ad); [|reflexivity]. cbn [rmap bind]. destruct (dict_get i ad); [|reflexivity]. cbn [bind].
  now rewrite grid_kernel_units.
Qed.

(** The gradients of the kernels on the grid or on the data. *)
Definition grads_units (a : R) (f : fkernel) (gs : list (list kvalue)) : list (list kvalue) :=
  map (fun p => div_factors a (fst (fst p)) (snd p)) (combine (f_kernels f) gs).

Lemma eval_grads_units a f d : a <> 0 -> all_safe a f ->
  eval_kernel_gradients (fk_in_units a f) (dmap (scale_arr a) d) = rmap (grads_units a f) (eval_kernel_gradients f d).
Proof.
  intros Ha S. unfold eval_kernel_gradients, grads_units. change (assert_P (fk_in_units a f)) with (assert_P f). destruct (assert_P f); [|reflexivity]. cbn [bind].
  change (f_kernels (fk_in_units a f)) with (map (ku a) (f_kernels f)). unfold all_safe in S.
  induction (f_kernels f) as [|k l IH]; [reflexivity|]. cbn [map map_result].
  cbn [ku fst snd]. rewrite get_ad_dmap. destruct (get_ad d (snd k)) as [x|]; [|reflexivity]. cbn [rmap bind].
  rewrite kernel_gradient_units by (auto; apply S; now left). destruct (kernel_gradient (fst k) x) as [g|]; [|reflexivity]. cbn [rmap bind].
  rewrite IH by (intros; apply S; now right). destruct (map_result _ l); reflexivity.
Qed.

Lemma eval_grads_fits f d gs : eval_kernel_gradients f d = Ok gs ->
  Forall2 (fun k g => forall a, length (unit_factors a (fst k)) = length g) (f_kernels f) gs.
Proof.
  unfold eval_kernel_gradients. destruct (assert_P f); [|discriminate]. cbn [bind]. revert gs. induction (f_kernels f) as [|k l IH]; intros gs H; cbn [map_result] in H.
  - apply Ok_inj in H. subst gs. constructor.
  - destruct (get_ad d (snd k)) as [x|]; [|discriminate]. cbn [bind] in H. destruct (kernel_gradient (fst k) x) as [g|] eqn:E; [|discriminate]. cbn [bind] in H.
    destruct (map_result _ l) as [r|] eqn:M in H; [|discriminate]. cbn [bind] in H. apply Ok_inj in H. subst gs. constructor; [exact (kernel_gradient_len _ _ _ E)|exact (IH r M)].
Qed.

(** ** Distances between data points *)

Lemma atleast_2d_arr X n P : a_shape X = [n; P] -> atleast_2d X = X.
Proof. unfold atleast_2d. destruct X as [sh d]. cbn. now intros ->. Qed.

Lemma concat_units a t P (Xs : list ndarr) : grid_arrays P Xs -> forall off,
  concat (map a_data (map (in_units a t) Xs)) =
  tab (length (concat (map a_data Xs))) (fun k => a * vget (concat (map a_data Xs)) k + t ((off * P + k) mod P)%nat).
Proof.
  induction Xs as [|X Xs IH]; intros H off; [reflexivity|]. cbn [map concat].
  destruct (H X (or_introl eq_refl)) as [n [S W]]. assert (L : length (a_data X) = (n * P)%nat).
  { unfold wfa in W. rewrite W, S. unfold nprod. cbn. lia. }
  rewrite app_length, L, tab_app. f_equal.
  - cbn [in_units a_data]. rewrite S, L. cbn [nth]. apply tab_ext. intros k Hk. unfold vget. rewrite app_nth1 by lia. do 2 f_equal.
    destruct P as [|P]; [lia|]. now rewrite (Nat.add_comm (off * Datatypes.S P)), Nat.mod_add by lia.
  - rewrite (IH (fun Y HY => H Y (or_intror HY)) (off + n)%nat). apply tab_ext. intros k Hk. unfold vget. rewrite app_nth2 by lia. rewrite L. f_equal; [do 2 f_equal; lia|do 2 f_equal; lia].
Qed.

Lemma vstack_eq P Xs : grid_arrays P Xs -> vstack Xs =
  match Xs with [] => Err ValueError | _ => Ok (mk_arr [nsum (map (fun X => hd 0%nat (a_shape X)) Xs); P] (concat (map a_data Xs))) end.
Proof.
  intros H. unfold vstack. destruct Xs as [|X Xs]; [reflexivity|].
  assert (M : map (fun x => nth 0 (a_shape (atleast_2d x)) 0%nat) (X :: Xs) = map (fun X => hd 0%nat (a_shape X)) (X :: Xs)).
  { apply map_ext_in. intros Y HY. destruct (H Y HY) as [n [S _]]. rewrite (atleast_2d_arr Y n P S), S. reflexivity. }
  assert (Q : forallb (fun x => match a_shape (atleast_2d x) with [_; p] => Nat.eqb p P | _ => false end) (X :: Xs) = true).
  { apply forallb_forall. intros Y HY. destruct (H Y HY) as [n [S _]]. rewrite (atleast_2d_arr Y n P S), S. apply Nat.eqb_refl. }
  rewrite M. destruct (map atleast_2d (X :: Xs)) as [|Z l] eqn:E; [discriminate|]. cbn [map] in E. injection E as E1 _. subst Z.
  destruct (H X (or_introl eq_refl)) as [n [S _]]. assert (E0 : nth 1 (a_shape (atleast_2d X)) 0%nat = P) by (now rewrite (atleast_2d_arr X n P S), S). cbv zeta. rewrite E0, Q. reflexivity.
Qed.

Lemma grid_arrays_units a t P Xs : grid_arrays P Xs -> grid_arrays P (map (in_units a t) Xs).
Proof. intros H Y HY. apply in_map_iff in HY. destruct HY as [Z [<- HZ]]. destruct (H Z HZ) as [n [S W]]. exists n. split; [exact S|now apply iu_wfa]. Qed.

Lemma vstack_units a t P Xs : grid_arrays P Xs -> vstack (map (in_units a t) Xs) = rmap (in_units a t) (vstack Xs).
Proof.
  intros H. rewrite (vstack_eq P Xs H), (vstack_eq P _ (grid_arrays_units a t P Xs H)). destruct Xs as [|X Xs]; [reflexivity|].
  change (match map (in_units a t) (X :: Xs) with [] => ?e | _ => ?r end) with r. cbn [rmap]. f_equal.
  unfold in_units at 3. cbn [a_shape a_data]. f_equal; [now rewrite map_map|]. exact (concat_units a t P _ H 0).
Qed.

Lemma vstack_arr P Xs X : grid_arrays P Xs -> vstack Xs = Ok X -> exists n, a_shape X = [n; P] /\ wfa X.
Proof.
  intros H E. rewrite (vstack_eq P Xs H) in E. destruct Xs as [|Y Xs]; [discriminate|]. apply Ok_inj in E. subst X. eexists. split; [reflexivity|].
  unfold wfa. cbn [a_shape a_data]. unfold nprod. cbn [fold_right]. rewrite Nat.mul_1_r.
  revert H. generalize (Y :: Xs). clear. induction l as [|X m IH]; intros H; [reflexivity|]. cbn [map concat]. rewrite app_length.
  destruct (H X (or_introl eq_refl)) as [n [S W]]. unfold wfa in W. rewrite W, S, IH by (intros Y HY; apply H; now right).
  unfold nprod, nsum. cbn [fold_right hd]. lia.
Qed.

Lemma row_of_units a t X n P i : a_shape X = [n; P] -> wfa X -> (i < n)%nat -> row_of P (in_units a t X) i = vec_units a t (row_of P X i).
Proof.
  intros S W Hi. unfold row_of, vec_units. rewrite tab_length. apply tab_ext. intros p Hp. rewrite vget_tab by easy. now apply (iu_get2 a t X n P).
Qed.

Lemma cdist_units a t X Z n m P : 0 < a -> a_shape X = [n; P] -> wfa X -> a_shape Z = [m; P] -> wfa Z ->
  cdist (in_units a t X) (in_units a t Z) = rmap (scale_arr a) (cdist X Z).
Proof.
  intros Ha S W S' W'. unfold cdist. rewrite !iu_shape, S, S', Nat.eqb_refl. cbn [rmap]. f_equal. unfold scale_arr. cbn [a_shape a_data]. f_equal.
  rewrite concat_map, map_tab. f_equal. apply tab_ext. intros i Hi. rewrite map_tab. apply tab_ext. intros j Hj.
  rewrite (row_of_units a t X n P), (row_of_units a t Z m P) by easy. apply la_dist_units; [easy|]. unfold row_of. now rewrite !tab_length.
Qed.

Lemma gen_dists_units a t P ads X Z n m : 0 < a -> a_shape X = [n; P] -> wfa X -> a_shape Z = [m; P] -> wfa Z ->
  gen_dists ads (in_units a t X) (in_units a t Z) = rmap (dmap (scale_arr a)) (gen_dists ads X Z).
Proof.
  intros Ha S W S' W'. unfold gen_dists. rewrite <- (map_id ads) at 1. apply map_result_rmap. intros ad _.
  rewrite !take_cols_units by easy. destruct (take_cols ad X) as [x|] eqn:E; [|reflexivity]. cbn [rmap bind].
  destruct (take_cols ad Z) as [z|] eqn:E'; [|reflexivity]. cbn [rmap bind].
  destruct (take_cols_shape _ _ _ E) as [n1 [S1 W1]]. destruct (take_cols_shape _ _ _ E') as [n2 [S2 W2]].
  rewrite (cdist_units a _ x z n1 n2 (length ad)) by easy. now destruct (cdist x z).
Qed.

Lemma np_lens_units a t Xs : map_result np_len (map (in_units a t) Xs) = map_result np_len Xs.
Proof. induction Xs as [|X Xs IH]; [reflexivity|]. cbn [map map_result]. rewrite IH. reflexivity. Qed.

Lemma kernel_from_indices_units a t P f Xs Zs : 0 < a -> all_safe a f -> grid_arrays P Xs -> grid_arrays P Zs ->
  kernel_from_indices (map (in_units a t) Xs) (map (in_units a t) Zs) (fk_in_units a f) = kernel_from_indices Xs Zs f.
Proof.
  intros Ha S HX HZ. unfold kernel_from_indices. rewrite !np_lens_units. destruct (map_result np_len Xs) as [rl|]; [|reflexivity].
  destruct (map_result np_len Zs) as [cl|]; [|reflexivity]. cbn [bind]. rewrite !(vstack_units a t P) by easy.
  destruct (vstack Xs) as [X|] eqn:EX; [|reflexivity]. cbn [rmap bind]. destruct (vstack Zs) as [Z|] eqn:EZ; [|reflexivity]. cbn [rmap bind].
  destruct (vstack_arr P Xs X HX EX) as [n [SX WX]]. destruct (vstack_arr P Zs Z HZ EZ) as [m [SZ WZ]].
  change (f_active (fk_in_units a f)) with (f_active f). rewrite (gen_dists_units a t P _ X Z n m) by easy.
  destruct (gen_dists (map fst (f_active f)) X Z) as [d|]; [|reflexivity]. cbn [rmap bind]. rewrite as_args_scale, eval_kernels_units by (easy || lra). reflexivity.
Qed.

Definition el_units (a : R) (f : fkernel) (e : exact_lik) : exact_lik :=
  mk_el (el_y e) (el_lens e) (el_kernels e) (el_K e) (el_L e) (el_Kinv e) (el_alpha e) (grads_units a f (el_grads e)).

Lemma exact_init_units a t P f Xs Ys : 0 < a -> all_safe a f -> grid_arrays P Xs ->
  exact_init (fk_in_units a f) (map (in_units a t) Xs) Ys = rmap (el_units a f) (exact_init f Xs Ys).
Proof.
  intros Ha S HX. unfold exact_init. cbv zeta. rewrite !(vstack_units a t P) by easy.
  destruct (vstack Xs) as [X|] eqn:EX; [|reflexivity]. cbn [rmap bind].
  destruct (vstack_arr P Xs X HX EX) as [n [SX WX]].
  change (f_active (fk_in_units a f)) with (f_active f). rewrite (gen_dists_units a t P _ X X n n) by easy.
  destruct (gen_dists (map fst (f_active f)) X X) as [d|]; [|reflexivity]. cbn [rmap bind]. rewrite as_args_scale, eval_kernels_units by (easy || lra).
  destruct (eval_kernels f (as_args d)) as [Kqs|]; [|reflexivity]. cbn [bind].
  change (sum_scaled (fk_in_units a f) Kqs) with (sum_scaled f Kqs). destruct (sum_scaled f Kqs _ _) as [K|]; [|reflexivity]. cbn [bind].
  change (f_noise (fk_in_units a f)) with (f_noise f). destruct (repeat_counts _ _) as [eps|]; [|reflexivity]. cbn [bind].
  destruct (arr_add _ _) as [K'|]; [|reflexivity]. cbn [bind]. destruct (cho_factor K') as [L|]; [|reflexivity]. cbn [bind].
  destruct (cho_solve_mat _ _ _) as [Ki|]; [|reflexivity]. cbn [bind]. destruct (cho_solve _ _) as [al|]; [|reflexivity]. cbn [bind].
  rewrite eval_grads_units by (easy || lra). now destruct (eval_kernel_gradients f d).
Qed.

(** ** Prediction and likelihood *)

(** [k'] differs from [k] in nothing that prediction or the likelihood read. *)
Definition same_gpk (k k' : gp_kernel) : Prop :=
  al_K (gpk_lik k') = al_K (gpk_lik k) /\ al_deriv (gpk_lik k') = al_deriv (gpk_lik k) /\ gpk_grids k' = gpk_grids k.

Definition gp_ok (g : gp) : Prop := grid_arrays (mg_P (gp_data g)) (mg_Xs (gp_data g)).

Lemma grids_interps_units a t g : grids_interps (grids_units a t g) = grids_interps g.
Proof. unfold grids_interps, grids_units. rewrite map_map. apply map_ext. intros [k v]. reflexivity. Qed.
Lemma grids_dists_units a t g : grids_dists (grids_units a t g) = dmap (scale_arr a) (grids_dists g).
Proof. unfold grids_dists, grids_units, dmap. rewrite !map_map. apply map_ext. intros [k v]. reflexivity. Qed.

Lemma grid_alpha_units a t g k k' : same_gpk k k' -> grid_alpha (gp_units a t g) k' = grid_alpha g k.
Proof.
  intros [E1 [E2 E3]]. unfold grid_alpha. rewrite E2, E3. cbn [gp_units gp_grids gp_f fk_in_units f_active]. now rewrite grids_interps_units.
Qed.

Lemma native_variance_units a f : a <> 0 -> all_safe a f -> native_variance (fk_in_units a f) = native_variance f.
Proof.
  intros Ha S. unfold native_variance. change (f_vecs (fk_in_units a f)) with (f_vecs f). change (f_diags (fk_in_units a f)) with (f_diags f).
  change (f_active (fk_in_units a f)) with (f_active f). change (f_noise (fk_in_units a f)) with (f_noise f).
  assert (E : map (fun p : dims * list nat => (fst p, PyNum 0)) (f_active f) = dmap (scale_arg a) (map (fun p => (fst p, PyNum 0)) (f_active f))).
  { unfold dmap. rewrite map_map. apply map_ext. intros p. cbn [fst snd scale_arg]. now rewrite Rmult_0_r. }
  cbv zeta. unfold dims in *. rewrite <- (eval_kernels_units a f _ Ha S). unfold dims in *. rewrite <- E. reflexivity.
Qed.

Lemma gp_dense_units a t g : 0 < a -> all_safe a (gp_f g) -> gp_ok g -> gp_dense (gp_units a t g) = rmap (el_units a (gp_f g)) (gp_dense g).
Proof. intros Ha S H. unfold gp_dense. cbn [gp_units gp_f gp_data multi_units mg_Xs mg_Ys]. now apply (exact_init_units a t (mg_P (gp_data g))). Qed.

Lemma var_exact_units a t g Xs : 0 < a -> all_safe a (gp_f g) -> gp_ok g -> grid_arrays (mg_P (gp_data g)) Xs ->
  var_exact (gp_units a t g) (map (in_units a t) Xs) = var_exact g Xs.
Proof.
  intros Ha S H HX. unfold var_exact. rewrite gp_dense_units by easy. destruct (gp_dense g) as [e|]; [|reflexivity]. cbn [rmap bind].
  cbn [gp_units gp_f gp_data multi_units mg_Xs]. rewrite (kernel_from_indices_units a t (mg_P (gp_data g))) by easy. reflexivity.
Qed.

Lemma var_otf_units solve a t g k k' Xs : same_gpk k k' -> 0 < a -> all_safe a (gp_f g) -> gp_ok g -> grid_arrays (mg_P (gp_data g)) Xs ->
  var_on_the_fly solve (gp_units a t g) k' (map (in_units a t) Xs) = var_on_the_fly solve g k Xs.
Proof.
  intros [E1 [E2 E3]] Ha S H HX. unfold var_on_the_fly. rewrite E1. cbn [gp_units gp_f gp_data multi_units mg_Xs].
  rewrite (kernel_from_indices_units a t (mg_P (gp_data g))) by easy. reflexivity.
Qed.

Lemma var_pre_units solve a t g k k' Ws : same_gpk k k' -> var_precompute solve (gp_units a t g) k' Ws = var_precompute solve g k Ws.
Proof.
  intros [E1 [E2 E3]]. unfold var_precompute, precomputed_nu. rewrite E1, E3. cbn [gp_units gp_grids gp_data multi_units mg_P]. now rewrite grids_interps_units.
Qed.

Lemma grids_units_get a t g ad : dict_get (grids_units a t g) ad = rmap (ag_units a (shift_ad t ad)) (dict_get g ad).
Proof.
  induction g as [|[k v] g IH]; [reflexivity|]. cbn [grids_units map dict_get fst snd]. unfold dims_eqb. destruct (list_eq_dec Nat.eq_dec ad k) as [E|E]; [subst; reflexivity|exact IH].
Qed.

Lemma raw_predict_units solve a t g k k' Xs : same_gpk k k' -> 0 < a -> all_safe a (gp_f g) -> gp_ok g -> grid_arrays (mg_P (gp_data g)) Xs ->
  raw_predict solve (gp_units a t g) k' (map (in_units a t) Xs) = raw_predict solve g k Xs.
Proof.
  intros SK Ha S H HX. unfold raw_predict. rewrite np_lens_units. destruct (map_result np_len Xs) as [lens|]; [|reflexivity]. cbn [bind].
  rewrite (grid_alpha_units a t g k k' SK). destruct (grid_alpha g k) as [ga|]; [|reflexivity]. cbn [bind].
  change (gp_f (gp_units a t g)) with (fk_in_units a (gp_f g)). rewrite native_variance_units by (easy || lra).
  destruct (native_variance (gp_f g)) as [nv|]; [|reflexivity]. cbn [bind].
  rewrite (map_result_same (fun p => let! Xa := map_result (take_cols (fst p)) Xs in let! ag := dict_get (gp_grids g) (fst p) in
      let! W := multi_interpolant Xa (map np1 (ag_axes ag)) in let! d := csr_dot W (snd p) in Ok (fst p, W, d))).
  - destruct (map_result _ ga) as [Ws|]; [|reflexivity]. cbn [bind]. destruct (fold_left _ Ws _) as [mean|]; [|reflexivity]. cbn [bind].
    destruct (repeat_counts nv lens) as [nv'|]; [|reflexivity]. cbn [bind]. change (gp_mode (gp_units a t g)) with (gp_mode g).
    rewrite (var_otf_units solve a t g k k'), (var_pre_units solve a t g k k'), var_exact_units by easy. reflexivity.
  - intros [ad v] _. cbn [fst snd]. rewrite (take_all_units a t ad (mg_P (gp_data g))) by easy. destruct (map_result (take_cols ad) Xs) as [Xa|] eqn:E; [|reflexivity]. cbn [rmap bind].
    change (gp_grids (gp_units a t g)) with (grids_units a t (gp_grids g)). rewrite grids_units_get. destruct (dict_get (gp_grids g) ad) as [ag|]; [|reflexivity]. cbn [rmap bind ag_units ag_axes].
    rewrite (multi_interpolant_units a (shift_ad t ad) (length ad)) by (lra || exact (grid_arrays_cols _ ad Xs Xa HX E)). reflexivity.
Qed.

Lemma predict_norm_units solve a t g k k' Xs u : same_gpk k k' -> 0 < a -> all_safe a (gp_f g) -> gp_ok g -> grid_arrays (mg_P (gp_data g)) Xs ->
  gp_predict_norm solve (gp_units a t g) k' (map (in_units a t) Xs) u = gp_predict_norm solve g k Xs u.
Proof.
  intros SK Ha S H HX. unfold gp_predict_norm. cbv zeta. change (mg_D (gp_data (gp_units a t g))) with (mg_D (gp_data g)). change (mg_P (gp_data (gp_units a t g))) with (mg_P (gp_data g)).
  change (mg_norm (gp_data (gp_units a t g))) with (mg_norm (gp_data g)). rewrite map_length.
  assert (F : forallb (fun X => Nat.eqb (nth 1 (a_shape X) 0%nat) (mg_P (gp_data g))) (map (in_units a t) Xs) = forallb (fun X => Nat.eqb (nth 1 (a_shape X) 0%nat) (mg_P (gp_data g))) Xs).
  { clear. induction Xs as [|X Xs IH]; [reflexivity|]. cbn [map forallb]. rewrite iu_shape, IH. reflexivity. }
  rewrite F. destruct (negb _); [reflexivity|]. destruct (negb _); [reflexivity|].
  now rewrite (raw_predict_units solve a t g k k' Xs SK Ha S H HX).
Qed.

Lemma predict_units solve a t g k k' Zs : same_gpk k k' -> 0 < a -> all_safe a (gp_f g) -> gp_ok g -> (forall Z, In Z Zs -> few_dims Z) ->
  gp_predict solve (gp_units a t g) k' (map (in_units a t) Zs) = gp_predict solve g k Zs.
Proof.
  intros SK Ha S H HZ. unfold gp_predict. change (mg_P (gp_data (gp_units a t g))) with (mg_P (gp_data g)). rewrite pad_dims_units.
  destruct (pad_dims (mg_P (gp_data g)) Zs) as [Xs|] eqn:E; [|reflexivity]. cbn [rmap bind].
  apply predict_norm_units; try easy. exact (pad_dims_arrays _ Zs Xs HZ E).
Qed.
Lemma quantiles_units ppf solve a t g k k' Zs qs : same_gpk k k' -> 0 < a -> all_safe a (gp_f g) -> gp_ok g -> (forall Z, In Z Zs -> few_dims Z) ->
  gp_predict_quantiles ppf solve (gp_units a t g) k' (map (in_units a t) Zs) qs = gp_predict_quantiles ppf solve g k Zs qs.
Proof.
  intros SK Ha S H HZ. unfold gp_predict_quantiles. change (mg_P (gp_data (gp_units a t g))) with (mg_P (gp_data g)). rewrite pad_dims_units.
  destruct (pad_dims (mg_P (gp_data g)) Zs) as [Xs|] eqn:E; [|reflexivity]. cbn [rmap bind].
  rewrite (predict_norm_units solve a t g k k') by (easy || exact (pad_dims_arrays _ Zs Xs HZ E)). reflexivity.
Qed.

Lemma log_likelihood_units a t g k k' : same_gpk k k' -> 0 < a -> all_safe a (gp_f g) -> gp_ok g ->
  gp_log_likelihood (gp_units a t g) k' = gp_log_likelihood g k.
Proof.
  intros [E1 [E2 E3]] Ha S H. unfold gp_log_likelihood, gp_log_det_K, gp_normal_quadratic. rewrite E2, gp_dense_units by easy.
  destruct (gp_dense g) as [e|]; reflexivity.
Qed.
