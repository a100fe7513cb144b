(** C61: the effect of approximate solves. *)

From Coq Require Import Reals List Arith ZArith Lia Lra.
From Coquelicot Require Import Coquelicot.
From Verif Require Import Base NDArray PSD Model_Util Proofs_Util Spec_Util Model_Linalg Spec_Linalg Proofs_Linalg Model_Interp Spec_Interp
  Proofs_Sparse Proofs_Interp Proofs_Interp2 Proofs_Bicubic Proofs_Assemble Proofs_Autogrid Properties_Interp Model_Kern Spec_Kern Proofs_Kern Proofs_KernPSD Model_FK Spec_FK Proofs_FK
  Properties_FK Model_Grid Spec_Grid Proofs_Grid Proofs_Grid2 Det Proofs_Det Model_Lik Spec_Lik Proofs_Lik Proofs_Lik2 Proofs_Lik3 Proofs_Lik4 Proofs_Lik5 Proofs_Lik6 Proofs_Lik7 Properties_Lik
  Properties_Lik2 Spec_GP Proofs_Gen Proofs_Gen2 Properties_Gen Model_GP Spec_Pred Proofs_Pred Proofs_Pred2 Proofs_Pred3 Proofs_Pred4 Proofs_Init Proofs_Pred6 Properties_Pred
  Model_Opt Spec_Opt Proofs_Opt Properties_Opt Spec_Acc Proofs_Acc Proofs_Acc2.
Import ListNotations.
Open Scope R_scope.

(** The covariance of a fitted model is bounded below by the smallest noise:
    its quadratic form at [v] is at least [s |v|^2]. *)
Theorem C61_noise_floor :
  forall g lo hi m s, gp_ready g lo hi m -> proper (gp_f g) ->
  (forall a, (a < f_D (gp_f g))%nat -> s <= vget (f_noise (gp_f g)) a) ->
  forall v : nat -> R, s * Rsum (n_obs g) (fun i => v i ^ 2) <= Rsum (n_obs g) (fun i => Rsum (n_obs g) (fun j => v i * K_fit g i j * v j)).
Proof.
  intros g lo hi m s HR Hp Hn v. pose proof (K_fit_floor g lo hi m s HR Hp Hn v) as H. unfold nrm2, qf, bil in H.
  rewrite (Rsum_ext _ (fun i => v i ^ 2) (fun i => v i * v i)) by (intros; ring).
  eapply Rle_trans; [exact H|]. right. apply Rsum_ext. intros i Hi. apply Rsum_ext. intros. ring.
Qed.
Print Assumptions C61_noise_floor.

(** Iterative.solve, when it logs nothing, leaves a residual within the
    tolerance. *)
Theorem C61_iterative :
  forall method Ko n K minres tol, represents Ko (mk_den n n K) ->
  (forall op b, acts n K op -> length b = n -> sized n (method minres op b (Rmin (/ 10 ^ 10) tol) n)) ->
  (forall b, length b = n -> exists r, iterative_solve method Ko b minres tol = Ok r /\ so_logged r = false) ->
  solves_within tol n K (iterative_x method minres tol Ko).
Proof.
  intros method Ko n K minres tol HK Hm Hr b Hb. destruct (Hr b Hb) as [r [Er Lr]].
  destruct (C42_reports method Ko n K b minres tol HK Hb (fun op A => Hm op b A Hb)) as (op & A & _ & H). destruct (H r Er) as (E & L & [I|I] & _).
  - exists (so_x r). unfold iterative_x. rewrite Er. split; [reflexivity|]. split; [|now apply L].
    destruct I as [I _]. destruct I as [I _]. apply nth_error_In in I. destruct (Hm op b A Hb) as [HF _].
    rewrite Forall_forall in HF. now apply HF.
  - exists (so_x r). unfold iterative_x. rewrite Er. split; [reflexivity|]. split; [|now apply L].
    destruct I as [_ [_ [succ [I _]]]]. destruct (Hm op b A Hb) as [_ HF]. eapply HF. exact I.
Qed.
Print Assumptions C61_iterative.

(** Undoing the normalisation multiplies by this. *)
Definition out_scale (g : gp) (d : nat) : R := match mg_norm (gp_data g) with Some l => n_std (nth d l (mk_norm 0 1)) | None => 1 end.

(** Predictions: with residuals of at most [eps] and noise of at least [s],
    means are off by at most [|c| eps / s] and variances computed on the fly by
    [|c'| eps / s] (in normalised units), [c] and [c'] being the covariances of
    the point with the observations. *)
Theorem C61_predictions :
  forall g lo hi m solve bits n_it k Zs zl s eps, gp_ready g lo hi m -> fitted solve bits n_it g k ->
  solves_within eps (n_obs g) (K_fit g) (solve (al_K (gpk_lik k))) -> no_identity (gp_f g) -> mode_ready g ->
  proper (gp_f g) -> 0 < s -> (forall a, (a < f_D (gp_f g))%nat -> s <= vget (f_noise (gp_f g)) a) ->
  requests (mg_P (gp_data g)) Zs zl -> length zl = f_D (gp_f g) -> (gp_mode g = OnTheFly -> (0 < nsum zl)%nat) ->
  let f := gp_f g in
  let P := mg_P (gp_data g) in
  let lens := map (@length R) (mg_Ys (gp_data g)) in
  let n := nsum lens in
  let x := obs P (mg_Xs (gp_data g)) lens in
  exists w mu var, weights g w /\ gp_predict solve g k Zs = Ok (mu, var) /\
    forall d i, (d < f_D f)%nat -> (i < nth d zl 0)%nat ->
      let pt := point P Zs d i in
      let c := fun j => ski_cov g w d pt (owner lens j) (x j) + ski_extra g w d pt (owner lens j) (x j) in
      let c' := fun j => lmc_cov f d pt (owner lens j) (x j) in
      (forall alpha, (forall j, (j < n)%nat -> Rsum n (fun l => K_fit g j l * alpha l) = y_obs g j) ->
         Rabs (vget (nth d mu []) i - unnorm_mean g d (Rsum n (fun j => c j * alpha j))) <= Rabs (out_scale g d) * (norm2 n c * (eps / s))) /\
      (gp_mode g = OnTheFly -> forall z, (forall j, (j < n)%nat -> Rsum n (fun l => K_fit g j l * z l) = c' j) ->
         Rabs (vget (nth d var []) i - unnorm_var g d (Rmax 0 (lmc_cov f d pt d pt + vget (f_noise f) d - Rsum n (fun j => c' j * z j))))
         <= out_scale g d ^ 2 * (norm2 n c' * (eps / s))).
Proof.
  intros g lo hi m solve bits n_it k Zs zl s eps HR [old [sl Hf]] Hs Hid Hm Hp Hs0 Hn HZ Hz Ht f P lens n x.
  destruct (fitted_of g _ _ _ _ _ _ Hf) as [HK Ea]. pose proof (K_fit_floor g lo hi m s HR Hp Hn) as HF.
  rewrite (predict_ok g lo hi m HR k HK solve (within_returns _ _ _ _ Hs) Zs zl Hid Hm HZ Hz Ht).
  exists (wt g). eexists _, _. split; [exact (wt_weights g lo hi m HR)|]. split; [reflexivity|].
  intros d i Hd Hi pt c c'. rewrite !nth_tab by exact Hd. rewrite !vget_tab by exact Hi. fold P pt. split.
  - intros alpha Hal. destruct (Hs (concat (mg_Ys (gp_data g))) (length_concat _)) as [a0 [E0 [L0 G0]]].
    assert (EA : a0 = sd_alpha (al_deriv (gpk_lik k))) by (apply Ok_inj; now rewrite <- E0, <- Ea). rewrite EA in G0.
    pose proof (coercive_err (n_obs g) (K_fit g) s eps Hs0 HF (concat (mg_Ys (gp_data g))) _ alpha Hal G0) as HE.
    replace (unnorm_mean g d (mean_at g k d pt) - unnorm_mean g d (Rsum n (fun j => c j * alpha j)))
      with (out_scale g d * (mean_at g k d pt - Rsum n (fun j => c j * alpha j))).
    2:{ unfold unnorm_mean, out_scale. destruct (mg_norm (gp_data g)); ring. }
    rewrite Rabs_mult. apply Rmult_le_compat_l; [apply Rabs_pos|].
    unfold mean_at. fold P lens n. rewrite <- Rsum_minus.
    rewrite (Rsum_ext n _ (fun j => c j * (vget (sd_alpha (al_deriv (gpk_lik k))) j - alpha j))) by (intros; unfold c, x; ring).
    eapply Rle_trans; [apply cauchy|]. apply Rmult_le_compat_l; [apply norm2_nonneg|exact HE].
  - intros EM z Hz'. unfold var_at, explained. rewrite EM. unfold explained_fly, sol. fold P lens n.
    change (cross g d pt) with c'.
    destruct (Hs (tab n c') (tab_length _ _)) as [z0 [E0 [L0 G0]]]. rewrite E0.
    assert (Hz2 : forall i0, (i0 < n_obs g)%nat -> Rsum (n_obs g) (fun j => K_fit g i0 j * z j) = vget (tab n c') i0).
    { intros j Hj. rewrite vget_tab by exact Hj. exact (Hz' j Hj). }
    pose proof (coercive_err (n_obs g) (K_fit g) s eps Hs0 HF (tab n c') z0 z Hz2 G0) as HE.
    assert (EP : prior_var (gp_f g) d = lmc_cov f d pt d pt + vget (f_noise f) d).
    { unfold prior_var, lmc_cov. rewrite Rplus_comm. f_equal. apply Rsum_ext. intros q Hq. now rewrite dist_on_self. }
    rewrite EP. set (pv := lmc_cov f d pt d pt + vget (f_noise f) d).
    match goal with |- Rabs (unnorm_var g d ?u - unnorm_var g d ?v) <= _ => replace (unnorm_var g d u - unnorm_var g d v) with (out_scale g d ^ 2 * (u - v)) end.
    2:{ unfold unnorm_var, out_scale. destruct (mg_norm (gp_data g)); ring. }
    rewrite Rabs_mult. rewrite (Rabs_right (out_scale g d ^ 2)) by (apply Rle_ge, pow2_ge_0). apply Rmult_le_compat_l; [apply pow2_ge_0|].
    eapply Rle_trans; [apply clip_lip|].
    match goal with |- Rabs (pv - ?u - (pv - ?v)) <= _ => replace (pv - u - (pv - v)) with (v - u) by ring end.
    rewrite Rabs_minus_sym, <- Rsum_minus.
    rewrite (Rsum_ext n _ (fun j => c' j * (vget z0 j - z j))) by (intros; ring).
    eapply Rle_trans; [apply cauchy|]. apply Rmult_le_compat_l; [apply norm2_nonneg|exact HE].
Qed.
Print Assumptions C61_predictions.

(** Gradients: parameters_changed succeeds whatever draw of probes it uses, and
    each gradient it assigns differs from that found with exact solves on the
    same probes by at most [M (eps / s) (|y| / s + eps / (2 s) + sqrt n / 2)],
    where [M] bounds the derivative [F] of the covariance in that parameter. *)
Theorem C61_gradients :
  forall g lo hi m solve k old s eps, gp_ready g lo hi m -> proper (gp_f g) ->
  0 < s -> (forall a, (a < f_D (gp_f g))%nat -> s <= vget (f_noise (gp_f g)) a) ->
  (forall Ko, represents Ko (mk_den (n_obs g) (n_obs g) (K_fit g)) -> solves_within eps (n_obs g) (K_fit g) (solve Ko)) -> (0 < k)%nat ->
  let f := gp_f g in
  let n := n_obs g in
  length (s_vecs old) = f_Q f -> length (s_diags old) = f_Q f -> length (s_kernels old) = f_Q f ->
  forall bits, In bits (draws k n) ->
  exists kk new, parameters_changed solve bits k g old = Ok (kk, new) /\
    forall solve0, exact_solver n (K_fit g) solve0 ->
    exists kk0 new0, parameters_changed solve0 bits k g old = Ok (kk0, new0) /\
      forall p, has_par f p -> exists F,
        (forall i j, (i < n)%nat -> (j < n)%nat ->
           is_derive (fun v => K_fit (with_params g (with_par f p v)) i j) (par_value f p) (F i j)) /\
        forall M, op_bound n F M ->
          Rabs (slot new p - slot new0 p) <= M * (eps / s) * (norm2 n (y_obs g) / s + eps / s / 2 + sqrt (INR n) / 2).
Proof.
  intros g lo hi m solve k old s eps HR Hp Hs Hn Hw Hk f n O1 O2 O3 bits Hb.
  destruct (fit_gen g lo hi m HR solve k old bits (fun Ko RK => within_returns _ _ _ _ (Hw Ko RK)) Hk Hb O1 O2 O3)
    as [Ko [sd [kk [new (RK & Es & Hz & Ep & _ & _ & Hsl)]]]].
  exists kk, new. split; [exact Ep|]. intros solve0 H0.
  destruct (fit_gen g lo hi m HR solve0 k old bits (fun Ko RK => within_returns _ _ _ _ (exact_within _ _ _ (H0 Ko RK))) Hk Hb O1 O2 O3)
    as [Ko0 [sd0 [kk0 [new0 (RK0 & Es0 & Hz0 & Ep0 & _ & _ & Hsl0)]]]].
  exists kk0, new0. split; [exact Ep0|]. intros p HPp. exists (F_fit g p). split; [intros i j Hi Hj; now apply (fit_derive g lo hi m HR)|].
  intros M HM. rewrite (Hsl p HPp), (Hsl0 p HPp).
  pose proof (K_fit_pd g lo hi m HR Hp) as Hpd. pose proof (K_fit_floor g lo hi m s HR Hp Hn) as HF. fold n in HF.
  assert (HPv : pivots n (K_fit g)).
  { apply pos_definite_pivots; [|exact Hpd]. apply (K_op_sym f (mg_P (gp_data g)) (grids_dists (gp_grids g)) (grids_interps (gp_grids g)) (G_of (gp_grids g)) (W_of (gp_grids g)) _ _
      (rd_ok g lo hi m HR) (rd_P g lo hi m HR) (kr_interp g lo hi m HR)). }
  destruct (inv_ex n _ HPv) as [X HX]. destruct (solves_ex n _ (y_obs g) HPv) as [a Ha].
  pose proof (est_err n k (K_fit g) X (F_fit g p) Ko solve (concat (mg_Ys (gp_data g))) a s eps M Hk Hs HF HX (Hw Ko RK) (length_concat _) Ha HM bits sd Hb Es) as E1.
  pose proof (est_err n k (K_fit g) X (F_fit g p) Ko0 solve0 (concat (mg_Ys (gp_data g))) a s 0 M Hk Hs HF HX (exact_within _ _ _ (H0 Ko0 RK0)) (length_concat _) Ha HM bits sd0 Hb Es0) as E0.
  set (t := est_true n k X (F_fit g p) a bits) in *. replace (0 / s) with 0 in E0 by (unfold Rdiv; ring). rewrite Rmult_0_r, Rmult_0_l in E0.
  assert (ET : est (nsum (map (length (A:=R)) (mg_Ys (gp_data g)))) sd0 (F_fit g p) = t).
  { pose proof (Rabs_pos (est n sd0 (F_fit g p) - t)). assert (Z : Rabs (est n sd0 (F_fit g p) - t) = 0) by lra.
    destruct (Req_dec (est n sd0 (F_fit g p) - t) 0) as [Z'|Z']; [|apply Rabs_no_R0 in Z'; contradiction]. unfold n, n_obs in Z'. lra. }
  rewrite ET. exact E1.
Qed.
Print Assumptions C61_gradients.

(** The mean of those gradients over the draws is as close to the gradient of
    the log likelihood. *)
Theorem C61_expected :
  forall g lo hi m solve k old s eps, gp_ready g lo hi m -> proper (gp_f g) ->
  0 < s -> (forall a, (a < f_D (gp_f g))%nat -> s <= vget (f_noise (gp_f g)) a) ->
  (forall Ko, represents Ko (mk_den (n_obs g) (n_obs g) (K_fit g)) -> solves_within eps (n_obs g) (K_fit g) (solve Ko)) -> (0 < k)%nat ->
  let f := gp_f g in
  let n := n_obs g in
  length (s_vecs old) = f_Q f -> length (s_diags old) = f_Q f -> length (s_kernels old) = f_Q f ->
  exists grads : list (list bool) -> grad_slots,
    (forall bits, In bits (draws k n) -> exists kk, parameters_changed solve bits k g old = Ok (kk, grads bits)) /\
    forall p, has_par f p -> exists G F,
      is_gradient n (fun v => K_fit (with_params g (with_par f p v))) (y_obs g) (par_value f p) G /\
      (forall i j, (i < n)%nat -> (j < n)%nat ->
         is_derive (fun v => K_fit (with_params g (with_par f p v)) i j) (par_value f p) (F i j)) /\
      forall M, op_bound n F M ->
        Rabs (mean (draws k n) (fun bits => slot (grads bits) p) - G) <= M * (eps / s) * (norm2 n (y_obs g) / s + eps / s / 2 + sqrt (INR n) / 2).
Proof.
  intros g lo hi m solve k old s eps HR Hp Hs Hn Hw Hk f n O1 O2 O3.
  pose proof (K_fit_pd g lo hi m HR Hp) as Hpd.
  assert (HPv : pivots n (K_fit g)).
  { apply pos_definite_pivots; [|exact Hpd]. apply (K_op_sym f (mg_P (gp_data g)) (grids_dists (gp_grids g)) (grids_interps (gp_grids g)) (G_of (gp_grids g)) (W_of (gp_grids g)) _ _
      (rd_ok g lo hi m HR) (rd_P g lo hi m HR) (kr_interp g lo hi m HR)). }
  destruct (inv_ex n _ HPv) as [X HX].
  set (solve0 := fun (_ : Mat) (b : vec) => Ok (tab n (fun i => Rsum n (fun j => X i j * vget b j)))).
  assert (H0 : exact_solver n (K_fit g) solve0).
  { intros Ko _ b Hb. eexists. split; [reflexivity|]. split; [apply tab_length|]. intros i Hi.
    rewrite <- (inv_col n (K_fit g) X HX (vget b) i Hi). apply Rsum_ext. intros j Hj. now rewrite vget_tab. }
  destruct (fit_ok g lo hi m HR solve0 k old Hp H0 Hk O1 O2 O3) as [s0 (E0 & GV & GD & GK & GN)].
  set (grads := fun bits => match parameters_changed solve bits k g old with Ok (_, new) => new | Err _ => old end).
  assert (HG : forall bits, In bits (draws k n) -> exists kk, parameters_changed solve bits k g old = Ok (kk, grads bits)).
  { intros bits Hb. destruct (C61_gradients g lo hi m solve k old s eps HR Hp Hs Hn Hw Hk O1 O2 O3 bits Hb) as [kk [new [E _]]].
    exists kk. unfold grads. now rewrite E. }
  exists grads. split; [exact HG|]. intros p HPp.
  exists (mean (draws k n) (fun bits => slot (s0 bits) p)), (F_fit g p). split; [|split].
  - destruct p; cbn [has_par] in HPp.
    + now apply GV.
    + now apply GD.
    + now apply GK.
    + now apply GN.
  - intros i j Hi Hj. now apply (fit_derive g lo hi m HR).
  - intros M HM. apply mean_close; [intros EN; pose proof (draws_length k n) as L; rewrite EN in L; cbn [length] in L; pose proof (Nat.pow_nonzero 2 (k * n) ltac:(lia)); lia|].
    intros bits Hb. destruct (C61_gradients g lo hi m solve k old s eps HR Hp Hs Hn Hw Hk O1 O2 O3 bits Hb) as [kk [new [E H]]].
    destruct (H solve0 H0) as [kk0 [new0 [E0' H']]]. destruct (E0 bits Hb) as [kk1 E1].
    assert (N1 : grads bits = new) by (unfold grads; now rewrite E). unfold n in E1. rewrite E0' in E1. apply Ok_inj in E1. injection E1 as _ N0.
    destruct (H' p HPp) as [F [HF HB]]. rewrite N1, <- N0. apply HB. destruct HM as [HM0 HM]. split; [exact HM0|].
    intros v. erewrite norm2_ext; [apply HM|]. intros i Hi. apply Rsum_ext. intros j Hj. f_equal.
    rewrite <- (is_derive_unique _ _ _ (HF i j Hi Hj)). apply is_derive_unique. now apply (fit_derive g lo hi m HR).
Qed.
Print Assumptions C61_expected.

(** *** Example: a solver that is off by a little *)

(** An exact solver whose answers are shifted by [t] in every entry. *)
Definition shifted (n : nat) (t : R) (solve : Mat -> vec -> result vec) : Mat -> vec -> result vec :=
  fun Ko b => let! x := solve Ko b in Ok (tab n (fun i => vget x i + t)).

Lemma shifted_within n K solve Ko t : solves_exactly n K (solve Ko) ->
  solves_within (Rabs t * norm2 n (fun i => Rsum n (fun j => K i j))) n K (shifted n t solve Ko).
Proof.
  intros H b Hb. destruct (H b Hb) as [x (E & L & Hx)]. eexists. unfold shifted. rewrite E. cbn [bind]. split; [reflexivity|].
  split; [apply tab_length|]. right. rewrite <- (Rabs_Ropp t), <- norm2_scal.
  change (gap n K b (tab n (fun i => vget x i + t))) with (norm2 n (fun i => vget b i - Rsum n (fun j => K i j * vget (tab n (fun i => vget x i + t)) j))).
  apply norm2_ext. intros i Hi.
  rewrite <- (Hx i Hi), <- Rsum_scal_l, <- Rsum_minus. apply Rsum_ext. intros j Hj. rewrite vget_tab by exact Hj. ring.
Qed.

Example C61_ex : forall md, exists g solve bits k s,
  gp_ready g (GNum 0) (GNum 10) (GNum 2%nat) /\ gp_mode g = md /\ mode_ready g /\ proper (gp_f g) /\ no_identity (gp_f g) /\
  0 < s /\ (forall a, (a < f_D (gp_f g))%nat -> s <= vget (f_noise (gp_f g)) a) /\
  (forall Ko, represents Ko (mk_den (n_obs g) (n_obs g) (K_fit g)) -> solves_within (/ 1000) (n_obs g) (K_fit g) (solve Ko)) /\
  ~ exact_solver (n_obs g) (K_fit g) solve /\
  fitted solve bits 1 g k /\ solves_within (/ 1000) (n_obs g) (K_fit g) (solve (al_K (gpk_lik k))) /\
  requests (mg_P (gp_data g)) ex1_Zs [3; 0]%nat /\ length [3; 0]%nat = f_D (gp_f g) /\ (0 < nsum [3; 0])%nat /\
  has_par (gp_f g) (PDiag 0 1) /\ has_par (gp_f g) (PKern 1 0) /\ has_par (gp_f g) (PNoise 1).
Proof.
  intros md. destruct pos_rbf as [H1 [H2 [H3 _]]].
  destruct (ex1_model (RBF 1) (Matern32 2) md H1 H2 I I) as
    [f [g [solve0 [bits [k0 (E & Eg & HR & Em & Hs & Hf & Hp & EQ & ED & K1 & K2 & EP & HQ & HS & Ed)]]]]].
  assert (Hq : forall q, (q < f_Q (gp_f g))%nat -> qdims (gp_f g) q = seq 0 (mg_P (gp_data g))).
  { intros q Hq. rewrite EQ in Hq. rewrite EP. now apply HQ. }
  set (n := n_obs g) in *. set (B := norm2 n (fun i => Rsum n (fun j => K_fit g i j))).
  assert (HB : 0 <= B) by apply norm2_nonneg. set (t := / 1000 / (1 + B)).
  assert (Ht : 0 < t) by (unfold t; apply Rdiv_lt_0_compat; lra).
  assert (Hw : forall Ko, represents Ko (mk_den n n (K_fit g)) -> solves_within (/ 1000) n (K_fit g) (shifted n t solve0 Ko)).
  { intros Ko RK b Hb. destruct (shifted_within n (K_fit g) solve0 Ko t (Hs Ko RK) b Hb) as [x (Ex & Lx & Gx)]. exists x.
    split; [exact Ex|]. split; [exact Lx|]. eapply Rle_trans; [exact Gx|]. fold B. rewrite Rabs_right by lra.
    unfold t. apply Rmult_le_reg_r with (1 + B); [lra|]. replace (/ 1000 / (1 + B) * B * (1 + B)) with (/ 1000 * B) by (field; lra). lra. }
  pose proof (gr_reach _ _ _ _ HR) as Hr.
  destruct (fit_gen g _ _ _ HR (shifted n t solve0) 1 (mk_slots (repeat [] 2) (repeat [] 2) (repeat KIdentity 2) []) [repeat true n]
     (fun Ko RK => within_returns _ _ _ _ (Hw Ko RK)) ltac:(lia)) as [Ko [sd [kk [new (RK & Es & Hz & Ep & EK & _ & _)]]]].
  { apply draws_in. split; [reflexivity|]. intros r [<-|[]]. apply repeat_length. }
  { now rewrite EQ. } { now rewrite EQ. } { now rewrite EQ. }
  exists g, (shifted n t solve0), [repeat true n], kk, (Rmin (vget (f_noise (gp_f g)) 0) (vget (f_noise (gp_f g)) 1)).
  split; [exact HR|]. split; [exact Em|].
  split; [unfold mode_ready; destruct (gp_mode g); [exact I|exact Hq|exact (K_obs_pdR g _ _ _ HR Hp)]|]. split; [exact Hp|].
  split; [intros [|[|q]] Hq'; [now rewrite K1|now rewrite K2|lia]|].
  split. { apply Rmin_glb_lt; apply Hp; rewrite ED; lia. }
  split. { intros [|[|a]] Ha; [apply Rmin_l|apply Rmin_r|lia]. }
  split; [exact Hw|]. split.
  { intros HE. specialize (HE Ko RK). specialize (Hs Ko RK). set (b := tab n (fun _ => 0)).
    destruct (Hs b (tab_length _ _)) as [x (Ex & Lx & Hx)]. destruct (HE b (tab_length _ _)) as [x' (Ex' & Lx' & Hx')].
    unfold shifted in Ex'. rewrite Ex in Ex'. cbn [bind] in Ex'. apply Ok_inj in Ex'. subst x'.
    pose proof (K_fit_pd g _ _ _ HR Hp (fun _ => t) (ex_intro _ 0%nat (conj (rd_n g _ _ _ HR) (Rgt_not_eq _ _ Ht)))) as Hpd.
    assert (HZ : Rsum n (fun i => Rsum n (fun j => t * K_fit g i j * t)) = 0).
    { apply Rsum_zero. intros i Hi.
      rewrite (Rsum_ext n _ (fun j => t * (K_fit g i j * vget (tab n (fun i => vget x i + t)) j - K_fit g i j * vget x j)))
        by (intros j Hj; rewrite vget_tab by exact Hj; ring).
      rewrite Rsum_scal_l, Rsum_minus, Hx, Hx' by exact Hi. ring. }
    exact (Rlt_irrefl 0 (Rlt_le_trans _ _ _ Hpd (Req_le _ _ HZ))). }
  split; [exists (mk_slots (repeat [] 2) (repeat [] 2) (repeat KIdentity 2) []), new; exact Ep|].
  split; [rewrite EK; now apply Hw|].
  split; [rewrite EP; apply ex1_requests|]. split; [now rewrite ED|]. split; [cbn; lia|].
  split; [cbn; lia|]. split; [split; [lia|rewrite K2; cbn; lia]|]. cbn; lia.
Qed.

(** A solver for 2 x = y that is off by 1/100000. *)
Definition ex_near (minres : bool) (op : linop) (y : vec) (tol : R) (n : nat) : krylov := mk_krylov [[0]] (Ok ([vget y 0 / 2 + 1 / 100000], 0%Z)).
Example C61_iterative_ex :
  exists K, diag (mk_arr [1%nat] [2]) = Ok K /\ represents K (mk_den 1 1 (fun _ _ => 2)) /\
    (forall op b, acts 1 (fun _ _ => 2) op -> length b = 1%nat -> sized 1 (ex_near true op b (Rmin (/ 10 ^ 10) (1 / 10000)) 1)) /\
    (forall b, length b = 1%nat -> exists r, iterative_solve ex_near K b true (1 / 10000) = Ok r /\ so_logged r = false /\ so_error r = 2 / 100000).
Proof.
  destruct (diag (mk_arr [1%nat] [2])) as [K|] eqn:EK; [|discriminate EK]. exists K. split; [reflexivity|].
  assert (HK : represents K (mk_den 1 1 (fun _ _ => 2))).
  { apply (represents_ext K (d_diag [2])); [apply (diag_rep (mk_arr [1%nat] [2])); [reflexivity|exact EK]|].
    repeat split; cbn; auto. intros [|i] [|j] Hi Hj; cbn; try lia. reflexivity. }
  split; [exact HK|].
  assert (S1 : forall op b, sized 1 (ex_near true op b (Rmin (/ 10 ^ 10) (1 / 10000)) 1)).
  { intros op b. split; [repeat constructor|intros x succ E; injection E as <- _; reflexivity]. }
  split; [intros op b _ _; apply S1|]. intros b Hb.
  assert (G : gap 1 (fun _ _ => 2) b [vget b 0 / 2 + 1 / 100000] = 2 / 100000).
  { unfold gap. replace (Rsum 1 _) with ((2 / 100000) * (2 / 100000)); [apply sqrt_square; lra|].
    destruct b as [|b0 b]; [discriminate|]. cbv -[Rmult Rplus IZR Ropp Rinv]. field. }
  destruct (solve_spec 1 _ K HK ex_near b true (1/10000) Hb (S1 _ b)) as [[E _]|(c & x & _ & (A & B & [q Q] & _) & _)].
  - rewrite E. cbn [ex_near k_result bind k_iterates length]. rewrite G. eexists. split; [reflexivity|]. cbn [so_logged so_error].
    destruct (Rlt_dec (1 / 10000) (2 / 100000)); [lra|]. split; reflexivity.
  - cbn [ex_near k_iterates] in A. destruct (c - 1)%nat as [|d] eqn:Ec; [lia|]. destruct d; discriminate A.
Qed.

(** What a solve reports to the metrics: the residual of the vector it returns,
    and the number of iterates after which it stopped. *)
Theorem C64_solver :
  forall method K n F y minres tol, represents K (mk_den n n F) -> length y = n ->
  (forall op, acts n F op -> sized n (method minres op y (Rmin (/ 10 ^ 10) tol) n)) ->
  exists op, acts n F op /\ let t := method minres op y (Rmin (/ 10 ^ 10) tol) n in
    forall x, iterative_x method minres tol K y = Ok x ->
      snd (iterative_info method minres tol K y) = gap n F y x /\
      exists c, fst (iterative_info method minres tol K y) = INR c /\
        (interrupts n F y tol t c x /\ (forall c' x', (c' < c)%nat -> ~ interrupts n F y tol t c' x') \/
         (forall c' x', ~ interrupts n F y tol t c' x') /\ c = length (k_iterates t)).
Proof.
  intros method K n F y minres tol HK Hy Hm. destruct (C42_reports method K n F y minres tol HK Hy Hm) as (op & A & _ & H). exists op. split; [exact A|].
  intros t x Ex. unfold iterative_x, iterative_info in *. destruct (iterative_solve method K y minres tol) as [s|]; [|discriminate]. cbn [bind] in Ex.
  injection Ex as <-. destruct (H s eq_refl) as (E & _ & I & _). cbn [fst snd]. split; [exact E|]. exists (so_ctr s). split; [reflexivity|].
  destruct I as [(I & _ & I')|(I & I' & _)]; [left|right]; auto.
Qed.
Print Assumptions C64_solver.

(** A solver that stops after two iterates reports two of them. *)
Definition ex_two (minres : bool) (op : Model_Linalg.linop) (b : vec) (rtol : R) (maxiter : nat) : krylov :=
  mk_krylov [[0]; [vget b 0 / 2]] (Ok ([vget b 0 / 2], 0%Z)).
Example C64_solver_ex :
  exists K, diag (mk_arr [1%nat] [2]) = Ok K /\ represents K (mk_den 1 1 (fun _ _ => 2)) /\
    (forall op, acts 1 (fun _ _ => 2) op -> sized 1 (ex_two true op [6] (Rmin (/ 10 ^ 10) (1 / 10000)) 1)) /\
    iterative_x ex_two true (1 / 10000) K [6] = Ok [3] /\ fst (iterative_info ex_two true (1 / 10000) K [6]) = 2.
Proof.
  destruct (diag (mk_arr [1%nat] [2])) as [K|] eqn:EK; [|discriminate EK]. exists K. split; [reflexivity|].
  assert (HK : represents K (mk_den 1 1 (fun _ _ => 2))).
  { apply (represents_ext K (d_diag [2])); [apply (diag_rep (mk_arr [1%nat] [2])); [reflexivity|exact EK]|].
    repeat split; cbn; auto. intros [|i] [|j] Hi Hj; cbn; try lia. reflexivity. }
  split; [exact HK|]. split. { intros op _. split; [repeat constructor|intros x succ E; injection E as <- _; reflexivity]. }
  assert (S : forall op, acts 1 (fun _ _ => 2) op -> sized 1 (ex_two true op [6] (Rmin (/ 10 ^ 10) (1 / 10000)) 1)).
  { intros op _. split; [repeat constructor|intros x succ E; injection E as <- _; reflexivity]. }
  destruct (C42_reports ex_two K 1 (fun _ _ => 2) [6] true (1 / 10000) HK eq_refl S) as (op & A & R & H). cbv zeta in R, H.
  destruct R as [s Es]; [right; eexists _, _; reflexivity|]. destruct (H s Es) as (_ & _ & I & _).
  assert (NI : forall c x, ~ interrupts 1 (fun _ _ => 2) [6] (1 / 10000) (ex_two true op [6] (Rmin (/ 10 ^ 10) (1 / 10000)) 1) c x).
  { intros c x (N & P & [q Q] & _). cbn [ex_two k_iterates] in N. assert (L : (c - 1 < 2)%nat) by (change 2%nat with (length [[0]; [vget [6] 0 / 2]]); apply nth_error_Some; unfold vec in *; rewrite N; discriminate). lia. }
  destruct I as [(I & _)|(_ & C & succ & E & _)]; [exfalso; exact (NI _ _ I)|]. unfold iterative_x, iterative_info. rewrite Es. cbn [bind fst].
  cbn [ex_two k_result] in E. injection E as E _. split; [rewrite <- E; do 2 f_equal; unfold vget; cbn; lra|]. rewrite C. cbn. lra.
Qed.
