(** Claims about building, fitting and querying a model
    (C33-C37, C43, C44, C53, C58, C59). *)

From Coq Require Import Reals List Arith ZArith Lia Lra.
From Verif Require Import Base NDArray PSD Model_Util Proofs_Util Spec_Util Model_Linalg Spec_Linalg Proofs_Linalg Model_Interp Spec_Interp
  Properties_Interp Model_Kern Spec_Kern Proofs_Kern Proofs_KernPSD Model_FK Spec_FK Proofs_FK
  Properties_FK Model_Grid Spec_Grid Proofs_Grid Proofs_Grid2 Properties_Grid Det Proofs_Det Model_Lik Spec_Lik Proofs_Lik Proofs_Lik2 Proofs_Lik3 Proofs_Lik4 Proofs_Lik5 Proofs_Lik6 Proofs_Lik7 Properties_Lik
  Properties_Lik2 Spec_GP Proofs_Gen Proofs_Gen2 Properties_Gen Model_GP Spec_Pred Proofs_Pred Proofs_Pred2 Proofs_Pred3 Proofs_Pred4 Proofs_Init Proofs_Pred5 Proofs_Pred6.
Import ListNotations.
Open Scope R_scope.

(** ** C43: data *)

(** For arrays that have at least one dimension, MultiGP accepts exactly the
    data that meet the documented requirements other than the one on repeated
    inputs, and raises ValueError for all other data.  It stores the inputs as
    2-D arrays with the same points, and the outputs: unchanged or, when
    normalising, shifted to mean 0 and scaled to standard deviation 1, which
    [Norm] can undo. *)
Theorem C43_validation_partial :
  forall Xs Ys nrm, (forall X, In X Xs -> a_shape X <> []) -> (forall Y, In Y Ys -> a_shape Y <> []) ->
  (~ valid_data Xs Ys -> multigp_init Xs Ys nrm = Err ValueError) /\
  (valid_data Xs Ys -> exists d, multigp_init Xs Ys nrm = Ok d /\
     (forall X, In X Xs -> width X = mg_P d) /\ mg_D d = length Xs /\
     length (mg_Xs d) = length Xs /\
     (forall i X, nth_error Xs i = Some X -> exists Z, nth_error (mg_Xs d) i = Some Z /\ a_data Z = a_data X /\
        exists c, nth_error (a_shape X) 0 = Some c /\ a_shape Z = [c; mg_P d]) /\
     length (mg_Ys d) = length Ys /\
     (forall i Y, nth_error Ys i = Some Y -> exists y, nth_error (mg_Ys d) i = Some y /\ length y = length (a_data Y) /\
        if nrm then
          (a_data Y <> [] -> sample_mean y = 0 /\ sample_var y = 1) /\
          exists l nm, mg_norm d = Some l /\ nth_error l i = Some nm /\ inverse_mean nm y = a_data Y
        else mg_norm d = None /\ y = a_data Y)).
Proof.
  intros Xs Ys nrm HX HY. destruct (multigp_init_spec Xs Ys nrm HX HY) as [[VD [P [HP E]]]|[VD E]].
  2:{ split; [intros _; exact E|contradiction]. }
  split; [contradiction|]. intros _. exists (multi_of P Xs Ys nrm). split; [exact E|]. cbn [multi_of mg_P mg_D mg_Xs mg_Ys mg_norm].
  pose proof VD as (_ & HF & _ & HS).
  split; [exact HP|]. split; [reflexivity|]. split; [apply map_length|]. split; [|split; [apply map_length|]].
  - intros i X Hi. exists (pad1 X). split; [now apply map_nth_error|].
    assert (IX : In X Xs) by (eapply nth_error_In; exact Hi). specialize (HP X IX).
    assert (SX : (exists c, a_shape X = [c]) \/ exists c p, a_shape X = [c; p]).
    { clear - HF IX. induction HF as [|X' Y Xs Ys [c [H _]] _ IH]; [destruct IX|]. destruct IX as [<-|IX]; [|now apply IH].
      destruct H as [H|[p H]]; [left|right]; eauto. }
    unfold pad1, width in *. destruct SX as [[c Ec]|[c [p Ec]]]; rewrite Ec in *; cbn [a_data a_shape nth_error].
    + split; [reflexivity|]. exists c. split; [reflexivity|]. now rewrite HP.
    + split; [reflexivity|]. exists c. split; [reflexivity|]. now rewrite Ec, HP.
  - intros i Y Hi. assert (IY : In Y Ys) by (eapply nth_error_In; exact Hi). eexists. split; [apply map_nth_error; exact Hi|]. cbv beta.
    destruct nrm; [|split; [reflexivity|split; reflexivity]]. split; [apply map_length|].
    assert (NS : a_data Y <> [] -> np_std (a_data Y) <> 0).
    { intros Hne. destruct (zero_std_spec (a_data Y)) as [[Z _]|[_ Z]]; [|exfalso; apply Z, HS; exact IY].
      unfold zero_std in Z. destruct (a_data Y); [congruence|]. destruct (Req_EM_T _ 0); [discriminate Z|assumption]. }
    split.
    + intros Hne. apply (normalize_standard (a_data Y)); [exact Hne|now apply NS|reflexivity].
    + exists (map scale_by (map a_data Ys)), (scale_by (a_data Y)). split; [reflexivity|]. split; [now apply map_nth_error, map_nth_error|].
      destruct (a_data Y) as [|y0 l] eqn:EY; [reflexivity|]. rewrite <- EY in *.
      apply (inverse_normalize (a_data Y)); [apply NS; congruence|reflexivity].
Qed.
Print Assumptions C43_validation_partial.

(** Two outputs: a 1-D input and a 2-D one. *)
Example C43_ex : valid_data [mk_arr [2]%nat [0; 1]; mk_arr [2; 1]%nat [3; 4]] [mk_arr [2]%nat [1; 2]; mk_arr [2]%nat [3; 5]] /\
  ~ valid_data [mk_arr [2]%nat [0; 1]] [mk_arr [2]%nat [7; 7]].
Proof.
  split.
  - split; [discriminate|]. split; [constructor; [|constructor; [|constructor]]; exists 2%nat; (split; [|reflexivity]); [left; reflexivity|right; now exists 1%nat]|].
    split; [exists 1%nat; intros X [<-|[<-|[]]]; reflexivity|]. intros Y [<-|[<-|[]]]; right; [exists 1, 2|exists 3, 5]; cbn; repeat split; auto; lra.
  - intros (_ & _ & _ & H). destruct (H _ (or_introl eq_refl)) as [C|[x [y [Hx [Hy Hne]]]]]; [discriminate C|]. cbn in Hx, Hy.
    apply Hne. destruct Hx as [<-|[<-|[]]], Hy as [<-|[<-|[]]]; reflexivity.
Qed.

(** The docstring promises a ValueError for repeated inputs: they are
    accepted.  A 0-d array is a TypeError, not a ValueError. *)
Theorem C43_validation_refuted :
  (exists Xs Ys d x, multigp_init Xs Ys true = Ok d /\ exists X i j, In X Xs /\ (i < j < length (a_data X))%nat /\
     vget (a_data X) i = x /\ vget (a_data X) j = x) /\
  (exists Xs Ys, multigp_init Xs Ys true = Err TypeError).
Proof.
  split.
  - set (Xs := [mk_arr [2]%nat [1; 1]]). set (Ys := [mk_arr [2]%nat [1; 2]]).
    destruct (C43_validation_partial Xs Ys true) as [_ H].
    + intros X [<-|[]]; discriminate.
    + intros X [<-|[]]; discriminate.
    + destruct H as [d [E _]].
      * split; [discriminate|]. split; [constructor; [exists 2%nat; split; [now left|reflexivity]|constructor]|].
        split; [exists 1%nat; intros X [<-|[]]; reflexivity|]. intros Y [<-|[]]. right. exists 1, 2. cbn. repeat split; auto; lra.
      * exists Xs, Ys, d, 1. split; [exact E|]. exists (mk_arr [2]%nat [1; 1]), 0%nat, 1%nat. cbn. repeat split; auto; lia.
  - exists [mk_arr [] [1]], [mk_arr [1]%nat [1]]. reflexivity.
Qed.
Print Assumptions C43_validation_refuted.

(** ** C59: building and fitting a model *)

(** InterpolatedLLGP can be built from all valid data without empty outputs,
    if in each active dimension (of one- and two-dimensional kernels) there
    are two different values and the optional arguments fit.  The result
    satisfies the hypotheses of the theorems below. *)
Theorem C59_init :
  forall Xs Ys nrm lo hi m md f P f',
    (forall X, In X Xs -> length (a_data X) = nprod (a_shape X)) -> (forall Y, In Y Ys -> length (a_data Y) = nprod (a_shape Y)) ->
    valid_data Xs Ys -> (forall X, In X Xs -> width X = P) -> (forall Y, In Y Ys -> a_data Y <> []) -> (0 < P)%nat ->
    reach f -> kernels_ok f -> f_D f = length Xs -> set_input_dim f P = Ok f' ->
    (forall ad, group f' ad <> [] -> grid_args_ok P Xs (map (fun Y => length (a_data Y)) Ys) lo hi m ad) ->
    exists g d, gp_init Xs Ys nrm lo hi m (Some md) (Some f) = Ok g /\ multigp_init Xs Ys nrm = Ok d /\
      gp_ready g lo hi m /\ gp_f g = f' /\ gp_mode g = md /\ gp_data g = d.
Proof.
  intros Xs Ys nrm lo hi m md f P f' WX WY VD HW NE HPp Hf Hk HD Ed HA.
  destruct (gp_init_ready Xs Ys nrm lo hi m md f P f' WX WY VD HW NE HPp Hf Hk HD Ed HA) as [g [Eg [HR [E1 [E2 E3]]]]].
  pose proof Eg as Eg'. unfold gp_init in Eg'. apply bind_ok in Eg'. destruct Eg' as [d [Em Eg']].
  exists g, d. repeat (split; [assumption|]). 
  apply bind_ok in Eg'. destruct Eg' as [f0 [_ Eg']]. apply bind_ok in Eg'. destruct Eg' as [gr [_ Eg']]. apply Ok_inj in Eg'. subst g. reflexivity.
Qed.
Print Assumptions C59_init.

(** Invalid data, a missing functional kernel, an unknown prediction method
    and a functional kernel for another number of dimensions are ValueErrors. *)
Theorem C59_init_rejects :
  forall Xs Ys nrm lo hi m pred fk,
    (forall X, In X Xs -> a_shape X <> []) -> (forall Y, In Y Ys -> a_shape Y <> []) ->
    ~ valid_data Xs Ys \/ fk = None \/ pred = None \/
      (exists f P, fk = Some f /\ f_P f = Some P /\ exists X, In X Xs /\ width X <> P) ->
    gp_init Xs Ys nrm lo hi m pred fk = Err ValueError.
Proof.
  intros Xs Ys nrm lo hi m pred fk HX HY H. unfold gp_init.
  destruct (multigp_init_spec Xs Ys nrm HX HY) as [[VD [P [HP ->]]]|[_ ->]]; [|reflexivity]. cbn [bind].
  destruct H as [H|[->|[->|[f [P' [-> [EP [X [IX NP]]]]]]]]]; [contradiction|reflexivity|destruct fk; reflexivity|].
  destruct pred; [|reflexivity]. unfold set_input_dim. rewrite EP. change (mg_P (multi_of P Xs Ys nrm)) with P.
  destruct (Nat.eqb_spec P' P) as [E|E]; [|reflexivity]. exfalso. apply NP. rewrite E. now apply HP.
Qed.
Print Assumptions C59_init_rejects.

(** With exact solves, parameters_changed succeeds for every draw of the
    probes when the noise is positive (and periodic kernels act on single
    dimensions), and the mean over all draws of the gradients it assigns is
    the gradient of the log density of the observations under the covariance
    the model works with. *)
Theorem C59_fit :
  forall g lo hi m solve k old, gp_ready g lo hi m -> proper (gp_f g) ->
  exact_solver (n_obs g) (K_fit g) solve -> (0 < k)%nat ->
  let f := gp_f g in
  let n := n_obs g in
  length (s_vecs old) = f_Q f -> length (s_diags old) = f_Q f -> length (s_kernels old) = f_Q f ->
  pos_definite n (K_fit g) /\
  exists s : list (list bool) -> grad_slots,
    (forall bits, In bits (draws k n) -> exists kk, parameters_changed solve bits k g old = Ok (kk, s bits)) /\
    (forall q r d, (q < f_Q f)%nat -> (r < length (nth q (f_vecs f) []))%nat -> (d < f_D f)%nat ->
       is_gradient n (fun v => K_fit (with_params g (with_vec f q r d v))) (y_obs g) (mget (nth q (f_vecs f) []) r d)
         (mean (draws k n) (fun bits => mget (nth q (s_vecs (s bits)) []) r d))) /\
    (forall q d, (q < f_Q f)%nat -> (d < f_D f)%nat ->
       is_gradient n (fun v => K_fit (with_params g (with_diag f q d v))) (y_obs g) (vget (nth q (f_diags f) []) d)
         (mean (draws k n) (fun bits => vget (nth q (s_diags (s bits)) []) d))) /\
    (forall q j, (q < f_Q f)%nat -> (j < length (params (kern_of f q)))%nat ->
       is_gradient n (fun v => K_fit (with_params g (with_kparam f q j v))) (y_obs g) (nth j (params (kern_of f q)) 0)
         (mean (draws k n) (fun bits => nth j (params (nth q (s_kernels (s bits)) KIdentity)) 0))) /\
    (forall d, (d < f_D f)%nat ->
       is_gradient n (fun v => K_fit (with_params g (with_noise f d v))) (y_obs g) (vget (f_noise f) d)
         (mean (draws k n) (fun bits => vget (s_noise (s bits)) d))).
Proof.
  intros g lo hi m solve k old HR Hp Hs Hk f n O1 O2 O3. split; [exact (K_fit_pd g lo hi m HR Hp)|].
  exact (fit_ok g lo hi m HR solve k old Hp Hs Hk O1 O2 O3).
Qed.
Print Assumptions C59_fit.

(** ** C34: the prior variance *)

Theorem C34_native_variance :
  forall f P, reach f -> f_P f = Some P -> (0 < P)%nat -> kernels_ok f -> no_identity f ->
  exists v, native_variance f = Ok v /\ length v = f_D f /\
    forall d x, (d < f_D f)%nat ->
      vget v d = vget (f_noise f) d + Rsum (f_Q f) (fun q => B_of f q d d * k_doc (kern_of f q) 0) /\
      vget v d = vget (f_noise f) d + lmc_cov f d x d x.
Proof.
  intros f P Hf HP HPp Hk Hid. rewrite (native_ok f P (reach_ok _ Hf) HP HPp Hk), (no_identity_b f Hid).
  eexists. split; [reflexivity|]. split; [apply tab_length|]. intros d x Hd. rewrite vget_tab by exact Hd. split; [reflexivity|].
  unfold prior_var, lmc_cov. f_equal. apply Rsum_ext. intros q Hq. now rewrite dist_on_self.
Qed.
Print Assumptions C34_native_variance.

(** ** C33: predictions for all kernels *)

(** Prediction works for every mixture of kernels without an Identity. *)
Theorem C33_predict_partial :
  forall g lo hi m solve bits n_it k Zs zl, gp_ready g lo hi m -> fitted solve bits n_it g k ->
  returns (n_obs g) (solve (al_K (gpk_lik k))) -> no_identity (gp_f g) -> mode_ready g ->
  requests (mg_P (gp_data g)) Zs zl -> length zl = f_D (gp_f g) -> (0 < nsum zl)%nat ->
  exists mu var, gp_predict solve g k Zs = Ok (mu, var).
Proof.
  intros g lo hi m solve bits n_it k Zs zl HR [old [s Hf]] Hs Hid Hm HZ Hz Ht. destruct (fitted_of g _ _ _ _ _ _ Hf) as [HK _].
  rewrite (predict_ok g lo hi m HR k HK solve Hs Zs zl Hid Hm HZ Hz (fun _ => Ht)). eauto.
Qed.
Print Assumptions C33_predict_partial.

(** It never works for a model that has an Identity kernel, scaled or not. *)
Theorem C33_identity_fails :
  forall g lo hi m solve bits n_it k Zs zl q, gp_ready g lo hi m -> fitted solve bits n_it g k ->
  requests (mg_P (gp_data g)) Zs zl -> length zl = f_D (gp_f g) ->
  (q < f_Q (gp_f g))%nat -> identity_based (kern_of (gp_f g) q) = true ->
  gp_predict solve g k Zs = Err AttributeError.
Proof.
  intros g lo hi m solve bits n_it k Zs zl q HR [old [s Hf]] HZ Hz Hq Hi. destruct (fitted_of g _ _ _ _ _ _ Hf) as [HK _].
  destruct (pad_ok _ _ _ HZ) as [_ Hin].
  apply (predict_err g lo hi m HR k solve Zs zl AttributeError HZ Hz). apply (raw_identity g lo hi m HR k HK solve _ zl Hin Hz).
  apply existsb_exists. exists q. split; [apply in_seq; lia|exact Hi].
Qed.
Print Assumptions C33_identity_fails.

(** ** C35: one prediction per point *)

(** There are functions of output and point that all predictions of a fitted
    model are values of. *)
Theorem C35_pointwise_partial :
  forall g lo hi m solve bits n_it k, gp_ready g lo hi m -> fitted solve bits n_it g k ->
  returns (n_obs g) (solve (al_K (gpk_lik k))) -> no_identity (gp_f g) -> mode_ready g ->
  exists Fm Fv : nat -> (nat -> R) -> R,
    (forall d x z, (forall p, (p < mg_P (gp_data g))%nat -> x p = z p) -> Fm d x = Fm d z /\ Fv d x = Fv d z) /\
    forall Zs zl, requests (mg_P (gp_data g)) Zs zl -> length zl = f_D (gp_f g) ->
      (gp_mode g = OnTheFly -> (0 < nsum zl)%nat) ->
      exists mu var, gp_predict solve g k Zs = Ok (mu, var) /\ length mu = f_D (gp_f g) /\ length var = f_D (gp_f g) /\
        forall d, (d < f_D (gp_f g))%nat ->
          length (nth d mu []) = nth d zl 0%nat /\ length (nth d var []) = nth d zl 0%nat /\
          forall i, (i < nth d zl 0)%nat ->
            vget (nth d mu []) i = Fm d (point (mg_P (gp_data g)) Zs d i) /\
            vget (nth d var []) i = Fv d (point (mg_P (gp_data g)) Zs d i).
Proof.
  intros g lo hi m solve bits n_it k HR [old [s Hf]] Hs Hid Hm. destruct (fitted_of g _ _ _ _ _ _ Hf) as [HK _].
  exists (fun d x => unnorm_mean g d (mean_at g k d x)), (fun d x => unnorm_var g d (var_at g k solve d x)). split.
  - intros d x z H. rewrite (mean_ext g lo hi m HR k d x z H), (var_ext g lo hi m HR k solve d x z Hm H). auto.
  - intros Zs zl HZ Hz Ht. rewrite (predict_ok g lo hi m HR k HK solve Hs Zs zl Hid Hm HZ Hz Ht).
    eexists _, _. split; [reflexivity|]. split; [apply tab_length|]. split; [apply tab_length|].
    intros d Hd. rewrite !nth_tab by exact Hd. split; [apply tab_length|]. split; [apply tab_length|].
    intros i Hi. rewrite !vget_tab by exact Hi. auto.
Qed.
Print Assumptions C35_pointwise_partial.

(** On the fly, a request without any point fails. *)
Theorem C35_empty_fails :
  forall g lo hi m solve bits n_it k Zs zl, gp_ready g lo hi m -> fitted solve bits n_it g k -> no_identity (gp_f g) ->
  gp_mode g = OnTheFly -> requests (mg_P (gp_data g)) Zs zl -> length zl = f_D (gp_f g) -> nsum zl = 0%nat ->
  gp_predict solve g k Zs = Err ValueError.
Proof.
  intros g lo hi m solve bits n_it k Zs zl HR [old [s Hf]] Hid Hm HZ Hz H0. destruct (fitted_of g _ _ _ _ _ _ Hf) as [HK _].
  destruct (pad_ok _ _ _ HZ) as [_ Hin].
  apply (predict_err g lo hi m HR k solve Zs zl ValueError HZ Hz).
  apply (raw_var_err g lo hi m HR k HK solve _ zl ValueError Hin Hz (no_identity_b _ Hid)). rewrite Hm.
  exact (fly_empty g lo hi m HR k solve _ zl Hin Hz H0).
Qed.
Print Assumptions C35_empty_fails.

(** ** C36: predicted variances *)

(** Whatever the solver, no predicted variance is negative. *)
Theorem C36_nonnegative :
  forall solve g k Zs mu var, gp_predict solve g k Zs = Ok (mu, var) -> forall v x, In v var -> In x v -> 0 <= x.
Proof.
  intros solve g k Zs mu var H. unfold gp_predict in H. apply bind_ok in H. destruct H as [Zs' [_ H]].
  destruct (norm_parts _ _ _ _ _ _ _ H) as [mu0 [var0 [E0 E]]]. destruct (raw_parts _ _ _ _ _ _ E0) as [_ H0].
  intros v x Hv Hx. destruct (mg_norm (gp_data g)) as [l|]; injection E as -> ->; [|eapply H0; eassumption].
  apply in_map_iff in Hv. destruct Hv as [[nm v0] [<- Hv]]. apply in_combine_r in Hv. unfold inverse_variance in Hx. cbn [fst snd] in Hx.
  apply in_map_iff in Hx. destruct Hx as [y [<- Hy]]. apply Rmult_le_pos; [eapply H0; eassumption|]. apply Rle_0_sqr.
Qed.
Print Assumptions C36_nonnegative.

(** In exact mode the predicted variance is the conditional variance of a new
    noisy observation given the data, hence between the noise and the prior
    variance. *)
Theorem C36_exact :
  forall g lo hi m solve bits n_it k Zs zl, gp_ready g lo hi m -> fitted solve bits n_it g k ->
  returns (n_obs g) (solve (al_K (gpk_lik k))) -> no_identity (gp_f g) -> proper (gp_f g) -> gp_mode g = Exact ->
  requests (mg_P (gp_data g)) Zs zl -> length zl = f_D (gp_f g) ->
  let f := gp_f g in
  let P := mg_P (gp_data g) in
  let Xs := mg_Xs (gp_data g) in
  let lens := map (@length R) (mg_Ys (gp_data g)) in
  let n := nsum lens in
  exists mu var, gp_predict solve g k Zs = Ok (mu, var) /\
    forall d i, (d < f_D f)%nat -> (i < nth d zl 0)%nat ->
      let x := point P Zs d i in
      let c := fun j => lmc_cov f d x (owner lens j) (obs P Xs lens j) in
      exists z v, (forall j, (j < n)%nat -> Rsum n (fun l => K_obs f P Xs lens j l * z l) = c j) /\
        v = lmc_cov f d x d x + vget (f_noise f) d - Rsum n (fun l => c l * z l) /\
        vget (f_noise f) d <= v <= lmc_cov f d x d x + vget (f_noise f) d /\
        vget (nth d var []) i = unnorm_var g d v.
Proof.
  intros g lo hi m solve bits n_it k Zs zl HR [old [s Hf]] Hs Hid Hp Hm HZ Hz f P Xs lens n.
  destruct (fitted_of g _ _ _ _ _ _ Hf) as [HK _]. pose proof (K_obs_pdR g lo hi m HR Hp) as Hpd.
  assert (MR : mode_ready g) by (unfold mode_ready; rewrite Hm; exact Hpd).
  rewrite (predict_ok g lo hi m HR k HK solve Hs Zs zl Hid MR HZ Hz) by (rewrite Hm; discriminate).
  eexists _, _. split; [reflexivity|]. intros d i Hd Hi x c. rewrite !nth_tab by exact Hd. rewrite vget_tab by exact Hi.
  destruct (dense_ok g lo hi m HR Hpd) as [e [Ee He]].
  set (z := potrs n (mget (el_L e)) c). pose proof (er_potrs _ _ _ _ _ He c : solves n (K_obs f P Xs lens) z c) as Hz'.
  exists z, (prior_var f d - Rsum n (fun l => c l * z l)).
  assert (EP : prior_var f d = lmc_cov f d x d x + vget (f_noise f) d).
  { unfold prior_var, lmc_cov. rewrite Rplus_comm. f_equal. apply Rsum_ext. intros q Hq. now rewrite dist_on_self. }
  assert (HB : 0 <= Rsum n (fun l => c l * z l) /\ Rsum n (fun l => c l * z l) <= Rsum (f_Q f) (fun q => B_of f q d d * k_doc (kern_of f q) 0)).
  { destruct Hp as [Hper Hdiag Hnoise].
    assert (OL : forall j, (j < n)%nat -> (owner lens j < f_D f)%nat).
    { intros j Hj. pose proof (rd_D g lo hi m HR) as E. destruct (owner_lt lens j Hj) as [O _]. fold lens f in E. now rewrite E in O. }
    apply (cond_bounds f n (owner lens) (obs P Xs lens) (fun i => vget (f_noise f) (owner lens i)) d x z); auto.
    - intros q Hq. apply (gr_kern _ _ _ _ HR q Hq).
    - intros j Hj. apply Rlt_le, Hnoise, OL, Hj. }
  assert (EV : Rsum (f_Q f) (fun q => B_of f q d d * k_doc (kern_of f q) 0) = lmc_cov f d x d x).
  { unfold lmc_cov. apply Rsum_ext. intros q Hq. now rewrite dist_on_self. }
  rewrite EV in HB. pose proof (pr_noise _ Hp d Hd) as HN. fold f in HN.
  split; [exact Hz'|]. split; [now rewrite EP|]. split; [rewrite EP; lra|].
  f_equal. unfold var_at, explained. fold f P. rewrite Hm, Ee. unfold clip, explained_exact.
  change (Rsum _ _) with (Rsum n (fun l => c l * z l)). destruct (Rlt_dec _ 0) as [C|]; [|reflexivity]. rewrite EP in C. lra.
Qed.
Print Assumptions C36_exact.

(** With exact solves, the on-the-fly variance uses the same cross-covariances
    and the covariance the model was fitted with. *)
Theorem C36_on_the_fly :
  forall g lo hi m solve bits n_it k Zs zl, gp_ready g lo hi m -> fitted solve bits n_it g k ->
  exact_solver (n_obs g) (K_fit g) solve -> no_identity (gp_f g) -> gp_mode g = OnTheFly ->
  requests (mg_P (gp_data g)) Zs zl -> length zl = f_D (gp_f g) -> (0 < nsum zl)%nat ->
  let f := gp_f g in
  let P := mg_P (gp_data g) in
  let Xs := mg_Xs (gp_data g) in
  let lens := map (@length R) (mg_Ys (gp_data g)) in
  let n := nsum lens in
  exists mu var, gp_predict solve g k Zs = Ok (mu, var) /\
    forall d i, (d < f_D f)%nat -> (i < nth d zl 0)%nat ->
      let x := point P Zs d i in
      let c := fun j => lmc_cov f d x (owner lens j) (obs P Xs lens j) in
      exists z, (forall j, (j < n)%nat -> Rsum n (fun l => K_fit g j l * z l) = c j) /\
        vget (nth d var []) i = unnorm_var g d (Rmax 0 (lmc_cov f d x d x + vget (f_noise f) d - Rsum n (fun l => c l * z l))).
Proof.
  intros g lo hi m solve bits n_it k Zs zl HR Hf Hs Hid Hm HZ Hz Ht f P Xs lens n.
  destruct (fit_solver g lo hi m HR _ _ _ _ Hf Hs) as [He [Hr _]]. destruct Hf as [old [s Hf]].
  destruct (fitted_of g _ _ _ _ _ _ Hf) as [HK _].
  assert (MR : mode_ready g) by (unfold mode_ready; rewrite Hm; exact I).
  rewrite (predict_ok g lo hi m HR k HK solve Hr Zs zl Hid MR HZ Hz) by (intros _; exact Ht).
  eexists _, _. split; [reflexivity|]. intros d i Hd Hi x c. rewrite !nth_tab by exact Hd. rewrite vget_tab by exact Hi.
  destruct (He (tab n c) (tab_length _ _)) as [z [Ez [_ Hz']]]. exists (vget z). split.
  - intros j Hj. fold n in Hz'. rewrite Hz' by exact Hj. now apply vget_tab.
  - f_equal. unfold var_at, explained. fold f P. rewrite Hm. unfold explained_fly, sol. change (tab _ (cross g d _)) with (tab n c). rewrite Ez.
    change (Rsum _ (fun l => cross g d (point P Zs d i) l * vget z l)) with (Rsum n (fun l => c l * vget z l)).
    assert (EP : prior_var f d = lmc_cov f d x d x + vget (f_noise f) d).
    { unfold prior_var, lmc_cov. rewrite Rplus_comm. f_equal. apply Rsum_ext. intros q Hq. now rewrite dist_on_self. }
    rewrite EP. unfold clip, Rmax. destruct (Rlt_dec _ 0), (Rle_dec _ _); lra.
Qed.
Print Assumptions C36_on_the_fly.

(** ** C37: quantiles *)

Theorem C37_quantiles :
  forall ppf solve g k Zs qs mu var,
  (exists Xs Ys nrm, multigp_init Xs Ys nrm = Ok (gp_data g)) -> gp_predict solve g k Zs = Ok (mu, var) ->
  exists Q, gp_predict_quantiles ppf solve g k Zs qs = Ok Q /\ length Q = length mu /\ length Q = length var /\
    forall d, (d < length Q)%nat ->
      is_mx (length (nth d var [])) (length qs) (nth d Q []) /\
      forall i, (i < length (nth d mu []))%nat -> (i < length (nth d var []))%nat ->
        (forall j, (j < length qs)%nat ->
           mget (nth d Q []) i j = vget (nth d mu []) i + sqrt (vget (nth d var []) i) * ppf (vget qs j / 100)) /\
        ((forall p q, 0 < p -> p <= q -> q < 1 -> ppf p <= ppf q) ->
         forall j j', (j < length qs)%nat -> (j' < length qs)%nat -> 0 < vget qs j -> vget qs j <= vget qs j' -> vget qs j' < 100 ->
           mget (nth d Q []) i j <= mget (nth d Q []) i j').
Proof.
  intros ppf solve g k Zs qs mu var [Xs0 [Ys0 [nrm HD]]] H.
  assert (HS : forall l nm, mg_norm (gp_data g) = Some l -> In nm l -> 0 <= n_std nm).
  { unfold multigp_init in HD. apply bind_ok in HD. destruct HD as [[P0 D0] [_ HD]]. cbv beta iota in HD.
    apply bind_ok in HD. destruct HD as [Ys1 [_ HD]]. apply bind_ok in HD. destruct HD as [Xs1 [_ HD]]. apply Ok_inj in HD. rewrite <- HD.
    cbn [mg_norm]. intros l nm El Hin. destruct nrm; [|discriminate El]. injection El as <-. apply in_map_iff in Hin. destruct Hin as [y [<- _]].
    apply sqrt_pos. }
  unfold gp_predict in H. apply bind_ok in H. destruct H as [Zs' [EZ H]].
  unfold gp_predict_quantiles. rewrite EZ. cbn [bind].
  destruct (norm_parts _ _ _ _ _ _ _ H) as [mu0 [var0 [E0 E]]]. destruct (raw_parts _ _ _ _ _ _ E0) as [HL H0].
  assert (EN : gp_predict_norm solve g k Zs' false = Ok (mu0, var0)).
  { unfold gp_predict_norm in *. destruct (negb _); [discriminate H|]. destruct (negb _); [discriminate H|]. rewrite E0. cbn [bind].
    destruct (mg_norm (gp_data g)); reflexivity. }
  rewrite EN. cbn [bind]. set (zs := map (fun q => ppf (q / 100)) qs).
  assert (LZ : length zs = length qs) by apply map_length.
  assert (VZ : forall j, (j < length qs)%nat -> vget zs j = ppf (vget qs j / 100)).
  { intros j Hj. unfold zs, vget. rewrite (nth_indep _ 0 (ppf (0 / 100))) by now rewrite map_length. now rewrite (map_nth (fun q => ppf (q / 100))). }
  assert (MONO : forall a b : R, (forall p q, 0 < p -> p <= q -> q < 1 -> ppf p <= ppf q) -> forall j j', 
     (j < length qs)%nat -> (j' < length qs)%nat -> 0 < vget qs j -> vget qs j <= vget qs j' -> vget qs j' < 100 ->
     a + sqrt b * ppf (vget qs j / 100) <= a + sqrt b * ppf (vget qs j' / 100)).
  { intros a b Hm j j' _ _ H1 H2 H3. apply Rplus_le_compat_l, Rmult_le_compat_l; [apply sqrt_pos|]. apply Hm; lra. }
  set (F := fun mv : vec * vec => mk (length (snd mv)) (length zs) (fun i j => sqrt (vget (snd mv) i) * vget zs j + vget (fst mv) i)).
  destruct (mg_norm (gp_data g)) as [l|] eqn:El; injection E as -> ->.
  - eexists. split; [reflexivity|]. rewrite !map_length, !combine_length, map_length, combine_length. fold F.
    split; [unfold vec in *; lia|]. split; [unfold vec in *; lia|]. intros d Hd.
    assert (Hd1 : (d < length l)%nat) by (unfold vec in *; lia). assert (Hd2 : (d < length mu0)%nat) by (unfold vec in *; lia).
    assert (Hd3 : (d < length var0)%nat) by (unfold vec in *; lia).
    set (nm := nth d l (mk_norm 0 1)).
    assert (EQ : @nth mx d (map (fun nq : norm * mx => map (inverse_mean (fst nq)) (snd nq)) (combine l (map F (combine mu0 var0)))) []
       = map (inverse_mean nm) (F (nth d mu0 [], nth d var0 []))).
    { rewrite (nth_indep _ [] ((fun nq => map (inverse_mean (fst nq)) (snd nq)) (mk_norm 0 1, F ([], []))))
        by (rewrite map_length, combine_length, map_length, combine_length; unfold vec in *; lia).
      rewrite (map_nth (fun nq => map (inverse_mean (fst nq)) (snd nq))), combine_nth' by (try rewrite map_length, combine_length; unfold vec in *; lia).
      cbn [fst snd]. rewrite map_nth, combine_nth by exact HL. reflexivity. }
    match goal with |- is_mx _ _ ?q /\ _ => change q with (@nth mx d (map (fun nq : norm * mx => map (inverse_mean (fst nq)) (snd nq)) (combine l (map F (combine mu0 var0)))) []) end.
    rewrite EQ. clear EQ.
    assert (EM : nth d (map (fun nm => inverse_mean (fst nm) (snd nm)) (combine l mu0)) [] = inverse_mean nm (nth d mu0 [])).
    { rewrite (nth_indep _ [] ((fun nm => inverse_mean (fst nm) (snd nm)) (mk_norm 0 1, []))) by (rewrite map_length, combine_length; unfold vec in *; lia).
      rewrite (map_nth (fun nm => inverse_mean (fst nm) (snd nm))), combine_nth' by assumption. reflexivity. }
    assert (EV : nth d (map (fun nv => inverse_variance (fst nv) (snd nv)) (combine l var0)) [] = inverse_variance nm (nth d var0 [])).
    { rewrite (nth_indep _ [] ((fun nm => inverse_variance (fst nm) (snd nm)) (mk_norm 0 1, []))) by (rewrite map_length, combine_length; unfold vec in *; lia).
      rewrite (map_nth (fun nm => inverse_variance (fst nm) (snd nm))), combine_nth' by assumption. reflexivity. }
    rewrite EM, EV. unfold inverse_variance, inverse_mean. rewrite !map_length.
    assert (HN : 0 <= n_std nm) by (apply (HS l); [reflexivity|now apply nth_In]).
    assert (ENT : forall i j, (i < length (nth d mu0 []))%nat -> (i < length (nth d var0 []))%nat -> (j < length qs)%nat ->
       mget (map (fun X => map (fun x => x * n_std nm + n_mean nm) X) (F (nth d mu0 [], nth d var0 []))) i j =
       vget (map (fun x => x * n_std nm + n_mean nm) (nth d mu0 [])) i + sqrt (vget (map (fun v => v * (n_std nm * n_std nm)) (nth d var0 [])) i) * ppf (vget qs j / 100)).
    { intros i j Hi Hi' Hj. unfold F, mk. cbn [fst snd]. rewrite map_tab. unfold mget. rewrite nth_tab by exact Hi'. rewrite map_tab.
      change (nth j (tab ?a ?h) 0) with (vget (tab a h) j). rewrite vget_tab by (rewrite LZ; exact Hj). rewrite VZ by exact Hj.
      rewrite (vget_map _ _ i Hi), (vget_map _ _ i Hi').
      rewrite sqrt_mult_alt by (eapply H0; [apply nth_In; exact Hd3|apply nth_In; exact Hi']).
      rewrite sqrt_square by exact HN. ring. }
    split; [|intros i Hi Hi'; split].
    + unfold F, mk. cbn [fst snd]. rewrite map_tab. split; [apply tab_length|]. intros r Hr. apply in_tab in Hr. destruct Hr as [i [_ ->]].
      rewrite map_length, tab_length. exact LZ.
    + intros j Hj. now apply ENT.
    + intros Hm j j' Hj Hj' B1 B2 B3. rewrite !ENT by assumption. now apply MONO.
  - eexists. split; [reflexivity|]. rewrite map_length, combine_length. fold F.
    split; [unfold vec in *; lia|]. split; [unfold vec in *; lia|]. intros d Hd.
    assert (EQ : @nth mx d (map F (combine mu0 var0)) [] = F (nth d mu0 [], nth d var0 [])).
    { rewrite (nth_indep _ [] (F ([], []))) by (rewrite map_length, combine_length; unfold vec in *; lia). rewrite map_nth, combine_nth by exact HL. reflexivity. }
    match goal with |- is_mx _ _ ?q /\ _ => change q with (@nth mx d (map F (combine mu0 var0)) []) end.
    rewrite EQ.
    assert (ENT : forall i j, (i < length (nth d var0 []))%nat -> (j < length qs)%nat ->
       mget (F (nth d mu0 [], nth d var0 [])) i j = vget (nth d mu0 []) i + sqrt (vget (nth d var0 []) i) * ppf (vget qs j / 100)).
    { intros i j Hi' Hj. unfold F. cbn [fst snd]. rewrite mget_mk by (try rewrite LZ; assumption). rewrite VZ by exact Hj. ring. }
    split; [|intros i Hi Hi'; split].
    + unfold F. cbn [fst snd]. rewrite <- LZ. apply mk_is_mx.
    + intros j Hj. now apply ENT.
    + intros Hm j j' Hj Hj' B1 B2 B3. rewrite !ENT by assumption. now apply MONO.
Qed.
Print Assumptions C37_quantiles.

(** ** C44: precomputed variances *)

(** If all kernels act on all dimensions, predictions can use precomputed
    variances: one [nu] for each output and grid point, the diagonal of
    K_UX K^-1 K_XU with K the covariance the model was fitted with. *)
Theorem C44_precompute_partial :
  forall g lo hi m solve bits n_it k Zs zl, gp_ready g lo hi m -> fitted solve bits n_it g k ->
  exact_solver (n_obs g) (K_fit g) solve -> no_identity (gp_f g) -> gp_mode g = Precompute ->
  (forall q, (q < f_Q (gp_f g))%nat -> qdims (gp_f g) q = seq 0 (mg_P (gp_data g))) ->
  requests (mg_P (gp_data g)) Zs zl -> length zl = f_D (gp_f g) ->
  let f := gp_f g in
  let P := mg_P (gp_data g) in
  let Xs := mg_Xs (gp_data g) in
  let lens := map (@length R) (mg_Ys (gp_data g)) in
  let n := nsum lens in
  let ad := seq 0 P in
  let kUU := fun a u b v => Rsum (f_Q f) (fun q => B_of f q a b * K_grid f (G_of (gp_grids g) ad) q u v)
                            + (if surplus_b f ad then (if Nat.eqb a b then (if Nat.eqb u v then 1 else 0) else 0) else 0) in
  exists w nu, weights g w /\ precomputed_nu solve g k = Ok nu /\ length nu = (f_D f * pts g ad)%nat /\
    (forall a u, (a < f_D f)%nat -> (u < pts g ad)%nat ->
       let c := fun j => Rsum (pts g ad) (fun v => kUU a u (owner lens j) v * w ad (obs P Xs lens j) v) in
       exists z, (forall j, (j < n)%nat -> Rsum n (fun l => K_fit g j l * z l) = c j) /\
         vget nu (a * pts g ad + u) = Rsum n (fun j => c j * z j)) /\
    exists mu var, gp_predict solve g k Zs = Ok (mu, var) /\
      forall d i, (d < f_D f)%nat -> (i < nth d zl 0)%nat ->
        let x := point P Zs d i in
        vget (nth d var []) i = unnorm_var g d (Rmax 0 (lmc_cov f d x d x + vget (f_noise f) d
          - Rsum (pts g ad) (fun u => w ad x u * vget nu (d * pts g ad + u)))).
Proof.
  intros g lo hi m solve bits n_it k Zs zl HR Hf Hs Hid Hm Hq HZ Hz f P Xs lens n ad kUU.
  destruct (fit_solver g lo hi m HR _ _ _ _ Hf Hs) as [He [Hr _]]. destruct Hf as [old [s Hf]].
  destruct (fitted_of g _ _ _ _ _ _ Hf) as [HK _].
  pose proof (keys_single g lo hi m HR (seq 0 P) Hq) as Ek.
  assert (Hok : fk_ok f) by exact (rd_ok g lo hi m HR). assert (HP : f_P f = Some P) by exact (rd_P g lo hi m HR).
  assert (Had : group f ad <> []) by (apply (keys_group f P Hok HP); fold f in Ek; rewrite Ek; now left).
  pose proof (rd_pts g lo hi m HR ad Had) as Hpp.
  assert (DD : forall a u b v, dd g ad a u b v = kUU a u b v).
  { intros a u b v. unfold dd, kUU. fold f. f_equal.
    2:{ destruct (surplus_b f ad); [|reflexivity]. destruct (Nat.eqb a b), (Nat.eqb u v); reflexivity. }
    pose proof (sum_groups f P (fun ad' q => B_of f q a b * K_grid f (G_of (gp_grids g) ad) q u v) Hok HP) as SG.
    fold f in Ek. rewrite Ek in SG. cbn [map] in SG. unfold lsum at 1 in SG. cbn [fold_right] in SG. rewrite Rplus_0_r in SG. exact SG. }
  exists (wt g), (tab (f_D f * pts g ad) (fun U => nu_at g k solve ad (U / pts g ad) (U mod pts g ad))).
  split; [exact (wt_weights g lo hi m HR)|]. split; [exact (nu_ok g lo hi m HR k HK zl Hz solve Hr Ek)|]. split; [apply tab_length|]. split.
  - intros a u Ha Hu c. destruct (He (tab n c) (tab_length _ _)) as [z [Ez [_ Hz']]]. exists (vget z). split.
    + intros j Hj. fold n in Hz'. rewrite Hz' by exact Hj. now apply vget_tab.
    + rewrite vget_tab by nia. rewrite div_block, mod_block by exact Hu. unfold nu_at, sol.
      assert (EC : forall j, gcov g ad a u j = c j) by (intros j; unfold gcov, c; apply Rsum_ext; intros v _; now rewrite DD).
      replace (tab _ (gcov g ad a u)) with (tab n c) by (apply tab_ext; intros; now rewrite EC). rewrite Ez.
      apply Rsum_ext. intros j _. now rewrite EC.
  - assert (MR : mode_ready g) by (unfold mode_ready; rewrite Hm; exact Hq).
    rewrite (predict_ok g lo hi m HR k HK solve Hr Zs zl Hid MR HZ Hz) by (rewrite Hm; discriminate).
    eexists _, _. split; [reflexivity|]. intros d i Hd Hi x. rewrite !nth_tab by exact Hd. rewrite vget_tab by exact Hi.
    f_equal. unfold var_at, explained. fold f P. rewrite Hm. unfold explained_pre. fold P ad.
    assert (EP : prior_var f d = lmc_cov f d x d x + vget (f_noise f) d).
    { unfold prior_var, lmc_cov. rewrite Rplus_comm. f_equal. apply Rsum_ext. intros q _. now rewrite dist_on_self. }
    rewrite EP. fold x.
    rewrite (Rsum_ext _ (fun u => wt g ad x u * vget (tab _ _) _) (fun u => wt g ad x u * nu_at g k solve ad d u)).
    + unfold clip, Rmax. destruct (Rlt_dec _ 0), (Rle_dec _ _); lra.
    + intros u Hu. f_equal. rewrite vget_tab by nia. now rewrite div_block, mod_block.
Qed.
Print Assumptions C44_precompute_partial.

(** Kernels on different dimensions are rejected with a ValueError. *)
Theorem C44_split_rejected :
  forall g lo hi m solve bits n_it k Zs zl q q', gp_ready g lo hi m -> fitted solve bits n_it g k -> no_identity (gp_f g) ->
  gp_mode g = Precompute -> requests (mg_P (gp_data g)) Zs zl -> length zl = f_D (gp_f g) ->
  (q < f_Q (gp_f g))%nat -> (q' < f_Q (gp_f g))%nat -> qdims (gp_f g) q <> qdims (gp_f g) q' ->
  gp_predict solve g k Zs = Err ValueError.
Proof.
  intros g lo hi m solve bits n_it k Zs zl q q' HR [old [s Hf]] Hid Hm HZ Hz Hq Hq' N. destruct (fitted_of g _ _ _ _ _ _ Hf) as [HK _].
  destruct (pad_ok _ _ _ HZ) as [_ Hin].
  apply (predict_err g lo hi m HR k solve Zs zl ValueError HZ Hz).
  apply (raw_var_err g lo hi m HR k HK solve _ zl ValueError Hin Hz (no_identity_b _ Hid)). rewrite Hm.
  exact (pre_split g lo hi m HR k solve q q' _ Hq Hq' N).
Qed.
Print Assumptions C44_split_rejected.

(** But kernels that all act on the same proper subset of the dimensions fail
    with a KeyError. *)
Theorem C44_subset_fails :
  forall g lo hi m solve bits n_it k Zs zl ad, gp_ready g lo hi m -> fitted solve bits n_it g k -> no_identity (gp_f g) ->
  gp_mode g = Precompute -> requests (mg_P (gp_data g)) Zs zl -> length zl = f_D (gp_f g) ->
  (forall q, (q < f_Q (gp_f g))%nat -> qdims (gp_f g) q = ad) -> ad <> seq 0 (mg_P (gp_data g)) ->
  gp_predict solve g k Zs = Err KeyError.
Proof.
  intros g lo hi m solve bits n_it k Zs zl ad HR [old [s Hf]] Hid Hm HZ Hz Hq N. destruct (fitted_of g _ _ _ _ _ _ Hf) as [HK _].
  destruct (pad_ok _ _ _ HZ) as [_ Hin].
  apply (predict_err g lo hi m HR k solve Zs zl KeyError HZ Hz).
  apply (raw_var_err g lo hi m HR k HK solve _ zl KeyError Hin Hz (no_identity_b _ Hid)). rewrite Hm.
  exact (pre_missing g lo hi m HR k HK solve ad _ Hq N).
Qed.
Print Assumptions C44_subset_fails.

(** ** C53: the log likelihood *)

(** log_det_K is the logarithm of the determinant of the exact covariance of
    the observations; if that is not positive definite, the factorisation
    fails (the code's -inf for a determinant that is not positive is never
    returned). *)
Theorem C53_log_det :
  forall g lo hi m, gp_ready g lo hi m ->
  let K := K_obs (gp_f g) (mg_P (gp_data g)) (mg_Xs (gp_data g)) (map (@length R) (mg_Ys (gp_data g))) in
  (pos_definite (n_obs g) K -> 0 < det (n_obs g) K /\ gp_log_det_K g = Ok (Fin (ln (det (n_obs g) K)))) /\
  (~ pos_definite (n_obs g) K -> gp_log_det_K g = Err LinAlgError).
Proof.
  intros g lo hi m HR K. set (n := n_obs g).
  assert (Hsym : sym n K) by apply K_obs_sym.
  pose proof (exact_init_ok (gp_f g) (mg_P (gp_data g)) (mg_Xs (gp_data g)) (mg_Ys (gp_data g)) (rd_ok g lo hi m HR) (rd_P g lo hi m HR)
    (rd_Pp g lo hi m HR) (gr_kern _ _ _ _ HR) (dims_rangeR g lo hi m HR) (da_in _ _ _ _ _ _ _ (gr_data _ _ _ _ HR))
    (eq_trans (eq_sym (map_length _ _)) (rd_D g lo hi m HR))) as [H1 H2].
  unfold gp_log_det_K, gp_dense. split.
  - intros Hpd. apply pos_definite_pivots in Hpd; [|exact Hsym]. split; [now apply det_pos|].
    destruct (H1 Hpd) as [e [-> He]]. cbn [bind].
    assert (Ln : length (el_L e) = n) by apply (er_L _ _ _ _ _ He). rewrite Ln.
    assert (SG : forall c, (c <= n)%nat -> fold_right Rmult 1 (map np_sign (tab c (fun i => mget (el_L e) i i))) = 1).
    { induction c as [|c IH]; intros Hc; [reflexivity|]. unfold tab. rewrite seq_S, !map_app, fold_right_app. cbn [map fold_right Nat.add].
      fold (tab c (fun i => mget (el_L e) i i)). assert (Ec : np_sign (mget (el_L e) c c) = 1).
      { unfold np_sign. destruct (Rlt_dec 0 _) as [|C]; [reflexivity|]. exfalso. apply C, (er_Lpos _ _ _ _ _ He). exact Hc. }
      rewrite Ec, Rmult_1_r. apply IH. lia. }
    rewrite SG by lia. destruct (Rle_dec 1 0) as [C|_]; [lra|]. do 2 f_equal.
    rewrite map_tab, lsum_tab. rewrite (er_logdet _ _ _ _ _ He : ln (det n K) = _). rewrite Rmult_comm. reflexivity.
  - intros Hn. rewrite H2; [reflexivity|]. intros Hp. apply Hn. apply pos_definite_pivots; [exact Hsym|exact Hp].
Qed.
Print Assumptions C53_log_det.

(** log_likelihood, with exact solves: the quadratic form is that of the
    covariance the model was fitted with, the determinant the exact one. *)
Theorem C53_log_likelihood :
  forall g lo hi m solve bits n_it k, gp_ready g lo hi m -> fitted solve bits n_it g k ->
  exact_solver (n_obs g) (K_fit g) solve ->
  let n := n_obs g in
  let K := K_obs (gp_f g) (mg_P (gp_data g)) (mg_Xs (gp_data g)) (map (@length R) (mg_Ys (gp_data g))) in
  pos_definite n K ->
  exists v a, gp_log_likelihood g k = Ok (Fin v) /\
    (forall i, (i < n)%nat -> Rsum n (fun j => K_fit g i j * a j) = y_obs g i) /\
    v = - (1 / 2) * (ln (det n K) + Rsum n (fun i => y_obs g i * a i) + INR n * ln (2 * PI)).
Proof.
  intros g lo hi m solve bits n_it k HR Hf Hs n K Hpd.
  destruct (fit_solver g lo hi m HR _ _ _ _ Hf Hs) as [_ [_ Ha]].
  destruct (C53_log_det g lo hi m HR) as [HD _]. destruct (HD Hpd) as [_ E]. unfold gp_log_likelihood. rewrite E. cbn [bind].
  eexists _, (vget (sd_alpha (al_deriv (gpk_lik k)))). split; [reflexivity|]. split; [exact Ha|].
  rewrite concat_len. do 2 f_equal. f_equal. unfold gp_normal_quadratic, np_vdot. rewrite concat_len. reflexivity.
Qed.
Print Assumptions C53_log_likelihood.

(** For data on the grid (and no superfluous identities) it is the log density
    of the data. *)
Theorem C53_on_grid :
  forall g lo hi m solve bits n_it k, gp_ready g lo hi m -> fitted solve bits n_it g k ->
  exact_solver (n_obs g) (K_fit g) solve ->
  let n := n_obs g in
  let lens := map (@length R) (mg_Ys (gp_data g)) in
  let K := K_obs (gp_f g) (mg_P (gp_data g)) (mg_Xs (gp_data g)) lens in
  pos_definite n K -> on_grid (gp_f g) (mg_P (gp_data g)) (mg_Xs (gp_data g)) lens (gp_grids g) ->
  (forall ad, group (gp_f g) ad <> [] -> ~ surplus (gp_f g) ad) ->
  exists v, gp_log_likelihood g k = Ok (Fin v) /\ log_density n K (y_obs g) v.
Proof.
  intros g lo hi m solve bits n_it k HR Hf Hs n lens K Hpd OG HS.
  destruct (C53_log_likelihood g lo hi m solve bits n_it k HR Hf Hs Hpd) as [v [a [E [Ha Ev]]]]. exists v. split; [exact E|].
  split; [apply (C53_log_det g lo hi m HR), Hpd|]. exists a. split; [|exact Ev].
  intros i Hi. rewrite <- Ha by exact Hi. apply Rsum_ext. intros j Hj. f_equal. symmetry. now apply (K_fit_on_grid g lo hi m HR).
Qed.
Print Assumptions C53_on_grid.

(** ** C58: predicted means *)

(** The mean is that of a Gaussian process with the SKI covariance; the
    weights are those of cubic convolution except at the border of the grid. *)
Theorem C58_mean :
  forall g lo hi m solve bits n_it k Zs zl, gp_ready g lo hi m -> fitted solve bits n_it g k ->
  exact_solver (n_obs g) (K_fit g) solve -> no_identity (gp_f g) -> mode_ready g ->
  requests (mg_P (gp_data g)) Zs zl -> length zl = f_D (gp_f g) -> (gp_mode g = OnTheFly -> (0 < nsum zl)%nat) ->
  let f := gp_f g in
  let P := mg_P (gp_data g) in
  let lens := map (@length R) (mg_Ys (gp_data g)) in
  let n := nsum lens in
  let x := obs P (mg_Xs (gp_data g)) lens in
  exists w alpha mu var, weights g w /\ gp_predict solve g k Zs = Ok (mu, var) /\
    let c := fun a x b z => ski_cov g w a x b z + ski_extra g w a x b z in
    (forall i j, (i < n)%nat -> (j < n)%nat ->
       K_fit g i j = c (owner lens i) (x i) (owner lens j) (x j) + (if Nat.eqb i j then vget (f_noise f) (owner lens i) else 0)) /\
    (forall i, (i < n)%nat -> Rsum n (fun j => K_fit g i j * alpha j) = y_obs g i) /\
    forall d i, (d < f_D f)%nat -> (i < nth d zl 0)%nat ->
      vget (nth d mu []) i = unnorm_mean g d (Rsum n (fun j => c d (point P Zs d i) (owner lens j) (x j) * alpha j)).
Proof.
  intros g lo hi m solve bits n_it k Zs zl HR Hf Hs Hid Hm HZ Hz Ht f P lens n x.
  destruct (fit_solver g lo hi m HR _ _ _ _ Hf Hs) as [_ [Hr Ha]]. destruct Hf as [old [s Hf]].
  destruct (fitted_of g _ _ _ _ _ _ Hf) as [HK _].
  rewrite (predict_ok g lo hi m HR k HK solve Hr Zs zl Hid Hm HZ Hz Ht).
  exists (wt g), (vget (sd_alpha (al_deriv (gpk_lik k)))). eexists _, _. split; [exact (wt_weights g lo hi m HR)|]. split; [reflexivity|]. intros c.
  split; [intros i j Hi Hj; exact (K_fit_weights g lo hi m HR i j Hi Hj)|]. split; [exact Ha|].
  intros d i Hd Hi. rewrite nth_tab by exact Hd. rewrite vget_tab by exact Hi. reflexivity.
Qed.
Print Assumptions C58_mean.

(** On the grid, on-the-fly predictions are those of the exact Gaussian
    process. *)
Theorem C58_on_grid :
  forall g lo hi m solve bits n_it k Zs zl, gp_ready g lo hi m -> fitted solve bits n_it g k ->
  exact_solver (n_obs g) (K_fit g) solve -> no_identity (gp_f g) -> gp_mode g = OnTheFly -> proper (gp_f g) ->
  requests (mg_P (gp_data g)) Zs zl -> length zl = f_D (gp_f g) -> (0 < nsum zl)%nat ->
  let f := gp_f g in
  let P := mg_P (gp_data g) in
  let Xs := mg_Xs (gp_data g) in
  let lens := map (@length R) (mg_Ys (gp_data g)) in
  let n := nsum lens in
  on_grid f P Xs lens (gp_grids g) -> (forall ad, group f ad <> [] -> ~ surplus f ad) ->
  exists mu var, gp_predict solve g k Zs = Ok (mu, var) /\
    forall d i, (d < f_D f)%nat -> (i < nth d zl 0)%nat -> pt_on_grid g (point P Zs d i) ->
      let x := point P Zs d i in
      let c := fun j => lmc_cov f d x (owner lens j) (obs P Xs lens j) in
      exists alpha z,
        (forall j, (j < n)%nat -> Rsum n (fun l => K_obs f P Xs lens j l * alpha l) = y_obs g j) /\
        (forall j, (j < n)%nat -> Rsum n (fun l => K_obs f P Xs lens j l * z l) = c j) /\
        vget (nth d mu []) i = unnorm_mean g d (Rsum n (fun j => c j * alpha j)) /\
        vget (nth d var []) i = unnorm_var g d (lmc_cov f d x d x + vget (f_noise f) d - Rsum n (fun j => c j * z j)).
Proof.
  intros g lo hi m solve bits n_it k Zs zl HR Hf Hs Hid Hm Hp HZ Hz Ht f P Xs lens n OG HS.
  destruct (C36_on_the_fly g lo hi m solve bits n_it k Zs zl HR Hf Hs Hid Hm HZ Hz Ht) as [mu [var [E HV]]].
  exists mu, var. split; [exact E|]. intros d i Hd Hi HG x c. destruct (HV d i Hd Hi) as [z [Hz' EV]].
  destruct (fit_solver g lo hi m HR _ _ _ _ Hf Hs) as [_ [Hr Ha]]. destruct Hf as [old [s Hf]].
  destruct (fitted_of g _ _ _ _ _ _ Hf) as [HK _].
  assert (MR : mode_ready g) by (unfold mode_ready; rewrite Hm; exact I).
  rewrite (predict_ok g lo hi m HR k HK solve Hr Zs zl Hid MR HZ Hz (fun _ => Ht)) in E. apply Ok_inj in E. injection E as <- <-.
  assert (SW : forall b a, solves n (K_fit g) a b -> solves n (K_obs f P Xs lens) a b).
  { intros b a H j Hj. rewrite <- H by exact Hj. apply Rsum_ext. intros l Hl. f_equal. symmetry. now apply (K_fit_on_grid g lo hi m HR). }
  exists (vget (sd_alpha (al_deriv (gpk_lik k)))), z. split; [exact (SW _ _ Ha)|]. split; [exact (SW _ _ Hz')|]. split.
  - rewrite nth_tab by exact Hd. rewrite vget_tab by exact Hi. f_equal. unfold mean_at. apply Rsum_ext. intros j Hj. f_equal.
    rewrite (no_extra g lo hi m HR _ _ _ _ _ HS). rewrite Rplus_0_r.
    apply (ski_on_grid g lo hi m HR); [exact HG|]. exact (on_grid_pts g lo hi m HR j OG Hj).
  - rewrite EV. f_equal. apply Rmax_right.
    assert (OL : forall j, (j < n)%nat -> (owner lens j < f_D f)%nat).
    { intros j Hj. pose proof (rd_D g lo hi m HR) as E. destruct (owner_lt lens j Hj) as [O _]. fold lens f in E. now rewrite E in O. }
    destruct Hp as [Hper Hdiag Hnoise].
    destruct (cond_bounds f n (owner lens) (obs P Xs lens) (fun i => vget (f_noise f) (owner lens i)) d x z) as [_ B]; auto.
    + intros q Hq. apply (gr_kern _ _ _ _ HR q Hq).
    + intros j Hj. apply Rlt_le, Hnoise, OL, Hj.
    + assert (EV' : Rsum (f_Q f) (fun q => B_of f q d d * k_doc (kern_of f q) 0) = lmc_cov f d x d x).
      { unfold lmc_cov. apply Rsum_ext. intros q _. now rewrite dist_on_self. }
      rewrite EV' in B. specialize (Hnoise d Hd). fold f in Hnoise.
      match goal with |- 0 <= ?a => change a with (lmc_cov f d x d x + vget (f_noise f) d - Rsum n (fun j => c j * z j)) end.
      match type of B with ?a <= _ => change a with (Rsum n (fun j => c j * z j)) in B end. lra.
Qed.
Print Assumptions C58_on_grid.

(** ** Examples *)

(** Two outputs with two observations each, at 2 and 8 on a grid with cells of
    width 6; kernels [k1] (LMC) and [k2] (independent). *)
Definition ex1_Xs : list ndarr := [mk_arr [2]%nat [2; 8]; mk_arr [2; 1]%nat [8; 2]].
Definition ex1_Ys : list ndarr := [mk_arr [2]%nat [1; 2]; mk_arr [2]%nat [3; 5]].
Definition ex_f (k1 k2 : kern) (d1 d2 : option dims) : result fkernel :=
  fk_init ex_rand (Some 2%nat) (Some [(k1, d1)]) (Some [1%Z]) None (Some [(k2, d2)]) None.

Lemma ex_model P Xs Ys lo hi m md f f' :
  (forall X, In X Xs -> length (a_data X) = nprod (a_shape X)) -> (forall Y, In Y Ys -> length (a_data Y) = nprod (a_shape Y)) ->
  valid_data Xs Ys -> (forall X, In X Xs -> width X = P) -> (forall Y, In Y Ys -> a_data Y <> []) -> (0 < P)%nat ->
  reach f -> kernels_ok f -> f_D f = length Xs -> set_input_dim f P = Ok f' ->
  (forall ad, group f' ad <> [] -> grid_args_ok P Xs (map (fun Y => length (a_data Y)) Ys) lo hi m ad) -> proper f' ->
  exists g solve bits k d, gp_init Xs Ys true lo hi m (Some md) (Some f) = Ok g /\ gp_ready g lo hi m /\ gp_f g = f' /\ gp_mode g = md /\
    exact_solver (n_obs g) (K_fit g) solve /\ fitted solve bits 1 g k /\ multigp_init Xs Ys true = Ok d /\ gp_data g = d /\ mg_P d = P.
Proof.
  intros WX WY VD HW NE HPp Hf Hk HD Ed HA Hp.
  destruct (C59_init Xs Ys true lo hi m md f P f' WX WY VD HW NE HPp Hf Hk HD Ed HA) as [g [d [Eg [Em [HR [Ef [Emd Edd]]]]]]].
  assert (Hp' : proper (gp_f g)) by (rewrite Ef; exact Hp).
  assert (Hsym : sym (n_obs g) (K_fit g)) by exact (K_op_sym _ _ _ _ _ _ _ _ (rd_ok g lo hi m HR) (rd_P g lo hi m HR) (kr_interp g lo hi m HR)).
  destruct (exact_solver_ex (n_obs g) (K_fit g) Hsym (K_fit_pd g lo hi m HR Hp')) as [solve Hs].
  set (old := mk_slots (repeat [] (f_Q (gp_f g))) (repeat [] (f_Q (gp_f g))) (repeat KIdentity (f_Q (gp_f g))) []).
  destruct (C59_fit g lo hi m solve 1 old HR Hp' Hs (le_n 1) (repeat_length _ _) (repeat_length _ _) (repeat_length _ _)) as [_ [s [H _]]].
  set (bits := [repeat true (n_obs g)]).
  assert (HB : In bits (draws 1 (n_obs g))).
  { apply draws_in. split; [reflexivity|]. intros r [<-|[]]. apply repeat_length. }
  destruct (H bits HB) as [kk EK]. exists g, solve, bits, kk, d. repeat (split; [assumption|]). split; [exists old, (s bits); exact EK|].
  split; [exact Em|]. split; [exact Edd|].
  assert (HP1 : f_P (gp_f g) = Some P).
  { rewrite Ef. pose proof Ed as Ed'. unfold set_input_dim in Ed'. destruct (f_P f) as [P'|] eqn:EP.
    - destruct (Nat.eqb_spec P' P) as [E|]; [|discriminate Ed']. apply Ok_inj in Ed'. rewrite <- Ed', EP. now f_equal.
    - pose proof (rd_P g lo hi m HR) as H1. rewrite Ef in H1. rewrite H1. f_equal.
      rewrite Edd. unfold multigp_init in Em. destruct (multigp_init_spec Xs Ys true) as [[_ [P' [HP' E']]]|[C _]].
      + intros X HX E. specialize (WX X HX). 
        destruct VD as (_ & F2 & _). clear - F2 HX E. induction F2 as [|X' Y' Xs Ys [c [[E1|[p E1]] _]] _ IH]; [destruct HX| |];
          destruct HX as [->|HX]; try (now apply IH); congruence.
      + intros Y HY E. destruct VD as (_ & F2 & _). clear - F2 HY E. induction F2 as [|X' Y' Xs Ys [c [_ E1]] _ IH]; [destruct HY|].
        destruct HY as [->|HY]; [congruence|now apply IH].
      + fold (multigp_init Xs Ys true) in Em. rewrite E' in Em. apply Ok_inj in Em. subst d. cbn [multi_of mg_P].
        destruct VD as (NX & _). destruct Xs as [|X0 Xs]; [congruence|]. rewrite <- (HP' X0) by now left. apply HW. now left.
      + contradiction. }
  rewrite <- Edd. pose proof (rd_P g lo hi m HR) as H1. rewrite HP1 in H1. now injection H1 as <-.
Qed.

Lemma ex1_data : (forall X, In X ex1_Xs -> length (a_data X) = nprod (a_shape X)) /\ (forall Y, In Y ex1_Ys -> length (a_data Y) = nprod (a_shape Y)) /\
  valid_data ex1_Xs ex1_Ys /\ (forall X, In X ex1_Xs -> width X = 1%nat) /\ (forall Y, In Y ex1_Ys -> a_data Y <> []).
Proof.
  split; [intros X [<-|[<-|[]]]; reflexivity|]. split; [intros X [<-|[<-|[]]]; reflexivity|].
  split; [|split; [intros X [<-|[<-|[]]]; reflexivity|intros X [<-|[<-|[]]]; discriminate]].
  split; [discriminate|]. split; [constructor; [|constructor; [|constructor]]; exists 2%nat; (split; [|reflexivity]); [left; reflexivity|right; now exists 1%nat]|].
  split; [exists 1%nat; intros X [<-|[<-|[]]]; reflexivity|]. intros Y [<-|[<-|[]]]; right; [exists 1, 2|exists 3, 5]; cbn; repeat split; auto; lra.
Qed.

Lemma ex1_args ad : ad = [0%nat] -> grid_args_ok 1 ex1_Xs (map (fun Y => length (a_data Y)) ex1_Ys) (GNum 0) (GNum 10) (GNum 2%nat) ad.
Proof.
  intros ->. constructor; cbn; auto.
  - intros d [<-|[]]. lia.
  - intros d k [<-|[]] E. injection E as <-. lia.
  - intros d [<-|[]]. exists 0, 10. split; [lra|]. split; right; reflexivity.
Qed.

(** A model in one dimension. *)
Lemma ex1_model k1 k2 md : positive k1 -> positive k2 -> no_tiny_period k1 -> no_tiny_period k2 ->
  exists f g solve bits k, ex_f k1 k2 None None = Ok f /\
    gp_init ex1_Xs ex1_Ys true (GNum 0) (GNum 10) (GNum 2%nat) (Some md) (Some f) = Ok g /\
    gp_ready g (GNum 0) (GNum 10) (GNum 2%nat) /\ gp_mode g = md /\
    exact_solver (n_obs g) (K_fit g) solve /\ fitted solve bits 1 g k /\ proper (gp_f g) /\
    f_Q (gp_f g) = 2%nat /\ f_D (gp_f g) = 2%nat /\ kern_of (gp_f g) 0 = k1 /\ kern_of (gp_f g) 1 = k2 /\ mg_P (gp_data g) = 1%nat /\
    (forall q, (q < 2)%nat -> qdims (gp_f g) q = [0%nat]) /\ (forall ad, group (gp_f g) ad <> [] -> ~ surplus (gp_f g) ad) /\
    multigp_init ex1_Xs ex1_Ys true = Ok (gp_data g).
Proof.
  intros P1 P2 T1 T2. destruct (ex_f k1 k2 None None) as [f|] eqn:E; [|discriminate E].
  assert (Hr : reach f) by (eapply reach_init; exact E).
  destruct (set_input_dim f 1) as [f'|] eqn:E'.
  2:{ cbv -[IZR Rmult Rinv Rplus Rdiv Ropp] in E. apply Ok_inj in E. subst f. discriminate E'. }
  assert (Hr' : reach f') by (eapply reach_dim; eassumption).
  cbv -[IZR Rmult Rinv Rplus Rdiv Ropp] in E. apply Ok_inj in E.
  assert (Ef : f' = match set_input_dim f 1 with Ok x => x | _ => f' end) by now rewrite E'.
  rewrite <- E in Ef. cbv -[IZR Rmult Rinv Rplus Rdiv Ropp] in Ef.
  assert (HP : f_P f' = Some 1%nat) by (rewrite Ef; reflexivity).
  assert (HA : f_active f' = [([0%nat], seq 0 (f_Q f'))]) by (rewrite Ef; reflexivity).
  assert (HQ : forall q, (q < 2)%nat -> qdims f' q = [0%nat]) by (intros [|[|q]] Hq; [rewrite Ef; reflexivity|rewrite Ef; reflexivity|lia]).
  destruct ex1_data as [WX [WY [VD [HW NE]]]].
  assert (Hk : kernels_ok f) by (intros q Hq; rewrite <- E in *; cbn in Hq; destruct q as [|[|q]]; [split; assumption|split; assumption|lia]).
  assert (Hp : proper f').
  { constructor.
    - intros q Hq _. rewrite HQ; [reflexivity|]. rewrite Ef in Hq. exact Hq.
    - intros q a Hq Ha. rewrite Ef in *. cbn in Hq, Ha. destruct q as [|[|q]]; [| |lia]; destruct a as [|[|a]]; try lia; cbn; lra.
    - intros a Ha. rewrite Ef in *. cbn in Ha. destruct a as [|[|a]]; [| |lia]; cbn; lra. }
  destruct (ex_model 1 ex1_Xs ex1_Ys (GNum 0) (GNum 10) (GNum 2%nat) md f f' WX WY VD HW NE (le_n 1) Hr Hk) as [g [solve [bits [k [d H]]]]]; auto.
  { rewrite <- E. reflexivity. }
  { intros ad Had. apply ex1_args. exact (ex_single f' HA Hr' HP ad Had). }
  destruct H as (Eg & HR & Egf & Em & Hs & Hf & Ed & Egd & EP).
  exists f, g, solve, bits, k. rewrite Egf, Egd. repeat (split; [first [assumption|reflexivity|rewrite Ef; reflexivity]|]).
  split; [|exact Ed]. intros ad Had [_ [[H _]|[H _]]]; rewrite (ex_single f' HA Hr' HP ad Had) in H.
  - apply H. exists 0%nat. rewrite Ef. split; [left; reflexivity|left; unfold is_lmc; cbn; lia].
  - apply H. exists 0%nat. rewrite Ef. split; [left; reflexivity|left; unfold is_lmc; cbn; lia].
Qed.

Lemma ex1_multi d : multigp_init ex1_Xs ex1_Ys true = Ok d -> d = multi_of 1 ex1_Xs ex1_Ys true.
Proof.
  intros E. destruct ex1_data as [_ [_ [VD [HW _]]]].
  destruct (multigp_init_spec ex1_Xs ex1_Ys true) as [[_ [P [HP E']]]|[C _]]; [intros X [<-|[<-|[]]]; discriminate|intros X [<-|[<-|[]]]; discriminate| |contradiction].
  rewrite E in E'. apply Ok_inj in E'. rewrite E'. f_equal. rewrite <- (HP (mk_arr [2]%nat [2; 8])); [reflexivity|now left].
Qed.

Lemma ex1_axes a : generate_grid (map pad1 ex1_Xs) (GNum 0) (GNum 10) (GNum 2%nat) [0%nat] = Ok a ->
  ag_axes a = [[-10; -4; 2; 8; 14; 20]].
Proof.
  intros E. apply generate_grid_axes in E. destruct E as [wlo [whi [wm [Xa [m' [E1 [E2 [E3 [E4 E5]]]]]]]]].
  apply Ok_inj in E1, E2, E3. subst wlo whi wm.
  apply Ok_inj in E4. subst Xa.
  cbv -[Rmult Rplus IZR Ropp Rdiv Rinv Rminus Rmin Rmax ag_axes] in E5. apply Ok_inj in E5.
  repeat (rewrite ?(Rmin_left 2 8), ?(Rmin_right 8 2), ?(Rmin_left 2 2), ?(Rmin_left 0 2), ?(Rmax_right 2 8), ?(Rmax_left 8 2), ?(Rmax_left 8 8), ?(Rmax_left 10 8) in E5 by lra).
  apply (f_equal fst) in E5. cbn [fst] in E5. rewrite <- E5.
  repeat match goal with |- _ :: _ = _ :: _ => apply (f_equal2 (@cons _)) end; try reflexivity; lra.
Qed.

Lemma ex1_on_grid g : gp_ready g (GNum 0) (GNum 10) (GNum 2%nat) -> gp_data g = multi_of 1 ex1_Xs ex1_Ys true ->
  (forall ad, group (gp_f g) ad <> [] -> ad = [0%nat]) ->
  on_grid (gp_f g) (mg_P (gp_data g)) (mg_Xs (gp_data g)) (map (@length R) (mg_Ys (gp_data g))) (gp_grids g) /\
  forall u, (u < 6)%nat -> pt_on_grid g (fun _ => 6 * INR u - 10).
Proof.
  intros HR Ed HA. 
  assert (EA : forall ad, group (gp_f g) ad <> [] -> ag_axes (grid_at (gp_grids g) ad) = [[-10; -4; 2; 8; 14; 20]]).
  { intros ad Had. pose proof (HA ad Had) as E. subst ad. destruct (rd_grid g _ _ _ HR [0%nat] Had) as [E [l [HL _]]].
    pose proof (gr_grids _ _ _ _ HR) as EG. pose proof (grids_keys _ _ _ _ _ _ EG) as EK. rewrite Ed in EG. cbn [multi_of mg_Xs] in EG.
    unfold generate_grids in EG. apply map_result_inv in EG. apply dict_get_in in E.
    assert (HI : forall l1 (l2 : dict ad_grid), Forall2 (fun ad p => (let! a := generate_grid (map pad1 ex1_Xs) (GNum 0) (GNum 10) (GNum 2%nat) ad in Ok (ad, a)) = Ok p) l1 l2 ->
       forall p, In p l2 -> generate_grid (map pad1 ex1_Xs) (GNum 0) (GNum 10) (GNum 2%nat) (fst p) = Ok (snd p)).
    { induction 1 as [|x p l1 l2 Hp _ IH]; intros p' Hp'; [destruct Hp'|]. destruct Hp' as [<-|Hp']; [|now apply IH].
      apply bind_ok in Hp. destruct Hp as [a [Ea Hp]]. apply Ok_inj in Hp. subst p. exact Ea. }
    apply ex1_axes. exact (HI _ _ EG _ E). }
  split.
  - intros ad i Had Hi. pose proof (HA ad Had) as E. subst ad. rewrite (EA _ Had). rewrite Ed in *. cbn in Hi.
    destruct i as [|[|[|[|i]]]]; [exists 2%nat|exists 3%nat|exists 3%nat|exists 2%nat|lia]; (split; [cbn; lia|]); intros p Hp; (destruct p; [|cbn in Hp; lia]);
    reflexivity.
  - intros u Hu ad Had. pose proof (HA ad Had) as E. subst ad. rewrite (EA _ Had). exists u. split.
    + unfold pts. destruct (rd_grid g _ _ _ HR [0%nat] Had) as [_ [l [_ [E1 [_ [E3 _]]]]]]. fold (pts g [0%nat]). rewrite E3.
      rewrite (EA _ Had) in E1. unfold axes_points. apply (f_equal (map (@length R))) in E1. rewrite axes_lengths in E1. rewrite <- E1. cbn. lia.
    + intros p Hp. destruct p; [|cbn in Hp; lia]. do 6 (destruct u as [|u]; [cbn; lra|]). lia.
Qed.

(** Requests: three points for the first output, none for the second. *)
Definition ex1_Zs : list ndarr := [mk_arr [3]%nat [2; 5; 8]; mk_arr [0; 1]%nat []].
Lemma ex1_requests : requests 1 ex1_Zs [3; 0]%nat.
Proof. constructor; [split; [right; split; reflexivity|reflexivity]|]. constructor; [split; [left; reflexivity|reflexivity]|constructor]. Qed.

Lemma pos_rbf : positive (RBF 1) /\ positive (Matern32 2) /\ positive (StdPeriodic 1 2) /\ positive KIdentity.
Proof. repeat split; intros v H; cbn in H; repeat destruct H as [<-|H]; try destruct H; lra. Qed.

(** The hypotheses of C33-C37, C53, C58 and C59, in all modes. *)
Example C33_C59_ex : forall md, exists g solve bits k, 
  gp_ready g (GNum 0) (GNum 10) (GNum 2%nat) /\ gp_mode g = md /\ mode_ready g /\
  exact_solver (n_obs g) (K_fit g) solve /\ returns (n_obs g) (solve (al_K (gpk_lik k))) /\ fitted solve bits 1 g k /\
  no_identity (gp_f g) /\ proper (gp_f g) /\ (f_Q (gp_f g) = 2)%nat /\
  requests (mg_P (gp_data g)) ex1_Zs [3; 0]%nat /\ length [3; 0]%nat = f_D (gp_f g) /\ (0 < nsum [3; 0])%nat /\
  (exists Xs Ys nrm, multigp_init Xs Ys nrm = Ok (gp_data g)) /\
  pos_definite (n_obs g) (K_obs (gp_f g) (mg_P (gp_data g)) (mg_Xs (gp_data g)) (map (@length R) (mg_Ys (gp_data g)))) /\
  on_grid (gp_f g) (mg_P (gp_data g)) (mg_Xs (gp_data g)) (map (@length R) (mg_Ys (gp_data g))) (gp_grids g) /\
  (forall ad, group (gp_f g) ad <> [] -> ~ surplus (gp_f g) ad) /\
  pt_on_grid g (point (mg_P (gp_data g)) ex1_Zs 0 0) /\
  (forall q, (q < f_Q (gp_f g))%nat -> qdims (gp_f g) q = seq 0 (mg_P (gp_data g))).
Proof.
  intros md. destruct pos_rbf as [H1 [H2 [H3 _]]].
  destruct (ex1_model (RBF 1) (Matern32 2) md H1 H2 I I) as
    [f [g [solve [bits [k (E & Eg & HR & Em & Hs & Hf & Hp & EQ & ED & K1 & K2 & EP & HQ & HS & Ed)]]]]].
  assert (HA : forall ad, group (gp_f g) ad <> [] -> ad = [0%nat]).
  { intros ad Had. unfold group in Had. destruct (filter _ _) as [|q l] eqn:EF; [congruence|].
    assert (Hq : In q (q :: l)) by now left. rewrite <- EF in Hq. apply filter_In in Hq. destruct Hq as [Hq B]. apply in_seq in Hq.
    rewrite EQ in Hq. specialize (HQ q ltac:(lia)). unfold qdims in HQ. destruct (dims_of (gp_f g) q) as [a|]; [|discriminate B].
    destruct (list_eq_dec Nat.eq_dec a ad); [congruence|discriminate B]. }
  destruct (ex1_on_grid g HR (ex1_multi _ Ed) HA) as [OG PT].
  assert (Hq : forall q, (q < f_Q (gp_f g))%nat -> qdims (gp_f g) q = seq 0 (mg_P (gp_data g))).
  { intros q Hq. rewrite EQ in Hq. rewrite EP. now apply HQ. }
  pose proof (K_obs_pdR g _ _ _ HR Hp) as Hpd.
  exists g, solve, bits, k. split; [exact HR|]. split; [exact Em|].
  split; [unfold mode_ready; destruct (gp_mode g); [exact I|exact Hq|exact Hpd]|]. split; [exact Hs|].
  split; [exact (proj1 (proj2 (fit_solver g _ _ _ HR _ _ _ _ Hf Hs)))|]. split; [exact Hf|].
  split; [intros [|[|q]] Hq'; [now rewrite K1|now rewrite K2|lia]|]. split; [exact Hp|]. split; [exact EQ|].
  split; [rewrite EP; apply ex1_requests|]. split; [now rewrite ED|]. split; [cbn; lia|]. split; [eauto|]. split; [exact Hpd|].
  split; [exact OG|]. split; [exact HS|]. split; [|exact Hq].
  rewrite EP. specialize (PT 2%nat ltac:(lia)). intros ad Had. destruct (PT ad Had) as [c [Hc H]]. exists c. split; [exact Hc|].
  intros p Hp'. rewrite <- H by exact Hp'. assert (Ha := HA ad Had). subst ad. destruct p; [|cbn in Hp'; lia]. cbn. lra.
Qed.

(** So there is a model that is fitted but cannot predict. *)
Theorem C33_predict_refuted :
  exists f g solve bits k, ex_f (RBF 1) KIdentity None None = Ok f /\
    gp_init ex1_Xs ex1_Ys true (GNum 0) (GNum 10) (GNum 2%nat) (Some OnTheFly) (Some f) = Ok g /\
    exact_solver (n_obs g) (K_fit g) solve /\ fitted solve bits 1 g k /\ gp_predict solve g k ex1_Zs = Err AttributeError.
Proof.
  destruct pos_rbf as [H1 [H2 [H3 H4]]]. destruct (ex1_model (RBF 1) KIdentity OnTheFly H1 H4 I I) as
    [f [g [solve [bits [k (E & Eg & HR & Em & Hs & Hf & Hp & EQ & ED & K1 & K2 & EP & HQ & HS & Ed)]]]]].
  exists f, g, solve, bits, k. split; [exact E|]. split; [exact Eg|]. split; [exact Hs|]. split; [exact Hf|].
  apply (C33_identity_fails g _ _ _ solve bits 1 k ex1_Zs [3; 0]%nat 1 HR Hf).
  - rewrite EP. apply ex1_requests.
  - now rewrite ED.
  - rewrite EQ. lia.
  - now rewrite K2.
Qed.
Print Assumptions C33_predict_refuted.

(** A request without points fails although its predictions are empty lists. *)
Theorem C35_pointwise_refuted :
  exists g solve bits k Zs zl, gp_ready g (GNum 0) (GNum 10) (GNum 2%nat) /\ exact_solver (n_obs g) (K_fit g) solve /\
    fitted solve bits 1 g k /\ no_identity (gp_f g) /\ requests (mg_P (gp_data g)) Zs zl /\ length zl = f_D (gp_f g) /\
    gp_predict solve g k Zs = Err ValueError.
Proof.
  destruct (C33_C59_ex OnTheFly) as [g [solve [bits [k (HR & Em & _ & Hs & _ & Hf & Hi & _ & _ & Hq & HD & _)]]]].
  assert (HZ : requests (mg_P (gp_data g)) [mk_arr [0; mg_P (gp_data g)]%nat []; mk_arr [0; mg_P (gp_data g)]%nat []] [0; 0]%nat).
  { constructor; [split; [now left|reflexivity]|]. constructor; [split; [now left|reflexivity]|constructor]. }
  exists g, solve, bits, k, [mk_arr [0; mg_P (gp_data g)]%nat []; mk_arr [0; mg_P (gp_data g)]%nat []], [0; 0]%nat.
  repeat (split; [assumption|]).
  exact (C35_empty_fails g _ _ _ solve bits 1 k _ _ HR Hf Hi Em HZ HD eq_refl).
Qed.
Print Assumptions C35_pointwise_refuted.

(** Two-dimensional inputs; the independent kernel (and possibly the other
    one) acts on the first dimension only. *)
Definition ex2_Xs : list ndarr := [mk_arr [2; 2]%nat [0; 0; 1; 2]; mk_arr [2; 2]%nat [3; 1; 4; 5]].
Definition ex2_Zs : list ndarr := [mk_arr [1; 2]%nat [1; 1]; mk_arr [1; 2]%nat [2; 1]].

Lemma ex2_data : (forall X, In X ex2_Xs -> length (a_data X) = nprod (a_shape X)) /\ (forall Y, In Y ex1_Ys -> length (a_data Y) = nprod (a_shape Y)) /\
  valid_data ex2_Xs ex1_Ys /\ (forall X, In X ex2_Xs -> width X = 2%nat) /\ (forall Y, In Y ex1_Ys -> a_data Y <> []).
Proof.
  split; [intros X [<-|[<-|[]]]; reflexivity|]. split; [intros X [<-|[<-|[]]]; reflexivity|].
  split; [|split; [intros X [<-|[<-|[]]]; reflexivity|intros X [<-|[<-|[]]]; discriminate]].
  split; [discriminate|]. split; [constructor; [|constructor; [|constructor]]; exists 2%nat; (split; [|reflexivity]); right; now exists 2%nat|].
  split; [exists 2%nat; intros X [<-|[<-|[]]]; reflexivity|]. intros Y [<-|[<-|[]]]; right; [exists 1, 2|exists 3, 5]; cbn; repeat split; auto; lra.
Qed.

Lemma ex2_args ad : ad = [0%nat] \/ ad = [0%nat; 1%nat] -> grid_args_ok 2 ex2_Xs (map (fun Y => length (a_data Y)) ex1_Ys) GNone GNone (GArr [2%nat; 2%nat]) ad.
Proof.
  intros H. assert (HI : forall d, In d ad -> d = 0%nat \/ d = 1%nat) by (destruct H; subst ad; intros d Hd; cbn in Hd; lia).
  constructor; cbn [arg_ok]; auto.
  - destruct H; subst ad; cbn; lia.
  - intros d Hd. apply HI in Hd. lia.
  - intros d Hd. apply HI in Hd. cbn. lia.
  - intros d k Hd E. apply HI in Hd. cbn [arg_at] in E. destruct Hd; subst d; cbn in E; injection E as <-; lia.
  - intros d Hd. apply HI in Hd. destruct Hd; subst d.
    + exists 0, 1. split; [lra|]. split; left; [exists 0%nat|exists 1%nat]; (split; [cbn; lia|reflexivity]).
    + exists 0, 2. split; [lra|]. split; left; [exists 0%nat|exists 1%nat]; (split; [cbn; lia|reflexivity]).
Qed.

Lemma ex2_model d1 : d1 = None \/ d1 = Some [0%nat] ->
  exists f g solve bits k, ex_f (RBF 1) (Matern32 2) d1 (Some [0%nat]) = Ok f /\
    gp_init ex2_Xs ex1_Ys true GNone GNone (GArr [2%nat; 2%nat]) (Some Precompute) (Some f) = Ok g /\
    gp_ready g GNone GNone (GArr [2%nat; 2%nat]) /\ gp_mode g = Precompute /\
    exact_solver (n_obs g) (K_fit g) solve /\ fitted solve bits 1 g k /\
    f_Q (gp_f g) = 2%nat /\ f_D (gp_f g) = 2%nat /\ no_identity (gp_f g) /\ mg_P (gp_data g) = 2%nat /\
    qdims (gp_f g) 0 = (match d1 with None => [0%nat; 1%nat] | Some d => d end) /\ qdims (gp_f g) 1 = [0%nat] /\ proper (gp_f g).
Proof.
  intros Hd. destruct (ex_f (RBF 1) (Matern32 2) d1 (Some [0%nat])) as [f|] eqn:E; [|destruct Hd; subst d1; discriminate E].
  assert (Hr : reach f) by (eapply reach_init; exact E).
  destruct (set_input_dim f 2) as [f'|] eqn:E'.
  2:{ cbv -[IZR Rmult Rinv Rplus Rdiv Ropp] in E. apply Ok_inj in E. subst f. destruct Hd; subst d1; discriminate E'. }
  assert (Hr' : reach f') by (eapply reach_dim; eassumption).
  cbv -[IZR Rmult Rinv Rplus Rdiv Ropp] in E. apply Ok_inj in E.
  assert (Ef : f' = match set_input_dim f 2 with Ok x => x | _ => f' end) by now rewrite E'.
  rewrite <- E in Ef.
  assert (FA : f_P f' = Some 2%nat /\ (forall ad, In ad (map fst (f_active f')) -> ad = [0%nat] \/ ad = [0%nat; 1%nat]) /\
     qdims f' 0 = (match d1 with None => [0%nat; 1%nat] | Some d => d end) /\ qdims f' 1 = [0%nat] /\ f_Q f' = 2%nat /\ f_D f' = 2%nat /\
     f_diags f' = [[1; 1]; [1; 0]] /\ f_noise f' = [1 / 10; 1 / 10] /\ kern_of f' 0 = RBF 1 /\ kern_of f' 1 = Matern32 2).
  { destruct Hd; subst d1; cbv -[IZR Rmult Rinv Rplus Rdiv Ropp] in Ef; rewrite Ef; (split; [reflexivity|]); (split; [cbn; intros ad H; intuition congruence|]); repeat split. }
  destruct FA as (HP & HA & Q0 & Q1 & HQ & HD & HDi & HN & KK0 & KK1).
  destruct ex2_data as [WX [WY [VD [HW NE]]]]. destruct pos_rbf as [B1 [B2 _]].
  assert (Hk : kernels_ok f) by (intros q Hq; rewrite <- E in *; cbn in Hq; destruct q as [|[|q]]; [split; [assumption|exact I]|split; [assumption|exact I]|lia]).
  assert (Hp : proper f').
  { constructor.
    - intros q Hq C. rewrite HQ in Hq. destruct q as [|[|q]]; [rewrite KK0 in C|rewrite KK1 in C|lia]; discriminate C.
    - intros q a Hq Ha. rewrite HQ in Hq. rewrite HD in Ha. rewrite HDi. destruct q as [|[|q]]; [| |lia]; destruct a as [|[|a]]; try lia; cbn; lra.
    - intros a Ha. rewrite HD in Ha. rewrite HN. destruct a as [|[|a]]; [| |lia]; cbn; lra. }
  destruct (ex_model 2 ex2_Xs ex1_Ys GNone GNone (GArr [2%nat; 2%nat]) Precompute f f' WX WY VD HW NE (Nat.lt_0_succ 1) Hr Hk) as [g [solve [bits [k [d H]]]]]; auto.
  { rewrite <- E. reflexivity. }
  { intros ad Had. apply ex2_args, HA. apply (keys_group f' 2 (reach_ok _ Hr') HP). exact Had. }
  destruct H as (Eg & HR & Egf & Em & Hs & Hf & Ed & Egd & EP).
  exists f, g, solve, bits, k. rewrite Egf, Egd. split; [rewrite <- E; reflexivity|]. repeat (split; [assumption|]). split; [|auto].
  intros [|[|q]] Hq; [now rewrite KK0|now rewrite KK1|rewrite HQ in Hq; lia].
Qed.

Lemma ex2_requests : requests 2 ex2_Zs [1; 1]%nat.
Proof. constructor; [split; [left; reflexivity|reflexivity]|]. constructor; [split; [left; reflexivity|reflexivity]|constructor]. Qed.

Example C44_split_ex : exists g solve bits k q q', gp_ready g GNone GNone (GArr [2%nat; 2%nat]) /\ fitted solve bits 1 g k /\ no_identity (gp_f g) /\
  gp_mode g = Precompute /\ requests (mg_P (gp_data g)) ex2_Zs [1; 1]%nat /\ length [1; 1]%nat = f_D (gp_f g) /\
  (q < f_Q (gp_f g))%nat /\ (q' < f_Q (gp_f g))%nat /\ qdims (gp_f g) q <> qdims (gp_f g) q'.
Proof.
  destruct (ex2_model None (or_introl eq_refl)) as [f [g [solve [bits [k (E & Eg & HR & Em & Hs & Hf & EQ & ED & Hid & EP & Q0 & Q1 & _)]]]]].
  exists g, solve, bits, k, 0%nat, 1%nat. repeat (split; [assumption|]). split; [rewrite EP; apply ex2_requests|]. rewrite ED, EQ, Q0, Q1.
  repeat split; try lia. discriminate.
Qed.

(** All kernels on the first of two dimensions: not a clean ValueError. *)
Theorem C44_precompute_refuted :
  exists f g solve bits k, ex_f (RBF 1) (Matern32 2) (Some [0%nat]) (Some [0%nat]) = Ok f /\
    gp_init ex2_Xs ex1_Ys true GNone GNone (GArr [2%nat; 2%nat]) (Some Precompute) (Some f) = Ok g /\
    (forall q, (q < f_Q (gp_f g))%nat -> qdims (gp_f g) q = [0%nat]) /\
    exact_solver (n_obs g) (K_fit g) solve /\ fitted solve bits 1 g k /\ gp_predict solve g k ex2_Zs = Err KeyError.
Proof.
  destruct (ex2_model (Some [0%nat]) (or_intror eq_refl)) as [f [g [solve [bits [k (E & Eg & HR & Em & Hs & Hf & EQ & ED & Hid & EP & Q0 & Q1 & _)]]]]].
  assert (HQ : forall q, (q < f_Q (gp_f g))%nat -> qdims (gp_f g) q = [0%nat]).
  { intros q Hq. rewrite EQ in Hq. destruct q as [|[|q]]; [exact Q0|exact Q1|lia]. }
  exists f, g, solve, bits, k. repeat (split; [assumption|]).
  apply (C44_subset_fails g _ _ _ solve bits 1 k ex2_Zs [1; 1]%nat [0%nat] HR Hf Hid Em).
  - rewrite EP. apply ex2_requests.
  - now rewrite ED.
  - exact HQ.
  - rewrite EP. discriminate.
Qed.
Print Assumptions C44_precompute_refuted.
