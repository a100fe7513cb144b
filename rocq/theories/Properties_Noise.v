(** Claims about the noise (C83). *)

From Coq Require Import Reals List Arith ZArith Lia Lra.
From Verif Require Import Base NDArray PSD Model_Util Proofs_Util Spec_Util Model_Linalg Spec_Linalg Proofs_Linalg Model_Interp Spec_Interp
  Properties_Interp Model_Kern Spec_Kern Proofs_Kern Proofs_KernPSD Model_FK Spec_FK Proofs_FK
  Properties_FK Model_Grid Spec_Grid Proofs_Grid Proofs_Grid2 Properties_Grid Det Proofs_Det Model_Lik Spec_Lik Proofs_Lik Proofs_Lik2 Proofs_Lik3 Proofs_Lik4 Proofs_Lik5 Proofs_Lik6 Proofs_Lik7 Properties_Lik
  Properties_Lik2 Spec_GP Proofs_Gen Proofs_Gen2 Properties_Gen Model_GP Spec_Pred Proofs_Pred Proofs_Pred2 Proofs_Pred3 Proofs_Pred4 Proofs_Init Proofs_Pred5 Proofs_Pred6 Properties_Pred
  Spec_Order Proofs_Order Proofs_Order2 Proofs_Order3 Properties_Order Spec_Depend Proofs_Depend Properties_Alike Spec_Acc Proofs_Acc Spec_Lip Proofs_Lip Proofs_Lip2 Spec_Far Properties_Far Spec_Noise Proofs_Noise.
Import ListNotations.
Open Scope R_scope.

(** More noise, on any of the outputs, never lowers a predicted variance; a
    variance that is not cut off at zero grows by at least what the noise of
    its output grows.  Precomputed variances: on the grid. *)
Theorem C83_variance :
  forall g lo hi m v solve solve' bits bits' n_it n_it' k k' Zs zl, gp_ready g lo hi m -> proper (gp_f g) ->
  length v = f_D (gp_f g) -> (forall a, (a < f_D (gp_f g))%nat -> vget (f_noise (gp_f g)) a <= vget v a) ->
  fitted solve bits n_it g k -> fitted solve' bits' n_it' (noisy g v) k' ->
  exact_solver (n_obs g) (K_fit g) solve -> exact_solver (n_obs g) (K_fit (noisy g v)) solve' ->
  no_identity (gp_f g) -> mode_ready g -> requests (mg_P (gp_data g)) Zs zl -> length zl = f_D (gp_f g) -> (0 < nsum zl)%nat ->
  exists mu var mu' var', gp_predict solve g k Zs = Ok (mu, var) /\ gp_predict solve' (noisy g v) k' Zs = Ok (mu', var') /\
    forall d i, (d < f_D (gp_f g))%nat -> (i < nth d zl 0)%nat ->
      (gp_mode g = Precompute -> pt_on_grid g (point (mg_P (gp_data g)) Zs d i)) ->
      vget (nth d var []) i <= vget (nth d var' []) i /\
      (0 < vget (nth d var []) i -> vget (nth d var []) i + unnorm_var g d (vget v d - vget (f_noise (gp_f g)) d) <= vget (nth d var' []) i).
Proof.
  intros g lo hi m v solve solve' bits bits' n_it n_it' k k' Zs zl HR Hp Hv Hle Hf Hf' Hs Hs' Hid Hm HZ Hz Ht.
  pose proof (noisy_ready g lo hi m v HR Hv) as HR'.
  assert (Hpos : forall a, (a < f_D (gp_f g))%nat -> 0 < vget v a) by (intros a Ha; pose proof (pr_noise _ Hp a Ha); specialize (Hle a Ha); lra).
  pose proof (noisy_mode g lo hi m v HR Hv Hp Hpos Hm) as Hm'.
  destruct (fit_solver g lo hi m HR _ _ _ _ Hf Hs) as [He [Hr _]]. destruct (fit_solver (noisy g v) lo hi m HR' _ _ _ _ Hf' Hs') as [He' [Hr' _]].
  destruct Hf as [old [st Hf]]. destruct Hf' as [old' [st' Hf']].
  destruct (fitted_of g _ _ _ _ _ _ Hf) as [HK _]. destruct (fitted_of (noisy g v) _ _ _ _ _ _ Hf') as [HK' _].
  eexists _, _, _, _. split; [exact (predict_ok g lo hi m HR k HK solve Hr Zs zl Hid Hm HZ Hz (fun _ => Ht))|].
  split; [exact (predict_ok (noisy g v) lo hi m HR' k' HK' solve' Hr' Zs zl Hid Hm' HZ Hz (fun _ => Ht))|].
  intros d i Hd Hi HG. change (f_D (gp_f (noisy g v))) with (f_D (gp_f g)). rewrite !nth_tab by exact Hd. rewrite !vget_tab by exact Hi.
  change (mg_P (gp_data (noisy g v))) with (mg_P (gp_data g)). set (x := point (mg_P (gp_data g)) Zs d i) in *.
  assert (X : explained (noisy g v) k' solve' d x <= explained g k solve d x).
  { apply (noisy_explained g lo hi m v HR Hp Hv Hle solve solve' k k' He He'). intros EM. unfold mode_ready in Hm. rewrite EM in Hm.
    split; [exact Hm|]. intros u Hu. pose proof (both_full g lo hi m HR Hm) as Had. destruct (HG EM _ Had) as [c [Hc Hx]].
    rewrite (we_node _ _ (wt_weights g lo hi m HR) _ x u c Had Hu Hc Hx). destruct (Nat.eqb u c); lra. }
  assert (EP : prior_var (gp_f (noisy g v)) d = prior_var (gp_f g) d + (vget v d - vget (f_noise (gp_f g)) d)).
  { unfold prior_var. change (f_Q (gp_f (noisy g v))) with (f_Q (gp_f g)). change (f_noise (gp_f (noisy g v))) with v.
    change (B_of (gp_f (noisy g v))) with (B_of (gp_f g)). change (kern_of (gp_f (noisy g v))) with (kern_of (gp_f g)). ring. }
  specialize (Hle d Hd).
  assert (V1 : var_at g k solve d x <= var_at (noisy g v) k' solve' d x) by (unfold var_at; apply clip_mono; rewrite EP; lra).
  assert (V2 : 0 < var_at g k solve d x -> var_at g k solve d x + (vget v d - vget (f_noise (gp_f g)) d) <= var_at (noisy g v) k' solve' d x).
  { unfold var_at. rewrite EP. unfold clip. destruct (Rlt_dec _ 0); [lra|]. intros _. destruct (Rlt_dec _ 0); lra. }
  unfold unnorm_var. change (mg_norm (gp_data (noisy g v))) with (mg_norm (gp_data g)). destruct (mg_norm (gp_data g)) as [l|]; [|now split].
  set (s2 := n_std (nth d l (mk_norm 0 1)) ^ 2). assert (S2 : 0 <= s2) by apply pow2_ge_0. split; [now apply Rmult_le_compat_r|].
  intros H. rewrite <- Rmult_plus_distr_r. apply Rmult_le_compat_r; [exact S2|]. apply V2. destruct (Rlt_dec 0 (var_at g k solve d x)); [assumption|]. exfalso.
  assert (var_at g k solve d x * s2 <= 0 * s2) by (apply Rmult_le_compat_r; lra). lra.
Qed.
Print Assumptions C83_variance.

(** With noise of at least [s] on every output, means are within [M / s] of
    the mean of the output (zero without normalisation), and variances within
    [M / s] of the prior variance; [M] does not depend on the noise. *)
Theorem C83_prior :
  forall g lo hi m Zs zl, gp_ready g lo hi m -> proper (gp_f g) -> no_identity (gp_f g) -> mode_ready g ->
  requests (mg_P (gp_data g)) Zs zl -> length zl = f_D (gp_f g) -> (0 < nsum zl)%nat ->
  exists M, forall s v solve bits n_it k, 0 < s -> length v = f_D (gp_f g) -> (forall a, (a < f_D (gp_f g))%nat -> s <= vget v a) ->
  fitted solve bits n_it (noisy g v) k -> exact_solver (n_obs g) (K_fit (noisy g v)) solve ->
  exists mu var, gp_predict solve (noisy g v) k Zs = Ok (mu, var) /\
    forall d i, (d < f_D (gp_f g))%nat -> (i < nth d zl 0)%nat ->
      Rabs (vget (nth d mu []) i - unnorm_mean g d 0) <= M / s /\
      Rabs (vget (nth d var []) i - unnorm_var g d (prior_var (set_noise (gp_f g) v) d)) <= M / s.
Proof.
  intros g lo hi m Zs zl HR Hp Hid Hm HZ Hz Ht.
  set (sc := fun d => match mg_norm (gp_data g) with Some l => Rabs (n_std (nth d l (mk_norm 0 1))) + n_std (nth d l (mk_norm 0 1)) ^ 2 | None => 1 end).
  assert (Sc : forall d, 0 <= sc d) by (intros d; unfold sc; destruct (mg_norm (gp_data g)) as [l|]; [pose proof (Rabs_pos (n_std (nth d l (mk_norm 0 1)))); pose proof (pow2_ge_0 (n_std (nth d l (mk_norm 0 1)))); lra|lra]).
  set (T := fun d i => (mean_reach g d (point (mg_P (gp_data g)) Zs d i) + var_reach g d (point (mg_P (gp_data g)) Zs d i)) * sc d).
  assert (HT : forall d i, 0 <= T d i).
  { intros d i. apply Rmult_le_pos; [|apply Sc]. pose proof (mean_reach_nonneg g d (point (mg_P (gp_data g)) Zs d i)).
    pose proof (var_reach_nonneg g d (point (mg_P (gp_data g)) Zs d i)). lra. }
  exists (Rsum (f_D (gp_f g)) (fun d => Rsum (nth d zl 0%nat) (T d))). set (M := Rsum _ _).
  assert (HM : forall d i, (d < f_D (gp_f g))%nat -> (i < nth d zl 0)%nat -> T d i <= M).
  { intros d i Hd Hi. apply Rle_trans with (Rsum (nth d zl 0%nat) (T d)).
    - rewrite <- (Rsum_delta _ i (T d) Hi). apply Rsum_le. intros j Hj. destruct (Nat.eqb j i); [lra|apply HT].
    - unfold M. rewrite <- (Rsum_delta _ d (fun d => Rsum (nth d zl 0%nat) (T d)) Hd). apply Rsum_le. intros j Hj.
      destruct (Nat.eqb j d); [lra|]. apply Rsum_nonneg. intros; apply HT. }
  intros s v solve bits n_it k Hs0 Hv Hge Hf Hs.
  pose proof (noisy_ready g lo hi m v HR Hv) as HR'.
  assert (Hpos : forall a, (a < f_D (gp_f g))%nat -> 0 < vget v a) by (intros a Ha; specialize (Hge a Ha); lra).
  pose proof (noisy_mode g lo hi m v HR Hv Hp Hpos Hm) as Hm'.
  destruct (fit_solver (noisy g v) lo hi m HR' _ _ _ _ Hf Hs) as [He [Hr Ha]]. destruct Hf as [old [st Hf]]. destruct (fitted_of (noisy g v) _ _ _ _ _ _ Hf) as [HK _].
  eexists _, _. split; [exact (predict_ok (noisy g v) lo hi m HR' k HK solve Hr Zs zl Hid Hm' HZ Hz (fun _ => Ht))|].
  intros d i Hd Hi. change (f_D (gp_f (noisy g v))) with (f_D (gp_f g)). rewrite !nth_tab by exact Hd. rewrite !vget_tab by exact Hi.
  change (mg_P (gp_data (noisy g v))) with (mg_P (gp_data g)). specialize (HM d i Hd Hi). clearbody M. unfold T in HM. clear T HT. set (x := point (mg_P (gp_data g)) Zs d i) in *.
  pose proof (loud_mean g lo hi m v s HR Hp Hv Hs0 Hge k d x Ha) as B1.
  pose proof (loud_explained g lo hi m v s HR Hp Hv Hs0 Hge solve k He d x) as B2.
  pose proof (mean_reach_nonneg g d x) as N1. pose proof (var_reach_nonneg g d x) as N2.
  assert (B3 : Rabs (var_at (noisy g v) k solve d x - prior_var (set_noise (gp_f g) v) d) <= var_reach g d x / s).
  { eapply Rle_trans; [|exact B2]. pose proof (prior_pos (noisy g v) lo hi m HR' (noisy_proper g v Hp Hpos) d Hd) as HP0.
    unfold var_at. change (gp_f (noisy g v)) with (set_noise (gp_f g) v) in *. set (p := prior_var (set_noise (gp_f g) v) d) in *. set (e := explained _ _ _ _ _).
    unfold clip. destruct (Rlt_dec (p - e) 0).
    - replace (0 - p) with (- p) by ring. rewrite Rabs_Ropp, (Rabs_pos_eq p), (Rabs_pos_eq e) by lra. lra.
    - replace (p - e - p) with (- e) by ring. rewrite Rabs_Ropp. lra. }
  assert (I0 : 0 <= / s) by (left; now apply Rinv_0_lt_compat).
  assert (W : forall A c, 0 <= A -> 0 <= c -> A <= mean_reach g d x + var_reach g d x -> c <= sc d -> A / s * c <= M / s).
  { intros A c HA Hc H1 H2. unfold Rdiv. replace (A * / s * c) with (A * c * / s) by ring. apply Rmult_le_compat_r; [exact I0|].
    apply Rle_trans with (2 := HM). now apply Rmult_le_compat. }
  assert (WM : mean_reach g d x <= mean_reach g d x + var_reach g d x) by lra. assert (WV : var_reach g d x <= mean_reach g d x + var_reach g d x) by lra.
  unfold unnorm_mean, unnorm_var. change (mg_norm (gp_data (noisy g v))) with (mg_norm (gp_data g)). unfold sc in *. destruct (mg_norm (gp_data g)) as [l|].
  - set (sd := n_std (nth d l (mk_norm 0 1))). pose proof (Rabs_pos sd) as A1. pose proof (pow2_ge_0 sd) as A2. fold sd in W. split.
    + replace (mean_at (noisy g v) k d x * sd + n_mean (nth d l (mk_norm 0 1)) - (0 * sd + n_mean (nth d l (mk_norm 0 1)))) with (mean_at (noisy g v) k d x * sd) by ring.
      rewrite Rabs_mult. eapply Rle_trans; [apply Rmult_le_compat_r; [exact A1|exact B1]|]. apply W; lra.
    + rewrite <- Rmult_minus_distr_r, Rabs_mult, (Rabs_pos_eq (sd ^ 2)) by exact A2. eapply Rle_trans; [apply Rmult_le_compat_r; [exact A2|exact B3]|]. apply W; lra.
  - split.
    + rewrite Rminus_0_r. eapply Rle_trans; [exact B1|]. rewrite <- (Rmult_1_r (_ / s)). apply W; lra.
    + eapply Rle_trans; [exact B3|]. rewrite <- (Rmult_1_r (_ / s)). apply W; lra.
Qed.
Print Assumptions C83_prior.

(** The noise bounds the log likelihood: whatever the other parameters and the
    observed values, it is at most that of noise alone at values zero. *)
Theorem C83_likelihood :
  forall g lo hi m solve bits n_it k, gp_ready g lo hi m -> proper (gp_f g) ->
  fitted solve bits n_it g k -> exact_solver (n_obs g) (K_fit g) solve ->
  exists v, gp_log_likelihood g k = Ok (Fin v) /\
    v <= - (1 / 2) * Rsum (f_D (gp_f g)) (fun d => INR (length (nth d (mg_Ys (gp_data g)) [])) * ln (2 * PI * vget (f_noise (gp_f g)) d)).
Proof.
  intros g lo hi m solve bits n_it k HR Hp Hf Hs. destruct (fit_solver g lo hi m HR _ _ _ _ Hf Hs) as [He [_ Ha]].
  pose proof (K_obs_pdR g lo hi m HR Hp) as P1. pose proof (proj1 (C53_log_det g lo hi m HR) P1) as [Dp D1].
  unfold gp_log_likelihood. rewrite D1. cbn [bind]. eexists. split; [reflexivity|].
  rewrite (concat_len g). unfold gp_normal_quadratic, np_vdot. rewrite (concat_len g).
  assert (Q : 0 <= Rsum (n_obs g) (fun i => vget (concat (mg_Ys (gp_data g))) i * vget (sd_alpha (al_deriv (gpk_lik k))) i)).
  { pose proof (pd_psd _ _ (K_fit_pd g lo hi m HR Hp) (vget (sd_alpha (al_deriv (gpk_lik k))))) as H. unfold qf, bil in H.
    rewrite (Rsum_ext _ _ (fun i => y_obs g i * vget (sd_alpha (al_deriv (gpk_lik k))) i)) in H; [exact H|].
    intros i Hi. rewrite <- (Ha i Hi), <- Rsum_scal_r. apply Rsum_ext. intros; ring. }
  set (lens := map (@length R) (mg_Ys (gp_data g))) in *.
  assert (OW : forall i, (i < n_obs g)%nat -> 0 < vget (f_noise (gp_f g)) (owner lens i)).
  { intros i Hi. apply (pr_noise _ Hp). exact (noisy_own g lo hi m HR i Hi). }
  pose proof (det_floor (n_obs g) (fun i j => lmc_cov (gp_f g) (owner lens i) (obs (mg_P (gp_data g)) (mg_Xs (gp_data g)) lens i) (owner lens j) (obs (mg_P (gp_data g)) (mg_Xs (gp_data g)) lens j))
    (fun i => vget (f_noise (gp_f g)) (owner lens i))) as HF.
  specialize (HF ltac:(intros i j _ _; apply lmc_cov_sym)).
  specialize (HF (lmc_psd (gp_f g) (mg_P (gp_data g)) (mg_Xs (gp_data g)) lens (rd_D g lo hi m HR) (fun q Hq => proj1 (gr_kern _ _ _ _ HR q Hq)) (pr_per _ Hp) (pr_diag _ Hp)) OW).
  change (det (n_obs g) _) with (det (n_obs g) (K_obs (gp_f g) (mg_P (gp_data g)) (mg_Xs (gp_data g)) lens)) in HF.
  assert (EL : forall l : list nat, (forall i, In i l -> 0 < vget (f_noise (gp_f g)) (owner lens i)) ->
    0 < fold_right Rmult 1 (map (fun i => vget (f_noise (gp_f g)) (owner lens i)) l) /\
    ln (fold_right Rmult 1 (map (fun i => vget (f_noise (gp_f g)) (owner lens i)) l)) = lsum (map (fun i => ln (vget (f_noise (gp_f g)) (owner lens i))) l)).
  { induction l as [|i l IH]; intros H; cbn [map fold_right lsum]; [split; [lra|apply ln_1]|]. destruct IH as [I1 I2]; [intros; apply H; now right|].
    assert (0 < vget (f_noise (gp_f g)) (owner lens i)) by (apply H; now left). split; [now apply Rmult_lt_0_compat|]. rewrite ln_mult by assumption. rewrite I2. reflexivity. }
  destruct (EL (seq 0 (n_obs g)) ltac:(intros i Hi; apply in_seq in Hi; apply OW; lia)) as [E1 E2]. fold (tab (n_obs g) (fun i => vget (f_noise (gp_f g)) (owner lens i))) in E1, E2.
  assert (HL : lsum (map (fun i => ln (vget (f_noise (gp_f g)) (owner lens i))) (seq 0 (n_obs g))) <= ln (det (n_obs g) (K_obs (gp_f g) (mg_P (gp_data g)) (mg_Xs (gp_data g)) lens))).
  { rewrite <- E2. destruct (Req_dec (fold_right Rmult 1 (tab (n_obs g) (fun i => vget (f_noise (gp_f g)) (owner lens i)))) (det (n_obs g) (K_obs (gp_f g) (mg_P (gp_data g)) (mg_Xs (gp_data g)) lens))) as [->|];
      [lra|]. left. apply ln_increasing; lra. }
  rewrite <- Rsum_seq in HL.
  assert (TOT : Rsum (f_D (gp_f g)) (fun d => INR (length (nth d (mg_Ys (gp_data g)) [])) * ln (2 * PI * vget (f_noise (gp_f g)) d))
    = Rsum (n_obs g) (fun i => ln (vget (f_noise (gp_f g)) (owner lens i))) + INR (n_obs g) * ln (2 * PI)).
  { rewrite <- (Rsum_const (n_obs g) (ln (2 * PI))), <- Rsum_plus. unfold n_obs. fold lens. rewrite Rsum_stacked. rewrite (rd_D g lo hi m HR : length lens = _).
    apply Rsum_ext. intros d Hd. rewrite <- (Rsum_const (length (nth d (mg_Ys (gp_data g)) []))).
    assert (EN : nth d lens 0%nat = length (nth d (mg_Ys (gp_data g)) [])) by (unfold lens; now rewrite <- (map_nth (@length R))). rewrite EN.
    apply Rsum_ext. intros i Hi. assert (EO : owner lens (ix lens d i) = d).
    { apply owner_offset; [rewrite (rd_D g lo hi m HR : length lens = _); exact Hd|now rewrite EN]. }
    rewrite EO, ln_mult; [ring| |exact (pr_noise _ Hp d Hd)]. pose proof PI_RGT_0. lra. }
  unfold y_obs in Q. rewrite TOT. fold lens in HL. change (nsum lens) with (n_obs g).
  match goal with |- - (1 / 2) * (?A + ?B + ?C) <= _ => assert (HB : 0 <= B) by exact Q; assert (HA : Rsum (n_obs g) (fun i => ln (vget (f_noise (gp_f g)) (owner lens i))) <= A) by exact HL end.
  lra.
Qed.
Print Assumptions C83_likelihood.

(** ** Examples *)

(** A point of the grid of [ex1_Xs]. *)
Lemma ex1_node g : gp_ready g (GNum 0) (GNum 10) (GNum 2%nat) -> gp_data g = multi_of 1 ex1_Xs ex1_Ys true ->
  (forall ad, group (gp_f g) ad <> [] -> ad = [0%nat]) -> forall x, x 0%nat = 14 -> pt_on_grid g x.
Proof.
  intros HR Ed HA x Hx ad Had. pose proof (HA ad Had) as E. subst ad. pose proof (ex1_axis g HR Ed Had) as EA. exists 4%nat. rewrite EA. split.
  - destruct (rd_grid g _ _ _ HR [0%nat] Had) as [_ [l [_ [E1 [_ [E3 _]]]]]]. rewrite E3.
    rewrite EA in E1. unfold axes_points. apply (f_equal (map (@length R))) in E1. rewrite axes_lengths in E1. rewrite <- E1. cbn. lia.
  - intros p Hp. destruct p; [|cbn in Hp; lia]. cbn. exact Hx.
Qed.

(** The hypotheses of C83_variance and, for the noisier model,
    those of C83_prior and C83_likelihood: a fitted model of two outputs in any
    mode, and the same with more noise on the second output only. *)
Example C83_ex : forall md, exists f g v s b k s' b' k',
  gp_init ex1_Xs ex1_Ys true (GNum 0) (GNum 10) (GNum 2%nat) (Some md) (Some f) = Ok g /\ gp_ready g (GNum 0) (GNum 10) (GNum 2%nat) /\ proper (gp_f g) /\
  length v = f_D (gp_f g) /\ (forall a, (a < f_D (gp_f g))%nat -> vget (f_noise (gp_f g)) a <= vget v a) /\
  vget (f_noise (gp_f g)) 0 = vget v 0 /\ vget (f_noise (gp_f g)) 1 < vget v 1 /\
  fitted s b 1 g k /\ exact_solver (n_obs g) (K_fit g) s /\ fitted s' b' 1 (noisy g v) k' /\ exact_solver (n_obs g) (K_fit (noisy g v)) s' /\
  no_identity (gp_f g) /\ mode_ready g /\ gp_mode g = md /\ f_D (gp_f g) = 2%nat /\ mg_P (gp_data g) = 1%nat /\
  requests 1 (far_Zs 14) [1; 0]%nat /\ pt_on_grid g (point 1 (far_Zs 14) 0 0) /\
  exists s0, 0 < s0 /\ forall a, (a < f_D (gp_f g))%nat -> s0 <= vget v a.
Proof.
  intros md. destruct alike_three as [f [f' (_ & T & _ & _ & _ & KE)]].
  destruct (two_models f f' true md (th_reach _ _ T) (th_ok _ _ T) (th_D _ _ T) (th_set _ _ T) (th_active _ _ T) (th_P _ _ T) _ _ ex1_good) as [g (E & HR & F & M & G)].
  assert (Hp : proper (gp_f g)) by (rewrite F; exact (th_proper _ _ T)).
  assert (HD : f_D (gp_f g) = 2%nat) by (rewrite F; exact (th_D' _ _ T)).
  set (v := [vget (f_noise (gp_f g)) 0; vget (f_noise (gp_f g)) 1 + 3]).
  assert (Hv : length v = f_D (gp_f g)) by (rewrite HD; reflexivity).
  assert (N0 : 0 < vget (f_noise (gp_f g)) 0) by (apply (pr_noise _ Hp); lia). assert (N1 : 0 < vget (f_noise (gp_f g)) 1) by (apply (pr_noise _ Hp); lia).
  assert (Hle : forall a, (a < f_D (gp_f g))%nat -> vget (f_noise (gp_f g)) a <= vget v a) by (rewrite HD; intros [|[|a]] Ha; [cbn; lra|cbn; lra|lia]).
  assert (Hpos : forall a, (a < f_D (gp_f g))%nat -> 0 < vget v a) by (intros a Ha; pose proof (pr_noise _ Hp a Ha); specialize (Hle a Ha); lra).
  destruct (fit_exists g _ _ _ HR Hp) as [s [b [k [Hs Hf]]]].
  destruct (fit_exists (noisy g v) _ _ _ (noisy_ready g _ _ _ v HR Hv) (noisy_proper g v Hp Hpos)) as [s' [b' [k' [Hs' Hf']]]].
  exists f, g, v, s, b, k, s', b', k'. repeat (split; [assumption|]). split; [reflexivity|]. split; [cbn; lra|]. repeat (split; [assumption|]).
  split; [rewrite F; exact (th_id _ _ T)|]. split.
  { unfold mode_ready. rewrite F, M. destruct md; [exact I| |].
    - rewrite G. intros q Hq. unfold qdims. now rewrite (th_qdims _ _ T q Hq).
    - rewrite <- F. exact (K_obs_pdR g _ _ _ HR Hp). }
  split; [exact M|]. split; [exact HD|]. split; [now rewrite G|]. split; [apply far_requests|]. split.
  { apply (ex1_node g HR G); [|reflexivity]. intros ad Had. rewrite F, (three_group _ _ ad T) in Had. destruct (list_eq_dec Nat.eq_dec ad [0%nat]) as [->|]; congruence. }
  exists (Rmin (vget v 0) (vget v 1)). split; [apply Rmin_pos; apply Hpos; lia|]. rewrite HD. intros [|[|a]] Ha; [apply Rmin_l|apply Rmin_r|lia].
Qed.
