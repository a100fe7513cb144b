(** C63: the accuracy of structured kernel interpolation. *)

From Coq Require Import Reals List Arith ZArith Lia Lra.
From Coquelicot Require Import Coquelicot.
From Verif Require Import Base NDArray PSD Model_Util Proofs_Util Spec_Util Model_Linalg Spec_Linalg Proofs_Linalg Model_Interp Spec_Interp
  Proofs_Sparse Proofs_Interp Proofs_Interp2 Proofs_Bicubic Proofs_Assemble Proofs_Autogrid Properties_Interp Model_Kern Spec_Kern Proofs_Kern Proofs_KernPSD Model_FK Spec_FK Proofs_FK
  Properties_FK Model_Grid Spec_Grid Proofs_Grid Proofs_Grid2 Det Proofs_Det Model_Lik Spec_Lik Proofs_Lik Proofs_Lik2 Proofs_Lik3 Proofs_Lik4 Proofs_Lik5 Proofs_Lik6 Proofs_Lik7 Properties_Lik
  Properties_Lik2 Spec_GP Proofs_Gen Proofs_Gen2 Properties_Gen Model_GP Spec_Pred Proofs_Pred Proofs_Pred2 Proofs_Pred3 Proofs_Pred4 Proofs_Init Proofs_Pred6 Properties_Pred
  Spec_Opt Spec_Acc Proofs_Acc Proofs_Acc2 Properties_Acc Spec_Ski Proofs_Ski Proofs_Ski2 Proofs_Ski3.
Import ListNotations.
Open Scope R_scope.

(** Every kernel but the identity is smooth enough: its second derivative along
    any coordinate has the Lipschitz constant [smooth_const k] (a periodic
    kernel in one dimension only). *)
Theorem C63_smooth :
  forall k nd, positive k -> identity_based k = false -> (has_periodic k = true -> nd = 1%nat) -> smooth_kern k nd (smooth_const k).
Proof. exact smooth_all. Qed.
Print Assumptions C63_smooth.

(** The spacing of a grid with [k] cells asked for: the range [y - x] of the
    inputs and bounds, times [(k + 4) / (k (k + 3))]. *)
Theorem C63_spacing :
  forall g lo hi m ad p, gp_ready g lo hi m -> group (gp_f g) ad <> [] -> (p < length ad)%nat ->
  let P := mg_P (gp_data g) in
  let Xs := mg_Xs (gp_data g) in
  let lens := map (@length R) (mg_Ys (gp_data g)) in
  let d := nth p ad 0%nat in
  let k := INR (cells_for m lens d) in
  exists x y, (coord P Xs lens d x \/ arg_at lo d = Some x) /\ (coord P Xs lens d y \/ arg_at hi d = Some y) /\
    (forall z, coord P Xs lens d z -> x <= z <= y) /\ (forall z, arg_at lo d = Some z -> x <= z) /\ (forall z, arg_at hi d = Some z -> z <= y) /\
    1 <= k /\ spacing g ad p = (y - x) * (k + 4) / (k * (k + 3)) /\ 0 < spacing g ad p <= 5 / 4 * (y - x) / k.
Proof.
  intros g lo hi m ad p HR Had Hp P Xs lens d k.
  pose proof (gr_data _ _ _ _ HR) as DA. destruct (rd_grid g lo hi m HR ad Had) as [EG [l [HL [E1 [E2 [E3 [El [Hl Hax]]]]]]]].
  assert (HG : generate_grid Xs lo hi m ad = Ok (grid_at (gp_grids g) ad)).
  { pose proof (gr_grids _ _ _ _ HR) as HG. unfold generate_grids in HG. apply dict_get_in in EG. fold Xs in HG.
    apply map_result_inv in HG.
    assert (HI : forall l1 (l2 : dict ad_grid), Forall2 (fun ad p => (let! a := generate_grid Xs lo hi m ad in Ok (ad, a)) = Ok p) l1 l2 ->
       forall p, In p l2 -> generate_grid Xs lo hi m (fst p) = Ok (snd p)).
    { induction 1 as [|x p' l1 l2 Hp' _ IH]; intros q Hq; [destruct Hq|]. destruct Hq as [<-|Hq]; [|now apply IH].
      apply bind_ok in Hp'. destruct Hp' as [a [Ea Hp']]. apply Ok_inj in Hp'. subst p'. exact Ea. }
    exact (HI _ _ HG _ EG). }
  destruct (grid_spacing P Xs lens lo hi m ad _ p (da_in _ _ _ _ _ _ _ DA) (da_lens _ _ _ _ _ _ _ (rd_ok g lo hi m HR) DA) (da_pos _ _ _ _ _ _ _ DA)
    (da_args _ _ _ _ _ _ _ DA ad Had) HG Hp) as [x [y (X1 & Y1 & Hk & B1 & B2 & B3 & ES)]].
  exists x, y. repeat (split; [assumption|]).
  assert (K1 : 1 <= k) by (unfold k; change 1 with (INR 1); now apply le_INR).
  split; [exact K1|]. fold d k in ES. change (spacing g ad p = (y - x) * (k + 4) / (k * (k + 3))) in ES. split; [exact ES|].
  destruct (axis_desc g ad l p E1 Hax ltac:(lia)) as [_ [_ [_ [_ [[_ A] Es]]]]]. rewrite <- Es in A. split; [exact A|].
  rewrite ES in A |- *. assert (HK : 0 < k * (k + 3)) by nra.
  assert (Hyx : 0 < y - x).
  { assert (A' : 0 < (y - x) * (k + 4)) by (apply (Rmult_lt_reg_r (/ (k * (k + 3)))); [now apply Rinv_0_lt_compat|rewrite Rmult_0_l; exact A]). nra. }
  apply (Rmult_le_reg_r (k * (k + 3))); [exact HK|].
  replace ((y - x) * (k + 4) / (k * (k + 3)) * (k * (k + 3))) with ((y - x) * (k + 4)) by (field; lra).
  replace (5 / 4 * (y - x) / k * (k * (k + 3))) with ((y - x) * (5 / 4 * (k + 3))) by (field; lra).
  apply Rmult_le_compat_l; lra.
Qed.
Print Assumptions C63_spacing.

(** Between points that are inside one is inside; the observations are. *)
Theorem C63_inside :
  forall g lo hi m, gp_ready g lo hi m ->
  let lens := map (@length R) (mg_Ys (gp_data g)) in
  (forall i, (i < n_obs g)%nat -> inside g (obs (mg_P (gp_data g)) (mg_Xs (gp_data g)) lens i)) /\
  (forall x, (forall ad d, group (gp_f g) ad <> [] -> In d ad -> exists u v, arg_at lo d = Some u /\ arg_at hi d = Some v /\ u <= x d <= v) -> inside g x) /\
  (forall x, (forall ad d, group (gp_f g) ad <> [] -> In d ad -> exists u v, inside g u /\ inside g v /\ u d <= x d <= v d) -> inside g x).
Proof.
  intros g lo hi m HR lens. split; [intros i Hi; exact (obs_inside g lo hi m HR i Hi)|]. split.
  - intros x Hx ad p Had Hp. destruct (rd_grid g lo hi m HR ad Had) as [_ [l [HL [E1 [E2 [E3 [El [Hl Hax]]]]]]]].
    destruct (axis_desc g ad l p E1 Hax ltac:(lia)) as [_ [_ [-> [-> _]]]].
    destruct (gg_enc _ _ _ _ _ _ _ _ _ _ HL) as [_ HE]. specialize (HE p Hp). cbv zeta in HE. destruct HE as [_ [Ec [_ [_ [H1 H2]]]]].
    destruct (Hx ad (nth p ad 0%nat) Had) as [u [v [Eu [Ev B]]]]; [now apply nth_In|]. specialize (H1 u Eu). specialize (H2 v Ev). rewrite Ec.
    match goal with |- context [(?c + 4 - 2)%nat] => replace (c + 4 - 2)%nat with (c + 2)%nat by lia end. lra.
  - intros x Hx ad p Had Hp. destruct (Hx ad (nth p ad 0%nat) Had) as [u [v [Iu [Iv B]]]]; [now apply nth_In|].
    specialize (Iu ad p Had Hp). specialize (Iv ad p Had Hp). lra.
Qed.
Print Assumptions C63_inside.

(** The covariance of two points inside the grids is off by at most
    [sum_q |B_q(a, b)| 2 L_q sum_p h_qp^3]. *)
Theorem C63_covariance :
  forall g lo hi m w a x b z, gp_ready g lo hi m -> weights g w -> no_identity (gp_f g) -> proper (gp_f g) -> inside g x -> inside g z ->
  Rabs (ski_cov g w a x b z - lmc_cov (gp_f g) a x b z) <= ski_error g (fun q => smooth_const (kern_of (gp_f g) q)) a b.
Proof.
  intros g lo hi m w a x b z HR Hw Hid Hp Hx Hz. apply (ski_cov_err g lo hi m HR); auto.
  intros q Hq. apply smooth_all; [apply (gr_kern _ _ _ _ HR q Hq)|now apply Hid|now apply Hp].
Qed.
Print Assumptions C63_covariance.

(** So are the entries of the covariance of the observations. *)
Theorem C63_fit :
  forall g lo hi m, gp_ready g lo hi m -> no_identity (gp_f g) -> proper (gp_f g) -> (forall ad, group (gp_f g) ad <> [] -> ~ surplus (gp_f g) ad) ->
  let lens := map (@length R) (mg_Ys (gp_data g)) in
  forall i j, (i < n_obs g)%nat -> (j < n_obs g)%nat ->
  Rabs (K_fit g i j - K_obs (gp_f g) (mg_P (gp_data g)) (mg_Xs (gp_data g)) lens i j)
  <= ski_error g (fun q => smooth_const (kern_of (gp_f g) q)) (owner lens i) (owner lens j).
Proof.
  intros g lo hi m HR Hid Hp HS lens i j Hi Hj. apply (fit_err g lo hi m); auto.
  intros q Hq. apply smooth_all; [apply (gr_kern _ _ _ _ HR q Hq)|now apply Hid|now apply Hp].
Qed.
Print Assumptions C63_fit.

Lemma fit_solution g lo hi m y : gp_ready g lo hi m -> proper (gp_f g) ->
  exists a, forall i, (i < n_obs g)%nat -> Rsum (n_obs g) (fun j => K_fit g i j * a j) = y i.
Proof.
  intros HR Hp. assert (Hsym : sym (n_obs g) (K_fit g)) by exact (K_op_sym _ _ _ _ _ _ _ _ (rd_ok g lo hi m HR) (rd_P g lo hi m HR) (kr_interp g lo hi m HR)).
  destruct (inv_ex _ _ (proj1 (pos_definite_pivots _ _ Hsym) (K_fit_pd g lo hi m HR Hp))) as [X HX].
  exists (fun j => Rsum (n_obs g) (fun l => X j l * y l)). intros i Hi. now apply (inv_col (n_obs g) (K_fit g) X HX).
Qed.

(** Against the exact Gaussian process: with solves leaving residuals of at
    most [eps], noise of at least [s] and interpolation errors of at most [E],
    the mean at a point inside the grids is off by at most
    [(|c| + sqrt n E) eps / s + sqrt n E |y| / s + n E |c| |y| / s^2], the
    variance computed on the fly by [|c| eps / s + n E |c|^2 / s^2] (in
    normalised units), [c] being the covariances of the point with the [n]
    observations [y]. *)
Theorem C63_predictions :
  forall g lo hi m solve bits n_it k Zs zl s eps E, gp_ready g lo hi m -> fitted solve bits n_it g k ->
  solves_within eps (n_obs g) (K_fit g) (solve (al_K (gpk_lik k))) -> no_identity (gp_f g) -> mode_ready g ->
  proper (gp_f g) -> (forall ad, group (gp_f g) ad <> [] -> ~ surplus (gp_f g) ad) ->
  0 < s -> (forall a, (a < f_D (gp_f g))%nat -> s <= vget (f_noise (gp_f g)) a) ->
  (forall a b, (a < f_D (gp_f g))%nat -> (b < f_D (gp_f g))%nat -> ski_error g (fun q => smooth_const (kern_of (gp_f g) q)) a b <= E) ->
  requests (mg_P (gp_data g)) Zs zl -> length zl = f_D (gp_f g) -> (gp_mode g = OnTheFly -> (0 < nsum zl)%nat) ->
  let f := gp_f g in
  let P := mg_P (gp_data g) in
  let lens := map (@length R) (mg_Ys (gp_data g)) in
  let n := nsum lens in
  let x := obs P (mg_Xs (gp_data g)) lens in
  let K := K_obs f P (mg_Xs (gp_data g)) lens in
  exists mu var, gp_predict solve g k Zs = Ok (mu, var) /\
    forall d i, (d < f_D f)%nat -> (i < nth d zl 0)%nat ->
      let pt := point P Zs d i in
      let c := fun j => lmc_cov f d pt (owner lens j) (x j) in
      (inside g pt -> forall alpha, (forall j, (j < n)%nat -> Rsum n (fun l => K j l * alpha l) = y_obs g j) ->
         Rabs (vget (nth d mu []) i - unnorm_mean g d (Rsum n (fun j => c j * alpha j)))
         <= Rabs (out_scale g d) * ((norm2 n c + sqrt (INR n) * E) * (eps / s) + sqrt (INR n) * E * (norm2 n (y_obs g) / s)
                                    + norm2 n c * (INR n * E * norm2 n (y_obs g) / s ^ 2))) /\
      (gp_mode g = OnTheFly -> forall z, (forall j, (j < n)%nat -> Rsum n (fun l => K j l * z l) = c j) ->
         Rabs (vget (nth d var []) i - unnorm_var g d (Rmax 0 (lmc_cov f d pt d pt + vget (f_noise f) d - Rsum n (fun j => c j * z j))))
         <= out_scale g d ^ 2 * (norm2 n c * (eps / s) + norm2 n c * (INR n * E * norm2 n c / s ^ 2))).
Proof.
  intros g lo hi m solve bits n_it k Zs zl s eps E HR Hf Hs Hid Hm Hp HS Hs0 Hn HE HZ Hz Ht f P lens n x K.
  destruct (C61_predictions g lo hi m solve bits n_it k Zs zl s eps HR Hf Hs Hid Hm Hp Hs0 Hn HZ Hz Ht) as [w [mu [var [Hw [EP H]]]]].
  exists mu, var. split; [exact EP|]. intros d i Hd Hi pt c. specialize (H d i Hd Hi). cbv zeta in H. destruct H as [H1 H2].
  pose proof (rd_D g lo hi m HR : length lens = f_D f) as HDl.
  assert (Ow : forall j, (j < n)%nat -> (owner lens j < f_D f)%nat) by (intros j Hj; rewrite <- HDl; now apply owner_lt).
  assert (E0 : 0 <= E).
  { pose proof (rd_n g lo hi m HR) as Hn0. pose proof (Ow 0%nat Hn0) as Hd0.
    eapply Rle_trans; [|exact (HE (owner lens 0) (owner lens 0) Hd0 Hd0)].
    eapply Rle_trans; [apply Rabs_pos|]. exact (C63_fit g lo hi m HR Hid Hp HS 0%nat 0%nat Hn0 Hn0). }
  assert (HKD : forall i j, (i < n)%nat -> (j < n)%nat -> Rabs (K_fit g i j - K i j) <= E).
  { intros i' j' Hi' Hj'. eapply Rle_trans; [apply (C63_fit g lo hi m HR Hid Hp HS i' j' Hi' Hj')|]. apply HE; now apply Ow. }
  pose proof (K_fit_floor g lo hi m s HR Hp Hn) as F1. pose proof (K_obs_floor g lo hi m s HR Hp Hn) as F2.
  assert (Res : 0 <= eps).
  { destruct (Hs (repeat 0 (n_obs g)) (repeat_length _ _)) as [x0 [_ [_ G]]]. eapply Rle_trans; [apply sqrt_pos|exact G]. }
  assert (Hes : 0 <= eps / s) by (apply Rmult_le_pos; [exact Res|left; now apply Rinv_0_lt_compat]).
  split.
  - intros Hin alpha' Ha'. destruct (fit_solution g lo hi m (y_obs g) HR Hp) as [alpha Ha]. specialize (H1 alpha Ha).
    set (c0 := fun j => ski_cov g w d pt (owner lens j) (x j) + ski_extra g w d pt (owner lens j) (x j)).
    change (fun j => ski_cov g w d (point (mg_P (gp_data g)) Zs d i) (owner (map (@length R) (mg_Ys (gp_data g))) j) (obs (mg_P (gp_data g)) (mg_Xs (gp_data g)) (map (@length R) (mg_Ys (gp_data g))) j) + ski_extra g w d (point (mg_P (gp_data g)) Zs d i) (owner (map (@length R) (mg_Ys (gp_data g))) j) (obs (mg_P (gp_data g)) (mg_Xs (gp_data g)) (map (@length R) (mg_Ys (gp_data g))) j)) with c0 in H1.
    change (Rabs (vget (nth d mu []) i - unnorm_mean g d (Rsum n (fun j => c0 j * alpha j))) <= Rabs (out_scale g d) * (norm2 n c0 * (eps / s))) in H1.
    assert (Dc : forall j, (j < n)%nat -> Rabs (c0 j - c j) <= E).
    { intros j Hj. unfold c0, c. rewrite (no_extra g lo hi m HR) by exact HS. rewrite Rplus_0_r.
      eapply Rle_trans; [apply (C63_covariance g lo hi m w d pt (owner lens j) (x j) HR Hw Hid Hp Hin (obs_inside g lo hi m HR j Hj))|].
      apply HE; [exact Hd|now apply Ow]. }
    assert (Nd : norm2 n (fun j => c0 j - c j) <= sqrt (INR n) * E) by (rewrite <- norm2_const by exact E0; now apply norm2_le).
    assert (Nc : norm2 n c0 <= norm2 n c + sqrt (INR n) * E).
    { rewrite (norm2_ext n c0 (fun j => c j + (c0 j - c j))) by (intros; ring). eapply Rle_trans; [apply norm2_triangle|]. lra. }
    pose proof (perturbed n (K_fit g) K s E (y_obs g) alpha alpha' Hs0 F1 F2 E0 HKD Ha Ha') as Pa.
    pose proof (solution_size n (K_fit g) s Hs0 F1 (y_obs g) alpha Ha) as Sa.
    assert (T : Rabs (Rsum n (fun j => c0 j * alpha j) - Rsum n (fun j => c j * alpha' j))
      <= sqrt (INR n) * E * (norm2 n (y_obs g) / s) + norm2 n c * (INR n * E * norm2 n (y_obs g) / s ^ 2)).
    { replace (Rsum n (fun j => c0 j * alpha j) - Rsum n (fun j => c j * alpha' j))
        with (Rsum n (fun j => (c0 j - c j) * alpha j) + Rsum n (fun j => c j * (alpha j - alpha' j))).
      2:{ rewrite <- Rsum_minus, <- Rsum_plus. apply Rsum_ext. intros. ring. }
      eapply Rle_trans; [apply Rabs_triang|]. apply Rplus_le_compat.
      - eapply Rle_trans; [apply cauchy|]. apply Rmult_le_compat; auto using norm2_nonneg.
      - eapply Rle_trans; [apply cauchy|]. apply Rmult_le_compat_l; [apply norm2_nonneg|exact Pa]. }
    eapply Rle_trans; [apply (Rabs_chain _ (unnorm_mean g d (Rsum n (fun j => c0 j * alpha j))))|].
    rewrite Rplus_assoc, Rmult_plus_distr_l. apply Rplus_le_compat.
    + eapply Rle_trans; [exact H1|]. apply Rmult_le_compat_l; [apply Rabs_pos|]. apply Rmult_le_compat_r; assumption.
    + match goal with |- Rabs (unnorm_mean g d ?u - unnorm_mean g d ?v) <= _ => replace (unnorm_mean g d u - unnorm_mean g d v) with (out_scale g d * (u - v)) end.
      2:{ unfold unnorm_mean, out_scale. destruct (mg_norm (gp_data g)); ring. }
      rewrite Rabs_mult. apply Rmult_le_compat_l; [apply Rabs_pos|exact T].
  - intros EM z' Hz'. destruct (fit_solution g lo hi m c HR Hp) as [z Hzf]. specialize (H2 EM z Hzf).
    change (Rabs (vget (nth d var []) i - unnorm_var g d (Rmax 0 (lmc_cov f d pt d pt + vget (f_noise f) d - Rsum n (fun j => c j * z j))))
      <= out_scale g d ^ 2 * (norm2 n c * (eps / s))) in H2.
    pose proof (perturbed n (K_fit g) K s E c z z' Hs0 F1 F2 E0 HKD Hzf Hz') as Pz.
    eapply Rle_trans; [apply (Rabs_chain _ (unnorm_var g d (Rmax 0 (lmc_cov f d pt d pt + vget (f_noise f) d - Rsum n (fun j => c j * z j)))))|].
    rewrite Rmult_plus_distr_l. apply Rplus_le_compat; [exact H2|].
    match goal with |- Rabs (unnorm_var g d ?u - unnorm_var g d ?v) <= _ => replace (unnorm_var g d u - unnorm_var g d v) with (out_scale g d ^ 2 * (u - v)) end.
    2:{ unfold unnorm_var, out_scale. destruct (mg_norm (gp_data g)); ring. }
    rewrite Rabs_mult, (Rabs_right (out_scale g d ^ 2)) by (apply Rle_ge, pow2_ge_0). apply Rmult_le_compat_l; [apply pow2_ge_0|].
    set (pv := lmc_cov f d pt d pt + vget (f_noise f) d).
    assert (L : forall a b, Rabs (Rmax 0 a - Rmax 0 b) <= Rabs (a - b)).
    { intros a b. unfold Rmax. destruct (Rle_dec 0 a), (Rle_dec 0 b); unfold Rabs; repeat destruct (Rcase_abs _); lra. }
    eapply Rle_trans; [apply L|].
    match goal with |- Rabs (pv - ?u - (pv - ?v)) <= _ => replace (pv - u - (pv - v)) with (v - u) by ring end.
    rewrite Rabs_minus_sym, <- Rsum_minus. rewrite (Rsum_ext n _ (fun j => c j * (z j - z' j))) by (intros; ring).
    eapply Rle_trans; [apply cauchy|]. apply Rmult_le_compat_l; [apply norm2_nonneg|exact Pz].
Qed.
Print Assumptions C63_predictions.

(** *** Example *)

(** Two outputs observed at 2 and 8 on a grid with cells of width 6; kernels
    RBF and scaled Matern32. The point 5 is inside. *)
Example C63_ex : forall md, exists g solve bits k s eps E x,
  gp_ready g (GNum 0) (GNum 10) (GNum 2%nat) /\ gp_mode g = md /\ mode_ready g /\ proper (gp_f g) /\ no_identity (gp_f g) /\
  (forall ad, group (gp_f g) ad <> [] -> ~ surplus (gp_f g) ad) /\
  0 < s /\ (forall a, (a < f_D (gp_f g))%nat -> s <= vget (f_noise (gp_f g)) a) /\
  (forall a b, (a < f_D (gp_f g))%nat -> (b < f_D (gp_f g))%nat -> ski_error g (fun q => smooth_const (kern_of (gp_f g) q)) a b <= E) /\
  fitted solve bits 1 g k /\ solves_within eps (n_obs g) (K_fit g) (solve (al_K (gpk_lik k))) /\
  requests (mg_P (gp_data g)) ex1_Zs [3; 0]%nat /\ length [3; 0]%nat = f_D (gp_f g) /\ (0 < nsum [3; 0])%nat /\
  x = point (mg_P (gp_data g)) ex1_Zs 0 1 /\ x 0%nat = 5 /\ inside g x /\ weights g (wt g) /\
  group (gp_f g) [0%nat] <> [] /\ spacing g [0%nat] 0 = 6 /\ kern_of (gp_f g) 1 = Scaled (Matern32 2) 3.
Proof.
  intros md. destruct pos_rbf as [H1 [H2 _]].
  assert (H3 : positive (Scaled (Matern32 2) 3)) by (intros v [<-|[<-|[]]]; lra).
  destruct (ex1_model (RBF 1) (Scaled (Matern32 2) 3) md H1 H3 I I) as
    [f [g [solve [bits [k (E & Eg & HR & Em & Hs & Hf & Hp & EQ & ED & K1 & K2 & EP & HQ & HS & Ed)]]]]].
  assert (Hq : forall q, (q < f_Q (gp_f g))%nat -> qdims (gp_f g) q = seq 0 (mg_P (gp_data g))).
  { intros q Hq. rewrite EQ in Hq. rewrite EP. now apply HQ. }
  assert (HA : forall ad, group (gp_f g) ad <> [] -> ad = [0%nat]).
  { intros ad Had. unfold group in Had. destruct (filter _ _) as [|q l] eqn:EF; [congruence|].
    assert (Hq' : In q (q :: l)) by now left. rewrite <- EF in Hq'. apply filter_In in Hq'. destruct Hq' as [Hq' B]. apply in_seq in Hq'.
    rewrite EQ in Hq'. specialize (HQ q ltac:(lia)). unfold qdims in HQ. destruct (dims_of (gp_f g) q) as [a|]; [|discriminate B].
    destruct (list_eq_dec Nat.eq_dec a ad); [congruence|discriminate B]. }
  assert (HG : group (gp_f g) [0%nat] <> []).
  { rewrite <- (HQ 0%nat ltac:(lia)). apply (group_qdims (gp_f g) _ (rd_ok g _ _ _ HR) (rd_P g _ _ _ HR)). rewrite EQ. lia. }
  set (se := ski_error g (fun q => smooth_const (kern_of (gp_f g) q))).
  exists g, solve, bits, k, (Rmin (vget (f_noise (gp_f g)) 0) (vget (f_noise (gp_f g)) 1)), 0,
    (Rmax (Rmax (se 0 0) (se 0 1)) (Rmax (se 1 0) (se 1 1)))%nat, (point (mg_P (gp_data g)) ex1_Zs 0 1).
  split; [exact HR|]. split; [exact Em|].
  split; [unfold mode_ready; destruct (gp_mode g); [exact I|exact Hq|exact (K_obs_pdR g _ _ _ HR Hp)]|]. split; [exact Hp|].
  split; [intros [|[|q]] Hq'; [now rewrite K1|now rewrite K2|lia]|]. split; [exact HS|].
  split. { apply Rmin_glb_lt; apply Hp; rewrite ED; lia. }
  split. { intros [|[|a]] Ha; [apply Rmin_l|apply Rmin_r|lia]. }
  split.
  { intros [|[|a]] [|[|b]] Ha Hb; try lia; fold se.
    - eapply Rle_trans; [apply Rmax_l|apply Rmax_l].
    - eapply Rle_trans; [apply Rmax_r|apply Rmax_l].
    - eapply Rle_trans; [|apply Rmax_r]. apply Rmax_l.
    - eapply Rle_trans; [|apply Rmax_r]. apply Rmax_r. }
  split; [exact Hf|]. split; [exact (exact_within _ _ _ (proj1 (fit_solver g _ _ _ HR _ _ _ _ Hf Hs)))|].
  split; [rewrite EP; apply ex1_requests|]. split; [now rewrite ED|]. split; [cbn; lia|]. split; [reflexivity|].
  assert (E5 : point (mg_P (gp_data g)) ex1_Zs 0 1 0 = 5) by (rewrite EP; reflexivity).
  split; [exact E5|]. split.
  { apply (proj1 (proj2 (C63_inside g _ _ _ HR))). intros ad d Had Hd. rewrite (HA ad Had) in Hd. destruct Hd as [<-|[]].
    exists 0, 10. rewrite E5. split; [reflexivity|]. split; [reflexivity|]. lra. }
  split; [exact (wt_weights g _ _ _ HR)|]. split; [exact HG|]. split; [|exact K2].
  destruct (C63_spacing g _ _ _ [0%nat] 0 HR HG ltac:(cbn; lia)) as [x [y (X1 & Y1 & B1 & B2 & B3 & _ & ES & _)]]. rewrite ES.
  change (nth 0 [0%nat] 0%nat) with 0%nat in *. specialize (B2 0 eq_refl). specialize (B3 10 eq_refl).
  assert (HC : forall z, coord (mg_P (gp_data g)) (mg_Xs (gp_data g)) (map (@length R) (mg_Ys (gp_data g))) 0 z -> 2 <= z <= 8).
  { intros z [i [Hi ->]]. pose proof (ex1_multi _ Ed) as M. rewrite M in *. cbn in Hi.
    destruct i as [|[|[|[|i]]]]; [| | | |lia]; cbn; lra. }
  destruct X1 as [X1|X1]; [apply HC in X1; lra|]. injection X1 as <-. destruct Y1 as [Y1|Y1]; [apply HC in Y1; lra|]. injection Y1 as <-.
  unfold cells_for. cbn [arg_at]. cbn [INR]. field.
Qed.
