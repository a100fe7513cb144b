(** C95: what the gradients converge to with fine grids and accurate solves. *)

From Coq Require Import Reals List Arith ZArith Lia Lra.
From Coquelicot Require Import Coquelicot.
From Verif Require Import Base NDArray PSD Model_Util Proofs_Util Spec_Util Model_Linalg Spec_Linalg Proofs_Linalg Model_Interp Spec_Interp
  Proofs_Sparse Proofs_Interp Proofs_Interp2 Proofs_Bicubic Proofs_Assemble Proofs_Autogrid Properties_Interp Model_Kern Spec_Kern Proofs_Kern Proofs_KernPSD Model_FK Spec_FK Proofs_FK
  Properties_FK Model_Grid Spec_Grid Proofs_Grid Proofs_Grid2 Det Proofs_Det Model_Lik Spec_Lik Proofs_Lik Proofs_Lik2 Proofs_Lik3 Proofs_Lik4 Proofs_Lik5 Proofs_Lik6 Proofs_Lik7 Properties_Lik
  Properties_Lik2 Spec_GP Proofs_Gen Proofs_Gen2 Properties_Gen Model_GP Spec_Pred Proofs_Pred Proofs_Pred2 Proofs_Pred3 Proofs_Pred4 Proofs_Init Proofs_Pred6 Properties_Pred
  Spec_Opt Spec_Acc Proofs_Acc Proofs_Acc2 Properties_Acc Spec_Ski Proofs_Ski Proofs_Ski2 Proofs_Ski3 Properties_Ski Proofs_State5 Properties_Order Properties_Alike Spec_Limit Properties_Limit
  Proofs_GradSm Proofs_GradLim.
Import ListNotations.
Open Scope R_scope.

(** The derivatives of the covariance the model works with, in any parameter,
    are within a constant over the third power of the number of cells of those
    of the exact covariance. *)
Theorem C95_derivative :
  forall f data lo hi, no_identity f -> proper f -> kernels_ok f -> exists C, 0 <= C /\
  forall g m M, gp_ready g lo hi m -> gp_f g = f -> gp_data g = data -> (0 < M)%nat -> at_least f M m data ->
  forall p i j, has_par f p -> (i < n_obs g)%nat -> (j < n_obs g)%nat -> exists F F0,
    is_derive (fun v => K_fit (with_params g (with_par f p v)) i j) (par_value f p) F /\
    is_derive (fun v => K_obs (with_par f p v) (mg_P data) (mg_Xs data) (map (@length R) (mg_Ys data)) i j) (par_value f p) F0 /\
    Rabs (F - F0) <= C / INR M ^ 3.
Proof.
  intros f data lo hi Hid Hp Hk.
  destruct (sup_par f (fun p C => forall g m M, gp_ready g lo hi m -> gp_f g = f -> gp_data g = data -> (0 < M)%nat -> at_least f M m data ->
    forall i j, (i < n_obs g)%nat -> (j < n_obs g)%nat ->
      Rabs (F_fit g p i j - F_obs f (mg_P data) (mg_Xs data) (map (@length R) (mg_Ys data)) p i j) <= C * / INR M ^ 3)) as [C [C0 HC]].
  - intros p C C' HC H g m M HR Ef Ed HM HA i j Hi Hj. eapply Rle_trans; [exact (H g m M HR Ef Ed HM HA i j Hi Hj)|].
    apply Rmult_le_compat_r; [|exact HC]. left. apply Rinv_0_lt_compat, pow_lt, lt_0_INR, HM.
  - intros p Hpar. now apply deriv_close.
  - exists C. split; [exact C0|]. intros g m M HR Ef Ed HM HA p i j Hpar Hi Hj.
    exists (F_fit g p i j), (F_obs f (mg_P data) (mg_Xs data) (map (@length R) (mg_Ys data)) p i j).
    specialize (HC p Hpar g m M HR Ef Ed HM HA i j Hi Hj). subst f data.
    split; [now apply (fit_derive g lo hi m HR)|]. split; [|exact HC].
    apply (obs_derive (gp_f g)); auto; [exact (rd_ok g lo hi m HR)|exact (rd_D g lo hi m HR)].
Qed.
Print Assumptions C95_derivative.

(** parameters_changed succeeds whatever the draws, and the mean over the draws
    of each gradient is within a constant times [1 / M^3 + eps] of the gradient of
    the exact log likelihood, for [M] cells and residuals of at most [eps]. One
    constant serves all parameters, grids, solvers and numbers of probes. *)
Theorem C95_rate :
  forall f data lo hi, no_identity f -> proper f -> kernels_ok f -> (forall ad, group f ad <> [] -> ~ surplus f ad) ->
  let P := mg_P data in
  let lens := map (@length R) (mg_Ys data) in
  let n := nsum lens in
  exists C, 0 <= C /\ forall g m M solve k old eps, gp_ready g lo hi m -> gp_f g = f -> gp_data g = data -> (0 < M)%nat -> at_least f M m data ->
  0 <= eps <= 1 -> (forall Ko, represents Ko (mk_den n n (K_fit g)) -> solves_within eps n (K_fit g) (solve Ko)) -> (0 < k)%nat ->
  length (s_vecs old) = f_Q f -> length (s_diags old) = f_Q f -> length (s_kernels old) = f_Q f ->
  exists grads : list (list bool) -> grad_slots,
    (forall bits, In bits (draws k n) -> exists kk, parameters_changed solve bits k g old = Ok (kk, grads bits)) /\
    forall p, has_par f p -> exists G,
      is_gradient n (fun v => K_obs (with_par f p v) P (mg_Xs data) lens) (y_obs g) (par_value f p) G /\
      Rabs (mean (draws k n) (fun bits => slot (grads bits) p) - G) <= C * (1 / INR M ^ 3 + eps).
Proof.
  intros f data lo hi Hid Hp Hk HS P lens n.
  destruct (least_noise (f_D f) (fun a => vget (f_noise f) a)) as [s [Hs0 Hn]]; [apply Hp|].
  destruct (C92_error f data lo hi) as [C1 [C10 HC1]].
  set (new := fun solve bits k g old => match parameters_changed solve bits k g old with Ok (_, new) => new | Err _ => old end).
  destruct (sup_par f (fun p C => forall g m M solve k old eps, gp_ready g lo hi m -> gp_f g = f -> gp_data g = data -> (0 < M)%nat -> at_least f M m data ->
    0 <= eps <= 1 -> (forall Ko, represents Ko (mk_den n n (K_fit g)) -> solves_within eps n (K_fit g) (solve Ko)) -> (0 < k)%nat ->
    length (s_vecs old) = f_Q f -> length (s_diags old) = f_Q f -> length (s_kernels old) = f_Q f ->
    exists G, is_gradient n (fun v => K_obs (with_par f p v) P (mg_Xs data) lens) (y_obs g) (par_value f p) G /\
      Rabs (mean (draws k n) (fun bits => slot (new solve bits k g old) p) - G) <= C * (1 / INR M ^ 3 + eps))) as [C [C0 HC]].
  - intros p C C' HC H g m M solve k old eps HR Ef Ed HM HA He Hw Hk0 O1 O2 O3.
    destruct (H g m M solve k old eps HR Ef Ed HM HA He Hw Hk0 O1 O2 O3) as [G [HG HB]]. exists G. split; [exact HG|]. eapply Rle_trans; [exact HB|].
    apply Rmult_le_compat_r; [|exact HC]. apply Rplus_le_le_0_compat; [|apply He]. left. unfold Rdiv. rewrite Rmult_1_l. apply Rinv_0_lt_compat, pow_lt, lt_0_INR, HM.
  - intros p Hpar. destruct (deriv_close f data lo hi p Hid Hp Hk Hpar) as [C2 [C20 HC2]].
    set (N := INR n). assert (N0 : 0 <= N) by apply pos_INR. set (Y := norm2 n (vget (concat (mg_Ys data)))). assert (Y0 : 0 <= Y) by apply norm2_nonneg.
    set (MF := Rsum n (fun i => Rsum n (fun j => Rabs (F_obs f P (mg_Xs data) lens p i j)))).
    assert (MF0 : 0 <= MF) by (apply Rsum_nonneg; intros; apply Rsum_nonneg; intros; apply Rabs_pos).
    set (i1 := / s). assert (i10 : 0 < i1) by now apply Rinv_0_lt_compat. assert (sN0 : 0 <= sqrt N) by apply sqrt_pos.
    set (T1 := 1 / 2 * (N * (N * (Y * i1 * C2 * (Y * i1) + MF * (2 * (Y * i1) * (N * C1 * Y * (i1 * i1))) + (i1 * C2 + MF * (N * C1 * (i1 * i1))))))).
    set (T2 := N * (MF + C2) * i1 * (Y * i1 + i1 / 2 + sqrt N / 2)).
    assert (T10 : 0 <= T1).
    { unfold T1. assert (0 <= Y * i1) by nn. assert (0 <= i1 * i1) by nn. assert (0 <= N * C1) by nn. apply Rmult_le_pos; [lra|]. apply Rmult_le_pos; [lra|]. apply Rmult_le_pos; [lra|].
      assert (0 <= Y * i1 * C2 * (Y * i1)) by nn. assert (0 <= MF * (2 * (Y * i1) * (N * C1 * Y * (i1 * i1)))) by nn.
      assert (0 <= i1 * C2) by nn. assert (0 <= MF * (N * C1 * (i1 * i1))) by nn. lra. }
    assert (T20 : 0 <= T2).
    { unfold T2. assert (0 <= Y * i1) by nn. apply Rmult_le_pos; [apply Rmult_le_pos; [apply Rmult_le_pos; lra|lra]|lra]. }
    exists (T1 + T2). split; [lra|]. intros g m M solve k old eps HR Ef Ed HM HA He Hw Hk0 O1 O2 O3. subst f data.
    set (f := gp_f g) in *. set (Xs := mg_Xs (gp_data g)) in *.
    set (t := / INR M ^ 3). assert (M1 : 1 <= INR M ^ 3) by (apply pow_R1_Rle; change 1 with (INR 1); now apply le_INR).
    assert (t0 : 0 < t <= 1) by (split; [apply Rinv_0_lt_compat; lra|unfold t; rewrite <- Rinv_1; apply Rinv_le_contravar; lra]).
    pose proof (rd_D g lo hi m HR : length lens = f_D f) as HDl.
    assert (Ow : forall j, (j < n)%nat -> (owner lens j < f_D f)%nat) by (intros j Hj; rewrite <- HDl; now apply owner_lt).
    assert (HKD : forall i j, (i < n)%nat -> (j < n)%nat -> Rabs (K_fit g i j - K_obs f P Xs lens i j) <= C1 * t).
    { intros i j Hi Hj. eapply Rle_trans; [apply (C63_fit g lo hi m HR Hid Hp HS i j Hi Hj)|]. apply (HC1 g m M HR eq_refl eq_refl HM HA); now apply Ow. }
    pose proof (HC2 g m M HR eq_refl eq_refl HM HA) as HF. fold t in HF.
    assert (HMF : forall i j, (i < n)%nat -> (j < n)%nat -> Rabs (F_obs f P Xs lens p i j) <= MF).
    { intros i j Hi Hj. apply (term2 n n (fun i j => Rabs (F_obs f P Xs lens p i j))); auto. intros. apply Rabs_pos. }
    pose proof (K_fit_floor g lo hi m s HR Hp Hn) as F1. pose proof (K_obs_floor g lo hi m s HR Hp Hn) as F2.
    pose proof (K_obs_pdR g lo hi m HR Hp) as Hpd'. pose proof (K_fit_pd g lo hi m HR Hp) as Hpd.
    assert (Sym : sym n (K_fit g)) by exact (K_op_sym _ _ _ _ _ _ _ _ (rd_ok g lo hi m HR) (rd_P g lo hi m HR) (kr_interp g lo hi m HR)).
    assert (Sym' : sym n (K_obs f P Xs lens)) by apply K_obs_sym.
    destruct (inv_ex _ _ (proj1 (pos_definite_pivots _ _ Sym) Hpd)) as [X HX].
    destruct (inv_ex _ _ (proj1 (pos_definite_pivots _ _ Sym') Hpd')) as [X' HX'].
    destruct (solves_ex n _ (y_obs g) (proj1 (pos_definite_pivots _ _ Sym) Hpd)) as [a Ha].
    destruct (solves_ex n _ (y_obs g) (proj1 (pos_definite_pivots _ _ Sym') Hpd')) as [a' Ha'].
    eexists. split.
    + assert (EV : with_par f p (par_value f p) = f) by (apply with_par_value; [exact (rd_ok g lo hi m HR)|exact Hk|exact Hpar]).
      apply (gradient_gen n (fun v => K_obs (with_par f p v) P Xs lens) (par_value f p) (F_obs f P Xs lens p) X' a').
      * intros v. apply K_obs_sym.
      * rewrite EV. exact (proj1 (pos_definite_pivots _ _ Sym') Hpd').
      * apply obs_derive; auto. exact (rd_ok g lo hi m HR).
      * now apply obs_derive_sym.
      * rewrite EV. exact HX'.
      * rewrite EV. exact Ha'.
    + set (G' := 1 / 2 * _). set (G := 1 / 2 * (Rsum n (fun i => Rsum n (fun j => a i * F_fit g p i j * a j)) - Rsum n (fun i => Rsum n (fun j => X i j * F_fit g p i j)))).
      assert (D1 : Rabs (G - G') <= T1 * t).
      { assert (0 <= C1 * t) by (apply Rmult_le_pos; lra). eapply Rle_trans; [apply (grad_perturbed n (K_fit g) (K_obs f P Xs lens) X X' (F_fit g p) (F_obs f P Xs lens p) (y_obs g) a a' s (C1 * t) (C2 * t) MF Hs0 F1 F2); auto|].
        right. unfold T1. fold N. change (norm2 n (y_obs g)) with Y. unfold i1. field. lra. }
      assert (D2 : Rabs (mean (draws k n) (fun bits => slot (new solve bits k g old) p) - G) <= T2 * eps).
      { unfold G. rewrite <- (est_true_mean n k X (F_fit g p) a Hk0).
        apply mean_close; [intros EN; pose proof (draws_length k n) as L; rewrite EN in L; cbn [length] in L; pose proof (Nat.pow_nonzero 2 (k * n) ltac:(lia)); lia|].
        intros bits Hb. destruct (fit_gen g lo hi m HR solve k old bits (fun Ko RK => within_returns _ _ _ _ (Hw Ko RK)) Hk0 Hb O1 O2 O3)
          as [Ko [sd [kk [nw (RK & Es & Hz & Ep & _ & _ & Hsl)]]]].
        assert (EN : new solve bits k g old = nw) by (unfold new; now rewrite Ep). rewrite EN, (Hsl p Hpar).
        assert (OB : op_bound n (F_fit g p) (N * (MF + C2))).
        { split; [apply Rmult_le_pos; lra|]. intros v. apply entries_op; [lra|]. intros i j Hi Hj.
          replace (F_fit g p i j) with (F_obs f P Xs lens p i j + (F_fit g p i j - F_obs f P Xs lens p i j)) by ring.
          eapply Rle_trans; [apply Rabs_triang|]. apply Rplus_le_compat; [now apply HMF|]. eapply Rle_trans; [now apply HF|]. nra. }
        eapply Rle_trans; [exact (est_err n k (K_fit g) X (F_fit g p) Ko solve (concat (mg_Ys (gp_data g))) a s eps _ Hk0 Hs0 F1 HX (Hw Ko RK) (length_concat _) Ha OB bits sd Hb Es)|].
        fold N. change (norm2 n (vget (concat (mg_Ys (gp_data g))))) with Y. unfold Rdiv at 1 2. fold i1.
        replace (T2 * eps) with (N * (MF + C2) * (eps * i1) * (Y * i1 + i1 / 2 + sqrt N / 2)) by (unfold T2; ring).
        apply Rmult_le_compat_l; [apply Rmult_le_pos; [apply Rmult_le_pos; lra|apply Rmult_le_pos; lra]|].
        replace (eps / s / 2) with (eps * (i1 / 2)) by (unfold i1; field; lra). assert (eps * (i1 / 2) <= i1 / 2) by nra. lra. }
      match goal with |- Rabs (?u - G') <= _ => replace (u - G') with ((u - G) + (G - G')) by ring end.
      eapply Rle_trans; [apply Rabs_triang|]. unfold Rdiv. rewrite Rmult_1_l. fold t. nra.
  - exists C. split; [exact C0|]. intros g m M solve k old eps HR Ef Ed HM HA He Hw Hk0 O1 O2 O3.
    exists (fun bits => new solve bits k g old). split.
    + intros bits Hb. subst f data.
      destruct (fit_gen g lo hi m HR solve k old bits (fun Ko RK => within_returns _ _ _ _ (Hw Ko RK)) Hk0 Hb O1 O2 O3)
          as [Ko [sd [kk [nw (RK & Es & Hz & Ep & _ & _ & Hsl)]]]]. exists kk. unfold new. now rewrite Ep.
    + intros p Hpar. exact (HC p Hpar g m M solve k old eps HR Ef Ed HM HA He Hw Hk0 O1 O2 O3).
Qed.
Print Assumptions C95_rate.

(** However small [eta], with enough cells and small enough residuals the mean
    over the draws of every gradient is within [eta] of the gradient of the exact
    log likelihood. *)
Theorem C95_limit :
  forall f data lo hi, no_identity f -> proper f -> kernels_ok f -> (forall ad, group f ad <> [] -> ~ surplus f ad) ->
  let P := mg_P data in
  let lens := map (@length R) (mg_Ys data) in
  let n := nsum lens in
  forall eta, 0 < eta -> exists M eps, 0 < eps /\
  forall g m solve k old, gp_ready g lo hi m -> gp_f g = f -> gp_data g = data -> at_least f M m data ->
  (forall Ko, represents Ko (mk_den n n (K_fit g)) -> solves_within eps n (K_fit g) (solve Ko)) -> (0 < k)%nat ->
  length (s_vecs old) = f_Q f -> length (s_diags old) = f_Q f -> length (s_kernels old) = f_Q f ->
  exists grads : list (list bool) -> grad_slots,
    (forall bits, In bits (draws k n) -> exists kk, parameters_changed solve bits k g old = Ok (kk, grads bits)) /\
    forall p, has_par f p -> exists G,
      is_gradient n (fun v => K_obs (with_par f p v) P (mg_Xs data) lens) (y_obs g) (par_value f p) G /\
      Rabs (mean (draws k n) (fun bits => slot (grads bits) p) - G) <= eta.
Proof.
  intros f data lo hi Hid Hp Hk HS P lens n eta Heta. destruct (C95_rate f data lo hi Hid Hp Hk HS) as [C [C0 HC]]. cbv zeta in HC.
  destruct (cells_enough C (eta / 2) C0 ltac:(lra)) as [M [M0 HM]].
  set (eps := Rmin 1 (eta / 2 / (C + 1))).
  assert (e0 : 0 < eps) by (apply Rmin_glb_lt; [lra|apply Rdiv_lt_0_compat; lra]). assert (e1 : eps <= 1) by apply Rmin_l.
  assert (e2 : C * eps <= eta / 2).
  { apply Rle_trans with ((C + 1) * (eta / 2 / (C + 1))); [|right; field; lra]. apply Rmult_le_compat; [lra|lra|lra|apply Rmin_r]. }
  exists M, eps. split; [exact e0|]. intros g m solve k old HR Ef Ed HA Hw Hk0 O1 O2 O3.
  destruct (HC g m M solve k old eps HR Ef Ed M0 HA ltac:(lra) Hw Hk0 O1 O2 O3) as [grads [H1 H2]]. exists grads. split; [exact H1|].
  intros p Hpar. destruct (H2 p Hpar) as [G [HG HB]]. exists G. split; [exact HG|]. eapply Rle_trans; [exact HB|].
  replace (C * (1 / INR M ^ 3 + eps)) with (C / INR M ^ 3 + C * eps); [lra|]. unfold Rdiv. ring.
Qed.
Print Assumptions C95_limit.

(** *** Example *)

(** Two outputs observed at 2 and 8, kernels RBF and Matern32, any number of
    cells, all modes, and solves that are exact. *)
Example C95_ex : forall md, exists f data, no_identity f /\ proper f /\ kernels_ok f /\ (forall ad, group f ad <> [] -> ~ surplus f ad) /\
  f_D f = 2%nat /\ data = multi_of 1 ex1_Xs ex1_Ys true /\ has_par f (PDiag 0 1) /\ has_par f (PNoise 1) /\
  forall M, (0 < M)%nat -> exists g solve old, gp_ready g (GNum 0) (GNum 10) (GNum M) /\ gp_f g = f /\ gp_data g = data /\ gp_mode g = md /\
    at_least f M (GNum M) data /\
    length (s_vecs old) = f_Q f /\ length (s_diags old) = f_Q f /\ length (s_kernels old) = f_Q f /\
    forall eps, 0 <= eps -> forall Ko, represents Ko (mk_den (n_obs g) (n_obs g) (K_fit g)) -> solves_within eps (n_obs g) (K_fit g) (solve Ko).
Proof.
  intros md. destruct (C92_ex md) as [f [data (Hid & Hp & Hk & HS & HD & Ed & _ & _ & HM)]]. exists f, data. repeat (split; [assumption|]).
  assert (HQ : (0 < f_Q f)%nat).
  { destruct (HM 1%nat ltac:(lia)) as [g [_ [_ [_ (HR & Eg & _)]]]]. rewrite <- Eg. exact (ok_Q _ (rd_ok g _ _ _ HR)). }
  split; [cbn; split; [exact HQ|lia]|]. split; [cbn; lia|].
  intros M HM0. destruct (HM M HM0) as [g [solve0 [bits [k (HR & Eg & Ed' & Em & _ & HA & _)]]]]. 
  assert (Hp' : proper (gp_f g)) by now rewrite Eg.
  destruct (fit_exists g _ _ _ HR Hp') as [solve [_ [_ [Hs _]]]]. exists g, solve, (mk_slots (repeat [] (f_Q f)) (repeat [] (f_Q f)) (repeat KIdentity (f_Q f)) []).
  repeat (split; [assumption|]). cbn. rewrite !repeat_length. repeat (split; [reflexivity|]).
  intros eps He Ko RK b Hb. destruct (exact_within _ _ _ (Hs Ko RK) b Hb) as [x [X1 [X2 X3]]]. exists x. split; [exact X1|]. split; [exact X2|eapply Rle_trans; [exact X3|exact He]].
Qed.
