(** C96: precomputed variances in the limit of fine grids and accurate solves. *)

From Coq Require Import Reals List Arith ZArith Lia Lra.
From Coquelicot Require Import Coquelicot.
From Verif Require Import Base NDArray PSD Model_Util Proofs_Util Spec_Util Model_Linalg Spec_Linalg Proofs_Linalg Model_Interp Spec_Interp
  Proofs_Sparse Proofs_Interp Proofs_Interp2 Proofs_Bicubic Proofs_Assemble Proofs_Autogrid Properties_Interp Model_Kern Spec_Kern Proofs_Kern Proofs_KernPSD Model_FK Spec_FK Proofs_FK
  Properties_FK Model_Grid Spec_Grid Proofs_Grid Proofs_Grid2 Det Proofs_Det Model_Lik Spec_Lik Proofs_Lik Proofs_Lik2 Proofs_Lik3 Proofs_Lik4 Proofs_Lik5 Proofs_Lik6 Proofs_Lik7 Properties_Lik
  Properties_Lik2 Spec_GP Proofs_Gen Proofs_Gen2 Properties_Gen Model_GP Spec_Pred Proofs_Pred Proofs_Pred2 Proofs_Pred3 Proofs_Pred4 Proofs_Init Proofs_Pred6 Properties_Pred
  Spec_Opt Spec_Acc Proofs_Acc Proofs_Acc2 Properties_Acc Spec_Ski Proofs_Ski Proofs_Ski2 Proofs_Ski3 Properties_Ski Proofs_State5 Properties_Order Properties_Alike Spec_Limit Properties_Limit
  Proofs_GradSm Proofs_GradLim Proofs_PreLim Model_State Spec_State.
Import ListNotations.
Open Scope R_scope.

(** With kernels on all dimensions the precomputed variances are within
    [C (1 / M^3 + eps)] of those of the exact Gaussian process, at points
    between inputs and bounds, where [M] is the least number of cells asked for
    and [eps] bounds the residuals of the solves: one constant serves all grids,
    all solvers and all requests. *)
Theorem C96_rate :
  forall f data lo hi, no_identity f -> proper f -> kernels_ok f -> (forall ad, group f ad <> [] -> ~ surplus f ad) ->
  (forall q, (q < f_Q f)%nat -> qdims f q = seq 0 (mg_P data)) ->
  let P := mg_P data in
  let lens := map (@length R) (mg_Ys data) in
  let n := nsum lens in
  let x := obs P (mg_Xs data) lens in
  let K := K_obs f P (mg_Xs data) lens in
  exists C, 0 <= C /\
  forall g m M solve bits n_it k eps, gp_ready g lo hi m -> gp_f g = f -> gp_data g = data -> (0 < M)%nat -> at_least f M m data ->
  fitted solve bits n_it g k -> solves_within eps n (K_fit g) (solve (al_K (gpk_lik k))) -> gp_mode g = Precompute ->
  forall Zs zl, requests P Zs zl -> length zl = f_D f ->
  exists mu var, gp_predict solve g k Zs = Ok (mu, var) /\
    forall d i, (d < f_D f)%nat -> (i < nth d zl 0)%nat ->
      let pt := point P Zs d i in
      let c := fun j => lmc_cov f d pt (owner lens j) (x j) in
      between f data lo hi pt -> forall z, (forall j, (j < n)%nat -> Rsum n (fun l => K j l * z l) = c j) ->
        Rabs (vget (nth d var []) i - unnorm_var g d (Rmax 0 (lmc_cov f d pt d pt + vget (f_noise f) d - Rsum n (fun j => c j * z j))))
        <= C * (1 / INR M ^ 3 + eps).
Proof.
  intros f data lo hi Hid Hp Hk HS Hq P lens n x K.
  destruct (least_noise (f_D f) (fun a => vget (f_noise f) a)) as [s [Hs0 Hn]]; [apply Hp|].
  destruct (C92_error f data lo hi) as [C1 [C10 HC1]].
  set (osc := fun d => match mg_norm data with Some l => n_std (nth d l (mk_norm 0 1)) | None => 1 end).
  set (O := Rsum (f_D f) (fun d => Rabs (osc d))). assert (O0 : 0 <= O) by (apply Rsum_nonneg; intros; apply Rabs_pos).
  set (N := INR n). assert (N0 : 0 <= N) by apply pos_INR. set (sN := sqrt N). assert (sN0 : 0 <= sN) by apply sqrt_pos.
  set (G := sN * Rabs (cov_max f)). assert (G0 : 0 <= G) by (apply Rmult_le_pos; [exact sN0|apply Rabs_pos]).
  set (i1 := / s). assert (i10 : 0 < i1) by now apply Rinv_0_lt_compat.
  set (S := Rsum P (fun p => (5 / 4 * range data lo hi p) ^ 3)).
  assert (S0 : 0 <= S) by (apply Rsum_nonneg; intros p _; apply pow_le; pose proof (range_pos data lo hi p); lra).
  set (Cc := cov_sm f). assert (Cc0 : 0 <= Cc) by now apply cov_sm_pos.
  set (CE := C1 + Cc * S). assert (CS0 : 0 <= Cc * S) by now apply Rmult_le_pos. assert (CE0 : 0 <= CE) by (unfold CE; lra).
  set (R1 := sN * CE). assert (R10 : 0 <= R1) by now apply Rmult_le_pos.
  set (G1 := G + R1). assert (G10 : 0 <= G1) by (unfold G1; lra).
  assert (i20 : 0 <= i1 ^ 2) by (apply pow_le; lra). assert (O20 : 0 <= O ^ 2) by apply pow2_ge_0.
  set (a1 := G1 * i1). set (a2 := G1 * (N * CE * G1 * i1 ^ 2) + G1 * (R1 * i1) + R1 * (G * i1)). set (a3 := N * (N * (i1 * (8 * Cc * Cc))) * S).
  assert (P1 : 0 <= a1) by (unfold a1; nn).
  assert (P2 : 0 <= a2) by (unfold a2; repeat apply Rplus_le_le_0_compat; nn).
  assert (P3 : 0 <= a3) by (unfold a3; nn).
  exists (O ^ 2 * (25 / 16 * (a1 + a2) + a3)). split; [apply Rmult_le_pos; lra|].
  intros g m M solve bits n_it k eps HR Ef Ed M0 HA Hf Hs Hm Zs zl HZ Hz. subst f data.
  set (f := gp_f g) in *. specialize (HC1 g m M HR eq_refl eq_refl M0 HA). fold f in HC1.
  destruct Hf as [old [sl Hf]]. destruct (fitted_of g _ _ _ _ _ _ Hf) as [HK _].
  pose proof (within_returns _ _ _ _ Hs) as Hr.
  assert (MR : mode_ready g) by (unfold mode_ready; rewrite Hm; exact Hq).
  rewrite (predict_ok g lo hi m HR k HK solve Hr Zs zl Hid MR HZ Hz) by (rewrite Hm; discriminate).
  eexists _, _. split; [reflexivity|]. intros d i Hd Hi pt c Hb z Hz'. rewrite nth_tab by exact Hd. rewrite vget_tab by exact Hi.
  change (point (mg_P (gp_data g)) Zs d i) with pt.
  pose proof (C92_between g lo hi m pt HR Hb) as Hin.
  pose proof (rd_D g lo hi m HR : length lens = f_D f) as HDl.
  assert (Ow : forall j, (j < n)%nat -> (owner lens j < f_D f)%nat) by (intros j Hj; rewrite <- HDl; now apply owner_lt).
  set (t := 1 / INR M ^ 3).
  assert (M1 : 1 <= INR M) by (change 1 with (INR 1); apply le_INR; lia).
  assert (M3 : 1 <= INR M ^ 3) by (rewrite <- (pow1 3); apply pow_incr; lra).
  assert (t0 : 0 < t <= 1).
  { unfold t, Rdiv. rewrite Rmult_1_l. split; [apply Rinv_0_lt_compat; lra|]. rewrite <- Rinv_1. apply Rinv_le_contravar; lra. }
  set (ad := seq 0 P).
  assert (Hsp : 0 <= Rsum P (fun p => spacing g ad p ^ 3) <= S * t).
  { pose proof (spacing_cells g lo hi m M ad HR M0 HA (ad_group g lo hi m HR Hq)) as T. rewrite (seq_length P 0 : length ad = P) in T.
    rewrite (Rsum_ext P (fun p => (5 / 4 * range (gp_data g) lo hi (nth p ad 0%nat)) ^ 3) (fun p => (5 / 4 * range (gp_data g) lo hi p) ^ 3)) in T
      by (intros p Hpp; unfold ad; now rewrite seq_nth).
    unfold t. replace (1 / INR M ^ 3) with (/ INR M ^ 3) by (field; lra). exact T. }
  set (sp := Rsum P (fun p => spacing g ad p ^ 3)) in *.
  set (E := CE * t). assert (E0 : 0 <= E) by (apply Rmult_le_pos; lra).
  assert (EE : E <= CE) by (unfold E; nra).
  assert (HKD : forall i j, (i < n)%nat -> (j < n)%nat -> Rabs (K_fit g i j - K i j) <= E).
  { intros i' j' Hi' Hj'. eapply Rle_trans; [apply (C63_fit g lo hi m HR Hid Hp HS i' j' Hi' Hj')|].
    eapply Rle_trans; [apply HC1; now apply Ow|]. unfold E, CE, t. apply Rle_trans with (C1 * (1 / INR M ^ 3)); [right; field; lra|].
    apply Rmult_le_compat_r; [left; apply t0|]. lra. }
  pose proof (K_fit_floor g lo hi m s HR Hp Hn) as F1. pose proof (K_obs_floor g lo hi m s HR Hp Hn) as F2.
  pose proof (K_obs_pdR g lo hi m HR Hp) as Hpd. assert (Hsym : sym n K) by apply K_obs_sym.
  pose proof (proj1 (pos_definite_pivots _ _ Hsym) Hpd) as Hpv. destruct (inv_ex _ _ Hpv) as [X HX].
  assert (Res : 0 <= eps).
  { destruct (Hs (repeat 0 n) (repeat_length _ _)) as [x0 [_ [_ G']]]. eapply Rle_trans; [apply sqrt_pos|exact G']. }
  set (cv := fun (y : nat -> R) j => lmc_cov f d y (owner lens j) (x j)).
  set (Phi := fun y => Rsum n (fun j => Rsum n (fun l => X j l * (cv y j * cv y l)))).
  assert (HPhi : forall y, Phi y = Rsum n (fun j => cv y j * Rsum n (fun l => X j l * cv y l))).
  { intros y. apply Rsum_ext. intros j _. rewrite <- Rsum_scal_l. apply Rsum_ext. intros. ring. }
  assert (Ncv : forall y, norm2 n (cv y) <= G).
  { intros y. unfold G, sN, N. rewrite <- norm2_const by apply Rabs_pos. apply norm2_le. intros j Hj. unfold cv.
    eapply Rle_trans; [apply lmc_cov_max; [exact Hk|exact Hd|now apply Ow]|apply Rle_abs]. }
  assert (HXe : forall j l, (j < n)%nat -> (l < n)%nat -> Rabs (X j l) <= i1).
  { intros j l Hj Hl. eapply Rle_trans; [apply (norm2_entry n (fun j => X j l) j Hj)|].
    replace i1 with (norm2 n (fun i => id_f i l) / s) by (rewrite norm2_unit by exact Hl; unfold i1; field; lra).
    apply (solution_size n K s Hs0 F2). intros i' Hi'. now apply HX. }
  assert (SPhi : smb P (N * (N * (i1 * (8 * Cc * Cc)))) Phi).
  { unfold N, n. rewrite <- !Rsum_const. fold n.
    apply (smb_sum P n (fun _ => Rsum n (fun _ => i1 * (8 * Cc * Cc))) (fun j y => Rsum n (fun l => X j l * (cv y j * cv y l)))). intros j Hj.
    apply (smb_sum P n (fun _ => i1 * (8 * Cc * Cc)) (fun l y => X j l * (cv y j * cv y l))). intros l Hl.
    apply (smb_le P (Rabs (X j l) * (8 * Cc * Cc))); [apply Rmult_le_compat_r; [nn|now apply HXe]|].
    apply (smb_scal P (X j l) _ (fun y => cv y j * cv y l)). apply (smb_mult P Cc Cc (fun y => cv y j) (fun y => cv y l)); apply cov_smb1; auto. }
  set (dl := G1 * (eps / s) + G1 * (N * E * G1 / s ^ 2) + G1 * (R1 * t / s) + R1 * t * (G / s)).
  assert (Hes : 0 <= eps / s) by (apply Rmult_le_pos; [exact Res|left; now apply Rinv_0_lt_compat]).
  assert (is20 : 0 < / s ^ 2) by (apply Rinv_0_lt_compat, pow_lt, Hs0).
  assert (Hdl : forall u, (u < pts g ad)%nat -> Rabs (nu_at g k solve ad d u - Phi (gpt g u)) <= dl).
  { intros u Hu. set (ct := fun j => gcov g ad d u j).
    destruct (Hs (tab n ct) (tab_length _ _)) as [zt [Ez [Lz Gz]]].
    destruct (fit_solution g lo hi m ct HR Hp) as [z1 Hz1].
    assert (Hz1' : forall i, (i < n)%nat -> Rsum n (fun j => K_fit g i j * z1 j) = vget (tab n ct) i) by (intros i' Hi'; rewrite vget_tab by exact Hi'; now apply Hz1).
    pose proof (coercive_err n (K_fit g) s eps Hs0 F1 (tab n ct) zt z1 Hz1' Gz) as Hze.
    assert (Dc : forall j, (j < n)%nat -> Rabs (ct j - cv (gpt g u) j) <= E).
    { intros j Hj. eapply Rle_trans; [apply (gcov_err g lo hi m HR Hq Hid Hp HS d u j Hd Hu Hj)|].
      fold f P ad sp Cc. unfold E, CE. apply Rle_trans with (Cc * (S * t)); [apply Rmult_le_compat_l; lra|].
      assert (0 <= C1 * t) by (apply Rmult_le_pos; lra). lra. }
    assert (EN : nu_at g k solve ad d u = Rsum n (fun j => ct j * vget zt j)).
    { unfold nu_at, sol. fold P lens n. change (tab n (gcov g ad d u)) with (tab n ct). now rewrite Ez. }
    rewrite EN, HPhi.
    pose proof (quad_err n (K_fit g) K s E eps G ct (cv (gpt g u)) (vget zt) (fun j => Rsum n (fun l => X j l * cv (gpt g u) l)) z1
      Hs0 F1 F2 E0 HKD Dc (Ncv _) Res Hz1 (inv_col n K X HX (cv (gpt g u)))
      (ex_intro _ _ (inv_col n K X HX ct)) Hze) as T. cbv zeta in T.
    eapply Rle_trans; [exact T|]. fold N sN. unfold dl.
    assert (ER : sN * E = R1 * t) by (unfold R1, E; ring). rewrite ER.
    assert (Rt : 0 <= R1 * t <= R1) by (split; [apply Rmult_le_pos; lra|nra]).
    assert (Gr : 0 <= G + R1 * t <= G1) by (unfold G1; lra).
    assert (NE : 0 <= N * E) by now apply Rmult_le_pos.
    assert (Rs : 0 <= R1 * t / s) by (apply Rmult_le_pos; [lra|left; now apply Rinv_0_lt_compat]).
    apply Rplus_le_compat; [|right; reflexivity]. apply Rplus_le_compat; [apply Rplus_le_compat|].
    - apply Rmult_le_compat_r; lra.
    - apply Rmult_le_compat; [lra| |lra|].
      + apply Rmult_le_pos; [apply Rmult_le_pos; lra|lra].
      + apply Rmult_le_compat_r; [lra|]. apply Rmult_le_compat_l; lra.
    - apply Rmult_le_compat_r; lra. }
  assert (dl0 : 0 <= dl).
  { unfold dl. assert (0 <= R1 * t) by (apply Rmult_le_pos; lra). assert (0 < / s) by now apply Rinv_0_lt_compat. unfold Rdiv.
    repeat apply Rplus_le_le_0_compat; nn. }
  assert (Edl : dl = a1 * eps + a2 * t).
  { unfold dl, a1, a2, E, i1. field. lra. }
  pose proof (wt_interp g lo hi m HR Hq pt Phi _ Hin SPhi) as I1. fold P ad sp in I1.
  pose proof (wt_abs g lo hi m HR Hq pt (fun u => nu_at g k solve ad d u - Phi (gpt g u)) dl Hin Hdl dl0) as I2. fold P ad in I2. cbv beta in I2.
  assert (EPhi : Phi pt = Rsum n (fun j => c j * z j)).
  { rewrite HPhi. apply Rsum_ext. intros j Hj. f_equal.
    apply (solves_unique n K c (fun j => Rsum n (fun l => X j l * cv pt l)) z Hpv); [|exact Hz'|exact Hj].
    intros i' Hi'. exact (inv_col n K X HX (cv pt) i' Hi'). }
  assert (TE : Rabs (explained_pre g k solve d pt - Rsum n (fun j => c j * z j)) <= 25 / 16 * dl + a3 * t).
  { rewrite <- EPhi. unfold explained_pre. fold P ad.
    eapply Rle_trans; [apply (Rabs_chain _ (Rsum (pts g ad) (fun u => wt g ad pt u * Phi (gpt g u))))|]. apply Rplus_le_compat.
    - rewrite <- Rsum_minus. rewrite (Rsum_ext _ _ (fun u => wt g ad pt u * (nu_at g k solve ad d u - Phi (gpt g u)))) by (intros; ring). exact I2.
    - eapply Rle_trans; [exact I1|]. unfold a3. replace (N * (N * (i1 * (8 * Cc * Cc))) * S * t) with (N * (N * (i1 * (8 * Cc * Cc))) * (S * t)) by ring.
      apply Rmult_le_compat_l; [nn|apply Hsp]. }
  assert (EV : prior_var f d = lmc_cov f d pt d pt + vget (f_noise f) d).
  { unfold prior_var, lmc_cov. rewrite Rplus_comm. f_equal. apply Rsum_ext. intros q _. now rewrite dist_on_self. }
  unfold var_at, explained. rewrite Hm. change (gp_f g) with f. rewrite EV.
  match goal with |- Rabs (unnorm_var g d ?u - unnorm_var g d ?v) <= _ => replace (unnorm_var g d u - unnorm_var g d v) with (out_scale g d ^ 2 * (u - v)) end.
  2:{ unfold unnorm_var, out_scale. destruct (mg_norm (gp_data g)); ring. }
  rewrite Rabs_mult, (Rabs_right (out_scale g d ^ 2)) by (apply Rle_ge, pow2_ge_0). rewrite (Rmult_assoc (O ^ 2)).
  assert (Oc : Rabs (out_scale g d) <= O) by (apply (Rsum_term (f_D f) (fun d => Rabs (osc d)) d Hd); intros; apply Rabs_pos).
  apply Rmult_le_compat; [apply pow2_ge_0|apply Rabs_pos| |].
  - rewrite <- pow2_abs. apply pow_incr. split; [apply Rabs_pos|exact Oc].
  - eapply Rle_trans; [apply Proofs_Acc.clip_lip|].
    match goal with |- Rabs ?e <= _ => replace e with (- (explained_pre g k solve d pt - Rsum n (fun j => c j * z j))) by ring end.
    rewrite Rabs_Ropp. eapply Rle_trans; [exact TE|]. rewrite Edl.
    assert (0 <= a1 * t) by (apply Rmult_le_pos; lra). assert (0 <= a2 * eps) by now apply Rmult_le_pos. assert (0 <= a3 * eps) by now apply Rmult_le_pos. lra.
Qed.
Print Assumptions C96_rate.

(** Hence with enough cells and small enough residuals they are within any
    [eta] of the exact ones: with C92_limit, of the variances computed on the
    fly, too. *)
Theorem C96_limit :
  forall f data lo hi, no_identity f -> proper f -> kernels_ok f -> (forall ad, group f ad <> [] -> ~ surplus f ad) ->
  (forall q, (q < f_Q f)%nat -> qdims f q = seq 0 (mg_P data)) ->
  let P := mg_P data in
  let lens := map (@length R) (mg_Ys data) in
  let n := nsum lens in
  let x := obs P (mg_Xs data) lens in
  let K := K_obs f P (mg_Xs data) lens in
  forall eta, 0 < eta -> exists M eps, 0 < eps /\
  forall g m solve bits n_it k, gp_ready g lo hi m -> gp_f g = f -> gp_data g = data -> at_least f M m data ->
  fitted solve bits n_it g k -> solves_within eps n (K_fit g) (solve (al_K (gpk_lik k))) -> gp_mode g = Precompute ->
  forall Zs zl, requests P Zs zl -> length zl = f_D f ->
  exists mu var, gp_predict solve g k Zs = Ok (mu, var) /\
    forall d i, (d < f_D f)%nat -> (i < nth d zl 0)%nat ->
      let pt := point P Zs d i in
      let c := fun j => lmc_cov f d pt (owner lens j) (x j) in
      between f data lo hi pt -> forall z, (forall j, (j < n)%nat -> Rsum n (fun l => K j l * z l) = c j) ->
        Rabs (vget (nth d var []) i - unnorm_var g d (Rmax 0 (lmc_cov f d pt d pt + vget (f_noise f) d - Rsum n (fun j => c j * z j)))) <= eta.
Proof.
  intros f data lo hi Hid Hp Hk HS Hq P lens n x K eta Heta.
  destruct (C96_rate f data lo hi Hid Hp Hk HS Hq) as [C [C0 HC]].
  set (delta := eta / (2 * (C + 1))).
  assert (D0 : 0 < delta) by (apply Rdiv_lt_0_compat; lra).
  assert (D2 : C * (delta + delta) <= eta).
  { apply Rle_trans with ((C + 1) * (delta + delta)); [apply Rmult_le_compat_r; lra|]. right. unfold delta. field. lra. }
  destruct (cells_enough 1 delta ltac:(lra) D0) as [M [M0 HM]]. exists M, delta. split; [exact D0|].
  intros g m solve bits n_it k HR Ef Ed HA Hf Hs Hm Zs zl HZ Hz.
  destruct (HC g m M solve bits n_it k delta HR Ef Ed M0 HA Hf Hs Hm Zs zl HZ Hz) as [mu [var [EP H]]].
  exists mu, var. split; [exact EP|]. intros d i Hd Hi pt c Hb z Hz'. specialize (H d i Hd Hi). cbv zeta in H. specialize (H Hb z Hz').
  eapply Rle_trans; [exact H|]. eapply Rle_trans; [|exact D2]. apply Rmult_le_compat_l; [exact C0|]. lra.
Qed.
Print Assumptions C96_limit.

(** Precomputed variances and variances computed on the fly by the same model
    differ by as little as one likes, for the same reason. *)
Theorem C96_modes :
  forall f data lo hi, no_identity f -> proper f -> kernels_ok f -> (forall ad, group f ad <> [] -> ~ surplus f ad) ->
  (forall q, (q < f_Q f)%nat -> qdims f q = seq 0 (mg_P data)) ->
  forall eta, 0 < eta -> exists M eps, 0 < eps /\
  forall g m solve bits n_it k, gp_ready g lo hi m -> gp_f g = f -> gp_data g = data -> at_least f M m data ->
  fitted solve bits n_it g k -> solves_within eps (n_obs g) (K_fit g) (solve (al_K (gpk_lik k))) -> gp_mode g = Precompute ->
  forall Zs zl, requests (mg_P data) Zs zl -> length zl = f_D f -> (0 < nsum zl)%nat ->
  exists mu var mu' var', gp_predict solve g k Zs = Ok (mu, var) /\ gp_predict solve (with_mode g OnTheFly) k Zs = Ok (mu', var') /\
    forall d i, (d < f_D f)%nat -> (i < nth d zl 0)%nat -> between f data lo hi (point (mg_P data) Zs d i) ->
      Rabs (vget (nth d var []) i - vget (nth d var' []) i) <= eta.
Proof.
  intros f data lo hi Hid Hp Hk HS Hq eta Heta.
  destruct (C96_limit f data lo hi Hid Hp Hk HS Hq (eta / 2) ltac:(lra)) as [M1 [e1 [E1 H1]]].
  destruct (C92_limit f data lo hi Hid Hp Hk HS (eta / 2) ltac:(lra)) as [M2 [e2 [E2 H2]]].
  exists (Nat.max M1 M2), (Rmin e1 e2). split; [now apply Rmin_glb_lt|].
  intros g m solve bits n_it k HR Ef Ed HA Hf Hs Hm Zs zl HZ Hz Ht. set (g' := with_mode g OnTheFly).
  assert (HR' : gp_ready g' lo hi m) by (destruct HR; now constructor).
  assert (A : forall M, (M <= Nat.max M1 M2)%nat -> at_least f M m data) by (intros M HM ad p Had Hin; specialize (HA ad p Had Hin); lia).
  assert (W : forall e, Rmin e1 e2 <= e -> solves_within e (n_obs g) (K_fit g) (solve (al_K (gpk_lik k)))).
  { intros e He b Hb. destruct (Hs b Hb) as [y [Y1 [Y2 Y3]]]. exists y. split; [exact Y1|]. split; [exact Y2|]. lra. }
  assert (En : n_obs g = nsum (map (@length R) (mg_Ys data))) by now rewrite <- Ed.
  pose proof (W e1 (Rmin_l _ _)) as W1. pose proof (W e2 (Rmin_r _ _)) as W2. rewrite En in W1, W2.
  destruct (H1 g m solve bits n_it k HR Ef Ed (A M1 ltac:(lia)) Hf W1 Hm Zs zl HZ Hz) as [mu [var [EP HV]]].
  destruct (H2 g' m solve bits n_it k HR' Ef Ed (A M2 ltac:(lia)) Hf W2 I) as [_ HV2].
  destruct (HV2 Zs zl HZ Hz (fun _ => Ht)) as [mu' [var' [EP' HV']]].
  exists mu, var, mu', var'. split; [exact EP|]. split; [exact EP'|]. intros d i Hd Hi Hb.
  specialize (HV d i Hd Hi). specialize (HV' d i Hd Hi). cbv zeta in HV, HV'. destruct HV' as [_ HV'].
  assert (Hp' : proper (gp_f g)) by now rewrite Ef. pose proof (K_obs_pdR g lo hi m HR Hp') as Hpd. rewrite Ef, Ed in Hpd.
  destruct (inv_ex _ _ (proj1 (pos_definite_pivots _ _ (K_obs_sym _ _ _ _ _)) Hpd)) as [X HX].
  pose proof (inv_col _ _ X HX (fun j => lmc_cov f d (point (mg_P data) Zs d i) (owner (map (@length R) (mg_Ys data)) j) (obs (mg_P data) (mg_Xs data) (map (@length R) (mg_Ys data)) j))) as Hz'.
  specialize (HV Hb _ Hz'). specialize (HV' eq_refl _ Hz'). change (unnorm_var g' d) with (unnorm_var g d) in HV'.
  match type of HV with Rabs (_ - ?u) <= _ => eapply Rle_trans; [apply (Rabs_chain _ u)|]; rewrite (Rabs_minus_sym u) end. lra.
Qed.
Print Assumptions C96_modes.

(** *** Example *)

(** Two outputs with two kernels on their only dimension, a point between the
    bounds, any number of cells, precomputed variances: the hypotheses hold. *)
Example C96_ex : exists f data, no_identity f /\ proper f /\ kernels_ok f /\ (forall ad, group f ad <> [] -> ~ surplus f ad) /\
  (forall q, (q < f_Q f)%nat -> qdims f q = seq 0 (mg_P data)) /\
  f_D f = 2%nat /\ between f data (GNum 0) (GNum 10) (fun _ => 5) /\ requests (mg_P data) ex1_Zs [3; 0]%nat /\
  forall M, (0 < M)%nat -> exists g solve bits k, gp_ready g (GNum 0) (GNum 10) (GNum M) /\ gp_f g = f /\ gp_data g = data /\ gp_mode g = Precompute /\
    at_least f M (GNum M) data /\ fitted solve bits 1 g k /\
    forall eps, 0 <= eps -> solves_within eps (n_obs g) (K_fit g) (solve (al_K (gpk_lik k))).
Proof.
  destruct (C92_ex Precompute) as [f [data (Hid & Hp & Hk & HS & HD & Ed & Hb & HZ & H)]]. exists f, data.
  repeat (split; [assumption|]). split.
  - destruct (H 1%nat ltac:(lia)) as [g [solve [bits [k (HR & Ef & Ed' & Hm & MR & _)]]]]. unfold mode_ready in MR. rewrite Hm in MR. rewrite <- Ef, <- Ed'. exact MR.
  - split; [exact HD|]. split; [exact Hb|]. split; [exact HZ|]. intros M HM. destruct (H M HM) as [g [solve [bits [k (HR & Ef & Ed' & Hm & MR & HA & Hf & Hs)]]]].
    exists g, solve, bits, k. repeat (split; [assumption|]). assumption.
Qed.
