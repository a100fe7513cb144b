(** Claims about what predictions depend on (C79). *)

From Coq Require Import Reals List Arith ZArith Lia Lra Permutation.
From Verif Require Import Base NDArray PSD Model_Util Proofs_Util Spec_Util Model_Linalg Spec_Linalg Proofs_Linalg Model_Interp Spec_Interp
  Properties_Interp Model_Kern Spec_Kern Proofs_Kern Proofs_KernPSD Model_FK Spec_FK Proofs_FK
  Properties_FK Model_Grid Spec_Grid Proofs_Grid Proofs_Grid2 Properties_Grid Det Proofs_Det Model_Lik Spec_Lik Proofs_Lik Proofs_Lik2 Proofs_Lik3 Proofs_Lik4 Proofs_Lik5 Proofs_Lik6 Proofs_Lik7 Properties_Lik
  Properties_Lik2 Spec_GP Proofs_Gen Proofs_Gen2 Properties_Gen Model_GP Spec_Pred Proofs_Pred Proofs_Pred2 Proofs_Pred3 Proofs_Pred4 Proofs_Init Proofs_Pred5 Proofs_Pred6 Properties_Pred
  Spec_Order Proofs_Order Proofs_Order2 Proofs_Order3 Properties_Order Spec_Depend Proofs_Depend Properties_Alike.
Import ListNotations.
Open Scope R_scope.

Lemma ready_like S g g' lo hi m : gp_ready g' lo hi m -> same_inputs S g g' -> proper (gp_f g) -> mode_ready g -> mode_ready g'.
Proof.
  intros HR' HS Hp Hm. unfold mode_ready in *. rewrite (si_mode _ _ _ HS). destruct (gp_mode g); [exact I| |].
  - rewrite (si_f _ _ _ HS), (si_P _ _ _ HS). exact Hm.
  - apply (K_obs_pdR g' lo hi m HR'). rewrite (si_f _ _ _ HS). exact Hp.
Qed.

(** Outputs that no kernel correlates are predicted separately: what is
    predicted for those in [S] does not depend on the data of the others, as
    long as the grid stays the same.  Their variances do not depend on the
    values observed either, except for the units set by the normalisation. *)
Theorem C79_separate :
  forall S g g' lo hi m solve solve' bits bits' n_it n_it' k k' Zs zl, gp_ready g lo hi m -> gp_ready g' lo hi m ->
  same_inputs S g g' -> uncorrelated (gp_f g) S -> within lo hi m g g' -> within lo hi m g' g ->
  fitted solve bits n_it g k -> fitted solve' bits' n_it' g' k' ->
  exact_solver (n_obs g) (K_fit g) solve -> exact_solver (n_obs g') (K_fit g') solve' -> proper (gp_f g) ->
  no_identity (gp_f g) -> mode_ready g -> requests (mg_P (gp_data g)) Zs zl -> length zl = f_D (gp_f g) -> (0 < nsum zl)%nat ->
  exists mu var mu' var', gp_predict solve g k Zs = Ok (mu, var) /\ gp_predict solve' g' k' Zs = Ok (mu', var') /\
    (forall a i, (a < f_D (gp_f g))%nat -> S a = true -> (i < nth a zl 0)%nat ->
       vget (nth a var []) i * unnorm_var g' a 1 = vget (nth a var' []) i * unnorm_var g a 1) /\
    ((forall a, (a < f_D (gp_f g))%nat -> S a = true -> nth a (mg_Ys (gp_data g')) [] = nth a (mg_Ys (gp_data g)) []) ->
     forall a, (a < f_D (gp_f g))%nat -> S a = true -> norm_of g' a = norm_of g a -> nth a mu' [] = nth a mu [] /\ nth a var' [] = nth a var []).
Proof.
  intros S g g' lo hi m solve solve' bits bits' n_it n_it' k k' Zs zl HR HR' HS HU HW HW' Hf Hf' Hs Hs' Hp Hid Hm HZ Hz Ht.
  destruct (fit_solver g lo hi m HR _ _ _ _ Hf Hs) as [He [Hr Ha]]. destruct (fit_solver g' lo hi m HR' _ _ _ _ Hf' Hs') as [He' [Hr' Ha']].
  pose proof (ready_like S g g' lo hi m HR' HS Hp Hm) as Hm'.
  destruct Hf as [old [st Hf]]. destruct Hf' as [old' [st' Hf']].
  destruct (fitted_of g _ _ _ _ _ _ Hf) as [HK _]. destruct (fitted_of g' _ _ _ _ _ _ Hf') as [HK' _].
  eexists _, _, _, _. split; [exact (predict_ok g lo hi m HR k HK solve Hr Zs zl Hid Hm HZ Hz (fun _ => Ht))|]. split.
  { apply (predict_ok g' lo hi m HR' k' HK' solve' Hr' Zs zl); try assumption;
      try (rewrite (si_f _ _ _ HS); assumption); try (rewrite (si_P _ _ _ HS); assumption); try (intros _; exact Ht). }
  rewrite (si_f _ _ _ HS), (si_P _ _ _ HS).
  assert (V : forall a x, (a < f_D (gp_f g))%nat -> S a = true -> var_at g' k' solve' a x = var_at g k solve a x).
  { intros a x Ha0 Ea. apply (dp_var S g g' lo hi m HR HR' HS HU HW HW' Hp solve solve' k k' He He' a x Ha0 Ea). intros EM. unfold mode_ready in Hm. now rewrite EM in Hm. }
  split.
  - intros a i Ha0 Ea Hi. rewrite !nth_tab by exact Ha0. rewrite !vget_tab by exact Hi. rewrite (V a _ Ha0 Ea).
    unfold unnorm_var. destruct (mg_norm (gp_data g)), (mg_norm (gp_data g')); ring.
  - intros HY a Ha0 Ea EN. rewrite !nth_tab by exact Ha0.
    assert (EM : forall x, mean_at g' k' a x = mean_at g k a x).
    { intros x. apply (dp_mean S g g' lo hi m HR HR' HS HU HW HW' Hp k k' Ha Ha'); try assumption. intros b l Hb Eb Hl. now rewrite HY. }
    unfold norm_of in EN. split; apply tab_ext; intros i Hi; unfold unnorm_mean, unnorm_var; rewrite ?EM, ?(V a _ Ha0 Ea);
      destruct (mg_norm (gp_data g)), (mg_norm (gp_data g')); cbn [option_map] in EN; try discriminate EN; try reflexivity; injection EN as ->; reflexivity.
Qed.
Print Assumptions C79_separate.

(** Without normalisation, means are linear in the observed values, and
    variances do not depend on them. *)
Theorem C79_linear :
  forall g1 g2 g3 lo hi m s1 s2 s3 b1 b2 b3 n1 n2 n3 k1 k2 k3 c1 c2 Zs zl,
  gp_ready g1 lo hi m -> gp_ready g2 lo hi m -> gp_ready g3 lo hi m ->
  same_inputs (fun _ => true) g1 g2 -> same_inputs (fun _ => true) g1 g3 ->
  mg_norm (gp_data g1) = None -> mg_norm (gp_data g2) = None -> mg_norm (gp_data g3) = None ->
  (forall a l, (a < f_D (gp_f g1))%nat -> (l < length (nth a (mg_Ys (gp_data g1)) []))%nat ->
     vget (nth a (mg_Ys (gp_data g3)) []) l = c1 * vget (nth a (mg_Ys (gp_data g1)) []) l + c2 * vget (nth a (mg_Ys (gp_data g2)) []) l) ->
  fitted s1 b1 n1 g1 k1 -> fitted s2 b2 n2 g2 k2 -> fitted s3 b3 n3 g3 k3 ->
  exact_solver (n_obs g1) (K_fit g1) s1 -> exact_solver (n_obs g2) (K_fit g2) s2 -> exact_solver (n_obs g3) (K_fit g3) s3 -> proper (gp_f g1) ->
  no_identity (gp_f g1) -> mode_ready g1 -> requests (mg_P (gp_data g1)) Zs zl -> length zl = f_D (gp_f g1) -> (0 < nsum zl)%nat ->
  exists mu1 mu2 mu3 var, gp_predict s1 g1 k1 Zs = Ok (mu1, var) /\ gp_predict s2 g2 k2 Zs = Ok (mu2, var) /\ gp_predict s3 g3 k3 Zs = Ok (mu3, var) /\
    forall a i, (a < f_D (gp_f g1))%nat -> (i < nth a zl 0)%nat -> vget (nth a mu3 []) i = c1 * vget (nth a mu1 []) i + c2 * vget (nth a mu2 []) i.
Proof.
  intros g1 g2 g3 lo hi m s1 s2 s3 b1 b2 b3 n1 n2 n3 k1 k2 k3 c1 c2 Zs zl R1 R2 R3 S2 S3 N1 N2 N3 HY F1 F2 F3 X1 X2 X3 Hp Hid Hm HZ Hz Ht.
  destruct (fit_solver g1 lo hi m R1 _ _ _ _ F1 X1) as [He1 [Hr1 A1]]. destruct (fit_solver g2 lo hi m R2 _ _ _ _ F2 X2) as [He2 [Hr2 A2]].
  destruct (fit_solver g3 lo hi m R3 _ _ _ _ F3 X3) as [He3 [Hr3 A3]].
  pose proof (ready_like _ g1 g2 lo hi m R2 S2 Hp Hm) as Hm2. pose proof (ready_like _ g1 g3 lo hi m R3 S3 Hp Hm) as Hm3.
  destruct (full_within g1 g2 lo hi m R1 R2 S2) as [W2 W2']. destruct (full_within g1 g3 lo hi m R1 R3 S3) as [W3 W3'].
  pose proof (full_uncorrelated (gp_f g1)) as HU.
  destruct F1 as [o1 [t1 F1]]. destruct F2 as [o2 [t2 F2]]. destruct F3 as [o3 [t3 F3]].
  destruct (fitted_of g1 _ _ _ _ _ _ F1) as [K1 _]. destruct (fitted_of g2 _ _ _ _ _ _ F2) as [K2 _]. destruct (fitted_of g3 _ _ _ _ _ _ F3) as [K3 _].
  pose proof (predict_ok g1 lo hi m R1 k1 K1 s1 Hr1 Zs zl Hid Hm HZ Hz (fun _ => Ht)) as P1.
  assert (I2 : no_identity (gp_f g2)) by (rewrite (si_f _ _ _ S2); exact Hid). assert (Z2 : requests (mg_P (gp_data g2)) Zs zl) by (rewrite (si_P _ _ _ S2); exact HZ).
  assert (L2 : length zl = f_D (gp_f g2)) by (rewrite (si_f _ _ _ S2); exact Hz).
  pose proof (predict_ok g2 lo hi m R2 k2 K2 s2 Hr2 Zs zl I2 Hm2 Z2 L2 (fun _ => Ht)) as P2. clear I2 Z2 L2.
  assert (I3 : no_identity (gp_f g3)) by (rewrite (si_f _ _ _ S3); exact Hid). assert (Z3 : requests (mg_P (gp_data g3)) Zs zl) by (rewrite (si_P _ _ _ S3); exact HZ).
  assert (L3 : length zl = f_D (gp_f g3)) by (rewrite (si_f _ _ _ S3); exact Hz).
  pose proof (predict_ok g3 lo hi m R3 k3 K3 s3 Hr3 Zs zl I3 Hm3 Z3 L3 (fun _ => Ht)) as P3. clear I3 Z3 L3.
  rewrite (si_f _ _ _ S2), (si_P _ _ _ S2) in P2. rewrite (si_f _ _ _ S3), (si_P _ _ _ S3) in P3.
  assert (HPre : gp_mode g1 = Precompute -> forall q, (q < f_Q (gp_f g1))%nat -> qdims (gp_f g1) q = seq 0 (mg_P (gp_data g1))) by (intros EM; unfold mode_ready in Hm; now rewrite EM in Hm).
  assert (V2 : forall a x, (a < f_D (gp_f g1))%nat -> var_at g2 k2 s2 a x = var_at g1 k1 s1 a x).
  { intros a x Ha. exact (dp_var _ g1 g2 lo hi m R1 R2 S2 HU W2 W2' Hp s1 s2 k1 k2 He1 He2 a x Ha eq_refl HPre). }
  assert (V3 : forall a x, (a < f_D (gp_f g1))%nat -> var_at g3 k3 s3 a x = var_at g1 k1 s1 a x).
  { intros a x Ha. exact (dp_var _ g1 g3 lo hi m R1 R3 S3 HU W3 W3' Hp s1 s3 k1 k3 He1 He3 a x Ha eq_refl HPre). }
  eexists _, _, _, _. split; [exact P1|]. split; [|split].
  - rewrite P2. do 2 f_equal. apply tab_ext. intros a Ha. apply tab_ext. intros i Hi. unfold unnorm_var. now rewrite N1, N2, V2.
  - rewrite P3. do 2 f_equal. apply tab_ext. intros a Ha. apply tab_ext. intros i Hi. unfold unnorm_var. now rewrite N1, N3, V3.
  - intros a i Ha Hi. rewrite !nth_tab by exact Ha. rewrite !vget_tab by exact Hi. unfold unnorm_mean. rewrite N1, N2, N3.
    set (x := point (mg_P (gp_data g1)) Zs a i). unfold mean_at. fold (n_obs g1) (n_obs g2) (n_obs g3).
    pose proof (full_lens g1 g2 lo hi m R1 R2 S2) as L2. pose proof (full_lens g1 g3 lo hi m R1 R3 S3) as L3.
    assert (E2 : n_obs g2 = n_obs g1) by (unfold n_obs; now rewrite L2). assert (E3 : n_obs g3 = n_obs g1) by (unfold n_obs; now rewrite L3).
    rewrite L2 in A2. rewrite L3 in A3. rewrite E2, E3.
    set (lens := map (@length R) (mg_Ys (gp_data g1))) in *. pose proof (rd_D g1 lo hi m R1) as HD. fold lens in HD.
    assert (Q2 : forall j, (j < n_obs g1)%nat -> ski_cov g2 (wt g2) a x (owner (map (@length R) (mg_Ys (gp_data g2))) j) (obs (mg_P (gp_data g2)) (mg_Xs (gp_data g2)) (map (@length R) (mg_Ys (gp_data g2))) j)
        + ski_extra g2 (wt g2) a x (owner (map (@length R) (mg_Ys (gp_data g2))) j) (obs (mg_P (gp_data g2)) (mg_Xs (gp_data g2)) (map (@length R) (mg_Ys (gp_data g2))) j)
      = sk g1 a x (owner lens j) (obs (mg_P (gp_data g1)) (mg_Xs (gp_data g1)) lens j)).
    { intros j Hj. rewrite (si_P _ _ _ S2). rewrite <- (dp_ski _ g1 g2 lo hi m R1 R2 S2 W2 W2' a x (owner lens j) _ x (obs (mg_P (gp_data g1)) (mg_Xs (gp_data g2)) (map (@length R) (mg_Ys (gp_data g2))) j)).
      - rewrite L2. reflexivity.
      - reflexivity.
      - intros c Hc. exact (full_obs g1 g2 lo hi m R1 R2 S2 j c Hj Hc). }
    assert (Q3 : forall j, (j < n_obs g1)%nat -> ski_cov g3 (wt g3) a x (owner (map (@length R) (mg_Ys (gp_data g3))) j) (obs (mg_P (gp_data g3)) (mg_Xs (gp_data g3)) (map (@length R) (mg_Ys (gp_data g3))) j)
        + ski_extra g3 (wt g3) a x (owner (map (@length R) (mg_Ys (gp_data g3))) j) (obs (mg_P (gp_data g3)) (mg_Xs (gp_data g3)) (map (@length R) (mg_Ys (gp_data g3))) j)
      = sk g1 a x (owner lens j) (obs (mg_P (gp_data g1)) (mg_Xs (gp_data g1)) lens j)).
    { intros j Hj. rewrite (si_P _ _ _ S3). rewrite <- (dp_ski _ g1 g3 lo hi m R1 R3 S3 W3 W3' a x (owner lens j) _ x (obs (mg_P (gp_data g1)) (mg_Xs (gp_data g3)) (map (@length R) (mg_Ys (gp_data g3))) j)).
      - rewrite L3. reflexivity.
      - reflexivity.
      - intros c Hc. exact (full_obs g1 g3 lo hi m R1 R3 S3 j c Hj Hc). }
    set (a1 := vget (sd_alpha (al_deriv (gpk_lik k1)))) in *. set (a2 := vget (sd_alpha (al_deriv (gpk_lik k2)))) in *. set (a3 := vget (sd_alpha (al_deriv (gpk_lik k3)))) in *.
    assert (EK : forall g', same_inputs (fun _ => true) g1 g' -> gp_ready g' lo hi m -> forall i j, (i < n_obs g1)%nat -> (j < n_obs g1)%nat -> K_fit g' i j = K_fit g1 i j).
    { intros g' S' R' i0 j0 Hi0 Hj0. destruct (full_within g1 g' lo hi m R1 R' S') as [W W']. pose proof (full_lens g1 g' lo hi m R1 R' S') as L. symmetry.
      destruct (owner_lt lens i0 Hi0) as [Oi [Pi Ei]]. destruct (owner_lt lens j0 Hj0) as [Oj [Pj Ej]]. rewrite HD in Oi, Oj.
      pose proof (fit_S _ g1 g' lo hi m R1 R' S' W W' _ _ _ _ Oi Oj eq_refl eq_refl Pi Pj) as Q. rewrite L in Q. fold lens in Q. unfold ix in Q. now rewrite <- Ei, <- Ej in Q. }
    assert (EA : forall j, (j < n_obs g1)%nat -> a3 j = c1 * a1 j + c2 * a2 j).
    { intros j Hj. apply (solves_unique (n_obs g1) (K_fit g1) (y_obs g3) a3 (fun j => c1 * a1 j + c2 * a2 j) (fit_pivots g1 lo hi m R1 Hp)); [| |exact Hj].
      - intros i0 Hi0. rewrite <- (A3 i0 Hi0). apply Rsum_ext. intros j0 Hj0. now rewrite (EK g3 S3 R3).
      - intros i0 Hi0. rewrite (Rsum_ext _ _ (fun j => c1 * (K_fit g1 i0 j * a1 j) + c2 * (K_fit g2 i0 j * a2 j))).
        2:{ intros j0 Hj0. rewrite (EK g2 S2 R2) by assumption. ring. }
        change (n_obs g1) with (nsum lens). rewrite Rsum_plus, !Rsum_scal_l, (A1 i0 Hi0), (A2 i0 Hi0).
        assert (Hi2 : (i0 < nsum (map (@length R) (mg_Ys (gp_data g2))))%nat) by (rewrite L2; exact Hi0). assert (Hi3 : (i0 < nsum (map (@length R) (mg_Ys (gp_data g3))))%nat) by (rewrite L3; exact Hi0).
        unfold y_obs. rewrite (concat_get _ _ Hi0), (concat_get _ _ Hi2), (concat_get _ _ Hi3), L2, L3. fold lens.
        destruct (owner_lt lens i0 Hi0) as [Oi [Pi _]]. rewrite HD in Oi. symmetry. apply HY; [exact Oi|].
        unfold lens in Pi. change 0%nat with (@length R []) in Pi. now rewrite map_nth in Pi. }
    rewrite (Rsum_ext _ _ (fun j => c1 * (sk g1 a x (owner lens j) (obs (mg_P (gp_data g1)) (mg_Xs (gp_data g1)) lens j) * a1 j) + c2 * (sk g1 a x (owner lens j) (obs (mg_P (gp_data g1)) (mg_Xs (gp_data g1)) lens j) * a2 j))).
    2:{ intros j Hj. rewrite Q3, EA by exact Hj. ring. }
    rewrite Rsum_plus, !Rsum_scal_l. f_equal. f_equal. apply Rsum_ext. intros j Hj. now rewrite Q2.
Qed.
Print Assumptions C79_linear.

(** ** Examples *)

(** Three kernels and two outputs, uncorrelated as the vectors are (1, 0). *)
Definition dep_f : result fkernel :=
  fk_init (fun _ _ d => match d with O => 1 | _ => 0 end) (Some 2%nat) (Some [(RBF 1, None); (Matern32 2, None)]) (Some [1%Z; 1%Z]) (Some []) (Some [(RBF 3, None)]) (Some [0%Z]).

Lemma dep_three : exists f f', dep_f = Ok f /\ three f f' /\ uncorrelated f' (Nat.eqb 1).
Proof.
  destruct pos_rbf as [P1 [P2 _]]. pose proof pos_rbf3 as P3. destruct dep_f as [f|] eqn:E; [|discriminate E].
  assert (Hr : reach f) by (eapply reach_init; exact E).
  destruct (set_input_dim f 1) as [f'|] eqn:E'.
  2:{ cbv -[IZR Rmult Rinv Rplus Rdiv Ropp] in E. apply Ok_inj in E. subst f. discriminate E'. }
  assert (Hr' : reach f') by (eapply reach_dim; eassumption).
  cbv -[IZR Rmult Rinv Rplus Rdiv Ropp] in E. apply Ok_inj in E.
  assert (Ef : f' = match set_input_dim f 1 with Ok x => x | _ => f' end) by now rewrite E'.
  rewrite <- E in Ef. cbv -[IZR Rmult Rinv Rplus Rdiv Ropp] in Ef.
  exists f, f'. split; [reflexivity|].
  assert (HQ : forall q, (q < f_Q f')%nat -> dims_of f' q = Some [0%nat]).
  { intros q Hq. rewrite Ef in *. cbn in Hq. destruct q as [|[|[|q]]]; [reflexivity|reflexivity|reflexivity|lia]. }
  split; [constructor; try assumption; try (rewrite Ef; reflexivity); try (rewrite <- E; reflexivity)|].
  - intros q Hq; rewrite <- E in *; cbn in Hq. destruct q as [|[|[|q]]]; [split; [assumption|exact I]..|lia].
  - constructor.
    + intros q Hq _. unfold qdims. now rewrite HQ.
    + intros q a Hq Ha. rewrite Ef in *. cbn in Hq, Ha. destruct q as [|[|[|q]]]; [| | |lia]; destruct a as [|[|a]]; try lia; cbn; lra.
    + intros a Ha. rewrite Ef in *. cbn in Ha. destruct a as [|[|a]]; [| |lia]; cbn; lra.
  - intros q Hq. rewrite Ef in *. cbn in Hq. destruct q as [|[|[|q]]]; [reflexivity|reflexivity|reflexivity|lia].
  - intros ad Had. assert (HA : f_active f' = [([0%nat], seq 0 (f_Q f'))]) by (rewrite Ef; reflexivity). assert (HP : f_P f' = Some 1%nat) by (rewrite Ef; reflexivity).
    pose proof (ex_single f' HA Hr' HP ad Had) as ->.
    intros [_ [[H _]|[H _]]]; apply H; exists 0%nat; rewrite Ef; (split; [left; reflexivity|left; unfold is_lmc; cbn; lia]).
  - intros q a b Hq Ha Hb N. rewrite Ef in *. cbn in Hq, Ha, Hb. destruct q as [|[|[|q]]]; [| | |lia]; (destruct a as [|[|a]]; [| |lia]); (destruct b as [|[|b]]; [| |lia]);
      try (now destruct N); unfold B_of; cbn; ring.
Qed.

Definition rev_Zs : list ndarr := rev ex1_Zs.
Lemma rev_requests : requests 1 rev_Zs [0; 3]%nat.
Proof. constructor; [split; [left; reflexivity|reflexivity]|]. constructor; [split; [right; split; reflexivity|reflexivity]|constructor]. Qed.

Lemma in_bounds g g' nrm Xs Ys Xs' Ys' : gp_data g = multi_of 1 Xs Ys nrm -> gp_data g' = multi_of 1 Xs' Ys' nrm ->
  (forall i, (i < n_obs g')%nat -> 0 <= obs 1 (mg_Xs (gp_data g')) (map (@length R) (mg_Ys (gp_data g'))) i 0 <= 10) -> within (GNum 0) (GNum 10) (GNum 2%nat) g g'.
Proof.
  intros D1 D2 H. assert (EP : mg_P (gp_data g) = 1%nat) by now rewrite D1. unfold within. rewrite EP. intros [|p] Hp; [|lia]. split; [reflexivity|]. intros x [i [Hi ->]].
  exists 0, 10. split; [right; reflexivity|]. split; [right; reflexivity|]. exact (H i Hi).
Qed.

(** The hypotheses of C79_separate, in all modes: the models differ in the
    data of output 0. *)
Example C79_separate_ex : forall md, exists f g g' solve solve' bits bits' k k',
  gp_init ex1_Xs ex1_Ys true (GNum 0) (GNum 10) (GNum 2%nat) (Some md) (Some f) = Ok g /\
  gp_init more_Xs more_Ys true (GNum 0) (GNum 10) (GNum 2%nat) (Some md) (Some f) = Ok g' /\
  gp_ready g (GNum 0) (GNum 10) (GNum 2%nat) /\ gp_ready g' (GNum 0) (GNum 10) (GNum 2%nat) /\
  same_inputs (Nat.eqb 1) g g' /\ uncorrelated (gp_f g) (Nat.eqb 1) /\ within (GNum 0) (GNum 10) (GNum 2%nat) g g' /\ within (GNum 0) (GNum 10) (GNum 2%nat) g' g /\
  fitted solve bits 1 g k /\ fitted solve' bits' 1 g' k' /\
  exact_solver (n_obs g) (K_fit g) solve /\ exact_solver (n_obs g') (K_fit g') solve' /\ proper (gp_f g) /\
  no_identity (gp_f g) /\ mode_ready g /\ requests (mg_P (gp_data g)) rev_Zs [0; 3]%nat /\ f_D (gp_f g) = 2%nat /\
  (forall a, (a < f_D (gp_f g))%nat -> Nat.eqb 1 a = true -> nth a (mg_Ys (gp_data g')) [] = nth a (mg_Ys (gp_data g)) [] /\ norm_of g' a = norm_of g a) /\
  norm_of g' 0 <> norm_of g 0.
Proof.
  intros md. destruct dep_three as [f [f' (_ & T & U)]].
  pose proof (two_models f f' true md (th_reach _ _ T) (th_ok _ _ T) (th_D _ _ T) (th_set _ _ T) (th_active _ _ T) (th_P _ _ T)) as M.
  destruct (M _ _ ex1_good) as [g (E1 & R1 & F1 & M1 & G1)]. destruct (M _ _ more_data) as [g' (E2 & R2 & F2 & M2 & G2)].
  assert (Hp1 : proper (gp_f g)) by (rewrite F1; exact (th_proper _ _ T)). assert (Hp2 : proper (gp_f g')) by (rewrite F2; exact (th_proper _ _ T)).
  destruct (fit_exists g _ _ _ R1 Hp1) as [solve [bits [k [Hs Hf]]]]. destruct (fit_exists g' _ _ _ R2 Hp2) as [solve' [bits' [k' [Hs' Hf']]]].
  exists f, g, g', solve, solve', bits, bits', k, k'. repeat (split; [assumption|]).
  split. { constructor.
    - now rewrite G1, G2.
    - congruence.
    - congruence.
    - rewrite F1, (th_D' _ _ T), G1, G2. intros [|[|a]] Ha Ea; [discriminate Ea|reflexivity|lia].
    - rewrite F1, (th_D' _ _ T), G1, G2. intros [|[|a]] l c Ha Ea Hl Hc; [discriminate Ea|reflexivity|lia]. }
  split; [now rewrite F1|].
  split. { apply (in_bounds _ _ _ _ _ _ _ G1 G2). unfold n_obs. rewrite G2. intros i Hi. do 5 (destruct i as [|i]; [cbn; lra|]). cbn in Hi. lia. }
  split. { apply (in_bounds _ _ _ _ _ _ _ G2 G1). unfold n_obs. rewrite G1. intros i Hi. do 4 (destruct i as [|i]; [cbn; lra|]). cbn in Hi. lia. }
  repeat (split; [assumption|]). split; [rewrite F1; exact (th_id _ _ T)|]. split.
  { unfold mode_ready. rewrite F1, M1. destruct md; [exact I| |].
    - rewrite G1. intros q Hq. unfold qdims. now rewrite (th_qdims _ _ T q Hq).
    - rewrite <- F1. exact (K_obs_pdR g _ _ _ R1 Hp1). }
  split; [rewrite G1; exact rev_requests|]. split; [now rewrite F1, (th_D' _ _ T)|]. split.
  - rewrite F1, (th_D' _ _ T). unfold norm_of. rewrite G1, G2. intros [|[|a]] Ha Ea; [discriminate Ea|split; reflexivity|lia].
  - unfold norm_of. rewrite G1, G2. cbn. intros C. injection C as C _. unfold np_mean, lsum in C. cbn in C. lra.
Qed.

(** The hypotheses of C79_linear: the values of the third model are twice those
    of the first minus those of the second. *)
Definition lin_Ys2 : list ndarr := [mk_arr [2]%nat [1; 0]; mk_arr [2]%nat [0; 2]].
Definition lin_Ys3 : list ndarr := [mk_arr [2]%nat [1; 4]; mk_arr [2]%nat [6; 8]].

Lemma lin_good : good_data ex1_Xs lin_Ys2 /\ good_data ex1_Xs lin_Ys3.
Proof.
  split; (split; [intros X [<-|[<-|[]]]; reflexivity|]; split; [intros X [<-|[<-|[]]]; reflexivity|];
  split; [|split; [intros X [<-|[<-|[]]]; reflexivity|split; [intros X [<-|[<-|[]]]; discriminate|reflexivity]]];
  split; [discriminate|]; split; [constructor; [|constructor; [|constructor]]; exists 2%nat; (split; [|reflexivity]); [left; reflexivity|right; now exists 1%nat]|];
  split; [exists 1%nat; intros X [<-|[<-|[]]]; reflexivity|]); intros Y [<-|[<-|[]]]; right;
    [exists 1, 0|exists 0, 2|exists 1, 4|exists 6, 8]; cbn; repeat split; auto; lra.
Qed.

Example C79_linear_ex : forall md, exists f g1 g2 g3 s1 s2 s3 b1 b2 b3 k1 k2 k3,
  gp_init ex1_Xs ex1_Ys false (GNum 0) (GNum 10) (GNum 2%nat) (Some md) (Some f) = Ok g1 /\
  gp_init ex1_Xs lin_Ys2 false (GNum 0) (GNum 10) (GNum 2%nat) (Some md) (Some f) = Ok g2 /\
  gp_init ex1_Xs lin_Ys3 false (GNum 0) (GNum 10) (GNum 2%nat) (Some md) (Some f) = Ok g3 /\
  gp_ready g1 (GNum 0) (GNum 10) (GNum 2%nat) /\ gp_ready g2 (GNum 0) (GNum 10) (GNum 2%nat) /\ gp_ready g3 (GNum 0) (GNum 10) (GNum 2%nat) /\
  same_inputs (fun _ => true) g1 g2 /\ same_inputs (fun _ => true) g1 g3 /\
  mg_norm (gp_data g1) = None /\ mg_norm (gp_data g2) = None /\ mg_norm (gp_data g3) = None /\
  (forall a l, (a < f_D (gp_f g1))%nat -> (l < length (nth a (mg_Ys (gp_data g1)) []))%nat ->
     vget (nth a (mg_Ys (gp_data g3)) []) l = 2 * vget (nth a (mg_Ys (gp_data g1)) []) l + (-1) * vget (nth a (mg_Ys (gp_data g2)) []) l) /\
  fitted s1 b1 1 g1 k1 /\ fitted s2 b2 1 g2 k2 /\ fitted s3 b3 1 g3 k3 /\
  exact_solver (n_obs g1) (K_fit g1) s1 /\ exact_solver (n_obs g2) (K_fit g2) s2 /\ exact_solver (n_obs g3) (K_fit g3) s3 /\ proper (gp_f g1) /\
  no_identity (gp_f g1) /\ mode_ready g1 /\ requests (mg_P (gp_data g1)) ex1_Zs [3; 0]%nat /\ f_D (gp_f g1) = 2%nat.
Proof.
  intros md. destruct alike_three as [f [f' (_ & T & _)]]. destruct lin_good as [L2 L3].
  pose proof (two_models f f' false md (th_reach _ _ T) (th_ok _ _ T) (th_D _ _ T) (th_set _ _ T) (th_active _ _ T) (th_P _ _ T)) as M.
  destruct (M _ _ ex1_good) as [g1 (E1 & R1 & F1 & M1 & G1)]. destruct (M _ _ L2) as [g2 (E2 & R2 & F2 & M2 & G2)]. destruct (M _ _ L3) as [g3 (E3 & R3 & F3 & M3 & G3)].
  assert (Hp : forall g, gp_f g = f' -> proper (gp_f g)) by (intros g ->; exact (th_proper _ _ T)).
  destruct (fit_exists g1 _ _ _ R1 (Hp _ F1)) as [s1 [b1 [k1 [Hs1 Hf1]]]]. destruct (fit_exists g2 _ _ _ R2 (Hp _ F2)) as [s2 [b2 [k2 [Hs2 Hf2]]]].
  destruct (fit_exists g3 _ _ _ R3 (Hp _ F3)) as [s3 [b3 [k3 [Hs3 Hf3]]]].
  exists f, g1, g2, g3, s1, s2, s3, b1, b2, b3, k1, k2, k3. repeat (split; [assumption|]).
  split. { constructor; try congruence; [now rewrite G1, G2| |]; rewrite F1, (th_D' _ _ T), G1, G2; [intros [|[|a]] Ha Ea|intros a l c Ha Ea Hl Hc]; [reflexivity|reflexivity|lia|reflexivity]. }
  split. { constructor; try congruence; [now rewrite G1, G3| |]; rewrite F1, (th_D' _ _ T), G1, G3; [intros [|[|a]] Ha Ea|intros a l c Ha Ea Hl Hc]; [reflexivity|reflexivity|lia|reflexivity]. }
  split; [now rewrite G1|]. split; [now rewrite G2|]. split; [now rewrite G3|].
  split. { rewrite F1, (th_D' _ _ T), G1, G2, G3. intros [|[|a]] [|[|l]] Ha Hl; try lia; try (cbn in Hl; lia); cbn; lra. }
  repeat (split; [assumption|]). split; [exact (Hp _ F1)|]. split; [rewrite F1; exact (th_id _ _ T)|]. split.
  { unfold mode_ready. rewrite F1, M1. destruct md; [exact I| |].
    - rewrite G1. intros q Hq. unfold qdims. now rewrite (th_qdims _ _ T q Hq).
    - rewrite <- F1. exact (K_obs_pdR g1 _ _ _ R1 (Hp _ F1)). }
  split; [rewrite G1; exact ex1_requests|]. now rewrite F1, (th_D' _ _ T).
Qed.
