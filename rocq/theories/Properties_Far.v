(** Claims about predictions far from the data (C82). *)

From Coq Require Import Reals List Arith ZArith Lia Lra.
From Verif Require Import Base NDArray PSD Model_Util Proofs_Util Spec_Util Model_Linalg Spec_Linalg Proofs_Linalg Model_Interp Spec_Interp
  Properties_Interp Model_Kern Spec_Kern Proofs_Kern Proofs_KernPSD Model_FK Spec_FK Proofs_FK
  Properties_FK Model_Grid Spec_Grid Proofs_Grid Proofs_Grid2 Properties_Grid Det Proofs_Det Model_Lik Spec_Lik Proofs_Lik Proofs_Lik2 Proofs_Lik3 Proofs_Lik4 Proofs_Lik5 Proofs_Lik6 Proofs_Lik7 Properties_Lik
  Properties_Lik2 Spec_GP Proofs_Gen Proofs_Gen2 Properties_Gen Model_GP Spec_Pred Proofs_Pred Proofs_Pred2 Proofs_Pred3 Proofs_Pred4 Proofs_Init Proofs_Pred5 Proofs_Pred6 Properties_Pred
  Spec_Order Proofs_Order Proofs_Order2 Proofs_Order3 Properties_Order Spec_Depend Proofs_Depend Properties_Alike Spec_Lip Proofs_Lip Proofs_Lip2 Spec_Far Proofs_Far.
Import ListNotations.
Open Scope R_scope.

(** Past the end of the grids predictive means stay what they are at the end,
    however far the requested point is; so do the variances of the precompute
    mode. *)
Theorem C82_edge :
  forall g lo hi m solve bits n_it k, gp_ready g lo hi m -> fitted solve bits n_it g k -> exact_solver (n_obs g) (K_fit g) solve ->
  no_identity (gp_f g) -> mode_ready g ->
  forall Zs zl Zs' zl', requests (mg_P (gp_data g)) Zs zl -> length zl = f_D (gp_f g) -> (0 < nsum zl)%nat ->
    requests (mg_P (gp_data g)) Zs' zl' -> length zl' = f_D (gp_f g) -> (0 < nsum zl')%nat ->
  exists mu var mu' var', gp_predict solve g k Zs = Ok (mu, var) /\ gp_predict solve g k Zs' = Ok (mu', var') /\
    forall a i j, (a < f_D (gp_f g))%nat -> (i < nth a zl 0)%nat -> (j < nth a zl' 0)%nat ->
      indistinct g (point (mg_P (gp_data g)) Zs a i) (point (mg_P (gp_data g)) Zs' a j) ->
      vget (nth a mu []) i = vget (nth a mu' []) j /\ (gp_mode g = Precompute -> vget (nth a var []) i = vget (nth a var' []) j).
Proof.
  intros g lo hi m solve bits n_it k HR Hf Hs Hid Hm Zs zl Zs' zl' HZ Hz Ht HZ' Hz' Ht'.
  destruct (fit_solver g lo hi m HR _ _ _ _ Hf Hs) as [_ [Hr _]]. destruct Hf as [old [st Hf]]. destruct (fitted_of g _ _ _ _ _ _ Hf) as [HK _].
  eexists _, _, _, _. split; [exact (predict_ok g lo hi m HR k HK solve Hr Zs zl Hid Hm HZ Hz (fun _ => Ht))|].
  split; [exact (predict_ok g lo hi m HR k HK solve Hr Zs' zl' Hid Hm HZ' Hz' (fun _ => Ht'))|].
  intros a i j Ha Hi Hj HI. rewrite !nth_tab by exact Ha. rewrite !vget_tab by assumption. split.
  - f_equal. exact (mean_same g lo hi m HR k a _ _ HI).
  - intros Em. f_equal. unfold var_at. now rewrite (pre_same g lo hi m HR k solve a _ _ Hm Em HI).
Qed.
Print Assumptions C82_edge.

Lemma k_zero_nonneg k : positive k -> 0 <= k_doc k 0.
Proof.
  induction k as [c|c|c T| |k IH s]; intros Hp; try (rewrite k_doc_zero by exact I; lra). cbn [k_doc].
  apply Rmult_le_pos; [apply Rlt_le, Hp; cbn; apply in_or_app; right; left; reflexivity|]. apply IH. intros v Hv. apply Hp. cbn. apply in_or_app. now left.
Qed.

Lemma prior_pos g lo hi m : gp_ready g lo hi m -> proper (gp_f g) -> forall a, (a < f_D (gp_f g))%nat -> 0 < prior_var (gp_f g) a.
Proof.
  intros HR Hp a Ha. unfold prior_var. apply Rplus_lt_le_0_compat; [exact (pr_noise _ Hp a Ha)|]. apply Rsum_nonneg. intros q Hq.
  apply Rmult_le_pos; [|apply k_zero_nonneg, (gr_kern _ _ _ _ HR q Hq)]. unfold B_of. rewrite Nat.eqb_refl. apply Rplus_le_le_0_compat; [|now apply (pr_diag _ Hp)].
  apply Rsum_nonneg. intros r Hr. apply Rle_0_sqr.
Qed.

(** In the other modes the variances return to the prior variance: with kernels
    that tend to zero they come as close to it as one likes when, for each
    kernel, some coordinate it uses is large. *)
Theorem C82_prior_variance :
  forall g lo hi m solve bits n_it k, gp_ready g lo hi m -> fitted solve bits n_it g k -> exact_solver (n_obs g) (K_fit g) solve ->
  proper (gp_f g) -> mode_ready g -> gp_mode g <> Precompute -> (forall q, (q < f_Q (gp_f g))%nat -> fades (kern_of (gp_f g) q)) ->
  forall eps, 0 < eps -> exists r, forall Zs zl, requests (mg_P (gp_data g)) Zs zl -> length zl = f_D (gp_f g) -> (0 < nsum zl)%nat ->
  exists mu var, gp_predict solve g k Zs = Ok (mu, var) /\
    forall a i, (a < f_D (gp_f g))%nat -> (i < nth a zl 0)%nat ->
      (forall q, (q < f_Q (gp_f g))%nat -> exists p, In p (qdims (gp_f g) q) /\ r <= Rabs (point (mg_P (gp_data g)) Zs a i p)) ->
      Rabs (vget (nth a var []) i - unnorm_var g a (prior_var (gp_f g) a)) <= eps.
Proof.
  intros g lo hi m solve bits n_it k HR Hf Hs Hp Hm Hn HF eps Heps.
  assert (Hid : no_identity (gp_f g)).
  { intros q Hq. specialize (HF q Hq). induction (kern_of (gp_f g) q); try reflexivity; [destruct HF|now apply IHk0]. }
  destruct (fit_solver g lo hi m HR _ _ _ _ Hf Hs) as [He [Hr _]]. destruct Hf as [old [st Hf]]. destruct (fitted_of g _ _ _ _ _ _ Hf) as [HK _].
  assert (V : forall a, (a < f_D (gp_f g))%nat -> forall e, 0 < e -> exists r, forall x, afar g r x -> Rabs (unnorm_var g a (var_at g k solve a x) - unnorm_var g a (prior_var (gp_f g) a)) <= e).
  { intros a Ha e H0. assert (HV := explained_vanish g lo hi m HR HF Hid solve k Hp He a Hm Hn). unfold unnorm_var.
    assert (C : forall x, Rabs (var_at g k solve a x - prior_var (gp_f g) a) <= Rabs (explained g k solve a x)).
    { intros x. pose proof (clip_lip (prior_var (gp_f g) a - explained g k solve a x) (prior_var (gp_f g) a)) as HC.
      assert (EC : clip (prior_var (gp_f g) a) = prior_var (gp_f g) a).
      { unfold clip. destruct (Rlt_dec (prior_var (gp_f g) a) 0) as [Hneg|]; [|reflexivity]. exfalso.
        pose proof (prior_pos g lo hi m HR Hp a Ha). lra. }
      rewrite EC in HC. unfold var_at. eapply Rle_trans; [exact HC|]. right. rewrite <- Rabs_Ropp. f_equal. ring. }
    destruct (mg_norm (gp_data g)) as [l|].
    - set (s := n_std (nth a l (mk_norm 0 1)) ^ 2). pose proof (Rabs_pos s). destruct (HV (e / (Rabs s + 1)) ltac:(apply Rdiv_lt_0_compat; lra)) as [r H1].
      exists r. intros x Hx. rewrite <- Rmult_minus_distr_r, Rabs_mult. specialize (C x). specialize (H1 x Hx).
      apply Rle_trans with (e / (Rabs s + 1) * (Rabs s + 1)); [apply Rmult_le_compat; try apply Rabs_pos; lra|right; field; lra].
    - destruct (HV e H0) as [r H1]. exists r. intros x Hx. specialize (C x). specialize (H1 x Hx). lra. }
  assert (U : forall D, (D <= f_D (gp_f g))%nat -> exists r, forall a, (a < D)%nat -> forall x, afar g r x -> Rabs (unnorm_var g a (var_at g k solve a x) - unnorm_var g a (prior_var (gp_f g) a)) <= eps).
  { induction D as [|D IH]; intros HD; [exists 0; intros; lia|]. destruct (IH ltac:(lia)) as [r H1]. destruct (V D ltac:(lia) eps Heps) as [s H2].
    exists (Rmax r s). intros a Ha x Hx. destruct (Nat.eq_dec a D) as [->|].
    - apply H2. exact (afar_le g _ _ x (Rmax_r r s) Hx).
    - apply H1; [lia|]. exact (afar_le g _ _ x (Rmax_l r s) Hx). }
  destruct (U (f_D (gp_f g)) (le_n _)) as [r HU]. exists r. intros Zs zl HZ Hz Ht.
  eexists _, _. split; [exact (predict_ok g lo hi m HR k HK solve Hr Zs zl Hid Hm HZ Hz (fun _ => Ht))|].
  intros a i Ha Hi HA. rewrite !nth_tab by exact Ha. rewrite !vget_tab by assumption. apply HU; [exact Ha|exact HA].
Qed.
Print Assumptions C82_prior_variance.

(** *** Examples *)

(** The hypotheses of C82_edge and C82_prior_variance: a fitted model of two
    outputs in any mode; points past the upper end 20 of its grid. *)
Lemma ex1_axis g : gp_ready g (GNum 0) (GNum 10) (GNum 2%nat) -> gp_data g = multi_of 1 ex1_Xs ex1_Ys true ->
  group (gp_f g) [0%nat] <> [] -> ag_axes (grid_at (gp_grids g) [0%nat]) = [[-10; -4; 2; 8; 14; 20]].
Proof.
  intros HR Ed Had. destruct (rd_grid g _ _ _ HR [0%nat] Had) as [E [l [HL _]]].
  pose proof (gr_grids _ _ _ _ HR) as EG. rewrite Ed in EG. cbn [multi_of mg_Xs] in EG.
  unfold generate_grids in EG. apply map_result_inv in EG. apply dict_get_in in E.
  assert (HI : forall l1 (l2 : dict ad_grid), Forall2 (fun ad p => (let! a := generate_grid (map pad1 ex1_Xs) (GNum 0) (GNum 10) (GNum 2%nat) ad in Ok (ad, a)) = Ok p) l1 l2 ->
     forall p, In p l2 -> generate_grid (map pad1 ex1_Xs) (GNum 0) (GNum 10) (GNum 2%nat) (fst p) = Ok (snd p)).
  { induction 1 as [|x p l1 l2 Hp _ IH]; intros p' Hp'; [destruct Hp'|]. destruct Hp' as [<-|Hp']; [|now apply IH].
    apply bind_ok in Hp. destruct Hp as [a [Ea Hp]]. apply Ok_inj in Hp. subst p. exact Ea. }
  apply ex1_axes. exact (HI _ _ EG _ E).
Qed.

Definition far_Zs (c : R) : list ndarr := [mk_arr [1]%nat [c]; mk_arr [0]%nat []].
Lemma far_requests c : requests 1 (far_Zs c) [1; 0]%nat.
Proof. constructor; [split; [right; split; reflexivity|reflexivity]|]. constructor; [split; [right; split; reflexivity|reflexivity]|constructor]. Qed.

Example C82_edge_ex : forall md, exists f g s b k,
  gp_init ex1_Xs ex1_Ys true (GNum 0) (GNum 10) (GNum 2%nat) (Some md) (Some f) = Ok g /\ gp_ready g (GNum 0) (GNum 10) (GNum 2%nat) /\
  fitted s b 1 g k /\ exact_solver (n_obs g) (K_fit g) s /\ proper (gp_f g) /\ no_identity (gp_f g) /\ mode_ready g /\ gp_mode g = md /\ f_D (gp_f g) = 2%nat /\ mg_P (gp_data g) = 1%nat /\
  (forall q, (q < f_Q (gp_f g))%nat -> fades (kern_of (gp_f g) q)) /\ requests 1 (far_Zs 26) [1; 0]%nat /\ requests 1 (far_Zs 1000) [1; 0]%nat /\
  indistinct g (point 1 (far_Zs 26) 0 0) (point 1 (far_Zs 1000) 0 0) /\ ~ indistinct g (point 1 (far_Zs 5) 0 0) (point 1 (far_Zs 26) 0 0).
Proof.
  intros md. destruct alike_three as [f [f' (_ & T & _ & _ & _ & KE)]].
  destruct (two_models f f' true md (th_reach _ _ T) (th_ok _ _ T) (th_D _ _ T) (th_set _ _ T) (th_active _ _ T) (th_P _ _ T) _ _ ex1_good) as [g (E & HR & F & M & G)].
  assert (Hp : proper (gp_f g)) by (rewrite F; exact (th_proper _ _ T)).
  destruct (fit_exists g _ _ _ HR Hp) as [s [b [k [Hs Hf]]]]. exists f, g, s, b, k. repeat (split; [assumption|]). split; [rewrite F; exact (th_id _ _ T)|]. split.
  { unfold mode_ready. rewrite F, M. destruct md; [exact I| |].
    - rewrite G. intros q Hq. unfold qdims. now rewrite (th_qdims _ _ T q Hq).
    - rewrite <- F. exact (K_obs_pdR g _ _ _ HR Hp). }
  split; [exact M|]. split; [now rewrite F, (th_D' _ _ T)|]. split; [now rewrite G|]. split.
  { rewrite F. intros q Hq. rewrite (th_Q _ _ T) in Hq. unfold kern_of. rewrite <- (map_nth fst (f_kernels f') (KIdentity, None)), KE. destruct q as [|[|[|q]]]; [exact I..|lia]. }
  split; [apply far_requests|]. split; [apply far_requests|].
  assert (Had : group (gp_f g) [0%nat] <> []) by (rewrite F, (three_group _ _ _ T); discriminate). split.
  - intros ad p H Hl. rewrite F, (three_group _ _ ad T) in H. destruct (list_eq_dec Nat.eq_dec ad [0%nat]) as [->|]; [|congruence].
    rewrite (ex1_axis g HR G Had). destruct p; [|cbn in Hl; lia]. right. left. unfold above. cbn. split; right; lra.
  - intros H. specialize (H [0%nat] 0%nat Had ltac:(cbn; lia)). rewrite (ex1_axis g HR G Had) in H. unfold above, below in H. cbn in H. lra.
Qed.

(** *** What does not hold *)

Definition far_f : result fkernel := fk_init (fun _ _ _ => 1) (Some 2%nat) (Some []) (Some []) (Some [(RBF (1/81), None)]) (Some []) (Some []).

Record far_ok (f f' : fkernel) : Prop := {
  fa_set : set_input_dim f 1 = Ok f';
  fa_reach : reach f;
  fa_ok : kernels_ok f;
  fa_D : f_D f = 2%nat;
  fa_D' : f_D f' = 2%nat;
  fa_P : f_P f' = Some 1%nat;
  fa_active : f_active f' = [([0%nat], seq 0 (f_Q f'))];
  fa_Q : f_Q f' = 1%nat;
  fa_noise : f_noise f' = [1/10; 1/10];
  fa_kern : kern_of f' 0 = RBF (1/81) /\ dims_of f' 0 = Some [0%nat];
  fa_proper : proper f';
  fa_cov : forall a b, (a < 2)%nat -> (b < 2)%nat -> B_of f' 0 a b = 1;
  fa_surplus : surplus_b f' [0%nat] = false
}.

Lemma far_model : exists f f', far_f = Ok f /\ far_ok f f'.
Proof.
  assert (P1 : positive (RBF (1/81))) by (intros v H; cbn in H; repeat destruct H as [<-|H]; try destruct H; lra). destruct far_f as [f|] eqn:E; [|discriminate E].
  assert (Hr : reach f) by (eapply reach_init; exact E).
  destruct (set_input_dim f 1) as [f'|] eqn:E'.
  2:{ cbv -[IZR Rmult Rinv Rplus Rdiv Ropp] in E. apply Ok_inj in E. subst f. discriminate E'. }
  assert (Hr' : reach f') by (eapply reach_dim; eassumption).
  cbv -[IZR Rmult Rinv Rplus Rdiv Ropp] in E. apply Ok_inj in E.
  assert (Ef : f' = match set_input_dim f 1 with Ok x => x | _ => f' end) by now rewrite E'.
  rewrite <- E in Ef. cbv -[IZR Rmult Rinv Rplus Rdiv Ropp] in Ef.
  exists f, f'. split; [reflexivity|].
  assert (EQ : f_Q f' = 1%nat) by (rewrite Ef; reflexivity).
  assert (HQ : kern_of f' 0 = RBF (1/81) /\ dims_of f' 0 = Some [0%nat]) by (rewrite Ef; split; reflexivity).
  constructor; try assumption; try (rewrite Ef; reflexivity); try (rewrite <- E; reflexivity).
  - intros q Hq; rewrite <- E in *; cbn in Hq. destruct q as [|q]; try lia; (split; [assumption|exact I]).
  - constructor.
    + intros q Hq _. unfold qdims. rewrite EQ in Hq. destruct q; [|lia]. now rewrite (proj2 HQ).
    + intros q a Hq Ha. rewrite EQ in Hq. rewrite Ef in *. cbn in Ha. destruct q as [|q]; try lia; destruct a as [|[|a]]; try lia; cbn; lra.
    + intros a Ha. rewrite Ef in *. cbn in Ha. destruct a as [|[|a]]; [| |lia]; cbn; lra.
  - intros a b Ha Hb. rewrite Ef. destruct a as [|[|a]]; [| |lia]; (destruct b as [|[|b]]; [| |lia]); unfold B_of; cbn; lra.
Qed.

Section FarExample.
Variables (f f' : fkernel) (g : gp).
Hypothesis T : far_ok f f'.
Hypothesis F : gp_f g = f'.
Hypothesis HR : gp_ready g (GNum 0) (GNum 10) (GNum 2%nat).
Hypothesis G : gp_data g = multi_of 1 sp_Xs ex1_Ys false.

Lemma far_group ad : group (gp_f g) ad = if list_eq_dec Nat.eq_dec ad [0%nat] then [0%nat] else [].
Proof.
  rewrite F. unfold group. fold (f_Q f'). rewrite (fa_Q _ _ T). cbn [seq filter]. rewrite (proj2 (fa_kern _ _ T)).
  destruct (list_eq_dec Nat.eq_dec [0%nat] ad), (list_eq_dec Nat.eq_dec ad [0%nat]); congruence.
Qed.
Lemma far_had : group (gp_f g) [0%nat] <> [].
Proof. rewrite far_group. discriminate. Qed.
Lemma far_single ad : group (gp_f g) ad <> [] -> ad = [0%nat].
Proof. rewrite far_group. destruct (list_eq_dec _ _ _); congruence. Qed.

Lemma far_axis : ag_axes (grid_at (gp_grids g) [0%nat]) = [[-10; -4; 2; 8; 14; 20]].
Proof.
  destruct (rd_grid g _ _ _ HR [0%nat] far_had) as [E _].
  pose proof (gr_grids _ _ _ _ HR) as EG. rewrite G in EG. cbn [multi_of mg_Xs] in EG.
  unfold generate_grids in EG. apply map_result_inv in EG. apply dict_get_in in E.
  assert (HI : forall l1 (l2 : dict ad_grid), Forall2 (fun ad p => (let! a := generate_grid (map pad1 sp_Xs) (GNum 0) (GNum 10) (GNum 2%nat) ad in Ok (ad, a)) = Ok p) l1 l2 ->
     forall p, In p l2 -> generate_grid (map pad1 sp_Xs) (GNum 0) (GNum 10) (GNum 2%nat) (fst p) = Ok (snd p)).
  { induction 1 as [|y p l1 l2 Hp _ IH]; intros p' Hp'; [destruct Hp'|]. destruct Hp' as [<-|Hp']; [|now apply IH].
    apply bind_ok in Hp. destruct Hp as [a [Ea Hp]]. apply Ok_inj in Hp. subst p. exact Ea. }
  apply sp_axes. exact (HI _ _ EG _ E).
Qed.

Lemma far_pts : pts g [0%nat] = 6%nat.
Proof.
  destruct (rd_grid g _ _ _ HR [0%nat] far_had) as [_ [l [_ [E1 [_ [E3 _]]]]]]. rewrite E3.
  rewrite far_axis in E1. unfold axes_points. apply (f_equal (map (@length R))) in E1. rewrite axes_lengths in E1. rewrite <- E1. reflexivity.
Qed.

Lemma far_end x : x 0%nat = 20 -> pt_on_grid g x.
Proof.
  intros Hx ad Had. rewrite (far_single ad Had). exists 5%nat. rewrite far_axis, far_pts. split; [lia|]. intros p Hp. destruct p; [|cbn in Hp; lia]. cbn. exact Hx.
Qed.

Definition at20 : nat -> R := fun _ => 20.

Lemma far_indistinct x : 26 <= x 0%nat -> indistinct g x at20.
Proof.
  intros Hx ad p Had Hp. pose proof (far_single ad Had) as ->. rewrite far_axis. destruct p; [|cbn in Hp; lia]. right. left. unfold above, at20. cbn. split; [right; lra|left; reflexivity].
Qed.

Lemma far_cov a b x z : (a < 2)%nat -> (b < 2)%nat -> lmc_cov (gp_f g) a x b z = exp (- (1/81) * (x 0%nat - z 0%nat) ^ 2 / 2).
Proof.
  intros Ha Hb. rewrite F. unfold lmc_cov. rewrite (fa_Q _ _ T). cbn [Rsum]. rewrite (fa_cov _ _ T) by assumption. rewrite (proj1 (fa_kern _ _ T)). unfold qdims. rewrite (proj2 (fa_kern _ _ T)).
  unfold dist_on. cbn [map lsum fold_right k_doc]. unfold lsum. cbn [fold_right]. rewrite Rplus_0_r, Rplus_0_l, Rmult_1_l. f_equal. f_equal. f_equal.
  apply pow2_sqrt. apply pow2_ge_0.
Qed.

Lemma far_obs j : (j < 4)%nat -> obs (mg_P (gp_data g)) (mg_Xs (gp_data g)) (map (@length R) (mg_Ys (gp_data g))) j 0%nat = 2 /\
  (owner (map (@length R) (mg_Ys (gp_data g))) j < 2)%nat.
Proof. intros Hj. rewrite G. do 4 (destruct j as [|j]; [split; [reflexivity|cbn; lia]|]). lia. Qed.

Lemma far_n : n_obs g = 4%nat.
Proof. unfold n_obs. now rewrite G. Qed.

Lemma far_ski a j : (a < 2)%nat -> (j < 4)%nat ->
  let z := obs (mg_P (gp_data g)) (mg_Xs (gp_data g)) (map (@length R) (mg_Ys (gp_data g))) j in
  let b := owner (map (@length R) (mg_Ys (gp_data g))) j in
  ski_cov g (wt g) a at20 b z = exp (-2) /\ ski_cov g (wt g) a (fun _ => 2) b z = 1 /\ forall x, ski_extra g (wt g) a x b z = 0.
Proof.
  intros Ha Hj z b. destruct (far_obs j Hj) as [Hz Hb]. fold z in Hz. fold b in Hb.
  assert (Nz : pt_on_grid g z) by exact (sp_node g HR G far_single z Hz).
  split; [|split].
  - rewrite (ski_on_grid g _ _ _ HR a at20 b z (far_end at20 eq_refl) Nz), far_cov by assumption. rewrite Hz. unfold at20. f_equal. field.
  - rewrite (ski_on_grid g _ _ _ HR a (fun _ => 2) b z (sp_node g HR G far_single (fun _ => 2) eq_refl) Nz), far_cov by assumption. rewrite Hz.
    replace (- (1 / 81) * (2 - 2) ^ 2 / 2) with 0 by field. apply exp_0.
  - intros x. unfold ski_extra. destruct (Nat.eqb a b); [|reflexivity]. rewrite F, (fa_active _ _ T). cbn [map fst]. unfold lsum. cbn [fold_right]. rewrite (fa_surplus _ _ T). ring.
Qed.

Lemma far_mean k x : solves (n_obs g) (K_fit g) (vget (sd_alpha (al_deriv (gpk_lik k)))) (y_obs g) -> 26 <= x 0%nat -> mean_at g k 0 x = exp (-2) * (110/41).
Proof.
  intros Ha Hx. rewrite (mean_same g _ _ _ HR k 0 x at20 (far_indistinct x Hx)).
  rewrite <- (sp_mean g k false HR G) at 1; try assumption.
  - unfold mean_at. fold (n_obs g). rewrite far_n, <- Rsum_scal_l. apply Rsum_ext. intros j Hj.
    destruct (far_ski 0 j ltac:(lia) Hj) as (E1 & E2 & E3). rewrite E1, !E3.
    assert (E4 : ski_cov g (wt g) 0 (point 1 sp_Zs 0 0) (owner (map (@length R) (mg_Ys (gp_data g))) j) (obs (mg_P (gp_data g)) (mg_Xs (gp_data g)) (map (@length R) (mg_Ys (gp_data g))) j) = 1).
    { rewrite <- E2. unfold ski_cov. cbv zeta. apply Rsum_ext. intros q Hq. f_equal. apply Rsum_ext. intros u Hu. apply Rsum_ext. intros v Hv. f_equal. f_equal.
      rewrite F, (fa_Q _ _ T) in Hq. destruct q; [|lia]. apply (we_ext _ _ (wt_weights g _ _ _ HR)); unfold qdims; rewrite F, (proj2 (fa_kern _ _ T)); [rewrite <- F; apply far_had|intros p [<-|[]]; reflexivity]. }
    rewrite E4. ring.
  - rewrite F. exact (fa_active _ _ T).
  - exact far_single.
  - exact far_had.
  - rewrite F. exact (fa_noise _ _ T).
  - intros a b y H1 H2. rewrite far_cov by assumption. replace (- (1 / 81) * (y 0%nat - y 0%nat) ^ 2 / 2) with 0 by field. apply exp_0.
  - rewrite F. exact (fa_surplus _ _ T).
Qed.

(** In the precompute mode something is explained at the end of the grid. *)
Lemma far_gcov a j : (a < 2)%nat -> (j < 4)%nat -> gcov g [0%nat] a 5 j = exp (-2).
Proof.
  intros Ha Hj. destruct (far_ski a j Ha Hj) as (E1 & _ & _). rewrite <- E1. unfold gcov, ski_cov. cbv zeta. rewrite F, (fa_Q _ _ T). cbn [Rsum]. rewrite Rplus_0_l.
  assert (Eq : qdims f' 0 = [0%nat]) by (unfold qdims; now rewrite (proj2 (fa_kern _ _ T))). rewrite Eq, far_pts.
  assert (N5 : forall u, (u < 6)%nat -> wt g [0%nat] at20 u = if Nat.eqb u 5 then 1 else 0).
  { intros u Hu. apply (we_node _ _ (wt_weights g _ _ _ HR)); [exact far_had|rewrite far_pts; lia..|]. rewrite far_axis. intros p Hp. destruct p; [|cbn in Hp; lia]. reflexivity. }
  rewrite (Rsum_ext 6 (fun u => Rsum 6 _) (fun u => if Nat.eqb u 5 then Rsum 6 (fun v => K_grid f' (G_of (gp_grids g) [0%nat]) 0 u v * wt g [0%nat] (obs (mg_P (gp_data g)) (mg_Xs (gp_data g)) (map (@length R) (mg_Ys (gp_data g))) j) v) else 0)).
  2:{ intros u Hu. rewrite N5 by exact Hu. destruct (Nat.eqb u 5); [apply Rsum_ext; intros; ring|]. apply Rsum_zero. intros; ring. }
  rewrite Rsum_delta by lia. rewrite <- Rsum_scal_l. apply Rsum_ext. intros v Hv. unfold dd. rewrite far_group, F, (fa_surplus _ _ T). cbn [list_eq_dec map]. destruct (list_eq_dec Nat.eq_dec [0%nat] [0%nat]); [|congruence].
  cbn [map]. unfold lsum. cbn [fold_right]. ring.
Qed.

Lemma far_nu solve k a : (a < 2)%nat -> solves_exactly (n_obs g) (K_fit g) (solve (al_K (gpk_lik k))) -> nu_at g k solve [0%nat] a 5 <> 0.
Proof.
  intros Ha He. destruct (nu_form g solve k He [0%nat] a 5) as [z [Hz ->]]. intros E0.
  assert (Hp : proper (gp_f g)) by (rewrite F; exact (fa_proper _ _ T)).
  assert (Q : Rsum (n_obs g) (fun i => Rsum (n_obs g) (fun j => z i * K_fit g i j * z j)) = 0).
  { rewrite <- E0. apply Rsum_ext. intros i Hi. rewrite <- (Hz i Hi), (Rmult_comm _ (z i)), <- Rsum_scal_l. apply Rsum_ext. intros; ring. }
  destruct (Classical_Prop.classic (exists i, (i < n_obs g)%nat /\ z i <> 0)) as [[i [Hi Hzi]]|C].
  - pose proof (K_fit_pd g _ _ _ HR Hp z) as HPD. match type of HPD with ?A -> _ => assert (HA : A) by (exists i; now split) end. specialize (HPD HA). fold (n_obs g) in HPD. lra.
  - assert (Z0 : forall i, (i < n_obs g)%nat -> z i = 0) by (intros i Hi; destruct (Req_dec (z i) 0); [assumption|exfalso; apply C; now exists i]).
    pose proof (Hz 0%nat ltac:(rewrite far_n; lia)) as H0. rewrite far_gcov in H0 by lia. rewrite Rsum_zero in H0 by (intros j Hj; rewrite Z0 by exact Hj; ring). pose proof (exp_pos (-2)). lra.
Qed.
End FarExample.

(** The means do not return to the prior mean, which is zero when the outputs
    are not normalised: with an RBF kernel the mean stays at 0.36 from 26 on. *)
Theorem C82_prior_mean_refuted : forall md,
  exists f g solve bits k, gp_init sp_Xs ex1_Ys false (GNum 0) (GNum 10) (GNum 2%nat) (Some md) (Some f) = Ok g /\ gp_mode g = md /\
  gp_ready g (GNum 0) (GNum 10) (GNum 2%nat) /\ fitted solve bits 1 g k /\ exact_solver (n_obs g) (K_fit g) solve /\ proper (gp_f g) /\ mode_ready g /\
  (forall q, (q < f_Q (gp_f g))%nat -> fades (kern_of (gp_f g) q)) /\ mg_norm (gp_data g) = None /\
  forall c, 26 <= c -> exists mu var, gp_predict solve g k (far_Zs c) = Ok (mu, var) /\ vget (nth 0 mu []) 0 = exp (-2) * (110/41) /\
    (md = Precompute -> vget (nth 0 var []) 0 <> prior_var (gp_f g) 0).
Proof.
  intros md. destruct far_model as [f [f' (_ & T)]].
  destruct (two_models f f' false md (fa_reach _ _ T) (fa_ok _ _ T) (fa_D _ _ T) (fa_set _ _ T) (fa_active _ _ T) (fa_P _ _ T) _ _ sp_good) as [g (E & HR & F & M & G)].
  assert (Hp : proper (gp_f g)) by (rewrite F; exact (fa_proper _ _ T)).
  destruct (fit_exists g _ _ _ HR Hp) as [solve [bits [k [Hs Hf]]]].
  assert (HF : forall q, (q < f_Q (gp_f g))%nat -> fades (kern_of (gp_f g) q)).
  { rewrite F, (fa_Q _ _ T). intros q Hq. destruct q; [|lia]. rewrite (proj1 (fa_kern _ _ T)). exact I. }
  assert (Hid : no_identity (gp_f g)).
  { rewrite F. intros q Hq. rewrite (fa_Q _ _ T) in Hq. destruct q; [|lia]. now rewrite (proj1 (fa_kern _ _ T)). }
  assert (Hq : forall q, (q < f_Q (gp_f g))%nat -> qdims (gp_f g) q = [0%nat]).
  { rewrite F, (fa_Q _ _ T). intros q Hq. destruct q; [|lia]. unfold qdims. now rewrite (proj2 (fa_kern _ _ T)). }
  assert (Hm : mode_ready g).
  { unfold mode_ready. rewrite M. destruct md; [exact I| |exact (K_obs_pdR g _ _ _ HR Hp)]. rewrite G. exact Hq. }
  exists f, g, solve, bits, k. repeat (split; [assumption|]). split; [now rewrite G|]. intros c Hc.
  destruct (fit_solver g _ _ _ HR _ _ _ _ Hf Hs) as [He [Hr Ha]]. destruct Hf as [old [st Hf]]. destruct (fitted_of g _ _ _ _ _ _ Hf) as [HK _].
  eexists _, _. split; [apply (predict_ok g _ _ _ HR k HK solve Hr (far_Zs c) [1; 0]%nat Hid Hm)|].
  - rewrite G. apply far_requests.
  - now rewrite F, (fa_D' _ _ T).
  - intros _. cbn. lia.
  - assert (HD : f_D (gp_f g) = 2%nat) by now rewrite F, (fa_D' _ _ T). rewrite HD, !nth_tab by lia. rewrite !vget_tab by (cbn; lia). unfold unnorm_mean, unnorm_var. rewrite G. cbn [multi_of mg_norm mg_P].
    assert (Hx : 26 <= point 1 (far_Zs c) 0 0 0%nat) by (cbn; exact Hc). split.
    + exact (far_mean f f' g T F HR G k _ Ha Hx).
    + intros EM. unfold var_at. rewrite (pre_same g _ _ _ HR k solve 0 _ _ Hm (eq_trans M EM) (far_indistinct f f' g T F HR G _ Hx)).
      unfold explained. rewrite M, EM. unfold explained_pre. rewrite G. cbn [multi_of mg_P seq]. rewrite (far_pts f f' g T F HR G).
      rewrite (Rsum_ext 6 _ (fun u => if Nat.eqb u 5 then nu_at g k solve [0%nat] 0 u else 0)).
      2:{ intros u Hu. rewrite (we_node _ _ (wt_weights g _ _ _ HR) [0%nat] at20 u 5%nat (far_had f f' g T F)); [destruct (Nat.eqb u 5); ring|rewrite (far_pts f f' g T F HR G); lia..|].
          rewrite (far_axis f f' g T F HR G). intros p Hl. destruct p; [|cbn in Hl; lia]. reflexivity. }
      rewrite Rsum_delta by lia. pose proof (far_nu f f' g T F HR G solve k 0 ltac:(lia) He) as HN.
      pose proof (prior_pos g _ _ _ HR Hp 0 ltac:(lia)) as HV. unfold clip. destruct (Rlt_dec _ 0); lra.
Qed.
Print Assumptions C82_prior_mean_refuted.
