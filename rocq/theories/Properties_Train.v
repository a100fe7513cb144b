(** Claims about predictions at observed points (C72). *)

From Coq Require Import Reals List Arith ZArith Lia Lra.
From Verif Require Import Base NDArray PSD Model_Util Proofs_Util Spec_Util Model_Linalg Spec_Linalg Proofs_Linalg Model_Interp Spec_Interp
  Properties_Interp Model_Kern Spec_Kern Proofs_Kern Proofs_KernPSD Model_FK Spec_FK Proofs_FK
  Properties_FK Model_Grid Spec_Grid Proofs_Grid Proofs_Grid2 Properties_Grid Det Proofs_Det Model_Lik Spec_Lik Proofs_Lik Proofs_Lik2 Proofs_Lik3 Proofs_Lik4 Proofs_Lik5 Proofs_Lik6 Proofs_Lik7 Properties_Lik
  Properties_Lik2 Spec_GP Proofs_Gen Proofs_Gen2 Properties_Gen Model_GP Spec_Pred Proofs_Pred Proofs_Pred2 Proofs_Pred3 Proofs_Pred4 Proofs_Init Proofs_Pred5 Proofs_Pred6 Properties_Pred
  Spec_Order Proofs_Order Proofs_Order2 Proofs_Order3 Properties_Order Spec_Train Proofs_Train.
Import ListNotations.
Open Scope R_scope.

(** Asked for the training inputs, the model fits the training outputs at least
    as well as their mean does (as what they were normalised with, or 0, does):
    the squared residuals, each relative to the noise of its output, sum to no
    more.  A residual is the noise times an entry of the solution the model was
    fitted with. *)
Theorem C72_residuals :
  forall g lo hi m solve bits n_it k, gp_ready g lo hi m -> fitted solve bits n_it g k ->
  exact_solver (n_obs g) (K_fit g) solve -> no_identity (gp_f g) -> mode_ready g -> proper (gp_f g) -> norm_pos g ->
  let f := gp_f g in
  let lens := map (@length R) (mg_Ys (gp_data g)) in
  let n := nsum lens in
  exists mu var alpha, gp_predict solve g k (mg_Xs (gp_data g)) = Ok (mu, var) /\
    (forall i, (i < n)%nat -> Rsum n (fun j => K_fit g i j * alpha j) = y_obs g i) /\
    let raw := fun i => unnorm_mean g (owner lens i) (y_obs g i) in
    let fit := fun i => vget (nth (owner lens i) mu []) (place lens i) in
    let avg := fun i => unnorm_mean g (owner lens i) 0 in
    let noise := fun i => unnorm_var g (owner lens i) (vget (f_noise f) (owner lens i)) in
    (forall i, (i < n)%nat -> 0 < noise i /\ unit_of g (owner lens i) * (raw i - fit i) = noise i * alpha i) /\
    Rsum n (fun i => (raw i - fit i) ^ 2 / noise i) <= Rsum n (fun i => (raw i - avg i) ^ 2 / noise i).
Proof.
  intros g lo hi m solve bits n_it k HR Hf Hs Hid Hm Hp HN f lens n.
  destruct (fit_solver g lo hi m HR _ _ _ _ Hf Hs) as [_ [Hr Ha]]. destruct Hf as [old [s Hf]].
  destruct (fitted_of g _ _ _ _ _ _ Hf) as [HK _]. set (P := mg_P (gp_data g)). set (Xs := mg_Xs (gp_data g)).
  assert (HZ : requests P Xs lens).
  { pose proof (da_in _ _ _ _ _ _ _ (gr_data _ _ _ _ HR)) as H. fold P Xs lens in H. unfold inputs, requests in *.
    induction H as [|X c X' l [E1 E2] _ IH]; [constructor|]. constructor; [split; [left; exact E1|exact E2]|exact IH]. }
  assert (HD : length lens = f_D f) by exact (rd_D g lo hi m HR).
  pose proof (rd_n g lo hi m HR) as Hn.
  eexists _, _, (vget (sd_alpha (al_deriv (gpk_lik k)))).
  split; [exact (predict_ok g lo hi m HR k HK solve Hr Xs lens Hid Hm HZ HD (fun _ => Hn))|]. split; [exact Ha|]. cbv zeta.
  set (al := vget (sd_alpha (al_deriv (gpk_lik k)))) in *.
  assert (U0 : forall d, (d < f_D f)%nat -> 0 < unit_of g d).
  { intros d Hd. unfold unit_of. destruct (mg_norm (gp_data g)) as [l|] eqn:E; [|lra]. apply (HN l); [exact E|].
    apply nth_In. rewrite (gr_norm _ _ _ _ HR l E). exact Hd. }
  assert (UV : forall d v, unnorm_var g d v = unit_of g d ^ 2 * v).
  { intros d v. unfold unnorm_var, unit_of. destruct (mg_norm (gp_data g)); ring. }
  assert (UM : forall d v w, unnorm_mean g d v - unnorm_mean g d w = unit_of g d * (v - w)).
  { intros d v w. unfold unnorm_mean, unit_of. destruct (mg_norm (gp_data g)); ring. }
  assert (FIT : forall i, (i < n)%nat -> forall F : nat -> R -> R, vget (nth (owner lens i) (tab (f_D f) (fun a => tab (nth a lens 0%nat) (fun i => F a (mean_at g k a (point P Xs a i))))) []) (place lens i)
    = F (owner lens i) (mean_at g k (owner lens i) (obs P Xs lens i))).
  { intros i Hi F. destruct (owner_lt lens i Hi) as [O1 [O2 _]]. rewrite nth_tab by (rewrite <- HD; exact O1). now rewrite vget_tab. }
  assert (OL : forall i, (i < n)%nat -> (owner lens i < f_D f)%nat) by (intros i Hi; rewrite <- HD; now apply owner_lt).
  assert (RES : forall i, (i < n)%nat -> y_obs g i - mean_at g k (owner lens i) (obs P Xs lens i) = vget (f_noise f) (owner lens i) * al i).
  { intros i Hi. pose proof (train_mean g lo hi m HR k i Hi Ha) as E. fold lens P Xs f al in E. lra. }
  split.
  - intros i Hi. specialize (U0 _ (OL i Hi)). pose proof (pr_noise _ Hp _ (OL i Hi)) as N0. fold f in N0. split; [rewrite UV; apply Rmult_lt_0_compat; [now apply pow_lt|exact N0]|].
    fold P Xs f lens. eapply eq_trans; [apply f_equal, f_equal, (FIT i Hi (unnorm_mean g))|]. rewrite UM, RES, UV by exact Hi. ring.
  - fold P Xs f lens.
    pose proof (resid_le n _ (fun i => vget (f_noise f) (owner lens i)) al (y_obs g) (free_psd g lo hi m HR Hp) (fun i Hi => pr_noise _ Hp _ (OL i Hi))) as RL.
    cbv beta in RL. erewrite Rsum_ext; [eapply Rle_trans; [apply RL|]|].
    + intros i Hi. rewrite (train_mean g lo hi m HR k i Hi Ha). reflexivity.
    + apply Req_le. apply Rsum_ext. intros i Hi. specialize (U0 _ (OL i Hi)). pose proof (pr_noise _ Hp _ (OL i Hi)) as N0. fold f in N0.
      rewrite UM, UV, Rminus_0_r. field. split; lra.
    + intros i Hi. specialize (U0 _ (OL i Hi)). pose proof (pr_noise _ Hp _ (OL i Hi)) as N0. fold f in N0.
      eapply eq_trans; [apply (f_equal (fun v => v ^ 2 / _)), f_equal, (FIT i Hi (unnorm_mean g))|]. rewrite UM, UV, RES by exact Hi. field. split; lra.
Qed.
Print Assumptions C72_residuals.

(** The variance predicted for an output where it was observed [c] times is at
    most its noise and a [c]-th of that: in exact mode always, on the fly for
    points of the grid (and no superfluous identities). *)
Theorem C72_observed :
  forall g lo hi m solve bits n_it k Zs zl, gp_ready g lo hi m -> fitted solve bits n_it g k ->
  exact_solver (n_obs g) (K_fit g) solve -> no_identity (gp_f g) -> proper (gp_f g) ->
  gp_mode g = Exact \/ (gp_mode g = OnTheFly /\ forall ad, group (gp_f g) ad <> [] -> ~ surplus (gp_f g) ad) ->
  requests (mg_P (gp_data g)) Zs zl -> length zl = f_D (gp_f g) -> (0 < nsum zl)%nat ->
  exists mu var, gp_predict solve g k Zs = Ok (mu, var) /\
    forall d i c s, (d < f_D (gp_f g))%nat -> (i < nth d zl 0)%nat -> (1 <= c)%nat ->
      let x := point (mg_P (gp_data g)) Zs d i in
      observed g d x c s -> (gp_mode g = OnTheFly -> pt_on_grid g x) ->
      vget (nth d var []) i <= unnorm_var g d (vget (f_noise (gp_f g)) d * (1 + 1 / INR c)).
Proof.
  intros g lo hi m solve bits n_it k Zs zl HR Hf Hs Hid Hp HM HZ Hz Ht.
  destruct (fit_solver g lo hi m HR _ _ _ _ Hf Hs) as [He [Hr _]].
  set (f := gp_f g) in *. set (P := mg_P (gp_data g)) in *. set (Xs := mg_Xs (gp_data g)). set (lens := map (@length R) (mg_Ys (gp_data g))).
  assert (UV : forall d v w, v <= w -> unnorm_var g d v <= unnorm_var g d w).
  { intros d v w H. unfold unnorm_var. destruct (mg_norm (gp_data g)); [|exact H]. apply Rmult_le_compat_r; [|exact H]. rewrite <- Rsqr_pow2. apply Rle_0_sqr. }
  assert (LX : forall d x i c s, observed g d x c s -> (i < c)%nat -> forall a z, lmc_cov f a z d x = lmc_cov f a z (owner lens (s i)) (obs P Xs lens (s i))).
  { intros d x i c s [_ HO] Hi a z. destruct (HO i Hi) as [_ [E1 E2]]. fold lens P Xs in E1, E2. rewrite E1. symmetry.
    apply (lmc_ext g lo hi m HR); [reflexivity|exact E2]. }
  assert (IJ : forall d x c s, observed g d x c s -> injects c (n_obs g) s).
  { intros d x c s [H1 H2]. split; [intros i Hi; apply (H2 i Hi)|exact H1]. }
  assert (V0 : forall d x, (d < f_D f)%nat -> 0 <= lmc_cov f d x d x).
  { intros d x Hd. destruct Hp as [Hper Hdiag Hnoise].
    destruct (cond_bounds f 0 (fun _ => 0%nat) (fun _ _ => 0) (fun _ => 0) d x (fun _ => 0)) as [B1 B2]; auto; try (intros; lia).
    - intros q Hq. apply (gr_kern _ _ _ _ HR q Hq).
    - intros i Hi. lia.
    - eapply Rle_trans; [exact B1|]. eapply Rle_trans; [exact B2|]. apply Req_le. unfold lmc_cov. apply Rsum_ext. intros q Hq. now rewrite dist_on_self. }
  assert (MR : mode_ready g).
  { unfold mode_ready. destruct HM as [->|[-> _]]; [exact (K_obs_pdR g lo hi m HR Hp)|exact I]. }
  destruct Hf as [old [st Hf]]. destruct (fitted_of g _ _ _ _ _ _ Hf) as [HK _].
  eexists _, _. split; [exact (predict_ok g lo hi m HR k HK solve Hr Zs zl Hid MR HZ Hz (fun _ => Ht))|].
  intros d i c s Hd Hi Hc x HO HG. fold f P. rewrite !nth_tab by exact Hd. rewrite vget_tab by exact Hi. fold x. apply UV.
  pose proof (pr_noise _ Hp d Hd) as N0. fold f in N0. pose proof (V0 d x Hd) as V1.
  assert (EP : prior_var f d = lmc_cov f d x d x + vget (f_noise f) d).
  { unfold prior_var, lmc_cov. rewrite Rplus_comm. f_equal. apply Rsum_ext. intros q Hq. now rewrite dist_on_self. }
  assert (Ic : 0 < INR c) by (apply lt_0_INR; lia).
  assert (NB : 0 <= vget (f_noise f) d * (1 + 1 / INR c)).
  { apply Rmult_le_pos; [lra|]. assert (0 < 1 / INR c) by (apply Rdiv_lt_0_compat; lra). lra. }
  assert (CR : forall j, (j < c)%nat -> cross g d x (s j) = lmc_cov f d x d x).
  { intros j Hj. unfold cross. fold f P Xs lens. symmetry. exact (LX d x j c s HO Hj d x). }
  assert (EB : forall i j, (i < c)%nat -> (j < c)%nat -> Nat.eqb (s i) (s j) = Nat.eqb i j).
  { intros i0 j Hi0 Hj. destruct (Nat.eqb_spec i0 j) as [->|N]; [apply Nat.eqb_refl|]. apply Nat.eqb_neq. intros E. apply N. now apply (proj1 HO). }
  assert (OW : forall j, (j < c)%nat -> owner lens (s j) = d) by (intros j Hj; apply (proj2 HO j Hj)).
  assert (OX : forall j p, (j < c)%nat -> (p < P)%nat -> obs P Xs lens (s j) p = x p) by (intros j p Hj Hp0; now apply (proj2 HO j Hj)).
  assert (CL : forall v, v <= vget (f_noise f) d * (1 + 1 / INR c) -> clip v <= vget (f_noise f) d * (1 + 1 / INR c)).
  { intros v Hv. unfold clip. destruct (Rlt_dec v 0); lra. }
  unfold var_at. fold f. apply CL. rewrite EP. unfold explained.
  destruct HM as [HM|[HM HS]]; rewrite HM.
  - pose proof (K_obs_pdR g lo hi m HR Hp) as Hpd. destruct (dense_ok g lo hi m HR Hpd) as [e [Ee _]]. rewrite Ee.
    destruct (exact_form g lo hi m HR e d x Ee Hpd) as [z [Hz' ->]].
    refine (repeat_bound g _ _ z s _ _ c (IJ _ _ _ _ HO) (K_obs_sym _ _ _ _ _) (pd_psd _ _ Hpd) V1 N0 Hc _ CR Hz').
    intros a b Ha Hb. unfold K_obs. fold f P Xs lens. rewrite EB, !OW by assumption. f_equal. apply (lmc_ext g lo hi m HR); intros p Hp0; now apply OX.
  - destruct (fly_form g solve k He d x) as [z [Hz' ->]].
    refine (repeat_bound g _ _ z s _ _ c (IJ _ _ _ _ HO) (K_fit_sym g lo hi m HR) (pd_psd _ _ (K_fit_pd g lo hi m HR Hp)) V1 N0 Hc _ CR Hz').
    intros a b Ha Hb. rewrite (K_fit_weights g lo hi m HR) by (apply (IJ _ _ _ _ HO); assumption). fold f P Xs lens. rewrite EB, !OW by assumption.
    rewrite (no_extra g lo hi m HR _ _ _ _ _ HS), Rplus_0_r. f_equal.
    assert (PG : forall j, (j < c)%nat -> pt_on_grid g (obs P Xs lens (s j))).
    { intros j Hj ad Had. destruct (HG HM ad Had) as [u [Hu Hx]]. exists u. split; [exact Hu|]. intros p Hp0. rewrite <- Hx by exact Hp0. apply OX; [exact Hj|].
      apply (ga_range _ _ _ _ _ _ _ (da_args _ _ _ _ _ _ _ (gr_data _ _ _ _ HR) ad Had)), nth_In, Hp0. }
    rewrite (ski_on_grid g lo hi m HR) by (apply PG; assumption). apply (lmc_ext g lo hi m HR); intros p Hp0; now apply OX.
Qed.
Print Assumptions C72_observed.

(** ** Examples *)

(** The first output was observed twice at 2, a point of the grid. *)
Definition rep_Xs : list ndarr := [mk_arr [3]%nat [2; 8; 2]; mk_arr [2; 1]%nat [8; 2]].
Definition rep_Ys : list ndarr := [mk_arr [3]%nat [1; 2; 3]; mk_arr [2]%nat [3; 5]].

Lemma rep_data : good_data rep_Xs rep_Ys.
Proof.
  split; [intros X [<-|[<-|[]]]; reflexivity|]. split; [intros X [<-|[<-|[]]]; reflexivity|].
  split; [|split; [intros X [<-|[<-|[]]]; reflexivity|split; [intros X [<-|[<-|[]]]; discriminate|reflexivity]]].
  split; [discriminate|]. split; [constructor; [|constructor; [|constructor]]; [exists 3%nat|exists 2%nat]; (split; [|reflexivity]); [left; reflexivity|right; now exists 1%nat]|].
  split; [exists 1%nat; intros X [<-|[<-|[]]]; reflexivity|]. intros Y [<-|[<-|[]]]; right; [exists 1, 2|exists 3, 5]; cbn; repeat split; auto; lra.
Qed.

Example C72_ex : forall md, exists g solve bits k,
  gp_ready g (GNum 0) (GNum 10) (GNum 2%nat) /\ fitted solve bits 1 g k /\ exact_solver (n_obs g) (K_fit g) solve /\
  no_identity (gp_f g) /\ mode_ready g /\ proper (gp_f g) /\ norm_pos g /\ mg_norm (gp_data g) <> None /\
  gp_mode g = md /\ (forall ad, group (gp_f g) ad <> [] -> ~ surplus (gp_f g) ad) /\
  requests (mg_P (gp_data g)) ex1_Zs [3; 0]%nat /\ length [3; 0]%nat = f_D (gp_f g) /\ (0 < nsum [3; 0])%nat /\
  let x := point (mg_P (gp_data g)) ex1_Zs 0 0 in
  observed g 0 x 2 (fun i => (2 * i)%nat) /\ pt_on_grid g x.
Proof.
  intros md. destruct (ord_models true md) as [f [f' (_ & Hp & Hid & HD & HQ & HA & H)]].
  destruct (H _ _ rep_data) as [g (E1 & R1 & F1 & M1 & D1)]. assert (Hp1 : proper (gp_f g)) by now rewrite F1.
  destruct (fit_exists g _ _ _ R1 Hp1) as [solve [bits [k [Hs Hf]]]]. exists g, solve, bits, k.
  split; [exact R1|]. split; [exact Hf|]. split; [exact Hs|]. rewrite F1. split; [exact Hid|]. split.
  { unfold mode_ready. rewrite F1, M1. destruct md; [exact I|rewrite D1; exact HQ|]. rewrite <- F1. exact (K_obs_pdR g _ _ _ R1 Hp1). }
  split; [exact Hp|]. split.
  { intros l nm El Hnm. rewrite D1 in El. cbn [multi_of mg_norm] in El. injection El as <-.
    destruct Hnm as [<-|[<-|[]]]; cbn [scale_by n_std]; unfold np_std; apply sqrt_lt_R0; unfold np_var, np_mean; cbn; lra. }
  split; [rewrite D1; discriminate|]. split; [exact M1|]. split; [intros ad Had; now apply HA|].
  rewrite D1. split; [exact ex1_requests|]. split; [now rewrite HD|]. split; [cbn; lia|]. split.
  - split; [intros; lia|]. intros i Hi. unfold n_obs. rewrite D1. cbn [multi_of mg_Ys mg_Xs mg_P].
    destruct i as [|[|i]]; [| |lia]; (split; [cbn; lia|split; [reflexivity|intros [|p] Hp0; [reflexivity|lia]]]).
  - intros ad Had. rewrite F1 in Had. destruct (HA ad Had) as [-> _]. rewrite <- F1 in Had.
    pose proof (gr_data _ _ _ _ R1) as DA. pose proof (grid_at_ok g _ _ _ [0%nat] R1 Had) as E.
    destruct (grid_axis _ _ _ _ _ _ _ _ 0%nat (da_in _ _ _ _ _ _ _ DA) (da_lens _ _ _ _ _ _ _ (rd_ok g _ _ _ R1) DA) (da_pos _ _ _ _ _ _ _ DA)
      (da_args _ _ _ _ _ _ _ DA _ Had) E ltac:(cbn; lia)) as [x [y (X1 & Y1 & _ & _ & Bl & Bh & LL & EA)]].
    cbn [nth] in X1, Y1, Bl, Bh, EA.
    assert (Hx : x = 0).
    { specialize (Bl 0 eq_refl). destruct X1 as [[i [Hi ->]]|X1]; [|now injection X1]. exfalso. revert Bl. rewrite D1 in Hi |- *. cbn in Hi.
      destruct i as [|[|[|[|[|i]]]]]; try lia; cbn; lra. }
    assert (Hy : y = 10).
    { specialize (Bh 10 eq_refl). destruct Y1 as [[i [Hi ->]]|Y1]; [|now injection Y1]. exfalso. revert Bh. rewrite D1 in Hi |- *. cbn in Hi.
      destruct i as [|[|[|[|[|i]]]]]; try lia; cbn; lra. }
    subst x y. change (cells_for (GNum 2%nat) _ 0) with 2%nat in EA.
    assert (Ax : ag_axes (grid_at (gp_grids g) [0%nat]) = [[-10; -4; 2; 8; 14; 20]]).
    { destruct (ag_axes _) as [|ax [|? ?]]; try discriminate LL. cbn [nth] in EA. rewrite EA. f_equal. cbv -[Rmult Rplus IZR Ropp Rdiv Rinv Rminus].
      repeat match goal with |- _ :: _ = _ :: _ => apply (f_equal2 (@cons _)) end; try reflexivity; lra. }
    exists 2%nat. rewrite Ax. split; [|intros [|p] Hp0; [reflexivity|cbn in Hp0; lia]].
    destruct (rd_grid g _ _ _ R1 _ Had) as [_ [l [_ [E2 [_ [E3 [El [Hl Hax]]]]]]]]. rewrite E3. rewrite Ax in E2.
    unfold axes_points. rewrite <- axes_lengths, <- E2. cbn. lia.
Qed.
