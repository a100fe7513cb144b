(** Models with the same covariance: their predictions. *)

From Coq Require Import Reals List Arith ZArith Lia Lra Permutation.
From Verif Require Import Base NDArray PSD Model_Util Proofs_Util Spec_Util Model_Linalg Spec_Linalg Proofs_Linalg Model_Interp Spec_Interp
  Proofs_Sparse Proofs_Interp Proofs_Interp2 Proofs_Autogrid Properties_Interp Model_Kern Spec_Kern Proofs_Kern Model_FK Spec_FK Proofs_FK Model_Grid Spec_Grid Proofs_Grid
  Proofs_Grid2 Det Proofs_Det Model_Lik Spec_Lik Proofs_Lik Proofs_Lik2 Proofs_Lik5 Proofs_Lik6 Proofs_Lik7 Properties_Lik Spec_GP Proofs_Gen Proofs_Gen2 Model_GP Spec_Pred
  Proofs_Pred2 Proofs_Pred3 Proofs_Pred4 Proofs_Init Proofs_Pred6 Proofs_Eig Proofs_Ski3 Spec_Order Proofs_Order Proofs_Order2 Proofs_Order3 Spec_Alike Proofs_Alike.
Import ListNotations.
Open Scope R_scope.

Section Pred.
Variables (p : nat -> nat) (g g' : gp) (lo hi : grid_arg R) (m : grid_arg nat).
Hypothesis HR : gp_ready g lo hi m.
Hypothesis HR' : gp_ready g' lo hi m.
Hypothesis HC : same_cov p (gp_f g) (gp_f g').
Hypothesis HU : forall ad, group (gp_f g) ad <> [] -> surplus (gp_f g') ad <-> surplus (gp_f g) ad.
Hypothesis HD : same_data p g g'.
Hypothesis HM : gp_mode g' = gp_mode g.
Hypothesis Hp : proper (gp_f g).
Hypothesis Hp' : proper (gp_f g').
Variable s : nat -> nat.
Hypothesis Hs : sends_to p g g' s.
Variables (solve solve' : Mat -> vec -> result vec) (k k' : gp_kernel).
Hypothesis He : solves_exactly (n_obs g) (K_fit g) (solve (al_K (gpk_lik k))).
Hypothesis He' : solves_exactly (n_obs g') (K_fit g') (solve' (al_K (gpk_lik k'))).
Hypothesis Ha : solves (n_obs g) (K_fit g) (vget (sd_alpha (al_deriv (gpk_lik k)))) (y_obs g).
Hypothesis Ha' : solves (n_obs g') (K_fit g') (vget (sd_alpha (al_deriv (gpk_lik k')))) (y_obs g').
Let f := gp_f g.
Let P := mg_P (gp_data g).
Let n := n_obs g.
Let n' := n_obs g'.
Let Ko := K_obs (gp_f g) (mg_P (gp_data g)) (mg_Xs (gp_data g)) (map (@length R) (mg_Ys (gp_data g))).
Let Ko' := K_obs (gp_f g') (mg_P (gp_data g')) (mg_Xs (gp_data g')) (map (@length R) (mg_Ys (gp_data g'))).

Lemma alp_n : n' = n.
Proof. exact (al_n p g g' lo hi m HR HR' HC HD). Qed.
Lemma alp_inj : injects n n s.
Proof. exact (al_inj p g g' lo hi m HR HR' HC HD s Hs). Qed.
Lemma alp_fit i j : (i < n)%nat -> (j < n)%nat -> K_fit g i j = K_fit g' (s i) (s j).
Proof. exact (al_K_fit p g g' lo hi m HR HR' HC HU HD s Hs i j). Qed.
Lemma alp_obs i j : (i < n)%nat -> (j < n)%nat -> Ko i j = Ko' (s i) (s j).
Proof. intros Hi Hj. unfold Ko, Ko'. rewrite (sd_P _ _ _ HD). exact (al_K_obs p g g' lo hi m HR HR' HC HD s Hs i j Hi Hj). Qed.
Lemma alp_cross a x j : (a < f_D f)%nat -> (j < n)%nat -> cross g a x j = cross g' (p a) x (s j).
Proof. exact (al_cross p g g' lo hi m HR HR' HC HD s Hs a x j). Qed.

Lemma alp_inner c c' z z' : (forall i, (i < n)%nat -> c i = c' (s i)) -> solves n (K_fit g) z c -> solves n' (K_fit g') z' c' ->
  forall h h', (forall i, (i < n)%nat -> h i = h' (s i)) -> Rsum n (fun i => h i * z i) = Rsum n' (fun i => h' i * z' i).
Proof.
  intros Hc Hz Hz' h h' Hh. rewrite alp_n in Hz' |- *.
  exact (reorder_inner n s (K_fit g) (K_fit g') alp_inj alp_fit c c' z z' (fit_pivots g lo hi m HR Hp) Hc Hz Hz' h h' Hh).
Qed.

Lemma alp_fly a x : (a < f_D f)%nat -> explained_fly g' k' solve' (p a) x = explained_fly g k solve a x.
Proof.
  intros Hl. destruct (fly_form g solve k He a x) as [z [Hz ->]]. destruct (fly_form g' solve' k' He' (p a) x) as [z' [Hz' ->]]. symmetry.
  apply (alp_inner _ _ _ _ (fun i => alp_cross a x i Hl) Hz Hz'). intros i Hi. now apply alp_cross.
Qed.

Lemma alp_exact e e' a x : (a < f_D f)%nat -> gp_dense g = Ok e -> gp_dense g' = Ok e' -> explained_exact g' e' (p a) x = explained_exact g e a x.
Proof.
  intros Hl E1 E2. pose proof (K_obs_pdR g lo hi m HR Hp) as P1. pose proof (K_obs_pdR g' lo hi m HR' Hp') as P2.
  destruct (exact_form g lo hi m HR e a x E1 P1) as [z [Hz ->]]. destruct (exact_form g' lo hi m HR' e' (p a) x E2 P2) as [z' [Hz' ->]]. symmetry.
  fold Ko in Hz. fold Ko' in Hz'. fold n' in Hz' |- *. rewrite alp_n in Hz' |- *.
  apply (reorder_inner n s Ko Ko' alp_inj alp_obs (cross g a x) (cross g' (p a) x) z z'); try assumption; try (intros i Hi; now apply alp_cross).
  apply pos_definite_pivots; [apply K_obs_sym|exact P1].
Qed.

Lemma alp_nu ad a u : group f ad <> [] -> (a < f_D f)%nat -> nu_at g' k' solve' ad (p a) u = nu_at g k solve ad a u.
Proof.
  intros Had Hl. destruct (nu_form g solve k He ad a u) as [z [Hz ->]]. destruct (nu_form g' solve' k' He' ad (p a) u) as [z' [Hz' ->]]. symmetry.
  assert (E : forall j, (j < n)%nat -> gcov g ad a u j = gcov g' ad (p a) u (s j)) by (intros j Hj; exact (al_gcov p g g' lo hi m HR HR' HC HU HD s Hs ad a u j Had Hl Hj)).
  apply (alp_inner _ _ _ _ E Hz Hz'). exact E.
Qed.

Lemma alp_point h lo0 hi0 m0 k0 so a x x' : gp_ready h lo0 hi0 m0 -> (forall c, (c < mg_P (gp_data h))%nat -> x' c = x c) ->
  mean_at h k0 a x' = mean_at h k0 a x /\ (mode_ready h -> var_at h k0 so a x' = var_at h k0 so a x).
Proof.
  intros H Hx.
  assert (Had : forall ad c, group (gp_f h) ad <> [] -> In c ad -> (c < mg_P (gp_data h))%nat).
  { intros ad c Hg. apply (ga_range _ _ _ _ _ _ _ (da_args _ _ _ _ _ _ _ (gr_data _ _ _ _ H) ad Hg)). }
  assert (Hw : forall ad u, group (gp_f h) ad <> [] -> wt h ad x' u = wt h ad x u).
  { intros ad u Hg. apply (we_ext _ _ (wt_weights h _ _ _ H)); [exact Hg|]. intros c Hc. apply Hx, (Had ad c Hg Hc). }
  assert (Hg : forall q, (q < f_Q (gp_f h))%nat -> group (gp_f h) (qdims (gp_f h) q) <> []).
  { intros q Hq. apply (group_qdims _ _ (rd_ok h _ _ _ H) (rd_P h _ _ _ H) q Hq). }
  assert (Hcr : forall j, cross h a x' j = cross h a x j).
  { intros j. unfold cross, lmc_cov. apply Rsum_ext. intros q Hq. do 2 f_equal. unfold dist_on. f_equal. apply lsum_map_ext. intros c Hc.
    rewrite Hx; [reflexivity|]. exact (Had _ c (Hg q Hq) Hc). }
  split.
  - unfold mean_at. apply Rsum_ext. intros j _. f_equal. f_equal.
    + unfold ski_cov. cbv zeta. apply Rsum_ext. intros q Hq. f_equal. apply Rsum_ext. intros u _. apply Rsum_ext. intros v _. rewrite Hw by now apply Hg. reflexivity.
    + unfold ski_extra. destruct (Nat.eqb a _); [|reflexivity]. apply lsum_map_ext. intros ad Hk. apply (keys_group _ _ (rd_ok h _ _ _ H) (rd_P h _ _ _ H)) in Hk.
      destruct (surplus_b (gp_f h) ad); [|reflexivity]. apply Rsum_ext. intros u _. now rewrite Hw.
  - intros Hm. unfold var_at. do 2 f_equal. unfold explained, mode_ready in *. destruct (gp_mode h).
    + unfold explained_fly. assert (E : tab (n_obs h) (cross h a x') = tab (n_obs h) (cross h a x)) by (apply tab_ext; intros; apply Hcr).
      change (nsum (map (@length R) (mg_Ys (gp_data h)))) with (n_obs h). rewrite E. apply Rsum_ext. intros l _. now rewrite Hcr.
    + unfold explained_pre. apply Rsum_ext. intros u _. rewrite Hw by exact (both_full h _ _ _ H Hm). reflexivity.
    + destruct (dense_ok h _ _ _ H Hm) as [e [E Re]]. rewrite E. unfold explained_exact. apply Rsum_ext. intros l Hl. rewrite Hcr. f_equal.
      apply potrs_ext; [intros i j _ _; reflexivity|intros i _; apply Hcr|exact Hl].
Qed.

Lemma alp_var a x : (a < f_D f)%nat -> (gp_mode g = Precompute -> forall q, (q < f_Q f)%nat -> qdims f q = seq 0 P) ->
  var_at g' k' solve' (p a) x = var_at g k solve a x.
Proof.
  intros Hl Hpre. unfold var_at. rewrite (al_prior p g g' lo hi m HR HR' HC a Hl). f_equal. f_equal. unfold explained. rewrite HM. destruct (gp_mode g) eqn:EM.
  - now apply alp_fly.
  - pose proof (both_full g lo hi m HR (Hpre eq_refl)) as Had. unfold explained_pre. rewrite (sd_P _ _ _ HD). fold P.
    fold P in Had. rewrite (al_pts p g g' lo hi m HR HR' HC HD s Hs (seq 0 P) Had). apply Rsum_ext. intros u Hu.
    rewrite alp_nu by assumption. f_equal. apply (al_wt p g g' lo hi m HR HR' HC HD s Hs); [exact Had|reflexivity].
  - destruct (dense_ok g lo hi m HR (K_obs_pdR g lo hi m HR Hp)) as [e [E1 _]].
    destruct (dense_ok g' lo hi m HR' (K_obs_pdR g' lo hi m HR' Hp')) as [e' [E2 _]]. rewrite E1, E2. now apply alp_exact.
Qed.

Lemma alp_mean a x : (a < f_D f)%nat -> mean_at g' k' (p a) x = mean_at g k a x.
Proof.
  intros Hl. symmetry. unfold mean_at.
  apply (alp_inner (y_obs g) (y_obs g') _ _ (fun i Hi => eq_sym (st_y _ _ _ _ Hs i Hi)) Ha Ha'
    (fun j => ski_cov g (wt g) a x (owner _ j) (obs _ _ _ j) + ski_extra g (wt g) a x (owner _ j) (obs _ _ _ j))
    (fun j => ski_cov g' (wt g') (p a) x (owner _ j) (obs _ _ _ j) + ski_extra g' (wt g') (p a) x (owner _ j) (obs _ _ _ j))).
  intros i Hi. rewrite (st_own _ _ _ _ Hs) by exact Hi.
  destruct (al_ski p g g' lo hi m HR HR' HC HU HD s Hs a x (owner (map (@length R) (mg_Ys (gp_data g))) i) (obs P (mg_Xs (gp_data g)) (map (@length R) (mg_Ys (gp_data g))) i)
    x (obs P (mg_Xs (gp_data g')) (map (@length R) (mg_Ys (gp_data g'))) (s i))) as [E1 E2].
  - exact Hl.
  - exact (al_own p g g' lo hi m HR HR' HC i Hi).
  - reflexivity.
  - intros c Hc. now apply (st_obs _ _ _ _ Hs).
  - rewrite (sd_P _ _ _ HD). fold P. rewrite E1, E2. reflexivity.
Qed.

Lemma alp_det : det n' Ko' = det n Ko.
Proof.
  rewrite alp_n. symmetry. apply (det_reorder n s Ko Ko' alp_inj alp_obs); [apply K_obs_sym|].
  rewrite <- alp_n. exact (K_obs_pdR g' lo hi m HR' Hp').
Qed.

Lemma alp_quadratic : Rsum n' (fun i => y_obs g' i * vget (sd_alpha (al_deriv (gpk_lik k'))) i) = Rsum n (fun i => y_obs g i * vget (sd_alpha (al_deriv (gpk_lik k))) i).
Proof.
  symmetry. apply (alp_inner (y_obs g) (y_obs g') _ _ (fun i Hi => eq_sym (st_y _ _ _ _ Hs i Hi)) Ha Ha'). intros i Hi. symmetry. now apply (st_y _ _ _ _ Hs).
Qed.

End Pred.
