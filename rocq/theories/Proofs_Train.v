(** Predictions at points that were observed. *)

From Coq Require Import Reals List Arith ZArith Lia Lra.
From Verif Require Import Base NDArray PSD Model_Util Proofs_Util Spec_Util Model_Linalg Spec_Linalg Proofs_Linalg Model_Interp Spec_Interp
  Proofs_Sparse Proofs_Interp Proofs_Interp2 Proofs_Autogrid Properties_Interp Model_Kern Spec_Kern Proofs_Kern Proofs_KernPSD Model_FK Spec_FK Proofs_FK Model_Grid Spec_Grid Proofs_Grid
  Proofs_Grid2 Det Proofs_Det Model_Lik Spec_Lik Proofs_Lik Proofs_Lik2 Proofs_Lik5 Proofs_Lik6 Proofs_Lik7 Properties_Lik Properties_Lik2 Spec_GP Proofs_Gen Proofs_Gen2 Model_GP Spec_Pred
  Proofs_Pred2 Proofs_Pred3 Proofs_Pred4 Proofs_Init Proofs_Pred6 Proofs_Eig Proofs_Ski3 Spec_Order Proofs_Order Proofs_Order2 Proofs_Order3 Spec_Train.
Import ListNotations.
Open Scope R_scope.

(** ** Residuals *)

Lemma resid_le n (C : nat -> nat -> R) (N a y : nat -> R) : psd n C -> (forall i, (i < n)%nat -> 0 < N i) ->
  (forall i, (i < n)%nat -> y i = Rsum n (fun j => C i j * a j) + N i * a i) ->
  Rsum n (fun i => (N i * a i) ^ 2 / N i) <= Rsum n (fun i => y i ^ 2 / N i).
Proof.
  intros HC HN Hy. set (u := fun i => Rsum n (fun j => C i j * a j)).
  assert (Q : 0 <= Rsum n (fun i => u i * a i)).
  { specialize (HC a). unfold qf, bil in HC. erewrite Rsum_ext; [exact HC|]. intros i Hi. unfold u. rewrite <- Rsum_scal_r. apply Rsum_ext. intros; ring. }
  apply Rle_trans with (Rsum n (fun i => (N i * a i) ^ 2 / N i) + (2 * Rsum n (fun i => u i * a i) + Rsum n (fun i => u i ^ 2 / N i))).
  - assert (0 <= Rsum n (fun i => u i ^ 2 / N i)); [|lra]. apply Rsum_nonneg. intros i Hi. specialize (HN i Hi).
    apply Rmult_le_pos; [rewrite <- Rsqr_pow2; apply Rle_0_sqr|left; now apply Rinv_0_lt_compat].
  - rewrite <- Rsum_scal_l, <- !Rsum_plus. apply Req_le. apply Rsum_ext. intros i Hi. rewrite (Hy i Hi). fold (u i). specialize (HN i Hi). field. lra.
Qed.

Section Free.
Variables (g : gp) (lo hi : grid_arg R) (m : grid_arg nat).
Hypothesis HR : gp_ready g lo hi m.
Let f := gp_f g.
Let P := mg_P (gp_data g).
Let Xs := mg_Xs (gp_data g).
Let lens := map (@length R) (mg_Ys (gp_data g)).
Let n := n_obs g.
Let C := fun i j => ski_cov g (wt g) (owner lens i) (obs P Xs lens i) (owner lens j) (obs P Xs lens j)
                  + ski_extra g (wt g) (owner lens i) (obs P Xs lens i) (owner lens j) (obs P Xs lens j).

(** Without the noise, the covariance is still positive semidefinite. *)
Lemma free_psd : proper f -> psd n C.
Proof.
  intros [Hper Hdiag Hnoise]. assert (Hok : fk_ok f) by exact (rd_ok g lo hi m HR). assert (HP : f_P f = Some P) by exact (rd_P g lo hi m HR).
  set (G := G_of (gp_grids g)). set (W := W_of (gp_grids g)).
  apply (psd_ext n (fun i j => Rsum (f_Q f) (fun q => ski_entry (W (qdims f q)) (f_D f) (nprod (a_shape (G (qdims f q)))) (B_of f q) (K_grid f (G (qdims f q)) q) i j)
                               + spurious f G W i j)).
  - intros i j Hi Hj. pose proof (K_fit_weights g lo hi m HR i j Hi Hj) as E. unfold K_fit, K_op, K_ski in E. fold f lens P Xs G W in E.
    unfold C. cbv beta in E |- *. lra.
  - intros x. unfold qf. rewrite bil_plus.
    assert (H1 := psd_Rsum n (f_Q f) (fun q => ski_entry (W (qdims f q)) (f_D f) (nprod (a_shape (G (qdims f q)))) (B_of f q) (K_grid f (G (qdims f q)) q))).
    assert (H2 : psd n (spurious f G W)).
    { apply (psd_lsum n _ (fun ad i j => if surplus_b f ad then Rsum (f_D f * nprod (a_shape (G ad))) (fun u => sp_get (W ad) i u * sp_get (W ad) j u) else 0)).
      intros ad _. destruct (surplus_b f ad); [apply gram_f_psd|apply psd_zero]. }
    specialize (H2 x). unfold qf in H2. change (fun i j => spurious f G W i j) with (spurious f G W).
    apply Rplus_le_le_0_compat; [|exact H2]. apply H1. intros q Hq. apply ski_entry_psd; [intros a b _ _; apply B_of_sym|apply B_of_psd; auto|].
    destruct (group_qdims f P Hok HP q Hq) as [_ Had]. set (ad := qdims f q) in *.
    destruct (rd_grid g lo hi m HR ad Had) as [_ [l [HL [E1 [E2 [E3 [El [Hl Hax]]]]]]]].
    assert (EG : G ad = dists_of l) by (unfold G, G_of; now rewrite (gg_ag _ _ _ _ _ _ _ _ _ _ HL)).
    rewrite EG. unfold K_grid, dists_of. cbn [a_data a_shape].
    apply (psd_ext _ (fun i j => k_doc (kern_of f q) (euclid (length l) (grid_pt (axes_of l) i) (grid_pt (axes_of l) j)))).
    + intros i j Hi Hj. symmetry. apply grid_dists_entry; [destruct l; [cbn in *; lia|discriminate]|now apply axes_points_pos|exact Hi|exact Hj].
    + apply psd_pd_on. apply pd_kernel; [apply (gr_kern _ _ _ _ HR q Hq)|]. intros Hp. rewrite El. now apply (Hper q Hq).
Qed.

Lemma own_lt i : (i < n)%nat -> (owner lens i < f_D f)%nat.
Proof. intros Hi. pose proof (rd_D g lo hi m HR) as E. destruct (owner_lt lens i Hi) as [O _]. fold lens f in E. now rewrite E in O. Qed.

(** At an observed point, the mean misses the observation by the noise times
    the solution. *)
Lemma train_mean k i : (i < n)%nat -> solves n (K_fit g) (vget (sd_alpha (al_deriv (gpk_lik k)))) (y_obs g) ->
  y_obs g i = mean_at g k (owner lens i) (obs P Xs lens i) + vget (f_noise f) (owner lens i) * vget (sd_alpha (al_deriv (gpk_lik k))) i.
Proof.
  intros Hi Ha. rewrite <- (Ha i Hi). unfold mean_at. fold lens P Xs. set (al := vget (sd_alpha (al_deriv (gpk_lik k)))).
  rewrite (Rsum_ext n _ (fun j => C i j * al j + (if Nat.eqb j i then vget (f_noise f) (owner lens i) * al j else 0))).
  - rewrite Rsum_plus, (Rsum_delta n i (fun j => vget (f_noise f) (owner lens i) * al j) Hi). reflexivity.
  - intros j Hj. rewrite (K_fit_weights g lo hi m HR i j Hi Hj). fold lens P Xs f. unfold C. rewrite (Nat.eqb_sym j i). destruct (Nat.eqb i j); ring.
Qed.

(** A principal submatrix of equal covariances. *)
Lemma repeat_bound (K : nat -> nat -> R) c z s v nu (k : nat) : injects k n s -> sym n K -> psd n K -> 0 <= v -> 0 < nu -> (1 <= k)%nat ->
  (forall i j, (i < k)%nat -> (j < k)%nat -> K (s i) (s j) = v + (if Nat.eqb i j then nu else 0)) ->
  (forall i, (i < k)%nat -> c (s i) = v) -> solves n K z c -> v + nu - Rsum n (fun j => c j * z j) <= nu * (1 + 1 / INR k).
Proof.
  intros Hs Sy Ps Hv Hn Hk HK Hc Hz. assert (Ik : 0 < INR k) by (apply lt_0_INR; lia). set (w := v / (INR k * v + nu)).
  assert (Dp : 0 < INR k * v + nu) by nra.
  assert (B : Rsum k (fun i => v * w) <= Rsum n (fun j => c j * z j)).
  { apply (sub_quad k n s (fun i j => K (s i) (s j)) K Hs (fun i j _ _ => eq_refl) Sy Ps (fun _ => v) c (fun _ => w) z); [intros i Hi; symmetry; now apply Hc| |exact Hz].
    intros i Hi. rewrite (Rsum_ext k _ (fun j => v * w + (if Nat.eqb j i then nu * w else 0))).
    - rewrite Rsum_plus, Rsum_const, (Rsum_delta k i (fun _ => nu * w) Hi). unfold w. field. lra.
    - intros j Hj. rewrite HK by assumption. rewrite (Nat.eqb_sym j i). destruct (Nat.eqb i j); ring. }
  rewrite Rsum_const in B. apply Rle_trans with (v + nu - INR k * (v * w)); [lra|].
  assert (E : nu * (1 + 1 / INR k) - (v + nu - INR k * (v * w)) = nu * nu / (INR k * (INR k * v + nu))) by (unfold w; field; lra).
  assert (0 <= nu * nu / (INR k * (INR k * v + nu))); [|lra]. apply Rmult_le_pos; [nra|left; apply Rinv_0_lt_compat; nra].
Qed.
End Free.
