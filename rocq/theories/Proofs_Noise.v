(** Models that differ in their noise only. *)

From Coq Require Import Reals List Arith ZArith Lia Lra.
From Verif Require Import Base NDArray PSD Model_Util Proofs_Util Spec_Util Model_Linalg Spec_Linalg Proofs_Linalg Model_Interp Spec_Interp
  Properties_Interp Model_Kern Spec_Kern Proofs_Kern Proofs_KernPSD Model_FK Spec_FK Proofs_FK
  Properties_FK Model_Grid Spec_Grid Proofs_Grid Proofs_Grid2 Properties_Grid Det Proofs_Det Model_Lik Spec_Lik Proofs_Lik Proofs_Lik2 Proofs_Lik3 Proofs_Lik4 Proofs_Lik5 Proofs_Lik6 Proofs_Lik7 Properties_Lik
  Properties_Lik2 Spec_GP Proofs_Gen Proofs_Gen2 Properties_Gen Model_GP Spec_Pred Proofs_Pred Proofs_Pred2 Proofs_Pred3 Proofs_Pred4 Proofs_Init Proofs_Pred5 Proofs_Pred6 Properties_Pred
  Model_State Spec_State Proofs_State Proofs_State4 Spec_Order Proofs_Order Proofs_Order2 Proofs_Order3 Spec_Acc Proofs_Acc Spec_Noise.
Import ListNotations.
Open Scope R_scope.

(** ** Matrices *)

(** A larger matrix has a smaller inverse. *)
Lemma larger_quad n K K' c z z' : sym n K -> psd n K -> (forall x, qf n K x <= qf n K' x) -> solves n K z c -> solves n K' z' c ->
  Rsum n (fun i => c i * z' i) <= Rsum n (fun i => c i * z i).
Proof.
  intros Sy Ps HL Hz Hz'.
  assert (E : forall F x y, solves n F y c -> bil n F x y = Rsum n (fun i => c i * x i)).
  { intros F x y H. unfold bil. apply Rsum_ext. intros i Hi. rewrite <- (H i Hi), <- Rsum_scal_r. apply Rsum_ext. intros; ring. }
  pose proof (E K z z Hz) as E1. pose proof (E K z' z Hz) as E2. pose proof (E K' z' z' Hz') as E3.
  pose proof (HL z') as H1. pose proof (Ps (fun i => z i + (-1) * z' i)) as H. unfold qf in *.
  rewrite bil_add_l, !bil_add_r, !bil_scal_l, !bil_scal_r in H. rewrite (bil_sym n K z z' Sy) in H. lra.
Qed.

(** The determinant of a positive semidefinite matrix plus a positive diagonal
    is at least the product of the diagonal. *)
Lemma det_floor n : forall F d, sym n F -> psd n F -> (forall i, (i < n)%nat -> 0 < d i) ->
  fold_right Rmult 1 (tab n d) <= det n (fun i j => F i j + if Nat.eqb i j then d i else 0).
Proof.
  induction n as [|n IH]; intros F d Sy Ps Hd; [cbn; lra|].
  assert (D0 : 0 < d 0%nat) by (apply Hd; lia).
  assert (H00 : 0 <= F 0%nat 0%nat).
  { specialize (Ps (fun i => if Nat.eqb i 0 then 1 else 0)). unfold qf, bil in Ps.
    rewrite (Rsum_ext (S n) _ (fun i => if Nat.eqb i 0 then F i 0%nat else 0)) in Ps; [rewrite Rsum_delta in Ps by lia; exact Ps|].
    intros i Hi. rewrite (Rsum_ext (S n) _ (fun j => if Nat.eqb j 0 then (if Nat.eqb i 0 then 1 else 0) * F i j else 0)) by (intros j Hj; destruct (Nat.eqb j 0); ring).
    rewrite Rsum_delta by lia. destruct (Nat.eqb i 0); ring. }
  set (G := fun i j => F i j + if Nat.eqb i j then d i else 0).
  assert (G0 : G 0%nat 0%nat = F 0%nat 0%nat + d 0%nat) by reflexivity.
  rewrite (det_pivot n G) by (rewrite G0; lra).
  set (F' := fun i j => F (S i) (S j) - F (S i) 0%nat * F 0%nat (S j) / (F 0%nat 0%nat + d 0%nat)).
  assert (E : det n (schur1 G) = det n (fun i j => F' i j + if Nat.eqb i j then d (S i) else 0)).
  { apply det_ext. intros i j Hi Hj. unfold schur1, G, F'. cbn [Nat.eqb]. rewrite !Rplus_0_r. unfold Rdiv. ring. }
  rewrite E. rewrite G0.
  assert (S' : sym n F').
  { intros i j Hi Hj. unfold F'. rewrite (Sy (S i) (S j)), (Sy (S i) 0%nat), (Sy 0%nat (S j)) by lia. unfold Rdiv. ring. }
  assert (P' : psd n F').
  { intros x. set (b := Rsum n (fun j => F 0%nat (S j) * x j)). set (t := - b / (F 0%nat 0%nat + d 0%nat)).
    pose proof (Ps (fun i => match i with O => t | S i => x i end)) as H. unfold qf, bil in H. rewrite Rsum_S_l in H.
    rewrite Rsum_S_l in H.
    rewrite (Rsum_ext n (fun i => Rsum (S n) _) (fun i => x i * F (S i) 0%nat * t + Rsum n (fun j => x i * F (S i) (S j) * x j))) in H
      by (intros i Hi; rewrite Rsum_S_l; reflexivity).
    rewrite Rsum_plus in H. cbv beta iota in H.
    assert (E1 : Rsum n (fun j => t * F 0%nat (S j) * x j) = t * b) by (unfold b; rewrite <- Rsum_scal_l; apply Rsum_ext; intros; ring).
    assert (E2 : Rsum n (fun i => x i * F (S i) 0%nat * t) = t * b).
    { unfold b. rewrite <- Rsum_scal_l. apply Rsum_ext. intros i Hi. rewrite (Sy (S i) 0%nat) by lia. ring. }
    rewrite E1, E2 in H.
    assert (E3 : qf n F' x = Rsum n (fun i => Rsum n (fun j => x i * F (S i) (S j) * x j)) - b * b / (F 0%nat 0%nat + d 0%nat)).
    { unfold qf, bil, F'.
      rewrite (Rsum_ext n _ (fun i => Rsum n (fun j => x i * F (S i) (S j) * x j) - F 0%nat (S i) * x i * (b / (F 0%nat 0%nat + d 0%nat)))).
      - rewrite Rsum_minus. f_equal. rewrite Rsum_scal_r. unfold b. field. lra.
      - intros i Hi. unfold b, Rdiv. rewrite <- Rsum_scal_r, <- Rsum_scal_l, <- Rsum_minus. apply Rsum_ext. intros j Hj. rewrite (Sy (S i) 0%nat) by lia. ring. }
    rewrite E3. assert (E4 : t * F 0%nat 0%nat * t + 2 * (t * b) = - (b * b / (F 0%nat 0%nat + d 0%nat)) - d 0%nat * (t * t)) by (unfold t; field; lra).
    assert (0 <= d 0%nat * (t * t)) by (apply Rmult_le_pos; nra). lra. }
  specialize (IH F' (fun i => d (S i)) S' P' ltac:(intros; apply Hd; lia)).
  change (tab (S n) d) with (d 0%nat :: map d (seq 1 n)). rewrite <- seq_shift, map_map. cbn [fold_right]. fold (tab n (fun i => d (S i))).
  apply Rmult_le_compat; [lra| |lra|exact IH].
  clear - Hd. unfold tab. assert (HH : forall i, In i (seq 0 n) -> 0 < d (S i)) by (intros i Hi; apply in_seq in Hi; apply Hd; lia).
  induction (seq 0 n) as [|i l IHl]; cbn; [lra|]. apply Rmult_le_pos; [left; apply HH; now left|apply IHl; intros; apply HH; now right].
Qed.

(** ** The model with other noise *)

Lemma same_class_self k : same_class k k.
Proof. induction k; cbn; auto. Qed.

Lemma combine_split {A B} (l : list (A * B)) : combine (map fst l) (map snd l) = l.
Proof. induction l as [|[a b] l IH]; [reflexivity|]. cbn. now rewrite IH. Qed.

Lemma set_noise_values f v : set_noise f v = set_values f (map fst (f_kernels f)) (f_vecs f) (f_diags f) v.
Proof. unfold set_noise, set_values. now rewrite combine_split. Qed.

Lemma set_noise_update f v : fk_ok f -> length v = f_D f -> update_ok f (map fst (f_kernels f)) (f_vecs f) (f_diags f) v.
Proof.
  intros Hok Hv. constructor; auto.
  - induction (map fst (f_kernels f)); constructor; [apply same_class_self|assumption].
  - intros q Hq. pose proof (ok_ln f Hok). destruct (ok_vec f Hok q ltac:(lia)) as [r [_ [H1 H2]]]. split; [reflexivity|exact H2].
  - intros q Hq. pose proof (ok_ln f Hok). apply (ok_diag f Hok). lia.
Qed.

Lemma noisy_ready g lo hi m v : gp_ready g lo hi m -> length v = f_D (gp_f g) -> gp_ready (noisy g v) lo hi m.
Proof.
  intros HR Hv. unfold noisy. rewrite set_noise_values. apply ready_update; [exact HR| |].
  - exact (set_noise_update _ _ (rd_ok g lo hi m HR) Hv).
  - rewrite <- set_noise_values. exact (gr_kern _ _ _ _ HR).
Qed.

Lemma noisy_proper g v : proper (gp_f g) -> (forall a, (a < f_D (gp_f g))%nat -> 0 < vget v a) -> proper (gp_f (noisy g v)).
Proof. intros [H1 H2 H3] Hv. constructor; assumption. Qed.

Lemma noisy_mode g lo hi m v : gp_ready g lo hi m -> length v = f_D (gp_f g) -> proper (gp_f g) -> (forall a, (a < f_D (gp_f g))%nat -> 0 < vget v a) ->
  mode_ready g -> mode_ready (noisy g v).
Proof.
  intros HR Hl Hp Hv Hm. pose proof (K_obs_pdR _ lo hi m (noisy_ready g lo hi m v HR Hl) (noisy_proper g v Hp Hv)) as H.
  unfold mode_ready in *. change (gp_mode (noisy g v)) with (gp_mode g). destruct (gp_mode g); [exact I|exact Hm|exact H].
Qed.

Section Noisy.
Variables (g : gp) (lo hi : grid_arg R) (m : grid_arg nat) (v : vec).
Hypothesis HR : gp_ready g lo hi m.
Hypothesis Hp : proper (gp_f g).
Hypothesis Hv : length v = f_D (gp_f g).
Let f := gp_f g.
Let n := n_obs g.
Let lens := map (@length R) (mg_Ys (gp_data g)).
Let Ko h := K_obs (gp_f h) (mg_P (gp_data h)) (mg_Xs (gp_data h)) (map (@length R) (mg_Ys (gp_data h))).

Lemma noisy_own i : (i < n)%nat -> (owner lens i < f_D f)%nat.
Proof. intros Hi. pose proof (proj1 (owner_lt lens i Hi)) as H. rewrite (rd_D g lo hi m HR : length lens = _) in H. exact H. Qed.

Lemma noisy_fit i j : K_fit (noisy g v) i j = K_fit g i j + (if Nat.eqb i j then vget v (owner lens i) - vget (f_noise f) (owner lens i) else 0).
Proof.
  unfold K_fit, K_op, K_ski. cbn [noisy with_params gp_f gp_grids gp_data set_noise f_noise]. fold f lens.
  change (spurious (set_noise f v)) with (spurious f).
  change (f_Q (set_noise f v)) with (f_Q f). change (f_D (set_noise f v)) with (f_D f).
  match goal with |- ?A + ?B + ?C = ?A' + ?B' + ?C' + ?D => change A' with A; set (a := A) end.
  destruct (Nat.eqb i j); ring.
Qed.

Lemma noisy_obs i j : Ko (noisy g v) i j = Ko g i j + (if Nat.eqb i j then vget v (owner lens i) - vget (f_noise f) (owner lens i) else 0).
Proof.
  unfold Ko, K_obs. cbn [noisy with_params gp_f gp_grids gp_data set_noise f_noise]. fold f lens.
  change (lmc_cov (set_noise f v)) with (lmc_cov f). destruct (Nat.eqb i j); ring.
Qed.

Hypothesis Hle : forall a, (a < f_D f)%nat -> vget (f_noise f) a <= vget v a.

Lemma noisy_qf K K' : (forall i j, K' i j = K i j + (if Nat.eqb i j then vget v (owner lens i) - vget (f_noise f) (owner lens i) else 0)) ->
  forall x, qf n K x <= qf n K' x.
Proof.
  intros E x. rewrite (qf_ext n K' (fun i j => K i j + (if Nat.eqb i j then vget v (owner lens i) - vget (f_noise f) (owner lens i) else 0)) x x) by (intros; auto).
  unfold qf at 2. rewrite bil_plus. fold (qf n K x). fold (qf n (fun i j => if Nat.eqb i j then vget v (owner lens i) - vget (f_noise f) (owner lens i) else 0) x).
  rewrite (qf_diag n (fun i => vget v (owner lens i) - vget (f_noise f) (owner lens i))).
  assert (0 <= Rsum n (fun i => (vget v (owner lens i) - vget (f_noise f) (owner lens i)) * (x i * x i))); [|lra].
  apply Rsum_nonneg. intros i Hi. apply Rmult_le_pos; [|nra]. specialize (Hle _ (noisy_own i Hi)). lra.
Qed.

Variables (solve solve' : Mat -> vec -> result vec) (k k' : gp_kernel).
Hypothesis He : solves_exactly n (K_fit g) (solve (al_K (gpk_lik k))).
Hypothesis He' : solves_exactly n (K_fit (noisy g v)) (solve' (al_K (gpk_lik k'))).

Lemma noisy_proper' : proper (gp_f (noisy g v)).
Proof. apply noisy_proper; [exact Hp|]. intros a Ha. pose proof (pr_noise _ Hp a Ha). pose proof (Hle a Ha) as H1. unfold f in H1. lra. Qed.

Lemma noisy_quad c z z' : solves n (K_fit g) z c -> solves n (K_fit (noisy g v)) z' c -> Rsum n (fun l => c l * z' l) <= Rsum n (fun l => c l * z l).
Proof.
  apply larger_quad; [exact (K_fit_sym g lo hi m HR)|apply pd_psd, (K_fit_pd g lo hi m HR), Hp|]. apply noisy_qf, noisy_fit.
Qed.

Lemma noisy_explained a x :
  (gp_mode g = Precompute -> (forall q, (q < f_Q f)%nat -> qdims f q = seq 0 (mg_P (gp_data g))) /\
     forall u, (u < pts g (seq 0 (mg_P (gp_data g))))%nat -> 0 <= wt g (seq 0 (mg_P (gp_data g))) x u) ->
  explained (noisy g v) k' solve' a x <= explained g k solve a x.
Proof.
  intros Hpre. unfold explained. change (gp_mode (noisy g v)) with (gp_mode g). destruct (gp_mode g) eqn:EM.
  - destruct (fly_form g solve k He a x) as [z [Hz ->]]. destruct (fly_form (noisy g v) solve' k' He' a x) as [z' [Hz' ->]].
    exact (noisy_quad _ _ _ Hz Hz').
  - destruct (Hpre eq_refl) as [H1 H2]. unfold explained_pre. change (mg_P (gp_data (noisy g v))) with (mg_P (gp_data g)).
    change (pts (noisy g v)) with (pts g). change (wt (noisy g v)) with (wt g). apply Rsum_le. intros u Hu. apply Rmult_le_compat_l; [now apply H2|].
    destruct (nu_form g solve k He (seq 0 (mg_P (gp_data g))) a u) as [z [Hz ->]]. destruct (nu_form (noisy g v) solve' k' He' (seq 0 (mg_P (gp_data g))) a u) as [z' [Hz' ->]].
    exact (noisy_quad _ _ _ Hz Hz').
  - pose proof (K_obs_pdR g lo hi m HR Hp) as P1. pose proof (K_obs_pdR (noisy g v) lo hi m (noisy_ready g lo hi m v HR Hv) noisy_proper') as P2.
    destruct (dense_ok g lo hi m HR P1) as [e [E1 _]]. destruct (dense_ok (noisy g v) lo hi m (noisy_ready g lo hi m v HR Hv) P2) as [e' [E2 _]]. rewrite E1, E2.
    destruct (exact_form g lo hi m HR e a x E1 P1) as [z [Hz ->]]. destruct (exact_form (noisy g v) lo hi m (noisy_ready g lo hi m v HR Hv) e' a x E2 P2) as [z' [Hz' ->]].
    change (Rsum (n_obs g) (fun l => cross g a x l * z' l) <= Rsum (n_obs g) (fun l => cross g a x l * z l)).
    apply (larger_quad (n_obs g) (Ko g) (Ko (noisy g v)) (cross g a x)); [apply K_obs_sym|now apply pd_psd|apply noisy_qf, noisy_obs|exact Hz|exact Hz'].
Qed.
End Noisy.

(** ** Large noise *)

Section Loud.
Variables (g : gp) (lo hi : grid_arg R) (m : grid_arg nat) (v : vec) (s : R).
Hypothesis HR : gp_ready g lo hi m.
Hypothesis Hp : proper (gp_f g).
Hypothesis Hv : length v = f_D (gp_f g).
Hypothesis Hs : 0 < s.
Hypothesis Hge : forall a, (a < f_D (gp_f g))%nat -> s <= vget v a.
Variables (solve : Mat -> vec -> result vec) (k : gp_kernel).
Hypothesis He : solves_exactly (n_obs g) (K_fit (noisy g v)) (solve (al_K (gpk_lik k))).
Let n := n_obs g.
Let P := mg_P (gp_data g).
Let lens := map (@length R) (mg_Ys (gp_data g)).

Definition mean_reach (h : gp) (a : nat) (x : nat -> R) : R :=
  norm2 (n_obs h) (fun j => ski_cov h (wt h) a x (owner (map (@length R) (mg_Ys (gp_data h))) j) (obs (mg_P (gp_data h)) (mg_Xs (gp_data h)) (map (@length R) (mg_Ys (gp_data h))) j)
    + ski_extra h (wt h) a x (owner (map (@length R) (mg_Ys (gp_data h))) j) (obs (mg_P (gp_data h)) (mg_Xs (gp_data h)) (map (@length R) (mg_Ys (gp_data h))) j))
  * norm2 (n_obs h) (y_obs h).
Definition var_reach (h : gp) (a : nat) (x : nat -> R) : R :=
  match gp_mode h with
  | Precompute => Rsum (pts h (seq 0 (mg_P (gp_data h)))) (fun u => Rabs (wt h (seq 0 (mg_P (gp_data h))) x u) * norm2 (n_obs h) (gcov h (seq 0 (mg_P (gp_data h))) a u) ^ 2)
  | _ => norm2 (n_obs h) (cross h a x) ^ 2
  end.

Lemma mean_reach_nonneg a x : 0 <= mean_reach g a x.
Proof. apply Rmult_le_pos; apply norm2_nonneg. Qed.
Lemma var_reach_nonneg a x : 0 <= var_reach g a x.
Proof. unfold var_reach. destruct (gp_mode g); try apply pow2_ge_0. apply Rsum_nonneg. intros. apply Rmult_le_pos; [apply Rabs_pos|apply pow2_ge_0]. Qed.

Lemma loud_proper : proper (gp_f (noisy g v)).
Proof. apply noisy_proper; [exact Hp|]. intros a Ha. specialize (Hge a Ha). lra. Qed.

Lemma loud_fit x : s * nrm2 n x <= qf n (K_fit (noisy g v)) x.
Proof. exact (K_fit_floor (noisy g v) lo hi m s (noisy_ready g lo hi m v HR Hv) loud_proper Hge x). Qed.

Lemma loud_obs x : s * nrm2 n x <= qf n (K_obs (set_noise (gp_f g) v) P (mg_Xs (gp_data g)) lens) x.
Proof.
  unfold qf. change (bil n (K_obs (set_noise (gp_f g) v) P (mg_Xs (gp_data g)) lens) x x) with
    (bil n (fun i j => lmc_cov (gp_f g) (owner lens i) (obs P (mg_Xs (gp_data g)) lens i) (owner lens j) (obs P (mg_Xs (gp_data g)) lens j) + (if Nat.eqb i j then vget v (owner lens i) else 0)) x x).
  rewrite bil_plus. fold (qf n (fun i j => if Nat.eqb i j then vget v (owner lens i) else 0) x). rewrite (qf_diag n (fun i => vget v (owner lens i))).
  pose proof (lmc_psd (gp_f g) P (mg_Xs (gp_data g)) lens (rd_D g lo hi m HR) (fun q Hq => proj1 (gr_kern _ _ _ _ HR q Hq)) (pr_per _ Hp) (pr_diag _ Hp) x) as H.
  change (nsum lens) with n in H. unfold qf in H.
  assert (s * nrm2 n x <= Rsum n (fun i => vget v (owner lens i) * (x i * x i))); [|lra].
  unfold nrm2. rewrite <- Rsum_scal_l. apply Rsum_le. intros i Hi. apply Rmult_le_compat_r; [nra|]. apply Hge. exact (noisy_own g lo hi m HR i Hi).
Qed.

Lemma loud_inner K b c z : (forall x, s * nrm2 n x <= qf n K x) -> solves n K z c -> Rabs (Rsum n (fun l => b l * z l)) <= norm2 n b * norm2 n c / s.
Proof.
  intros HK Hz. pose proof (solution_size n K s Hs HK c z Hz) as H. eapply Rle_trans; [apply cauchy|]. unfold Rdiv in *. rewrite Rmult_assoc.
  apply Rmult_le_compat_l; [apply norm2_nonneg|exact H].
Qed.

Lemma loud_mean a x : solves n (K_fit (noisy g v)) (vget (sd_alpha (al_deriv (gpk_lik k)))) (y_obs g) -> Rabs (mean_at (noisy g v) k a x) <= mean_reach g a x / s.
Proof.
  intros Ha. exact (loud_inner _ (fun j => ski_cov g (wt g) a x (owner lens j) (obs P (mg_Xs (gp_data g)) lens j) + ski_extra g (wt g) a x (owner lens j) (obs P (mg_Xs (gp_data g)) lens j)) _ _ loud_fit Ha).
Qed.

Lemma loud_explained a x : Rabs (explained (noisy g v) k solve a x) <= var_reach g a x / s.
Proof.
  unfold explained, var_reach. change (gp_mode (noisy g v)) with (gp_mode g). destruct (gp_mode g) eqn:EM.
  - destruct (fly_form (noisy g v) solve k He a x) as [z [Hz ->]]. replace (norm2 (n_obs g) (cross g a x) ^ 2) with (norm2 n (cross g a x) * norm2 n (cross g a x)) by (unfold n; ring).
    exact (loud_inner _ _ _ _ loud_fit Hz).
  - unfold explained_pre. change (mg_P (gp_data (noisy g v))) with (mg_P (gp_data g)). change (pts (noisy g v)) with (pts g). change (wt (noisy g v)) with (wt g).
    eapply Rle_trans; [apply Rsum_abs|]. unfold Rdiv. rewrite <- Rsum_scal_r. apply Rsum_le. intros u Hu. rewrite Rabs_mult, Rmult_assoc.
    apply Rmult_le_compat_l; [apply Rabs_pos|]. destruct (nu_form (noisy g v) solve k He (seq 0 (mg_P (gp_data g))) a u) as [z [Hz ->]].
    replace (norm2 (n_obs g) (gcov g (seq 0 (mg_P (gp_data g))) a u) ^ 2) with (norm2 n (gcov g (seq 0 (mg_P (gp_data g))) a u) * norm2 n (gcov g (seq 0 (mg_P (gp_data g))) a u)) by (unfold n; ring).
    exact (loud_inner _ _ _ _ loud_fit Hz).
  - pose proof (K_obs_pdR (noisy g v) lo hi m (noisy_ready g lo hi m v HR Hv) loud_proper) as P2.
    destruct (dense_ok (noisy g v) lo hi m (noisy_ready g lo hi m v HR Hv) P2) as [e [E _]]. rewrite E.
    destruct (exact_form (noisy g v) lo hi m (noisy_ready g lo hi m v HR Hv) e a x E P2) as [z [Hz ->]].
    replace (norm2 (n_obs g) (cross g a x) ^ 2) with (norm2 n (cross g a x) * norm2 n (cross g a x)) by (unfold n; ring).
    exact (loud_inner _ _ _ _ loud_obs Hz).
Qed.
End Loud.
