(** How residuals of the solves affect the results. *)

From Coq Require Import Reals List Arith ZArith Lia Lra.
From Verif Require Import Base NDArray PSD Model_Util Proofs_Util Spec_Util Model_Linalg Spec_Linalg Proofs_Linalg Model_Interp Spec_Interp
  Proofs_Sparse Proofs_Interp Proofs_Interp2 Proofs_Bicubic Proofs_Assemble Proofs_Autogrid Properties_Interp Model_Kern Spec_Kern Proofs_Kern Proofs_KernPSD Model_FK Spec_FK Proofs_FK
  Properties_FK Model_Grid Spec_Grid Proofs_Grid Proofs_Grid2 Det Proofs_Det Model_Lik Spec_Lik Proofs_Lik Proofs_Lik2 Proofs_Lik3 Proofs_Lik4 Proofs_Lik5 Proofs_Lik6 Proofs_Lik7 Properties_Lik
  Properties_Lik2 Spec_GP Proofs_Gen Proofs_Gen2 Properties_Gen Model_GP Spec_Pred Proofs_Pred Proofs_Pred2 Proofs_Pred3 Proofs_Pred4 Proofs_Init Proofs_Pred6
  Model_Opt Spec_Opt Proofs_Opt Spec_Acc.
Import ListNotations.
Open Scope R_scope.

(** ** Euclidean lengths *)

Lemma sq_nonneg n (u : nat -> R) : 0 <= Rsum n (fun i => u i ^ 2).
Proof. apply Rsum_nonneg. intros. apply pow2_ge_0. Qed.

Lemma norm2_nonneg n u : 0 <= norm2 n u.
Proof. apply sqrt_pos. Qed.

Lemma norm2_sq n u : norm2 n u * norm2 n u = Rsum n (fun i => u i ^ 2).
Proof. apply sqrt_sqrt, sq_nonneg. Qed.

Lemma norm2_ext n u v : (forall i, (i < n)%nat -> u i = v i) -> norm2 n u = norm2 n v.
Proof. intros H. unfold norm2. f_equal. apply Rsum_ext. intros i Hi. now rewrite H. Qed.

Lemma cauchy_sq n u v : Rsum n (fun i => u i * v i) ^ 2 <= Rsum n (fun i => u i ^ 2) * Rsum n (fun i => v i ^ 2).
Proof.
  set (A := Rsum n (fun i => u i ^ 2)). set (B := Rsum n (fun i => u i * v i)). set (C := Rsum n (fun i => v i ^ 2)).
  assert (HA : 0 <= A) by apply sq_nonneg.
  assert (Q : forall t, 0 <= t * t * A + 2 * t * B + C).
  { intros t. unfold A, B, C. rewrite <- (Rsum_scal_l n (t * t)), <- (Rsum_scal_l n (2 * t)), <- !Rsum_plus. apply Rsum_nonneg. intros i Hi.
    replace (t * t * u i ^ 2 + 2 * t * (u i * v i) + v i ^ 2) with (Rsqr (t * u i + v i)) by (unfold Rsqr; ring). apply Rle_0_sqr. }
  destruct (Rle_lt_or_eq_dec 0 A HA) as [HA'|HA'].
  - specialize (Q (- B / A)). replace (- B / A * (- B / A) * A + 2 * (- B / A) * B + C) with (C - B ^ 2 / A) in Q by (field; lra).
    apply Rmult_le_reg_r with (/ A); [now apply Rinv_0_lt_compat|]. replace (A * C * / A) with C by (field; lra). unfold Rdiv in Q. lra.
  - rewrite <- HA' in *. destruct (Req_dec B 0) as [->|HB]; [lra|]. exfalso. specialize (Q (- (C + 1) / (2 * B))).
    replace (- (C + 1) / (2 * B) * (- (C + 1) / (2 * B)) * 0 + 2 * (- (C + 1) / (2 * B)) * B + C) with (-1) in Q by (field; exact HB). lra.
Qed.

Lemma cauchy n u v : Rabs (Rsum n (fun i => u i * v i)) <= norm2 n u * norm2 n v.
Proof.
  unfold norm2. rewrite <- sqrt_mult by apply sq_nonneg. rewrite <- sqrt_Rsqr_abs. apply sqrt_le_1_alt.
  unfold Rsqr. pose proof (cauchy_sq n u v). lra.
Qed.

Lemma norm2_scal n c u : norm2 n (fun i => c * u i) = Rabs c * norm2 n u.
Proof.
  unfold norm2. rewrite <- sqrt_Rsqr_abs, <- sqrt_mult by (try apply Rle_0_sqr; apply sq_nonneg). f_equal.
  rewrite <- Rsum_scal_l. apply Rsum_ext. intros i _. unfold Rsqr. ring.
Qed.

Lemma norm2_triangle n u v : norm2 n (fun i => u i + v i) <= norm2 n u + norm2 n v.
Proof.
  pose proof (norm2_nonneg n u). pose proof (norm2_nonneg n v). apply Rsqr_incr_0; [|apply norm2_nonneg|lra].
  unfold Rsqr. rewrite norm2_sq. pose proof (norm2_sq n u) as E1. pose proof (norm2_sq n v) as E2.
  replace (Rsum n (fun i => (u i + v i) ^ 2)) with (Rsum n (fun i => u i ^ 2) + 2 * Rsum n (fun i => u i * v i) + Rsum n (fun i => v i ^ 2)).
  - pose proof (cauchy n u v) as C. pose proof (Rle_abs (Rsum n (fun i => u i * v i))). nra.
  - rewrite <- Rsum_scal_l, <- !Rsum_plus. apply Rsum_ext. intros. ring.
Qed.

Lemma dist2_norm n x z : dist2 n x z = norm2 n (fun i => vget x i - vget z i).
Proof. reflexivity. Qed.

(** ** The noise is a floor for the covariance *)

Lemma K_op_floor f G W lens s : length lens = f_D f ->
  (forall q a, (q < f_Q f)%nat -> (a < f_D f)%nat -> 0 <= vget (nth q (f_diags f) []) a) ->
  (forall q, (q < f_Q f)%nat -> psd (nprod (a_shape (G (qdims f q)))) (K_grid f (G (qdims f q)) q)) ->
  (forall a, (a < f_D f)%nat -> s <= vget (f_noise f) a) -> forall x,
  s * nrm2 (nsum lens) x <= qf (nsum lens) (K_op f G W lens) x.
Proof.
  intros HL Hd HK Hn x. set (n := nsum lens) in *.
  assert (own : forall i, (i < n)%nat -> (owner lens i < f_D f)%nat) by (intros i Hi; rewrite <- HL; now apply owner_lt).
  unfold K_op, K_ski. unfold qf. rewrite bil_plus, bil_plus.
  assert (H1 := psd_Rsum n (f_Q f) (fun q => ski_entry (W (qdims f q)) (f_D f) (nprod (a_shape (G (qdims f q)))) (B_of f q) (K_grid f (G (qdims f q)) q))
     ltac:(intros q Hq; apply ski_entry_psd; [intros a b _ _; apply B_of_sym|apply B_of_psd; auto|auto]) x).
  assert (H2 : psd n (spurious f G W)).
  { apply (psd_lsum n _ (fun ad i j => if surplus_b f ad then Rsum (f_D f * nprod (a_shape (G ad))) (fun u => sp_get (W ad) i u * sp_get (W ad) j u) else 0)).
    intros ad _. destruct (surplus_b f ad); [apply gram_f_psd|apply psd_zero]. }
  specialize (H2 x). unfold qf in H1, H2. change (fun i j => spurious f G W i j) with (spurious f G W).
  pose proof (qf_diag n (fun i => vget (f_noise f) (owner lens i)) x) as H3. unfold qf in H3. rewrite H3.
  assert (s * nrm2 n x <= Rsum n (fun i => vget (f_noise f) (owner lens i) * (x i * x i))); [|lra].
  unfold nrm2. rewrite <- Rsum_scal_l. apply Rsum_le. intros i Hi. apply Rmult_le_compat_r; [nra|auto].
Qed.

(** ** From residuals to errors *)

Section Coercive.
Variables (n : nat) (K : nat -> nat -> R) (s eps : R).
Hypothesis Hs : 0 < s.
Hypothesis HK : forall x, s * nrm2 n x <= qf n K x.

Lemma coercive_err y x z : (forall i, (i < n)%nat -> Rsum n (fun j => K i j * z j) = vget y i) -> gap n K y x <= eps ->
  norm2 n (fun i => vget x i - z i) <= eps / s.
Proof.
  intros Hz Hg. apply Rmult_le_reg_l with s; [exact Hs|]. replace (s * (eps / s)) with eps by (field; lra). apply Rle_trans with (2 := Hg).
  rewrite (norm2_ext n _ (fun i => vget x i - vget (tab n z) i)) by (intros i Hi; now rewrite vget_tab).
  rewrite <- dist2_norm. apply (coercive_error n K y x (tab n z) s Hs).
  - intros v _. specialize (HK (vget v)). unfold nrm2 in HK. unfold qf, bil in HK.
    rewrite (Rsum_ext n (fun i => vget v i ^ 2) (fun i => vget v i * vget v i)) by (intros; ring).
    eapply Rle_trans; [exact HK|]. right. apply Rsum_ext. intros i Hi. apply Rsum_ext. intros j Hj. ring.
  - intros i Hi. rewrite <- (Hz i Hi). apply Rsum_ext. intros j Hj. now rewrite vget_tab.
Qed.

(** The size of a solution. *)
Lemma solution_size y z : (forall i, (i < n)%nat -> Rsum n (fun j => K i j * z j) = y i) -> norm2 n z <= norm2 n y / s.
Proof.
  intros Hz. destruct (Req_dec (norm2 n z) 0) as [E|E].
  - rewrite E. apply Rmult_le_pos; [apply norm2_nonneg|]. left. now apply Rinv_0_lt_compat.
  - pose proof (norm2_nonneg n z) as P. pose proof (HK z) as H. unfold nrm2 in H.
    replace (Rsum n (fun i => z i * z i)) with (norm2 n z * norm2 n z) in H by (rewrite norm2_sq; apply Rsum_ext; intros; ring).
    assert (Q : qf n K z <= norm2 n z * norm2 n y).
    { replace (qf n K z) with (Rsum n (fun i => z i * y i)).
      - pose proof (cauchy n z y). pose proof (Rle_abs (Rsum n (fun i => z i * y i))). lra.
      - unfold qf, bil. apply Rsum_ext. intros i Hi. rewrite <- (Hz i Hi), <- Rsum_scal_l. apply Rsum_ext. intros. ring. }
    apply Rmult_le_reg_l with s; [exact Hs|]. replace (s * (norm2 n y / s)) with (norm2 n y) by (field; lra).
    apply Rmult_le_reg_l with (norm2 n z); [lra|]. lra.
Qed.
End Coercive.

(** ** The fitted model *)

Lemma K_fit_floor g lo hi m s : gp_ready g lo hi m -> proper (gp_f g) -> (forall a, (a < f_D (gp_f g))%nat -> s <= vget (f_noise (gp_f g)) a) ->
  forall x, s * nrm2 (n_obs g) x <= qf (n_obs g) (K_fit g) x.
Proof.
  intros HR [Hper Hdiag _] Hn. set (f := gp_f g) in *. set (P := mg_P (gp_data g)).
  pose proof (rd_ok g lo hi m HR : fk_ok f) as Hok. pose proof (rd_P g lo hi m HR : f_P f = Some P) as HP.
  apply K_op_floor.
  - exact (rd_D g lo hi m HR).
  - exact Hdiag.
  - intros q Hq. fold f. destruct (group_qdims f P Hok HP q Hq) as [_ Had]. set (ad := qdims f q) in *.
    destruct (rd_grid g lo hi m HR ad Had) as [_ [l [HL [E1 [E2 [E3 [El [Hl Hax]]]]]]]].
    assert (EG : G_of (gp_grids g) ad = dists_of l) by (unfold G_of; now rewrite (gg_ag _ _ _ _ _ _ _ _ _ _ HL)).
    rewrite EG. unfold K_grid, dists_of. cbn [a_data a_shape].
    apply (psd_ext _ (fun i j => k_doc (kern_of f q) (euclid (length l) (grid_pt (axes_of l) i) (grid_pt (axes_of l) j)))).
    + intros i j Hi Hj. symmetry. apply grid_dists_entry; [destruct l; [cbn in *; lia|discriminate]|now apply axes_points_pos|exact Hi|exact Hj].
    + apply psd_pd_on. apply pd_kernel; [apply (gr_kern _ _ _ _ HR q Hq)|]. intros Hp. rewrite El. now apply (Hper q Hq).
  - exact Hn.
Qed.

Lemma within_returns eps n K solve : solves_within eps n K solve -> returns n solve.
Proof. intros H b Hb. destruct (H b Hb) as [x [E [L _]]]. eauto. Qed.

Lemma clip_lip a b : Rabs (clip a - Rmax 0 b) <= Rabs (a - b).
Proof. unfold clip. pose proof (Rmax_l 0 b). pose proof (Rmax_r 0 b). destruct (Rlt_dec a 0); unfold Rmax in *; destruct (Rle_dec 0 b); unfold Rabs; repeat destruct (Rcase_abs _); lra. Qed.

(** ** Stochastic derivatives *)

Lemma sign_norm n r : length r = n -> norm2 n (vget (signs r)) = sqrt (INR n).
Proof.
  intros L. unfold norm2. f_equal. transitivity (Rsum n (fun _ => 1)).
  - apply Rsum_ext. intros i Hi. unfold vget, signs. set (h := fun b : bool => (if b then 1 else 0) * 2 - 1). rewrite (nth_indep _ 0 (h false)) by (rewrite map_length; lia).
    rewrite (map_nth h). unfold h. destruct (nth i r false); ring.
  - clear L. induction n as [|n IH]; [reflexivity|]. cbn [Rsum]. rewrite IH. rewrite S_INR. ring.
Qed.

Section Deriv.
Variables (n : nat) (K X F : nat -> nat -> R) (y : vec) (a : nat -> R) (s eps M : R).
Hypothesis Hs : 0 < s.
Hypothesis HK : forall x, s * nrm2 n x <= qf n K x.
Hypothesis Hinv : is_inv n K X.
Hypothesis Ha : forall i, (i < n)%nat -> Rsum n (fun j => K i j * a j) = vget y i.
Hypothesis HM : op_bound n F M.

Lemma inv_col b i : (i < n)%nat -> Rsum n (fun j => K i j * Rsum n (fun l => X j l * b l)) = b i.
Proof.
  intros Hi. transitivity (Rsum n (fun l => Rsum n (fun j => K i j * X j l) * b l)).
  - rewrite (Rsum_ext n _ (fun j => Rsum n (fun l => K i j * X j l * b l))) by (intros; rewrite <- Rsum_scal_l; apply Rsum_ext; intros; ring).
    rewrite Rsum_swap. apply Rsum_ext. intros l Hl. now rewrite Rsum_scal_r.
  - rewrite <- (Rsum_delta n i b Hi). apply Rsum_ext. intros l Hl. rewrite (Hinv i l Hi Hl). unfold id_f. destruct (Nat.eqb_spec i l), (Nat.eqb_spec l i); subst; try lia; ring.
Qed.

Lemma probe_err r x : length r = n -> gap n K (signs r) x <= eps ->
  Rabs (Rsum n (fun i => vget x i * Rsum n (fun j => F i j * vget (signs r) j)) - trace_term n X F r) <= M * sqrt (INR n) * (eps / s).
Proof.
  intros L Hg. unfold trace_term. rewrite <- Rsum_minus.
  rewrite (Rsum_ext n _ (fun i => (vget x i - Rsum n (fun j => X i j * vget (signs r) j)) * Rsum n (fun j => F i j * vget (signs r) j))) by (intros; ring).
  eapply Rle_trans; [apply cauchy|]. rewrite Rmult_comm.
  pose proof (proj2 HM (vget (signs r))) as H1. rewrite (sign_norm n r L) in H1.
  pose proof (coercive_err n K s eps Hs HK (signs r) x (fun i => Rsum n (fun j => X i j * vget (signs r) j)) (fun i Hi => inv_col _ i Hi) Hg) as H2.
  apply Rmult_le_compat; [apply norm2_nonneg|apply norm2_nonneg|exact H1|exact H2].
Qed.

Lemma quad_err x : gap n K y x <= eps ->
  Rabs (Rsum n (fun i => vget x i * Rsum n (fun j => F i j * vget x j)) - Rsum n (fun i => Rsum n (fun j => a i * F i j * a j)))
  <= M * (eps / s) * (2 * (norm2 n (vget y) / s) + eps / s).
Proof.
  intros Hg. pose proof (coercive_err n K s eps Hs HK y x a Ha Hg) as He. set (e := fun i => vget x i - a i) in *.
  pose proof (solution_size n K s Hs HK (vget y) a Ha) as HA. set (N := norm2 n (vget y) / s) in *. set (t := eps / s) in *.
  assert (Hx : norm2 n (vget x) <= N + t).
  { rewrite (norm2_ext n _ (fun i => a i + e i)) by (intros; unfold e; ring). eapply Rle_trans; [apply norm2_triangle|]. lra. }
  replace (Rsum n (fun i => vget x i * Rsum n (fun j => F i j * vget x j)) - Rsum n (fun i => Rsum n (fun j => a i * F i j * a j)))
    with (Rsum n (fun i => e i * Rsum n (fun j => F i j * vget x j)) + Rsum n (fun i => a i * Rsum n (fun j => F i j * e j))).
  - eapply Rle_trans; [apply Rabs_triang|].
    pose proof (cauchy n e (fun i => Rsum n (fun j => F i j * vget x j))) as C1. pose proof (cauchy n a (fun i => Rsum n (fun j => F i j * e j))) as C2.
    pose proof (proj2 HM (vget x)) as M1. pose proof (proj2 HM e) as M2.
    assert (P1 := norm2_nonneg n e). assert (P2 := norm2_nonneg n a). assert (P3 := norm2_nonneg n (vget x)).
    assert (P4 := norm2_nonneg n (fun i => Rsum n (fun j => F i j * vget x j))). assert (P5 := norm2_nonneg n (fun i => Rsum n (fun j => F i j * e j))).
    assert (D1 : norm2 n e * norm2 n (fun i => Rsum n (fun j => F i j * vget x j)) <= t * (M * (N + t))).
    { apply Rmult_le_compat; auto. eapply Rle_trans; [exact M1|]. apply Rmult_le_compat_l; [apply HM|exact Hx]. }
    assert (D2 : norm2 n a * norm2 n (fun i => Rsum n (fun j => F i j * e j)) <= N * (M * t)).
    { apply Rmult_le_compat; auto. eapply Rle_trans; [exact M2|]. apply Rmult_le_compat_l; [apply HM|exact He]. }
    lra.
  - rewrite <- Rsum_plus, <- Rsum_minus. apply Rsum_ext. intros i Hi. rewrite <- !Rsum_scal_l, <- Rsum_plus, <- Rsum_minus. apply Rsum_ext. intros j Hj. unfold e. ring.
Qed.

End Deriv.

Lemma mean_close {A} (l : list A) u v B : l <> [] -> (forall x, In x l -> Rabs (u x - v x) <= B) -> Rabs (mean l u - mean l v) <= B.
Proof.
  intros Hl H. unfold mean. assert (P : 0 < INR (length l)) by (apply lt_0_INR; destruct l; [congruence|cbn; lia]).
  assert (S : Rabs (lsum (map u l) - lsum (map v l)) <= INR (length l) * B).
  { clear Hl P. induction l as [|x l IH]; [unfold lsum; cbn; rewrite Rminus_0_r, Rabs_R0; lra|]. cbn [map length]. unfold lsum in *. cbn [fold_right].
    rewrite S_INR. specialize (IH (fun z Hz => H z (or_intror Hz))). specialize (H x (or_introl eq_refl)).
    match goal with |- Rabs (?a + ?b - (?c + ?d)) <= _ => replace (a + b - (c + d)) with ((a - c) + (b - d)) by ring end.
    eapply Rle_trans; [apply Rabs_triang|]. lra. }
  match goal with |- Rabs (?a / _ - ?b / _) <= _ => replace (a / INR (length l) - b / INR (length l)) with ((a - b) * / INR (length l)) by (unfold Rdiv; ring) end.
  rewrite Rabs_mult, (Rabs_right (/ INR (length l))) by (left; now apply Rinv_0_lt_compat).
  apply Rmult_le_reg_r with (INR (length l)); [exact P|]. rewrite Rmult_assoc, Rinv_l, Rmult_1_r by lra. lra.
Qed.
