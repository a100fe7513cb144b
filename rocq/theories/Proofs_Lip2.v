(** Predictions as functions of the requested point: bounded and Lipschitz. *)

From Coq Require Import Reals List Arith ZArith Lia Lra.
From Verif Require Import Base NDArray PSD Model_Util Proofs_Util Spec_Util Model_Linalg Spec_Linalg Proofs_Linalg Model_Interp Spec_Interp
  Proofs_Sparse Proofs_Interp Proofs_Interp2 Proofs_Autogrid Properties_Interp Model_Kern Spec_Kern Proofs_Kern Model_FK Spec_FK Proofs_FK Model_Grid Spec_Grid Proofs_Grid
  Proofs_Grid2 Det Proofs_Det Model_Lik Spec_Lik Proofs_Lik Proofs_Lik2 Proofs_Lik5 Proofs_Lik6 Proofs_Lik7 Properties_Lik Spec_GP Proofs_Gen Proofs_Gen2 Model_GP Spec_Pred
  Proofs_Pred2 Proofs_Pred3 Proofs_Pred4 Proofs_Init Proofs_Pred6 Proofs_Eig Proofs_Order3 Spec_Lip Proofs_Lip.
Import ListNotations.
Open Scope R_scope.

Lemma bnd_lsum {A} (l : list A) (F : A -> (nat -> R) -> R) : (forall i, In i l -> bnd (F i)) -> bnd (fun x => lsum (map (fun i => F i x) l)).
Proof.
  induction l as [|a l IH]; intros H; [apply (bnd_const 0)|]. cbn [map]. unfold lsum. cbn [fold_right].
  apply (bnd_plus (F a) (fun x => lsum (map (fun i => F i x) l))); [apply H; now left|apply IH; intros; apply H; now right].
Qed.

(** Solutions as a linear function of the right-hand side. *)
Lemma units n (S : (nat -> R) -> (nat -> R) -> Prop) : (forall c, exists z, S z c) -> exists M, forall i, (i < n)%nat -> S (M i) (fun j => if Nat.eqb j i then 1 else 0).
Proof.
  intros H. induction n as [|n [M IH]]; [exists (fun _ _ => 0); intros; lia|]. destruct (H (fun j => if Nat.eqb j n then 1 else 0)) as [z Hz].
  exists (fun i => if Nat.eqb i n then z else M i). intros i Hi. destruct (Nat.eqb_spec i n) as [->|]; [exact Hz|]. apply IH. lia.
Qed.

Lemma solve_matrix n K : sym n K -> pos_definite n K -> (forall c, exists z, solves n K z c) ->
  exists M : nat -> nat -> R, forall c z, solves n K z c -> forall l, (l < n)%nat -> z l = Rsum n (fun i => c i * M i l).
Proof.
  intros Hs Hp H. destruct (units n (solves n K) H) as [M HM]. exists M. intros c z Hz.
  apply (solves_unique n K c); [now apply pos_definite_pivots|exact Hz|]. intros i Hi.
  rewrite (Rsum_ext n _ (fun j => Rsum n (fun i0 => c i0 * (K i j * M i0 j)))) by (intros j Hj; rewrite <- Rsum_scal_l; apply Rsum_ext; intros; ring).
  rewrite Rsum_swap. rewrite (Rsum_ext n _ (fun i0 => if Nat.eqb i0 i then c i0 else 0)); [now apply Rsum_delta|].
  intros i0 Hi0. rewrite Rsum_scal_l, (HM i0 Hi0 i Hi). rewrite (Nat.eqb_sym i i0). destruct (Nat.eqb i0 i); ring.
Qed.

Section Points.
Variables (g : gp) (lo hi : grid_arg R) (m : grid_arg nat).
Hypothesis HR : gp_ready g lo hi m.
Let f := gp_f g.
Let P := mg_P (gp_data g).
Let Hok : fk_ok f := rd_ok g lo hi m HR.
Let HP : f_P f = Some P := rd_P g lo hi m HR.

Lemma wt_lip ad u : group f ad <> [] -> lip P (fun x => wt g ad x u) /\ bnd (fun x => wt g ad x u).
Proof.
  intros Had. destruct (rd_grid g lo hi m HR ad Had) as [_ [l [_ [_ [E2 [_ [El [Hl Hax]]]]]]]]. unfold wt. rewrite E2. unfold proj.
  apply (wN_lip P ad l u Hl (eq_sym El) Hax). exact (ga_range _ _ _ _ _ _ _ (da_args _ _ _ _ _ _ _ (gr_data _ _ _ _ HR) ad Had)).
Qed.

Lemma ski_lip a b z : lip P (fun x => ski_cov g (wt g) a x b z) /\ bnd (fun x => ski_cov g (wt g) a x b z).
Proof.
  unfold ski_cov. cbv zeta.
  assert (H : forall q u v, (q < f_Q f)%nat -> lip P (fun x => wt g (qdims f q) x u * K_grid f (G_of (gp_grids g) (qdims f q)) q u v * wt g (qdims f q) z v)
     /\ bnd (fun x => wt g (qdims f q) x u * K_grid f (G_of (gp_grids g) (qdims f q)) q u v * wt g (qdims f q) z v)).
  { intros q u v Hq. destruct (wt_lip (qdims f q) u (proj2 (group_qdims f P Hok HP q Hq))) as [HL HB]. split.
    - now apply lip_scal_r, lip_scal_r.
    - apply bnd_mult; [apply bnd_mult; [exact HB|apply bnd_const]|apply bnd_const]. }
  split.
  - apply lip_sum. intros q Hq. apply lip_scal_l. apply lip_sum. intros u Hu. apply lip_sum. intros v Hv. now apply H.
  - apply bnd_sum. intros q Hq. apply bnd_scal_l. apply bnd_sum. intros u Hu. apply bnd_sum. intros v Hv. now apply H.
Qed.

Lemma extra_lip a b z : lip P (fun x => ski_extra g (wt g) a x b z) /\ bnd (fun x => ski_extra g (wt g) a x b z).
Proof.
  unfold ski_extra. destruct (Nat.eqb a b); [|split; [apply lip_const|apply bnd_const]].
  assert (H : forall ad, In ad (map fst (f_active f)) ->
      lip P (fun x => if surplus_b f ad then Rsum (pts g ad) (fun u => wt g ad x u * wt g ad z u) else 0)
      /\ bnd (fun x => if surplus_b f ad then Rsum (pts g ad) (fun u => wt g ad x u * wt g ad z u) else 0)).
  { intros ad Had. apply (keys_group f P Hok HP) in Had. destruct (surplus_b f ad); [|split; [apply lip_const|apply bnd_const]]. split.
    - apply lip_sum. intros u Hu. apply lip_scal_r. now apply wt_lip.
    - apply bnd_sum. intros u Hu. apply bnd_mult; [now apply wt_lip|apply bnd_const]. }
  split; [apply (lip_lsum P (map fst (f_active f)) (fun ad x => if surplus_b f ad then Rsum (pts g ad) (fun u => wt g ad x u * wt g ad z u) else 0))
         |apply (bnd_lsum (map fst (f_active f)) (fun ad x => if surplus_b f ad then Rsum (pts g ad) (fun u => wt g ad x u * wt g ad z u) else 0))]; intros ad Had; now apply H.
Qed.

Lemma mean_lip k a : lip P (mean_at g k a) /\ bnd (mean_at g k a).
Proof.
  unfold mean_at. split.
  - apply lip_sum. intros j Hj. apply lip_scal_r. apply lip_plus; [apply ski_lip|apply extra_lip].
  - apply bnd_sum. intros j Hj. apply bnd_mult; [|apply bnd_const]. apply bnd_plus; [apply ski_lip|apply extra_lip].
Qed.

Hypothesis Hid : no_identity f.

Lemma cross_lip a j : lip P (fun x => cross g a x j) /\ bnd (fun x => cross g a x j).
Proof.
  unfold cross, lmc_cov.
  assert (H : forall q z, (q < f_Q f)%nat -> lip P (fun x => k_doc (kern_of f q) (dist_on (qdims f q) x z)) /\ bnd (fun x => k_doc (kern_of f q) (dist_on (qdims f q) x z))).
  { intros q z Hq. apply kern_lip; [now apply Hid|apply (gr_kern _ _ _ _ HR q Hq)|]. intros p Hp. exact (dims_rangeR g lo hi m HR q p Hq Hp). }
  split.
  - apply lip_sum. intros q Hq. apply lip_scal_l. now apply H.
  - apply bnd_sum. intros q Hq. apply bnd_scal_l. now apply H.
Qed.

Variables (solve : Mat -> vec -> result vec) (k : gp_kernel).
Let n := n_obs g.
Hypothesis Hp : proper f.
Hypothesis He : solves_exactly n (K_fit g) (solve (al_K (gpk_lik k))).

Lemma quad_lip K a (E : (nat -> R) -> R) : sym n K -> pos_definite n K -> (forall c, exists z, solves n K z c) ->
  (forall x, exists z, solves n K z (cross g a x) /\ E x = Rsum n (fun l => cross g a x l * z l)) -> lip P E.
Proof.
  intros Hs Hpd Hex HE. destruct (solve_matrix n K Hs Hpd Hex) as [M HM].
  apply (lip_ext P (fun x => Rsum n (fun l => cross g a x l * Rsum n (fun i => cross g a x i * M i l)))).
  - intros x. destruct (HE x) as [z [Hz ->]]. apply Rsum_ext. intros l Hl. now rewrite (HM _ _ Hz l Hl).
  - apply lip_sum. intros l Hl. apply lip_mult; [apply cross_lip|apply cross_lip| |].
    + apply lip_sum. intros i Hi. apply lip_scal_r, cross_lip.
    + apply bnd_sum. intros i Hi. apply bnd_mult; [apply cross_lip|apply bnd_const].
Qed.

Lemma explained_lip a : mode_ready g -> lip P (explained g k solve a).
Proof.
  intros Hm. unfold explained. unfold mode_ready in Hm. destruct (gp_mode g).
  - apply (quad_lip (K_fit g) a); [exact (K_fit_sym g lo hi m HR)|exact (K_fit_pd g lo hi m HR Hp)| |].
    + intros c. destruct (sol_solves g solve k He c) as [z [Hz _]]. now exists z.
    + intros x. exact (fly_form g solve k He a x).
  - unfold explained_pre. apply lip_sum. intros u Hu. apply lip_scal_r. apply wt_lip. exact (both_full g lo hi m HR Hm).
  - destruct (dense_ok g lo hi m HR Hm) as [e [Ee Re]]. rewrite Ee.
    apply (quad_lip (K_obs f P (mg_Xs (gp_data g)) (map (@length R) (mg_Ys (gp_data g)))) a); [apply K_obs_sym|exact Hm| |].
    + intros c. eexists. exact (er_potrs _ _ _ _ _ Re c).
    + intros x. exact (exact_form g lo hi m HR e a x Ee Hm).
Qed.

Lemma clip_lip x y : Rabs (clip x - clip y) <= Rabs (x - y).
Proof. unfold clip. apply Rabs_le. pose proof (Rle_abs (x - y)). pose proof (Rle_abs (- (x - y))) as H'. rewrite Rabs_Ropp in H'. destruct (Rlt_dec x 0), (Rlt_dec y 0); lra. Qed.

Lemma var_lip a : mode_ready g -> lip P (var_at g k solve a).
Proof.
  intros Hm. destruct (explained_lip a Hm) as [L [HL H]]. exists L. split; [exact HL|]. intros x y. unfold var_at.
  eapply Rle_trans; [apply clip_lip|]. replace (prior_var (gp_f g) a - explained g k solve a x - (prior_var (gp_f g) a - explained g k solve a y)) with (- (explained g k solve a x - explained g k solve a y)) by ring.
  rewrite Rabs_Ropp. apply H.
Qed.
End Points.

Lemma unnorm_lip P g a F : lip P F -> lip P (fun x => unnorm_mean g a (F x)).
Proof. intros H. unfold unnorm_mean. destruct (mg_norm (gp_data g)); [|exact H]. apply lip_plus; [now apply lip_scal_r|apply lip_const]. Qed.
Lemma unnorm_bnd g a F : bnd F -> bnd (fun x => unnorm_mean g a (F x)).
Proof. intros H. unfold unnorm_mean. destruct (mg_norm (gp_data g)); [|exact H]. apply bnd_plus; [apply bnd_mult; [exact H|apply bnd_const]|apply bnd_const]. Qed.
Lemma unnorm_var_lip P g a F : lip P F -> lip P (fun x => unnorm_var g a (F x)).
Proof. intros H. unfold unnorm_var. destruct (mg_norm (gp_data g)); [|exact H]. now apply lip_scal_r. Qed.
