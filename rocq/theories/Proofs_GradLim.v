(** How the gradients of a fitted model approach those of the exact log
    likelihood. *)

From Coq Require Import Reals List Arith ZArith Lia Lra.
From Coquelicot Require Import Coquelicot.
From Verif Require Import Base NDArray PSD Model_Util Proofs_Util Spec_Util Model_Linalg Spec_Linalg Proofs_Linalg Model_Interp Spec_Interp
  Proofs_Sparse Proofs_Interp Proofs_Interp2 Proofs_Bicubic Proofs_Assemble Proofs_Autogrid Properties_Interp Model_Kern Spec_Kern Proofs_Kern Proofs_KernPSD Model_FK Spec_FK Proofs_FK
  Properties_FK Model_Grid Spec_Grid Proofs_Grid Proofs_Grid2 Det Proofs_Det Model_Lik Spec_Lik Proofs_Lik Proofs_Lik2 Proofs_Lik3 Proofs_Lik4 Proofs_Lik5 Proofs_Lik6 Proofs_Lik7 Properties_Lik
  Properties_Lik2 Spec_GP Proofs_Gen Proofs_Gen2 Properties_Gen Model_GP Spec_Pred Proofs_Pred Proofs_Pred2 Proofs_Pred3 Proofs_Pred4 Proofs_Init Proofs_Pred6 Properties_Pred
  Spec_Opt Spec_Acc Proofs_Acc Proofs_Acc2 Properties_Acc Spec_Ski Proofs_Ski Proofs_Ski2 Proofs_Ski3 Properties_Ski Proofs_State5 Spec_Limit Properties_Limit Proofs_GradSm.
Import ListNotations.
Open Scope R_scope.

(** ** The derivatives of kernels *)

Lemma grad_smooth k nd r : forall j, positive k -> identity_based k = false -> (has_periodic k = true -> nd = 1%nat) -> 0 < r -> (j < length (params k))%nat ->
  exists psi B, smooth_fn psi nd B /\ forall t, 0 <= t <= r -> psi t = nth j (k_grad k t) 0.
Proof.
  induction k as [g|g|g T| |k IH s]; intros j Hp Hi Hn Hr Hj.
  - cbn in Hj. assert (j = 0)%nat as -> by lia. eexists _, _. split; [apply (rbf_grad_smooth g nd); apply Hp; now left|]. reflexivity.
  - cbn in Hj. assert (j = 0)%nat as -> by lia. eexists _, _. split; [apply (matern_grad_smooth g nd); apply Hp; now left|]. reflexivity.
  - rewrite (Hn eq_refl). apply periodic_grad_smooth; auto; apply Hp; [now left|right; now left].
  - discriminate Hi.
  - assert (Hp' : positive k) by (intros v Hv; apply Hp; cbn [params]; apply in_or_app; now left).
    cbn [params] in Hj. rewrite app_length in Hj. cbn [length] in Hj. destruct (Nat.eq_dec j (length (params k))) as [->|N].
    + exists (k_doc k), (smooth_const k). split; [now apply smooth_all|]. intros t _. cbn [k_grad].
      rewrite app_nth2 by (rewrite map_length, k_grad_length; lia). now rewrite map_length, k_grad_length, Nat.sub_diag.
    + destruct (IH j Hp' Hi Hn Hr ltac:(lia)) as [psi [B [HB E]]]. exists (fun t => s * psi t), (Rabs s * B). split.
      * intros c Hc Hnd. apply (lip2_scal (fun t => psi (sqrt (t ^ 2 + c)))). now apply HB.
      * intros t Ht. rewrite (E t Ht). cbn [k_grad]. rewrite app_nth1 by (rewrite map_length, k_grad_length; lia).
        rewrite (nth_indep (map (fun x => s * x) (k_grad k t)) 0 (s * 0)) by (rewrite map_length, k_grad_length; lia). symmetry. apply (map_nth (fun x => s * x)).
Qed.

(** ** Functions that are smooth up to some distance *)

Lemma l2_l1 L (d : nat -> R) : sqrt (Rsum L (fun p => d p ^ 2)) <= Rsum L (fun p => Rabs (d p)).
Proof.
  assert (P : 0 <= Rsum L (fun p => Rabs (d p))) by (apply Rsum_nonneg; intros; apply Rabs_pos).
  rewrite <- (sqrt_Rsqr _ P). apply sqrt_le_1_alt. unfold Rsqr. clear P.
  induction L as [|L IH]; cbn [Rsum]; [lra|]. assert (P : 0 <= Rsum L (fun p => Rabs (d p))) by (apply Rsum_nonneg; intros; apply Rabs_pos).
  pose proof (Rabs_pos (d L)). rewrite <- (pow2_abs (d L)). nra.
Qed.

Definition extent (g : gp) (ad : dims) : R := Rsum (length ad) (fun p => INR (length (axis g ad p) - 1) * spacing g ad p).

Section Upto.
Variables (g : gp) (lo hi : grid_arg R) (m : grid_arg nat).
Hypothesis HR : gp_ready g lo hi m.
Let f := gp_f g.
Let P := mg_P (gp_data g).
Let Xs := mg_Xs (gp_data g).
Let Ys := mg_Ys (gp_data g).
Let lens := map (@length R) Ys.
Let n := nsum lens.
Let Hok : fk_ok f := rd_ok g lo hi m HR.
Let HP : f_P f = Some P := rd_P g lo hi m HR.

Lemma ski_upto w q x z h psi B r : weights g w -> (q < f_Q f)%nat -> inside g x -> inside g z ->
  smooth_fn psi (length (qdims f q)) B -> (forall t, 0 <= t <= r -> psi t = h t) -> extent g (qdims f q) <= r ->
  Rabs (Rsum (pts g (qdims f q)) (fun u => Rsum (pts g (qdims f q)) (fun v =>
          w (qdims f q) x u * bttb_entry (map h (a_data (G_of (gp_grids g) (qdims f q)))) (a_shape (G_of (gp_grids g) (qdims f q))) u v * w (qdims f q) z v))
        - h (dist_on (qdims f q) x z))
  <= 2 * B * Rsum (length (qdims f q)) (fun p => spacing g (qdims f q) p ^ 3).
Proof.
  intros Hw Hq Hx Hz Hs Hr Hex. destruct (group_qdims f P Hok HP q Hq) as [_ Had]. 
  destruct (rd_grid g lo hi m HR (qdims f q) Had) as [_ [l [HL [E1 [E2 [E3 [El [Hl Hax]]]]]]]].
  assert (EG : G_of (gp_grids g) (qdims f q) = dists_of l) by (unfold G_of; now rewrite (gg_ag _ _ _ _ _ _ _ _ _ _ HL)).
  assert (Near : forall a b : nat -> R, (forall p, (p < length (qdims f q))%nat -> Rabs (a p - b p) <= INR (length (axis g (qdims f q) p) - 1) * spacing g (qdims f q) p) ->
     0 <= euclid (length (qdims f q)) a b <= r).
  { intros a b H. split; [apply sqrt_pos|]. eapply Rle_trans; [apply l2_l1|]. eapply Rle_trans; [|exact Hex]. now apply Rsum_le. }
  rewrite <- (Hr (dist_on (qdims f q) x z)).
  2:{ rewrite dist_on_euclid. apply Near. intros p Hp. specialize (Hx (qdims f q) p Had Hp). specialize (Hz (qdims f q) p Had Hp).
      destruct (axis_desc g (qdims f q) l p E1 Hax ltac:(lia)) as [A0 [_ [A1 [A2 [[A3 A4] A5]]]]]. rewrite A1, A2 in Hx, Hz. rewrite A0, A5.
      set (t := nth p l (0%nat, 0, 0)) in *. unfold proj. assert (INR (fst (fst t) - 2) <= INR (fst (fst t) - 1)) by (apply le_INR; lia).
      apply Rabs_le. split; nra. }
  rewrite (Rsum_ext _ _ (fun u => Rsum (pts g (qdims f q)) (fun v => w (qdims f q) x u *
     bttb_entry (map psi (a_data (G_of (gp_grids g) (qdims f q)))) (a_shape (G_of (gp_grids g) (qdims f q))) u v * w (qdims f q) z v))).
  - now apply (ski_fn g lo hi m HR w q x z psi B).
  - rewrite E3. intros u Hu. apply Rsum_ext. intros v Hv. f_equal. f_equal. rewrite EG. unfold dists_of. cbn [a_data a_shape].
    assert (Hne : l <> []) by (destruct l; [cbn in Hl; lia|discriminate]). assert (Hpos : (0 < axes_points l)%nat) by now apply axes_points_pos.
    rewrite !grid_dists_entry by assumption. symmetry. apply Hr. rewrite El. apply Near. intros p Hp.
    destruct (axis_desc g (qdims f q) l p E1 Hax ltac:(lia)) as [A0 [_ [_ [_ [[A3 A4] A5]]]]]. rewrite A0, A5.
    rewrite !grid_pt_coord by (assumption || lia). cbv zeta. set (t := nth p l (0%nat, 0, 0)) in *.
    assert (U : forall i, (i < axes_points l)%nat -> 0 <= INR (nth p (unravel (map (fun x => fst (fst x)) l) i) 0%nat) <= INR (fst (fst t) - 1)).
    { intros i Hi. split; [apply pos_INR|]. apply le_INR.
      assert (X : (nth p (unravel (map (fun x => fst (fst x)) l) i) 0 < nth p (map (fun x => fst (fst x)) l) 0)%nat) by (apply nth_unravel_lt; [exact Hi|rewrite map_length; lia]).
      rewrite (nth_indep (map (fun x : nat * R * R => fst (fst x)) l) 0%nat ((fun x : nat * R * R => fst (fst x)) (0%nat, 0, 0))) in X by (rewrite map_length; lia).
      rewrite (map_nth (fun x : nat * R * R => fst (fst x)) l (0%nat, 0, 0) p) in X. fold t in X. lia. }
    pose proof (U u Hu). pose proof (U v Hv).
    match goal with |- Rabs (?a + ?b * ?h - (?a + ?c * ?h)) <= _ => replace (a + b * h - (a + c * h)) with ((b - c) * h) by ring end.
    rewrite Rabs_mult, (Rabs_right (snd t)) by lra. apply Rmult_le_compat_r; [lra|]. apply Rabs_le. split; lra.
Qed.

Lemma entry_weights ad A T i j : group f ad <> [] -> (i < n)%nat -> (j < n)%nat ->
  ski_entry (W_of (gp_grids g) ad) (f_D f) (pts g ad) A T i j =
  A (owner lens i) (owner lens j) * Rsum (pts g ad) (fun u => Rsum (pts g ad) (fun v => wt g ad (obs P Xs lens i) u * T u v * wt g ad (obs P Xs lens j) v)).
Proof.
  intros Had Hi Hj. destruct (owner_lt lens i Hi) as [Oi _]. destruct (owner_lt lens j Hj) as [Oj _].
  rewrite (rd_D g lo hi m HR : length lens = _) in Oi, Oj. fold f in Oi, Oj.
  pose proof (rd_pts g lo hi m HR ad Had) as Hp. unfold ski_entry.
  rewrite (Rsum_ext _ _ (fun u => (if Nat.eqb (u / pts g ad) (owner lens i) then wt g ad (obs P Xs lens i) (u mod pts g ad)%nat else 0) *
     Rsum (f_D f * pts g ad) (fun v => (if Nat.eqb (v / pts g ad) (owner lens j) then wt g ad (obs P Xs lens j) (v mod pts g ad)%nat else 0) *
        (A (u / pts g ad)%nat (v / pts g ad)%nat * T (u mod pts g ad)%nat (v mod pts g ad)%nat)))).
  - rewrite (Rsum_block (f_D f) (pts g ad) (owner lens i) (wt g ad (obs P Xs lens i)) _ Oi). rewrite <- Rsum_scal_l. apply Rsum_ext. intros u Hu.
    rewrite (Rsum_block (f_D f) (pts g ad) (owner lens j) (wt g ad (obs P Xs lens j)) _ Oj). rewrite <- !Rsum_scal_l. apply Rsum_ext. intros v Hv.
    rewrite !div_block, !mod_block by assumption. ring.
  - intros u Hu. rewrite <- Rsum_scal_l. apply Rsum_ext. intros v Hv.
    rewrite (wt_obs g lo hi m HR ad i u Had Hi Hu), (wt_obs g lo hi m HR ad j v Had Hj Hv). fold P Xs Ys lens.
    match goal with |- ?a * ?b * ?c = ?a' * (?c' * ?b') => change (a * b * c = a * (c * b)); ring end.
Qed.
End Upto.

(** ** The derivatives of the exact covariance *)

(** What a parameter other than a noise multiplies: the matrix of the outputs
    and the function of the distance. *)
Definition par_q (p : par) : nat := match p with PVec q _ _ | PDiag q _ | PKern q _ => q | PNoise _ => 0 end.
Definition par_A (f : fkernel) (p : par) : nat -> nat -> R :=
  match p with
  | PVec q r d => mget (dA_vec (f_D f) (nth r (nth q (f_vecs f) []) []) d)
  | PDiag q d => mget (dA_diag (f_D f) d)
  | PKern q j => B_of f q
  | PNoise _ => fun _ _ => 0
  end.
Definition par_h (f : fkernel) (p : par) : R -> R :=
  match p with
  | PVec q _ _ | PDiag q _ => k_doc (kern_of f q)
  | PKern q j => fun r => nth j (k_grad (kern_of f q) r) 0
  | PNoise _ => fun _ => 0
  end.
Definition F_obs (f : fkernel) (P : nat) (Xs : list ndarr) (lens : list nat) (p : par) (i j : nat) : R :=
  match p with
  | PNoise d => if Nat.eqb i j then vget (d_noise (f_D f) d) (owner lens i) else 0
  | _ => par_A f p (owner lens i) (owner lens j) * par_h f p (dist_on (qdims f (par_q p)) (obs P Xs lens i) (obs P Xs lens j))
  end.

Lemma obs_derive f P Xs lens p : fk_ok f -> kernels_ok f -> length lens = f_D f -> has_par f p ->
  mderive (nsum lens) (fun v => K_obs (with_par f p v) P Xs lens) (par_value f p) (F_obs f P Xs lens p).
Proof.
  intros Hok Hk HL Hp. assert (Ow : forall i, (i < nsum lens)%nat -> (owner lens i < f_D f)%nat) by (intros i Hi; rewrite <- HL; now apply owner_lt).
  destruct p as [q r d|q d|q l|d]; cbn [has_par with_par par_value] in *.
  - destruct Hp as [Hq [Hr Hd]]. eapply mderive_ext; [|exact (family_derive f _ _ _ _ _ P Xs lens (vec_family f Hok q r d Hq Hr Hd) HL)].
    intros i j Hi Hj. cbn [F_obs par_A par_h par_q]. rewrite (one_term f _ q Hq).
    + rewrite Nat.eqb_refl, dA_vec_entry by auto. change (mget (nth q (f_vecs f) []) r) with (vget (nth r (nth q (f_vecs f) []) [])).
      destruct (Nat.eqb i j); ring.
    + intros q' _ N. destruct (Nat.eqb_spec q' q); [contradiction|]. ring.
  - destruct Hp as [Hq Hd]. eapply mderive_ext; [|exact (family_derive f _ _ _ _ _ P Xs lens (diag_family f Hok q d Hq Hd) HL)].
    intros i j Hi Hj. cbn [F_obs par_A par_h par_q]. rewrite (one_term f _ q Hq).
    + rewrite Nat.eqb_refl. unfold dA_diag. rewrite mget_mk by auto. destruct (Nat.eqb i j); ring.
    + intros q' _ N. destruct (Nat.eqb_spec q' q); [contradiction|]. ring.
  - destruct Hp as [Hq Hl]. eapply mderive_ext; [|exact (family_derive f _ _ _ _ _ P Xs lens (kparam_family f Hok q l (proj1 (Hk q Hq)) Hq Hl) HL)].
    intros i j Hi Hj. cbn [F_obs par_A par_h par_q]. rewrite (one_term f _ q Hq).
    + rewrite Nat.eqb_refl. destruct (Nat.eqb i j); ring.
    + intros q' _ N. destruct (Nat.eqb_spec q' q); [contradiction|]. ring.
  - eapply mderive_ext; [|exact (family_derive f _ _ _ _ _ P Xs lens (noise_family f Hok d Hp) HL)].
    intros i j Hi Hj. cbn [F_obs]. rewrite Rsum_zero by (intros; ring). unfold d_noise. destruct (Nat.eqb i j); [|ring]. rewrite vget_tab by auto. ring.
Qed.

Lemma obs_derive_sym f P Xs lens p : length lens = f_D f -> has_par f p -> sym (nsum lens) (F_obs f P Xs lens p).
Proof.
  intros HL Hp i j Hi Hj. assert (Ow : forall i, (i < nsum lens)%nat -> (owner lens i < f_D f)%nat) by (intros k Hk; rewrite <- HL; now apply owner_lt).
  destruct p as [q r d|q d|q l|d]; cbn [has_par F_obs par_A par_h par_q] in *.
  - rewrite !dA_vec_entry by auto. rewrite dist_on_sym. ring.
  - unfold dA_diag. rewrite !mget_mk by auto. rewrite dist_on_sym, Bool.andb_comm. reflexivity.
  - rewrite dist_on_sym, B_of_sym. reflexivity.
  - rewrite (Nat.eqb_sym j i). destruct (Nat.eqb_spec i j); [now subst|reflexivity].
Qed.

(** ** The derivatives of the two covariances are close *)

Section Close.
Variables (g : gp) (lo hi : grid_arg R) (m : grid_arg nat).
Hypothesis HR : gp_ready g lo hi m.
Let f := gp_f g.
Let P := mg_P (gp_data g).
Let Xs := mg_Xs (gp_data g).
Let Ys := mg_Ys (gp_data g).
Let lens := map (@length R) Ys.
Let n := nsum lens.
Let Hok : fk_ok f := rd_ok g lo hi m HR.
Let HP : f_P f = Some P := rd_P g lo hi m HR.

Lemma F_close p i j psi B r : has_par f p -> (i < n)%nat -> (j < n)%nat ->
  (forall d, p <> PNoise d -> smooth_fn psi (length (qdims f (par_q p))) B /\ (forall t, 0 <= t <= r -> psi t = par_h f p t) /\ extent g (qdims f (par_q p)) <= r) ->
  Rabs (F_fit g p i j - F_obs f P Xs lens p i j)
  <= Rabs (par_A f p (owner lens i) (owner lens j)) * (2 * B * Rsum (length (qdims f (par_q p))) (fun a => spacing g (qdims f (par_q p)) a ^ 3)).
Proof.
  intros Hp Hi Hj H.
  assert (Z : Rabs (0 : R) <= 0) by (rewrite Rabs_R0; apply Rle_refl).
  assert (Main : (par_q p < f_Q f)%nat -> (forall d, p <> PNoise d) ->
    F_fit g p i j = ski_entry (W_of (gp_grids g) (qdims f (par_q p))) (f_D f) (pts g (qdims f (par_q p))) (par_A f p)
      (bttb_entry (map (par_h f p) (a_data (G_of (gp_grids g) (qdims f (par_q p))))) (a_shape (G_of (gp_grids g) (qdims f (par_q p))))) i j ->
    F_obs f P Xs lens p i j = par_A f p (owner lens i) (owner lens j) * par_h f p (dist_on (qdims f (par_q p)) (obs P Xs lens i) (obs P Xs lens j)) ->
    Rabs (F_fit g p i j - F_obs f P Xs lens p i j)
    <= Rabs (par_A f p (owner lens i) (owner lens j)) * (2 * B * Rsum (length (qdims f (par_q p))) (fun a => spacing g (qdims f (par_q p)) a ^ 3))).
  { intros Hq Hd E1 E2. destruct (H 0%nat (Hd 0%nat)) as [H1 [H2 H3]]. destruct (group_qdims f P Hok HP (par_q p) Hq) as [_ Had].
    rewrite E1, E2, (entry_weights g lo hi m HR) by assumption. fold f P Xs Ys lens. rewrite <- Rmult_minus_distr_l, Rabs_mult.
    apply Rmult_le_compat_l; [apply Rabs_pos|].
    apply (ski_upto g lo hi m HR (wt g) (par_q p) _ _ (par_h f p) psi B r); auto; [exact (wt_weights g lo hi m HR)| |]; now apply (obs_inside g lo hi m HR). }
  destruct p as [q a d|q d|q l|d]; cbn [has_par] in Hp.
  - apply Main; [apply Hp|discriminate|reflexivity|reflexivity].
  - apply Main; [apply Hp|discriminate|reflexivity|reflexivity].
  - apply Main; [apply Hp|discriminate|reflexivity|reflexivity].
  - cbn [par_A]. rewrite Rabs_R0, Rmult_0_l. 
    replace (F_fit g (PNoise d) i j - F_obs f P Xs lens (PNoise d) i j) with 0; [exact Z|].
    unfold F_fit. cbn [F_par F_obs]. unfold F_noise. fold f Ys lens. ring.
Qed.
End Close.

(** ** How far grids reach *)

Lemma extent_range g lo hi m ad : gp_ready g lo hi m -> group (gp_f g) ad <> [] ->
  extent g ad <= Rsum (length ad) (fun p => 5 * range (gp_data g) lo hi (nth p ad 0%nat)).
Proof.
  intros HR Had. apply Rsum_le. intros p Hp.
  destruct (C63_spacing g lo hi m ad p HR Had Hp) as [x [y (X & Y & _ & _ & _ & K1 & ES & [S1 S2])]].
  pose proof (range_ok _ _ _ _ _ _ X Y) as HW. destruct (rd_grid g lo hi m HR ad Had) as [_ [l [HL [E1 [E2 [E3 [El [Hl Hax]]]]]]]].
  destruct (axis_desc g ad l p E1 Hax ltac:(lia)) as [EL _]. rewrite EL.
  destruct (gg_enc _ _ _ _ _ _ _ _ _ _ HL) as [_ HE]. specialize (HE p Hp). cbv zeta in HE. destruct HE as [_ [Ec _]]. rewrite Ec.
  set (c := cells_for m (map (@length R) (mg_Ys (gp_data g))) (nth p ad 0%nat)) in *.
  match goal with |- INR ?u * _ <= _ => replace u with (c + 3)%nat by (unfold c; lia) end.
  rewrite plus_INR. change (INR 3) with (1 + 1 + 1). set (k := INR c) in *. clearbody k.
  assert (D : 0 <= y - x).
  { apply Rmult_le_reg_r with (5 / 4 * / k); [apply Rmult_lt_0_compat; [lra|apply Rinv_0_lt_compat; lra]|]. rewrite Rmult_0_l.
    replace ((y - x) * (5 / 4 * / k)) with (5 / 4 * (y - x) / k) by (field; lra). lra. }
  rewrite ES. replace ((k + (1 + 1 + 1)) * ((y - x) * (k + 4) / (k * (k + 3)))) with ((y - x) * (1 + 4 * / k)) by (field; lra).
  assert (/ k <= 1) by (rewrite <- Rinv_1; apply Rinv_le_contravar; lra). nra.
Qed.

(** ** Gradients of the log density under perturbations *)

Lemma norm2_entry n u i : (i < n)%nat -> Rabs (u i) <= norm2 n u.
Proof.
  intros Hi. rewrite <- sqrt_Rsqr_abs. apply sqrt_le_1_alt. unfold Rsqr. replace (u i * u i) with (u i ^ 2) by ring.
  apply (Rsum_term n (fun i => u i ^ 2) i Hi). intros. apply pow2_ge_0.
Qed.

Lemma norm2_unit n j : (j < n)%nat -> norm2 n (fun i => id_f i j) = 1.
Proof.
  intros Hj. unfold norm2. rewrite <- sqrt_1. f_equal. rewrite <- (Rsum_delta n j (fun _ => 1) Hj). apply Rsum_ext. intros i Hi. unfold id_f.
  destruct (Nat.eqb i j); ring.
Qed.

Section Perturbed.
Variables (n : nat) (K K' X X' F F' : nat -> nat -> R) (y a a' : nat -> R) (s E Ef MF : R).
Hypothesis Hs : 0 < s.
Hypothesis HK : forall x, s * nrm2 n x <= qf n K x.
Hypothesis HK' : forall x, s * nrm2 n x <= qf n K' x.
Hypothesis HE : 0 <= E.
Hypothesis HD : forall i j, (i < n)%nat -> (j < n)%nat -> Rabs (K i j - K' i j) <= E.
Hypothesis HF : forall i j, (i < n)%nat -> (j < n)%nat -> Rabs (F i j - F' i j) <= Ef.
Hypothesis HMF : forall i j, (i < n)%nat -> (j < n)%nat -> Rabs (F' i j) <= MF.
Hypothesis HX : is_inv n K X.
Hypothesis HX' : is_inv n K' X'.
Hypothesis Ha : forall i, (i < n)%nat -> Rsum n (fun j => K i j * a j) = y i.
Hypothesis Ha' : forall i, (i < n)%nat -> Rsum n (fun j => K' i j * a' j) = y i.
Let N := INR n.
Let Y := norm2 n y.

Lemma prod_err u f v u' f' v' U dU G dG : Rabs u <= U -> Rabs v <= U -> Rabs u' <= U -> Rabs v' <= U -> Rabs (u - u') <= dU -> Rabs (v - v') <= dU ->
  Rabs f' <= G -> Rabs (f - f') <= dG -> Rabs (u * f * v - u' * f' * v') <= U * dG * U + G * (2 * U * dU).
Proof.
  intros H1 H2 H3 H4 H5 H6 H7 H8.
  replace (u * f * v - u' * f' * v') with (u * (f - f') * v + f' * ((u - u') * v + u' * (v - v'))) by ring.
  pose proof (Rabs_pos u). pose proof (Rabs_pos v). pose proof (Rabs_pos u'). pose proof (Rabs_pos (u - u')). pose proof (Rabs_pos (v - v')).
  pose proof (Rabs_pos f'). pose proof (Rabs_pos (f - f')).
  eapply Rle_trans; [apply Rabs_triang|]. rewrite !Rabs_mult. apply Rplus_le_compat.
  - apply Rmult_le_compat; [apply Rmult_le_pos; lra|lra| |lra]. apply Rmult_le_compat; lra.
  - apply Rmult_le_compat; [lra|apply Rabs_pos|lra|]. eapply Rle_trans; [apply Rabs_triang|]. rewrite !Rabs_mult.
    assert (Rabs (u - u') * Rabs v <= dU * U) by (apply Rmult_le_compat; lra). assert (Rabs u' * Rabs (v - v') <= U * dU) by (apply Rmult_le_compat; lra). lra.
Qed.

Lemma grad_perturbed :
  Rabs (1 / 2 * (Rsum n (fun i => Rsum n (fun j => a i * F i j * a j)) - Rsum n (fun i => Rsum n (fun j => X i j * F i j)))
      - 1 / 2 * (Rsum n (fun i => Rsum n (fun j => a' i * F' i j * a' j)) - Rsum n (fun i => Rsum n (fun j => X' i j * F' i j))))
  <= 1 / 2 * (N * (N * (Y / s * Ef * (Y / s) + MF * (2 * (Y / s) * (N * E * Y / s ^ 2)) + (/ s * Ef + MF * (N * E / s ^ 2))))).
Proof.
  pose proof (solution_size n K s Hs HK y a Ha) as A1. pose proof (solution_size n K' s Hs HK' y a' Ha') as A2.
  pose proof (perturbed n K K' s E y a a' Hs HK HK' HE HD Ha Ha') as A3.
  assert (C1 : forall j, (j < n)%nat -> forall i, (i < n)%nat -> Rsum n (fun k => K i k * X k j) = id_f i j) by (intros; now apply HX).
  assert (C2 : forall j, (j < n)%nat -> forall i, (i < n)%nat -> Rsum n (fun k => K' i k * X' k j) = id_f i j) by (intros; now apply HX').
  assert (B1 : forall i j, (i < n)%nat -> (j < n)%nat -> Rabs (X i j) <= / s).
  { intros i j Hi Hj. eapply Rle_trans; [apply (norm2_entry n (fun i => X i j) i Hi)|].
    pose proof (solution_size n K s Hs HK (fun i => id_f i j) (fun k => X k j) (C1 j Hj)) as H. rewrite norm2_unit in H by exact Hj. unfold Rdiv in H. lra. }
  assert (B3 : forall i j, (i < n)%nat -> (j < n)%nat -> Rabs (X i j - X' i j) <= N * E / s ^ 2).
  { intros i j Hi Hj. eapply Rle_trans; [apply (norm2_entry n (fun i => X i j - X' i j) i Hi)|].
    pose proof (perturbed n K K' s E (fun i => id_f i j) (fun k => X k j) (fun k => X' k j) Hs HK HK' HE HD (C1 j Hj) (C2 j Hj)) as H.
    rewrite norm2_unit in H by exact Hj. rewrite Rmult_1_r in H. exact H. }
  assert (P1 : forall i, (i < n)%nat -> Rabs (a i) <= Y / s) by (intros i Hi; eapply Rle_trans; [apply (norm2_entry n a i Hi)|exact A1]).
  assert (P2 : forall i, (i < n)%nat -> Rabs (a' i) <= Y / s) by (intros i Hi; eapply Rle_trans; [apply (norm2_entry n a' i Hi)|exact A2]).
  assert (P3 : forall i, (i < n)%nat -> Rabs (a i - a' i) <= N * E * Y / s ^ 2) by (intros i Hi; eapply Rle_trans; [apply (norm2_entry n (fun i => a i - a' i) i Hi)|exact A3]).
  rewrite <- Rmult_minus_distr_l, Rabs_mult, (Rabs_right (1 / 2)) by lra. apply Rmult_le_compat_l; [lra|].
  match goal with |- Rabs (?a1 - ?b1 - (?a2 - ?b2)) <= _ => replace (a1 - b1 - (a2 - b2)) with ((a1 - a2) - (b1 - b2)) by ring end.
  rewrite <- !Rsum_minus. eapply Rle_trans; [apply Rsum_abs|]. unfold N at 1. rewrite <- Rsum_const. apply Rsum_le. intros i Hi.
  rewrite <- !Rsum_minus. eapply Rle_trans; [apply Rsum_abs|]. unfold N at 1. rewrite <- Rsum_const. apply Rsum_le. intros j Hj.
  unfold Rminus at 1. eapply Rle_trans; [apply Rabs_triang|]. rewrite Rabs_Ropp. apply Rplus_le_compat.
  - apply prod_err; auto.
  - replace (X i j * F i j - X' i j * F' i j) with (X i j * (F i j - F' i j) + F' i j * (X i j - X' i j)) by ring.
    eapply Rle_trans; [apply Rabs_triang|]. rewrite !Rabs_mult.
    apply Rplus_le_compat; apply Rmult_le_compat; try apply Rabs_pos; auto.
Qed.
End Perturbed.

(** ** Gradients of fitted models, averaged over draws *)

Lemma with_par_value f p : fk_ok f -> kernels_ok f -> has_par f p -> with_par f p (par_value f p) = f.
Proof.
  intros Hok Hk Hp. destruct p as [q r d|q d|q l|d]; cbn [has_par with_par par_value] in *.
  - destruct Hp as [Hq [Hr Hd]]. exact (fa_at _ _ _ _ _ _ (vec_family f Hok q r d Hq Hr Hd)).
  - destruct Hp as [Hq Hd]. exact (fa_at _ _ _ _ _ _ (diag_family f Hok q d Hq Hd)).
  - destruct Hp as [Hq Hl]. exact (fa_at _ _ _ _ _ _ (kparam_family f Hok q l (proj1 (Hk q Hq)) Hq Hl)).
  - exact (fa_at _ _ _ _ _ _ (noise_family f Hok d Hp)).
Qed.

Lemma est_true_mean n k X F a : (0 < k)%nat -> mean (draws k n) (fun bits => est_true n k X F a bits) =
  1 / 2 * (Rsum n (fun i => Rsum n (fun j => a i * F i j * a j)) - Rsum n (fun i => Rsum n (fun j => X i j * F i j))).
Proof.
  intros Hk. transitivity (mean (draws k n) (fun bits => 1 / 2 * Rsum n (fun i => Rsum n (fun j => a i * F i j * a j)) + - (1 / 2) * (lsum (map (trace_term n X F) bits) / INR k))).
  - unfold mean. f_equal. apply lsum_map_ext. intros bits _. unfold est_true, Model_Lik.derivative. field. apply not_0_INR. lia.
  - rewrite mean_affine.
    + rewrite (trace_mean_k n k X F Hk). field.
    + intros C. assert (L : length (draws k n) = 0%nat) by now rewrite C. rewrite draws_length in L. apply Nat.pow_nonzero in L; [exact L|lia].
Qed.

(** ** Constants that serve all parameters *)

Lemma sup_nat (n : nat) (Q : nat -> R -> Prop) : (forall i C C', C <= C' -> Q i C -> Q i C') ->
  (forall i, (i < n)%nat -> exists C, 0 <= C /\ Q i C) -> exists C, 0 <= C /\ forall i, (i < n)%nat -> Q i C.
Proof.
  intros HM. induction n as [|n IH]; intros H; [exists 0; split; [lra|intros; lia]|].
  destruct IH as [C [C0 HC]]; [intros; apply H; lia|]. destruct (H n ltac:(lia)) as [C' [C0' HC']]. exists (C + C'). split; [lra|].
  intros i Hi. destruct (Nat.eq_dec i n) as [->|]; [apply (HM n C'); [lra|exact HC']|]. apply (HM i C); [lra|]. apply HC. lia.
Qed.

Lemma sup_par f (Q : par -> R -> Prop) : (forall p C C', C <= C' -> Q p C -> Q p C') ->
  (forall p, has_par f p -> exists C, 0 <= C /\ Q p C) -> exists C, 0 <= C /\ forall p, has_par f p -> Q p C.
Proof.
  intros HM H.
  destruct (sup_nat (f_Q f) (fun q C => forall r, (r < length (nth q (f_vecs f) []))%nat -> forall d, (d < f_D f)%nat -> Q (PVec q r d) C)) as [C1 [P1 H1]].
  { intros q C C' HC HQ r Hr d Hd. apply (HM _ C C' HC). now apply HQ. }
  { intros q Hq. apply sup_nat; [intros r C C' HC HQ d Hd; apply (HM _ C C' HC); now apply HQ|]. intros r Hr.
    apply sup_nat; [intros d; apply HM|]. intros d Hd. apply H. cbn. auto. }
  destruct (sup_nat (f_Q f) (fun q C => forall d, (d < f_D f)%nat -> Q (PDiag q d) C)) as [C2 [P2 H2]].
  { intros q C C' HC HQ d Hd. apply (HM _ C C' HC). now apply HQ. }
  { intros q Hq. apply sup_nat; [intros d; apply HM|]. intros d Hd. apply H. cbn. auto. }
  destruct (sup_nat (f_Q f) (fun q C => forall j, (j < length (params (kern_of f q)))%nat -> Q (PKern q j) C)) as [C3 [P3 H3]].
  { intros q C C' HC HQ d Hd. apply (HM _ C C' HC). now apply HQ. }
  { intros q Hq. apply sup_nat; [intros d; apply HM|]. intros d Hd. apply H. cbn. auto. }
  destruct (sup_nat (f_D f) (fun d C => Q (PNoise d) C)) as [C4 [P4 H4]]; [intros d; apply HM|intros d Hd; now apply H|].
  exists (C1 + C2 + C3 + C4). split; [lra|]. intros [q r d|q d|q j|d] Hp; cbn [has_par] in Hp.
  - apply (HM _ C1); [lra|]. now apply H1.
  - apply (HM _ C2); [lra|]. now apply H2.
  - apply (HM _ C3); [lra|]. now apply H3.
  - apply (HM _ C4); [lra|]. now apply H4.
Qed.

(** ** The rate for one parameter *)

Lemma spacing_cells g lo hi m M ad : gp_ready g lo hi m -> (0 < M)%nat -> at_least (gp_f g) M m (gp_data g) -> group (gp_f g) ad <> [] ->
  0 <= Rsum (length ad) (fun p => spacing g ad p ^ 3) <= Rsum (length ad) (fun p => (5 / 4 * range (gp_data g) lo hi (nth p ad 0%nat)) ^ 3) * / INR M ^ 3.
Proof.
  intros HR HM HA Had. assert (M1 : 0 < INR M) by (apply lt_0_INR; lia).
  assert (HS : forall p, (p < length ad)%nat -> 0 <= spacing g ad p ^ 3 <= (5 / 4 * range (gp_data g) lo hi (nth p ad 0%nat)) ^ 3 * / INR M ^ 3).
  { intros p Hp. destruct (C63_spacing g lo hi m _ p HR Had Hp) as [x [y (X & Y & _ & _ & _ & K1 & _ & [S1 S2])]].
    split; [apply pow_le; lra|]. rewrite <- pow_inv by lra. rewrite <- Rpow_mult_distr. apply pow_incr. split; [lra|].
    eapply Rle_trans; [exact S2|]. unfold Rdiv at 1.
    pose proof (range_ok _ _ _ _ _ _ X Y) as HW. set (d := nth p ad 0%nat) in *. pose proof (range_pos (gp_data g) lo hi d) as W0.
    specialize (HA _ d Had (nth_In _ _ Hp)). apply le_INR in HA. set (kk := INR (cells_for m (map (@length R) (mg_Ys (gp_data g))) d)) in *.
    assert (I1 : / kk <= / INR M) by (apply Rinv_le_contravar; lra). assert (I0 : 0 < / kk) by (apply Rinv_0_lt_compat; lra).
    apply Rle_trans with (5 / 4 * range (gp_data g) lo hi d * / kk); [apply Rmult_le_compat_r; lra|apply Rmult_le_compat_l; lra]. }
  split; [apply Rsum_nonneg; intros p Hp; now apply HS|]. rewrite <- Rsum_scal_r. apply Rsum_le. intros p Hp. now apply HS.
Qed.

Lemma term2 n m (F : nat -> nat -> R) i j : (forall i j, 0 <= F i j) -> (i < n)%nat -> (j < m)%nat -> F i j <= Rsum n (fun i => Rsum m (fun j => F i j)).
Proof.
  intros H Hi Hj. eapply Rle_trans; [apply (Rsum_term m (fun j => F i j) j Hj); auto|].
  apply (Rsum_term n (fun i => Rsum m (fun j => F i j)) i Hi). intros. apply Rsum_nonneg. auto.
Qed.

Lemma deriv_close f data lo hi p : no_identity f -> proper f -> kernels_ok f -> has_par f p ->
  exists C, 0 <= C /\ forall g m M, gp_ready g lo hi m -> gp_f g = f -> gp_data g = data -> (0 < M)%nat -> at_least f M m data ->
  forall i j, (i < n_obs g)%nat -> (j < n_obs g)%nat ->
    Rabs (F_fit g p i j - F_obs f (mg_P data) (mg_Xs data) (map (@length R) (mg_Ys data)) p i j) <= C * / INR M ^ 3.
Proof.
  intros Hid Hp Hk Hpar.
  assert (Noise : (exists d, p = PNoise d) \/ ((par_q p < f_Q f)%nat /\ forall d, p <> PNoise d)).
  { destruct p as [q r d|q d|q j|d]; cbn in Hpar |- *; [right|right|right|left; now exists d]; (split; [apply Hpar|discriminate]). }
  destruct Noise as [[d ->]|[Hq Hd]].
  - exists 0. split; [lra|]. intros g m M HR Ef Ed HM HA i j Hi Hj. subst f data.
    replace (F_fit g (PNoise d) i j - F_obs (gp_f g) (mg_P (gp_data g)) (mg_Xs (gp_data g)) (map (@length R) (mg_Ys (gp_data g))) (PNoise d) i j) with 0; [rewrite Rabs_R0; lra|].
    unfold F_fit. cbn [F_par F_obs]. unfold F_noise. ring.
  - set (q := par_q p) in *. set (ad := qdims f q).
    set (r := Rsum (length ad) (fun p => 5 * range data lo hi (nth p ad 0%nat)) + 1).
    assert (Hr : 0 < r).
    { unfold r. assert (0 <= Rsum (length ad) (fun p => 5 * range data lo hi (nth p ad 0%nat))); [|lra]. apply Rsum_nonneg. intros a _. pose proof (range_pos data lo hi (nth a ad 0%nat)). lra. }
    assert (SM : exists psi B, smooth_fn psi (length ad) B /\ forall t, 0 <= t <= r -> psi t = par_h f p t).
    { destruct (Hk q Hq) as [K1 _].
      assert (Doc : exists psi B, smooth_fn psi (length ad) B /\ forall t, 0 <= t <= r -> psi t = k_doc (kern_of f q) t).
      { exists (k_doc (kern_of f q)), (smooth_const (kern_of f q)). split; [|reflexivity]. apply smooth_all; [exact K1|now apply Hid|now apply Hp]. }
      destruct p as [q' r' d|q' d|q' j|d]; [exact Doc|exact Doc| |exfalso; now apply (Hd d)].
      destruct Hpar as [_ Hj]. exact (grad_smooth (kern_of f q) (length ad) r j K1 (Hid q Hq) (pr_per _ Hp q Hq) Hr Hj). }
    destruct SM as [psi [B [HB Epsi]]].
    set (S := Rsum (length ad) (fun p => (5 / 4 * range data lo hi (nth p ad 0%nat)) ^ 3)).
    assert (S0 : 0 <= S) by (apply Rsum_nonneg; intros a _; apply pow_le; pose proof (range_pos data lo hi (nth a ad 0%nat)); lra).
    set (A := Rsum (f_D f) (fun a => Rsum (f_D f) (fun b => Rabs (par_A f p a b)))).
    assert (A0 : 0 <= A) by (apply Rsum_nonneg; intros; apply Rsum_nonneg; intros; apply Rabs_pos).
    pose proof (Rabs_pos B) as B0.
    exists (A * (2 * Rabs B * S)). split; [nn|]. intros g m M HR Ef Ed HM HA i j Hi Hj. subst f data.
    destruct (group_qdims (gp_f g) _ (rd_ok g lo hi m HR) (rd_P g lo hi m HR) q Hq) as [_ Had].
    destruct (spacing_cells g lo hi m M ad HR HM HA Had) as [T0 T1]. fold S in T1. set (T := Rsum (length ad) (fun p => spacing g ad p ^ 3)) in *.
    pose proof (rd_D g lo hi m HR : length (map (@length R) (mg_Ys (gp_data g))) = f_D (gp_f g)) as HDl.
    assert (Ow : forall j, (j < n_obs g)%nat -> (owner (map (@length R) (mg_Ys (gp_data g))) j < f_D (gp_f g))%nat) by (intros l Hl; rewrite <- HDl; now apply owner_lt).
    eapply Rle_trans; [apply (F_close g lo hi m HR p i j psi B r Hpar Hi Hj)|].
    + intros _ _. split; [exact HB|]. split; [exact Epsi|]. eapply Rle_trans; [exact (extent_range g lo hi m ad HR Had)|]. unfold r. lra.
    + fold q ad T. set (x := Rabs (par_A _ _ _ _)).
      assert (Hx : 0 <= x <= A).
      { split; [apply Rabs_pos|]. apply (term2 _ _ (fun a b => Rabs (par_A (gp_f g) p a b))); auto. intros; apply Rabs_pos. }
      apply Rle_trans with (x * (2 * Rabs B * T)).
      { apply Rmult_le_compat_l; [apply Hx|]. apply Rmult_le_compat_r; [exact T0|]. pose proof (Rle_abs B). lra. }
      replace (A * (2 * Rabs B * S) * / INR M ^ 3) with (A * (2 * Rabs B * (S * / INR M ^ 3))) by ring.
      apply Rmult_le_compat; [apply Hx|apply Rmult_le_pos; [lra|exact T0]|apply Hx|]. apply Rmult_le_compat_l; [lra|exact T1].
Qed.
