(** Predictions far from the data: weights past the ends of an axis, kernels at
    large distances. *)

From Coq Require Import Reals List Arith ZArith Lia Lra.
From Verif Require Import Base NDArray PSD Model_Util Proofs_Util Spec_Util Model_Linalg Spec_Linalg Proofs_Linalg Model_Interp Spec_Interp
  Proofs_Sparse Proofs_Interp Proofs_Interp2 Proofs_Autogrid Properties_Interp Model_Kern Spec_Kern Proofs_Kern Model_FK Spec_FK Proofs_FK Model_Grid Spec_Grid Proofs_Grid
  Proofs_Grid2 Det Proofs_Det Model_Lik Spec_Lik Proofs_Lik Proofs_Lik2 Proofs_Lik5 Proofs_Lik6 Proofs_Lik7 Properties_Lik Spec_GP Proofs_Gen Proofs_Gen2 Model_GP Spec_Pred
  Proofs_Pred2 Proofs_Pred3 Proofs_Pred4 Proofs_Init Proofs_Pred6 Proofs_Eig Proofs_Order3 Spec_Lip Proofs_Lip Proofs_Lip2 Spec_Far.
Import ListNotations.
Open Scope R_scope.

(** ** Weights *)

Lemma clamp_above m z : (0 < m)%nat -> (Z.of_nat m - 1 <= z)%Z -> clamp_idx m z = (m - 1)%nat.
Proof. intros Hm Hz. unfold clamp_idx. destruct (Z.ltb_spec z 0); [lia|]. destruct (Z.leb_spec (Z.of_nat m) z); lia. Qed.
Lemma clamp_below m z : (0 < m)%nat -> (z <= 0)%Z -> clamp_idx m z = 0%nat.
Proof. intros Hm Hz. unfold clamp_idx. destruct (Z.ltb_spec z 0); [destruct (Z.leb_spec (Z.of_nat m) 0); lia|]. destruct (Z.leb_spec (Z.of_nat m) z); lia. Qed.

Lemma wgt_one t : 0 <= t < 1 -> wgt t (-2) + (wgt t (-1) + (wgt t 0 + wgt t 1)) = 1.
Proof. intros Ht. rewrite wgt_m2, wgt_m1, wgt_0, wgt_1 by exact Ht. field. Qed.

Lemma w1_above m a h x j : (4 <= m)%nat -> 0 < h -> a + INR m * h <= x -> w1 (m, a, h) x j = if Nat.eqb (m - 1) j then 1 else 0.
Proof.
  intros Hm Hh Hx. unfold w1. cbn [fst snd]. set (f := (x - a) / h). pose proof (floor_bounds f) as [B1 B2].
  assert (Hf : INR m <= f) by (unfold f; apply Rmult_le_reg_r with h; [exact Hh|]; replace ((x - a) / h * h) with (x - a) by (field; lra); lra).
  assert (HF : (Z.of_nat m < np_floor f + 1)%Z) by (apply lt_IZR; rewrite plus_IZR, <- INR_IZR_INZ; lra).
  unfold conv_window. cbn [map]. unfold lsum. cbn [fold_right]. rewrite !clamp_above by lia.
  pose proof (wgt_one (f - IZR (np_floor f)) ltac:(lra)) as HS. destruct (Nat.eqb (m - 1) j); lra.
Qed.

Lemma w1_below m a h x j : (4 <= m)%nat -> 0 < h -> x <= a - h -> w1 (m, a, h) x j = if Nat.eqb 0 j then 1 else 0.
Proof.
  intros Hm Hh Hx. unfold w1. cbn [fst snd]. set (f := (x - a) / h). pose proof (floor_bounds f) as [B1 B2].
  assert (Hf : f <= -1) by (unfold f; apply Rmult_le_reg_r with h; [exact Hh|]; replace ((x - a) / h * h) with (x - a) by (field; lra); lra).
  assert (HF : (np_floor f <= -1)%Z) by (apply le_IZR; lra).
  unfold conv_window. cbn [map]. unfold lsum. cbn [fold_right].
  pose proof (wgt_one (f - IZR (np_floor f)) ltac:(lra)) as HS.
  destruct (Z.eq_dec (np_floor f) (-1)) as [E|E].
  - assert (Ef : f - IZR (np_floor f) = 0) by (rewrite E in *; lra). rewrite Ef in *. rewrite (wgt_m2 0) in * by lra. rewrite E. rewrite !(clamp_below m (-1 - -1)), !(clamp_below m (-1 - 0)), !(clamp_below m (-1 - 1)) by lia.
    destruct (Nat.eqb (clamp_idx m (-1 - -2)) j), (Nat.eqb 0 j); lra.
  - rewrite !clamp_below by lia. destruct (Nat.eqb 0 j); lra.
Qed.

Lemma w1_same t c c' j : axis_ok t -> (j < fst (fst t))%nat -> let v := equispaced (fst (fst t)) (snd (fst t)) (snd t) in
  c = c' \/ (above v c /\ above v c') \/ (below v c /\ below v c') -> w1 t c j = w1 t c' j.
Proof.
  destruct t as [[m a] h]. intros [Hm Hh] Hj v. cbn [fst snd] in *.
  assert (EV : forall i, (i < m)%nat -> vget v i = a + INR i * h) by (intros i Hi; unfold v, equispaced; now rewrite vget_tab by exact Hi).
  assert (EL : length v = m) by (unfold v, equispaced; apply tab_length).
  assert (UP : forall c, above v c -> w1 (m, a, h) c j = if Nat.eqb (m - 1) j then 1 else 0).
  { intros d. unfold above. rewrite EL, !EV by lia. intros [->|Hd].
    - rewrite w1_node by (try assumption; lia). now rewrite Nat.eqb_sym.
    - apply w1_above; [assumption..|]. rewrite minus_INR in Hd by lia. change (INR 1) with 1 in Hd. cbn [INR] in Hd. lra. }
  assert (DN : forall c, below v c -> w1 (m, a, h) c j = if Nat.eqb 0 j then 1 else 0).
  { intros d. unfold below. rewrite !EV by lia. intros [->|Hd].
    - rewrite w1_node by (try assumption; lia). now rewrite Nat.eqb_sym.
    - apply w1_below; [assumption..|]. cbn [INR] in Hd. lra. }
  intros [->|[[H1 H2]|[H1 H2]]]; [reflexivity|now rewrite !UP by assumption|now rewrite !DN by assumption].
Qed.

Section Far.
Variables (g : gp) (lo hi : grid_arg R) (m : grid_arg nat).
Hypothesis HR : gp_ready g lo hi m.
Let f := gp_f g.
Let P := mg_P (gp_data g).
Let Hok : fk_ok f := rd_ok g lo hi m HR.
Let HP : f_P f = Some P := rd_P g lo hi m HR.

Lemma wt_same ad x y u : indistinct g x y -> group f ad <> [] -> (u < pts g ad)%nat -> wt g ad x u = wt g ad y u.
Proof.
  intros HI Had Hu. destruct (rd_grid g lo hi m HR ad Had) as [_ [l [_ [E1 [E2 [E3 [El [Hl Hax]]]]]]]]. unfold wt. rewrite E2. rewrite E3 in Hu.
  specialize (HI ad). assert (HI' : forall p, (p < length ad)%nat -> _) by (intros p Hp; exact (HI p Had Hp)). clear HI. rewrite E1 in HI'. unfold proj.
  destruct l as [|t [|t' [|]]]; cbn in Hl; try lia; cbn [wN].
  - apply w1_same; [exact (Forall_inv Hax)|unfold axes_points in Hu; cbn in Hu; lia|]. apply (HI' 0%nat). cbn in El. lia.
  - pose proof (Forall_inv Hax) as A1. pose proof (Forall_inv (Forall_inv_tail Hax)) as A2. cbn in El.
    assert (Hb : (u < fst (fst t) * fst (fst t'))%nat) by (unfold axes_points in Hu; cbn in Hu; lia).
    assert (0 < fst (fst t'))%nat by (destruct (fst (fst t')); lia).
    f_equal.
    + apply w1_same; [exact A1|apply Nat.div_lt_upper_bound; lia|]. apply (HI' 0%nat). lia.
    + apply w1_same; [exact A2|apply Nat.mod_upper_bound; lia|]. apply (HI' 1%nat). lia.
Qed.

Lemma mean_same k a x y : indistinct g x y -> mean_at g k a x = mean_at g k a y.
Proof.
  intros HI. unfold mean_at. apply Rsum_ext. intros j Hj. f_equal. f_equal.
  - unfold ski_cov. cbv zeta. apply Rsum_ext. intros q Hq. f_equal. apply Rsum_ext. intros u Hu. apply Rsum_ext. intros v Hv.
    now rewrite (wt_same (qdims (gp_f g) q) x y u HI (proj2 (group_qdims f P Hok HP q Hq)) Hu).
  - unfold ski_extra. destruct (Nat.eqb a _); [|reflexivity]. apply lsum_map_ext. intros ad Had. apply (keys_group f P Hok HP) in Had.
    destruct (surplus_b (gp_f g) ad); [|reflexivity]. apply Rsum_ext. intros u Hu. now rewrite (wt_same _ x y u HI Had Hu).
Qed.

Lemma pre_same k solve a x y : mode_ready g -> gp_mode g = Precompute -> indistinct g x y -> explained g k solve a x = explained g k solve a y.
Proof.
  intros Hm Em HI. unfold explained, mode_ready in *. rewrite Em in *. unfold explained_pre. apply Rsum_ext. intros u Hu. f_equal.
  apply wt_same; [exact HI|exact (both_full g lo hi m HR Hm)|exact Hu].
Qed.

(** ** Far from everything *)

Definition afar (r : R) (x : nat -> R) : Prop := forall q, (q < f_Q f)%nat -> exists p, In p (qdims f q) /\ r <= Rabs (x p).
Definition vanish (F : (nat -> R) -> R) : Prop := forall eps, 0 < eps -> exists r, forall x, afar r x -> Rabs (F x) <= eps.

Lemma afar_le r s x : r <= s -> afar s x -> afar r x.
Proof. intros Hrs H q Hq. destruct (H q Hq) as [p [Hp Hx]]. exists p. split; [exact Hp|lra]. Qed.

Lemma vanish_0 : vanish (fun _ => 0).
Proof. intros eps He. exists 0. intros x _. rewrite Rabs_R0. lra. Qed.
Lemma vanish_plus F G : vanish F -> vanish G -> vanish (fun x => F x + G x).
Proof.
  intros HF HG eps He. destruct (HF (eps / 2) ltac:(lra)) as [r Hr]. destruct (HG (eps / 2) ltac:(lra)) as [s Hs].
  exists (Rmax r s). intros x Hx. pose proof (Hr x (afar_le _ _ x (Rmax_l r s) Hx)). pose proof (Hs x (afar_le _ _ x (Rmax_r r s) Hx)).
  eapply Rle_trans; [apply Rabs_triang|]. lra.
Qed.
Lemma vanish_mult F G : vanish F -> bnd G -> vanish (fun x => F x * G x).
Proof.
  intros HF [B [HB HG]] eps He. destruct (HF (eps / (B + 1))) as [r Hr]; [apply Rdiv_lt_0_compat; lra|].
  exists r. intros x Hx. rewrite Rabs_mult. apply Rle_trans with (eps / (B + 1) * (B + 1)); [|right; field; lra].
  apply Rmult_le_compat; try apply Rabs_pos; [now apply Hr|]. specialize (HG x). lra.
Qed.
Lemma vanish_sum n (F : nat -> (nat -> R) -> R) : (forall i, (i < n)%nat -> vanish (F i)) -> vanish (fun x => Rsum n (fun i => F i x)).
Proof. induction n as [|n IH]; intros H; [apply vanish_0|]. cbn [Rsum]. apply vanish_plus; [apply IH; intros; apply H; lia|apply H; lia]. Qed.

Lemma fade k : fades k -> positive k -> forall eps, 0 < eps -> exists r0, forall r, r0 <= r -> Rabs (k_doc k r) <= eps.
Proof.
  induction k as [c|c|c T| |k IH s]; intros Hf Hp eps He; try contradiction.
  - assert (Hc : 0 < c) by (apply Hp; left; reflexivity). exists (Rmax 1 (2 / (c * eps))). intros r Hr.
    assert (H1 : 1 <= r) by (eapply Rle_trans; [apply Rmax_l|exact Hr]). assert (H2 : 2 / (c * eps) <= r) by (eapply Rle_trans; [apply Rmax_r|exact Hr]).
    unfold k_doc. rewrite Rabs_pos_eq by apply Rlt_le, exp_pos. replace (- c * r ^ 2 / 2) with (- (c * r ^ 2 / 2)) by field.
    assert (Hu : 0 <= c * r ^ 2 / 2) by (apply Rmult_le_pos; [apply Rmult_le_pos; [lra|apply pow2_ge_0]|lra]).
    pose proof (exp_neg_le _ Hu) as HE. pose proof (exp_pos (- (c * r ^ 2 / 2))) as HX.
    assert (H3 : 2 <= c * eps * r).
    { apply Rmult_le_reg_r with (/ (c * eps)); [apply Rinv_0_lt_compat, Rmult_lt_0_compat; lra|]. replace (c * eps * r * / (c * eps)) with r by (field; lra). exact H2. }
    assert (H4 : 1 <= eps * (c * r ^ 2 / 2)) by (assert (c * eps * r <= c * eps * r * r) by (rewrite <- (Rmult_1_r (c * eps * r)) at 1; apply Rmult_le_compat_l; lra); nra).
    apply Rmult_le_reg_r with (1 + c * r ^ 2 / 2); [lra|]. nra.
  - assert (Hg : 0 < c) by (apply Hp; left; reflexivity). set (b := c * sqrt 3). assert (Hb : 0 < b) by (apply Rmult_lt_0_compat; [exact Hg|apply sqrt_lt_R0; lra]).
    exists (4 / (b * eps)). intros r Hr. assert (H0 : 0 < 4 / (b * eps)) by (apply Rdiv_lt_0_compat; [lra|apply Rmult_lt_0_compat; lra]).
    assert (E : k_doc (Matern32 c) r = (1 + b * r) * exp (- (b * r))) by (unfold k_doc, b; f_equal; [ring|f_equal; ring]). rewrite E.
    assert (Hu : 0 <= b * r) by (apply Rmult_le_pos; lra). set (u := b * r) in *.
    assert (H3 : 4 <= eps * u).
    { unfold u. apply Rmult_le_reg_r with (/ (b * eps)); [apply Rinv_0_lt_compat, Rmult_lt_0_compat; lra|]. replace (eps * (b * r) * / (b * eps)) with r by (field; lra). exact Hr. }
    rewrite Rabs_pos_eq by (apply Rmult_le_pos; [lra|apply Rlt_le, exp_pos]).
    replace (- u) with (- (u / 2) + - (u / 2)) by field. rewrite exp_plus. pose proof (exp_neg_le (u / 2) ltac:(lra)) as HE. pose proof (exp_pos (- (u / 2))) as HX.
    set (e := exp (- (u / 2))) in *. assert (H5 : (1 + u) * e <= 2) by nra.
    apply Rle_trans with (2 * e); [rewrite <- Rmult_assoc; apply Rmult_le_compat_r; lra|].
    apply Rmult_le_reg_r with (1 + u / 2); [lra|]. nra.
  - destruct (IH Hf (fun v Hv => Hp v ltac:(cbn; apply in_or_app; now left)) (eps / (Rabs s + 1))) as [r0 H0]; [pose proof (Rabs_pos s); apply Rdiv_lt_0_compat; lra|].
    exists r0. intros r Hr. cbn [k_doc]. rewrite Rabs_mult. pose proof (Rabs_pos s). specialize (H0 r Hr).
    apply Rle_trans with ((Rabs s + 1) * (eps / (Rabs s + 1))); [apply Rmult_le_compat; try apply Rabs_pos; lra|right; field; lra].
Qed.

Lemma dist_coord ad p x z : In p ad -> Rabs (x p) - Rabs (z p) <= dist_on ad x z.
Proof.
  intros Hp. apply Rle_trans with (Rabs (x p - z p)); [apply Rabs_triang_inv|]. unfold dist_on. rewrite <- sqrt_Rsqr_abs. apply sqrt_le_1_alt.
  unfold Rsqr. replace ((x p - z p) * (x p - z p)) with ((x p - z p) ^ 2) by ring.
  assert (N : forall l : list nat, 0 <= lsum (map (fun p => (x p - z p) ^ 2) l)).
  { induction l as [|c l IH]; [apply Rle_refl|]. cbn [map]. unfold lsum in *. cbn [fold_right]. pose proof (pow2_ge_0 (x c - z c)). lra. }
  induction ad as [|c ad IH]; [destruct Hp|]. cbn [map]. unfold lsum. cbn [fold_right]. fold (lsum (map (fun p => (x p - z p) ^ 2) ad)).
  pose proof (N ad). pose proof (pow2_ge_0 (x c - z c)). destruct Hp as [->|Hp]; [lra|]. specialize (IH Hp). lra.
Qed.

Hypothesis Hfade : forall q, (q < f_Q f)%nat -> fades (kern_of f q).

Lemma cross_vanish a j : vanish (fun x => cross g a x j).
Proof.
  unfold cross, lmc_cov. match goal with |- context [dist_on _ _ ?w] => set (z := w) end.
  apply (vanish_sum (f_Q f)). intros q Hq eps He.
  destruct (fade _ (Hfade q Hq) (proj1 (gr_kern _ _ _ _ HR q Hq)) (eps / (Rabs (B_of (gp_f g) q a (owner (map (@length R) (mg_Ys (gp_data g))) j)) + 1))) as [r0 H0].
  { apply Rdiv_lt_0_compat; [lra|]. pose proof (Rabs_pos (B_of (gp_f g) q a (owner (map (@length R) (mg_Ys (gp_data g))) j))). lra. }
  exists (r0 + Rsum P (fun p => Rabs (z p))). intros x Hx. destruct (Hx q Hq) as [p [Hp Hxp]]. rewrite Rabs_mult.
  assert (Hz : Rabs (z p) <= Rsum P (fun p => Rabs (z p))).
  { rewrite <- (Rsum_delta P p (fun i => Rabs (z i))) by exact (dims_rangeR g lo hi m HR q p Hq Hp). apply Rsum_le. intros i Hi. destruct (Nat.eqb i p); [lra|apply Rabs_pos]. }
  pose proof (dist_coord (qdims f q) p x z Hp) as HD. specialize (H0 (dist_on (qdims f q) x z) ltac:(lra)).
  set (b := Rabs (B_of (gp_f g) q a _)) in *. assert (0 <= b) by apply Rabs_pos. fold f.
  apply Rle_trans with ((b + 1) * (eps / (b + 1))); [apply Rmult_le_compat; try apply Rabs_pos; lra|right; field; lra].
Qed.

Hypothesis Hid : no_identity f.
Variables (solve : Mat -> vec -> result vec) (k : gp_kernel).
Let n := n_obs g.
Hypothesis Hp : proper f.
Hypothesis He : solves_exactly n (K_fit g) (solve (al_K (gpk_lik k))).

Lemma quad_vanish K a (E : (nat -> R) -> R) : sym n K -> pos_definite n K -> (forall c, exists z, solves n K z c) ->
  (forall x, exists z, solves n K z (cross g a x) /\ E x = Rsum n (fun l => cross g a x l * z l)) -> vanish E.
Proof.
  intros Hs Hpd Hex HE. destruct (solve_matrix n K Hs Hpd Hex) as [M HM].
  assert (V : vanish (fun x => Rsum n (fun l => cross g a x l * Rsum n (fun i => cross g a x i * M i l)))).
  { apply vanish_sum. intros l Hl. apply vanish_mult; [apply cross_vanish|]. apply bnd_sum. intros i Hi. apply bnd_mult; [exact (proj2 (cross_lip g lo hi m HR Hid a i))|apply bnd_const]. }
  intros eps Heps. destruct (V eps Heps) as [r Hr]. exists r. intros x Hx. destruct (HE x) as [z [Hz ->]].
  rewrite (Rsum_ext n _ (fun l => cross g a x l * Rsum n (fun i => cross g a x i * M i l))) by (intros l Hl; now rewrite (HM _ _ Hz l Hl)). now apply Hr.
Qed.

Lemma explained_vanish a : mode_ready g -> gp_mode g <> Precompute -> vanish (explained g k solve a).
Proof.
  intros Hm Hn. unfold explained. unfold mode_ready in Hm. destruct (gp_mode g); [|congruence|].
  - apply (quad_vanish (K_fit g) a); [exact (K_fit_sym g lo hi m HR)|exact (K_fit_pd g lo hi m HR Hp)| |].
    + intros c. destruct (sol_solves g solve k He c) as [z [Hz _]]. now exists z.
    + intros x. exact (fly_form g solve k He a x).
  - destruct (dense_ok g lo hi m HR Hm) as [e [Ee Re]]. rewrite Ee.
    apply (quad_vanish (K_obs f P (mg_Xs (gp_data g)) (map (@length R) (mg_Ys (gp_data g)))) a); [apply K_obs_sym|exact Hm| |].
    + intros c. eexists. exact (er_potrs _ _ _ _ _ Re c).
    + intros x. exact (exact_form g lo hi m HR e a x Ee Hm).
Qed.
End Far.
