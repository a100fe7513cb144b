(** Properties C13-C20. *)

From Coq Require Import Reals List Arith ZArith Lia Lra.
From Coquelicot Require Import Coquelicot.
From Verif Require Import Base NDArray Model_Util Proofs_Util Model_Linalg Proofs_Linalg
  Model_Interp Spec_Interp Proofs_Sparse Proofs_Interp Proofs_Interp2 Proofs_Bicubic
  Proofs_Assemble Proofs_Autogrid.
Import ListNotations.
Open Scope R_scope.

(** C13: every row is an affine combination of at most four grid values, for
    samples anywhere on the real line; in particular [cubic_kernel] accepts
    every distance it is given. *)
Theorem C13_interp_rows :
  forall m a h (s : vec), (4 <= m)%nat -> 0 < h -> s <> [] ->
  exists W, interp_cubic (arr1 (equispaced m a h)) (arr1 s) = Ok W /\
    c_r W = length s /\ c_c W = m /\ csr_wf W /\
    forall i, (i < length s)%nat ->
      (length (csr_row W i) <= 4)%nat /\
      (forall p, In p (csr_row W i) -> (fst p < m)%nat) /\
      Rsum m (fun j => csr_get W i j) = 1 /\
      lsum (map snd (csr_row W i)) = 1.
Proof.
  intros m a h s Hm Hh Hs.
  destruct (interp_cubic_ok (equispaced m a h) s) as [W [HW Hok]]; auto.
  { now rewrite equispaced_length. }
  rewrite equispaced_length in Hok. exists W.
  pose proof (io_r _ _ _ _ Hok) as Hr. pose proof (io_c _ _ _ _ Hok) as Hc. pose proof (io_wf _ _ _ _ Hok) as Hwf.
  split; auto. split; auto. split; auto. split; auto.
  intros i Hi. split; [now apply (interp_nnz W _ _ _ i Hok)|].
  assert (Hcol : forall p, In p (csr_row W i) -> (fst p < m)%nat).
  { intros p Hp. rewrite <- Hc. apply (csr_row_in W i); auto. now rewrite Hr. }
  split; [exact Hcol|].
  assert (Hsum : Rsum m (fun j => csr_get W i j) = 1).
  { pose proof (interp_equi W m a h s i (fun _ => 1) Hm HW Hi) as E. cbv zeta in E.
    unfold interp_value in E. rewrite Hc in E.
    rewrite (Rsum_ext m _ (fun j => csr_get W i j * 1)) by (intros; ring). rewrite E.
    pose proof (wgt_moments _ 1 0 0 (frac_range ((vget s i - a) / h))) as M.
    rewrite <- M at 1. apply lsum_ext. intros conv _. ring. }
  split; [exact Hsum|].
  rewrite <- Hsum. pose proof (row_dot m (csr_row W i) (fun _ => 1) Hcol) as D. cbv beta in D.
  rewrite (map_ext snd (fun p => snd p * 1)) by (intros; ring). rewrite D.
  apply Rsum_ext. intros j Hj. unfold csr_get. ring.
Qed.
Print Assumptions C13_interp_rows.

(** Samples 5/2 (inside) and -7 (far outside) on the grid 0, 1, 2, 3, 4. *)
Example C13_ex : [5 / 2; -7] <> [] /\ (4 <= 5)%nat /\
  equispaced 5 0 1 = [0; 1; 2; 3; 4].
Proof.
  split; [discriminate|]. split; [lia|]. cbv -[Rmult Rplus IZR Ropp].
  repeat match goal with |- _ :: _ = _ :: _ => apply (f_equal2 (@cons _)) end; try reflexivity; lra.
Qed.

(** [cubic_kernel] itself rejects exactly the vectors with an entry beyond
    distance two. *)
Theorem C13_cubic_kernel_domain :
  forall x, (cubic_kernel x = Err ValueError <-> exists v, In v x /\ 2 < Rabs v) /\
    (forall y, cubic_kernel x = Ok y -> length y = length x).
Proof.
  intros x. unfold cubic_kernel. destruct (existsb (fun v => Rltb 2 v) (map Rabs x)) eqn:E.
  - split; [split; auto|discriminate]. intros _. apply existsb_exists in E. destruct E as [w [Hw E]].
    apply in_map_iff in Hw. destruct Hw as [v [<- Hv]]. exists v. split; auto.
    unfold Rltb in E. destruct (Rlt_dec 2 (Rabs v)); [auto|discriminate].
  - split; [split; [discriminate|]|].
    + intros [v [Hv Hlt]]. exfalso. assert (T : existsb (fun v => Rltb 2 v) (map Rabs x) = true).
      { apply existsb_exists. exists (Rabs v). split; [apply in_map; auto|]. unfold Rltb.
        destruct (Rlt_dec 2 (Rabs v)); [reflexivity|lra]. }
      congruence.
    + intros y Hy. apply Ok_inj in Hy. subst y. now rewrite !map_length.
Qed.
Print Assumptions C13_cubic_kernel_domain.

Example C13_cubic_ex : cubic_kernel [0; 5] = Err ValueError /\ exists y, cubic_kernel [0; -2] = Ok y.
Proof.
  split.
  - apply C13_cubic_kernel_domain. exists 5. split; [simpl; auto|]. rewrite Rabs_right; lra.
  - rewrite cubic_kernel_ok; [eauto|]. intros v [<-|[<-|[]]]; [rewrite Rabs_R0; lra|].
    rewrite Rabs_left; lra.
Qed.

(** C14: samples at grid points (including the borders) are reproduced
    exactly, whatever the function. *)
Theorem C14_exact_on_grid :
  forall m a h s W (phi : nat -> R) i k, (4 <= m)%nat -> 0 < h ->
  interp_cubic (arr1 (equispaced m a h)) (arr1 s) = Ok W ->
  (i < length s)%nat -> (k < m)%nat -> vget s i = a + INR k * h ->
  vget (csr_dot1 W (tab m phi)) i = phi k.
Proof.
  intros m a h s W phi i k Hm Hh HW Hi Hk Hx.
  destruct (C13_interp_rows m a h s Hm Hh) as [W' [HW' [Hr [Hc [Hwf _]]]]].
  { destruct s; simpl in Hi; [lia|discriminate]. }
  rewrite HW in HW'. apply Ok_inj in HW'. subst W'.
  rewrite csr_dot1_get by (auto; lia). rewrite Hc.
  rewrite <- (interp_node W m a h s i k phi Hm Hh HW Hi Hk Hx). unfold interp_value. rewrite Hc.
  apply Rsum_ext. intros j Hj. now rewrite vget_tab.
Qed.
Print Assumptions C14_exact_on_grid.

(** C14: polynomials of degree at most two are reproduced at every sample with
    a grid point on either side of its cell. *)
Theorem C14_exact_quadratics :
  forall m a h s W c0 c1 c2 i, (4 <= m)%nat -> 0 < h ->
  interp_cubic (arr1 (equispaced m a h)) (arr1 s) = Ok W ->
  (i < length s)%nat -> a + h <= vget s i <= a + INR (m - 2) * h ->
  let q x := c0 + c1 * x + c2 * (x * x) in
  vget (csr_dot1 W (map q (equispaced m a h))) i = q (vget s i).
Proof.
  intros m a h s W c0 c1 c2 i Hm Hh HW Hi Hx q.
  destruct (C13_interp_rows m a h s Hm Hh) as [W' [HW' [Hr [Hc [Hwf _]]]]].
  { destruct s; simpl in Hi; [lia|discriminate]. }
  rewrite HW in HW'. apply Ok_inj in HW'. subst W'.
  rewrite csr_dot1_get by (auto; lia). rewrite Hc. unfold q.
  rewrite <- (interp_quadratic W m a h s i c0 c1 c2 Hm Hh HW Hi Hx). unfold interp_value. rewrite Hc.
  apply Rsum_ext. intros j Hj. unfold equispaced. rewrite map_tab, vget_tab by auto. reflexivity.
Qed.
Print Assumptions C14_exact_quadratics.

(** On 0, 1, 2, 3, 4: the interior is [1, 3]; 5/2 is inside, 4 is a border
    grid point. *)
Example C14_ex : exists W, interp_cubic (arr1 (equispaced 5 0 1)) (arr1 [5 / 2; 4]) = Ok W /\
  0 + 1 <= vget [5 / 2; 4] 0 <= 0 + INR (5 - 2) * 1 /\ vget [5 / 2; 4] 1 = 0 + INR 4 * 1.
Proof.
  destruct (C13_interp_rows 5 0 1 [5 / 2; 4]) as [W [HW _]]; [lia|lra|discriminate|].
  exists W. split; [exact HW|]. split; cbv -[Rmult Rplus IZR Ropp Rle]; lra.
Qed.

(** C15: third order accuracy.  [f1 f2 f3] are the successive derivatives of
    [f] on the range of the grid. *)
Theorem C15_third_order :
  forall (f f1 f2 f3 : R -> R) B m a h s W i, (4 <= m)%nat -> 0 < h ->
  interp_cubic (arr1 (equispaced m a h)) (arr1 s) = Ok W ->
  (i < length s)%nat -> a + h <= vget s i <= a + INR (m - 2) * h ->
  (forall x, a <= x <= a + INR (m - 1) * h ->
     is_derive f x (f1 x) /\ is_derive f1 x (f2 x) /\ is_derive f2 x (f3 x) /\ Rabs (f3 x) <= B) ->
  Rabs (vget (csr_dot1 W (map f (equispaced m a h))) i - f (vget s i)) <= B / 2 * (h * h * h).
Proof.
  intros f f1 f2 f3 B m a h s W i Hm Hh HW Hi Hx Hf.
  destruct (C13_interp_rows m a h s Hm Hh) as [W' [HW' [Hr [Hc [Hwf _]]]]].
  { destruct s; simpl in Hi; [lia|discriminate]. }
  rewrite HW in HW'. apply Ok_inj in HW'. subst W'.
  rewrite csr_dot1_get by (auto; lia). rewrite Hc.
  assert (E : Rsum m (fun j => csr_get W i j * vget (map f (equispaced m a h)) j)
              = interp_value W i (fun j => f (a + INR j * h))).
  { unfold interp_value. rewrite Hc. apply Rsum_ext. intros j Hj.
    unfold equispaced. rewrite map_tab, vget_tab by auto. reflexivity. }
  rewrite E. apply (interp_error W m a h s i f f1 f2 f3 B Hm Hh HW Hi Hx).
  - intros x Hxx. destruct (Hf x Hxx) as [A1 [A2 [A3 _]]]. auto.
  - intros x Hxx. apply (Hf x Hxx).
Qed.
Print Assumptions C15_third_order.

(** exp on the grid 0, 1/2, ..., 2 with B = e^2. *)
Example C15_ex : forall x, 0 <= x <= 0 + INR (5 - 1) * (1 / 2) ->
  is_derive exp x (exp x) /\ is_derive exp x (exp x) /\ is_derive exp x (exp x) /\ Rabs (exp x) <= exp 2.
Proof.
  intros x Hx. assert (D : is_derive exp x (exp x)) by (auto_derive; auto; ring).
  split; [exact D|]. split; [exact D|]. split; [exact D|].
  rewrite Rabs_right by (left; apply exp_pos). simpl in Hx.
  destruct (Req_dec x 2) as [->|N]; [lra|]. left. apply exp_increasing. lra.
Qed.

(** The documentation claims the rate [O(m^-3)] for twice differentiable
    functions.  It fails for x^2 sqrt|x|, which is twice differentiable with a
    continuous second derivative: no constant works for all grids. *)
Definition rough (x : R) : R := x * x * sqrt (Rabs x).
Definition rough1 (x : R) : R := 5 / 2 * (x * sqrt (Rabs x)).
Definition rough2 (x : R) : R := 15 / 4 * sqrt (Rabs x).

Lemma derive_zero_flat (c : R) (k : R -> R) : 0 < c ->
  (forall x, Rabs (k x) <= c * sqrt (Rabs x)) -> is_derive (fun x => x * k x) 0 0.
Proof.
  intros Hc Hk. apply is_derive_Reals. intros eps Heps.
  assert (Hd : 0 < (eps / c) * (eps / c)) by (apply Rmult_lt_0_compat; apply Rdiv_lt_0_compat; lra).
  exists (mkposreal _ Hd). intros u Hu Hlt. simpl in Hlt.
  replace ((0 + u) * k (0 + u) - 0 * k 0) with (u * k u) by (rewrite Rplus_0_l; ring).
  replace (u * k u / u - 0) with (k u) by (field; auto).
  eapply Rle_lt_trans; [apply Hk|].
  assert (sqrt (Rabs u) < eps / c).
  { rewrite <- (sqrt_square (eps / c)) by (left; apply Rdiv_lt_0_compat; lra).
    apply sqrt_lt_1; [apply Rabs_pos|lra|exact Hlt]. }
  replace eps with (c * (eps / c)) by (field; lra). apply Rmult_lt_compat_l; auto.
Qed.

Lemma abs_as_square x : exists r, 0 <= r /\ sqrt (Rabs x) = r /\ Rabs x = r * r.
Proof.
  exists (sqrt (Rabs x)). split; [apply sqrt_pos|]. split; auto. symmetry. apply sqrt_sqrt, Rabs_pos.
Qed.

Lemma rough_derive x : is_derive rough x (rough1 x).
Proof.
  destruct (Req_dec x 0) as [->|Hx].
  - replace (rough1 0) with 0 by (unfold rough1; ring).
    apply (is_derive_ext (fun x => x * (x * sqrt (Rabs x)))); [intros t; unfold rough; symmetry; apply Rmult_assoc|].
    apply is_derive_Reals. intros eps Heps.
    set (d := Rmin 1 eps). assert (Hd : 0 < d) by (unfold d; apply Rmin_glb_lt; lra).
    exists (mkposreal d Hd). intros u Hu Hlt. simpl in Hlt.
    rewrite Rplus_0_l. replace (u * (u * sqrt (Rabs u)) - 0 * (0 * sqrt (Rabs 0))) with (u * (u * sqrt (Rabs u))) by ring.
    replace (u * (u * sqrt (Rabs u)) / u - 0) with (u * sqrt (Rabs u)) by (field; auto).
    destruct (abs_as_square u) as [r [Hr [E1 E2]]]. rewrite Rabs_mult, E1, (Rabs_right r) by lra.
    assert (Rabs u < 1 /\ Rabs u < eps) as [L1 L2].
    { unfold d in Hlt. split; eapply Rlt_le_trans; eauto; [apply Rmin_l|apply Rmin_r]. }
    assert (r < 1) by nra. pose proof (Rabs_pos_lt u Hu). nra.
  - pose proof (Rabs_pos_lt x Hx) as Hp. unfold rough, rough1. auto_derive; [auto|].
    destruct (abs_as_square x) as [r [Hr [E1 E2]]]. rewrite E1. assert (0 < r) by (destruct Hr; nra).
    destruct (Rlt_dec 0 x) as [P|P].
    + rewrite sign_eq_1 by auto. rewrite (Rabs_right x) in E2 by lra. rewrite E2. field. lra.
    + rewrite sign_eq_m1 by lra. rewrite (Rabs_left x) in E2 by lra. replace x with (- (r * r)) by lra. field. lra.
Qed.

Lemma rough1_derive x : is_derive rough1 x (rough2 x).
Proof.
  destruct (Req_dec x 0) as [->|Hx].
  - replace (rough2 0) with 0 by (unfold rough2; rewrite Rabs_R0, sqrt_0; ring).
    assert (E : forall t : R, t * (5 / 2 * sqrt (Rabs t)) = rough1 t) by (intros; unfold rough1; ring).
    apply (is_derive_ext (fun x => x * (5 / 2 * sqrt (Rabs x))) _ _ _ E).
    apply (derive_zero_flat (5 / 2)); [lra|]. intros u. rewrite Rabs_mult, (Rabs_right (5 / 2)) by lra.
    rewrite (Rabs_right (sqrt (Rabs u))) by (apply Rle_ge, sqrt_pos). lra.
  - pose proof (Rabs_pos_lt x Hx) as Hp. unfold rough1, rough2. auto_derive; [auto|].
    destruct (abs_as_square x) as [r [Hr [E1 E2]]]. rewrite E1. assert (0 < r) by (destruct Hr; nra).
    destruct (Rlt_dec 0 x) as [P|P].
    + rewrite sign_eq_1 by auto. rewrite (Rabs_right x) in E2 by lra. rewrite E2. field. lra.
    + rewrite sign_eq_m1 by lra. rewrite (Rabs_left x) in E2 by lra. replace x with (- (r * r)) by lra. field. lra.
Qed.

Lemma rough_abs c h : 0 < h -> 0 <= c -> rough (c * h) = c * c * sqrt c * (h * h * sqrt h) /\
  rough (- (c * h)) = c * c * sqrt c * (h * h * sqrt h).
Proof.
  intros Hh Hc. unfold rough. rewrite Rabs_Ropp. rewrite (Rabs_right (c * h)) by nra.
  rewrite sqrt_mult by lra. split; ring.
Qed.

Theorem C15_twice_differentiable_refuted :
  exists f f1 f2 : R -> R,
    (forall x, is_derive f x (f1 x) /\ is_derive f1 x (f2 x) /\ continuous f2 x) /\
    forall C, exists m W, (4 <= m)%nat /\
      let g := equispaced m (-1) (2 / INR (m - 1)) in
      interp_cubic (arr1 g) (arr1 [0]) = Ok W /\
      Rabs (vget (csr_dot1 W (map f g)) 0 - f 0) > C / (INR m * INR m * INR m).
Proof.
  exists rough, rough1, rough2. split.
  { intros x. split; [apply rough_derive|]. split; [apply rough1_derive|].
    unfold rough2. apply (continuous_scal_r (15 / 4) (fun x => sqrt (Rabs x))).
    apply (continuous_comp Rabs sqrt); [apply continuous_Rabs|apply continuous_sqrt]. }
  intros C.
  set (K := Rabs C + 1). assert (HK : 1 <= K) by (unfold K; pose proof (Rabs_pos C); lra).
  assert (HQ : exists q0, K * K < INR q0).
  { exists (Z.to_nat (up (K * K))). rewrite INR_IZR_INZ. destruct (archimed (K * K)) as [A _].
    rewrite Z2Nat.id; [lra|]. apply le_IZR. simpl. nra. }
  destruct HQ as [q0 Hq0].
  set (q := (q0 + 2)%nat). set (m := (2 * q)%nat).
  assert (Hm : (4 <= m)%nat) by (unfold m, q; lia).
  assert (Hmr : INR m = 2 * INR q) by (unfold m; rewrite mult_INR; simpl; ring).
  assert (Hq : INR q = INR q0 + 2) by (unfold q; rewrite plus_INR; simpl; ring).
  assert (Hq1 : INR (m - 1) = 2 * INR q - 1) by (rewrite minus_INR by lia; rewrite Hmr; simpl; ring).
  pose proof (pos_INR q0) as Hq0p.
  set (h := 2 / INR (m - 1)).
  assert (Hh : 0 < h) by (unfold h; apply Rdiv_lt_0_compat; lra).
  assert (Hhq : h * (2 * INR q - 1) = 2) by (unfold h; rewrite Hq1; field; lra).
  destruct (C13_interp_rows m (-1) h [0] Hm Hh) as [W [HW [Hr [Hc [Hwf _]]]]]; [discriminate|].
  exists m, W. split; [exact Hm|]. cbv zeta. fold h. split; [exact HW|].
  rewrite csr_dot1_get by (auto; simpl in Hr; lia).
  assert (E : Rsum (c_c W) (fun j => csr_get W 0 j * vget (map rough (equispaced m (-1) h)) j)
              = interp_value W 0 (fun j => rough (-1 + INR j * h))).
  { unfold interp_value. rewrite Hc. apply Rsum_ext. intros j Hj.
    unfold equispaced. rewrite map_tab, vget_tab by auto. reflexivity. }
  rewrite E. rewrite (interp_equi W m (-1) h [0] 0 _ Hm HW) by (simpl; lia).
  change (vget [0] 0) with 0.
  assert (Hf : (0 - -1) / h = INR q - 1 / 2) by (apply Rmult_eq_reg_r with h; [field_simplify; lra|lra]).
  rewrite Hf.
  assert (Hfl : np_floor (INR q - 1 / 2) = (Z.of_nat q - 1)%Z).
  { apply floor_unique. rewrite minus_IZR, <- INR_IZR_INZ. simpl. lra. }
  rewrite Hfl. rewrite minus_IZR, <- INR_IZR_INZ.
  replace (INR q - 1 / 2 - (INR q - 1)) with (1 / 2) by lra.
  cbn [conv_window map lsum fold_right].
  rewrite wgt_m2, wgt_m1, wgt_0, wgt_1 by lra.
  rewrite !clamp_in by (unfold m, q; lia).
  assert (P : forall z, (0 <= Z.of_nat q - 1 - z)%Z -> -1 + INR (Z.to_nat (Z.of_nat q - 1 - z)) * h = - ((IZR z + 1 / 2) * h)).
  { intros z Hz. rewrite INR_IZR_INZ, Z2Nat.id by auto. rewrite !minus_IZR, <- INR_IZR_INZ. simpl. lra. }
  rewrite !P by (unfold q; lia).
  replace (- ((-2 + 1 / 2) * h)) with (3 / 2 * h) by lra.
  replace (- ((-1 + 1 / 2) * h)) with (1 / 2 * h) by lra.
  replace ((0 + 1 / 2) * h) with (1 / 2 * h) by lra.
  replace ((1 + 1 / 2) * h) with (3 / 2 * h) by lra.
  destruct (rough_abs (3 / 2) h Hh ltac:(lra)) as [A1 A2]. destruct (rough_abs (1 / 2) h Hh ltac:(lra)) as [B1 B2].
  rewrite A1, A2, B1, B2.
  assert (R0 : rough 0 = 0) by (unfold rough; ring). rewrite R0.
  set (u := h * h * sqrt h).
  set (s3 := sqrt (3 / 2)). set (s1 := sqrt (1 / 2)).
  assert (S3 : s3 * s3 = 3 / 2) by (apply sqrt_sqrt; lra).
  assert (S1 : s1 * s1 = 1 / 2) by (apply sqrt_sqrt; lra).
  assert (S3p : 0 <= s3) by apply sqrt_pos. assert (S1p : 0 <= s1) by apply sqrt_pos.
  assert (S3l : 6 / 5 < s3) by nra. assert (S1u : s1 < 3 / 4) by nra.
  assert (Hu : 0 < u) by (unfold u; apply Rmult_lt_0_compat; [nra|now apply sqrt_lt_R0]).
  match goal with |- Rabs ?e > _ => replace e with (- (9 / 32 * (s3 - s1) * u)) by field end.
  rewrite Rabs_Ropp, Rabs_right by (apply Rle_ge, Rmult_le_pos; nra).
  (* h >= 2/m = 1/q *)
  set (r := sqrt (/ INR q)).
  assert (Hqpos : 0 < INR q) by lra.
  assert (Hrr : r * r = / INR q) by (apply sqrt_sqrt; left; now apply Rinv_0_lt_compat).
  assert (Hrp : 0 < r) by (apply sqrt_lt_R0; now apply Rinv_0_lt_compat).
  assert (Hhr : / INR q < h).
  { apply Rmult_lt_reg_r with (INR q); auto. rewrite Rinv_l by lra. nra. }
  assert (Hsr : r < sqrt h) by (apply sqrt_lt_1; try lra; left; now apply Rinv_0_lt_compat).
  assert (Hur : r * r * (r * r) * r < u).
  { unfold u. rewrite Hrr. assert (0 < / INR q) by now apply Rinv_0_lt_compat.
    assert (/ INR q * / INR q < h * h) by nra. pose proof (sqrt_pos h). nra. }
  assert (HrK : r * K < 1).
  { assert (r * r * (K * K) < 1).
    { rewrite Hrr. apply Rmult_lt_reg_r with (INR q); auto. field_simplify; [|lra]. rewrite Hq. nra. }
    nra. }
  assert (EC : C / (INR m * INR m * INR m) = C * (r * r * (r * r) * (r * r)) / 8).
  { rewrite Hrr, Hmr. field. lra. }
  rewrite EC.
  set (r5 := r * r * (r * r) * r) in *.
  replace (r * r * (r * r) * (r * r)) with (r5 * r) by (unfold r5; ring).
  assert (Hr5 : 0 < r5) by (unfold r5; repeat apply Rmult_lt_0_compat; auto).
  assert (HC : C <= K) by (unfold K; pose proof (Rle_abs C); lra).
  assert (C * (r5 * r) <= r5).
  { replace (C * (r5 * r)) with (r5 * (C * r)) by ring. assert (C * r <= 1) by nra. nra. }
  assert (9 / 32 * (s3 - s1) * u > 9 / 32 * (9 / 20) * u) by nra.
  nra.
Qed.
Print Assumptions C15_twice_differentiable_refuted.

(** C16: the bicubic matrix is the tensor product, with column [ix * my + iy]
    for grid point (gridx[ix], gridy[iy]), the order of [cartesian_product]. *)
Theorem C16_bicubic :
  forall mx ax hx my ay hy n (data : vec),
  (4 <= mx)%nat -> (4 <= my)%nat -> 0 < hx -> 0 < hy -> (0 < n)%nat ->
  let gx := equispaced mx ax hx in
  let gy := equispaced my ay hy in
  let xs := tab n (fun i => vget data (2 * i)) in
  let ys := tab n (fun i => vget data (2 * i + 1)) in
  exists W Wx Wy,
    interp_bicubic (arr1 gx) (arr1 gy) (mk_arr [n; 2%nat] data) = Ok W /\
    interp_cubic (arr1 gx) (arr1 xs) = Ok Wx /\ interp_cubic (arr1 gy) (arr1 ys) = Ok Wy /\
    c_r W = n /\ c_c W = (mx * my)%nat /\ csr_wf W /\
    forall i, (i < n)%nat ->
      (length (csr_row W i) <= 16)%nat /\
      Rsum (mx * my) (fun c => csr_get W i c) = 1 /\
      (forall ix iy, (ix < mx)%nat -> (iy < my)%nat ->
         csr_get W i (ix * my + iy) = csr_get Wx i ix * csr_get Wy i iy) /\
      (ax + hx <= vget xs i <= ax + INR (mx - 2) * hx ->
       ay + hy <= vget ys i <= ay + INR (my - 2) * hy ->
       forall p0 p1 p2 q0 q1 q2,
         let p x := p0 + p1 * x + p2 * (x * x) in
         let q y := q0 + q1 * y + q2 * (y * y) in
         forall pts, cartesian_product [gx; gy] = Ok pts ->
         vget (csr_dot1 W (map (fun pt => p (vget pt 0) * q (vget pt 1)) pts)) i
         = p (vget xs i) * q (vget ys i)).
Proof.
  intros mx ax hx my ay hy n data Hmx Hmy Hhx Hhy Hn gx gy xs ys.
  assert (Ex : arr_col 2 0 (mk_arr [n; 2%nat] data) = xs).
  { unfold arr_col, xs. cbn [a_shape hd a_data]. apply tab_ext. intros i _. f_equal. lia. }
  assert (Ey : arr_col 2 1 (mk_arr [n; 2%nat] data) = ys).
  { unfold arr_col, ys. cbn [a_shape hd a_data]. apply tab_ext. intros i _. f_equal. lia. }
  assert (Lx : length xs = n) by apply tab_length. assert (Ly : length ys = n) by apply tab_length.
  destruct (C13_interp_rows mx ax hx xs Hmx Hhx) as [Wx [HWx [Hrx [Hcx [Hwfx Hx]]]]].
  { intros E. rewrite E in Lx. simpl in Lx. lia. }
  destruct (C13_interp_rows my ay hy ys Hmy Hhy) as [Wy [HWy [Hry [Hcy [Hwfy Hy]]]]].
  { intros E. rewrite E in Ly. simpl in Ly. lia. }
  destruct (interp_bicubic_entries gx gy n data Wx Wy) as [W [HW [Hr [Hc [Hwf [He Hz]]]]]];
    unfold gx, gy; rewrite ?equispaced_length; auto.
  { now rewrite Ex. } { now rewrite Ey. }
  unfold gx, gy in He, Hc. rewrite !equispaced_length in He, Hc.
  exists W, Wx, Wy. fold gx gy. split; [exact HW|]. split; [exact HWx|]. split; [exact HWy|].
  split; [exact Hr|]. split; [exact Hc|]. split; [exact Hwf|].
  intros i Hi. split; [now apply Hz|]. split.
  { pose proof (bicubic_product W Wx Wy mx my i (fun _ => 1) (fun _ => 1) Hc Hcx Hcy (fun ix iy => He i ix iy Hi)) as B.
    unfold interp_value in B. rewrite Hc, Hcx, Hcy in B.
    rewrite (Rsum_ext _ _ (fun c => csr_get W i c * (1 * 1))) by (intros; ring).
    rewrite B. rewrite (Rsum_ext mx _ (fun j => csr_get Wx i j)) by (intros; ring).
    rewrite (Rsum_ext my _ (fun j => csr_get Wy i j)) by (intros; ring).
    destruct (Hx i) as [_ [_ [Sx _]]]; [lia|]. destruct (Hy i) as [_ [_ [Sy _]]]; [lia|].
    rewrite Sx, Sy. ring. }
  split; [intros ix iy; now apply He|].
  intros Hxi Hyi p0 p1 p2 q0 q1 q2 pts Hpts.
  set (p := fun x => p0 + p1 * x + p2 * (x * x)). set (q := fun y => q0 + q1 * y + q2 * (y * y)).
  assert (Epts : pts = tab (mx * my) (fun c => [ax + INR (c / my) * hx; ay + INR (c mod my) * hy])).
  { apply Ok_inj in Hpts. subst pts. cbn [map length]. unfold gx, gy. rewrite !equispaced_length.
    replace (nprod [mx; my]) with (mx * my)%nat by (simpl; lia).
    apply tab_ext. intros c Hcc. rewrite !tab_S_l. change (tab 0 ?f) with (@nil R). cbn [nth unravel nprod fold_right].
    assert (c / my < mx)%nat by (apply Nat.div_lt_upper_bound; lia).
    assert (c mod my < my)%nat by (apply Nat.mod_upper_bound; lia).
    rewrite !Nat.mul_1_r, !Nat.div_1_r. unfold equispaced. rewrite !nth_tab by auto. reflexivity. }
  rewrite csr_dot1_get by (auto; lia). rewrite Hc, Epts, map_tab.
  pose proof (bicubic_product W Wx Wy mx my i (fun k => p (ax + INR k * hx)) (fun k => q (ay + INR k * hy))
    Hc Hcx Hcy (fun ix iy => He i ix iy Hi)) as B.
  assert (Qx : interp_value Wx i (fun k => p (ax + INR k * hx)) = p (vget xs i))
    by (apply (interp_quadratic Wx mx ax hx xs i p0 p1 p2); auto; lia).
  assert (Qy : interp_value Wy i (fun k => q (ay + INR k * hy)) = q (vget ys i))
    by (apply (interp_quadratic Wy my ay hy ys i q0 q1 q2); auto; lia).
  rewrite Qx, Qy in B.
  etransitivity; [|exact B]. unfold interp_value. rewrite Hc. apply Rsum_ext. intros c Hcc.
  rewrite vget_tab by auto. reflexivity.
Qed.
Print Assumptions C16_bicubic.

(** A 5 x 4 grid with the sample (3/2, 5/4) in the interior. *)
Example C16_ex :
  let data := [3 / 2; 5 / 4] in
  (0 + 1 <= vget data 0 <= 0 + INR (5 - 2) * 1) /\ (0 + 1 <= vget data 1 <= 0 + INR (4 - 2) * 1) /\
  exists pts, cartesian_product [equispaced 5 0 1; equispaced 4 0 1] = Ok pts.
Proof.
  cbv zeta. split; [cbv -[Rmult Rplus IZR Ropp Rle]; lra|]. split; [cbv -[Rmult Rplus IZR Ropp Rle]; lra|].
  eexists. reflexivity.
Qed.

(** ** C17 *)

Lemma map_result_ok {A B} (f : A -> result B) (g : A -> B) l :
  (forall x, In x l -> f x = Ok (g x)) -> map_result f l = Ok (map g l).
Proof.
  induction l as [|x l IH]; intros H; [reflexivity|]. cbn [map_result map].
  rewrite (H x (or_introl eq_refl)). cbn [bind]. rewrite IH by (intros; apply H; simpl; auto). reflexivity.
Qed.

Lemma map_result_inv {A B} (f : A -> result B) l ys : map_result f l = Ok ys -> Forall2 (fun x y => f x = Ok y) l ys.
Proof.
  revert ys. induction l as [|x l IH]; intros ys H; cbn [map_result] in H.
  - apply Ok_inj in H. subst. constructor.
  - destruct (f x) as [y|] eqn:E; [|discriminate]. cbn [bind] in H.
    destruct (map_result f l) as [ys'|] eqn:E2; [|discriminate]. cbn [bind] in H. apply Ok_inj in H. subst.
    constructor; auto.
Qed.

Lemma forall_exists_list {A B} (P : A -> B -> Prop) l : (forall x, In x l -> exists y, P x y) -> exists ys, Forall2 P l ys.
Proof.
  induction l as [|x l IH]; intros H; [exists []; constructor|].
  destruct (H x (or_introl eq_refl)) as [y Hy]. destruct IH as [ys Hys]; [intros; apply H; simpl; auto|].
  exists (y :: ys). constructor; auto.
Qed.

Lemma Forall2_map_result {A B} (f : A -> result B) l ys : Forall2 (fun x y => f x = Ok y) l ys -> map_result f l = Ok ys.
Proof. induction 1 as [|x y l ys H _ IH]; [reflexivity|]. cbn [map_result]. rewrite H. cbn [bind]. now rewrite IH. Qed.

Lemma Forall2_nth {A B} (P : A -> B -> Prop) l ys da db i : Forall2 P l ys -> (i < length l)%nat -> P (nth i l da) (nth i ys db).
Proof.
  intros H. revert i. induction H as [|x y l ys Hxy _ IH]; intros i Hi; [simpl in Hi; lia|].
  destruct i as [|i]; [exact Hxy|]. cbn [nth]. apply IH. simpl in Hi. lia.
Qed.

Lemma Forall2_len {A B} (P : A -> B -> Prop) l ys : Forall2 P l ys -> length l = length ys.
Proof. induction 1; simpl; auto. Qed.

(** The interpolant of one output, also when it has no points. *)
Lemma interp_cubic_any m a h (s : vec) : (4 <= m)%nat -> 0 < h ->
  exists W, interp_cubic (arr1 (equispaced m a h)) (arr1 s) = Ok W /\ c_r W = length s /\ c_c W = m /\ csr_wf W.
Proof.
  intros Hm Hh. destruct s as [|x s].
  - exists (csr_zero 0 m). split.
    + unfold interp_cubic. cbn [np_len arr1 a_shape bind]. rewrite equispaced_length. reflexivity.
    + split; [reflexivity|]. split; [reflexivity|apply csr_zero_wf].
  - destruct (C13_interp_rows m a h (x :: s) Hm Hh) as [W [H1 [H2 [H3 [H4 _]]]]]; [discriminate|]. eauto.
Qed.

(** One-dimensional inputs given as vectors or as single columns. *)
Definition as_input (col : bool) (v : vec) : ndarr :=
  if col then mk_arr [length v; 1%nat] v else mk_arr [length v] v.

(** C17, one-dimensional inputs: block diagonal, with outputs without points
    contributing no rows. *)
Theorem C17_multi_interpolant :
  forall m a h (Xs : list vec) (cols : vec -> bool), (4 <= m)%nat -> 0 < h -> Xs <> [] ->
  exists M Ws,
    multi_interpolant (map (fun v => as_input (cols v) v) Xs) [arr1 (equispaced m a h)] = Ok M /\
    Forall2 (fun v W => interp_cubic (arr1 (equispaced m a h)) (arr1 v) = Ok W) Xs Ws /\
    c_r M = nsum (map (@length R) Xs) /\ c_c M = (length Xs * m)%nat /\ csr_wf M /\
    forall p i q j, (p < length Xs)%nat -> (i < length (nth p Xs []))%nat -> (q < length Xs)%nat -> (j < m)%nat ->
      csr_get M (nsum (map (@length R) (firstn p Xs)) + i) (q * m + j) =
      if Nat.eqb p q then csr_get (nth p Ws (csr_zero 0 0)) i j else 0.
Proof.
  intros m a h Xs cols Hm Hh Hne.
  destruct (forall_exists_list (fun v W => interp_cubic (arr1 (equispaced m a h)) (arr1 v) = Ok W /\
      c_r W = length v /\ c_c W = m /\ csr_wf W) Xs) as [Ws HWs].
  { intros v _. now apply interp_cubic_any. }
  assert (HF : Forall2 (fun v W => interp_cubic (arr1 (equispaced m a h)) (arr1 v) = Ok W) Xs Ws).
  { clear -HWs. induction HWs; constructor; tauto. }
  assert (Hlen : map c_r Ws = map (@length R) Xs).
  { clear -HWs. induction HWs as [|v W l l' H _ IH]; [reflexivity|]. simpl. rewrite IH. f_equal. tauto. }
  assert (Hwf : forall W, In W Ws -> csr_wf W /\ c_c W = m).
  { clear -HWs. induction HWs as [|v W l l' H _ IH]; intros V HV; [destruct HV|].
    destruct HV as [<-|HV]; [tauto|auto]. }
  pose proof (Forall2_len _ _ _ HWs) as HL.
  assert (Hne' : Ws <> []) by (destruct Ws; [destruct Xs; simpl in HL; [congruence|lia]|discriminate]).
  set (g := arr1 (equispaced m a h)) in *.
  assert (Hmi : multi_interpolant (map (fun v => as_input (cols v) v) Xs) [g] = assemble m (map (@length R) Xs) Ws).
  { unfold multi_interpolant. unfold g at 1. cbn [map_result np_len arr1 a_shape bind]. rewrite equispaced_length.
    replace (nprod [m]) with m by (simpl; lia).
    assert (HWr : map_result (fun X => interp_cubic g (np_ravel X)) (map (fun v => as_input (cols v) v) Xs) = Ok Ws).
    { apply Forall2_map_result. clear -HF. induction HF as [|v W l l' H _ IH]; [constructor|].
      cbn [map]. constructor; auto. rewrite <- H. f_equal. unfold np_ravel, as_input, arr1, np_size.
      destruct (cols v); cbn [a_shape a_data nprod fold_right]; f_equal; simpl; f_equal; lia. }
    assert (HLr : map_result np_len (map (fun v => as_input (cols v) v) Xs) = Ok (map (@length R) Xs)).
    { clear. induction Xs as [|v Xs IH]; [reflexivity|]. cbn [map map_result]. rewrite IH.
      unfold as_input. destruct (cols v); reflexivity. }
    rewrite HLr, HWr. destruct Xs as [|v Xs]; [congruence|]. cbn [map].
    unfold as_input at 1 2. destruct (cols v); reflexivity. }
  rewrite Hmi. rewrite (assemble_rows m _ Ws Hne' Hlen) by (intros W HW; now apply Hwf).
  do 2 eexists. split; [reflexivity|]. split; [exact HF|].
  destruct (assemble_entries m _ Ws _ Hne' Hlen Hwf (assemble_rows m _ Ws Hne' Hlen (fun W HW => proj1 (Hwf W HW))))
    as [E1 [E2 [E3 E4]]].
  split; [exact E1|]. split; [rewrite E2, HL; reflexivity|]. split; [exact E3|].
  intros p i q j Hp Hi Hq Hj. rewrite <- firstn_map. apply E4; try lia.
  rewrite (nth_indep _ 0%nat (@length R [])) by (rewrite map_length; auto). now rewrite (map_nth (@length R)).
Qed.
Print Assumptions C17_multi_interpolant.

(** Two outputs, the first without points. *)
Example C17_ex : exists M, multi_interpolant
    (map (fun v => as_input true v) [[]; [3 / 2; 1]]) [arr1 (equispaced 4 0 1)] = Ok M /\
  c_r M = 2%nat /\ c_c M = 8%nat /\ csr_get M 1 (1 * 4 + 1) = 1.
Proof.
  destruct (C17_multi_interpolant 4 0 1 [[]; [3 / 2; 1]] (fun _ => true)) as [M [Ws [H1 [H2 [H3 [H4 [H5 H6]]]]]]];
    [lia|lra|discriminate|].
  exists M. split; [exact H1|]. split; [exact H3|]. split; [exact H4|].
  specialize (H6 1%nat 1%nat 1%nat 1%nat ltac:(simpl; lia) ltac:(simpl; lia) ltac:(simpl; lia) ltac:(lia)).
  simpl (nsum _ + _)%nat in H6. rewrite H6. cbn [Nat.eqb].
  pose proof (Forall2_nth _ _ _ [] (csr_zero 0 0) 1%nat H2 ltac:(simpl; lia)) as HW. cbn [nth] in HW.
  pose proof (interp_node _ 4 0 1 [3 / 2; 1] 1 1 (fun j => if Nat.eqb j 1 then 1 else 0) ltac:(lia) ltac:(lra) HW
    ltac:(simpl; lia) ltac:(lia)) as E.
  assert (Hv : vget [3 / 2; 1] 1 = 0 + INR 1 * 1) by (cbv -[Rmult Rplus IZR]; lra).
  specialize (E Hv). unfold interp_value in E.
  destruct (interp_cubic_any 4 0 1 [3 / 2; 1] ltac:(lia) ltac:(lra)) as [W' [HW' [_ [Hc _]]]].
  rewrite HW in HW'. apply Ok_inj in HW'. subst W'. rewrite Hc in E. cbn [Rsum Nat.eqb] in E. lra.
Qed.

Lemma interp_bicubic_any mx ax hx my ay hy n (data : vec) :
  (4 <= mx)%nat -> (4 <= my)%nat -> 0 < hx -> 0 < hy ->
  exists W, interp_bicubic (arr1 (equispaced mx ax hx)) (arr1 (equispaced my ay hy)) (mk_arr [n; 2%nat] data) = Ok W /\
    c_r W = n /\ c_c W = (mx * my)%nat /\ csr_wf W.
Proof.
  intros Hmx Hmy Hhx Hhy. destruct n as [|n].
  - exists (csr_zero 0 (mx * my)). split.
    + unfold interp_bicubic, np_size, arr1. cbn [a_shape Nat.eqb]. rewrite !equispaced_length. simpl. now rewrite !Nat.mul_1_r.
    + split; [reflexivity|]. split; [reflexivity|apply csr_zero_wf].
  - destruct (C16_bicubic mx ax hx my ay hy (S n) data) as [W [Wx [Wy [H1 [_ [_ [H2 [H3 [H4 _]]]]]]]]]; auto; [lia|].
    eauto.
Qed.

(** C17, two-dimensional inputs (each output given by its number of points and
    row-major data). *)
Theorem C17_multi_interpolant_2d :
  forall mx ax hx my ay hy (Xs : list (nat * vec)),
  (4 <= mx)%nat -> (4 <= my)%nat -> 0 < hx -> 0 < hy -> Xs <> [] ->
  let gx := arr1 (equispaced mx ax hx) in
  let gy := arr1 (equispaced my ay hy) in
  let arr (X : nat * vec) := mk_arr [fst X; 2%nat] (snd X) in
  exists M Ws,
    multi_interpolant (map arr Xs) [gx; gy] = Ok M /\
    Forall2 (fun X W => interp_bicubic gx gy (arr X) = Ok W) Xs Ws /\
    c_r M = nsum (map fst Xs) /\ c_c M = (length Xs * (mx * my))%nat /\ csr_wf M /\
    forall p i q j, (p < length Xs)%nat -> (i < fst (nth p Xs (0%nat, [])))%nat -> (q < length Xs)%nat -> (j < mx * my)%nat ->
      csr_get M (nsum (map fst (firstn p Xs)) + i) (q * (mx * my) + j) =
      if Nat.eqb p q then csr_get (nth p Ws (csr_zero 0 0)) i j else 0.
Proof.
  intros mx ax hx my ay hy Xs Hmx Hmy Hhx Hhy Hne gx gy arr.
  destruct (forall_exists_list (fun X W => interp_bicubic gx gy (arr X) = Ok W /\
      c_r W = fst X /\ c_c W = (mx * my)%nat /\ csr_wf W) Xs) as [Ws HWs].
  { intros X _. now apply interp_bicubic_any. }
  assert (HF : Forall2 (fun X W => interp_bicubic gx gy (arr X) = Ok W) Xs Ws).
  { clear -HWs. induction HWs; constructor; tauto. }
  assert (Hlen : map c_r Ws = map fst Xs).
  { clear -HWs. induction HWs as [|v W l l' H _ IH]; [reflexivity|]. simpl. rewrite IH. f_equal. tauto. }
  assert (Hwf : forall W, In W Ws -> csr_wf W /\ c_c W = (mx * my)%nat).
  { clear -HWs. induction HWs as [|v W l l' H _ IH]; intros V HV; [destruct HV|].
    destruct HV as [<-|HV]; [tauto|auto]. }
  pose proof (Forall2_len _ _ _ HWs) as HL.
  assert (Hne' : Ws <> []) by (destruct Ws; [destruct Xs; simpl in HL; [congruence|lia]|discriminate]).
  assert (Hmi : multi_interpolant (map arr Xs) [gx; gy] = assemble (mx * my) (map fst Xs) Ws).
  { unfold multi_interpolant. unfold gx at 1. unfold gy at 1. cbn [map_result np_len arr1 a_shape bind]. rewrite !equispaced_length.
    replace (nprod [mx; my]) with (mx * my)%nat by (simpl; lia).
    assert (HWr : map_result (interp_bicubic gx gy) (map arr Xs) = Ok Ws).
    { apply Forall2_map_result. clear -HF. induction HF as [|v W l l' H _ IH]; [constructor|].
      cbn [map]. constructor; auto. }
    assert (HLr : map_result np_len (map arr Xs) = Ok (map fst Xs)).
    { clear. induction Xs as [|v Xs IH]; [reflexivity|]. cbn [map map_result]. rewrite IH. reflexivity. }
    rewrite HLr, HWr. destruct Xs as [|v Xs]; [congruence|]. reflexivity. }
  rewrite Hmi. rewrite (assemble_rows _ _ Ws Hne' Hlen) by (intros W HW; now apply Hwf).
  do 2 eexists. split; [reflexivity|]. split; [exact HF|].
  destruct (assemble_entries _ _ Ws _ Hne' Hlen Hwf (assemble_rows _ _ Ws Hne' Hlen (fun W HW => proj1 (Hwf W HW))))
    as [E1 [E2 [E3 E4]]].
  split; [exact E1|]. split; [rewrite E2, HL; reflexivity|]. split; [exact E3|].
  intros p i q j Hp Hi Hq Hj. rewrite <- firstn_map. apply E4; try lia.
  rewrite (nth_indep _ 0%nat (fst (0%nat, @nil R))) by (rewrite map_length; auto). now rewrite (map_nth fst).
Qed.
Print Assumptions C17_multi_interpolant_2d.

(** The assembly loop on arbitrary well-formed blocks. *)
Theorem C17_assemble_blocks :
  forall m Ws, Ws <> [] -> (forall W, In W Ws -> csr_wf W /\ c_c W = m) ->
  exists M, assemble m (map c_r Ws) Ws = Ok M /\
    c_r M = nsum (map c_r Ws) /\ c_c M = (length Ws * m)%nat /\ csr_wf M /\ csr_nnz M = nsum (map csr_nnz Ws) /\
    forall p i q j, (p < length Ws)%nat -> (i < nth p (map c_r Ws) 0%nat)%nat -> (q < length Ws)%nat -> (j < m)%nat ->
      csr_get M (nsum (firstn p (map c_r Ws)) + i) (q * m + j) =
      if Nat.eqb p q then csr_get (nth p Ws (csr_zero 0 0)) i j else 0.
Proof.
  intros m Ws Hne Hwf.
  pose proof (assemble_rows m (map c_r Ws) Ws Hne eq_refl (fun W HW => proj1 (Hwf W HW))) as HA.
  exists (csr_from_rows (length Ws * m) (all_rows m 0 Ws)). split; [exact HA|].
  destruct (assemble_entries m _ Ws _ Hne eq_refl Hwf HA) as [E1 [E2 [E3 E4]]].
  split; [exact E1|]. split; [exact E2|]. split; [exact E3|]. split; [|exact E4].
  rewrite (wf_nnz _ E3). cbn [csr_from_rows c_indices]. rewrite map_length.
  clear -Hwf. generalize 0%nat as k. induction Ws as [|W Ws IH]; intros k; [reflexivity|].
  cbn [all_rows map]. rewrite concat_app, app_length, IH by (intros; apply Hwf; simpl; auto).
  change (nsum (csr_nnz W :: map csr_nnz Ws)) with (csr_nnz W + nsum (map csr_nnz Ws))%nat. f_equal.
  destruct (Hwf W (or_introl eq_refl)) as [HW _].
  rewrite <- nsum_concat, shift_lengths. now apply wf_rows_sum.
Qed.
Print Assumptions C17_assemble_blocks.

(** ** C18 *)

(** C18: an equispaced increasing grid of [k + 4] points in every dimension,
    where [k] is the requested size, with at least two grid points strictly on
    each side of every data point and outside the requested bounds.
    The hypothesis per dimension: two different values, of which the lower may
    be the requested [lo] and the upper the requested [hi]. *)
Theorem C18_autogrid :
  forall Xs P lo hi m,
  Xs <> [] -> (forall X, In X Xs -> exists n, a_shape X = [n; P] /\ (1 <= n)%nat) ->
  (forall l, lo = Some l \/ hi = Some l -> length l = P) ->
  (forall l, m = MList l \/ m = MArray l -> length l = P /\ forall k, In k l -> (1 <= k)%nat) ->
  (forall p, (p < P)%nat -> exists x y, x < y /\
      (data_at Xs P p x \/ exists l, lo = Some l /\ x = vget l p) /\
      (data_at Xs P p y \/ exists l, hi = Some l /\ y = vget l p)) ->
  exists grids m', autogrid Xs lo hi m = Ok (grids, m') /\ length grids = P /\
    forall p, (p < P)%nat -> exists a h k,
      k = (match m with
           | MNone => (nsum (map (fun X => hd 0%nat (a_shape X)) Xs) / length Xs)%nat
           | MList l | MArray l => nth p l 0%nat end) /\ (1 <= k)%nat /\
      0 < h /\ nth p grids [] = equispaced (k + 4) a h /\
      (forall x, data_at Xs P p x ->
         a + INR 1 * h < x < a + INR (k + 2) * h /\
         forall conv, In conv conv_window -> (0 <= np_floor ((x - a) / h) - conv < Z.of_nat (k + 4))%Z) /\
      (forall l, lo = Some l -> a + INR 1 * h < vget l p) /\
      (forall l, hi = Some l -> vget l p < a + INR (k + 2) * h).
Proof.
  intros Xs P lo hi m Hne Hsh Hb Hm Hnd.
  destruct (autogrid_spans Xs P lo hi m) as [grids [m' [HG [HL HV]]]]; auto.
  - destruct lo as [l|]; [|exact I]. apply Hb. auto.
  - destruct hi as [l|]; [|exact I]. apply Hb. auto.
  - destruct m as [|l|l]; [exact I|apply (Hm l); auto|apply (Hm l); auto].
  - intros l Hl. now apply (Hm l).
  - exists grids, m'. split; auto. split; auto. intros p Hp.
    destruct (HV p Hp) as [a [h [Hh [Hg [Hd [Hl Hr]]]]]].
    exists a, h, (cells Xs m p). split; [reflexivity|]. split.
    { unfold cells. destruct m as [|l|l].
      - replace (length Xs) with (length (map (fun X => hd 0%nat (a_shape X)) Xs)) by apply map_length.
        apply mean_ge_1; [destruct Xs; simpl; congruence|].
        intros x Hx. apply in_map_iff in Hx. destruct Hx as [X [<- HX]]. destruct (Hsh X HX) as [n [-> Hn]]. exact Hn.
      - destruct (Hm l (or_introl eq_refl)) as [H1 H2]. apply H2, nth_In. lia.
      - destruct (Hm l (or_intror eq_refl)) as [H1 H2]. apply H2, nth_In. lia. }
    split; [exact Hh|]. split; [exact Hg|]. change (INR 1) with 1. rewrite Rmult_1_l. split; [|split; auto].
    intros x Hx. split; [now apply Hd|]. intros conv Hc. apply no_clamp; auto.
Qed.
Print Assumptions C18_autogrid.

(** Two outputs in one dimension with data {0, 3} and {5}, no bounds. *)
Definition ag_ex : list ndarr := [mk_arr [2; 1]%nat [0; 3]; mk_arr [1; 1]%nat [5]].
Example C18_ex : ag_ex <> [] /\ (forall X, In X ag_ex -> exists n, a_shape X = [n; 1%nat] /\ (1 <= n)%nat) /\
  forall p, (p < 1)%nat -> exists x y, x < y /\
      (data_at ag_ex 1 p x \/ exists l, (None : option vec) = Some l /\ x = vget l p) /\
      (data_at ag_ex 1 p y \/ exists l, (None : option vec) = Some l /\ y = vget l p).
Proof.
  split; [discriminate|]. split.
  - intros X [<-|[<-|[]]]; eexists; (split; [reflexivity|lia]).
  - intros p Hp. replace p with 0%nat by lia. exists 0, 5. split; [lra|]. split; left.
    + exists (mk_arr [2; 1]%nat [0; 3]), 0%nat. split; [simpl; auto|]. split; [simpl; lia|reflexivity].
    + exists (mk_arr [1; 1]%nat [5]), 0%nat. split; [simpl; auto|]. split; [simpl; lia|reflexivity].
Qed.

(** Consequence: on a grid made by [autogrid], training inputs are
    interpolated exactly on quadratics. *)
Theorem C18_training_data_exact :
  forall (X : vec) lo hi m grids m' W c0 c1 c2 i,
  (exists x y, In x X /\ In y X /\ x < y) ->
  (forall l, lo = Some l \/ hi = Some l -> length l = 1%nat) ->
  (forall l, m = MList l \/ m = MArray l -> length l = 1%nat /\ forall k, In k l -> (1 <= k)%nat) ->
  autogrid [mk_arr [length X; 1%nat] X] lo hi m = Ok (grids, m') ->
  interp_cubic (arr1 (nth 0 grids [])) (arr1 X) = Ok W -> (i < length X)%nat ->
  let q x := c0 + c1 * x + c2 * (x * x) in
  vget (csr_dot1 W (map q (nth 0 grids []))) i = q (vget X i).
Proof.
  intros X lo hi m grids m' W c0 c1 c2 i [x [y [Hx [Hy Hxy]]]] Hb Hm HG HW Hi q.
  set (Xs := [mk_arr [length X; 1%nat] X]) in *.
  assert (Hdat : forall z, In z X -> data_at Xs 1 0 z).
  { intros z Hz. apply (In_nth _ _ 0) in Hz. destruct Hz as [k [Hk E]].
    exists (mk_arr [length X; 1%nat] X), k. split; [simpl; auto|]. split; [exact Hk|].
    cbn [a_data]. rewrite Nat.mul_1_r, Nat.add_0_r. symmetry. exact E. }
  destruct (C18_autogrid Xs 1 lo hi m) as [grids' [m'' [HG' [HL HV]]]]; auto.
  { discriminate. }
  { intros Z [<-|[]]. exists (length X). split; [reflexivity|]. lia. }
  { intros p Hp. replace p with 0%nat by lia. exists x, y. split; [exact Hxy|]. split; left; auto. }
  rewrite HG in HG'. apply Ok_inj in HG'. injection HG' as <- <-.
  destruct (HV 0%nat ltac:(lia)) as [a [h [k [_ [Hk [Hh [Hg [Hd _]]]]]]]].
  rewrite Hg in *. unfold q. apply (C14_exact_quadratics (k + 4) a h X W c0 c1 c2 i); auto; [lia|].
  destruct (Hd (vget X i)) as [[B1 B2] _].
  { apply Hdat. apply nth_In. exact Hi. }
  replace (k + 4 - 2)%nat with (k + 2)%nat by lia. change (INR 1) with 1 in B1. lra.
Qed.
Print Assumptions C18_training_data_exact.

Example C18_training_ex : exists grids m' W,
  autogrid [mk_arr [length [0; 3]; 1%nat] [0; 3]] None None (MList [2%nat]) = Ok (grids, m') /\
  interp_cubic (arr1 (nth 0 grids [])) (arr1 [0; 3]) = Ok W /\ (exists x y, In x [0; 3] /\ In y [0; 3] /\ x < y).
Proof.
  assert (HA : exists grids m', autogrid [mk_arr [length [0; 3]; 1%nat] [0; 3]] None None (MList [2%nat]) = Ok (grids, m') /\
    (4 <= length (nth 0 grids []))%nat).
  { do 2 eexists. split; [reflexivity|]. simpl. lia. }
  destruct HA as [grids [m' [HA HL]]].
  destruct (interp_cubic_ok (nth 0 grids []) [0; 3] HL) as [W [HW _]]; [discriminate|].
  exists grids, m', W. split; [exact HA|]. split; [exact HW|].
  exists 0, 3. simpl. repeat split; auto. lra.
Qed.

(** Without two different values the grid collapses to a point, so the claim
    that the defaults always leave two elements on both sides fails. *)
Theorem C18_constant_data_refuted :
  exists X grids m', autogrid [mk_arr [2; 1]%nat X] None None MNone = Ok (grids, m') /\
    length X = 2%nat /\ forall i, (i < 6)%nat -> vget (nth 0 grids []) i = vget X 0.
Proof.
  set (Xs := [mk_arr [2; 1]%nat [7; 7]]).
  destruct (autogrid_value Xs 1 None None MNone) as [grids [m' [HG [_ [_ HV]]]]].
  { discriminate. }
  { intros X [<-|[]]. exists 2%nat. split; [reflexivity|lia]. }
  1-3: exact I.
  exists [7; 7], grids, m'. split; [exact HG|]. split; [reflexivity|].
  specialize (HV 0%nat ltac:(lia)). cbv zeta in HV.
  assert (Emin : lo_of Xs 1 0 = 7).
  { cbv [lo_of Xs np_min map arr_col a_shape a_data hd tl fold_left tab seq vget nth Nat.add Nat.mul]. apply Rmin_left. lra. }
  assert (Emax : hi_of Xs 1 0 = 7).
  { cbv [hi_of Xs np_max map arr_col a_shape a_data hd tl fold_left tab seq vget nth Nat.add Nat.mul]. apply Rmax_left. lra. }
  rewrite Emin, Emax in HV. change (cells Xs MNone 0 + 4)%nat with 6%nat in HV.
  intros i Hi. change (vget [7; 7] 0) with 7. rewrite HV. unfold np_linspace. rewrite vget_tab by auto. cbn [Nat.eqb].
  replace (7 - 7) with 0 by ring. unfold Rdiv. rewrite !Rmult_0_l, !Rmult_0_r.
  replace (7 + 0 - (7 - 0)) with 0 by ring. rewrite Rmult_0_l. ring.
Qed.
Print Assumptions C18_constant_data_refuted.

(** ** C19 *)

(** C19, positive part: with [m] absent or a Python list, the call leaves [m]
    as it was, so a second call returns the same grids.  [Xs], [lo] and [hi]
    are never written by the function. *)
Theorem C19_arguments_kept_partial :
  forall Xs lo hi m grids m', (forall l, m <> MArray l) ->
  autogrid Xs lo hi m = Ok (grids, m') ->
  m' = m /\ autogrid Xs lo hi m' = Ok (grids, m').
Proof.
  intros Xs lo hi m grids m' Hm H.
  assert (E : m' = m).
  { unfold autogrid in H. destruct Xs as [|X0 Xs]; [discriminate|]. destruct (a_shape X0) as [|n [|P s]]; try discriminate.
    repeat match type of H with (if ?b then _ else _) = _ => destruct b; [discriminate|] end.
    apply Ok_inj in H. injection H as _ <-. destruct m; auto. exfalso. now apply (Hm l). }
  subst m'. auto.
Qed.
Print Assumptions C19_arguments_kept_partial.

Example C19_ex : exists grids, autogrid ag_ex None None (MList [3%nat]) = Ok (grids, MList [3%nat]) /\
  (forall l, MList [3%nat] <> MArray l) /\ length (nth 0 grids []) = 7%nat.
Proof. eexists. split; [reflexivity|]. split; [discriminate|reflexivity]. Qed.

(** C19 fails for a numpy array [m]: [np.asarray] returns the caller's array
    and [m += 4] writes to it, so the second identical call returns a
    different, finer grid. *)
Theorem C19_array_m_refuted :
  exists Xs m grids1 m1 grids2 m2,
    autogrid Xs None None (MArray m) = Ok (grids1, MArray m1) /\ m1 <> m /\
    autogrid Xs None None (MArray m1) = Ok (grids2, MArray m2) /\
    length (nth 0 grids1 []) <> length (nth 0 grids2 []).
Proof.
  exists ag_ex, [3%nat]. do 4 eexists. split; [reflexivity|]. split; [simpl; discriminate|].
  split; [reflexivity|]. simpl. discriminate.
Qed.
Print Assumptions C19_array_m_refuted.

(** ** C20 *)

(** C20, the checks that are made: wrong dimensions or fewer than four grid
    points, provided there are samples. *)
Theorem C20_rejects_partial :
  forall grid samples, a_shape grid <> [] -> (0 < np_size samples)%nat ->
  length (a_shape grid) <> 1%nat \/ length (a_shape samples) <> 1%nat \/ (hd 0 (a_shape grid) < 4)%nat ->
  interp_cubic grid samples = Err ValueError.
Proof.
  intros grid samples Hg Hn H. unfold interp_cubic, np_len.
  destruct (a_shape grid) as [|size rest] eqn:Eg; [congruence|]. cbn [bind].
  destruct (Nat.eqb_spec (np_size samples) 0); [lia|].
  destruct (Nat.eqb_spec (length (size :: rest)) 1); [|reflexivity]. cbn [negb].
  destruct (Nat.eqb_spec (length (a_shape samples)) 1); [|reflexivity]. cbn [negb].
  destruct (Nat.ltb_spec size 4); [reflexivity|]. cbn [hd] in H. lia.
Qed.
Print Assumptions C20_rejects_partial.

Example C20_ex : interp_cubic (mk_arr [3%nat] [0; 1; 2]) (arr1 [1]) = Err ValueError /\
  interp_cubic (mk_arr [4%nat] [0; 1; 2; 3]) (mk_arr [1; 1]%nat [1]) = Err ValueError.
Proof. split; reflexivity. Qed.

(** C20 fails for grids that are not equispaced: the one with points 0, 1, 5, 6
    is accepted, and the identity function is not reproduced at the grid point 5. *)
Theorem C20_not_equispaced_refuted :
  exists (g s : vec) W, (4 <= length g)%nat /\
    (~ exists a h, g = equispaced (length g) a h) /\
    interp_cubic (arr1 g) (arr1 s) = Ok W /\
    In (vget s 0) g /\ interp_value W 0 (vget g) <> vget s 0.
Proof.
  destruct (interp_cubic_ok [0; 1; 5; 6] [5]) as [W [HW Hok]]; [simpl; lia|discriminate|].
  exists [0; 1; 5; 6], [5], W. split; [simpl; lia|]. split.
  { intros [a [h E]]. assert (E0 := f_equal (fun l => vget l 0) E). assert (E1 := f_equal (fun l => vget l 1) E).
    assert (E2 := f_equal (fun l => vget l 2) E). cbv -[Rmult Rplus IZR] in E0, E1, E2. lra. }
  split; [exact HW|]. split; [simpl; auto|].
  rewrite (interp_ok_dot _ _ _ _ 0 (vget [0; 1; 5; 6]) Hok) by (simpl; lia). cbv zeta.
  rewrite factor_get by (simpl; lia). change (vget [5] 0) with 5. change (vget [0; 1; 5; 6] 0) with 0.
  change (vget [0; 1; 5; 6] 1) with 1. replace ((5 - 0) / (1 - 0)) with 5 by field.
  rewrite (floor_unique 5 5) by lra. replace (5 - 5) with 0 by ring.
  cbn [conv_window map lsum fold_right]. rewrite wgt_m2, wgt_m1, wgt_0, wgt_1 by lra.
  cbv -[Rmult Rplus Rminus Rdiv Ropp IZR not]. lra.
Qed.
Print Assumptions C20_not_equispaced_refuted.

(** C20 also fails without samples: every check is skipped. *)
Theorem C20_empty_samples_refuted :
  exists grid samples W, length (a_shape samples) <> 1%nat /\ length (a_shape grid) <> 1%nat /\
    (hd 0 (a_shape grid) < 4)%nat /\ interp_cubic grid samples = Ok W.
Proof.
  exists (mk_arr [2; 2]%nat [0; 1; 0; 1]), (mk_arr [0; 2]%nat []). eexists. simpl.
  split; [lia|]. split; [lia|]. split; [lia|]. reflexivity.
Qed.
Print Assumptions C20_empty_samples_refuted.
