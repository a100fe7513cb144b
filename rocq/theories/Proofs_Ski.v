(** The accuracy of structured kernel interpolation. *)

From Coq Require Import Reals List Arith ZArith Lia Lra.
From Coquelicot Require Import Coquelicot.
From Verif Require Import Base NDArray PSD Model_Util Proofs_Util Spec_Util Model_Linalg Spec_Linalg Proofs_Linalg Model_Interp Spec_Interp
  Proofs_Sparse Proofs_Interp Proofs_Interp2 Properties_Interp Model_Kern Spec_Kern Proofs_Kern Model_FK Spec_FK Proofs_FK Model_Grid Spec_Grid Proofs_Grid
  Proofs_Grid2 Model_Lik Spec_Lik Proofs_Lik Proofs_Lik2 Proofs_Lik6 Proofs_Lik7 Spec_GP Proofs_Gen Proofs_Gen2 Model_GP Spec_Pred Proofs_Pred2 Spec_Ski.
Import ListNotations.
Open Scope R_scope.

(** ** Taylor's formula with a Lipschitz second derivative *)

Lemma lip_right_upper (f f1 f2 : R -> R) x y B : x <= y ->
  (forall z, is_derive f z (f1 z) /\ is_derive f1 z (f2 z)) -> (forall z, x <= z -> f2 z <= f2 x + B * (z - x)) ->
  f y <= f x + f1 x * (y - x) + f2 x * ((y - x) * (y - x)) / 2 + B * ((y - x) * (y - x) * (y - x)) / 6.
Proof.
  intros Hxy Hs A2.
  assert (A1 : forall z, x <= z <= y -> f1 z <= f1 x + f2 x * (z - x) + B * ((z - x) * (z - x)) / 2).
  { intros z Hz. pose proof (mono_ge (fun u => f1 x + f2 x * (u - x) + B * ((u - x) * (u - x)) / 2 - f1 u)
       (fun u => f2 x + B * (u - x) - f2 u) x z) as M. cbv beta in M.
    assert (f1 x + f2 x * (x - x) + B * ((x - x) * (x - x)) / 2 - f1 x <=
            f1 x + f2 x * (z - x) + B * ((z - x) * (z - x)) / 2 - f1 z); [|lra].
    apply M; [lra| |].
    - intros u Hu. destruct (Hs u) as [_ D]. pose proof (is_derive_unique f1 u _ D) as Du.
      auto_derive; [exists (f2 u); exact D|]. change (Derive (fun x0 => f1 x0) u) with (Derive f1 u); rewrite Du; field.
    - intros u Hu. specialize (A2 u). lra. }
  pose proof (mono_ge (fun u => f x + f1 x * (u - x) + f2 x * ((u - x) * (u - x)) / 2 + B * ((u - x) * (u - x) * (u - x)) / 6 - f u)
       (fun u => f1 x + f2 x * (u - x) + B * ((u - x) * (u - x)) / 2 - f1 u) x y) as M. cbv beta in M.
  assert (f x + f1 x * (x - x) + f2 x * ((x - x) * (x - x)) / 2 + B * ((x - x) * (x - x) * (x - x)) / 6 - f x <=
          f x + f1 x * (y - x) + f2 x * ((y - x) * (y - x)) / 2 + B * ((y - x) * (y - x) * (y - x)) / 6 - f y); [|lra].
  apply M; [lra| |].
  - intros u Hu. destruct (Hs u) as [D _]. pose proof (is_derive_unique f u _ D) as Du.
    auto_derive; [exists (f1 u); exact D|]. change (Derive (fun x0 => f x0) u) with (Derive f u); rewrite Du; field.
  - intros u Hu. specialize (A1 u). lra.
Qed.

Lemma derive_opp (f : R -> R) (z d : R) : is_derive f z d -> is_derive (fun u => - f u) z (- d).
Proof. intros H. apply (is_derive_opp f z d H). Qed.

Definition lipd (f f1 f2 : R -> R) (B : R) : Prop :=
  (forall t, is_derive f t (f1 t) /\ is_derive f1 t (f2 t)) /\ forall t u, Rabs (f2 t - f2 u) <= B * Rabs (t - u).

Lemma lipd_opp f f1 f2 B : lipd f f1 f2 B -> lipd (fun t => - f t) (fun t => - f1 t) (fun t => - f2 t) B.
Proof.
  intros [D L]. split; [intros t; destruct (D t); split; now apply derive_opp|]. intros t u.
  replace (- f2 t - - f2 u) with (- (f2 t - f2 u)) by ring. rewrite Rabs_Ropp. apply L.
Qed.

Lemma lipd_affine f f1 f2 B c s : (s = 1 \/ s = -1) -> lipd f f1 f2 B -> lipd (fun t => f (s * t + c)) (fun t => s * f1 (s * t + c)) (fun t => f2 (s * t + c)) B.
Proof.
  intros Hs [D L].
  assert (C : forall (g : R -> R) (t d : R), is_derive g (s * t + c) d -> is_derive (fun u => g (s * u + c)) t (s * d)).
  { intros g t d H. assert (E : is_derive (fun u => s * u + c) t s) by (auto_derive; [trivial|ring]).
    pose proof (is_derive_comp g (fun u => s * u + c) t d s H E) as X. exact X. }
  split.
  - intros t. destruct (D (s * t + c)) as [D1 D2]. split; [now apply C|].
    assert (E : f2 (s * t + c) = s * (s * f2 (s * t + c))) by (destruct Hs as [-> | ->]; ring). rewrite E.
    apply (is_derive_scal (fun u => f1 (s * u + c)) t s (s * f2 (s * t + c))). now apply C.
  - intros t u. eapply Rle_trans; [apply L|]. right. f_equal.
    destruct Hs as [-> | ->]; [f_equal; ring|]. replace (-1 * t + c - (-1 * u + c)) with (- (t - u)) by ring. apply Rabs_Ropp.
Qed.

Lemma lip_right f f1 f2 x y B : x <= y -> lipd f f1 f2 B ->
  Rabs (f y - (f x + f1 x * (y - x) + f2 x * ((y - x) * (y - x)) / 2)) <= B / 6 * ((y - x) * (y - x) * (y - x)).
Proof.
  intros Hxy H. assert (K : forall g g1 g2, lipd g g1 g2 B -> forall z, x <= z -> g2 z <= g2 x + B * (z - x)).
  { intros g g1 g2 [_ L] z Hz. specialize (L z x). rewrite (Rabs_right (z - x)) in L by lra. pose proof (Rle_abs (g2 z - g2 x)). lra. }
  pose proof (lip_right_upper f f1 f2 x y B Hxy (proj1 H) (K f f1 f2 H)) as U.
  pose proof (lipd_opp _ _ _ _ H) as H'. pose proof (lip_right_upper _ _ _ x y B Hxy (proj1 H') (K _ _ _ H')) as U'. cbv beta in U'.
  apply Rabs_le. split; lra.
Qed.

Lemma taylor_lip f f1 f2 x y B : lipd f f1 f2 B ->
  Rabs (f y - (f x + f1 x * (y - x) + f2 x * ((y - x) * (y - x)) / 2)) <= B / 6 * (Rabs (y - x) * Rabs (y - x) * Rabs (y - x)).
Proof.
  intros H. destruct (Rle_dec x y) as [L|L].
  - rewrite (Rabs_right (y - x)) by lra. now apply lip_right.
  - pose proof (lip_right _ _ _ (- x) (- y) B ltac:(lra) (lipd_affine _ _ _ _ 0 (-1) (or_intror eq_refl) H)) as T. cbv beta in T.
    replace (-1 * - y + 0) with y in T by ring. replace (-1 * - x + 0) with x in T by ring.
    rewrite (Rabs_left (y - x)) by lra.
    replace (f y - (f x + f1 x * (y - x) + f2 x * ((y - x) * (y - x)) / 2)) with (f y - (f x + -1 * f1 x * (- y - - x) + f2 x * ((- y - - x) * (- y - - x)) / 2)) by field.
    eapply Rle_trans; [exact T|]. right. ring.
Qed.

(** ** Interpolation along one axis *)

Definition lam (t : nat * R * R) (x : R) (phi : R -> R) : R :=
  Rsum (fst (fst t)) (fun j => w1 t x j * phi (snd (fst t) + INR j * snd t)).

Definition within (t : nat * R * R) (x : R) : Prop := snd (fst t) + snd t <= x <= snd (fst t) + INR (fst (fst t) - 2) * snd t.

Lemma lam_window t x phi : axis_ok t -> within t x ->
  exists s, 0 <= s < 1 /\ lam t x phi = lsum (map (fun conv => wgt s conv * phi (x + (IZR (- conv) - s) * snd t)) conv_window).
Proof.
  destruct t as [[m a] h]. intros [Hm Hh] Hx. unfold within in Hx. cbn [fst snd] in *.
  destruct (C13_interp_rows m a h [x] Hm Hh) as [W [HW [_ [Hc _]]]]; [discriminate|].
  destruct (interp_interior W m a h [x] 0 phi Hm Hh HW ltac:(cbn; lia) Hx) as [s [Hs [_ E]]]. exists s. split; [exact Hs|].
  change (vget [x] 0) with x in E. rewrite <- E. unfold lam, interp_value. cbn [fst snd]. rewrite Hc. apply Rsum_ext. intros j Hj. f_equal.
  symmetry. apply (interp_w1 W m a h [x] 0 j Hm Hh HW); [cbn; lia|exact Hj].
Qed.

Lemma lam_ext t x phi psi : (forall r, phi r = psi r) -> lam t x phi = lam t x psi.
Proof. intros H. apply Rsum_ext. intros j _. now rewrite H. Qed.

Lemma lam_minus t x phi psi : lam t x (fun r => phi r - psi r) = lam t x phi - lam t x psi.
Proof. unfold lam. rewrite <- Rsum_minus. apply Rsum_ext. intros. ring. Qed.

Lemma wgt_abs t : 0 <= t < 1 -> lsum (map (fun conv => Rabs (wgt t conv)) conv_window) <= 5 / 4.
Proof.
  intros H. cbn [conv_window map lsum fold_right]. rewrite wgt_m2, wgt_m1, wgt_0, wgt_1 by auto.
  assert (P : 0 <= t * (1 - t) <= 1 / 4) by (split; [nra|pose proof (Rle_0_sqr (t - 1 / 2)); unfold Rsqr in *; lra]).
  assert (V : forall u, 0 <= u <= 1 -> 0 <= 3 / 2 * u * u * u - 5 / 2 * u * u + 1).
  { intros u Hu. replace (3 / 2 * u * u * u - 5 / 2 * u * u + 1) with ((1 - u) * (1 + u * (1 - 3 / 2 * u))) by field.
    apply Rmult_le_pos; [lra|]. pose proof (Rle_0_sqr (u - 1 / 3)); unfold Rsqr in *; nra. }
  rewrite (Rabs_right (3 / 2 * (1 - t) * (1 - t) * (1 - t) - 5 / 2 * (1 - t) * (1 - t) + 1)) by (apply Rle_ge, V; lra).
  rewrite (Rabs_right (3 / 2 * t * t * t - 5 / 2 * t * t + 1)) by (apply Rle_ge, V; lra).
  rewrite (Rabs_left1 (- (1 / 2) * (1 - t) * (t * t))).
  2:{ replace (- (1 / 2) * (1 - t) * (t * t)) with (- (1 / 2 * (t * (1 - t)) * t)) by ring. nra. }
  rewrite (Rabs_left1 (- (1 / 2) * t * ((1 - t) * (1 - t)))).
  2:{ replace (- (1 / 2) * t * ((1 - t) * (1 - t))) with (- (1 / 2 * (t * (1 - t)) * (1 - t))) by ring. nra. }
  unfold lsum. cbn [fold_right]. nra.
Qed.

Lemma lam_bound t x phi e : axis_ok t -> within t x -> (forall r, Rabs (phi r) <= e) -> Rabs (lam t x phi) <= 5 / 4 * e.
Proof.
  intros Ht Hx He. destruct (lam_window t x phi Ht Hx) as [s [Hs ->]]. eapply Rle_trans; [apply lsum_abs_le|].
  eapply Rle_trans; [apply (lsum_le _ (fun conv => e * Rabs (wgt s conv)))|].
  - intros conv _. rewrite Rabs_mult, Rmult_comm. apply Rmult_le_compat_r; [apply Rabs_pos|apply He].
  - rewrite lsum_scal, Rmult_comm. apply Rmult_le_compat_r; [|now apply wgt_abs]. eapply Rle_trans; [apply Rabs_pos|apply (He 0)].
Qed.

Lemma lip_nonneg f f1 f2 B : lipd f f1 f2 B -> 0 <= B.
Proof. intros [_ L]. specialize (L 1 0). rewrite Rminus_0_r, Rabs_R1, Rmult_1_r in L. eapply Rle_trans; [apply Rabs_pos|exact L]. Qed.

Lemma lam_err t x phi B : axis_ok t -> within t x -> lip2 phi B -> Rabs (lam t x phi - phi x) <= B / 2 * snd t ^ 3.
Proof.
  intros Ht Hx [f1 [f2 HL]]. change (lipd phi f1 f2 B) in HL. destruct (lam_window t x phi Ht Hx) as [s [Hs ->]]. set (h := snd t).
  assert (Hh : 0 < h) by apply Ht. pose proof (lip_nonneg _ _ _ _ HL) as B0.
  set (P := fun conv => wgt s conv * (phi x + f1 x * h * (IZR (- conv) - s) + f2 x * (h * h) / 2 * ((IZR (- conv) - s) * (IZR (- conv) - s)))).
  assert (HP : lsum (map P conv_window) = phi x) by (apply wgt_moments; auto).
  rewrite <- HP. rewrite lsum_minus. eapply Rle_trans; [apply lsum_abs_le|].
  eapply Rle_trans; [apply (lsum_le _ (fun conv => B / 6 * (h * h * h) *
    (Rabs (wgt s conv) * (Rabs (IZR (- conv) - s) * Rabs (IZR (- conv) - s) * Rabs (IZR (- conv) - s)))))|].
  - intros conv Hc. unfold P. rewrite <- Rmult_minus_distr_l, Rabs_mult.
    pose proof (taylor_lip phi f1 f2 x (x + (IZR (- conv) - s) * h) B HL) as T.
    replace (x + (IZR (- conv) - s) * h - x) with ((IZR (- conv) - s) * h) in T by ring.
    rewrite Rabs_mult, (Rabs_right h) in T by lra.
    replace (B / 6 * (h * h * h) * (Rabs (wgt s conv) * (Rabs (IZR (- conv) - s) * Rabs (IZR (- conv) - s) * Rabs (IZR (- conv) - s))))
      with (Rabs (wgt s conv) * (B / 6 * (Rabs (IZR (- conv) - s) * h * (Rabs (IZR (- conv) - s) * h) * (Rabs (IZR (- conv) - s) * h)))) by ring.
    apply Rmult_le_compat_l; [apply Rabs_pos|].
    replace (phi x + f1 x * h * (IZR (- conv) - s) + f2 x * (h * h) / 2 * ((IZR (- conv) - s) * (IZR (- conv) - s)))
      with (phi x + f1 x * ((IZR (- conv) - s) * h) + f2 x * ((IZR (- conv) - s) * h * ((IZR (- conv) - s) * h)) / 2) by field.
    exact T.
  - rewrite lsum_scal. pose proof (weight_moment3 s Hs).
    assert (0 <= B / 6 * (h * h * h)) by (apply Rmult_le_pos; [lra|nra]). nra.
Qed.

Lemma lip2_shift phi B c s : (s = 1 \/ s = -1) -> lip2 phi B -> lip2 (fun t => phi (s * t + c)) B.
Proof. intros Hs [f1 [f2 H]]. eexists _, _. exact (lipd_affine phi f1 f2 B c s Hs H). Qed.

Lemma lip2_ext phi psi B : (forall t, phi t = psi t) -> lip2 phi B -> lip2 psi B.
Proof.
  intros E [f1 [f2 [D L]]]. exists f1, f2. split; [|exact L]. intros t. destruct (D t) as [D1 D2]. split; [|exact D2].
  apply (is_derive_ext phi); assumption.
Qed.

(** ** Covariances interpolated along one axis or two *)

Lemma lam_abs_diff t x phi psi e : axis_ok t -> within t x -> (forall r, Rabs (phi r - psi r) <= e) -> Rabs (lam t x phi - lam t x psi) <= 5 / 4 * e.
Proof. intros Ht Hx H. rewrite <- lam_minus. now apply lam_bound. Qed.

Lemma Rabs_chain a b c : Rabs (a - c) <= Rabs (a - b) + Rabs (b - c).
Proof. replace (a - c) with ((a - b) + (b - c)) by ring. apply Rabs_triang. Qed.

Lemma ski1_err t x z h B : axis_ok t -> within t x -> within t z -> smooth_fn h 1 B ->
  Rabs (lam t x (fun r => lam t z (fun s => h (sqrt ((r - s) ^ 2)))) - h (sqrt ((x - z) ^ 2))) <= 2 * B * snd t ^ 3.
Proof.
  intros Ht Hx Hz Hk. specialize (Hk 0 (Rle_refl 0) (fun _ => eq_refl)). set (phi := fun t => h (sqrt (t ^ 2 + 0))) in Hk.
  assert (L1 : forall r, lip2 (fun s => h (sqrt ((r - s) ^ 2))) B).
  { intros r. apply (lip2_ext (fun s => phi (-1 * s + r))); [intros s; unfold phi; do 2 f_equal; ring|apply lip2_shift; auto]. }
  assert (L2 : lip2 (fun r => h (sqrt ((r - z) ^ 2))) B).
  { apply (lip2_ext (fun s => phi (1 * s + - z))); [intros s; unfold phi; do 2 f_equal; ring|apply lip2_shift; auto]. }
  assert (B0 : 0 <= B) by (destruct L2 as [f1 [f2 H]]; exact (lip_nonneg _ _ _ _ H)).
  assert (Hh : 0 < snd t ^ 3) by (apply pow_lt, Ht).
  eapply Rle_trans; [apply (Rabs_chain _ (lam t x (fun r => h (sqrt ((r - z) ^ 2)))))|].
  pose proof (lam_abs_diff t x (fun r => lam t z (fun s => h (sqrt ((r - s) ^ 2)))) (fun r => h (sqrt ((r - z) ^ 2))) _ Ht Hx
    (fun r => lam_err t z _ B Ht Hz (L1 r))) as E1.
  pose proof (lam_err t x _ B Ht Hx L2) as E2. assert (0 <= B * snd t ^ 3) by (apply Rmult_le_pos; lra). cbv beta in *. lra.
Qed.

Lemma ski2_err t t' x x' z z' h B : axis_ok t -> axis_ok t' -> within t x -> within t' x' -> within t z -> within t' z' -> smooth_fn h 2 B ->
  Rabs (lam t x (fun r => lam t' x' (fun r' => lam t z (fun s => lam t' z' (fun s' => h (sqrt ((r - s) ^ 2 + (r' - s') ^ 2))))))
        - h (sqrt ((x - z) ^ 2 + (x' - z') ^ 2))) <= 2 * B * (snd t ^ 3 + snd t' ^ 3).
Proof.
  intros Ht Ht' Hx Hx' Hz Hz' Hk. set (Phi := fun a b => h (sqrt (a ^ 2 + b ^ 2))).
  assert (LA : forall b s c, (s = 1 \/ s = -1) -> lip2 (fun a => Phi (s * a + c) b) B).
  { intros b s c Hs. apply (lip2_shift (fun a => h (sqrt (a ^ 2 + b ^ 2))) B c s Hs). apply Hk; [apply pow2_ge_0|lia]. }
  assert (LB : forall a s c, (s = 1 \/ s = -1) -> lip2 (fun b => Phi a (s * b + c)) B).
  { intros a s c Hs. apply (lip2_ext (fun b => (fun u => h (sqrt (u ^ 2 + a ^ 2))) (s * b + c))).
    - intros b. unfold Phi. do 2 f_equal. ring.
    - apply (lip2_shift (fun u => h (sqrt (u ^ 2 + a ^ 2))) B c s Hs). apply Hk; [apply pow2_ge_0|lia]. }
  assert (B0 : 0 <= B) by (destruct (LA 0 1 0 (or_introl eq_refl)) as [f1 [f2 H]]; exact (lip_nonneg _ _ _ _ H)).
  assert (Hh : 0 < snd t ^ 3) by (apply pow_lt, Ht). assert (Hh' : 0 < snd t' ^ 3) by (apply pow_lt, Ht').
  set (e := B / 2 * snd t ^ 3). set (e' := B / 2 * snd t' ^ 3).
  assert (S1 : forall r r' s, Rabs (lam t' z' (fun s' => Phi (r - s) (r' - s')) - Phi (r - s) (r' - z')) <= e').
  { intros r r' s. apply (lam_err t' z' (fun s' => Phi (r - s) (r' - s')) B Ht' Hz').
    apply (lip2_ext (fun s' => Phi (r - s) (-1 * s' + r'))); [intros; f_equal; ring|apply LB; auto]. }
  assert (S2 : forall r r', Rabs (lam t z (fun s => Phi (r - s) (r' - z')) - Phi (r - z) (r' - z')) <= e).
  { intros r r'. apply (lam_err t z (fun s => Phi (r - s) (r' - z')) B Ht Hz).
    apply (lip2_ext (fun s => Phi (-1 * s + r) (r' - z'))); [intros; f_equal; ring|apply LA; auto]. }
  assert (S3 : forall r, Rabs (lam t' x' (fun r' => Phi (r - z) (r' - z')) - Phi (r - z) (x' - z')) <= e').
  { intros r. apply (lam_err t' x' (fun r' => Phi (r - z) (r' - z')) B Ht' Hx').
    apply (lip2_ext (fun r' => Phi (r - z) (1 * r' + - z'))); [intros; f_equal; ring|apply LB; auto]. }
  assert (S4 : Rabs (lam t x (fun r => Phi (r - z) (x' - z')) - Phi (x - z) (x' - z')) <= e).
  { apply (lam_err t x (fun r => Phi (r - z) (x' - z')) B Ht Hx).
    apply (lip2_ext (fun r => Phi (1 * r + - z) (x' - z'))); [intros; f_equal; ring|apply LA; auto]. }
  assert (T1 : forall r r', Rabs (lam t z (fun s => lam t' z' (fun s' => Phi (r - s) (r' - s'))) - Phi (r - z) (r' - z')) <= 5 / 4 * e' + e).
  { intros r r'. eapply Rle_trans; [apply (Rabs_chain _ (lam t z (fun s => Phi (r - s) (r' - z'))))|]. apply Rplus_le_compat; [|apply S2].
    apply (lam_abs_diff t z (fun s => lam t' z' (fun s' => Phi (r - s) (r' - s'))) (fun s => Phi (r - s) (r' - z')) e' Ht Hz). intros s. apply S1. }
  assert (T2 : forall r, Rabs (lam t' x' (fun r' => lam t z (fun s => lam t' z' (fun s' => Phi (r - s) (r' - s')))) - Phi (r - z) (x' - z')) <= 5 / 4 * (5 / 4 * e' + e) + e').
  { intros r. eapply Rle_trans; [apply (Rabs_chain _ (lam t' x' (fun r' => Phi (r - z) (r' - z'))))|]. apply Rplus_le_compat; [|apply S3].
    apply (lam_abs_diff t' x' (fun r' => lam t z (fun s => lam t' z' (fun s' => Phi (r - s) (r' - s')))) (fun r' => Phi (r - z) (r' - z')) _ Ht' Hx'). intros r'. apply T1. }
  eapply Rle_trans; [apply (Rabs_chain _ (lam t x (fun r => Phi (r - z) (x' - z'))))|].
  pose proof (lam_abs_diff t x (fun r => lam t' x' (fun r' => lam t z (fun s => lam t' z' (fun s' => Phi (r - s) (r' - s'))))) (fun r => Phi (r - z) (x' - z')) _ Ht Hx T2) as E.
  assert (0 <= B * snd t ^ 3) by (apply Rmult_le_pos; lra). assert (0 <= B * snd t' ^ 3) by (apply Rmult_le_pos; lra).
  change (Rabs (lam t x (fun r => lam t' x' (fun r' => lam t z (fun s => lam t' z' (fun s' => Phi (r - s) (r' - s'))))) - lam t x (fun r => Phi (r - z) (x' - z'))) +
    Rabs (lam t x (fun r => Phi (r - z) (x' - z')) - Phi (x - z) (x' - z')) <= 2 * B * (snd t ^ 3 + snd t' ^ 3)).
  unfold e, e' in *. lra.
Qed.

(** ** Sums over the points of a grid *)

Lemma lam_grid1 t x (F : R -> R) :
  Rsum (axes_points [t]) (fun u => wN [t] x u * F (grid_pt (axes_of [t]) u 0)) = lam t (x 0%nat) F.
Proof.
  unfold lam. replace (axes_points [t]) with (fst (fst t)) by (unfold axes_points; cbn; lia).
  apply Rsum_ext. intros u Hu. rewrite grid_pt_coord by (unfold axes_points; cbn; lia). cbv zeta. cbn [nth map unravel nprod fold_right].
  now rewrite Nat.div_1_r.
Qed.

Lemma lam_grid2 t t' x (F : R -> R -> R) :
  Rsum (axes_points [t; t']) (fun u => wN [t; t'] x u * F (grid_pt (axes_of [t; t']) u 0) (grid_pt (axes_of [t; t']) u 1))
  = lam t (x 0%nat) (fun r => lam t' (x 1%nat) (fun r' => F r r')).
Proof.
  assert (EP : axes_points [t; t'] = (fst (fst t) * fst (fst t'))%nat) by (unfold axes_points; cbn; lia). rewrite EP, Rsum_flatten.
  unfold lam. apply Rsum_ext. intros j Hj. rewrite <- Rsum_scal_l. apply Rsum_ext. intros b Hb.
  assert (Hu : (j * fst (fst t') + b < axes_points [t; t'])%nat) by (rewrite EP; nia).
  rewrite !grid_pt_coord by (try exact Hu; cbn; lia). cbv zeta. cbn [nth map unravel nprod fold_right wN].
  rewrite Nat.mul_1_r, Nat.div_1_r, !div_block, !mod_block by exact Hb. ring.
Qed.

Lemma euclid1 x z : euclid 1 x z = sqrt ((x 0%nat - z 0%nat) ^ 2).
Proof. unfold euclid. cbn [Rsum]. f_equal. ring. Qed.
Lemma euclid2 x z : euclid 2 x z = sqrt ((x 0%nat - z 0%nat) ^ 2 + (x 1%nat - z 1%nat) ^ 2).
Proof. unfold euclid. cbn [Rsum]. f_equal. ring. Qed.

Lemma grid_err l x z h B : (length l = 1 \/ length l = 2)%nat -> List.Forall axis_ok l -> smooth_fn h (length l) B ->
  (forall p, (p < length l)%nat -> within (nth p l (0%nat, 0, 0)) (x p)) -> (forall p, (p < length l)%nat -> within (nth p l (0%nat, 0, 0)) (z p)) ->
  Rabs (Rsum (axes_points l) (fun u => Rsum (axes_points l) (fun v =>
          wN l x u * h (euclid (length l) (grid_pt (axes_of l) u) (grid_pt (axes_of l) v)) * wN l z v))
        - h (euclid (length l) x z))
  <= 2 * B * Rsum (length l) (fun p => snd (nth p l (0%nat, 0, 0)) ^ 3).
Proof.
  intros Hl HF Hk Hx Hz. destruct l as [|t [|t' [|]]]; cbn in Hl; try lia.
  - inversion HF as [|? ? H1 _]; subst. cbn [length] in *. rewrite euclid1.
    set (F := fun r => lam t (z 0%nat) (fun s => h (sqrt ((r - s) ^ 2)))).
    rewrite (Rsum_ext _ _ (fun u => wN [t] x u * F (grid_pt (axes_of [t]) u 0%nat))).
    + rewrite (lam_grid1 t x F). cbn [Rsum nth]. rewrite Rplus_0_l. apply ski1_err; auto; [apply (Hx 0%nat)|apply (Hz 0%nat)]; lia.
    + intros u _. unfold F. rewrite <- (lam_grid1 t z (fun s => h (sqrt ((grid_pt (axes_of [t]) u 0%nat - s) ^ 2)))), <- Rsum_scal_l. apply Rsum_ext. intros v _. rewrite euclid1. ring.
  - inversion HF as [|? ? H1 HF']; subst. inversion HF' as [|? ? H2 _]; subst. cbn [length] in *. rewrite euclid2.
    set (F := fun r r' => lam t (z 0%nat) (fun s => lam t' (z 1%nat) (fun s' => h (sqrt ((r - s) ^ 2 + (r' - s') ^ 2))))).
    rewrite (Rsum_ext _ _ (fun u => wN [t; t'] x u * F (grid_pt (axes_of [t; t']) u 0%nat) (grid_pt (axes_of [t; t']) u 1%nat))).
    + rewrite (lam_grid2 t t' x F). cbn [Rsum nth]. rewrite Rplus_0_l.
      apply ski2_err; auto; [apply (Hx 0%nat)|apply (Hx 1%nat)|apply (Hz 0%nat)|apply (Hz 1%nat)]; lia.
    + intros u _. unfold F. rewrite <- (lam_grid2 t t' z (fun s s' => h (sqrt ((grid_pt (axes_of [t; t']) u 0%nat - s) ^ 2 + (grid_pt (axes_of [t; t']) u 1%nat - s') ^ 2)))), <- Rsum_scal_l.
      apply Rsum_ext. intros v _. rewrite euclid2. ring.
Qed.

Section Ski.
Variables (g : gp) (lo hi : grid_arg R) (m : grid_arg nat).
Hypothesis HR : gp_ready g lo hi m.
Let f := gp_f g.
Let P := mg_P (gp_data g).
Let Xs := mg_Xs (gp_data g).
Let lens := map (@length R) (mg_Ys (gp_data g)).
Let n := nsum lens.
Let Hok : fk_ok f := rd_ok g lo hi m HR.
Let HP : f_P f = Some P := rd_P g lo hi m HR.

Lemma axis_desc ad l p : ag_axes (grid_at (gp_grids g) ad) = axes_of l -> List.Forall axis_ok l -> (p < length l)%nat ->
  let t := nth p l (0%nat, 0, 0) in
  length (axis g ad p) = fst (fst t) /\ vget (axis g ad p) 0 = snd (fst t) /\ vget (axis g ad p) 1 = snd (fst t) + snd t /\
  vget (axis g ad p) (length (axis g ad p) - 2) = snd (fst t) + INR (fst (fst t) - 2) * snd t /\ axis_ok t /\ spacing g ad p = snd t.
Proof.
  intros E HF Hp t. assert (Ht : axis_ok t) by (eapply List.Forall_forall; [exact HF|now apply nth_In]).
  assert (Ea : axis g ad p = equispaced (fst (fst t)) (snd (fst t)) (snd t)).
  { unfold axis. rewrite E. unfold axes_of, vec, t.
    rewrite (nth_indep _ [] ((fun x : nat * R * R => equispaced (fst (fst x)) (snd (fst x)) (snd x)) (0%nat, 0, 0))) by (rewrite map_length; exact Hp).
    exact (map_nth (fun x : nat * R * R => equispaced (fst (fst x)) (snd (fst x)) (snd x)) l (0%nat, 0, 0) p). }
  unfold spacing. rewrite Ea, equispaced_length. destruct Ht as [H1 H2]. rewrite equispaced_0, equispaced_1 by lia.
  repeat split; try assumption; try lra. unfold equispaced. rewrite vget_tab by lia. ring.
Qed.

Lemma ski_fn w q x z h B : weights g w -> (q < f_Q f)%nat -> inside g x -> inside g z -> smooth_fn h (length (qdims f q)) B ->
  Rabs (Rsum (pts g (qdims f q)) (fun u => Rsum (pts g (qdims f q)) (fun v =>
          w (qdims f q) x u * bttb_entry (map h (a_data (G_of (gp_grids g) (qdims f q)))) (a_shape (G_of (gp_grids g) (qdims f q))) u v * w (qdims f q) z v))
        - h (dist_on (qdims f q) x z))
  <= 2 * B * Rsum (length (qdims f q)) (fun p => spacing g (qdims f q) p ^ 3).
Proof.
  intros Hw Hq Hx Hz Hk. destruct (group_qdims f P Hok HP q Hq) as [_ Had]. set (ad := qdims f q) in *.
  destruct (rd_grid g lo hi m HR ad Had) as [_ [l [HL [E1 [E2 [E3 [El [Hl Hax]]]]]]]]. rewrite E3.
  assert (EG : G_of (gp_grids g) ad = dists_of l) by (unfold G_of; now rewrite (gg_ag _ _ _ _ _ _ _ _ _ _ HL)).
  assert (Hin : forall y, inside g y -> forall p, (p < length l)%nat -> let t := nth p l (0%nat, 0, 0) in
     snd (fst t) + snd t <= proj ad y p < snd (fst t) + INR (fst (fst t) - 2) * snd t).
  { intros y Hy p Hp. specialize (Hy ad p Had ltac:(lia)). destruct (axis_desc ad l p E1 Hax Hp) as [_ [_ [A1 [A2 _]]]]. cbv zeta.
    rewrite A1, A2 in Hy. exact Hy. }
  assert (W : forall y u, inside g y -> (u < axes_points l)%nat -> w ad y u = wN l (proj ad y) u).
  { intros y u Hy Hu. rewrite (we_cubic g w Hw ad y u Had); [|now rewrite E3|intros p Hp; exact (Hy ad p Had Hp)].
    rewrite wN_keys; [|exact Hl|exact Hax|exact Hu|apply Hin, Hy]. rewrite El. f_equal. unfold tab. apply map_ext_in. intros p Hp. apply in_seq in Hp.
    destruct (axis_desc ad l p E1 Hax ltac:(lia)) as [_ [_ [_ [_ [_ A]]]]]. unfold spacing, axis in A. rewrite A, E1. reflexivity. }
  rewrite (Rsum_ext _ _ (fun u => Rsum (axes_points l) (fun v => wN l (proj ad x) u *
     h (euclid (length l) (grid_pt (axes_of l) u) (grid_pt (axes_of l) v)) * wN l (proj ad z) v))).
  2:{ intros u Hu. apply Rsum_ext. intros v Hv. rewrite !W by assumption. rewrite EG. unfold dists_of. cbn [a_data a_shape].
      rewrite grid_dists_entry; [reflexivity| |now apply axes_points_pos|exact Hu|exact Hv]. destruct l; [cbn in Hl; lia|discriminate]. }
  rewrite dist_on_euclid, <- El.
  rewrite (Rsum_ext (length l) (fun p => spacing g ad p ^ 3) (fun p => snd (nth p l (0%nat, 0, 0)) ^ 3)).
  2:{ intros p Hp. destruct (axis_desc ad l p E1 Hax Hp) as [_ [_ [_ [_ [_ ->]]]]]. reflexivity. }
  apply grid_err; [exact Hl|exact Hax|rewrite El; exact Hk| |]; intros p Hp; [pose proof (Hin x Hx p Hp) as T|pose proof (Hin z Hz p Hp) as T];
    cbv zeta in T; unfold within; lra.
Qed.

Lemma ski_kernel w q x z B : weights g w -> (q < f_Q f)%nat -> inside g x -> inside g z -> smooth_kern (kern_of f q) (length (qdims f q)) B ->
  Rabs (Rsum (pts g (qdims f q)) (fun u => Rsum (pts g (qdims f q)) (fun v =>
          w (qdims f q) x u * K_grid f (G_of (gp_grids g) (qdims f q)) q u v * w (qdims f q) z v))
        - k_doc (kern_of f q) (dist_on (qdims f q) x z))
  <= 2 * B * Rsum (length (qdims f q)) (fun p => spacing g (qdims f q) p ^ 3).
Proof. exact (ski_fn w q x z (k_doc (kern_of f q)) B). Qed.

Lemma ski_cov_err w a x b z Bs : weights g w -> inside g x -> inside g z ->
  (forall q, (q < f_Q f)%nat -> smooth_kern (kern_of f q) (length (qdims f q)) (Bs q)) ->
  Rabs (ski_cov g w a x b z - lmc_cov f a x b z) <= ski_error g Bs a b.
Proof.
  intros Hw Hx Hz Hk. unfold ski_cov, lmc_cov, ski_error. fold f. rewrite <- Rsum_minus.
  eapply Rle_trans; [apply Rsum_abs|]. apply Rsum_le. intros q Hq. rewrite <- Rmult_minus_distr_l, Rabs_mult.
  apply Rmult_le_compat_l; [apply Rabs_pos|]. apply (ski_kernel w q x z (Bs q)); auto.
Qed.

(** The observations are inside the grid. *)
Lemma obs_inside i : (i < n)%nat -> inside g (obs P Xs lens i).
Proof.
  intros Hi ad p Had Hp. destruct (rd_grid g lo hi m HR ad Had) as [_ [l [HL [E1 [E2 [E3 [El [Hl Hax]]]]]]]].
  destruct (axis_desc ad l p E1 Hax ltac:(lia)) as [_ [_ [-> [-> _]]]].
  destruct (gg_enc _ _ _ _ _ _ _ _ _ _ HL) as [_ HE]. specialize (HE p Hp). cbv zeta in HE. destruct HE as [_ [Ec [_ [HE _]]]].
  specialize (HE (obs P Xs lens i (nth p ad 0%nat))). rewrite Ec.
  replace (cells_for m (map (@length R) (mg_Ys (gp_data g))) (nth p ad 0%nat) + 4 - 2)%nat with
    (cells_for m (map (@length R) (mg_Ys (gp_data g))) (nth p ad 0%nat) + 2)%nat by lia.
  assert (C : coord (mg_P (gp_data g)) (mg_Xs (gp_data g)) (map (@length R) (mg_Ys (gp_data g))) (nth p ad 0%nat) (obs P Xs lens i (nth p ad 0%nat)))
    by (exists i; split; [exact Hi|reflexivity]). apply HE in C. lra.
Qed.
End Ski.
