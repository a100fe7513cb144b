(** Kernels with a Lipschitz second derivative. *)

From Coq Require Import Reals List Arith Lia Lra.
From Coquelicot Require Import Coquelicot.
From Verif Require Import Base NDArray Model_Util Model_Kern Spec_Kern Proofs_Kern Spec_Ski Proofs_Ski.
Import ListNotations.
Open Scope R_scope.

Lemma lip_of_deriv (f f1 : R -> R) B : (forall t, is_derive f t (f1 t)) -> (forall t, Rabs (f1 t) <= B) ->
  forall t u, Rabs (f t - f u) <= B * Rabs (t - u).
Proof.
  intros D HB t u. destruct (MVT_gen f u t f1) as [c [_ E]].
  - intros x _. apply D.
  - intros x _. apply continuity_pt_filterlim. apply (ex_derive_continuous f). exists (f1 x). apply D.
  - rewrite E, Rabs_mult. apply Rmult_le_compat_r; [apply Rabs_pos|apply HB].
Qed.

Lemma lip2_third (f f1 f2 f3 : R -> R) B : (forall t, is_derive f t (f1 t)) -> (forall t, is_derive f1 t (f2 t)) ->
  (forall t, is_derive f2 t (f3 t)) -> (forall t, Rabs (f3 t) <= B) -> lip2 f B.
Proof. intros D1 D2 D3 HB. exists f1, f2. split; [intros t; split; auto|]. now apply (lip_of_deriv f2 f3). Qed.

Lemma lip2_scal f B s : lip2 f B -> lip2 (fun t => s * f t) (Rabs s * B).
Proof.
  intros [f1 [f2 [D L]]]. exists (fun t => s * f1 t), (fun t => s * f2 t). split.
  - intros t. destruct (D t) as [D1 D2]. split; [apply (is_derive_scal f t s (f1 t) D1)|apply (is_derive_scal f1 t s (f2 t) D2)].
  - intros t u. rewrite <- Rmult_minus_distr_l, Rabs_mult, Rmult_assoc. apply Rmult_le_compat_l; [apply Rabs_pos|apply L].
Qed.

Lemma lip2_weaken f B C : B <= C -> lip2 f B -> lip2 f C.
Proof.
  intros H [f1 [f2 [D L]]]. exists f1, f2. split; [exact D|]. intros t u. eapply Rle_trans; [apply L|].
  apply Rmult_le_compat_r; [apply Rabs_pos|exact H].
Qed.

Lemma exp_le1 x : x <= 0 -> exp x <= 1.
Proof. intros H. rewrite <- exp_0. destruct H as [H| ->]; [left; now apply exp_increasing|apply Rle_refl]. Qed.

(** ** RBF *)

Lemma hermite3 u : Rabs (3 * u - u ^ 3) <= 4 * exp (u ^ 2 / 2).
Proof.
  assert (E : 1 + u ^ 2 / 2 + u ^ 4 / 16 <= exp (u ^ 2 / 2)).
  { replace (u ^ 2 / 2) with (u ^ 2 / 4 + u ^ 2 / 4) at 2 by field. rewrite exp_plus.
    pose proof (exp_ineq1_le (u ^ 2 / 4)). pose proof (pow2_ge_0 u).
    replace (1 + u ^ 2 / 2 + u ^ 4 / 16) with ((1 + u ^ 2 / 4) * (1 + u ^ 2 / 4)) by field. apply Rmult_le_compat; lra. }
  assert (Q : forall v, 3 * v - v ^ 3 <= 4 + 2 * v ^ 2 + v ^ 4 / 4).
  { intros v. pose proof (pow2_ge_0 (v ^ 2 / 2 + v)). pose proof (pow2_ge_0 (v - 1)). pose proof (pow2_ge_0 (v - 3 / 2)). 
    replace ((v ^ 2 / 2 + v) ^ 2) with (v ^ 4 / 4 + v ^ 3 + v ^ 2) in H by field. nra. }
  pose proof (Q u) as Q1. pose proof (Q (- u)) as Q2.
  replace ((- u) ^ 3) with (- u ^ 3) in Q2 by ring. replace ((- u) ^ 2) with (u ^ 2) in Q2 by ring. replace ((- u) ^ 4) with (u ^ 4) in Q2 by ring.
  apply Rabs_le. split; lra.
Qed.

Lemma smooth_rbf g nd : 0 < g -> smooth_kern (RBF g) nd (4 * (g * sqrt g)).
Proof.
  intros Hg c Hc _. set (C := exp (- g * c / 2)). assert (HC : 0 < C <= 1).
  { split; [apply exp_pos|]. apply exp_le1. assert (0 <= g * c) by (apply Rmult_le_pos; lra). lra. }
  assert (E : forall t, C * exp (- g * t ^ 2 / 2) = k_doc (RBF g) (sqrt (t ^ 2 + c))).
  { intros t. cbn [k_doc]. unfold C. rewrite <- exp_plus, pow2_sqrt by (pose proof (pow2_ge_0 t); lra). f_equal. field. }
  apply (lip2_ext _ _ _ E).
  apply (lip2_third _ (fun t => C * (- g * t) * exp (- g * t ^ 2 / 2)) (fun t => C * (g ^ 2 * t ^ 2 - g) * exp (- g * t ^ 2 / 2))
    (fun t => C * (3 * g ^ 2 * t - g ^ 3 * t ^ 3) * exp (- g * t ^ 2 / 2))).
  1-3: intros t; auto_derive; [trivial|].
  1-3: change (- g * (t * (t * 1)) * / 2) with (- g * t ^ 2 / 2); change (@eq R) with (@eq R); field.
  intros t. set (u := t * sqrt g). assert (S : sqrt g * sqrt g = g) by (apply sqrt_sqrt; lra). pose proof (sqrt_lt_R0 g Hg) as S0.
  replace (C * (3 * g ^ 2 * t - g ^ 3 * t ^ 3) * exp (- g * t ^ 2 / 2)) with ((g * sqrt g) * (C * (exp (- (u ^ 2 / 2)) * (3 * u - u ^ 3)))).
  2:{ replace (- (u ^ 2 / 2)) with (- g * t ^ 2 / 2) by (unfold u; rewrite <- S at 1; field).
      replace (3 * u - u ^ 3) with (sqrt g * (3 * t - g * t ^ 3)).
      - replace (3 * g ^ 2 * t - g ^ 3 * t ^ 3) with (g * (sqrt g * sqrt g) * (3 * t - g * t ^ 3)) by (rewrite S; ring). ring.
      - unfold u. replace ((t * sqrt g) ^ 3) with (t ^ 3 * (sqrt g * sqrt g) * sqrt g) by ring. rewrite S. ring. }
  rewrite !Rabs_mult. rewrite (Rabs_right g), (Rabs_right (sqrt g)), (Rabs_right C), (Rabs_right (exp _)) by (try left; try apply exp_pos; lra).
  rewrite (Rmult_comm 4). apply Rmult_le_compat_l; [apply Rmult_le_pos; lra|].
  pose proof (hermite3 u) as H. pose proof (exp_pos (- (u ^ 2 / 2))) as Ep.
  assert (X : exp (- (u ^ 2 / 2)) * Rabs (3 * u - u ^ 3) <= 4).
  { apply Rle_trans with (exp (- (u ^ 2 / 2)) * (4 * exp (u ^ 2 / 2))); [apply Rmult_le_compat_l; lra|].
    rewrite (Rmult_comm 4), <- Rmult_assoc, <- exp_plus. replace (- (u ^ 2 / 2) + u ^ 2 / 2) with 0 by ring. rewrite exp_0. lra. }
  assert (0 <= exp (- (u ^ 2 / 2)) * Rabs (3 * u - u ^ 3)) by (apply Rmult_le_pos; [lra|apply Rabs_pos]).
  apply Rle_trans with (1 * (exp (- (u ^ 2 / 2)) * Rabs (3 * u - u ^ 3))); [apply Rmult_le_compat_r; lra|lra].
Qed.

(** ** StdPeriodic, in one dimension *)

Lemma smooth_periodic g T : 0 < g -> 0 < T ->
  smooth_kern (StdPeriodic g T) 1 ((2 * PI / T) ^ 3 * ((g / 4) ^ 3 + 3 * (g / 4) ^ 2 + g / 4)).
Proof.
  intros Hg HT c _ Hc. rewrite (Hc eq_refl). set (a := g / 4). set (w := 2 * PI / T). assert (Ha : 0 < a) by (unfold a; lra).
  assert (Hw : 0 < w) by (unfold w; apply Rdiv_lt_0_compat; [pose proof PI_RGT_0; lra|exact HT]).
  assert (E : forall t, exp (- a * (1 - cos (w * t))) = k_doc (StdPeriodic g T) (sqrt (t ^ 2 + 0))).
  { intros t. cbn [k_doc]. rewrite Rplus_0_r. replace (t ^ 2) with (Rsqr t) by (unfold Rsqr; ring). rewrite sqrt_Rsqr_abs. f_equal.
    assert (S2 : sin (PI * Rabs t / T) ^ 2 = sin (PI * t / T) ^ 2).
    { unfold Rabs. destruct (Rcase_abs t); [|reflexivity]. replace (PI * - t / T) with (- (PI * t / T)) by (field; lra). rewrite sin_neg. ring. }
    rewrite S2. replace (w * t) with (2 * (PI * t / T)) by (unfold w; field; lra). rewrite cos_2a_sin. unfold a. field. }
  apply (lip2_ext _ _ _ E).
  apply (lip2_third _ (fun t => - (a * w) * sin (w * t) * exp (- a * (1 - cos (w * t))))
    (fun t => w ^ 2 * (a ^ 2 * sin (w * t) ^ 2 - a * cos (w * t)) * exp (- a * (1 - cos (w * t))))
    (fun t => w ^ 3 * (- a ^ 3 * sin (w * t) ^ 3 + 3 * a ^ 2 * sin (w * t) * cos (w * t) + a * sin (w * t)) * exp (- a * (1 - cos (w * t))))).
  1-3: intros t; auto_derive; [trivial|change (1 + - cos (w * t)) with (1 - cos (w * t)); ring].
  intros t. set (s := sin (w * t)). set (d := cos (w * t)).
  assert (Hs : -1 <= s <= 1) by apply SIN_bound. assert (Hd : -1 <= d <= 1) by apply COS_bound.
  rewrite !Rabs_mult. rewrite (Rabs_right (exp _)) by (left; apply exp_pos). rewrite (Rabs_right (w ^ 3)) by (apply Rle_ge, pow_le; lra).
  assert (X : Rabs (- a ^ 3 * s ^ 3 + 3 * a ^ 2 * s * d + a * s) <= a ^ 3 + 3 * a ^ 2 + a).
  { assert (As : Rabs s <= 1) by (apply Rabs_le; lra). assert (Ad : Rabs d <= 1) by (apply Rabs_le; lra).
    assert (P3 : 0 <= a ^ 3) by (apply pow_le; lra). assert (P2 : 0 <= a ^ 2) by (apply pow_le; lra).
    assert (A3 : Rabs (s ^ 3) <= 1) by (rewrite <- RPow_abs; rewrite <- (pow1 3); apply pow_incr; split; [apply Rabs_pos|exact As]).
    assert (A2 : Rabs (s * d) <= 1).
    { rewrite Rabs_mult. replace 1 with (1 * 1) by ring. apply Rmult_le_compat; auto using Rabs_pos. }
    apply Rabs_le_between in A3. apply Rabs_le_between in A2. apply Rabs_le. split; nra. }
  assert (Hexp : exp (- a * (1 - d)) <= 1) by (apply exp_le1; nra).
  pose proof (exp_pos (- a * (1 - d))). assert (Hw3 : 0 <= w ^ 3) by (apply pow_le; lra).
  rewrite Rmult_assoc. apply Rmult_le_compat_l; [exact Hw3|].
  pose proof (Rabs_pos (- a ^ 3 * s ^ 3 + 3 * a ^ 2 * s * d + a * s)).
  apply Rle_trans with (Rabs (- a ^ 3 * s ^ 3 + 3 * a ^ 2 * s * d + a * s) * 1); [apply Rmult_le_compat_l; lra|lra].
Qed.

(** ** Matern32 *)

Lemma derive_of_quad (f : R -> R) x d C : (forall t, Rabs (f t - f x - d * (t - x)) <= C * (t - x) ^ 2) -> is_derive f x d.
Proof.
  intros H. split; [apply is_linear_scal_l|]. intros y Hy eps. pose proof (is_filter_lim_locally_unique (V := R_NormedModule) x y Hy) as Exy. rewrite <- Exy.
  assert (HC : 0 <= C). { specialize (H (x + 1)). replace (x + 1 - x) with 1 in H by ring. pose proof (Rabs_pos (f (x + 1) - f x - d * 1)). lra. }
  assert (Hp : 0 < eps / (C + 1)) by (apply Rdiv_lt_0_compat; [apply cond_pos|lra]).
  exists (mkposreal _ Hp). intros t Ht.
  change (Rabs (f t - f x - (t - x) * d) <= eps * Rabs (t - x)).
  change (Rabs (t - x) < eps / (C + 1)) in Ht.
  replace (f t - f x - (t - x) * d) with (f t - f x - d * (t - x)) by ring. eapply Rle_trans; [apply H|].
  rewrite <- (pow2_abs (t - x)). replace (C * Rabs (t - x) ^ 2) with (C * (Rabs (t - x) * Rabs (t - x))) by ring.
  rewrite <- Rmult_assoc. apply Rmult_le_compat_r; [apply Rabs_pos|].
  apply Rmult_lt_compat_l with (r := C + 1) in Ht; [|lra]. replace ((C + 1) * (eps / (C + 1))) with (pos eps) in Ht by (field; lra).
  pose proof (Rabs_pos (t - x)). nra.
Qed.

Lemma exp_neg_low v : 1 - v <= exp (- v).
Proof. pose proof (exp_ineq1_le (- v)). lra. Qed.

(** Functions of |t|: the derivative on both sides. *)
Lemma derive_pos (f g : R -> R) t d : 0 < t -> (forall u, 0 < u -> f u = g u) -> is_derive g t d -> is_derive f t d.
Proof.
  intros Ht E D. apply (is_derive_ext_loc g); [|exact D]. exists (mkposreal t Ht). intros u Hu. change (Rabs (u - t) < t) in Hu.
  apply Rabs_lt_between in Hu. symmetry. apply E. lra.
Qed.
Lemma derive_neg (f g : R -> R) t d : t < 0 -> (forall u, u < 0 -> f u = g u) -> is_derive g t d -> is_derive f t d.
Proof.
  intros Ht E D. assert (Ht' : 0 < - t) by lra. apply (is_derive_ext_loc g); [|exact D]. exists (mkposreal (- t) Ht'). intros u Hu.
  change (Rabs (u - t) < - t) in Hu. apply Rabs_lt_between in Hu. symmetry. apply E. lra.
Qed.

Lemma matern_1d s : 0 < s -> lip2 (fun t => (1 + s * Rabs t) * exp (- s * Rabs t)) (2 * s ^ 3).
Proof.
  intros Hs. exists (fun t => - s ^ 2 * t * exp (- s * Rabs t)), (fun t => - s ^ 2 * (1 - s * Rabs t) * exp (- s * Rabs t)).
  assert (Ev : forall v, 0 <= v -> 1 - v <= exp (- v) <= 1) by (intros v Hv; split; [apply exp_neg_low|apply exp_le1; lra]).
  split.
  - intros t. destruct (Rtotal_order t 0) as [Ht|[->|Ht]].
    + split; [apply (derive_neg _ (fun t => (1 + s * - t) * exp (- s * - t)))|apply (derive_neg _ (fun t => - s ^ 2 * t * exp (- s * - t)))];
        try exact Ht; try (intros u Hu; cbv beta; rewrite (Rabs_left u) by exact Hu; reflexivity);
        auto_derive; trivial; rewrite (Rabs_left t) by exact Ht; ring.
    + rewrite Rabs_R0. split.
      * apply (derive_of_quad _ _ _ (s ^ 2)). intros t. rewrite Rabs_R0. set (v := s * Rabs t). assert (Hv : 0 <= v) by (unfold v; pose proof (Rabs_pos t); nra).
        replace (- s * Rabs t) with (- v) by (unfold v; ring). fold v.
        replace (s ^ 2 * (t - 0) ^ 2) with (v * v).
        2:{ unfold v. replace (s * Rabs t * (s * Rabs t)) with (s ^ 2 * (Rabs t * Rabs t)) by ring. rewrite <- Rabs_mult, Rabs_right by nra. ring. }
        replace (- s * 0) with 0 by ring. rewrite exp_0. pose proof (exp_neg_low v) as L. pose proof (exp_ineq1_le v) as U.
        assert (M : (1 + v) * exp (- v) <= 1).
        { apply Rle_trans with (exp v * exp (- v)); [apply Rmult_le_compat_r; [left; apply exp_pos|exact U]|]. rewrite <- exp_plus.
          replace (v + - v) with 0 by ring. rewrite exp_0. lra. }
        apply Rabs_le. split; [nra|]. nra.
      * apply (derive_of_quad _ _ _ (s ^ 3)). intros t. set (v := s * Rabs t). assert (Hv : 0 <= v) by (unfold v; pose proof (Rabs_pos t); nra).
        replace (- s * Rabs t) with (- v) by (unfold v; ring). replace (- s * Rabs 0) with 0 by (rewrite Rabs_R0; ring).
        replace (- s * 0) with 0 by ring. rewrite exp_0.
        replace (- s ^ 2 * t * exp (- v) - - s ^ 2 * 0 * 1 - - s ^ 2 * (1 - s * 0) * 1 * (t - 0)) with (s ^ 2 * t * (1 - exp (- v))) by ring.
        rewrite !Rabs_mult, (Rabs_right (s ^ 2)) by nra. rewrite (Rabs_right (1 - exp (- v))) by (specialize (Ev v Hv); lra).
        replace (s ^ 3 * (t - 0) ^ 2) with (s ^ 2 * Rabs t * v).
        2:{ unfold v. replace (s ^ 2 * Rabs t * (s * Rabs t)) with (s ^ 3 * (Rabs t * Rabs t)) by ring. rewrite <- Rabs_mult, Rabs_right by nra. ring. }
        apply Rmult_le_compat_l; [pose proof (Rabs_pos t); nra|]. specialize (Ev v Hv). lra.
    + split; [apply (derive_pos _ (fun t => (1 + s * t) * exp (- s * t)))|apply (derive_pos _ (fun t => - s ^ 2 * t * exp (- s * t)))];
        try exact Ht; try (intros u Hu; cbv beta; rewrite (Rabs_right u) by lra; reflexivity);
        auto_derive; trivial; rewrite (Rabs_right t) by lra; ring.
  - assert (M : forall p r, 0 <= p -> 0 <= r -> Rabs ((1 - p) * exp (- p) - (1 - r) * exp (- r)) <= 2 * Rabs (p - r)).
    { intros p r Hp Hr. destruct (MVT_gen (fun x => (1 - x) * exp (- x)) r p (fun x => (x - 2) * exp (- x))) as [x [Hx E]].
      - intros y _. auto_derive; [trivial|ring].
      - intros y _. apply continuity_pt_filterlim. apply (ex_derive_continuous (fun x => (1 - x) * exp (- x))). auto_derive. trivial.
      - rewrite E, Rabs_mult. apply Rmult_le_compat_r; [apply Rabs_pos|].
        assert (X0 : 0 <= x) by (destruct Hx as [Hx _]; eapply Rle_trans; [|exact Hx]; apply Rmin_glb; assumption).
        rewrite Rabs_mult, (Rabs_right (exp _)) by (left; apply exp_pos).
        assert (A : Rabs (x - 2) <= 2 * exp x) by (pose proof (exp_ineq1_le x); apply Rabs_le; lra).
        apply Rle_trans with (2 * exp x * exp (- x)); [apply Rmult_le_compat_r; [left; apply exp_pos|exact A]|].
        rewrite Rmult_assoc, <- exp_plus. replace (x + - x) with 0 by ring. rewrite exp_0. lra. }
    intros t u. pose proof (M (s * Rabs t) (s * Rabs u) ltac:(pose proof (Rabs_pos t); nra) ltac:(pose proof (Rabs_pos u); nra)) as Q.
    replace (- s ^ 2 * (1 - s * Rabs t) * exp (- s * Rabs t) - - s ^ 2 * (1 - s * Rabs u) * exp (- s * Rabs u))
      with (- (s ^ 2 * ((1 - s * Rabs t) * exp (- (s * Rabs t)) - (1 - s * Rabs u) * exp (- (s * Rabs u))))).
    2:{ replace (- (s * Rabs t)) with (- s * Rabs t) by ring. replace (- (s * Rabs u)) with (- s * Rabs u) by ring. ring. }
    rewrite Rabs_Ropp, Rabs_mult, (Rabs_right (s ^ 2)) by nra.
    rewrite <- Rmult_minus_distr_l, (Rabs_mult s), (Rabs_right s) in Q by lra. pose proof (Rabs_triang_inv2 t u) as T.
    apply Rle_trans with (s ^ 2 * (2 * (s * Rabs (Rabs t - Rabs u)))); [apply Rmult_le_compat_l; [nra|exact Q]|].
    replace (2 * s ^ 3 * Rabs (t - u)) with (s ^ 2 * (2 * (s * Rabs (t - u)))) by ring.
    apply Rmult_le_compat_l; [nra|]. apply Rmult_le_compat_l; [lra|]. apply Rmult_le_compat_l; lra.
Qed.

Lemma matern_any (r : R -> R) s : 0 < s -> (forall t, 0 < r t /\ Rabs t <= r t /\ is_derive r t (t / r t)) ->
  lip2 (fun t => (1 + s * r t) * exp (- s * r t)) (2 * s ^ 3).
Proof.
  intros Hs Hr.
  apply (lip2_third _ (fun t => - s ^ 2 * t * exp (- s * r t)) (fun t => - s ^ 2 * (1 - s * (t * (t / r t))) * exp (- s * r t))
    (fun t => s ^ 3 * ((3 * (t / r t) - (t / r t) ^ 3) - s * r t * (t / r t) ^ 3) * exp (- s * r t))).
  1-3: intros t; destruct (Hr t) as [R0 [_ D]]; pose proof (is_derive_unique r t _ D) as U; auto_derive;
    [repeat split; try (exists (t / r t); exact D); try lra|change (Derive (fun x => r x) t) with (Derive r t); rewrite U; field; lra].
  intros t. destruct (Hr t) as [R0 [RA _]]. set (p := t / r t). set (v := s * r t). assert (Hv : 0 <= v) by (unfold v; nra).
  assert (Hp : -1 <= p <= 1).
  { apply Rabs_le_between in RA. unfold p. split; apply (Rmult_le_reg_r (r t)); try exact R0; replace (t / r t * r t) with t by (field; lra); lra. }
  replace (- s * r t) with (- v) by (unfold v; ring).
  assert (S3 : 0 <= s ^ 3) by (apply pow_le; lra).
  rewrite !Rabs_mult, (Rabs_right (s ^ 3)), (Rabs_right (exp _)) by (apply Rle_ge; try exact S3; left; apply exp_pos).
  rewrite (Rmult_comm 2), Rmult_assoc. apply Rmult_le_compat_l; [exact S3|].
  assert (A : Rabs (3 * p - p ^ 3 - v * p ^ 3) <= 2 * exp v).
  { pose proof (exp_ineq1_le v). assert (C : -1 <= p ^ 3 <= 1).
    { assert (0 <= p * p <= 1) by nra. replace (p ^ 3) with (p * (p * p)) by ring. split; nra. }
    assert (Q1 : 3 * p - p ^ 3 <= 2). { assert (0 <= (1 - p) ^ 2 * (2 + p)) by (apply Rmult_le_pos; [apply pow2_ge_0|lra]). nra. }
    assert (Q2 : -2 <= 3 * p - p ^ 3). { assert (0 <= (1 + p) ^ 2 * (2 - p)) by (apply Rmult_le_pos; [apply pow2_ge_0|lra]). nra. }
    assert (- v <= v * p ^ 3 <= v) by (split; nra). apply Rabs_le. split; lra. }
  apply Rle_trans with (2 * exp v * exp (- v)); [apply Rmult_le_compat_r; [left; apply exp_pos|exact A]|].
  rewrite Rmult_assoc, <- exp_plus. replace (v + - v) with 0 by ring. rewrite exp_0. lra.
Qed.

Lemma smooth_matern g nd : 0 < g -> smooth_kern (Matern32 g) nd (2 * (g * sqrt 3) ^ 3).
Proof.
  intros Hg c Hc _. set (s := g * sqrt 3). assert (Hs : 0 < s) by (apply Rmult_lt_0_compat; [exact Hg|apply sqrt_lt_R0; lra]).
  apply (lip2_ext (fun t => (1 + s * sqrt (t ^ 2 + c)) * exp (- s * sqrt (t ^ 2 + c)))).
  { intros t. cbn [k_doc]. unfold s. f_equal; [ring|f_equal; ring]. }
  destruct Hc as [Hc|<-].
  - apply (matern_any (fun t => sqrt (t ^ 2 + c)) s Hs). intros t. assert (P0 : 0 < t ^ 2 + c) by (pose proof (pow2_ge_0 t); lra).
    assert (S0 : 0 < sqrt (t ^ 2 + c)) by now apply sqrt_lt_R0. split; [exact S0|]. split.
    + rewrite <- sqrt_Rsqr_abs. apply sqrt_le_1_alt. unfold Rsqr. lra.
    + auto_derive; [cbn [pow] in P0; lra|]. change (t * (t * 1)) with (t ^ 2). field. lra.
  - apply (lip2_ext (fun t => (1 + s * Rabs t) * exp (- s * Rabs t))); [|now apply matern_1d].
    intros t. rewrite Rplus_0_r. replace (t ^ 2) with (Rsqr t) by (unfold Rsqr; ring). now rewrite sqrt_Rsqr_abs.
Qed.

Lemma smooth_scaled k nd B s : smooth_kern k nd B -> smooth_kern (Scaled k s) nd (Rabs s * B).
Proof. intros H c Hc Hn. apply (lip2_scal (fun t => k_doc k (sqrt (t ^ 2 + c))) B s). now apply H. Qed.

(** The constants, for every kernel but the identity. *)
Fixpoint smooth_const (k : kern) : R :=
  match k with
  | RBF g => 4 * (g * sqrt g)
  | Matern32 g => 2 * (g * sqrt 3) ^ 3
  | StdPeriodic g T => (2 * PI / T) ^ 3 * ((g / 4) ^ 3 + 3 * (g / 4) ^ 2 + g / 4)
  | KIdentity => 0
  | Scaled k s => Rabs s * smooth_const k
  end.
