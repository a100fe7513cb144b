(** The derivatives of the kernels with respect to their parameters are smooth
    functions of the distance. *)

From Coq Require Import Reals List Arith ZArith Lia Lra.
From Coquelicot Require Import Coquelicot.
From Verif Require Import Base NDArray PSD Model_Util Model_Kern Spec_Kern Proofs_Kern Spec_Ski Proofs_Ski Proofs_Ski2.
Import ListNotations.
Open Scope R_scope.

(** ** Bounded functions with bounded derivatives *)

Definition bll (f : R -> R) : Prop := exists C, (forall t, Rabs (f t) <= C) /\ forall t u, Rabs (f t - f u) <= C * Rabs (t - u).
Definition bl (f : R -> R) : Prop :=
  exists f1 f2 : R -> R, (forall t, is_derive f t (f1 t) /\ is_derive f1 t (f2 t)) /\ bll f /\ bll f1 /\ bll f2.

Lemma bll_pos f : bll f -> exists C, 0 <= C /\ (forall t, Rabs (f t) <= C) /\ forall t u, Rabs (f t - f u) <= C * Rabs (t - u).
Proof. intros [C [H1 H2]]. exists C. split; [|auto]. eapply Rle_trans; [apply Rabs_pos|apply (H1 0)]. Qed.

Lemma bll_ext f h : (forall t, f t = h t) -> bll f -> bll h.
Proof. intros E [C [H1 H2]]. exists C. split; intros; rewrite <- !E; auto. Qed.

Lemma bll_plus f h : bll f -> bll h -> bll (fun t => f t + h t).
Proof.
  intros [C [H1 H2]] [D [K1 K2]]. exists (C + D). split.
  - intros t. eapply Rle_trans; [apply Rabs_triang|]. specialize (H1 t). specialize (K1 t). lra.
  - intros t u. replace (f t + h t - (f u + h u)) with ((f t - f u) + (h t - h u)) by ring. eapply Rle_trans; [apply Rabs_triang|].
    specialize (H2 t u). specialize (K2 t u). lra.
Qed.

Lemma bll_mult f h : bll f -> bll h -> bll (fun t => f t * h t).
Proof.
  intros Hf Hh. destruct (bll_pos f Hf) as [C [C0 [H1 H2]]]. destruct (bll_pos h Hh) as [D [D0 [K1 K2]]]. exists (2 * (C * D)).
  assert (0 <= C * D) by now apply Rmult_le_pos. split.
  - intros t. rewrite Rabs_mult. apply Rle_trans with (C * D); [|lra]. apply Rmult_le_compat; auto using Rabs_pos.
  - intros t u. replace (f t * h t - f u * h u) with (f t * (h t - h u) + (f t - f u) * h u) by ring.
    eapply Rle_trans; [apply Rabs_triang|]. rewrite !Rabs_mult.
    assert (Rabs (f t) * Rabs (h t - h u) <= C * (D * Rabs (t - u))) by (apply Rmult_le_compat; auto using Rabs_pos).
    assert (Rabs (f t - f u) * Rabs (h u) <= C * Rabs (t - u) * D) by (apply Rmult_le_compat; auto using Rabs_pos). lra.
Qed.

Lemma bll_const c : bll (fun _ => c).
Proof.
  exists (Rabs c). split; [intros; lra|]. intros t u. rewrite Rminus_eq_0, Rabs_R0. apply Rmult_le_pos; apply Rabs_pos.
Qed.

Lemma bll_deriv f f1 C : (forall t, is_derive f t (f1 t)) -> (forall t, Rabs (f t) <= C) -> (forall t, Rabs (f1 t) <= C) -> bll f.
Proof. intros D H H1. exists C. split; [exact H|]. now apply (lip_of_deriv f f1). Qed.

Lemma bl_ext f h : (forall t, f t = h t) -> bl f -> bl h.
Proof.
  intros E [f1 [f2 [D [B0 [B1 B2]]]]]. exists f1, f2. split; [|split; [now apply (bll_ext f)|auto]].
  intros t. destruct (D t) as [D1 D2]. split; [now apply (is_derive_ext f)|exact D2].
Qed.

Lemma bl_const c : bl (fun _ => c).
Proof.
  exists (fun _ => 0), (fun _ => 0). split; [|split; [apply bll_const|split; apply bll_const]].
  intros t. split; apply (is_derive_const (V := R_NormedModule)).
Qed.

Lemma derive_mult (f h : R -> R) (t a b : R) : is_derive f t a -> is_derive h t b -> is_derive (fun u => f u * h u) t (a * h t + f t * b).
Proof. intros H1 H2. exact (is_derive_mult f h t a b H1 H2 Rmult_comm). Qed.
Lemma derive_plus (f h : R -> R) (t a b : R) : is_derive f t a -> is_derive h t b -> is_derive (fun u => f u + h u) t (a + b).
Proof. intros H1 H2. exact (is_derive_plus f h t a b H1 H2). Qed.

Lemma bl_mult f h : bl f -> bl h -> bl (fun t => f t * h t).
Proof.
  intros [f1 [f2 [D [F0 [F1 F2]]]]] [h1 [h2 [E [H0 [H1 H2]]]]].
  exists (fun t => f1 t * h t + f t * h1 t), (fun t => (f2 t * h t + f1 t * h1 t) + (f1 t * h1 t + f t * h2 t)). split.
  - intros t. destruct (D t) as [D1 D2]. destruct (E t) as [E1 E2]. split; [now apply derive_mult|].
    apply derive_plus; now apply derive_mult.
  - repeat split; repeat first [assumption|apply bll_plus|apply bll_mult].
Qed.

Lemma bl_exp f : bl f -> bl (fun t => exp (f t)).
Proof.
  intros [f1 [f2 [D [F0 [F1 F2]]]]].
  assert (DE : forall t, is_derive (fun t => exp (f t)) t (f1 t * exp (f t))).
  { intros t. destruct (D t) as [D1 _]. exact (is_derive_comp exp f t (exp (f t)) (f1 t) (is_derive_exp (f t)) D1). }
  assert (BE : bll (fun t => exp (f t))).
  { destruct (bll_pos _ F0) as [C [C0 [HC _]]]. destruct (bll_pos _ F1) as [D1 [D0 [HD _]]].
    assert (X : forall t, 0 <= exp (f t) <= exp C).
    { intros t. split; [left; apply exp_pos|]. pose proof (Rle_abs (f t)). specialize (HC t). destruct (Req_dec (f t) C) as [->|]; [lra|left; apply exp_increasing; lra]. }
    apply (bll_deriv _ _ (exp C + D1 * exp C) DE); intros t; specialize (X t).
    - rewrite Rabs_right by lra. assert (0 <= D1 * exp C) by (apply Rmult_le_pos; lra). lra.
    - rewrite Rabs_mult, (Rabs_right (exp _)) by lra. apply Rle_trans with (D1 * exp C); [|lra]. apply Rmult_le_compat; try lra; [apply Rabs_pos|apply HD]. }
  exists (fun t => f1 t * exp (f t)), (fun t => f2 t * exp (f t) + f1 t * (f1 t * exp (f t))). split.
  - intros t. split; [apply DE|]. exact (derive_mult f1 (fun u => exp (f u)) t _ _ (proj2 (D t)) (DE t)).
  - repeat split; repeat first [assumption|apply bll_plus|apply bll_mult].
Qed.

Lemma bl_sin w : bl (fun t => sin (w * t)).
Proof.
  set (C := 1 + Rabs w + Rabs w ^ 2 + Rabs w ^ 3). pose proof (Rabs_pos w) as W0.
  assert (W2 : 0 <= Rabs w ^ 2) by apply pow2_ge_0. assert (W3 : 0 <= Rabs w ^ 3) by now apply pow_le.
  assert (S : forall t, Rabs (sin (w * t)) <= 1) by (intros t; apply Rabs_le, SIN_bound). assert (K : forall t, Rabs (cos (w * t)) <= 1) by (intros t; apply Rabs_le, COS_bound).
  assert (M : forall a x, 0 <= a -> Rabs x <= 1 -> a <= C -> a * Rabs x <= C) by (intros a x Ha Hx HC; apply Rle_trans with (a * 1); [now apply Rmult_le_compat_l|lra]).
  exists (fun t => w * cos (w * t)), (fun t => - w ^ 2 * sin (w * t)). split; [intros t; split; (auto_derive; [trivial|ring])|].
  repeat split.
  - apply (bll_deriv _ (fun t => w * cos (w * t)) C); [intros; auto_derive; [trivial|ring]| |]; intros t.
    + specialize (S t). unfold C. lra.
    + rewrite Rabs_mult. apply M; auto. unfold C. lra.
  - apply (bll_deriv _ (fun t => - w ^ 2 * sin (w * t)) C); [intros; auto_derive; [trivial|ring]| |]; intros t; rewrite Rabs_mult; apply M; auto; try apply Rabs_pos.
    + unfold C. lra.
    + rewrite Rabs_Ropp, <- RPow_abs. unfold C. lra.
  - apply (bll_deriv _ (fun t => - w ^ 3 * cos (w * t)) C); [intros; auto_derive; [trivial|ring]| |]; intros t; rewrite Rabs_mult; apply M; auto; try apply Rabs_pos;
      rewrite Rabs_Ropp, <- RPow_abs; unfold C; lra.
Qed.

Lemma bl_cos w : bl (fun t => cos (w * t)).
Proof.
  set (C := 1 + Rabs w + Rabs w ^ 2 + Rabs w ^ 3). pose proof (Rabs_pos w) as W0.
  assert (W2 : 0 <= Rabs w ^ 2) by apply pow2_ge_0. assert (W3 : 0 <= Rabs w ^ 3) by now apply pow_le.
  assert (S : forall t, Rabs (sin (w * t)) <= 1) by (intros t; apply Rabs_le, SIN_bound). assert (K : forall t, Rabs (cos (w * t)) <= 1) by (intros t; apply Rabs_le, COS_bound).
  assert (M : forall a x, 0 <= a -> Rabs x <= 1 -> a <= C -> a * Rabs x <= C) by (intros a x Ha Hx HC; apply Rle_trans with (a * 1); [now apply Rmult_le_compat_l|lra]).
  exists (fun t => - w * sin (w * t)), (fun t => - w ^ 2 * cos (w * t)). split; [intros t; split; (auto_derive; [trivial|ring])|].
  repeat split.
  - apply (bll_deriv _ (fun t => - w * sin (w * t)) C); [intros; auto_derive; [trivial|ring]| |]; intros t.
    + specialize (K t). unfold C. lra.
    + rewrite Rabs_mult. apply M; auto; try apply Rabs_pos. rewrite Rabs_Ropp. unfold C. lra.
  - apply (bll_deriv _ (fun t => - w ^ 2 * cos (w * t)) C); [intros; auto_derive; [trivial|ring]| |]; intros t; rewrite Rabs_mult; apply M; auto; try apply Rabs_pos.
    + rewrite Rabs_Ropp. unfold C. lra.
    + rewrite Rabs_Ropp, <- RPow_abs. unfold C. lra.
  - apply (bll_deriv _ (fun t => w ^ 3 * sin (w * t)) C); [intros; auto_derive; [trivial|ring]| |]; intros t; rewrite Rabs_mult; apply M; auto; try apply Rabs_pos;
      rewrite ?Rabs_Ropp, <- RPow_abs; unfold C; lra.
Qed.

Lemma bl_lip2 f : bl f -> exists B, lip2 f B.
Proof. intros [f1 [f2 [D [_ [_ [C [_ H]]]]]]]. exists C, f1, f2. auto. Qed.

(** A bounded smooth function that is the identity between [-r] and [r]. *)
Definition over (r t : R) : R := if Rle_dec r t then t - r else if Rle_dec t (- r) then t + r else 0.
Definition trunc (r t : R) : R := t - over r t + sin (over r t).

Lemma over_in r t : Rabs t <= r -> over r t = 0.
Proof. intros H. apply Rabs_le_between in H. unfold over. destruct (Rle_dec r t); [lra|]. destruct (Rle_dec t (- r)); lra. Qed.
Lemma over_opp r t : 0 < r -> over r (- t) = - over r t.
Proof. intros Hr. unfold over. destruct (Rle_dec r (- t)), (Rle_dec (- t) (- r)), (Rle_dec r t), (Rle_dec t (- r)); lra. Qed.
Lemma over_lip r t u : 0 < r -> Rabs (over r t - over r u) <= Rabs (t - u).
Proof.
  intros Hr. unfold over. destruct (Rle_dec r t), (Rle_dec r u), (Rle_dec t (- r)), (Rle_dec u (- r)); try lra;
    unfold Rabs; repeat match goal with |- context [Rcase_abs ?x] => destruct (Rcase_abs x) end; lra.
Qed.
Lemma over_rest r t : 0 < r -> Rabs (t - over r t) <= r.
Proof. intros Hr. unfold over. destruct (Rle_dec r t); [|destruct (Rle_dec t (- r))]; apply Rabs_le; lra. Qed.

Lemma sin_lip x y : Rabs (sin x - sin y) <= Rabs (x - y).
Proof.
  pose proof (lip_of_deriv sin cos 1 ltac:(intros; apply is_derive_sin) ltac:(intros t; apply Rabs_le, COS_bound) x y). lra.
Qed.
Lemma cos_lip x y : Rabs (cos x - cos y) <= Rabs (x - y).
Proof.
  pose proof (lip_of_deriv cos (fun t => - sin t) 1 ltac:(intros; apply is_derive_cos) ltac:(intros t; cbv beta; rewrite Rabs_Ropp; apply Rabs_le, SIN_bound) x y). lra.
Qed.

Lemma sin_quad u : Rabs (sin u - u) <= u ^ 2.
Proof.
  destruct (MVT_gen (fun x => sin x - x) 0 u (fun x => cos x - 1)) as [c [Hc E]].
  - intros x _. auto_derive; [trivial|ring].
  - intros x _. apply continuity_pt_filterlim. apply (ex_derive_continuous (fun x => sin x - x)). auto_derive. trivial.
  - cbv beta in E. rewrite sin_0, !Rminus_0_r in E. rewrite E, Rabs_mult. pose proof (cos_lip c 0) as L. rewrite cos_0, Rminus_0_r in L.
    assert (A : Rabs c <= Rabs u).
    { unfold Rmin, Rmax in Hc. destruct (Rle_dec 0 u); [rewrite !Rabs_right by lra; lra|rewrite !Rabs_left1 by lra; lra]. }
    rewrite <- pow2_abs. replace (Rabs u ^ 2) with (Rabs u * Rabs u) by ring. apply Rmult_le_compat_r; [apply Rabs_pos|lra].
Qed.
Lemma cos_quad u : Rabs (cos u - 1) <= u ^ 2.
Proof.
  destruct (MVT_gen (fun x => cos x - 1) 0 u (fun x => - sin x)) as [c [Hc E]].
  - intros x _. auto_derive; [trivial|ring].
  - intros x _. apply continuity_pt_filterlim. apply (ex_derive_continuous (fun x => cos x - 1)). auto_derive. trivial.
  - cbv beta in E. rewrite cos_0, Rminus_0_r, Rminus_eq_0, Rminus_0_r in E. rewrite E, Rabs_mult, Rabs_Ropp. pose proof (sin_lip c 0) as L. rewrite sin_0, !Rminus_0_r in L.
    assert (A : Rabs c <= Rabs u).
    { unfold Rmin, Rmax in Hc. destruct (Rle_dec 0 u); [rewrite !Rabs_right by lra; lra|rewrite !Rabs_left1 by lra; lra]. }
    rewrite <- pow2_abs. replace (Rabs u ^ 2) with (Rabs u * Rabs u) by ring. apply Rmult_le_compat_r; [apply Rabs_pos|lra].
Qed.

Lemma over_sq r t x : 0 < r -> over r x = 0 -> over r t ^ 2 <= (t - x) ^ 2.
Proof.
  intros Hr H. pose proof (over_lip r t x Hr) as L. rewrite H, Rminus_0_r in L. rewrite <- (pow2_abs (over r t)), <- (pow2_abs (t - x)).
  apply pow_incr. split; [apply Rabs_pos|exact L].
Qed.

Lemma trunc_derive r t : 0 < r -> is_derive (trunc r) t (cos (over r t)) /\ is_derive (fun u => cos (over r u)) t (- sin (over r t)).
Proof.
  intros Hr. destruct (Rlt_dec r t) as [H|H]; [|destruct (Rlt_dec t (- r)) as [H'|H']].
  - assert (P : 0 < t - r) by lra. assert (E : forall u, Rabs (u - t) < t - r -> over r u = u - r).
    { intros u Hu. apply Rabs_lt_between in Hu. unfold over. destruct (Rle_dec r u); lra. }
    assert (Et : over r t = t - r) by (apply E; rewrite Rminus_eq_0, Rabs_R0; exact P). rewrite Et. split.
    + apply (is_derive_ext_loc (fun u => u - (u - r) + sin (u - r))).
      * exists (mkposreal _ P). intros u Hu. unfold trunc. rewrite (E u Hu). reflexivity.
      * auto_derive; [trivial|]. unfold Rminus. ring.
    + apply (is_derive_ext_loc (fun u => cos (u - r))).
      * exists (mkposreal _ P). intros u Hu. now rewrite (E u Hu).
      * auto_derive; [trivial|]. unfold Rminus. ring.
  - assert (P : 0 < - r - t) by lra. assert (E : forall u, Rabs (u - t) < - r - t -> over r u = u + r).
    { intros u Hu. apply Rabs_lt_between in Hu. unfold over. destruct (Rle_dec r u); [lra|]. destruct (Rle_dec u (- r)); lra. }
    assert (Et : over r t = t + r) by (apply E; rewrite Rminus_eq_0, Rabs_R0; exact P). rewrite Et. split.
    + apply (is_derive_ext_loc (fun u => u - (u + r) + sin (u + r))).
      * exists (mkposreal _ P). intros u Hu. unfold trunc. rewrite (E u Hu). reflexivity.
      * auto_derive; [trivial|]. ring.
    + apply (is_derive_ext_loc (fun u => cos (u + r))).
      * exists (mkposreal _ P). intros u Hu. now rewrite (E u Hu).
      * auto_derive; [trivial|]. ring.
  - assert (Et : over r t = 0) by (apply over_in, Rabs_le; lra). rewrite Et, cos_0, sin_0, Ropp_0. split; apply (derive_of_quad _ _ _ 1); intros u.
    + unfold trunc. rewrite Et, sin_0. replace (u - over r u + sin (over r u) - (t - 0 + 0) - 1 * (u - t)) with (sin (over r u) - over r u) by ring.
      eapply Rle_trans; [apply sin_quad|]. rewrite Rmult_1_l. now apply over_sq.
    + rewrite Et, cos_0. replace (cos (over r u) - 1 - 0 * (u - t)) with (cos (over r u) - 1) by ring.
      eapply Rle_trans; [apply cos_quad|]. rewrite Rmult_1_l. now apply over_sq.
Qed.

Lemma bl_trunc r : 0 < r -> bl (trunc r).
Proof.
  intros Hr. exists (fun t => cos (over r t)), (fun t => - sin (over r t)). split; [intros t; now apply trunc_derive|].
  assert (K : forall t, Rabs (cos (over r t)) <= 1) by (intros t; apply Rabs_le, COS_bound).
  assert (S : forall t, Rabs (sin (over r t)) <= 1) by (intros t; apply Rabs_le, SIN_bound).
  repeat split.
  - apply (bll_deriv _ (fun t => cos (over r t)) (r + 1)); [intros t; now apply trunc_derive| |].
    + intros t. unfold trunc. eapply Rle_trans; [apply Rabs_triang|]. pose proof (over_rest r t Hr). specialize (S t). lra.
    + intros t. specialize (K t). lra.
  - exists 1. split; [exact K|]. intros t u. rewrite Rmult_1_l. eapply Rle_trans; [apply cos_lip|now apply over_lip].
  - exists 1. split; [intros t; rewrite Rabs_Ropp; apply S|]. intros t u. rewrite Rmult_1_l.
    replace (- sin (over r t) - - sin (over r u)) with (- (sin (over r t) - sin (over r u))) by ring. rewrite Rabs_Ropp.
    eapply Rle_trans; [apply sin_lip|now apply over_lip].
Qed.

(** ** RBF *)

Lemma exp_cube x : 0 <= x -> 1 + x + x ^ 2 / 3 + x ^ 3 / 27 <= exp x.
Proof.
  intros Hx. replace (exp x) with (exp (x / 3) * exp (x / 3) * exp (x / 3)) by (rewrite <- !exp_plus; f_equal; field).
  pose proof (exp_ineq1_le (x / 3)). replace (1 + x + x ^ 2 / 3 + x ^ 3 / 27) with ((1 + x / 3) * (1 + x / 3) * (1 + x / 3)) by field.
  assert (0 <= 1 + x / 3) by lra. apply Rmult_le_compat; [apply Rmult_le_pos; lra|lra|apply Rmult_le_compat; lra|lra].
Qed.

Lemma rbf_grad_smooth g nd : 0 < g -> smooth_fn (fun r => nth 0 (k_grad (RBF g) r) 0) nd (108 * sqrt g).
Proof.
  intros Hg c Hc _. set (q := fun t => t ^ 2 + c). set (e := fun t => exp (- (1 / 2) * (t ^ 2 + c) * g)).
  assert (E : forall t, exp (- (1 / 2) * (t ^ 2 + c) * g) * - (1 / 2) * (t ^ 2 + c) = nth 0 (k_grad (RBF g) (sqrt (t ^ 2 + c))) 0).
  { intros t. cbn [k_grad]. unfold rbf_grad_at. cbv zeta. cbn [nth]. rewrite sqrt_sqrt by (pose proof (pow2_ge_0 t); lra). reflexivity. }
  apply (lip2_ext _ _ _ E).
  apply (lip2_third _ (fun t => - t * (1 - g * (t ^ 2 + c) / 2) * exp (- (1 / 2) * (t ^ 2 + c) * g))
    (fun t => (- 1 + g * (t ^ 2 + c) / 2 + 2 * g * t ^ 2 - g ^ 2 * t ^ 2 * (t ^ 2 + c) / 2) * exp (- (1 / 2) * (t ^ 2 + c) * g))
    (fun t => g * t * (6 - 3 / 2 * (g * (t ^ 2 + c)) - 3 * (g * t ^ 2) + g * t ^ 2 * (g * (t ^ 2 + c)) / 2) * exp (- (1 / 2) * (t ^ 2 + c) * g))).
  1-3: intros t; auto_derive; [trivial|]; cbn [pow]; rewrite ?Rmult_1_r; field.
  intros t. set (S := g * (t ^ 2 + c) / 2). set (u := sqrt g * t). assert (G : sqrt g * sqrt g = g) by (apply sqrt_sqrt; lra).
  assert (U2 : u ^ 2 = g * t ^ 2) by (unfold u; replace ((sqrt g * t) ^ 2) with (sqrt g * sqrt g * t ^ 2) by ring; now rewrite G).
  assert (US : 0 <= u ^ 2 <= 2 * S).
  { rewrite U2. pose proof (pow2_ge_0 t). assert (0 <= g * t ^ 2) by (apply Rmult_le_pos; lra). assert (0 <= g * c) by (apply Rmult_le_pos; lra). unfold S. lra. }
  replace (- (1 / 2) * (t ^ 2 + c) * g) with (- S) by (unfold S; field).
  replace (g * t * (6 - 3 / 2 * (g * (t ^ 2 + c)) - 3 * (g * t ^ 2) + g * t ^ 2 * (g * (t ^ 2 + c)) / 2)) with (sqrt g * (u * (6 - 3 * S - 3 * u ^ 2 + u ^ 2 * S))).
  2:{ rewrite U2. unfold u. match goal with |- sqrt g * (sqrt g * t * ?x) = _ => replace (sqrt g * (sqrt g * t * x)) with (sqrt g * sqrt g * (t * x)) by ring end. rewrite G. unfold S. field. }
  rewrite Rabs_mult, (Rabs_right (exp _)) by (left; apply exp_pos). rewrite Rabs_mult, (Rabs_right (sqrt g)) by (apply Rle_ge, sqrt_pos).
  assert (S0 : 0 <= S) by lra. pose proof (exp_cube S S0) as X.
  assert (A : Rabs (u * (6 - 3 * S - 3 * u ^ 2 + u ^ 2 * S)) <= 108 * exp S).
  { rewrite Rabs_mult. assert (A1 : Rabs u <= 1 + 2 * S). { rewrite <- pow2_abs in US. pose proof (Rabs_pos u). pose proof (pow2_ge_0 (Rabs u - 1)). nra. }
    assert (A2 : Rabs (6 - 3 * S - 3 * u ^ 2 + u ^ 2 * S) <= 6 + 9 * S + 2 * S ^ 2).
    { assert (0 <= u ^ 2 * S <= 2 * S * S) by (split; [apply Rmult_le_pos; lra|apply Rmult_le_compat_r; lra]). apply Rabs_le. replace (S ^ 2) with (S * S) by ring. split; nra. }
    apply Rle_trans with ((1 + 2 * S) * (6 + 9 * S + 2 * S ^ 2)); [apply Rmult_le_compat; auto using Rabs_pos|].
    assert (0 <= S ^ 2) by apply pow2_ge_0. assert (0 <= S ^ 3) by now apply pow_le.
    replace ((1 + 2 * S) * (6 + 9 * S + 2 * S ^ 2)) with (6 + 21 * S + 20 * S ^ 2 + 4 * S ^ 3) by ring. lra. }
  apply Rle_trans with (sqrt g * (108 * exp S) * exp (- S)); [apply Rmult_le_compat_r; [left; apply exp_pos|]; apply Rmult_le_compat_l; [apply sqrt_pos|exact A]|].
  replace (sqrt g * (108 * exp S) * exp (- S)) with (108 * sqrt g * (exp S * exp (- S))) by ring. rewrite <- exp_plus, Rplus_opp_r, exp_0. lra.
Qed.

(** ** Matern32 *)

Lemma exp_square x : 0 <= x -> 1 + x + x ^ 2 / 4 <= exp x.
Proof.
  intros Hx. replace (exp x) with (exp (x / 2) * exp (x / 2)) by (rewrite <- !exp_plus; f_equal; field).
  pose proof (exp_ineq1_le (x / 2)). replace (1 + x + x ^ 2 / 4) with ((1 + x / 2) * (1 + x / 2)) by field.
  apply Rmult_le_compat; lra.
Qed.

Lemma mgrad_1d s : 0 < s -> lip2 (fun t => Rabs t ^ 2 * exp (- s * Rabs t)) (12 * s).
Proof.
  intros Hs. exists (fun t => t * (2 - s * Rabs t) * exp (- s * Rabs t)), (fun t => (2 - 4 * (s * Rabs t) + (s * Rabs t) ^ 2) * exp (- s * Rabs t)).
  split.
  - intros t. destruct (Rtotal_order t 0) as [Ht|[->|Ht]].
    + split; [apply (derive_neg _ (fun t => (- t) ^ 2 * exp (- s * - t)))|apply (derive_neg _ (fun t => t * (2 - s * - t) * exp (- s * - t)))];
        try exact Ht; try (intros u Hu; cbv beta; rewrite (Rabs_left u) by exact Hu; reflexivity);
        auto_derive; trivial; rewrite (Rabs_left t) by exact Ht; ring.
    + rewrite Rabs_R0. split.
      * apply (derive_of_quad _ _ _ 1). intros t. rewrite Rabs_R0.
        match goal with |- Rabs ?x <= _ => replace x with (t ^ 2 * exp (- s * Rabs t)) by (rewrite <- (pow2_abs t); ring) end.
        rewrite Rabs_mult, (Rabs_right (t ^ 2)), (Rabs_right (exp _)) by (apply Rle_ge; first [apply pow2_ge_0|left; apply exp_pos]). rewrite Rmult_1_l, Rminus_0_r.
        rewrite <- (Rmult_1_r (t ^ 2)) at 2. apply Rmult_le_compat_l; [apply pow2_ge_0|]. apply exp_le1. pose proof (Rabs_pos t). nra.
      * apply (derive_of_quad _ _ _ (3 * s)). intros t. set (v := s * Rabs t). assert (Hv : 0 <= v) by (unfold v; pose proof (Rabs_pos t); nra).
        rewrite Rabs_R0. replace (- s * Rabs t) with (- v) by (unfold v; ring). rewrite !Rmult_0_r, exp_0.
        replace (t * (2 - v) * exp (- v) - 0 * (2 - 0) * 1 - (2 - 0 + 0 ^ 2) * 1 * (t - 0)) with (t * ((2 - v) * exp (- v) - 2)) by ring.
        rewrite Rabs_mult. replace (3 * s * (t - 0) ^ 2) with (Rabs t * (3 * v)).
        2:{ unfold v. rewrite Rminus_0_r, <- (pow2_abs t). ring. }
        apply Rmult_le_compat_l; [apply Rabs_pos|]. pose proof (exp_neg_low v) as L. pose proof (exp_le1 (- v) ltac:(lra)) as U. pose proof (exp_pos (- v)) as P.
        apply Rabs_le. split.
        -- destruct (Rle_dec v 2); nra.
        -- destruct (Rle_dec v 2); nra.
    + split; [apply (derive_pos _ (fun t => t ^ 2 * exp (- s * t)))|apply (derive_pos _ (fun t => t * (2 - s * t) * exp (- s * t)))];
        try exact Ht; try (intros u Hu; cbv beta; rewrite (Rabs_right u) by lra; reflexivity);
        auto_derive; trivial; rewrite (Rabs_right t) by lra; ring.
  - assert (M : forall p r, 0 <= p -> 0 <= r -> Rabs ((2 - 4 * p + p ^ 2) * exp (- p) - (2 - 4 * r + r ^ 2) * exp (- r)) <= 12 * Rabs (p - r)).
    { intros p r Hp Hr. destruct (MVT_gen (fun x => (2 - 4 * x + x ^ 2) * exp (- x)) r p (fun x => (- 6 + 6 * x - x ^ 2) * exp (- x))) as [x [Hx E]].
      - intros y _. auto_derive; [trivial|ring].
      - intros y _. apply continuity_pt_filterlim. apply (ex_derive_continuous (fun x => (2 - 4 * x + x ^ 2) * exp (- x))). auto_derive. trivial.
      - rewrite E, Rabs_mult. apply Rmult_le_compat_r; [apply Rabs_pos|].
        assert (X0 : 0 <= x) by (destruct Hx as [Hx _]; eapply Rle_trans; [|exact Hx]; apply Rmin_glb; assumption).
        rewrite Rabs_mult, (Rabs_right (exp _)) by (left; apply exp_pos).
        assert (A : Rabs (- 6 + 6 * x - x ^ 2) <= 12 * exp x) by (pose proof (exp_square x X0); pose proof (pow2_ge_0 x); apply Rabs_le; lra).
        apply Rle_trans with (12 * exp x * exp (- x)); [apply Rmult_le_compat_r; [left; apply exp_pos|exact A]|].
        rewrite Rmult_assoc, <- exp_plus. replace (x + - x) with 0 by ring. rewrite exp_0. lra. }
    intros t u. pose proof (M (s * Rabs t) (s * Rabs u) ltac:(pose proof (Rabs_pos t); nra) ltac:(pose proof (Rabs_pos u); nra)) as Q.
    replace (- s * Rabs t) with (- (s * Rabs t)) by ring. replace (- s * Rabs u) with (- (s * Rabs u)) by ring. eapply Rle_trans; [exact Q|].
    rewrite <- Rmult_minus_distr_l, (Rabs_mult s), (Rabs_right s) by lra. pose proof (Rabs_triang_inv2 t u) as T. rewrite Rmult_assoc.
    apply Rmult_le_compat_l; [lra|]. apply Rmult_le_compat_l; lra.
Qed.

Lemma mgrad_any (r : R -> R) s : 0 < s -> (forall t, 0 < r t /\ Rabs t <= r t /\ is_derive r t (t / r t)) ->
  lip2 (fun t => r t ^ 2 * exp (- s * r t)) (12 * s).
Proof.
  intros Hs Hr.
  apply (lip2_third _ (fun t => t * (2 - s * r t) * exp (- s * r t)) (fun t => (2 - s * r t - 3 * s * (t * (t / r t)) + s ^ 2 * t ^ 2) * exp (- s * r t))
    (fun t => s * (- 9 * (t / r t) + 3 * (t / r t) ^ 3 + 3 * (s * r t) * (t / r t) + 3 * (s * r t) * (t / r t) ^ 3 - (s * r t) ^ 2 * (t / r t) ^ 3) * exp (- s * r t))).
  1-3: intros t; destruct (Hr t) as [R0 [_ D]]; pose proof (is_derive_unique r t _ D) as U; auto_derive;
    [repeat split; try (exists (t / r t); exact D); try lra|change (Derive (fun x => r x) t) with (Derive r t); rewrite U; field; lra].
  intros t. destruct (Hr t) as [R0 [RA _]]. set (p := t / r t). set (v := s * r t). assert (Hv : 0 <= v) by (unfold v; nra).
  assert (Hp : -1 <= p <= 1).
  { apply Rabs_le_between in RA. unfold p. split; apply (Rmult_le_reg_r (r t)); try exact R0; replace (t / r t * r t) with t by (field; lra); lra. }
  replace (- s * r t) with (- v) by (unfold v; ring).
  rewrite !Rabs_mult, (Rabs_right s), (Rabs_right (exp _)) by (apply Rle_ge; first [lra|left; apply exp_pos]).
  rewrite (Rmult_comm 12), Rmult_assoc. apply Rmult_le_compat_l; [lra|].
  assert (A : Rabs (- 9 * p + 3 * p ^ 3 + 3 * v * p + 3 * v * p ^ 3 - v ^ 2 * p ^ 3) <= 12 * exp v).
  { pose proof (exp_square v Hv). assert (C : -1 <= p ^ 3 <= 1).
    { assert (0 <= p * p <= 1) by nra. replace (p ^ 3) with (p * (p * p)) by ring. split; nra. }
    assert (V2 : 0 <= v ^ 2) by apply pow2_ge_0.
    assert (- v <= v * p ^ 3 <= v) by (split; nra). assert (- v <= v * p <= v) by (split; nra). assert (- v ^ 2 <= v ^ 2 * p ^ 3 <= v ^ 2) by (split; nra).
    apply Rabs_le. split; lra. }
  apply Rle_trans with (12 * exp v * exp (- v)); [apply Rmult_le_compat_r; [left; apply exp_pos|exact A]|].
  rewrite Rmult_assoc, <- exp_plus. replace (v + - v) with 0 by ring. rewrite exp_0. lra.
Qed.

Lemma matern_grad_smooth g nd : 0 < g -> smooth_fn (fun r => nth 0 (k_grad (Matern32 g) r) 0) nd (Rabs (- 3 * g) * (12 * (g * sqrt 3))).
Proof.
  intros Hg c Hc _. set (s := g * sqrt 3). assert (Hs : 0 < s) by (apply Rmult_lt_0_compat; [exact Hg|apply sqrt_lt_R0; lra]).
  assert (T3 : sqrt 3 * sqrt 3 = 3) by (apply sqrt_sqrt; lra).
  apply (lip2_ext (fun t => - 3 * g * (sqrt (t ^ 2 + c) ^ 2 * exp (- s * sqrt (t ^ 2 + c))))).
  { intros t. cbn [k_grad]. unfold matern32_grad_at. cbv zeta. cbn [nth]. set (d := sqrt (t ^ 2 + c)).
    replace (- s * d) with (- (d * sqrt 3 * g)) by (unfold s; ring). set (e := exp _).
    replace (-3 * g * (d ^ 2 * e)) with (- (sqrt 3 * sqrt 3) * g * (d ^ 2 * e)) by (rewrite T3; ring). ring. }
  apply lip2_scal. destruct Hc as [Hc|<-].
  - apply (mgrad_any (fun t => sqrt (t ^ 2 + c)) s Hs). intros t. assert (P0 : 0 < t ^ 2 + c) by (pose proof (pow2_ge_0 t); lra).
    assert (S0 : 0 < sqrt (t ^ 2 + c)) by now apply sqrt_lt_R0. split; [exact S0|]. split.
    + rewrite <- sqrt_Rsqr_abs. apply sqrt_le_1_alt. unfold Rsqr. lra.
    + auto_derive; [cbn [pow] in P0; lra|]. change (t * (t * 1)) with (t ^ 2). field. lra.
  - apply (lip2_ext (fun t => Rabs t ^ 2 * exp (- s * Rabs t))); [|now apply mgrad_1d].
    intros t. rewrite Rplus_0_r. replace (t ^ 2) with (Rsqr t) by (unfold Rsqr; ring). now rewrite sqrt_Rsqr_abs.
Qed.

(** ** StdPeriodic *)

Lemma even_abs (h : R -> R) t : (forall u, h (- u) = h u) -> h t = h (sqrt (t ^ 2 + 0)).
Proof.
  intros E. rewrite Rplus_0_r. replace (t ^ 2) with (Rsqr t) by (unfold Rsqr; ring). rewrite sqrt_Rsqr_abs.
  unfold Rabs. destruct (Rcase_abs t); [now rewrite E|reflexivity].
Qed.

Lemma bl_smooth h : (forall u, h (- u) = h u) -> bl h -> exists B, smooth_fn h 1 B.
Proof.
  intros E H. destruct (bl_lip2 h H) as [B HB]. exists B. intros c _ Hc. rewrite (Hc eq_refl).
  apply (lip2_ext h); [intros t; now apply even_abs|exact HB].
Qed.

Lemma periodic_grad_smooth g T r j : 0 < g -> 0 < T -> 0 < r -> (j < 2)%nat ->
  exists psi B, smooth_fn psi 1 B /\ forall t, 0 <= t <= r -> psi t = nth j (k_grad (StdPeriodic g T) t) 0.
Proof.
  intros Hg HT Hr Hj. set (w := PI / T).
  assert (BE : bl (fun t => exp (- (1 / 2) * g * (sin (w * t) * sin (w * t))))) by (apply bl_exp, bl_mult; [apply bl_const|apply bl_mult; apply bl_sin]).
  assert (SN : forall u, sin (w * - u) = - sin (w * u)) by (intros u; rewrite <- sin_neg; f_equal; ring).
  assert (CN : forall u, cos (w * - u) = cos (w * u)) by (intros u; rewrite <- cos_neg; f_equal; ring).
  destruct j as [|[|j]]; [| |lia].
  - set (psi := fun t => exp (- (1 / 2) * g * (sin (w * t) * sin (w * t))) * (- (1 / 2) * (sin (w * t) * sin (w * t)))).
    destruct (bl_smooth psi) as [B HB].
    + intros u. unfold psi. rewrite SN. replace (- sin (w * u) * - sin (w * u)) with (sin (w * u) * sin (w * u)) by ring. reflexivity.
    + apply bl_mult; [exact BE|]. apply bl_mult; [apply bl_const|apply bl_mult; apply bl_sin].
    + exists psi, B. split; [exact HB|]. intros t _. cbn [k_grad]. unfold std_periodic_grad_at. cbv zeta. cbn [nth]. unfold psi. fold w.
      replace (- (1 / 2) * g * (sin (w * t) * sin (w * t))) with (- (1 / 2) * (sin (w * t) * sin (w * t)) * g) by ring. ring.
  - set (psi := fun t => exp (- (1 / 2) * g * (sin (w * t) * sin (w * t))) * ((-1 * w * (-1 / T * g)) * (sin (w * t) * (cos (w * t) * trunc r t)))).
    destruct (bl_smooth psi) as [B HB].
    + intros u. unfold psi. rewrite SN, CN. replace (- sin (w * u) * - sin (w * u)) with (sin (w * u) * sin (w * u)) by ring.
      unfold trunc. rewrite over_opp by exact Hr. rewrite sin_neg. ring.
    + apply bl_mult; [exact BE|]. apply bl_mult; [apply bl_const|]. apply bl_mult; [apply bl_sin|]. apply bl_mult; [apply bl_cos|now apply bl_trunc].
    + exists psi, B. split; [exact HB|]. intros t Ht. cbn [k_grad]. unfold std_periodic_grad_at. cbv zeta. cbn [nth]. unfold psi. fold w.
      unfold trunc. rewrite over_in by (apply Rabs_le; lra). rewrite sin_0.
      replace (- (1 / 2) * g * (sin (w * t) * sin (w * t))) with (- (1 / 2) * (sin (w * t) * sin (w * t)) * g) by ring. ring.
Qed.
