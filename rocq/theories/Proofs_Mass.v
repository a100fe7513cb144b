(** The mass of a normal distribution within two standard deviations. *)

From Coq Require Import Reals List Arith Lia Lra Machin Ratan.
From Verif Require Import Spec_Bench.
Open Scope R_scope.

(** ** Bounds on the exponential *)
Definition E (n : nat) (t : R) : R := sum_f_R0 (fun k => (- t) ^ k / INR (fact k)) n.

Lemma E_0 n : E n 0 = 1.
Proof.
  unfold E. induction n as [|n IH]; [cbn; field|]. cbn [sum_f_R0]. rewrite IH, Ropp_0, pow_i by lia. unfold Rdiv. ring.
Qed.

Lemma E_deriv n t : derivable_pt_lim (E (S n)) t (- E n t).
Proof.
  unfold E. induction n as [|n IH].
  - cbn [sum_f_R0]. apply (derivable_pt_lim_ext (fun t => 1 - t)).
    + intros x. cbn. field.
    + replace (- ((- t) ^ 0 / INR (fact 0))) with (0 - 1) by (cbn; field). apply derivable_pt_lim_minus; [apply derivable_pt_lim_const|apply derivable_pt_lim_id].
  - set (n' := S n) in *. apply (derivable_pt_lim_ext (fun t => sum_f_R0 (fun k => (- t) ^ k / INR (fact k)) n' + (- t) ^ S n' / INR (fact (S n')))); [intros x; reflexivity|].
    assert (H : derivable_pt_lim (fun t => (- t) ^ S n' / INR (fact (S n'))) t (- ((- t) ^ n' / INR (fact n')))).
    { apply (derivable_pt_lim_ext (fun t => / INR (fact (S n')) * (- t) ^ S n')); [intros x; unfold Rdiv; ring|].
      replace (- ((- t) ^ n' / INR (fact n'))) with (/ INR (fact (S n')) * (INR (S n') * (- t) ^ n' * (-1))).
      - apply derivable_pt_lim_scal. apply (derivable_pt_lim_comp (fun t => - t) (fun y => y ^ S n')).
        + apply (derivable_pt_lim_ext (fun x => 0 - x)); [intros; ring|]. replace (-1) with (0 - 1) by ring. apply derivable_pt_lim_minus; [apply derivable_pt_lim_const|apply derivable_pt_lim_id].
        + apply derivable_pt_lim_pow.
      - rewrite fact_simpl, mult_INR. field. split; [apply INR_fact_neq_0|apply not_0_INR; unfold n'; lia]. }
    replace (- sum_f_R0 (fun k => (- t) ^ k / INR (fact k)) n') with (- sum_f_R0 (fun k => (- t) ^ k / INR (fact k)) n + - ((- t) ^ n' / INR (fact n'))) by (unfold n'; cbn [sum_f_R0]; ring).
    apply derivable_pt_lim_plus; assumption.
Qed.

Lemma exp_opp_deriv t : derivable_pt_lim (fun t => exp (- t)) t (- exp (- t)).
Proof.
  replace (- exp (- t)) with (exp (- t) * (-1)) by ring. apply (derivable_pt_lim_comp (fun t => - t) exp).
  - apply (derivable_pt_lim_ext (fun x => 0 - x)); [intros; ring|]. replace (-1) with (0 - 1) by ring. apply derivable_pt_lim_minus; [apply derivable_pt_lim_const|apply derivable_pt_lim_id].
  - apply derivable_pt_lim_exp.
Qed.

(** A function with non-negative derivative does not decrease. *)
Lemma grows f f' a b : a <= b -> (forall c, a <= c <= b -> derivable_pt_lim f c (f' c)) -> (forall c, a <= c <= b -> 0 <= f' c) -> f a <= f b.
Proof.
  intros [H|H] D P; [|subst; lra]. destruct (MVT_cor2 f f' a b H D) as [c [Ec Hc]]. assert (0 <= f' c) by (apply P; lra). nra.
Qed.

Lemma exp_bounds n : forall t, 0 <= t -> 0 <= (-1) ^ n * (E n t - exp (- t)).
Proof.
  induction n as [|n IH]; intros t Ht.
  - unfold E. cbn. assert (exp (- t) <= 1) by (rewrite <- exp_0; destruct Ht as [Ht|<-]; [left; apply exp_increasing; lra|right; f_equal; ring]). lra.
  - pose proof (grows (fun x => (-1) ^ S n * (E (S n) x - exp (- x))) (fun x => (-1) ^ n * (E n x - exp (- x))) 0 t Ht) as G. cbv beta in G.
    rewrite E_0, Ropp_0, exp_0 in G. replace ((-1) ^ S n * (1 - 1)) with 0 in G by ring. apply G.
    + intros c _. replace ((-1) ^ n * (E n c - exp (- c))) with ((-1) ^ S n * (- E n c - - exp (- c))) by (cbn; ring).
      apply (derivable_pt_lim_scal (fun x => E (S n) x - exp (- x))). apply derivable_pt_lim_minus; [apply E_deriv|apply exp_opp_deriv].
    + intros c Hc. apply IH. lra.
Qed.

(** ** The number pi *)
Lemma PI_bounds : 314 / 100 <= PI <= 3143 / 1000.
Proof.
  pose proof (PI_2_3_7_ineq 1) as [L U]. unfold tg_alt, PI_2_3_7_tg, Ratan_seq in L, U. cbn in L, U. split; lra.
Qed.

(** ** Masses *)

(** Antiderivatives of the bounds. *)
Definition A (n : nat) (u : R) : R := sum_f_R0 (fun k => (-1) ^ k * u ^ (2 * k + 1) / (2 ^ k * INR (fact k) * INR (2 * k + 1))) n.

Lemma A_deriv n u : derivable_pt_lim (A n) u (E n (u ^ 2 / 2)).
Proof.
  assert (T : forall k, derivable_pt_lim (fun u => (-1) ^ k * u ^ (2 * k + 1) / (2 ^ k * INR (fact k) * INR (2 * k + 1))) u ((- (u ^ 2 / 2)) ^ k / INR (fact k))).
  { intros k. apply (derivable_pt_lim_ext (fun u => (-1) ^ k / (2 ^ k * INR (fact k) * INR (2 * k + 1)) * u ^ (2 * k + 1))); [intros x; unfold Rdiv; ring|].
    replace ((- (u ^ 2 / 2)) ^ k / INR (fact k)) with ((-1) ^ k / (2 ^ k * INR (fact k) * INR (2 * k + 1)) * (INR (2 * k + 1) * u ^ (Nat.pred (2 * k + 1)))).
    - apply derivable_pt_lim_scal. apply derivable_pt_lim_pow.
    - replace (Nat.pred (2 * k + 1)) with (2 * k)%nat by lia. rewrite pow_mult. replace (- (u ^ 2 / 2)) with (-1 * (u ^ 2 * / 2)) by field. rewrite !Rpow_mult_distr, pow_inv.
      field. repeat split; try apply INR_fact_neq_0; try (apply pow_nonzero; lra); apply not_0_INR; lia. }
  unfold A, E. induction n as [|n IH]; [apply T|]. cbn [sum_f_R0]. apply derivable_pt_lim_plus; [exact IH|apply T].
Qed.

Section Mass.
Variables (m v : R) (F : R -> R).
Hypothesis Hv : 0 < v.
Let sd := sqrt v.
Hypothesis HF : forall x, m - 2 * sd <= x <= m + 2 * sd -> derivable_pt_lim F x (normal_pdf m v x).

Lemma sd_pos : 0 < sd. Proof. now apply sqrt_lt_R0. Qed.
Lemma sd_sq : sd * sd = v. Proof. apply sqrt_sqrt. lra. Qed.

Lemma scaled_deriv u : -2 <= u <= 2 -> derivable_pt_lim (fun u => sqrt (2 * PI) * F (m + sd * u)) u (exp (- (u ^ 2 / 2))).
Proof.
  intros Hu. pose proof sd_pos. pose proof sd_sq. pose proof PI_RGT_0.
  assert (S2 : 0 < sqrt (2 * PI)) by (apply sqrt_lt_R0; lra).
  replace (exp (- (u ^ 2 / 2))) with (sqrt (2 * PI) * (normal_pdf m v (m + sd * u) * sd)).
  - apply derivable_pt_lim_scal. apply (derivable_pt_lim_comp (fun u => m + sd * u) F).
    + pose proof (derivable_pt_lim_plus (fun _ => m) (fun u => sd * u) u 0 (sd * 1) (derivable_pt_lim_const m u) (derivable_pt_lim_scal id sd u 1 (derivable_pt_lim_id u))) as D.
      replace (0 + sd * 1) with sd in D by ring. exact D.
    + apply HF. nra.
  - unfold normal_pdf. rewrite (sqrt_mult (2 * PI) v) by lra. fold sd. replace (- (m + sd * u - m) ^ 2 / (2 * v)) with (- (u ^ 2 / 2)); [field; lra|]. rewrite <- sd_sq. field. lra.
Qed.

Lemma A_values : 2388 / 1000 <= A 7 2 - A 7 (-2) /\ A 8 2 - A 8 (-2) <= 2394 / 1000.
Proof.
  assert (F0 : INR (fact 0) = 1) by reflexivity. assert (F1 : INR (fact 1) = 1) by reflexivity.
  assert (F2 : INR (fact 2) = 2) by (rewrite INR_IZR_INZ; reflexivity). assert (F3 : INR (fact 3) = 6) by (rewrite INR_IZR_INZ; reflexivity).
  assert (F4 : INR (fact 4) = 24) by (rewrite INR_IZR_INZ; reflexivity). assert (F5 : INR (fact 5) = 120) by (rewrite INR_IZR_INZ; reflexivity).
  assert (F6 : INR (fact 6) = 720) by (rewrite INR_IZR_INZ; reflexivity). assert (F7 : INR (fact 7) = 5040) by (rewrite INR_IZR_INZ; reflexivity).
  assert (F8 : INR (fact 8) = 40320) by (rewrite INR_IZR_INZ; reflexivity).
  unfold A. cbn [sum_f_R0]. rewrite F0, F1, F2, F3, F4, F5, F6, F7, F8. rewrite !INR_IZR_INZ. cbn [Nat.mul Nat.add Z.of_nat Pos.of_succ_nat Pos.succ]. split; lra.
Qed.

Lemma mass_bounds : 95 / 100 <= F (m + 2 * sd) - F (m - 2 * sd) <= 96 / 100.
Proof.
  pose proof PI_bounds as PB. assert (S2 : 0 < sqrt (2 * PI)) by (apply sqrt_lt_R0; lra).
  assert (SS : sqrt (2 * PI) * sqrt (2 * PI) = 2 * PI) by (apply sqrt_sqrt; lra).
  assert (LU : 250 / 100 <= sqrt (2 * PI) <= 2508 / 1000) by (split; nra).
  pose proof A_values as [AL AU].
  assert (G1 : A 7 2 - A 7 (-2) <= sqrt (2 * PI) * F (m + sd * 2) - sqrt (2 * PI) * F (m + sd * -2)).
  { pose proof (grows (fun u => sqrt (2 * PI) * F (m + sd * u) - A 7 u) (fun u => exp (- (u ^ 2 / 2)) - E 7 (u ^ 2 / 2)) (-2) 2 ltac:(lra)) as G. cbv beta in G.
    assert (sqrt (2 * PI) * F (m + sd * -2) - A 7 (-2) <= sqrt (2 * PI) * F (m + sd * 2) - A 7 2); [|lra]. apply G.
    - intros c Hc. apply derivable_pt_lim_minus; [now apply scaled_deriv|apply A_deriv].
    - intros c _. assert (Hc : 0 <= c ^ 2 / 2) by (pose proof (pow2_ge_0 c); lra). pose proof (exp_bounds 7 _ Hc) as B. cbn [pow] in B. cbn [pow]. lra. }
  assert (G2 : sqrt (2 * PI) * F (m + sd * 2) - sqrt (2 * PI) * F (m + sd * -2) <= A 8 2 - A 8 (-2)).
  { pose proof (grows (fun u => A 8 u - sqrt (2 * PI) * F (m + sd * u)) (fun u => E 8 (u ^ 2 / 2) - exp (- (u ^ 2 / 2))) (-2) 2 ltac:(lra)) as G. cbv beta in G.
    assert (A 8 (-2) - sqrt (2 * PI) * F (m + sd * -2) <= A 8 2 - sqrt (2 * PI) * F (m + sd * 2)); [|lra]. apply G.
    - intros c Hc. apply derivable_pt_lim_minus; [apply A_deriv|now apply scaled_deriv].
    - intros c _. assert (Hc : 0 <= c ^ 2 / 2) by (pose proof (pow2_ge_0 c); lra). pose proof (exp_bounds 8 _ Hc) as B. cbn [pow] in B. cbn [pow]. lra. }
  replace (m + sd * 2) with (m + 2 * sd) in * by ring. replace (m + sd * -2) with (m - 2 * sd) in * by ring.
  set (d := F (m + 2 * sd) - F (m - 2 * sd)). assert (G1' : 2388 / 1000 <= sqrt (2 * PI) * d) by (unfold d; lra). assert (G2' : sqrt (2 * PI) * d <= 2394 / 1000) by (unfold d; lra).
  split; nra.
Qed.
End Mass.

Lemma pdf_continuous m v : 0 < v -> continuity (normal_pdf m v).
Proof. intros Hv. apply derivable_continuous. intros x. unfold normal_pdf. apply derivable_pt_mult; [|apply derivable_pt_const].
  apply (derivable_pt_comp (fun y => - (y - m) ^ 2 / (2 * v)) exp); [|apply derivable_pt_exp]. unfold Rdiv. apply derivable_pt_mult; [|apply derivable_pt_const].
  apply derivable_pt_opp. apply (derivable_pt_comp (fun y => y - m) (fun y => y ^ 2)); [|apply derivable_pt_pow]. apply derivable_pt_minus; [apply derivable_pt_id|apply derivable_pt_const].
Qed.

Lemma mass_integral m v : 0 < v -> let sd := sqrt v in
  exists pr : Riemann_integrable (normal_pdf m v) (m - 2 * sd) (m + 2 * sd), 95 / 100 <= RiemannInt pr <= 96 / 100.
Proof.
  intros Hv sd. assert (S : 0 < sd) by now apply sqrt_lt_R0. set (a := m - 2 * sd). set (b := m + 2 * sd). assert (H : a <= b) by (unfold a, b; lra).
  assert (C0 : forall x, a <= x <= b -> continuity_pt (normal_pdf m v) x) by (intros; now apply pdf_continuous).
  set (FT := FTC_P1 H C0). exists (continuity_implies_RiemannInt H C0).
  rewrite (RiemannInt_P20 H FT). pose proof (RiemannInt_P29 H C0) as [An _]. apply (mass_bounds m v (primitive H FT) Hv).
  intros x Hx. destruct (An x Hx) as [pr E']. rewrite E'. now apply (derive_pt_eq_1 _ _ _ pr).
Qed.
