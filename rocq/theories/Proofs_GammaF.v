(** The integral of the Gamma function converges to a positive number. *)

From Coq Require Import Reals List Arith Lia Lra Bool Classical.
From Coquelicot Require Import Coquelicot.
From Verif Require Import Base Model_Prior Spec_Prior Proofs_Prior Proofs_Prior2.
Open Scope R_scope.

Lemma mono_lim (F : R -> R) B : (forall x y, 1 <= x <= y -> F x <= F y) -> (forall x, 1 <= x -> F x <= B) ->
  exists l : R, filterlim F pinf (locally l).
Proof.
  intros Hm Hb. destruct (completeness (fun y => exists x, 1 <= x /\ y = F x)) as [l [H1 H2]].
  - exists B. intros y [x [Hx ->]]. now apply Hb.
  - exists (F 1), 1. split; [lra|reflexivity].
  - exists l. assert (U : forall x, 1 <= x -> F x <= l) by (intros x Hx; apply H1; now exists x).
    intros P [e He]. pose proof (cond_pos e) as Pe.
    assert (X : exists x, 1 <= x /\ l - e < F x).
    { apply NNPP. intros N. assert (l <= l - e); [|lra]. apply H2. intros y [x [Hx ->]]. apply Rnot_lt_le. intros L. apply N. now exists x. }
    destruct X as [x [Hx Hl]]. exists x. intros y Hy. apply He. change (Rabs (F y - l) < e).
    pose proof (Hm x y ltac:(lra)). pose proof (U y ltac:(lra)). apply Rabs_def1; lra.
Qed.

Section Gamma.
  Variable a : R.
  Hypothesis Ha : 0 < a.
  Definition gf (t : R) : R := Rpower t (a - 1) * exp (- t).
  Lemma gf_pos t : 0 < gf t.
  Proof. unfold gf. apply Rmult_lt_0_compat; apply exp_pos. Qed.
  Lemma gf_cont t : 0 < t -> continuous gf t.
  Proof. intros Ht. apply (ex_derive_continuous gf). unfold gf, Rpower. auto_derive. exact Ht. Qed.
  Lemma gf_int u v : 0 < u -> 0 < v -> ex_RInt gf u v.
  Proof. intros Hu Hv. apply (ex_RInt_continuous (V := R_CompleteNormedModule)). intros z [Hz _]. apply gf_cont. apply Rlt_le_trans with (2 := Hz). now apply Rmin_glb_lt. Qed.
  Lemma gf_chasles u v w : 0 < u -> 0 < v -> 0 < w -> RInt gf u w = RInt gf u v + RInt gf v w.
  Proof. intros Hu Hv Hw. symmetry. apply (RInt_Chasles (V := R_CompleteNormedModule) gf u v w); now apply gf_int. Qed.
  Lemma gf_nonneg u v : 0 < u <= v -> 0 <= RInt gf u v.
  Proof. intros H. apply RInt_ge_0; [lra|apply gf_int; lra|]. intros x _. left. apply gf_pos. Qed.

  Lemma le_exp x y : x <= y -> exp x <= exp y.
  Proof. intros [H| ->]; [left; now apply exp_increasing|apply Rle_refl]. Qed.

  Lemma right_bound : exists B, forall v, 1 <= v -> RInt gf 1 v <= B.
  Proof.
    set (A := a + 1). set (c := exp (A * ln (2 * A))).
    assert (P : forall t, 1 <= t -> gf t <= c * exp (- t / 2)).
    { intros t Ht. unfold gf, c, Rpower. rewrite <- !exp_plus. apply le_exp.
      assert (L0 : 0 <= ln t) by (rewrite <- ln_1; destruct Ht as [Ht|<-]; [left; apply ln_increasing; lra|apply Rle_refl]).
      assert (L1 : 1 + ln (t / (2 * A)) <= t / (2 * A)).
      { rewrite <- (exp_ln (t / (2 * A))) at 2 by (apply Rdiv_lt_0_compat; unfold A; lra). apply exp_ineq1_le. }
      rewrite ln_quot in L1 by (unfold A; lra).
      assert (L2 : A * ln t <= t / 2 + A * ln (2 * A)).
      { assert (A * (1 + (ln t - ln (2 * A))) <= A * (t / (2 * A))) by (apply Rmult_le_compat_l; unfold A in *; lra).
        replace (A * (t / (2 * A))) with (t / 2) in H by (field; unfold A; lra). unfold A in *. lra. }
      assert ((a - 1) * ln t <= A * ln t) by (apply Rmult_le_compat_r; unfold A; lra). lra. }
    exists (2 * c). intros v Hv.
    assert (Q : is_RInt (fun t => c * exp (- t / 2)) 1 v (- 2 * c * exp (- v / 2) - - 2 * c * exp (- 1 / 2))).
    { apply (is_RInt_derive (V := R_CompleteNormedModule) (fun t => - 2 * c * exp (- t / 2))).
      - intros x _. auto_derive; [exact I|]. unfold Rdiv. field.
      - intros x _. apply (ex_derive_continuous (fun t => c * exp (- t / 2))). auto_derive. exact I. }
    apply Rle_trans with (RInt (fun t => c * exp (- t / 2)) 1 v).
    - apply RInt_le; [exact Hv|apply gf_int; lra|eexists; exact Q|]. intros x Hx. apply P. lra.
    - rewrite (is_RInt_unique _ _ _ _ Q). assert (C : 0 < c) by apply exp_pos. assert (exp (- 1 / 2) <= 1) by (rewrite <- exp_0; apply le_exp; lra).
      pose proof (exp_pos (- v / 2)). assert (0 <= c * exp (- v / 2)) by (apply Rmult_le_pos; lra).
      assert (c * exp (- 1 / 2) <= c * 1) by (apply Rmult_le_compat_l; lra). lra.
  Qed.
  Lemma left_bound u : 0 < u <= 1 -> RInt gf u 1 <= / a.
  Proof.
    intros Hu.
    assert (Q : is_RInt (fun t => Rpower t (a - 1)) u 1 (Rpower 1 a / a - Rpower u a / a)).
    { apply (is_RInt_derive (V := R_CompleteNormedModule) (fun t => Rpower t a / a)).
      - intros x [Hx _]. rewrite Rmin_left in Hx by lra. unfold Rpower. auto_derive; [lra|].
        replace ((a - 1) * ln x) with (a * ln x + - ln x) by ring. rewrite exp_plus, exp_Ropp, exp_ln by lra. field. lra.
      - intros x [Hx _]. rewrite Rmin_left in Hx by lra. apply (ex_derive_continuous (fun t => Rpower t (a - 1))). unfold Rpower. auto_derive. lra. }
    apply Rle_trans with (RInt (fun t => Rpower t (a - 1)) u 1).
    - apply RInt_le; [lra|apply gf_int; lra|eexists; exact Q|]. intros x Hx. unfold gf. rewrite <- (Rmult_1_r (Rpower x (a - 1))) at 2.
      apply Rmult_le_compat_l; [left; apply exp_pos|]. rewrite <- exp_0. apply le_exp. lra.
    - rewrite (is_RInt_unique _ _ _ _ Q). unfold Rpower at 1. rewrite ln_1, Rmult_0_r, exp_0. assert (0 < Rpower u a / a) by (apply Rdiv_lt_0_compat; [apply exp_pos|exact Ha]). lra.
  Qed.

  Lemma gf_converges : exists l : R, is_RInt_gen gf zero' pinf l.
  Proof.
    destruct right_bound as [B HB].
    destruct (mono_lim (fun v => RInt gf 1 v) B) as [l2 H2].
    - intros x y H. rewrite (gf_chasles 1 x y) by lra. pose proof (gf_nonneg x y). lra.
    - exact HB.
    - destruct (mono_lim (fun v => RInt gf (/ v) 1) (/ a)) as [l1 H1].
      + intros x y H. assert (0 < / y) by (apply Rinv_0_lt_compat; lra). assert (/ y <= / x) by (apply Rinv_le_contravar; lra). rewrite (gf_chasles (/ y) (/ x) 1) by lra.
        pose proof (gf_nonneg (/ y) (/ x)). lra.
      + intros x Hx. apply left_bound. split; [apply Rinv_0_lt_compat; lra|]. rewrite <- Rinv_1. apply Rinv_le_contravar; lra.
      + exists (plus l1 l2). apply (is_RInt_gen_Chasles (V := R_NormedModule) gf 1).
        * intros P HP. destruct (filterlim_Rinv_0_right _ (H1 P HP)) as [e He].
          apply (Filter_prod _ _ _ (fun u => 0 < u /\ P (RInt gf u 1)) (fun b => b = 1)); [|reflexivity|].
          -- exists e. intros u Hu Hp. split; [exact Hp|]. specialize (He u Hu Hp). cbv beta in He. rewrite Rinv_inv in He. exact He.
          -- intros u b [Hu HP'] ->. exists (RInt gf u 1). split; [|exact HP']. apply (RInt_correct (V := R_CompleteNormedModule)). apply gf_int; lra.
        * intros P HP. destruct (H2 P HP) as [M HM].
          apply (Filter_prod _ _ _ (fun u => u = 1) (fun b => Rmax M 1 < b)); [reflexivity|exists (Rmax M 1); auto|].
          intros u b -> Hb. pose proof (Rmax_l M 1). pose proof (Rmax_r M 1). exists (RInt gf 1 b). split; [|apply HM; lra].
          apply (RInt_correct (V := R_CompleteNormedModule)). apply gf_int; lra.
  Qed.
  Lemma gf_positive (l : R) : is_RInt_gen gf zero' pinf l -> 0 < l.
  Proof.
    intros H. assert (C : 0 < RInt gf 1 2) by (apply RInt_gt_0; [lra|intros; apply gf_pos|intros x Hx; apply gf_cont; lra]).
    destruct (H (fun y => Rabs (y - l) < RInt gf 1 2)) as [Q S [e He] [N HN] HQ]; [exists (mkposreal _ C); auto|].
    set (u := Rmin (e / 2) (1 / 2)). set (v := Rmax (N + 1) 3). pose proof (cond_pos e) as Pe.
    assert (Hu : 0 < u) by (apply Rmin_glb_lt; lra). pose proof (Rmin_l (e / 2) (1 / 2)). pose proof (Rmin_r (e / 2) (1 / 2)). pose proof (Rmax_l (N + 1) 3). pose proof (Rmax_r (N + 1) 3). fold u in H0, H1. fold v in H2, H3.
    destruct (HQ u v) as [y [Hy Ey]].
    - apply He; [|exact Hu]. change (Rabs (u - 0) < e). rewrite Rminus_0_r, Rabs_right; lra.
    - apply HN. lra.
    - cbn [fst snd] in Hy. apply (is_RInt_unique (V := R_CompleteNormedModule) gf u v y) in Hy. rewrite (gf_chasles u 1 v), (gf_chasles 1 2 v) in Hy by lra.
      pose proof (gf_nonneg u 1 ltac:(lra)). pose proof (gf_nonneg 2 v ltac:(lra)). apply Rabs_def2 in Ey.
      assert (RInt gf u 1 + (RInt gf 1 2 + RInt gf 2 v) = y) by exact Hy. lra.
  Qed.
End Gamma.

Lemma Gamma_positive G : is_Gamma G -> forall a, 0 < a -> 0 < G a.
Proof. intros H a Ha. apply (gf_positive a). now apply H. Qed.
Lemma Gamma_exists : exists G, is_Gamma G.
Proof.
  exists (fun a => RInt_gen (gf a) zero' pinf). intros a Ha. apply (RInt_gen_correct (V := R_CompleteNormedModule) (gf a)).
  destruct (gf_converges a Ha) as [l Hl]. exists l. exact Hl.
Qed.
