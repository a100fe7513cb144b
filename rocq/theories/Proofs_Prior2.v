(** Moments of the Gamma prior and normalisation of the densities. *)

From Coq Require Import Reals List Arith Lia Lra Bool.
From Coquelicot Require Import Coquelicot.
From Verif Require Import Base Model_Prior Spec_Prior Proofs_Prior.
Import ListNotations.
Open Scope R_scope.

Notation pinf := (Rbar_locally p_infty).
Notation zero' := (at_right 0).

Lemma RIntg_finer (Fa Fb Ga Gb : (R -> Prop) -> Prop) f (l : R) :
  (forall P, Fa P -> Ga P) -> (forall P, Fb P -> Gb P) -> is_RInt_gen f Fa Fb l -> is_RInt_gen f Ga Gb l.
Proof. intros Ha Hb H P HP. destruct (H P HP) as [Q S HQ HS H']. exact (Filter_prod _ _ _ Q S (Ha _ HQ) (Hb _ HS) H'). Qed.

(** Equal on the positive numbers. *)
Lemma RIntg_ext f g (l : R) : (forall x, 0 < x -> f x = g x) -> is_RInt_gen f zero' pinf l -> is_RInt_gen g zero' pinf l.
Proof.
  intros E. apply is_RInt_gen_ext. apply (Filter_prod _ _ _ (fun a => 0 < a) (fun b => 0 < b)).
  - exists (mkposreal 1 Rlt_0_1). intros y _ Hy. exact Hy.
  - exists 0. auto.
  - intros a b Ha Hb x [H1 H2]. cbn [fst snd] in *. apply E. apply Rlt_trans with (2 := H1). now apply Rmin_glb_lt.
Qed.
Lemma RIntg_scal f c (l : R) : is_RInt_gen f zero' pinf l -> is_RInt_gen (fun x => c * f x) zero' pinf (c * l).
Proof. apply (is_RInt_gen_scal (V := R_NormedModule)). Qed.
Lemma RIntg_plus f g (l m : R) : is_RInt_gen f zero' pinf l -> is_RInt_gen g zero' pinf m -> is_RInt_gen (fun x => f x + g x) zero' pinf (l + m).
Proof. apply (is_RInt_gen_plus (V := R_NormedModule)). Qed.
Lemma RIntg_minus f g (l m : R) : is_RInt_gen f zero' pinf l -> is_RInt_gen g zero' pinf m -> is_RInt_gen (fun x => f x - g x) zero' pinf (l - m).
Proof. apply (is_RInt_gen_minus (V := R_NormedModule)). Qed.

(** Scaling the variable. *)
Lemma RIntg_lin f c (l : R) : 0 < c -> is_RInt_gen f zero' pinf l -> is_RInt_gen (fun x => c * f (c * x)) zero' pinf l.
Proof.
  intros Hc H P HP. destruct (H P HP) as [Q S [M HM] [N HN] H']. apply (Filter_prod _ _ _ (fun a => Q (c * a)) (fun b => S (c * b))).
  - assert (H0 : 0 < M / c) by (apply Rdiv_lt_0_compat; [apply cond_pos|exact Hc]). exists (mkposreal _ H0). intros y Hy Hp. apply HM.
    + change (Rabs (c * y - 0) < M). change (Rabs (y - 0) < M / c) in Hy. rewrite Rminus_0_r in *. rewrite Rabs_mult, (Rabs_right c) by lra.
      apply Rmult_lt_reg_r with (/ c); [now apply Rinv_0_lt_compat|]. replace (c * Rabs y * / c) with (Rabs y) by (field; lra). exact Hy.
    + now apply Rmult_lt_0_compat.
  - exists (N / c). intros y Hy. apply HN. apply Rmult_lt_reg_r with (/ c); [now apply Rinv_0_lt_compat|].
    replace (c * y * / c) with y by (field; lra). exact Hy.
  - intros a b Ha Hb. destruct (H' _ _ Ha Hb) as [y [Hy Py]]. exists y. split; [|exact Py]. cbn [fst snd] in *.
    apply (is_RInt_ext (fun x => scal c (f (c * x + 0)))); [intros x _; rewrite Rplus_0_r; reflexivity|].
    apply (is_RInt_comp_lin (V := R_NormedModule)). now rewrite !Rplus_0_r.
Qed.

(** ** Powers times exponentials *)

Lemma Rpower_lim0 a : 0 < a -> filterlim (fun x => Rpower x a) zero' (locally 0).
Proof.
  intros Ha P [e He]. assert (0 < exp (ln e / a)) by apply exp_pos. exists (mkposreal _ H). intros y Hy Hp. apply He.
  change (Rabs (Rpower y a - 0) < e). change (Rabs (y - 0) < exp (ln e / a)) in Hy. rewrite Rminus_0_r in *.
  rewrite Rabs_right in * by (try (left; apply exp_pos); lra). unfold Rpower. rewrite <- (exp_ln e) by apply cond_pos. apply exp_increasing.
  apply ln_increasing in Hy; [|exact Hp]. rewrite ln_exp in Hy. apply Rmult_lt_compat_l with (r := a) in Hy; [|exact Ha]. replace (a * (ln e / a)) with (ln e) in Hy by (field; lra). exact Hy.
Qed.
Lemma Rpower_exp_inf a b : 0 < b -> filterlim (fun x => Rpower x a * exp (- b * x)) pinf (locally 0).
Proof.
  intros Hb. assert (L : is_lim (fun x => exp (x * (a * (ln x / x) - b))) p_infty 0).
  { apply (is_lim_comp exp (fun x => x * (a * (ln x / x) - b)) p_infty 0 m_infty); [apply is_lim_exp_m| |exists 0; intros; discriminate].
    replace m_infty with (Rbar_mult p_infty (- b)%R).
    2:{ unfold Rbar_mult, Rbar_mult'. destruct (Rle_dec 0 (- b)); [exfalso; lra|reflexivity]. }
    apply is_lim_mult; [apply is_lim_id| |cbn; lra].
    replace (Finite (- b)) with (Finite (a * 0 - b)) by (f_equal; ring).
    apply is_lim_minus'; [|apply is_lim_const]. apply (is_lim_scal_l (fun x => ln x / x) a p_infty 0). apply is_lim_div_ln_p. }
  unfold is_lim in L. cbn [Rbar_locally'] in L. eapply filterlim_ext_loc; [|exact L].
  exists 0. intros x Hx. unfold Rpower. rewrite <- exp_plus. f_equal. field. lra.
Qed.
Lemma mul_pow x a : 0 < x -> x * Rpower x (a - 1) = Rpower x a.
Proof. intros Hx. rewrite <- (Rpower_1 x) at 1 by exact Hx. rewrite <- Rpower_plus. f_equal. ring. Qed.

Definition pe (a b x : R) : R := Rpower x (a - 1) * exp (- b * x).

(** Integration by parts. *)
Lemma parts a b (l : R) : 0 < a -> 0 < b -> is_RInt_gen (pe a b) zero' pinf l -> is_RInt_gen (pe (a + 1) b) zero' pinf (a / b * l).
Proof.
  intros Ha Hb H. set (F := fun x => Rpower x a * exp (- b * x)).
  assert (D : forall x, 0 < x -> is_derive F x (a * pe a b x - b * pe (a + 1) b x)).
  { intros x Hx. unfold F, pe, Rpower. auto_derive; [exact Hx|]. replace (a + 1 - 1) with a by ring. 
    replace ((a - 1) * ln x) with (a * ln x + - ln x) by ring. rewrite exp_plus, exp_Ropp, exp_ln by exact Hx. field. lra. }
  assert (I : is_RInt_gen (Derive F) zero' pinf (0 - 0)).
  { assert (Near : filter_prod zero' pinf (fun ab => 0 < fst ab /\ 0 < snd ab)).
    { apply (Filter_prod _ _ _ (fun a => 0 < a) (fun b => 0 < b)); [|exists 0; auto|intros; split; assumption].
      exists (mkposreal 1 Rlt_0_1). intros y _ Hy. exact Hy. }
    apply is_RInt_gen_Derive.
    - eapply filter_imp; [|exact Near]. intros [u v] [Hu Hv] x [H1 H2]. cbn [fst snd] in *. assert (0 < x) by (apply Rlt_le_trans with (2 := H1); now apply Rmin_glb_lt).
      eexists. now apply D.
    - eapply filter_imp; [|exact Near]. intros [u v] [Hu Hv] x [H1 H2]. cbn [fst snd] in *. assert (Hx : 0 < x) by (apply Rlt_le_trans with (2 := H1); now apply Rmin_glb_lt).
      apply (continuous_ext_loc _ (fun x => a * pe a b x - b * pe (a + 1) b x)).
      + assert (0 < x / 2) by lra. exists (mkposreal _ H0). intros y Hy. change (Rabs (y - x) < x / 2) in Hy. symmetry. apply is_derive_unique, D. apply Rabs_def2 in Hy. lra.
      + apply (ex_derive_continuous (fun x => a * pe a b x - b * pe (a + 1) b x)). unfold pe, Rpower. auto_derive. repeat split; exact Hx.
    - replace 0 with (0 * exp (- b * 0)) at 2 by ring. apply (filterlim_comp_2 (G := locally 0) (H := locally (exp (- b * 0))) (fun x => Rpower x a) (fun x => exp (- b * x)) Rmult).
      + now apply Rpower_lim0.
      + apply (filterlim_filter_le_1 (fun x => exp (- b * x)) (filter_le_within (F := locally 0) (fun x => 0 < x))).
        apply (continuous_comp (fun x => - b * x) exp 0); [apply (continuous_mult (fun _ => - b)); [apply continuous_const|apply continuous_id]|apply continuous_exp].
      + apply (filterlim_mult (K := R_AbsRing)).
    - now apply Rpower_exp_inf. }
  assert (J : is_RInt_gen (fun x => / b * (a * pe a b x - Derive F x)) zero' pinf (/ b * (a * l - (0 - 0)))).
  { apply RIntg_scal. apply RIntg_minus; [now apply RIntg_scal|exact I]. }
  replace (a / b * l) with (/ b * (a * l - (0 - 0))) by (field; lra). revert J. apply RIntg_ext. intros x Hx.
  rewrite (is_derive_unique _ _ _ (D x Hx)). match goal with |- ?u = ?v => change (@eq R u v) end. field. lra.
Qed.

(** ** Moments of the Gamma density *)

Lemma gamma_total G a b : is_Gamma G -> 0 < a -> 0 < b -> is_RInt_gen (pe a b) zero' pinf (G a / Rpower b a).
Proof.
  intros HG Ha Hb. pose proof (RIntg_scal _ (/ Rpower b a) _ (RIntg_lin _ b _ Hb (HG a Ha))) as H.
  replace (G a / Rpower b a) with (/ Rpower b a * G a) by (field; apply exp_pos_neq).
  revert H. apply RIntg_ext. intros x Hx. unfold pe. cbv beta.
  rewrite <- Rpower_mult_distr by assumption. rewrite <- (mul_pow b a Hb). replace (- (b * x)) with (- b * x) by ring.
  match goal with |- ?u = ?v => change (@eq R u v) end. field. split; (lra || apply exp_pos_neq).
Qed.
Lemma gamma_density G a b x : density G (Gamma a b) x = Rpower b a / G a * pe a b x.
Proof. cbn [density]. unfold pe. ring. Qed.

Lemma gamma_moments G a b : is_Gamma G -> (forall a, 0 < a -> 0 < G a) -> 0 < a -> 0 < b ->
  is_RInt_gen (density G (Gamma a b)) zero' pinf 1 /\
  is_RInt_gen (fun x => x * density G (Gamma a b) x) zero' pinf (a / b) /\
  is_RInt_gen (fun x => (x - a / b) ^ 2 * density G (Gamma a b) x) zero' pinf (a / (b * b)).
Proof.
  intros HG Gp Ha Hb. pose proof (Gp a Ha) as G0. pose proof (gamma_total G a b HG Ha Hb) as H0.
  pose proof (parts a b _ Ha Hb H0) as H1. pose proof (parts (a + 1) b _ ltac:(lra) Hb H1) as H2. set (c := Rpower b a / G a).
  assert (Cc : G a / Rpower b a = / c) by (unfold c; field; split; (lra || apply exp_pos_neq)).
  assert (C0 : c <> 0) by (unfold c; apply Rgt_not_eq, Rdiv_lt_0_compat; [apply exp_pos|exact G0]).
  rewrite Cc in *.
  assert (E1 : forall x, 0 < x -> pe (a + 1) b x = x * pe a b x) by (intros x Hx; unfold pe; rewrite <- Rmult_assoc, mul_pow by exact Hx; do 2 f_equal; ring).
  assert (E2 : forall x, 0 < x -> pe (a + 1 + 1) b x = x * (x * pe a b x)).
  { intros x Hx. unfold pe. replace (a + 1 + 1 - 1) with (a + 1) by ring. rewrite <- (mul_pow x (a + 1)) by exact Hx. replace (a + 1 - 1) with a by ring. rewrite <- (mul_pow x a) by exact Hx. ring. }
  split; [|split].
  - apply (RIntg_ext (fun x => c * pe a b x)); [intros; now rewrite gamma_density|]. replace 1 with (c * / c) by (field; exact C0). now apply RIntg_scal.
  - apply (RIntg_ext (fun x => c * pe (a + 1) b x)); [intros x Hx; rewrite gamma_density, E1 by exact Hx; fold c; match goal with |- ?u = ?v => change (@eq R u v) end; ring|].
    replace (a / b) with (c * (a / b * / c)) by (field; split; (exact C0 || lra)). now apply RIntg_scal.
  - apply (RIntg_ext (fun x => c * (pe (a + 1 + 1) b x - 2 * (a / b) * pe (a + 1) b x + (a / b) * (a / b) * pe a b x))).
    + intros x Hx. rewrite gamma_density, E1, E2 by exact Hx. fold c. match goal with |- ?u = ?v => change (@eq R u v) end. ring.
    + replace (a / (b * b)) with (c * ((a + 1) / b * (a / b * / c) - 2 * (a / b) * (a / b * / c) + (a / b) * (a / b) * / c)) by (field; split; (exact C0 || lra)).
      apply RIntg_scal, RIntg_plus; [apply RIntg_minus; [exact H2|now apply RIntg_scal]|now apply RIntg_scal].
Qed.

(** ** The other densities on the positive numbers *)

Lemma near_pos : filter_prod zero' pinf (fun ab => 0 < fst ab /\ 0 < snd ab).
Proof.
  apply (Filter_prod _ _ _ (fun a => 0 < a) (fun b => 0 < b)); [|exists 0; auto|intros; split; assumption].
  exists (mkposreal 1 Rlt_0_1). intros y _ Hy. exact Hy.
Qed.
Lemma halflaplace_total G b : 0 < b -> is_RInt_gen (density G (HalfLaplace b)) zero' pinf 1.
Proof.
  intros Hb. set (F := fun x => - exp (- x / b)).
  assert (D : forall x, is_derive F x (exp (- x / b) / b)) by (intros x; unfold F; auto_derive; [exact I|unfold Rdiv; field; lra]).
  assert (J : is_RInt_gen (Derive F) zero' pinf (0 - (-1))).
  { apply is_RInt_gen_Derive.
    - eapply filter_imp; [|exact near_pos]. intros [u v] _ x _. eexists. apply D.
    - eapply filter_imp; [|exact near_pos]. intros [u v] _ x _. apply (continuous_ext (fun x => exp (- x / b) / b)); [intros y; symmetry; apply is_derive_unique, D|].
      apply (ex_derive_continuous (fun x => exp (- x / b) / b)). auto_derive. exact I.
    - apply (filterlim_filter_le_1 F (filter_le_within (F := locally 0) (fun x => 0 < x))).
      replace (-1) with (F 0) by (unfold F; replace (- 0 / b) with 0 by (field; lra); rewrite exp_0; ring).
      apply (ex_derive_continuous F). eexists. apply D.
    - replace 0 with (- 0) by ring. apply (filterlim_comp _ _ _ (fun x => exp (- x / b)) Ropp _ (locally 0)); [|apply (filterlim_opp (K := R_AbsRing) (V := R_NormedModule))].
      apply (filterlim_comp _ _ _ (fun x => - x / b) exp _ (Rbar_locally m_infty)); [|apply is_lim_exp_m].
      intros P [M HM]. exists (- M * b). intros x Hx. apply HM. apply Rmult_lt_reg_r with b; [exact Hb|]. replace (- x / b * b) with (- x) by (field; lra). lra. }
  replace 1 with (0 - -1) by ring. revert J. apply RIntg_ext. intros x _. rewrite (is_derive_unique _ _ _ (D x)). reflexivity.
Qed.

Lemma inverse_total G a b : is_Gamma G -> (forall a, 0 < a -> 0 < G a) -> 0 < a -> 0 < b ->
  is_RInt_gen (density G (InverseGamma a b)) zero' pinf 1.
Proof.
  intros HG Gp Ha Hb P HP. destruct (gamma_moments G a b HG Gp Ha Hb) as [H _]. set (f := density G (Gamma a b)) in *.
  destruct (H P HP) as [Q S [M HM] [N HN] H'].
  apply (Filter_prod _ _ _ (fun u => 0 < u /\ S (/ u)) (fun v => 0 < v /\ Q (/ v))).
  - set (N' := Rmax N 1). assert (0 < N') by (unfold N'; pose proof (Rmax_r N 1); lra).
    assert (Hn : 0 < / N') by now apply Rinv_0_lt_compat. exists (mkposreal _ Hn). intros u Hu Hp. split; [exact Hp|]. apply HN.
    change (Rabs (u - 0) < / N') in Hu. rewrite Rminus_0_r, Rabs_right in Hu by lra.
    apply Rle_lt_trans with N'; [apply Rmax_l|]. rewrite <- (Rinv_inv N'). apply Rinv_lt_contravar; [now apply Rmult_lt_0_compat|exact Hu].
  - exists (/ M). intros v Hv. assert (0 < / M) by (apply Rinv_0_lt_compat, cond_pos). assert (0 < v) by lra. split; [assumption|].
    assert (0 < / v) by now apply Rinv_0_lt_compat. apply HM; [|assumption].
    change (Rabs (/ v - 0) < M). rewrite Rminus_0_r, Rabs_right by lra. rewrite <- (Rinv_inv M). apply Rinv_lt_contravar; [now apply Rmult_lt_0_compat|exact Hv].
  - intros u v [Hu Su] [Hv Qv]. destruct (H' _ _ Qv Su) as [y [Hy Py]]. exists y. split; [|exact Py]. cbn [fst snd] in *.
    assert (Rng : forall x, Rmin u v <= x -> 0 < x) by (intros x Hx; apply Rlt_le_trans with (2 := Hx); now apply Rmin_glb_lt).
    assert (Cc : is_RInt (fun x => scal (- / (x * x)) (f (/ x))) u v (RInt f (/ u) (/ v))).
    { apply (is_RInt_comp (V := R_CompleteNormedModule) f (fun x => / x) (fun x => - / (x * x))).
      - intros x [Hx _]. pose proof (Rng x Hx) as Hx0. assert (Hi : 0 < / x) by now apply Rinv_0_lt_compat. unfold f. 
        apply (ex_derive_continuous (fun z => exp (a * ln b) / G a * exp ((a - 1) * ln z) * exp (- b * z))). auto_derive. exact Hi.
      - intros x [Hx _]. pose proof (Rng x Hx) as Hx0. split; [auto_derive; [lra|field; lra]|].
        apply (ex_derive_continuous (fun x => - / (x * x))). auto_derive. split; [apply Rmult_integral_contrapositive; lra|exact I] || (apply Rmult_integral_contrapositive; lra). }
    apply (is_RInt_ext (fun x => opp (scal (- / (x * x)) (f (/ x))))).
    + intros x [Hx _]. assert (Hx0 : 0 < x) by (apply Rng; now left). match goal with |- ?u = ?v => change (@eq R u v) end.
      change (- (- / (x * x) * f (/ x)) = density G (InverseGamma a b) x). unfold f. cbn [density]. unfold Rdiv.
      replace (- b * / x) with (- b * / x) by ring. replace (Rpower (/ x) (a - 1)) with (Rpower x (- a - 1) * (x * x)).
      * field. split; [apply Rgt_not_eq, Gp, Ha|lra].
      * unfold Rpower. rewrite ln_Rinv by exact Hx0. replace (x * x) with (exp (ln x + ln x)) by (rewrite exp_plus, exp_ln by exact Hx0; reflexivity).
        rewrite <- exp_plus. f_equal. ring.
    + replace y with (opp (RInt f (/ u) (/ v))); [apply (is_RInt_opp (V := R_NormedModule)); exact Cc|].
      rewrite (is_RInt_unique f (/ u) (/ v) (opp y)); [apply opp_opp|]. apply (is_RInt_swap (V := R_NormedModule)). exact Hy.
Qed.
