(** The Gaussian integral, and normalisation of the Gaussian density. *)

From Coq Require Import Reals List Arith Lia Lra.
From Coquelicot Require Import Coquelicot.
From Verif Require Import Base Model_Prior Spec_Prior Proofs_Prior.
Open Scope R_scope.

Definition gau (x : R) : R := exp (- (x * x)).
Definition Ig (t : R) : R := RInt gau 0 t.
Definition ker (t x : R) : R := exp (- (t * t) * (1 + x * x)) / (1 + x * x).
Definition Jg (t : R) : R := RInt (ker t) 0 1.

Lemma one_sq x : 0 < 1 + x * x.
Proof. pose proof (Rle_0_sqr x). unfold Rsqr in *. lra. Qed.
Lemma gau_cont x : continuous gau x.
Proof. apply (ex_derive_continuous gau). unfold gau. auto_derive. exact I. Qed.
Lemma gau_int a b : ex_RInt gau a b.
Proof. apply (ex_RInt_continuous (V := R_CompleteNormedModule)). intros x _. apply gau_cont. Qed.
Lemma ker_cont t x : continuous (ker t) x.
Proof. apply (ex_derive_continuous (ker t)). unfold ker. auto_derive. pose proof (one_sq x). lra. Qed.
Lemma ker_int t a b : ex_RInt (ker t) a b.
Proof. apply (ex_RInt_continuous (V := R_CompleteNormedModule)). intros x _. apply ker_cont. Qed.
Lemma ker_derive t x : is_derive (fun u => ker u x) t (- 2 * t * exp (- (t * t) * (1 + x * x))).
Proof. unfold ker. pose proof (one_sq x). auto_derive; [exact I|]. field. lra. Qed.

Lemma Ig_derive t : is_derive Ig t (gau t).
Proof.
  apply (is_derive_RInt (V := R_NormedModule) gau Ig 0 t); [|apply gau_cont].
  exists (mkposreal 1 Rlt_0_1). intros u _. apply (RInt_correct (V := R_CompleteNormedModule)), gau_int.
Qed.
Lemma Jg_derive t : is_derive Jg t (- 2 * gau t * Ig t).
Proof.
  assert (D : is_derive Jg t (RInt (fun x => Derive (fun u => ker u x) t) 0 1)).
  { apply (is_derive_RInt_param ker 0 1 t).
    - exists (mkposreal 1 Rlt_0_1). intros u _ x _. eexists. apply ker_derive.
    - intros x _. apply (continuity_2d_pt_ext (fun u v => - 2 * u * exp (- (u * u) * (1 + v * v)))).
      + intros u v. symmetry. apply is_derive_unique, ker_derive.
      + apply (continuity_2d_pt_mult (fun u v => - 2 * u) (fun u v => exp (- (u * u) * (1 + v * v)))).
        * apply (continuity_2d_pt_mult (fun _ _ => - 2) (fun u _ => u)); [apply continuity_2d_pt_const|apply continuity_2d_pt_id1].
        * apply (continuity_1d_2d_pt_comp exp (fun u v => - (u * u) * (1 + v * v))); [apply derivable_continuous, derivable_exp|].
          apply (continuity_2d_pt_mult (fun u v => - (u * u)) (fun u v => 1 + v * v)).
          -- apply (continuity_2d_pt_opp (fun u _ => u * u)), (continuity_2d_pt_mult (fun u _ => u) (fun u _ => u)); apply continuity_2d_pt_id1.
          -- apply (continuity_2d_pt_plus (fun _ _ => 1) (fun _ v => v * v)); [apply continuity_2d_pt_const|].
             apply (continuity_2d_pt_mult (fun _ v => v) (fun _ v => v)); apply continuity_2d_pt_id2.
    - exists (mkposreal 1 Rlt_0_1). intros u _. apply ker_int. }
  replace (- 2 * gau t * Ig t) with (RInt (fun x => Derive (fun u => ker u x) t) 0 1); [exact D|].
  assert (L : RInt (fun x => t * gau (t * x + 0)) 0 1 = Ig t).
  { unfold Ig. etransitivity; [apply (RInt_comp_lin (V := R_CompleteNormedModule) gau t 0 0 1), gau_int|]. f_equal; ring. }
  transitivity (RInt (fun x => (- 2 * gau t) * (t * gau (t * x + 0))) 0 1).
  - apply RInt_ext. intros x _. etransitivity; [apply (is_derive_unique _ _ _ (ker_derive t x))|].
    change (- 2 * t * exp (- (t * t) * (1 + x * x)) = - 2 * gau t * (t * gau (t * x + 0))). unfold gau.
    replace (exp (- (t * t) * (1 + x * x))) with (exp (- (t * t)) * exp (- ((t * x + 0) * (t * x + 0)))) by (rewrite <- exp_plus; f_equal; ring). ring.
  - etransitivity; [apply (RInt_scal (V := R_CompleteNormedModule) (fun x => t * gau (t * x + 0)))|rewrite L; reflexivity].
    apply (ex_RInt_comp_lin (V := R_NormedModule)), gau_int.
Qed.

Lemma Jg_0 : Jg 0 = PI / 4.
Proof.
  unfold Jg. replace (PI / 4) with (atan 1 - atan 0) by (rewrite atan_1, atan_0; ring).
  apply (is_RInt_unique (V := R_CompleteNormedModule)).
  apply (is_RInt_ext (fun x => / (1 + Rsqr x))).
  - intros x _. unfold ker, Rsqr. replace (- (0 * 0) * (1 + x * x)) with 0 by ring. rewrite exp_0. pose proof (one_sq x).
    match goal with |- ?u = ?v => change (@eq R u v) end. field. lra.
  - apply (is_RInt_derive (V := R_CompleteNormedModule) atan (fun x => / (1 + Rsqr x))); [intros; apply is_derive_atan|].
    intros x _. apply (ex_derive_continuous (fun x => / (1 + Rsqr x))). unfold Rsqr. auto_derive. pose proof (one_sq x). lra.
Qed.

Lemma Ig_sq t : 0 < t -> Ig t * Ig t = PI / 4 - Jg t.
Proof.
  intros Ht. set (g := fun u => Ig u * Ig u + Jg u).
  assert (E : g 0 = g t).
  { apply (eq_is_derive (V := R_NormedModule) g 0 t); [|exact Ht]. intros u _.
    assert (Z : @zero R_NormedModule = (gau u * Ig u + Ig u * gau u) + - 2 * gau u * Ig u) by (change (0 = gau u * Ig u + Ig u * gau u + - 2 * gau u * Ig u); ring).
    rewrite Z. apply (is_derive_plus (V := R_NormedModule) (fun u => Ig u * Ig u) Jg); [|apply Jg_derive].
    apply (is_derive_mult (K := R_AbsRing) Ig Ig u); [apply Ig_derive|apply Ig_derive|intros; apply Rmult_comm]. }
  unfold g in E. rewrite Jg_0 in E. unfold Ig at 1 2 in E. rewrite RInt_point in E. change (@zero R_CompleteNormedModule) with 0 in E. lra.
Qed.
Lemma Ig_nonneg t : 0 < t -> 0 <= Ig t.
Proof.
  intros Ht. unfold Ig. apply RInt_ge_0; [lra|apply gau_int|]. intros x _. left. apply exp_pos.
Qed.
Lemma Jg_bound t : 0 <= Jg t <= gau t.
Proof.
  unfold Jg. split.
  - apply RInt_ge_0; [lra|apply ker_int|]. intros x _. unfold ker. left. apply Rdiv_lt_0_compat; [apply exp_pos|apply one_sq].
  - replace (gau t) with (RInt (fun _ => gau t) 0 1) by (etransitivity; [apply (RInt_const (V := R_CompleteNormedModule))|]; change ((1 - 0) * gau t = gau t); ring).
    apply RInt_le; [lra|apply ker_int|apply ex_RInt_const|]. intros x _. unfold ker, gau. pose proof (one_sq x) as H1. pose proof (Rle_0_sqr x) as H2. unfold Rsqr in H2.
    apply Rmult_le_reg_r with (1 + x * x); [exact H1|]. replace (exp (- (t * t) * (1 + x * x)) / (1 + x * x) * (1 + x * x)) with (exp (- (t * t) * (1 + x * x))) by (field; lra).
    apply Rle_trans with (exp (- (t * t))).
    + assert (L : - (t * t) * (1 + x * x) <= - (t * t)) by (pose proof (Rmult_le_pos _ _ (Rle_0_sqr t) H2); unfold Rsqr in *; lra).
      destruct L as [L|L]; [left; now apply exp_increasing|rewrite L; apply Rle_refl].
    + pose proof (exp_pos (- (t * t))). assert (0 <= exp (- (t * t)) * (x * x)) by (apply Rmult_le_pos; lra). lra.
Qed.
Lemma Jg_lim : filterlim Jg (Rbar_locally p_infty) (locally 0).
Proof.
  intros P [e He]. exists (Rmax 1 (- ln e)). intros t Ht. apply He. change (Rabs (Jg t - 0) < e).
  pose proof (Rmax_l 1 (- ln e)). pose proof (Rmax_r 1 (- ln e)). destruct (Jg_bound t) as [H1 H2]. rewrite Rminus_0_r, Rabs_right by lra.
  apply Rle_lt_trans with (1 := H2). unfold gau. rewrite <- (exp_ln e) by apply cond_pos. apply exp_increasing.
  assert (1 * t <= t * t) by (apply Rmult_le_compat_r; lra). lra.
Qed.
Lemma Ig_lim : filterlim Ig (Rbar_locally p_infty) (locally (sqrt PI / 2)).
Proof.
  assert (E : sqrt PI / 2 = sqrt (PI / 4 - 0)).
  { replace (PI / 4 - 0) with (PI * / (2 * 2)) by field. pose proof PI_RGT_0. rewrite sqrt_mult by lra. rewrite sqrt_inv, sqrt_square by lra. reflexivity. }
  rewrite E. apply (filterlim_ext_loc (fun t => sqrt (PI / 4 - Jg t))).
  - exists 0. intros t Ht. rewrite <- Ig_sq by exact Ht. apply sqrt_square, Ig_nonneg, Ht.
  - apply (filterlim_comp _ _ _ (fun t => PI / 4 - Jg t) sqrt _ (locally (PI / 4 - 0))).
    + apply (filterlim_comp _ _ _ Jg (fun x => PI / 4 - x) _ (locally 0)); [exact Jg_lim|].
      apply (ex_derive_continuous (fun x => PI / 4 - x)). auto_derive. exact I.
    + apply (ex_derive_continuous sqrt). auto_derive. pose proof PI_RGT_0. lra.
Qed.

Notation minf := (Rbar_locally m_infty).
Notation pinf := (Rbar_locally p_infty).
Lemma gauss_right : is_RInt_gen gau (at_point 0) pinf (sqrt PI / 2).
Proof.
  intros P HP. destruct (Ig_lim P HP) as [M HM]. apply (Filter_prod _ _ _ (fun a => a = 0) (fun b => M < b)); [reflexivity|exists M; auto|].
  intros a b -> Hb. exists (Ig b). split; [apply (RInt_correct (V := R_CompleteNormedModule)), gau_int|now apply HM].
Qed.
Lemma gauss_left : is_RInt_gen gau minf (at_point 0) (sqrt PI / 2).
Proof.
  intros P HP. destruct (Ig_lim P HP) as [M HM]. apply (Filter_prod _ _ _ (fun a => a < - M) (fun b => b = 0)); [exists (- M); auto|reflexivity|].
  intros a b Ha ->. exists (Ig (- a)). split; [|apply HM; lra]. cbn [fst snd].
  apply (is_RInt_ext (fun y => opp (opp (gau (- y))))).
  - intros x _. rewrite opp_opp. unfold gau. f_equal. ring.
  - replace (Ig (- a)) with (opp (opp (Ig (- a)))) by apply opp_opp. apply (is_RInt_opp (V := R_NormedModule)).
    apply (is_RInt_comp_opp (V := R_NormedModule) gau). rewrite Ropp_0. apply (is_RInt_swap (V := R_NormedModule)), (RInt_correct (V := R_CompleteNormedModule)), gau_int.
Qed.
Lemma gauss_total : is_RInt_gen gau minf pinf (sqrt PI).
Proof.
  replace (sqrt PI) with (plus (sqrt PI / 2) (sqrt PI / 2)) by (change (sqrt PI / 2 + sqrt PI / 2 = sqrt PI); field).
  apply (is_RInt_gen_Chasles (V := R_NormedModule) gau 0); [exact gauss_left|exact gauss_right].
Qed.

Lemma gaussian_total G mu var : 0 < var -> is_RInt_gen (density G (Gaussian mu var)) minf pinf 1.
Proof.
  intros Hv. set (u := / sqrt (2 * var)). assert (Hs : 0 < sqrt (2 * var)) by (apply sqrt_lt_R0; lra). assert (Hu : 0 < u) by now apply Rinv_0_lt_compat.
  assert (Hp := PI_RGT_0). assert (Hsp : 0 < sqrt PI) by now apply sqrt_lt_R0.
  assert (L : is_RInt_gen (fun x => scal u (gau (u * x + - (mu * u)))) minf pinf (sqrt PI)).
  { intros P HP. destruct (gauss_total P HP) as [Q S [M HM] [N HN] H'].
    apply (Filter_prod _ _ _ (fun a => Q (u * a + - (mu * u))) (fun b => S (u * b + - (mu * u)))).
    - exists (M / u + mu). intros x Hx. apply HM. apply Rmult_lt_compat_l with (r := u) in Hx; [|exact Hu].
      replace (u * (M / u + mu)) with (M + mu * u) in Hx by (field; lra). lra.
    - exists (N / u + mu). intros x Hx. apply HN. apply Rmult_lt_compat_l with (r := u) in Hx; [|exact Hu].
      replace (u * (N / u + mu)) with (N + mu * u) in Hx by (field; lra). lra.
    - intros a b Ha Hb. destruct (H' _ _ Ha Hb) as [y [Hy Py]]. exists y. split; [|exact Py]. cbn [fst snd] in *. now apply (is_RInt_comp_lin (V := R_NormedModule)). }
  apply (is_RInt_gen_scal (V := R_NormedModule) _ (/ sqrt PI)) in L.
  replace 1 with (scal (/ sqrt PI) (sqrt PI)) by (change (/ sqrt PI * sqrt PI = 1); field; lra).
  revert L. apply (is_RInt_gen_ext (V := R_NormedModule)). apply filter_forall. intros ab x _.
  change (/ sqrt PI * (u * gau (u * x + - (mu * u))) = density G (Gaussian mu var) x). cbn [density]. unfold gau.
  replace (sqrt (2 * PI * var)) with (sqrt PI * sqrt (2 * var)) by (rewrite <- sqrt_mult by lra; f_equal; ring).
  replace (- ((u * x + - (mu * u)) * (u * x + - (mu * u)))) with (- (x - mu) ^ 2 / (2 * var)).
  - unfold u. field. lra.
  - replace ((u * x + - (mu * u)) * (u * x + - (mu * u))) with ((x - mu) ^ 2 * (u * u)) by ring.
    replace (u * u) with (/ (2 * var)); [field; lra|]. unfold u. rewrite <- Rinv_mult. rewrite sqrt_sqrt by lra. reflexivity.
Qed.
