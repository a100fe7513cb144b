(** Improper integrals by antiderivatives and by substitution; the normal distribution. *)

From Coq Require Import Reals Lra Lia.
From Coquelicot Require Import Coquelicot.
From Verif Require Import Base Spec_Bench Proofs_Gauss.
Open Scope R_scope.

Lemma gen_antider (Fa Fb : (R -> Prop) -> Prop) {HFa : Filter Fa} {HFb : Filter Fb} (f F : R -> R) (la lb : R) :
  filter_prod Fa Fb (fun ab => is_RInt f (fst ab) (snd ab) (F (snd ab) - F (fst ab))) ->
  filterlim F Fa (locally la) -> filterlim F Fb (locally lb) -> is_RInt_gen f Fa Fb (lb - la).
Proof.
  intros H Ha Hb P HP.
  assert (L : filterlim (fun ab => F (snd ab) - F (fst ab)) (filter_prod Fa Fb) (locally (lb - la))).
  { apply (filterlim_comp_2 (F := filter_prod Fa Fb) (G := locally lb) (H := locally la) (fun ab => F (snd ab)) (fun ab => F (fst ab)) (fun x y => x - y)).
    - apply (filterlim_comp _ _ _ snd F (filter_prod Fa Fb) Fb); [apply filterlim_snd|exact Hb].
    - apply (filterlim_comp _ _ _ fst F (filter_prod Fa Fb) Fa); [apply filterlim_fst|exact Ha].
    - apply (filterlim_comp_2 (F := filter_prod (locally lb) (locally la)) (G := locally lb) (H := locally (- la)) (fun p => fst p) (fun p => - snd p) Rplus).
      + apply filterlim_fst.
      + apply (filterlim_comp _ _ _ snd Ropp (filter_prod (locally lb) (locally la)) (locally la)); [apply filterlim_snd|apply (filterlim_opp (V := R_NormedModule) la)].
      + apply (filterlim_plus (V := R_NormedModule) lb (- la)). }
  specialize (L P HP). unfold filtermap in L. unfold filtermapi. generalize (filter_and _ _ H L). apply filter_imp. intros ab [H1 H2]. eexists. split; [exact H1|exact H2].
Qed.

Lemma subst_gen (Fa Fb Ga Gb : (R -> Prop) -> Prop) {HFa : Filter Fa} {HFb : Filter Fb} (h g dg : R -> R) (l : R) :
  is_RInt_gen h Ga Gb l -> filterlim g Fa Ga -> filterlim g Fb Gb ->
  filter_prod Fa Fb (fun ab => forall x, Rmin (fst ab) (snd ab) <= x <= Rmax (fst ab) (snd ab) -> continuous h (g x) /\ is_derive g x (dg x) /\ continuous dg x) ->
  is_RInt_gen (fun x => dg x * h (g x)) Fa Fb l.
Proof.
  intros H La Lb C P HP. specialize (H P HP). unfold filtermapi in *. destruct H as [A B HA HB H].
  assert (N : filter_prod Fa Fb (fun ab => A (g (fst ab)) /\ B (g (snd ab)))).
  { apply (Filter_prod Fa Fb _ (fun x => A (g x)) (fun x => B (g x))); [now apply La|now apply Lb|]. intros x y Hx Hy. now split. }
  generalize (filter_and _ _ N C). apply filter_imp. intros [a b] [[H1 H2] HC]. cbn [fst snd] in *. destruct (H _ _ H1 H2) as [y [H3 H4]]. cbn [fst snd] in H3. exists y. split; [|exact H4].
  rewrite <- (is_RInt_unique _ _ _ _ H3). apply (is_RInt_comp h g dg a b); intros x Hx; destruct (HC x Hx) as (C1 & C2 & C3); [exact C1|now split].
Qed.

(** ** The normal distribution *)

Lemma Ig_opp t : Ig (- t) = - Ig t.
Proof.
  unfold Ig. pose proof (RInt_comp_lin gau (-1) 0 0 t (gau_int _ _)) as H. replace (-1 * 0 + 0) with 0 in H by ring. replace (-1 * t + 0) with (- t) in H by ring. rewrite <- H.
  transitivity (RInt (fun y => scal (-1) (gau y)) 0 t).
  - apply (RInt_ext (V := R_CompleteNormedModule)). intros x _. unfold gau. f_equal. f_equal. ring.
  - rewrite (RInt_scal (V := R_CompleteNormedModule)) by apply gau_int. unfold scal; cbn; unfold mult; cbn. ring.
Qed.

Definition gF (m v y : R) : R := Ig ((y - m) / sqrt (2 * v)) / sqrt PI.

Section Normal.
  Variables m v : R.
  Hypothesis Hv : 0 < v.
  Lemma s_pos : 0 < sqrt (2 * v). Proof. apply sqrt_lt_R0. lra. Qed.
  Lemma p_pos : 0 < sqrt PI. Proof. apply sqrt_lt_R0, PI_RGT_0. Qed.

  Lemma gF_derive y : is_derive (gF m v) y (normal_pdf m v y).
  Proof.
    pose proof s_pos as S. pose proof p_pos as P.
    assert (D : is_derive (fun y => Ig ((y - m) / sqrt (2 * v))) y (/ sqrt (2 * v) * gau ((y - m) / sqrt (2 * v)))).
    { apply (is_derive_comp Ig (fun y => (y - m) / sqrt (2 * v))); [apply Ig_derive|]. auto_derive; [exact I|]. field. lra. }
    unfold gF. apply (is_derive_ext (fun y => / sqrt PI * Ig ((y - m) / sqrt (2 * v)))); [intros t; unfold Rdiv; apply Rmult_comm|].
    replace (normal_pdf m v y) with (/ sqrt PI * (/ sqrt (2 * v) * gau ((y - m) / sqrt (2 * v)))).
    - apply (is_derive_scal (fun y => Ig ((y - m) / sqrt (2 * v))) y (/ sqrt PI)). exact D.
    - unfold normal_pdf, gau. replace (2 * PI * v) with (PI * (2 * v)) by ring. rewrite (sqrt_mult PI (2 * v)) by (pose proof PI_RGT_0; lra).
      replace (- ((y - m) / sqrt (2 * v) * ((y - m) / sqrt (2 * v)))) with (- (y - m) ^ 2 / (2 * v)).
      + field. split; lra.
      + assert (Q : sqrt (2 * v) * sqrt (2 * v) = 2 * v) by (apply sqrt_sqrt; lra). rewrite <- Q at 1. field. lra.
  Qed.
  Lemma pdf_cont y : continuous (normal_pdf m v) y.
  Proof. apply (ex_derive_continuous (normal_pdf m v)). unfold normal_pdf. auto_derive. exact I. Qed.
  Lemma pdf_int a b : is_RInt (normal_pdf m v) a b (gF m v b - gF m v a).
  Proof. apply (is_RInt_derive (gF m v) (normal_pdf m v)); intros; [apply gF_derive|apply pdf_cont]. Qed.

  Lemma gF_sym y : gF m v (2 * m - y) = - gF m v y.
  Proof. unfold gF. replace ((2 * m - y - m) / sqrt (2 * v)) with (- ((y - m) / sqrt (2 * v))) by (pose proof s_pos; field; lra). rewrite Ig_opp. unfold Rdiv. ring. Qed.

  Lemma gF_p : filterlim (gF m v) (Rbar_locally p_infty) (locally (1 / 2)).
  Proof.
    pose proof s_pos as S. pose proof p_pos as P. unfold gF.
    apply (filterlim_comp _ _ _ (fun y => (y - m) / sqrt (2 * v)) (fun z => Ig z / sqrt PI) (Rbar_locally p_infty) (Rbar_locally p_infty)).
    - intros Q [M HM]. exists (M * sqrt (2 * v) + m). intros x Hx. apply HM. apply (Rmult_lt_reg_r (sqrt (2 * v))); [exact S|]. unfold Rdiv. rewrite Rmult_assoc, Rinv_l by lra. lra.
    - replace (1 / 2) with (sqrt PI / 2 * / sqrt PI) by (field; lra).
      apply (filterlim_comp _ _ _ Ig (fun z => z * / sqrt PI) (Rbar_locally p_infty) (locally (sqrt PI / 2))); [apply Ig_lim|].
      apply (ex_derive_continuous (fun z => z * / sqrt PI) (sqrt PI / 2)). auto_derive. exact I.
  Qed.
  Lemma gF_m : filterlim (gF m v) (Rbar_locally m_infty) (locally (- (1 / 2))).
  Proof.
    apply (filterlim_ext (fun y => - gF m v (2 * m - y))); [intros y; rewrite gF_sym; ring|].
    apply (filterlim_comp _ _ _ (fun y => gF m v (2 * m - y)) Ropp (Rbar_locally m_infty) (locally (1 / 2))).
    - apply (filterlim_comp _ _ _ (fun y => 2 * m - y) (gF m v) (Rbar_locally m_infty) (Rbar_locally p_infty)); [|apply gF_p].
      intros Q [M HM]. exists (2 * m - M). intros x Hx. apply HM. lra.
    - apply (filterlim_opp (V := R_NormedModule) (1 / 2)).
  Qed.

  Lemma normal_total : is_RInt_gen (normal_pdf m v) (Rbar_locally m_infty) (Rbar_locally p_infty) 1.
  Proof.
    replace 1 with (1 / 2 - - (1 / 2)) by lra.
    apply (gen_antider (Rbar_locally m_infty) (Rbar_locally p_infty) (normal_pdf m v) (gF m v)); [|apply gF_m|apply gF_p].
    apply filter_forall. intros ab. apply pdf_int.
  Qed.
  Lemma normal_below y : is_RInt_gen (normal_pdf m v) (Rbar_locally m_infty) (at_point y) (gF m v y + 1 / 2).
  Proof.
    replace (gF m v y + 1 / 2) with (gF m v y - - (1 / 2)) by lra.
    apply (gen_antider (Rbar_locally m_infty) (at_point y) (normal_pdf m v) (gF m v)); [|apply gF_m|].
    - apply filter_forall. intros ab. apply pdf_int.
    - intros P HP. unfold filtermap, at_point. now apply locally_singleton.
  Qed.
  Lemma normal_below_unique y p : is_RInt_gen (normal_pdf m v) (Rbar_locally m_infty) (at_point y) p -> p = gF m v y + 1 / 2.
  Proof. intros H. exact (eq_trans (eq_sym (is_RInt_gen_unique (V := R_CompleteNormedModule) _ _ H)) (is_RInt_gen_unique (V := R_CompleteNormedModule) _ _ (normal_below y))). Qed.
End Normal.

Lemma gF_scale m v z : 0 < v -> gF m v (m + sqrt v * z) = gF 0 1 z.
Proof.
  intros Hv. unfold gF. f_equal. f_equal. rewrite (sqrt_mult 2 v), Rmult_1_r by lra. assert (0 < sqrt v) by now apply sqrt_lt_R0. assert (0 < sqrt 2) by (apply sqrt_lt_R0; lra). field. split; lra.
Qed.

(** The quantile function exists. *)
Lemma gF_incr m v x y : 0 < v -> x < y -> gF m v x < gF m v y.
Proof.
  intros Hv H. destruct (MVT_gen (gF m v) x y (normal_pdf m v)) as [c [_ E]].
  - intros z _. now apply gF_derive.
  - intros z _. apply continuity_pt_filterlim, (ex_derive_continuous (gF m v) z). eexists. now apply gF_derive.
  - assert (0 < normal_pdf m v c) by (unfold normal_pdf; apply Rdiv_lt_0_compat; [apply exp_pos|apply sqrt_lt_R0; pose proof PI_RGT_0; apply Rmult_lt_0_compat; lra]).
    assert (0 < normal_pdf m v c * (y - x)) by (apply Rmult_lt_0_compat; lra). lra.
Qed.
Lemma gF_onto p : 0 < p < 1 -> exists x, gF 0 1 x + 1 / 2 = p.
Proof.
  intros Hp.
  assert (B : exists b, p < gF 0 1 b + 1 / 2).
  { destruct (gF_p 0 1 ltac:(lra) (fun y => p < y + 1 / 2)) as [M HM].
    - exists (mkposreal (1 - p) ltac:(lra)). intros y Hy. unfold ball in Hy; cbn in Hy. unfold AbsRing_ball, abs, minus, plus, opp in Hy; cbn in Hy. apply Rabs_def2 in Hy. lra.
    - exists (M + 1). apply HM. lra. }
  assert (A : exists a, gF 0 1 a + 1 / 2 < p).
  { destruct (gF_m 0 1 ltac:(lra) (fun y => y + 1 / 2 < p)) as [M HM].
    - exists (mkposreal p ltac:(lra)). intros y Hy. unfold ball in Hy; cbn in Hy. unfold AbsRing_ball, abs, minus, plus, opp in Hy; cbn in Hy. apply Rabs_def2 in Hy. lra.
    - exists (M - 1). apply HM. lra. }
  destruct A as [a Ha], B as [b Hb]. destruct (IVT_gen (gF 0 1) a b (p - 1 / 2)) as [x [_ Hx]].
  - intros z. apply continuity_pt_filterlim, (ex_derive_continuous (gF 0 1) z). eexists. apply gF_derive. lra.
  - rewrite Rmin_left, Rmax_right by lra. lra.
  - exists x. lra.
Qed.
Lemma ppf_exists : exists ppf : R -> R, forall p, 0 < p < 1 -> is_RInt_gen (normal_pdf 0 1) (Rbar_locally m_infty) (at_point (ppf p)) p.
Proof.
  exists (fun p => real (Lub_Rbar (fun y => gF 0 1 y + 1 / 2 <= p))). intros p Hp. destruct (gF_onto p Hp) as [x Hx].
  rewrite (is_lub_Rbar_unique _ (Finite x)).
  - cbn [real]. pose proof (normal_below 0 1 Rlt_0_1 x) as H. now rewrite Hx in H.
  - split.
    + intros y Hy. cbn. destruct (Rle_or_lt y x) as [|L]; [assumption|]. apply (gF_incr 0 1) in L; [|lra]. lra.
    + intros b Hb. apply Hb. lra.
Qed.
