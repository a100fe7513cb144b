(** Positive semi-definiteness of the kernels. *)

From Coq Require Import Reals List Arith Lia Lra.
From Coquelicot Require Import Coquelicot.
From Verif Require Import Base PSD Model_Kern Spec_Kern Proofs_Kern.
Import ListNotations.
Open Scope R_scope.

(** ** Closure properties *)

Lemma is_lim_seq_Rsum n (u : nat -> nat -> R) (l : nat -> R) :
  (forall i, (i < n)%nat -> is_lim_seq (fun N => u N i) (l i)) ->
  is_lim_seq (fun N => Rsum n (u N)) (Rsum n l).
Proof.
  induction n as [|n IH]; intros H.
  - cbn [Rsum]. apply is_lim_seq_const.
  - cbn [Rsum]. apply is_lim_seq_plus'; [apply IH; intros; apply H; lia|apply H; lia].
Qed.

Lemma psd_lim n (F : nat -> nat -> nat -> R) (G : nat -> nat -> R) :
  (forall N, psd n (F N)) ->
  (forall i j, (i < n)%nat -> (j < n)%nat -> is_lim_seq (fun N => F N i j) (G i j)) ->
  psd n G.
Proof.
  intros HF HL x.
  assert (L : is_lim_seq (fun N => qf n (F N) x) (qf n G x)).
  { unfold qf, bil. apply is_lim_seq_Rsum. intros i Hi. apply is_lim_seq_Rsum. intros j Hj.
    apply (is_lim_seq_mult' (fun N => x i * F N i j) (fun _ => x j)); [|apply is_lim_seq_const].
    apply (is_lim_seq_mult' (fun _ => x i)); [apply is_lim_seq_const|]. apply HL; assumption. }
  apply (is_lim_seq_le (fun _ => 0) (fun N => qf n (F N) x) 0 (qf n G x)).
  - intros N. apply HF.
  - apply is_lim_seq_const.
  - exact L.
Qed.

Lemma psd_rescale n F (u : nat -> R) : psd n F -> psd n (fun i j => u i * F i j * u j).
Proof.
  intros HF x. replace (qf n _ x) with (qf n F (fun i => u i * x i)); [apply HF|].
  unfold qf, bil. apply Rsum_ext. intros. apply Rsum_ext. intros. ring.
Qed.

Lemma psd_ones n : psd n (fun _ _ => 1).
Proof.
  intros x. replace (qf n _ x) with (Rsum n x * Rsum n x); [nra|].
  unfold qf, bil. rewrite <- Rsum_scal_r. apply Rsum_ext. intros i _. rewrite <- Rsum_scal_l.
  apply Rsum_ext. intros. ring.
Qed.

Lemma psd_pow n F k : sym n F -> psd n F -> psd n (fun i j => F i j ^ k).
Proof.
  intros Hs HF. induction k as [|k IH].
  - apply (psd_ext n (fun _ _ => 1)); [reflexivity|apply psd_ones].
  - cbn [pow]. apply psd_hadamard; assumption.
Qed.

(** Entrywise exponential. *)
Lemma psd_exp n F : sym n F -> psd n F -> psd n (fun i j => exp (F i j)).
Proof.
  intros Hs HF.
  apply (psd_lim n (fun N i j => sum_f_R0 (fun k => / INR (fact k) * F i j ^ k) N)).
  - intros N. induction N as [|N IH].
    + apply (psd_ext n (fun i j => / INR (fact 0) * F i j ^ 0)); [reflexivity|].
      apply psd_scal; [left; apply Rinv_0_lt_compat, lt_0_INR, lt_O_fact|apply psd_pow; assumption].
    + cbn [sum_f_R0]. apply psd_plus; [exact IH|].
      apply psd_scal; [left; apply Rinv_0_lt_compat, lt_0_INR, lt_O_fact|apply psd_pow; assumption].
  - intros i j _ _. apply is_lim_seq_Reals.
    unfold exp. destruct (exist_exp (F i j)) as [l Hl]. exact Hl.
Qed.

(** ** Gaussian families *)

(** A matrix of squared distances: [exp (- s T)] is PSD for all [s >= 0]. *)
Record gaussian (n : nat) (T : nat -> nat -> R) : Prop := {
  ga_sym : sym n T;
  ga_nonneg : forall i j, (i < n)%nat -> (j < n)%nat -> 0 <= T i j;
  ga_psd : forall s, 0 <= s -> psd n (fun i j => exp (- s * T i j))
}.

Definition sqd (P : nat) (x y : nat -> R) : R := Rsum P (fun p => (x p - y p) ^ 2).

Lemma sqd_sym P x y : sqd P x y = sqd P y x.
Proof. apply Rsum_ext. intros. ring. Qed.

Lemma sqd_nonneg P x y : 0 <= sqd P x y.
Proof. apply Rsum_nonneg. intros. apply pow2_ge_0. Qed.

Lemma sqd_gaussian n P x : gaussian n (fun i j => sqd P (x i) (x j)).
Proof.
  split.
  - intros i j _ _. apply sqd_sym.
  - intros. apply sqd_nonneg.
  - intros s Hs.
    pose (a i := Rsum P (fun p => x i p * x i p)).
    pose (g i j := Rsum P (fun p => x i p * x j p)).
    apply (psd_ext n (fun i j => exp (- s * a i) * exp (2 * s * g i j) * exp (- s * a j))).
    + intros i j _ _. rewrite <- !exp_plus. f_equal. unfold sqd, a, g.
      replace (Rsum P (fun p => (x i p - x j p) ^ 2)) with
        (Rsum P (fun p => x i p * x i p) + Rsum P (fun p => x j p * x j p) - 2 * Rsum P (fun p => x i p * x j p)).
      * ring.
      * rewrite <- Rsum_scal_l, <- Rsum_plus, <- Rsum_minus. apply Rsum_ext. intros. ring.
    + apply (psd_rescale n (fun i j => exp (2 * s * g i j)) (fun i => exp (- s * a i))).
      apply psd_exp.
      * intros i j _ _. f_equal. apply Rsum_ext. intros. ring.
      * apply psd_scal; [lra|]. apply (gram_psd n P (fun i p => x i p)).
Qed.

Lemma gaussian_scal n T c : 0 <= c -> gaussian n T -> gaussian n (fun i j => c * T i j).
Proof.
  intros Hc [Hs Hn Hp]. split.
  - intros i j Hi Hj. rewrite (Hs i j) by assumption. reflexivity.
  - intros i j Hi Hj. apply Rmult_le_pos; [assumption|apply Hn; assumption].
  - intros s Hs'. apply (psd_ext n (fun i j => exp (- (s * c) * T i j))).
    + intros. f_equal. ring.
    + apply Hp. apply Rmult_le_pos; assumption.
Qed.

Section Sums.
Variable n : nat.
Variable T : nat -> nat -> R.
Hypothesis HT : gaussian n T.

(** [exp (- c w (1 - exp (- s (T + v))))] *)
Lemma psd_exp_step c s v : 0 <= c -> 0 <= s -> 
  psd n (fun i j => exp (- (c * (1 - exp (- s * (T i j + v)))))).
Proof.
  intros Hc Hs.
  apply (psd_ext n (fun i j => exp (- c) * exp (c * exp (- s * v) * exp (- s * T i j)))).
  - intros i j _ _. rewrite <- exp_plus. f_equal.
    replace (- s * (T i j + v)) with (- s * v + - s * T i j) by ring. rewrite exp_plus. ring.
  - apply psd_scal; [left; apply exp_pos|]. apply psd_exp.
    + intros i j Hi Hj. rewrite (ga_sym n T HT i j) by assumption. reflexivity.
    + apply psd_scal; [apply Rmult_le_pos; [assumption|left; apply exp_pos]|].
      apply (ga_psd n T HT). assumption.
Qed.

Lemma psd_exp_sum N (c s : nat -> R) v :
  (forall k, 0 <= c k) -> (forall k, 0 <= s k) ->
  psd n (fun i j => exp (- Rsum N (fun k => c k * (1 - exp (- s k * (T i j + v)))))).
Proof.
  intros Hc Hs. induction N as [|N IH].
  - apply (psd_ext n (fun _ _ => 1)); [|apply psd_ones].
    intros. cbn [Rsum]. rewrite Ropp_0, exp_0. reflexivity.
  - apply (psd_ext n (fun i j =>
      exp (- Rsum N (fun k => c k * (1 - exp (- s k * (T i j + v))))) *
      exp (- (c N * (1 - exp (- s N * (T i j + v))))))).
    + intros i j _ _. rewrite <- exp_plus. f_equal. cbn [Rsum]. ring.
    + apply psd_hadamard; [|exact IH|apply psd_exp_step; auto].
      intros i j Hi Hj. rewrite (ga_sym n T HT i j) by assumption. reflexivity.
Qed.

End Sums.

(** ** The square root as a limit of sums of [w (1 - exp (- s t))] *)

Lemma one_minus_exp_bounds x : 0 <= x -> 0 <= 1 - exp (- x) <= 1 /\ 1 - exp (- x) <= x.
Proof.
  intros Hx. assert (P := exp_pos (- x)). assert (exp (- x) <= 1) by (apply exp_le_1; lra).
  assert (1 + - x <= exp (- x)).
  { destruct (Req_dec x 0) as [->|]; [rewrite Ropp_0, exp_0; lra|]. left. apply exp_ineq1. lra. }
  lra.
Qed.

Lemma exp_kh h k : exp (- (INR k * h)) = exp (- h) ^ k.
Proof.
  induction k as [|k IH]; [cbn; rewrite Rmult_0_l, Ropp_0; apply exp_0|].
  rewrite S_INR. cbn [pow]. rewrite <- IH, <- exp_plus. f_equal. ring.
Qed.

Section Root.
Variable h : R.
Hypothesis Hh : 0 < h.

Definition tp (k : nat) (t : R) : R := exp (- (INR k * h)) * (1 - exp (- (exp (2 * (INR k * h)) * t))).
Definition tn (k : nat) (t : R) : R := exp (INR k * h) * (1 - exp (- (exp (- (2 * (INR k * h))) * t))).
Definition gn (N : nat) (t : R) : R := Rsum N (fun k => tp k t + tn (S k) t).

Lemma tp_bounds k t : 0 <= t -> 0 <= tp k t <= exp (- (INR k * h)).
Proof.
  intros Ht. unfold tp. assert (P := exp_pos (- (INR k * h))).
  destruct (one_minus_exp_bounds (exp (2 * (INR k * h)) * t)) as [[B1 B2] _].
  { apply Rmult_le_pos; [left; apply exp_pos|assumption]. }
  split; [apply Rmult_le_pos; lra|].
  rewrite <- (Rmult_1_r (exp (- (INR k * h)))) at 2. apply Rmult_le_compat_l; lra.
Qed.

Lemma tn_bounds k t : 0 <= t -> 0 <= tn k t <= exp (- (INR k * h)) * t.
Proof.
  intros Ht. unfold tn. assert (P := exp_pos (INR k * h)).
  destruct (one_minus_exp_bounds (exp (- (2 * (INR k * h))) * t)) as [[B1 B2] B3].
  { apply Rmult_le_pos; [left; apply exp_pos|assumption]. }
  split; [apply Rmult_le_pos; lra|].
  apply Rle_trans with (exp (INR k * h) * (exp (- (2 * (INR k * h))) * t)).
  - apply Rmult_le_compat_l; lra.
  - right. rewrite <- Rmult_assoc, <- exp_plus. f_equal. f_equal. ring.
Qed.

Lemma q_bounds : 0 < exp (- h) < 1.
Proof. split; [apply exp_pos|]. rewrite <- exp_0. apply exp_increasing. lra. Qed.

Lemma geom_bound N : Rsum N (fun k => exp (- (INR k * h))) <= / (1 - exp (- h)).
Proof.
  assert (Q := q_bounds). set (q := exp (- h)) in *.
  assert (E : Rsum N (fun k => exp (- (INR k * h))) * (1 - q) = 1 - q ^ N).
  { induction N as [|N IH]; [cbn; ring|]. cbn [Rsum]. rewrite Rmult_plus_distr_r, IH, exp_kh.
    fold q. cbn [pow]. ring. }
  apply (Rmult_le_reg_r (1 - q)); [lra|]. rewrite E, Rinv_l by lra.
  assert (0 < q ^ N) by (apply pow_lt; lra). lra.
Qed.

Lemma gn_incr t N : 0 <= t -> gn N t <= gn (S N) t.
Proof.
  intros Ht. unfold gn. cbn [Rsum]. destruct (tp_bounds N t Ht), (tn_bounds (S N) t Ht). lra.
Qed.

Lemma gn_bound t N : 0 <= t -> gn N t <= / (1 - exp (- h)) * (1 + t).
Proof.
  intros Ht. apply Rle_trans with (Rsum N (fun k => exp (- (INR k * h)) * (1 + t))).
  - apply Rsum_le. intros k _. destruct (tp_bounds k t Ht), (tn_bounds (S k) t Ht).
    assert (exp (- (INR (S k) * h)) <= exp (- (INR k * h))).
    { left. apply exp_increasing. rewrite S_INR. lra. }
    assert (exp (- (INR (S k) * h)) * t <= exp (- (INR k * h)) * t) by (apply Rmult_le_compat_r; assumption).
    lra.
  - rewrite Rsum_scal_r. apply Rmult_le_compat_r; [lra|apply geom_bound].
Qed.

Definition groot (t : R) : R := real (Lim_seq (fun N => gn N t)).

Lemma groot_lim t : 0 <= t -> is_lim_seq (fun N => gn N t) (groot t).
Proof.
  intros Ht. apply Lim_seq_correct'.
  apply (ex_finite_lim_seq_incr _ (/ (1 - exp (- h)) * (1 + t))); intros N.
  - apply gn_incr; assumption.
  - apply gn_bound; assumption.
Qed.

Lemma gn_scale N t : gn N (exp (2 * h) * t) = exp h * (gn N t + tp N t - tn N t).
Proof.
  assert (Ep : forall k, tp k (exp (2 * h) * t) = exp h * tp (S k) t).
  { intros k. unfold tp. rewrite <- !Rmult_assoc, <- !exp_plus. rewrite S_INR. f_equal.
    - f_equal. ring.
    - do 3 f_equal. f_equal. f_equal. ring. }
  assert (En : forall k, tn (S k) (exp (2 * h) * t) = exp h * tn k t).
  { intros k. unfold tn. rewrite <- !Rmult_assoc, <- !exp_plus. rewrite S_INR. f_equal.
    - f_equal. ring.
    - do 3 f_equal. f_equal. f_equal. ring. }
  unfold gn. induction N as [|N IH].
  - cbn [Rsum]. unfold tp, tn. cbn [INR]. rewrite !Rmult_0_l, !Rmult_0_r, Ropp_0. ring.
  - cbn [Rsum]. rewrite IH, Ep, En. ring.
Qed.

Lemma tail_zero (u : nat -> R) C : (forall k, 0 <= u k <= exp (- (INR k * h)) * C) -> is_lim_seq u 0.
Proof.
  intros Hu. apply (is_lim_seq_le_le (fun _ => 0) u (fun k => exp (- (INR k * h)) * C)).
  - intros k. apply Hu.
  - apply is_lim_seq_const.
  - replace 0 with (0 * C) by ring. apply is_lim_seq_mult'; [|apply is_lim_seq_const].
    apply (is_lim_seq_ext (fun k => exp (- h) ^ k)); [intros k; symmetry; apply exp_kh|].
    apply is_lim_seq_geom. assert (Q := q_bounds). rewrite Rabs_pos_eq; lra.
Qed.

Lemma groot_scale t : 0 <= t -> groot (exp (2 * h) * t) = exp h * groot t.
Proof.
  intros Ht.
  assert (L1 : is_lim_seq (fun N => gn N (exp (2 * h) * t)) (groot (exp (2 * h) * t))).
  { apply groot_lim. apply Rmult_le_pos; [left; apply exp_pos|assumption]. }
  assert (L2 : is_lim_seq (fun N => gn N (exp (2 * h) * t)) (exp h * (groot t + 0 - 0))).
  { apply (is_lim_seq_ext (fun N => exp h * (gn N t + tp N t - tn N t))).
    { intros N. symmetry. apply gn_scale. }
    apply is_lim_seq_mult'; [apply is_lim_seq_const|].
    apply is_lim_seq_minus'.
    - apply is_lim_seq_plus'; [apply groot_lim; assumption|].
      apply (tail_zero _ 1). intros k. rewrite Rmult_1_r. apply tp_bounds; assumption.
    - apply (tail_zero _ t). intros k. apply tn_bounds; assumption. }
  assert (E := is_lim_seq_unique _ _ L1). rewrite (is_lim_seq_unique _ _ L2) in E.
  injection E as E. rewrite <- E. ring.
Qed.

Lemma groot_scale_n j t : 0 <= t -> groot (exp (2 * (INR j * h)) * t) = exp (INR j * h) * groot t.
Proof.
  intros Ht. induction j as [|j IH].
  - cbn [INR]. rewrite Rmult_0_l, Rmult_0_r, exp_0. rewrite !Rmult_1_l. reflexivity.
  - rewrite S_INR.
    replace (exp (2 * ((INR j + 1) * h)) * t) with (exp (2 * h) * (exp (2 * (INR j * h)) * t)).
    + rewrite groot_scale, IH.
      * rewrite <- Rmult_assoc, <- exp_plus. f_equal. f_equal. ring.
      * apply Rmult_le_pos; [left; apply exp_pos|assumption].
    + rewrite <- Rmult_assoc, <- exp_plus. f_equal. f_equal. ring.
Qed.

Lemma groot_scale_Z z : groot (exp (2 * (IZR z * h))) = exp (IZR z * h) * groot 1.
Proof.
  destruct (Z_le_gt_dec 0 z) as [Hz|Hz].
  - rewrite <- (Z2Nat.id z Hz), <- INR_IZR_INZ.
    rewrite <- (Rmult_1_r (exp (2 * _))). apply groot_scale_n. lra.
  - assert (E := groot_scale_n (Z.to_nat (- z)) (exp (2 * (IZR z * h))) ltac:(left; apply exp_pos)).
    rewrite INR_IZR_INZ, Z2Nat.id, opp_IZR in E by lia.
    rewrite <- exp_plus in E.
    replace (2 * (- IZR z * h) + 2 * (IZR z * h)) with 0 in E by ring. rewrite exp_0 in E.
    rewrite E. rewrite <- (Rmult_assoc (exp _) (exp _)), <- exp_plus.
    replace (IZR z * h + - IZR z * h) with 0 by ring. rewrite exp_0. ring.
Qed.

Lemma gn_mono N s t : 0 <= s <= t -> gn N s <= gn N t.
Proof.
  intros [Hs Hst]. apply Rsum_le. intros k _. unfold tp, tn. apply Rplus_le_compat.
  - apply Rmult_le_compat_l; [left; apply exp_pos|].
    assert (exp (- (exp (2 * (INR k * h)) * t)) <= exp (- (exp (2 * (INR k * h)) * s))); [|lra].
    assert (P := exp_pos (2 * (INR k * h))).
    destruct (Req_dec s t) as [->|]; [lra|]. left. apply exp_increasing. nra.
  - apply Rmult_le_compat_l; [left; apply exp_pos|].
    set (e := exp (- (2 * (INR (S k) * h)))).
    assert (exp (- (e * t)) <= exp (- (e * s))); [|lra].
    assert (P : 0 < e) by apply exp_pos.
    destruct (Req_dec s t) as [->|]; [lra|]. left. apply exp_increasing. nra.
Qed.

Lemma groot_mono s t : 0 <= s <= t -> groot s <= groot t.
Proof.
  intros H. apply (is_lim_seq_le (fun N => gn N s) (fun N => gn N t) (groot s) (groot t)).
  - intros N. apply gn_mono; assumption.
  - apply groot_lim; lra.
  - apply groot_lim; lra.
Qed.

Lemma groot_zero : groot 0 = 0.
Proof.
  assert (L : is_lim_seq (fun N => gn N 0) 0).
  { apply (is_lim_seq_ext (fun _ => 0)); [|apply is_lim_seq_const].
    intros N. unfold gn. symmetry. apply Rsum_zero. intros k _. unfold tp, tn.
    rewrite !Rmult_0_r, Ropp_0, exp_0. ring. }
  unfold groot. rewrite (is_lim_seq_unique _ _ L). reflexivity.
Qed.

Lemma groot_one_pos : 0 < groot 1.
Proof.
  apply Rlt_le_trans with (gn 1 1).
  - unfold gn. cbn [Rsum]. destruct (tn_bounds 1 1 ltac:(lra)) as [B _].
    unfold tp. cbn [INR]. rewrite Rmult_0_l, Rmult_0_r, Ropp_0, exp_0, !Rmult_1_l.
    assert (exp (- (1)) < exp 0) by (apply exp_increasing; lra). rewrite exp_0 in *. lra.
  - apply (is_lim_seq_le_loc (fun _ => gn 1 1) (fun N => gn N 1) (gn 1 1) (groot 1)).
    + exists 1%nat. intros N HN. induction HN; [lra|].
      apply Rle_trans with (gn m 1); [assumption|apply gn_incr; lra].
    + apply is_lim_seq_const.
    + apply groot_lim; lra.
Qed.

Lemma groot_sqrt t : 0 <= t -> Rabs (groot t / groot 1 - sqrt t) <= sqrt t * (exp h - 1).
Proof.
  intros Ht. destruct (Req_dec t 0) as [->|Hne].
  { rewrite groot_zero, sqrt_0. unfold Rdiv. rewrite Rmult_0_l, Rminus_0_r, Rabs_R0. lra. }
  assert (Hpos : 0 < t) by lra.
  assert (G1 := groot_one_pos).
  set (x := ln t / (2 * h)). set (z := Int_part x).
  assert (Hz : IZR z <= x < IZR z + 1).
  { unfold z. destruct (base_Int_part x). lra. }
  assert (Et : t = exp (2 * (x * h))).
  { unfold x. replace (2 * (ln t / (2 * h) * h)) with (ln t) by (field; lra). symmetry. apply exp_ln. assumption. }
  assert (Es : sqrt t = exp (x * h)).
  { rewrite Et. replace (2 * (x * h)) with (x * h + x * h) by ring. rewrite exp_plus.
    apply sqrt_square. left. apply exp_pos. }
  assert (M : forall a b, a <= b -> exp (a * h) <= exp (b * h)).
  { intros a b Hab. destruct (Req_dec a b) as [->|]; [lra|]. left. apply exp_increasing. nra. }
  assert (M2 : forall a b, a <= b -> exp (2 * (a * h)) <= exp (2 * (b * h))).
  { intros a b Hab. destruct (Req_dec a b) as [->|]; [lra|]. left. apply exp_increasing. nra. }
  assert (Lo : exp (IZR z * h) * groot 1 <= groot t).
  { rewrite <- groot_scale_Z. apply groot_mono. split; [left; apply exp_pos|].
    rewrite Et. apply M2. lra. }
  assert (Hi : groot t <= exp (IZR (z + 1) * h) * groot 1).
  { rewrite <- groot_scale_Z. apply groot_mono. split; [assumption|].
    rewrite Et. apply M2. rewrite plus_IZR. lra. }
  rewrite plus_IZR in Hi.
  assert (Eh : exp ((IZR z + 1) * h) = exp (IZR z * h) * exp h).
  { rewrite <- exp_plus. f_equal. ring. }
  rewrite Eh in Hi.
  assert (S1 := M (IZR z) x ltac:(lra)). assert (S2 := M x (IZR z + 1) ltac:(lra)). rewrite Eh in S2.
  rewrite <- Es in S1, S2.
  assert (Lo' : exp (IZR z * h) <= groot t / groot 1).
  { apply (Rmult_le_reg_r (groot 1)); [lra|]. unfold Rdiv. rewrite Rmult_assoc, Rinv_l by lra. lra. }
  assert (Hi' : groot t / groot 1 <= exp (IZR z * h) * exp h).
  { apply (Rmult_le_reg_r (groot 1)); [lra|]. unfold Rdiv. rewrite Rmult_assoc, Rinv_l by lra. lra. }
  assert (Eh1 : 0 <= exp h - 1).
  { assert (1 < exp h) by (rewrite <- exp_0; apply exp_increasing; assumption). lra. }
  assert (Q : exp (IZR z * h) * (exp h - 1) <= sqrt t * (exp h - 1)) by (apply Rmult_le_compat_r; assumption).
  apply Rabs_le. split; lra.
Qed.

End Root.

Lemma psd_groot h n T c v :
  0 < h -> gaussian n T -> 0 <= c -> 0 <= v -> psd n (fun i j => exp (- (c * groot h (T i j + v)))).
Proof.
  intros Hh HT Hc Hv.
  apply (psd_lim n (fun N i j => exp (- (c * gn h N (T i j + v))))).
  - intros N.
    pose (w k := c * (if Nat.even k then exp (- (INR (k / 2) * h)) else exp (INR (S (k / 2)) * h))).
    pose (s k := if Nat.even k then exp (2 * (INR (k / 2) * h)) else exp (- (2 * (INR (S (k / 2)) * h)))).
    apply (psd_ext n (fun i j => exp (- Rsum (2 * N) (fun k => w k * (1 - exp (- s k * (T i j + v))))))).
    + intros i j _ _. f_equal. f_equal. unfold gn. rewrite <- Rsum_scal_l.
      induction N as [|N IH]; [reflexivity|].
      replace (2 * S N)%nat with (S (S (2 * N))) by lia. cbn [Rsum]. rewrite IH.
      assert (D0 : (2 * N / 2 = N)%nat) by (rewrite Nat.mul_comm; apply Nat.div_mul; lia).
      assert (D1 : (S (2 * N) / 2 = N)%nat).
      { replace (S (2 * N)) with (1 + N * 2)%nat by lia. rewrite Nat.div_add by lia. reflexivity. }
      assert (E0 : Nat.even (2 * N) = true) by (rewrite Nat.even_mul; reflexivity).
      assert (E1 : Nat.even (S (2 * N)) = false) by (rewrite Nat.even_succ, <- Nat.negb_even, E0; reflexivity).
      unfold w, s. rewrite D0, D1, E0, E1. unfold tp, tn. rewrite !Ropp_mult_distr_l. ring.
    + apply psd_exp_sum.
      * exact HT.
      * intros k. unfold w. apply Rmult_le_pos; [assumption|]. destruct (Nat.even k); left; apply exp_pos.
      * intros k. unfold s. destruct (Nat.even k); left; apply exp_pos.
  - intros i j Hi Hj. 
    apply (is_lim_seq_continuous (fun y => exp (- (c * y))) (fun N => gn h N (T i j + v)) (groot h (T i j + v))).
    + apply continuity_pt_filterlim. apply (ex_derive_continuous (fun y => exp (- (c * y)))).
      auto_derive. exact I.
    + apply groot_lim; [assumption|]. assert (Q := ga_nonneg n T HT i j Hi Hj). lra.
Qed.

Lemma lim_inv_S : is_lim_seq (fun N => / INR (S N)) 0.
Proof.
  apply (is_lim_seq_inv (fun N => INR (S N)) p_infty); [|discriminate].
  apply -> is_lim_seq_incr_1. apply is_lim_seq_INR.
Qed.

(** [exp (- c sqrt (T + v))]: the exponential kernel, in any dimension. *)
Lemma psd_exp_sqrt n T c v :
  gaussian n T -> 0 <= c -> 0 <= v -> psd n (fun i j => exp (- (c * sqrt (T i j + v)))).
Proof.
  intros HT Hc Hv.
  pose (h N := / INR (S N)).
  assert (Hh : forall N, 0 < h N) by (intros N; apply Rinv_0_lt_compat, lt_0_INR; lia).
  apply (psd_lim n (fun N i j => exp (- (c / groot (h N) 1 * groot (h N) (T i j + v))))).
  - intros N. apply psd_groot; try assumption; [apply Hh|].
    apply Rmult_le_pos; [assumption|]. left. apply Rinv_0_lt_compat, groot_one_pos, Hh.
  - intros i j Hi Hj. set (t := T i j + v).
    assert (Ht : 0 <= t) by (assert (Q := ga_nonneg n T HT i j Hi Hj); unfold t; lra).
    apply (is_lim_seq_ext (fun N => exp (- (c * (groot (h N) t / groot (h N) 1))))).
    { intros N. f_equal. f_equal. unfold Rdiv. ring. }
    apply (is_lim_seq_continuous (fun y => exp (- (c * y))) (fun N => groot (h N) t / groot (h N) 1) (sqrt t)).
    + apply continuity_pt_filterlim. apply (ex_derive_continuous (fun y => exp (- (c * y)))).
      auto_derive. exact I.
    + apply (is_lim_seq_le_le (fun N => sqrt t - sqrt t * (exp (h N) - 1)) _
                              (fun N => sqrt t + sqrt t * (exp (h N) - 1))).
      * intros N. assert (B := groot_sqrt (h N) (Hh N) t Ht). apply Rabs_le_between in B. lra.
      * replace (sqrt t) with (sqrt t - sqrt t * (exp 0 - 1)) at 1 by (rewrite exp_0; ring).
        apply (is_lim_seq_continuous (fun y => sqrt t - sqrt t * (exp y - 1)) h 0).
        -- apply continuity_pt_filterlim. apply (ex_derive_continuous (fun y => sqrt t - sqrt t * (exp y - 1))).
           auto_derive. exact I.
        -- apply lim_inv_S.
      * replace (sqrt t) with (sqrt t + sqrt t * (exp 0 - 1)) at 1 by (rewrite exp_0; ring).
        apply (is_lim_seq_continuous (fun y => sqrt t + sqrt t * (exp y - 1)) h 0).
        -- apply continuity_pt_filterlim. apply (ex_derive_continuous (fun y => sqrt t + sqrt t * (exp y - 1))).
           auto_derive. exact I.
        -- apply lim_inv_S.
Qed.

(** ** Matern-3/2 *)

Definition mat_phi (t : R) : R := (1 + sqrt t) * exp (- sqrt t).
Definition mat_psi (t : R) : R := exp (- sqrt t).

Lemma mat_phi_derive t : 0 < t -> is_derive mat_phi t (- (1 / 2) * mat_psi t).
Proof.
  intros Ht. unfold mat_phi, mat_psi. auto_derive; [tauto|].
  assert (0 < sqrt t) by (apply sqrt_lt_R0; assumption). field. lra.
Qed.

Lemma mat_phi_cont t : continuity_pt mat_phi t.
Proof.
  apply continuity_pt_filterlim. unfold mat_phi.
  apply (continuous_mult (fun t => 1 + sqrt t) (fun t => exp (- sqrt t))).
  - apply (continuous_plus (fun _ => 1) sqrt); [apply continuous_const|apply continuous_sqrt].
  - apply (continuous_comp (fun t => - sqrt t) exp); [|apply continuous_exp].
    apply (continuous_opp sqrt). apply continuous_sqrt.
Qed.

Lemma mat_psi_mono s t : 0 <= s <= t -> mat_psi t <= mat_psi s.
Proof.
  intros H. unfold mat_psi. assert (sqrt s <= sqrt t) by (apply sqrt_le_1; lra).
  destruct (Req_dec (sqrt s) (sqrt t)) as [->|]; [lra|]. left. apply exp_increasing. lra.
Qed.

Lemma mat_step t h : 0 <= t -> 0 < h ->
  h / 2 * mat_psi (t + h) <= mat_phi t - mat_phi (t + h) <= h / 2 * mat_psi t.
Proof.
  intros Ht Hh.
  destruct (MVT_gen mat_phi t (t + h) (fun s => - (1 / 2) * mat_psi s)) as [c [Hc E]].
  - intros x Hx. rewrite Rmin_left, Rmax_right in Hx by lra. apply mat_phi_derive. lra.
  - intros x Hx. apply mat_phi_cont.
  - rewrite Rmin_left, Rmax_right in Hc by lra.
    assert (A := mat_psi_mono t c ltac:(lra)). assert (B := mat_psi_mono c (t + h) ltac:(lra)). nra.
Qed.

Lemma mat_sum t h M : 0 <= t -> 0 < h ->
  Rsum M (fun k => h / 2 * mat_psi (t + INR (S k) * h)) <= mat_phi t - mat_phi (t + INR M * h)
  <= Rsum M (fun k => h / 2 * mat_psi (t + INR (S k) * h)) + h / 2 * (mat_psi t - mat_psi (t + INR M * h)).
Proof.
  intros Ht Hh. induction M as [|M IH].
  - cbn [Rsum INR]. rewrite Rmult_0_l, Rplus_0_r. lra.
  - cbn [Rsum].
    assert (P : 0 <= INR M * h) by (apply Rmult_le_pos; [apply pos_INR|lra]).
    assert (St := mat_step (t + INR M * h) h ltac:(lra) Hh).
    replace (t + INR (S M) * h) with (t + INR M * h + h) by (rewrite S_INR; ring). lra.
Qed.

Lemma mat_phi_decay y : 1 <= y -> 0 <= mat_phi (y * y) <= 8 / y.
Proof.
  intros Hy. unfold mat_phi. rewrite sqrt_square by lra.
  assert (P := exp_pos (- y)). split; [apply Rmult_le_pos; lra|].
  assert (E1 : 1 + y / 2 < exp (y / 2)) by (apply exp_ineq1; lra).
  assert (E2 : exp y = exp (y / 2) * exp (y / 2)) by (rewrite <- exp_plus; f_equal; field).
  assert (E3 : y * y / 4 <= exp y) by (rewrite E2; nra).
  assert (E4 : exp (- y) * exp y = 1) by (rewrite <- exp_plus; replace (- y + y) with 0 by ring; apply exp_0).
  apply (Rmult_le_reg_r y); [lra|]. replace (8 / y * y) with 8 by (field; lra).
  assert (exp (- y) * (y * y / 4) <= 1) by (rewrite <- E4; apply Rmult_le_compat_l; lra).
  nra.
Qed.

Lemma psd_matern n T : gaussian n T -> psd n (fun i j => mat_phi (T i j)).
Proof.
  intros HT.
  pose (h N := / INR (S N)).
  assert (Hh : forall N, 0 < h N) by (intros N; apply Rinv_0_lt_compat, lt_0_INR; lia).
  pose (M N := (S N * S N * S N)%nat).
  pose (F N i j := Rsum (M N) (fun k => h N / 2 * mat_psi (T i j + INR (S k) * h N))).
  apply (psd_lim n F).
  - intros N. apply (psd_Rsum n (M N) (fun k i j => h N / 2 * mat_psi (T i j + INR (S k) * h N))).
    intros k _. apply psd_scal; [assert (Q := Hh N); lra|].
    apply (psd_ext n (fun i j => exp (- (1 * sqrt (T i j + INR (S k) * h N))))).
    + intros. unfold mat_psi. rewrite Rmult_1_l. reflexivity.
    + apply psd_exp_sqrt; [assumption|lra|]. apply Rmult_le_pos; [apply pos_INR|left; apply Hh].
  - intros i j Hi Hj. assert (Ht := ga_nonneg n T HT i j Hi Hj). set (t := T i j) in *.
    assert (B : forall N, mat_phi t - 9 * h N <= F N i j <= mat_phi t).
    { intros N. assert (S := mat_sum t (h N) (M N) Ht (Hh N)). fold (F N i j) in S.
      assert (EM : INR (M N) * h N = INR (Datatypes.S N) * INR (Datatypes.S N)).
      { unfold M, h. rewrite !mult_INR. field. apply not_0_INR. lia. }
      rewrite EM in S. set (y := INR (Datatypes.S N)) in *.
      assert (Hy : 1 <= y) by (unfold y; rewrite S_INR; assert (Q := pos_INR N); lra).
      assert (D := mat_phi_decay y Hy).
      assert (Mono : mat_phi (t + y * y) <= mat_phi (y * y)).
      { destruct (Req_dec t 0) as [E|E]; [rewrite E, Rplus_0_l; lra|].
        rewrite Rplus_comm. assert (St := mat_step (y * y) t ltac:(nra) ltac:(lra)).
        assert (0 < mat_psi (y * y + t)) by apply exp_pos. nra. }
      assert (Pos : 0 <= mat_phi (t + y * y)).
      { unfold mat_phi. apply Rmult_le_pos; [|left; apply exp_pos].
        assert (Q := sqrt_pos (t + y * y)). lra. }
      assert (P1 : mat_psi t <= 1) by (apply exp_le_1; assert (Q := sqrt_pos t); lra).
      assert (P2 : 0 < mat_psi (t + y * y)) by apply exp_pos.
      assert (Eh : 8 / y = 8 * h N) by reflexivity.
      assert (Q := Hh N).
      assert (h N / 2 * (mat_psi t - mat_psi (t + y * y)) <= h N / 2 * 1) by (apply Rmult_le_compat_l; lra).
      change (F N i j) with (Rsum (M N) (fun k => h N / 2 * mat_psi (t + INR (Datatypes.S k) * h N))). lra. }
    apply (is_lim_seq_le_le (fun N => mat_phi t - 9 * h N) _ (fun _ => mat_phi t)).
    + exact B.
    + replace (mat_phi t) with (mat_phi t - 9 * 0) at 1 by ring.
      apply is_lim_seq_minus'; [apply is_lim_seq_const|].
      apply is_lim_seq_mult'; [apply is_lim_seq_const|apply lim_inv_S].
    + apply is_lim_seq_const.
Qed.

(** ** The documented kernels *)

Lemma pd_on_psd P k : (forall n x, psd n (fun i j => k (euclid P (x i) (x j)))) -> pd_on P k.
Proof.
  intros H n x c. assert (Q := H n x c). unfold qf, bil in Q.
  replace (Rsum n _) with (Rsum n (fun i => Rsum n (fun j => c i * k (euclid P (x i) (x j)) * c j))); [exact Q|].
  apply Rsum_ext. intros. apply Rsum_ext. intros. ring.
Qed.

Lemma psd_pd_on P k : pd_on P k -> forall n x, psd n (fun i j => k (euclid P (x i) (x j))).
Proof.
  intros H n x c. assert (Q := H n x c). unfold qf, bil.
  replace (Rsum n _) with (Rsum n (fun i => Rsum n (fun j => c i * c j * k (euclid P (x i) (x j))))); [exact Q|].
  apply Rsum_ext. intros. apply Rsum_ext. intros. ring.
Qed.

Lemma euclid_sqd P x y : euclid P x y = sqrt (sqd P x y).
Proof. reflexivity. Qed.

Lemma euclid_sq P x y : euclid P x y ^ 2 = sqd P x y.
Proof. rewrite euclid_sqd. apply pow2_sqrt, sqd_nonneg. Qed.

Lemma pd_rbf P g : 0 < g -> pd_on P (k_doc (RBF g)).
Proof.
  intros Hg. apply pd_on_psd. intros n x. cbn [k_doc].
  apply (psd_ext n (fun i j => exp (- (g / 2) * sqd P (x i) (x j)))).
  - intros. rewrite euclid_sq. f_equal. field.
  - apply (ga_psd n _ (sqd_gaussian n P x)). lra.
Qed.

Lemma pd_matern P g : 0 < g -> pd_on P (k_doc (Matern32 g)).
Proof.
  intros Hg. apply pd_on_psd. intros n x. cbn [k_doc].
  apply (psd_ext n (fun i j => mat_phi (3 * (g * g) * sqd P (x i) (x j)))).
  - intros i j _ _. unfold mat_phi. rewrite sqrt_mult, sqrt_mult, sqrt_square, euclid_sqd; try lra.
    + f_equal; [ring|f_equal; ring].
    + nra.
    + nra.
    + apply sqd_nonneg.
  - apply (psd_matern n (fun i j => 3 * (g * g) * sqd P (x i) (x j))).
    apply gaussian_scal; [nra|apply sqd_gaussian].
Qed.

Lemma pd_periodic g T : 0 < g -> 0 < T -> pd_on 1 (k_doc (StdPeriodic g T)).
Proof.
  intros Hg HT. apply pd_on_psd. intros n x. cbn [k_doc].
  pose (th i := 2 * (PI * x i 0%nat / T)).
  apply (psd_ext n (fun i j => exp (- (g / 4)) * exp (g / 4 * cos (th i - th j)))).
  - intros i j _ _. rewrite <- exp_plus. f_equal.
    assert (E : euclid 1 (x i) (x j) = Rabs (x i 0%nat - x j 0%nat)).
    { unfold euclid. cbn [Rsum]. rewrite Rplus_0_l, <- Rsqr_pow2. apply sqrt_Rsqr_abs. }
    rewrite E. set (d := x i 0%nat - x j 0%nat).
    replace (th i - th j) with (2 * (PI * d / T)) by (unfold th, d; field; lra).
    rewrite cos_2a_sin.
    replace (sin (PI * Rabs d / T) ^ 2) with (sin (PI * d / T) * sin (PI * d / T)); [field|].
    unfold Rabs. destruct (Rcase_abs d); [|ring].
    replace (PI * - d / T) with (- (PI * d / T)) by (field; lra). rewrite sin_neg. ring.
  - apply psd_scal; [left; apply exp_pos|]. apply psd_exp.
    + intros i j _ _. f_equal. replace (th i - th j) with (- (th j - th i)) by ring. apply cos_neg.
    + apply psd_scal; [lra|].
      apply (psd_ext n (fun i j => Rsum 2 (fun l => (if Nat.eqb l 0 then cos (th i) else sin (th i)) *
                                                    (if Nat.eqb l 0 then cos (th j) else sin (th j))))).
      * intros i j _ _. rewrite cos_minus. cbn [Rsum Nat.eqb]. ring.
      * apply (gram_psd n 2 (fun i l => if Nat.eqb l 0 then cos (th i) else sin (th i))).
Qed.

Lemma sqd_zero P x y : sqd P x y = 0 <-> forall p, (p < P)%nat -> x p = y p.
Proof.
  unfold sqd. split.
  - induction P as [|P IH]; [lia|]. cbn [Rsum]. intros E p Hp.
    assert (A : 0 <= Rsum P (fun p => (x p - y p) ^ 2)) by (apply Rsum_nonneg; intros; apply pow2_ge_0).
    assert (B : 0 <= (x P - y P) ^ 2) by apply pow2_ge_0.
    destruct (Nat.eq_dec p P) as [->|]; [nra|]. apply IH; [lra|lia].
  - intros H. apply Rsum_zero. intros p Hp. rewrite H by assumption. ring.
Qed.

(** Indicator of an equivalence relation. *)
Lemma psd_equiv n (e : nat -> nat -> bool) :
  (forall i, e i i = true) -> (forall i j, e i j = e j i) ->
  (forall i j k, e i j = true -> e j k = true -> e i k = true) ->
  psd n (fun i j => if e i j then 1 else 0).
Proof.
  intros Hr Hs Ht.
  (* [rep k]: k is the least index of its class *)
  pose (rep k := negb (existsb (fun l => e k l) (seq 0 k))).
  apply (psd_ext n (fun i j => Rsum n (fun k => (if (rep k && e i k)%bool then 1 else 0) *
                                                (if (rep k && e j k)%bool then 1 else 0)))).
  2: { apply (gram_psd n n (fun i k => if (rep k && e i k)%bool then 1 else 0)). }
  assert (Least : forall i, (i < n)%nat -> exists k, (k < n)%nat /\ rep k = true /\ e i k = true).
  { intros i. induction i as [i IH] using lt_wf_ind. intros Hi.
    destruct (rep i) eqn:R.
    - exists i. auto.
    - unfold rep in R. apply Bool.negb_false_iff in R. apply existsb_exists in R.
      destruct R as [l [Hl He]]. apply in_seq in Hl.
      destruct (IH l ltac:(lia) ltac:(lia)) as [k [Hk [Rk Ek]]].
      exists k. split; [assumption|]. split; [assumption|]. apply (Ht i l k); assumption. }
  assert (Uniq : forall k l, rep k = true -> rep l = true -> e k l = true -> k = l).
  { assert (W : forall k l, rep l = true -> e k l = true -> ~ (k < l)%nat).
    { intros k l Rl E Hlt. unfold rep in Rl. apply Bool.negb_true_iff in Rl.
      assert (X : existsb (fun m => e l m) (seq 0 l) = true).
      { apply existsb_exists. exists k. split; [apply in_seq; lia|]. rewrite Hs. assumption. }
      congruence. }
    intros k l Rk Rl E. assert (A := W k l Rl E). assert (B := W l k Rk). rewrite Hs in B. specialize (B E). lia. }
  intros i j Hi Hj. destruct (Least i Hi) as [k [Hk [Rk Ek]]].
  rewrite (Rsum_ext n _ (fun k' => if Nat.eqb k' k then (if e j k then 1 else 0) else 0)).
  - rewrite Rsum_delta by assumption.
    destruct (e j k) eqn:Ej; destruct (e i j) eqn:Eij; try reflexivity.
    + rewrite (Ht i k j) in Eij; [discriminate|assumption|rewrite Hs; assumption].
    + rewrite (Ht j i k) in Ej; [discriminate|rewrite Hs; assumption|assumption].
  - intros k' Hk'. destruct (Nat.eqb_spec k' k) as [->|Hne].
    + rewrite Rk, Ek. cbn [andb]. destruct (e j k); ring.
    + destruct (rep k' && e i k')%bool eqn:E; [|ring].
      apply andb_prop in E. destruct E as [Rk' Ek']. exfalso. apply Hne.
      apply Uniq; try assumption. apply (Ht k' i k); [rewrite Hs; assumption|assumption].
Qed.

Lemma pd_identity P : pd_on P (k_doc KIdentity).
Proof.
  apply pd_on_psd. intros n x. cbn [k_doc].
  pose (e i j := if Req_EM_T (sqd P (x i) (x j)) 0 then true else false).
  assert (Ee : forall i j, e i j = true <-> forall p, (p < P)%nat -> x i p = x j p).
  { intros i j. unfold e. destruct (Req_EM_T (sqd P (x i) (x j)) 0) as [E|E].
    - rewrite <- sqd_zero. tauto.
    - rewrite <- sqd_zero. split; [discriminate|contradiction]. }
  apply (psd_ext n (fun i j => if e i j then 1 else 0)).
  - intros i j _ _. unfold e. rewrite euclid_sqd. assert (Q := sqd_nonneg P (x i) (x j)).
    destruct (Req_EM_T (sqd P (x i) (x j)) 0) as [E|E].
    + rewrite E, sqrt_0. destruct (Req_EM_T 0 0); lra.
    + destruct (Req_EM_T (sqrt (sqd P (x i) (x j))) 0) as [E2|E2]; [|reflexivity].
      apply sqrt_eq_0 in E2; [contradiction|assumption].
  - apply psd_equiv.
    + intros i. apply Ee. reflexivity.
    + intros i j. destruct (e i j) eqn:E.
      * symmetry. apply Ee. intros p Hp. symmetry. apply (proj1 (Ee i j)); assumption.
      * destruct (e j i) eqn:E'; [|reflexivity]. exfalso.
        assert (e i j = true); [|congruence]. apply Ee. intros p Hp. symmetry. apply (proj1 (Ee j i)); assumption.
    + intros i j k H1 H2. apply Ee. intros p Hp. rewrite (proj1 (Ee i j) H1 p Hp). apply (proj1 (Ee j k)); assumption.
Qed.

Lemma pd_scaled P k s : 0 < s -> pd_on P (k_doc k) -> pd_on P (k_doc (Scaled k s)).
Proof.
  intros Hs H n x c. cbn [k_doc].
  replace (Rsum n _) with (s * Rsum n (fun i => Rsum n (fun j => c i * c j * k_doc k (euclid P (x i) (x j))))).
  - apply Rmult_le_pos; [lra|apply H].
  - rewrite <- Rsum_scal_l. apply Rsum_ext. intros. rewrite <- Rsum_scal_l. apply Rsum_ext. intros. ring.
Qed.

Lemma pd_kernel P k : positive k -> (has_periodic k = true -> P = 1%nat) -> pd_on P (k_doc k).
Proof.
  induction k as [g|g|g T| |k IH s]; intros Hp HP.
  - apply pd_rbf. apply Hp; cbn; auto.
  - apply pd_matern. apply Hp; cbn; auto.
  - rewrite HP by reflexivity. apply pd_periodic; apply Hp; cbn; auto.
  - apply pd_identity.
  - apply pd_scaled.
    + apply Hp. cbn. apply in_or_app. right; left; reflexivity.
    + apply IH; [|exact HP]. intros v Hv. apply Hp. cbn. apply in_or_app; auto.
Qed.

(** Two active dimensions break the periodic kernel, whatever its
    parameters. *)
Lemma sin_pi_sqrt2 : sin (PI * sqrt 2) <> 0.
Proof.
  assert (S1 : 1 < sqrt 2) by (rewrite <- sqrt_1 at 1; apply sqrt_lt_1; lra).
  assert (S2 : sqrt 2 < 2).
  { assert (Q := sqrt_sqrt 2 ltac:(lra)). assert (0 <= sqrt 2) by apply sqrt_pos. nra. }
  assert (Hpi := PI_RGT_0).
  assert (sin (PI * sqrt 2) < 0); [|lra]. apply sin_lt_0; nra.
Qed.

Definition corner (T : R) (i p : nat) : R :=
  match i, p with 1%nat, 0%nat => T | 2%nat, 1%nat => T | _, _ => 0 end.

Lemma sqd_corner P T i j : (2 <= P)%nat ->
  sqd P (corner T i) (corner T j)
  = (corner T i 0%nat - corner T j 0%nat) ^ 2 + (corner T i 1%nat - corner T j 1%nat) ^ 2.
Proof.
  intros HP. unfold sqd. replace P with (2 + (P - 2))%nat by lia. rewrite Rsum_split.
  rewrite (Rsum_zero (P - 2)).
  - cbn [Rsum]. ring.
  - intros p _.
    assert (Z : forall l, corner T l (2 + p) = 0) by (intros [|[|[|l]]]; reflexivity).
    rewrite !Z. ring.
Qed.

Lemma periodic_not_pd P g T : (2 <= P)%nat -> 0 < g -> 0 < T ->
  Rsum 3 (fun i => Rsum 3 (fun j =>
     (if Nat.eqb i 0 then -2 else 1) * (if Nat.eqb j 0 then -2 else 1) *
     k_doc (StdPeriodic g T) (euclid P (corner T i) (corner T j)))) < 0.
Proof.
  intros HP Hg HT.
  assert (K0 : forall i, k_doc (StdPeriodic g T) (euclid P (corner T i) (corner T i)) = 1).
  { intros i. rewrite euclid_sqd. replace (sqd P _ _) with 0 by (symmetry; apply sqd_zero; reflexivity).
    rewrite sqrt_0. apply k_doc_zero. exact I. }
  assert (K1 : forall i j, sqd P (corner T i) (corner T j) = T * T ->
                           k_doc (StdPeriodic g T) (euclid P (corner T i) (corner T j)) = 1).
  { intros i j E. rewrite euclid_sqd, E, sqrt_square by lra.
    replace T with (0 + T) at 2 by ring. rewrite periodic_period by assumption. apply k_doc_zero. exact I. }
  assert (K2 : forall i j, sqd P (corner T i) (corner T j) = 2 * (T * T) ->
                           k_doc (StdPeriodic g T) (euclid P (corner T i) (corner T j)) < 1).
  { intros i j E. rewrite euclid_sqd, E, sqrt_mult, sqrt_square by nra. cbn [k_doc].
    replace (PI * (sqrt 2 * T) / T) with (PI * sqrt 2) by (field; lra).
    rewrite <- exp_0. apply exp_increasing.
    assert (Q := sin_pi_sqrt2). assert (0 < sin (PI * sqrt 2) ^ 2) by (apply pow2_gt_0; assumption). nra. }
  assert (B12 := K2 1%nat 2%nat). assert (B21 := K2 2%nat 1%nat).
  rewrite sqd_corner in B12 by assumption. rewrite sqd_corner in B21 by assumption.
  cbn [corner] in B12, B21. specialize (B12 ltac:(ring)). specialize (B21 ltac:(ring)).
  cbn [Rsum Nat.eqb].
  rewrite !K0.
  rewrite (K1 0%nat 1%nat), (K1 0%nat 2%nat), (K1 1%nat 0%nat), (K1 2%nat 0%nat);
    try (rewrite sqd_corner by assumption; cbn [corner]; ring).
  lra.
Qed.
