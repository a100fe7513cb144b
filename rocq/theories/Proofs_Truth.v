(** Expected gradients and log likelihoods of data drawn from the model. *)

From Coq Require Import Reals List Arith Lia Lra.
From Verif Require Import Base NDArray PSD Det Proofs_Shur Proofs_Det Model_Util Proofs_Util Model_Linalg Spec_Linalg Proofs_Linalg
  Model_Interp Model_Kern Spec_Kern Proofs_Kern Proofs_KernPSD Model_FK Spec_FK Proofs_FK Model_Grid Spec_Grid Proofs_Grid Proofs_Grid2
  Model_Lik Spec_Lik Proofs_Lik Proofs_Lik2 Proofs_Lik3 Proofs_Lik5 Spec_GP Model_GP Spec_Pred Proofs_Pred4 Proofs_Init Proofs_Order3 Spec_Best Proofs_Best Spec_Truth.
Import ListNotations.
Open Scope R_scope.

(** ** Determinants grow by rank-one terms *)

Lemma pivots_plus n F u c : sym n F -> pivots n F -> 0 <= c -> pivots n (fun i j => F i j + c * (u i * u j)).
Proof.
  intros Hs P Hc. apply pos_def_pivots.
  - intros i j Hi Hj. rewrite (Hs i j Hi Hj). ring.
  - intros x Hx. pose proof (pivots_pos_def n F Hs P x Hx) as H.
    assert (E : qf n (fun i j => F i j + c * (u i * u j)) x = qf n F x + c * (Rsum n (fun i => u i * x i) * Rsum n (fun i => u i * x i))).
    { unfold qf, bil. set (s := Rsum n (fun i => u i * x i)).
      transitivity (Rsum n (fun i => Rsum n (fun j => x i * F i j * x j) + c * (u i * x i * s))).
      - apply Rsum_ext. intros i Hi. unfold s. rewrite <- !Rsum_scal_l, <- Rsum_plus. apply Rsum_ext. intros; ring.
      - rewrite Rsum_plus. f_equal. rewrite Rsum_scal_l. f_equal. apply Rsum_scal_r. }
    rewrite E. assert (0 <= c * (Rsum n (fun i => u i * x i) * Rsum n (fun i => u i * x i))) by (apply Rmult_le_pos; [exact Hc|apply Rle_0_sqr]).
    lra.
Qed.

Lemma det_rank1 n : forall F u c, sym n F -> pivots n F -> 0 < c ->
  det n F <= det n (fun i j => F i j + c * (u i * u j)) /\
  ((exists i, (i < n)%nat /\ u i <> 0) -> det n F < det n (fun i j => F i j + c * (u i * u j))).
Proof.
  induction n as [|m IH]; intros F u c Hs P Hc.
  - split; [apply Rle_refl|]. intros [i [Hi _]]. lia.
  - destruct P as [P1 P2]. set (s := F O O + c * (u O * u O)).
    assert (H0 : 0 <= u O * u O) by apply Rle_0_sqr.
    assert (Hsp : F O O <= s) by (unfold s; assert (0 <= c * (u O * u O)) by (apply Rmult_le_pos; lra); lra).
    set (w := fun i => u (S i) - F (S i) O * u O / F O O). set (c' := c * F O O / s).
    assert (Hc' : 0 < c') by (unfold c'; apply Rdiv_lt_0_compat; [apply Rmult_lt_0_compat|]; lra).
    assert (ES : forall i j, (i < m)%nat -> (j < m)%nat ->
       schur1 (fun i j => F i j + c * (u i * u j)) i j = schur1 F i j + c' * (w i * w j)).
    { intros i j Hi Hj. unfold schur1, c', w. fold s. rewrite (Hs O (S j)) by lia.
      assert (Hss : s <> 0) by lra. assert (Hf : F O O <> 0) by lra. unfold s in *. field. split; assumption. }
    rewrite !det_pivot by (fold s; lra). fold s. rewrite (det_ext m _ _ ES).
    destruct (IH (schur1 F) w c' (schur1_sym m F Hs) P2 Hc') as [I1 I2].
    pose proof (det_pos m _ P2) as D. set (d := det m (schur1 F)) in *. set (d' := det m (fun i j => schur1 F i j + c' * (w i * w j))) in *.
    split; [apply Rmult_le_compat; lra|].
    intros [i [Hi Hu]]. destruct (Req_dec (u O) 0) as [Z|NZ].
    + destruct i as [|i]; [contradiction|]. assert (LT : d < d').
      { apply I2. exists i. split; [lia|]. unfold w. rewrite Z. unfold Rdiv. rewrite Rmult_0_r, Rmult_0_l, Rminus_0_r. exact Hu. }
      apply Rle_lt_trans with (s * d); [apply Rmult_le_compat_r; lra|apply Rmult_lt_compat_l; lra].
    + assert (0 < u O * u O) by (apply Rsqr_pos_lt; exact NZ).
      assert (F O O < s) by (unfold s; assert (0 < c * (u O * u O)) by (apply Rmult_lt_0_compat; lra); lra).
      apply Rlt_le_trans with (s * d); [apply Rmult_lt_compat_r; lra|apply Rmult_le_compat_l; lra].
Qed.

Lemma ln_le_minus x : 0 < x -> ln x <= x - 1 /\ (ln x = x - 1 -> x = 1).
Proof.
  intros Hx. destruct (Req_dec (ln x) 0) as [E|E].
  - assert (x = 1) by (apply ln_inv; [exact Hx|lra|now rewrite ln_1]). subst x. split; [lra|reflexivity].
  - pose proof (exp_ineq1 (ln x) E) as H. rewrite exp_ln in H by exact Hx. split; [lra|]. intros C. lra.
Qed.

(** For positive definite [K] and [A]: the trace of [K^-1 A] is at least
    [n + ln det A - ln det K], with equality only at [A = K]. *)
Lemma gibbs n : forall K A X, sym n K -> sym n A -> pivots n K -> pivots n A -> is_inv n K X ->
  INR n + ln (det n A) - ln (det n K) <= Rsum n (fun i => Rsum n (fun j => X i j * A i j)) /\
  (Rsum n (fun i => Rsum n (fun j => X i j * A i j)) = INR n + ln (det n A) - ln (det n K) ->
   forall i j, (i < n)%nat -> (j < n)%nat -> A i j = K i j).
Proof.
  induction n as [|m IH]; intros K A X SK SA PK PA HX.
  - cbn. split; [lra|]. intros; lia.
  - destruct PK as [K1 K2], PA as [A1 A2].
    set (u := fun i => A (S i) O / A O O - K (S i) O / K O O).
    assert (ED : forall i j, (i < m)%nat -> (j < m)%nat -> dschur K A i j = schur1 A i j + A O O * (u i * u j)).
    { intros i j Hi Hj. unfold dschur, schur1, u. rewrite (SK O (S j)), (SA O (S j)) by lia. field. lra. }
    pose proof (schur1_sym m A SA) as SA'. pose proof (schur1_sym m K SK) as SK'.
    set (A' := fun i j => schur1 A i j + A O O * (u i * u j)) in *.
    assert (SAA : sym m A') by (intros i j Hi Hj; unfold A'; rewrite (SA' i j Hi Hj); ring).
    assert (PAA : pivots m A') by (apply pivots_plus; [exact SA'|exact A2|lra]).
    destruct (IH (schur1 K) A' (fun i j => X (S i) (S j)) SK' SAA K2 PAA (inv_schur m K X ltac:(lra) HX)) as [I1 I2].
    destruct (det_rank1 m (schur1 A) u (A O O) SA' A2 A1) as [R1 R2]. fold A' in R1, R2.
    pose proof (det_pos m _ A2) as D1. pose proof (det_pos m _ K2) as D2.
    assert (L1 : ln (det m (schur1 A)) <= ln (det m A')) by (destruct R1 as [R1|R1]; [apply Rlt_le, ln_increasing; lra|rewrite R1; lra]).
    assert (HR : 0 < A O O / K O O) by (apply Rdiv_lt_0_compat; lra).
    destruct (ln_le_minus _ HR) as [N1 N2]. assert (LD : ln (A O O / K O O) = ln (A O O) - ln (K O O)) by (unfold Rdiv; rewrite ln_mult, ln_Rinv; [ring|lra|lra|apply Rinv_0_lt_compat; lra]).
    rewrite LD in N1, N2.
    rewrite (trace_schur m K X A ltac:(lra) SK SA HX).
    rewrite (Rsum_ext m _ (fun i => Rsum m (fun j => X (S i) (S j) * A' i j))).
    2:{ intros i Hi. apply Rsum_ext. intros j Hj. now rewrite ED. }
    set (T := Rsum m (fun i => Rsum m (fun j => X (S i) (S j) * A' i j))) in *.
    rewrite !det_pivot by lra. rewrite !ln_mult by assumption. rewrite S_INR. split; [lra|].
    intros EQ.
    assert (E1 : A O O / K O O = 1) by (apply N2; lra).
    assert (E2 : ln (det m (schur1 A)) = ln (det m A')) by lra.
    assert (EA : A O O = K O O) by (apply (Rmult_eq_reg_r (/ K O O)); [rewrite Rinv_r by lra; exact E1|apply Rinv_neq_0_compat; lra]).
    assert (EU : forall i, (i < m)%nat -> u i = 0).
    { intros i Hi. destruct (Req_dec (u i) 0) as [Z|NZ]; [exact Z|]. exfalso.
      assert (LT := R2 (ex_intro _ i (conj Hi NZ))). apply ln_increasing in LT; lra. }
    assert (EK : forall i, (i < m)%nat -> A (S i) O = K (S i) O).
    { intros i Hi. specialize (EU i Hi). unfold u in EU. rewrite EA in EU.
      apply (Rmult_eq_reg_r (/ K O O)); [unfold Rdiv in EU; lra|apply Rinv_neq_0_compat; lra]. }
    assert (E3 : T = INR m + ln (det m A') - ln (det m (schur1 K))) by lra.
    specialize (I2 E3).
    intros i j Hi Hj. destruct i as [|i], j as [|j].
    + exact EA.
    + rewrite (SA O (S j)), (SK O (S j)) by lia. apply EK. lia.
    + apply EK. lia.
    + specialize (I2 i j ltac:(lia) ltac:(lia)). unfold A' in I2. rewrite (EU i), Rmult_0_l, Rmult_0_r, Rplus_0_r in I2 by lia.
      unfold schur1 in I2. rewrite EA, (EK i), (SA O (S j)), (SK O (S j)), (EK j) in I2 by lia. lra.
Qed.

(** ** Random values *)

Section RV.
Context {W : Type}.
Variables (L : (W -> R) -> Prop) (E : (W -> R) -> R).
Hypothesis HE : expected L E.

Lemma no_empty : (forall o : W, False) -> False.
Proof.
  intros H. destruct (ex_ext _ _ HE (fun _ => 1) (fun _ => 0) (fun o => False_ind _ (H o)) (proj1 (ex_one _ _ HE))) as [_ C].
  rewrite (proj2 (ex_one _ _ HE)) in C. rewrite (proj2 (ex_const L E HE 0)) in C. lra.
Qed.

Variables (n : nat) (K : nat -> nat -> R) (Y : W -> nat -> R).
Hypothesis HY : random_values L E n K Y.

Lemma rv_two i j : (i < n)%nat -> (j < n)%nat -> L (fun o => Y o i * Y o j) /\ E (fun o => Y o i * Y o j) = K i j.
Proof.
  intros Hi Hj. destruct HY as [H1 H2]. destruct (H2 i j Hi Hj) as [A B]. split; [exact A|].
  unfold cov_of in B. rewrite (proj2 (H1 i Hi)) in B. rewrite <- B. ring.
Qed.

(** A quadratic form of them. *)
Lemma rv_form M : has_mean L E (fun o => Rsum n (fun i => Rsum n (fun j => M i j * (Y o i * Y o j)))) (Rsum n (fun i => Rsum n (fun j => M i j * K i j))).
Proof.
  assert (HI : forall i, (i < n)%nat -> L (fun o => Rsum n (fun j => M i j * (Y o i * Y o j))) /\
     E (fun o => Rsum n (fun j => M i j * (Y o i * Y o j))) = Rsum n (fun j => M i j * K i j)).
  { intros i Hi. destruct (ex_sum L E HE n (fun j o => M i j * (Y o i * Y o j)) (fun j Hj => proj1 (ex_scal L E HE (M i j) _ (proj1 (rv_two i j Hi Hj))))) as [H1 H2].
    split; [exact H1|]. rewrite H2. apply Rsum_ext. intros j Hj.
    rewrite (proj2 (ex_scal L E HE (M i j) _ (proj1 (rv_two i j Hi Hj)))). now rewrite (proj2 (rv_two i j Hi Hj)). }
  destruct (ex_sum L E HE n (fun i o => Rsum n (fun j => M i j * (Y o i * Y o j))) (fun i Hi => proj1 (HI i Hi))) as [H1 H2].
  split; [exact H1|]. rewrite H2. apply Rsum_ext. intros i Hi. exact (proj2 (HI i Hi)).
Qed.

Lemma mean_ext X X' v : (forall o, X o = X' o) -> has_mean L E X v -> has_mean L E X' v.
Proof. intros H [H1 H2]. destruct (ex_ext _ _ HE X X' H H1) as [H3 H4]. split; [exact H3|now rewrite <- H4]. Qed.

Lemma mean_affine a b X v : has_mean L E X v -> has_mean L E (fun o => a * X o + b) (a * v + b).
Proof.
  intros [H1 H2]. destruct (ex_scal L E HE a X H1) as [H3 H4]. destruct (ex_const L E HE b) as [H5 H6].
  destruct (ex_plus L E HE _ _ H3 H5) as [H7 H8]. split; [exact H7|]. now rewrite H8, H4, H6, H2.
Qed.

End RV.

(** [X K X = X]. *)
Lemma inv_mid n K X : sym n K -> is_inv n K X -> forall a b, (a < n)%nat -> (b < n)%nat ->
  Rsum n (fun k => Rsum n (fun l => X a k * X b l * K k l)) = X a b.
Proof.
  intros Hs HX a b Ha Hb. pose proof (inv_sym n K X Hs HX) as XS.
  transitivity (Rsum n (fun k => if Nat.eqb b k then X a k else 0)).
  - apply Rsum_ext. intros k Hk. transitivity (X a k * Rsum n (fun l => K k l * X l b)).
    + rewrite <- Rsum_scal_l. apply Rsum_ext. intros l Hl. rewrite (XS b l) by assumption. ring.
    + rewrite (HX k b Hk Hb). unfold id_f. rewrite (Nat.eqb_sym b k). destruct (Nat.eqb k b); ring.
  - apply (Rsum_delta' n b (X a)). exact Hb.
Qed.

Lemma inv_unique n K X X' : pivots n K -> is_inv n K X -> is_inv n K X' -> forall i j, (i < n)%nat -> (j < n)%nat -> X i j = X' i j.
Proof.
  intros P H H' i j Hi Hj. apply (solves_unique n K (fun i => id_f i j) (fun i => X i j) (fun i => X' i j) P); [| |exact Hi]; intros k Hk; [apply H|apply H']; assumption.
Qed.

Lemma swap3 n (f : nat -> nat -> nat -> nat -> R) :
  Rsum n (fun i => Rsum n (fun j => Rsum n (fun k => Rsum n (fun l => f i j k l)))) =
  Rsum n (fun k => Rsum n (fun l => Rsum n (fun i => Rsum n (fun j => f i j k l)))).
Proof.
  transitivity (Rsum n (fun i => Rsum n (fun k => Rsum n (fun j => Rsum n (fun l => f i j k l))))).
  { apply Rsum_ext. intros i _. apply Rsum_swap. }
  rewrite Rsum_swap. apply Rsum_ext. intros k _.
  transitivity (Rsum n (fun i => Rsum n (fun l => Rsum n (fun j => f i j k l)))).
  { apply Rsum_ext. intros i _. apply Rsum_swap. }
  apply Rsum_swap.
Qed.

(** The gradient [1/2 (alpha' F alpha - tr (K^-1 F))] has expected value 0. *)
Section Score.
Context {W : Type}.
Variables (L : (W -> R) -> Prop) (E : (W -> R) -> R).
Hypothesis HE : expected L E.
Variables (f : fkernel) (P : nat) (Xs : list ndarr) (lens : list nat) (Ys : W -> list vec) (e : W -> exact_lik).
Let n := nsum lens.
Let K := K_obs f P Xs lens.
Hypothesis Hl : forall o, map (@length R) (Ys o) = lens.
Hypothesis HY : random_values L E n K (fun o => vget (concat (Ys o))).
Hypothesis HP : forall o, pivots n K /\ exact_rep f P Xs (Ys o) (e o).

Lemma score F : has_mean L E (fun o => grad_val (Ys o) (e o) F) 0.
Proof.
  assert (PK : pivots n K).
  { destruct (pivots_dec n K) as [H|H]; [exact H|]. exfalso. apply (no_empty L E HE). intros o. exact (H (proj1 (HP o))). }
  pose proof (K_obs_sym f P Xs lens n : sym n K) as Hs.
  destruct (inv_ex n K PK) as [X HX]. pose proof (inv_sym n K X Hs HX) as XS.
  set (M := fun k l => Rsum n (fun i => Rsum n (fun j => X i k * F i j * X j l))).
  set (t := Rsum n (fun i => Rsum n (fun j => X i j * F i j))).
  pose proof (mean_affine L E HE (1 / 2) (- (1 / 2) * t) _ _ (rv_form L E HE n K _ HY M)) as H.
  assert (ET : Rsum n (fun i => Rsum n (fun j => M i j * K i j)) = t).
  { unfold M, t. transitivity (Rsum n (fun k => Rsum n (fun l => Rsum n (fun i => Rsum n (fun j => X i k * F i j * X j l * K k l))))).
    { apply Rsum_ext. intros k Hk. apply Rsum_ext. intros l Hl'. rewrite <- Rsum_scal_r. apply Rsum_ext. intros i Hi. rewrite <- Rsum_scal_r. reflexivity. }
    rewrite swap3. apply Rsum_ext. intros i Hi. apply Rsum_ext. intros j Hj.
    rewrite <- (inv_mid n K X Hs HX i j Hi Hj), <- Rsum_scal_r. apply Rsum_ext. intros k Hk. rewrite <- Rsum_scal_r. apply Rsum_ext. intros; ring. }
  rewrite ET in H. replace (1 / 2 * t + - (1 / 2) * t) with 0 in H by field.
  refine (mean_ext L E HE _ _ _ _ H). intros o. destruct (HP o) as [_ HR]. unfold grad_val. rewrite (Hl o). fold n.
  pose proof (er_inv _ _ _ _ _ HR) as RI. pose proof (er_solve _ _ _ _ _ HR) as RS. rewrite (Hl o) in RI, RS. fold n K in RI, RS.
  assert (EA : forall i, (i < n)%nat -> vget (el_alpha (e o)) i = Rsum n (fun k => X i k * vget (concat (Ys o)) k)).
  { apply (solves_unique n K (vget (concat (Ys o))) _ _ PK RS). exact (solves_inv n K X _ Hs HX). }
  assert (E1 : Rsum n (fun i => Rsum n (fun j => mget (el_Kinv (e o)) i j * F i j)) = t).
  { apply Rsum_ext. intros i Hi. apply Rsum_ext. intros j Hj. f_equal. apply (inv_unique n K _ _ PK RI HX); assumption. }
  assert (E2 : Rsum n (fun i => Rsum n (fun j => vget (el_alpha (e o)) i * F i j * vget (el_alpha (e o)) j)) =
     Rsum n (fun i => Rsum n (fun j => M i j * (vget (concat (Ys o)) i * vget (concat (Ys o)) j)))).
  { unfold M. set (y := vget (concat (Ys o))) in *. symmetry.
    transitivity (Rsum n (fun k => Rsum n (fun l => Rsum n (fun i => Rsum n (fun j => X i k * F i j * X j l * (y k * y l)))))).
    { apply Rsum_ext. intros k Hk. apply Rsum_ext. intros l Hl'. rewrite <- Rsum_scal_r. apply Rsum_ext. intros i Hi. rewrite <- Rsum_scal_r. reflexivity. }
    rewrite swap3. apply Rsum_ext. intros i Hi. apply Rsum_ext. intros j Hj. rewrite (EA i Hi), (EA j Hj).
    rewrite Rmult_assoc, <- Rsum_scal_r. apply Rsum_ext. intros k Hk. rewrite <- !Rsum_scal_l. apply Rsum_ext. intros; ring. }
  rewrite E1, E2. field.
Qed.
End Score.

(** The log density of random values. *)
Lemma density_quad n K y v : sym n K -> pivots n K -> log_density n K y v ->
  forall X, is_inv n K X -> v = - (1 / 2) * (Rsum n (fun i => Rsum n (fun j => X i j * (y i * y j)))) + - (1 / 2) * (ln (det n K) + INR n * ln (2 * PI)).
Proof.
  intros Hs P [_ [a [Ha ->]]] X HX.
  assert (Rsum n (fun i => y i * a i) = Rsum n (fun i => Rsum n (fun j => X i j * (y i * y j)))) as ->; [|field].
  apply Rsum_ext. intros i Hi. rewrite (solves_unique n K y a _ P Ha (solves_inv n K X y Hs HX) i Hi), <- Rsum_scal_l. apply Rsum_ext. intros; ring.
Qed.

Lemma trace_id n K X : sym n K -> is_inv n K X -> Rsum n (fun i => Rsum n (fun j => X i j * K i j)) = INR n.
Proof.
  intros Hs HX. rewrite Rsum_swap. transitivity (Rsum n (fun _ => 1)); [|rewrite Rsum_const; ring].
  apply Rsum_ext. intros j Hj.
  assert (H : Rsum n (fun k => K j k * X k j) = 1) by (rewrite (HX j j Hj Hj); unfold id_f; now rewrite Nat.eqb_refl).
  rewrite <- H. apply Rsum_ext. intros i Hi. rewrite (Hs j i Hj Hi). ring.
Qed.

(** ** Factors of a covariance that avoid ties *)

Definition pick (t a b : R) : R :=
  if Req_EM_T (t / 2) a then (if Req_EM_T (t / 3) b then t / 4 else t / 3)
  else if Req_EM_T (t / 2) b then (if Req_EM_T (t / 3) a then t / 4 else t / 3) else t / 2.

Lemma pick_ok t a b : 0 < t -> 0 < pick t a b < t /\ pick t a b <> a /\ pick t a b <> b.
Proof.
  intros Ht. unfold pick. destruct (Req_EM_T (t / 2) a), (Req_EM_T (t / 2) b), (Req_EM_T (t / 3) a), (Req_EM_T (t / 3) b); repeat split; lra.
Qed.

Lemma no_ties n K v eps i1 i2 i3 i4 : sym n K -> 0 < eps -> psd n (fun i j => K i j - eps * (v i * v j)) ->
  v i1 - v i2 = 1 -> v i3 - v i4 = 1 ->
  exists m l, (0 < m)%nat /\ (forall i j, (i < n)%nat -> (j < n)%nat -> K i j = Rsum m (fun k => l i k * l j k)) /\
    forall k, l i1 k <> l i2 k /\ l i3 k <> l i4 k.
Proof.
  intros Hs He HP V1 V2.
  destruct (gram n (fun i j => K i j - eps * (v i * v j))) as [c Hc]; [|exact HP|].
  { intros i j Hi Hj. rewrite (Hs i j Hi Hj). ring. }
  set (t := sqrt (eps / (2 * INR (S n)))). pose proof (lt_0_INR (S n) (Nat.lt_0_succ n)) as HN.
  assert (Ht2 : 0 < eps / (2 * INR (S n))) by (apply Rdiv_lt_0_compat; lra).
  assert (Ht : 0 < t) by (apply sqrt_lt_R0; exact Ht2).
  assert (Htt : t * t = eps / (2 * INR (S n))) by (apply sqrt_sqrt; lra).
  set (dl := fun k => pick t (Rabs (c i1 k - c i2 k)) (Rabs (c i3 k - c i4 k))).
  assert (HD : forall k, 0 < dl k < t /\ dl k <> Rabs (c i1 k - c i2 k) /\ dl k <> Rabs (c i3 k - c i4 k)) by (intros k; apply pick_ok, Ht).
  set (s := Rsum n (fun k => dl k * dl k)).
  assert (HS : s < eps).
  { apply Rle_lt_trans with (INR n * (t * t)).
    - rewrite <- Rsum_const. apply Rsum_le. intros k _. destruct (HD k) as [[A B] _]. apply Rmult_le_compat; lra.
    - rewrite Htt. rewrite S_INR in *. apply Rmult_lt_reg_r with (2 * (INR n + 1)); [lra|].
      replace (INR n * (eps / (2 * (INR n + 1))) * (2 * (INR n + 1))) with (INR n * eps) by (field; lra). pose proof (pos_INR n). nra. }
  set (rho := sqrt (eps - s)). assert (Hr : 0 < rho) by (apply sqrt_lt_R0; lra).
  assert (Hrr : rho * rho = eps - s) by (apply sqrt_sqrt; lra).
  set (h := / sqrt 2). assert (Hh : h * h = / 2).
  { unfold h. rewrite <- Rinv_mult, sqrt_sqrt by lra. reflexivity. }
  assert (Hh0 : h <> 0) by (apply Rinv_neq_0_compat, Rgt_not_eq, sqrt_lt_R0; lra).
  exists (n + n + 1)%nat, (fun i k => if Nat.ltb k n then h * (c i k + dl k * v i)
    else if Nat.ltb k (n + n) then h * (c i (k - n)%nat - dl (k - n)%nat * v i) else rho * v i).
  split; [lia|]. split.
  - intros i j Hi Hj. rewrite !Rsum_split. cbn [Rsum].
    rewrite (Rsum_ext n (fun k => _) (fun k => / 2 * (c i k * c j k) + / 2 * (dl k * (c i k * v j + c j k * v i)) + / 2 * (dl k * dl k) * (v i * v j))).
    2:{ intros k Hk. destruct (Nat.ltb_spec k n); [|lia]. rewrite <- Hh. ring. }
    rewrite (Rsum_ext n (fun k => _ * _) (fun k => / 2 * (c i k * c j k) - / 2 * (dl k * (c i k * v j + c j k * v i)) + / 2 * (dl k * dl k) * (v i * v j))).
    2:{ intros k Hk. destruct (Nat.ltb_spec (n + k) n); [lia|]. destruct (Nat.ltb_spec (n + k) (n + n)); [|lia].
        replace (n + k - n)%nat with k by lia. rewrite <- Hh. ring. }
    destruct (Nat.ltb_spec (n + n + 0) n); [lia|]. destruct (Nat.ltb_spec (n + n + 0) (n + n)); [lia|].
    rewrite !Rsum_plus, Rsum_minus, !Rsum_scal_r, !Rsum_scal_l. fold s.
    pose proof (Hc i j Hi Hj) as E. cbv beta in E.
    assert (rho * v i * (rho * v j) = (eps - s) * (v i * v j)) as -> by (rewrite <- Hrr; ring). lra.
  - assert (HB : forall k a b x y, dl k <> Rabs (x - y) -> a - b = 1 -> x + dl k * a <> y + dl k * b /\ x - dl k * a <> y - dl k * b).
    { intros k a b x y N E. destruct (HD k) as [[A _] _].
      assert (X1 : x - y <> dl k) by (intros C; apply N; rewrite C, Rabs_pos_eq; lra).
      assert (X2 : x - y <> - dl k) by (intros C; apply N; rewrite C, Rabs_Ropp, Rabs_pos_eq; lra).
      split; intros C; [apply X2|apply X1]; nra. }
    intros k. destruct (Nat.ltb k n); [|destruct (Nat.ltb k (n + n))].
    + destruct (HD k) as [_ [D1 D2]]. split; intros C; apply Rmult_eq_reg_l in C; try exact Hh0; revert C; apply HB; assumption.
    + destruct (HD (k - n)%nat) as [_ [D1 D2]]. split; intros C; apply Rmult_eq_reg_l in C; try exact Hh0; revert C; apply HB; assumption.
    + split; intros C; apply Rmult_eq_reg_l in C; lra.
Qed.
