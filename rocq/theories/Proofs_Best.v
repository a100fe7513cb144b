(** Linear guesses of a random observation and their expected squared error. *)

From Coq Require Import Reals List Arith Lia Lra.
From Verif Require Import Base NDArray PSD Det Proofs_Shur Proofs_Det Model_Util Proofs_Util Model_Linalg Spec_Linalg Proofs_Linalg
  Model_Interp Model_Kern Spec_Kern Proofs_Kern Proofs_KernPSD Model_FK Spec_FK Proofs_FK Model_Grid Spec_Grid Proofs_Grid Proofs_Grid2
  Model_Lik Spec_Lik Proofs_Lik Proofs_Lik2 Proofs_Lik5 Spec_GP Model_GP Spec_Pred Proofs_Pred4 Proofs_Init Spec_Best.
Import ListNotations.
Open Scope R_scope.

Section EX.
Context {W : Type}.
Variables (L : (W -> R) -> Prop) (E : (W -> R) -> R).
Hypothesis HE : expected L E.

Lemma ex_scal a X : L X -> L (fun o => a * X o) /\ E (fun o => a * X o) = a * E X.
Proof.
  intros H. destruct (ex_lin _ _ HE a X 0 X H H) as [H1 H2].
  destruct (ex_ext _ _ HE _ (fun o => a * X o) (fun o => ltac:(ring) : a * X o + 0 * X o = a * X o) H1) as [H3 H4].
  split; [exact H3|]. rewrite <- H4, H2. ring.
Qed.

Lemma ex_plus X Y : L X -> L Y -> L (fun o => X o + Y o) /\ E (fun o => X o + Y o) = E X + E Y.
Proof.
  intros HX HY. destruct (ex_lin _ _ HE 1 X 1 Y HX HY) as [H1 H2].
  destruct (ex_ext _ _ HE _ (fun o => X o + Y o) (fun o => ltac:(ring) : 1 * X o + 1 * Y o = X o + Y o) H1) as [H3 H4].
  split; [exact H3|]. rewrite <- H4, H2. ring.
Qed.

Lemma ex_const c : L (fun _ => c) /\ E (fun _ => c) = c.
Proof.
  destruct (ex_one _ _ HE) as [H1 H2]. destruct (ex_scal c _ H1) as [H3 H4].
  destruct (ex_ext _ _ HE _ (fun _ => c) (fun o => ltac:(ring) : c * 1 = c) H3) as [H5 H6].
  split; [exact H5|]. rewrite <- H6, H4, H2. ring.
Qed.

Lemma ex_sum n (X : nat -> W -> R) : (forall i, (i < n)%nat -> L (X i)) ->
  L (fun o => Rsum n (fun i => X i o)) /\ E (fun o => Rsum n (fun i => X i o)) = Rsum n (fun i => E (X i)).
Proof.
  induction n as [|n IH]; intros H; [exact (ex_const 0)|].
  destruct (IH (fun i Hi => H i (Nat.lt_trans _ _ _ Hi (Nat.lt_succ_diag_r n)))) as [H1 H2].
  destruct (ex_plus _ _ H1 (H n (Nat.lt_succ_diag_r n))) as [H3 H4].
  cbn [Rsum]. split; [exact H3|]. rewrite H4, H2. reflexivity.
Qed.

Variables (n : nat) (Y : nat -> W -> R) (T : W -> R) (K : nat -> nat -> R) (c : nat -> R) (t : R).
Hypothesis HY : forall i, (i < n)%nat -> L (Y i) /\ E (Y i) = 0.
Hypothesis HT : L T /\ E T = 0.
Hypothesis HYY : forall i j, (i < n)%nat -> (j < n)%nat -> L (fun o => Y i o * Y j o) /\ E (fun o => Y i o * Y j o) = K i j.
Hypothesis HTY : forall i, (i < n)%nat -> L (fun o => T o * Y i o) /\ E (fun o => T o * Y i o) = c i.
Hypothesis HTT : L (fun o => T o * T o) /\ E (fun o => T o * T o) = t.

(** The expected squared error. *)
Lemma err_form b w : L (sq_err n Y T b w) /\
  E (sq_err n Y T b w) = b ^ 2 + t - 2 * Rsum n (fun i => w i * c i) + qf n K w.
Proof.
  pose (A := fun o => Rsum n (fun i => w i * (T o * Y i o))).
  pose (B := fun o => Rsum n (fun i => w i * Y i o)).
  pose (Q := fun o => Rsum n (fun i => w i * Rsum n (fun j => w j * (Y i o * Y j o)))).
  assert (HA : L A /\ E A = Rsum n (fun i => w i * c i)).
  { destruct (ex_sum n (fun i o => w i * (T o * Y i o)) (fun i Hi => proj1 (ex_scal (w i) _ (proj1 (HTY i Hi))))) as [H1 H2].
    split; [exact H1|]. unfold A. rewrite H2. apply Rsum_ext. intros i Hi.
    rewrite (proj2 (ex_scal (w i) _ (proj1 (HTY i Hi)))). now rewrite (proj2 (HTY i Hi)). }
  assert (HB : L B /\ E B = 0).
  { destruct (ex_sum n (fun i o => w i * Y i o) (fun i Hi => proj1 (ex_scal (w i) _ (proj1 (HY i Hi))))) as [H1 H2].
    split; [exact H1|]. unfold B. rewrite H2. apply Rsum_zero. intros i Hi.
    rewrite (proj2 (ex_scal (w i) _ (proj1 (HY i Hi)))). rewrite (proj2 (HY i Hi)). ring. }
  assert (HI : forall i, (i < n)%nat -> L (fun o => Rsum n (fun j => w j * (Y i o * Y j o))) /\
     E (fun o => Rsum n (fun j => w j * (Y i o * Y j o))) = Rsum n (fun j => w j * K i j)).
  { intros i Hi. destruct (ex_sum n (fun j o => w j * (Y i o * Y j o)) (fun j Hj => proj1 (ex_scal (w j) _ (proj1 (HYY i j Hi Hj))))) as [H1 H2].
    split; [exact H1|]. rewrite H2. apply Rsum_ext. intros j Hj.
    rewrite (proj2 (ex_scal (w j) _ (proj1 (HYY i j Hi Hj)))). now rewrite (proj2 (HYY i j Hi Hj)). }
  assert (HQ : L Q /\ E Q = qf n K w).
  { destruct (ex_sum n (fun i o => w i * Rsum n (fun j => w j * (Y i o * Y j o))) (fun i Hi => proj1 (ex_scal (w i) _ (proj1 (HI i Hi))))) as [H1 H2].
    split; [exact H1|]. unfold Q. rewrite H2. unfold qf, bil. apply Rsum_ext. intros i Hi.
    rewrite (proj2 (ex_scal (w i) _ (proj1 (HI i Hi)))). rewrite (proj2 (HI i Hi)), <- Rsum_scal_l. apply Rsum_ext. intros; ring. }
  destruct HA as [LA EA], HB as [LB EB], HQ as [LQ EQ], HT as [LT ET], HTT as [LTT ETT].
  destruct (ex_lin _ _ HE (-2 * b) T (2 * b) B LT LB) as [L1 E1].
  destruct (ex_plus _ _ L1 (proj1 (ex_const (b ^ 2)))) as [L2 E2].
  destruct (ex_lin _ _ HE (-2) A 1 Q LA LQ) as [L3 E3].
  destruct (ex_plus _ _ L3 LTT) as [L4 E4].
  destruct (ex_plus _ _ L2 L4) as [L5 E5].
  match type of L5 with L ?X => destruct (ex_ext _ _ HE X (sq_err n Y T b w)) as [L6 E6]; [|exact L5|] end.
  - intros o. unfold sq_err, A, Q. fold (B o).
    assert (HAo : Rsum n (fun i => w i * (T o * Y i o)) = T o * B o).
    { unfold B. rewrite <- Rsum_scal_l. apply Rsum_ext. intros; ring. }
    assert (HQo : Rsum n (fun i => w i * Rsum n (fun j => w j * (Y i o * Y j o))) = B o * B o).
    { transitivity (Rsum n (fun i => B o * (w i * Y i o))); [|now rewrite Rsum_scal_l].
      apply Rsum_ext. intros i _. unfold B. rewrite (Rmult_comm (Rsum _ _)). rewrite <- !Rsum_scal_l. apply Rsum_ext. intros; ring. }
    rewrite HAo, HQo. ring.
  - split; [exact L6|]. rewrite <- E6, E5, E2, E4, E1, E3, (proj2 (ex_const (b ^ 2))), ET, EB, ETT, EA, EQ. ring.
Qed.

(** The weights [z] with [K z = c] are the best. *)
Lemma err_best z b w : sym n K -> solves n K z c ->
  E (sq_err n Y T b w) = t - Rsum n (fun i => c i * z i) + b ^ 2 + qf n K (fun i => w i + -1 * z i).
Proof.
  intros Hs Hz. rewrite (proj2 (err_form b w)). unfold qf.
  rewrite bil_add_l, !bil_add_r, !bil_scal_l.
  assert (H1 : forall u, bil n K u z = Rsum n (fun i => u i * c i)).
  { intros u. unfold bil. apply Rsum_ext. intros i Hi. rewrite <- (Hz i Hi), <- Rsum_scal_l. apply Rsum_ext. intros; ring. }
  assert (H2 : forall u, bil n K u (fun i => -1 * z i) = - Rsum n (fun i => u i * c i)).
  { intros u. rewrite (bil_sym n K u _ Hs), bil_scal_l, (bil_sym n K z u Hs), H1. ring. }
  rewrite !H2, (bil_sym n K z w Hs), H1.
  rewrite (Rsum_ext n (fun i => c i * z i) (fun i => z i * c i)) by (intros; ring). ring.
Qed.
End EX.

(** ** Random variables with given covariances exist *)

(** Outcomes: a coordinate below [m] and a sign, all equally likely. *)
Definition coin (m : nat) (X : nat * bool -> R) : R := Rsum m (fun k => X (k, true) + X (k, false)) / (2 * INR m).

Lemma coin_expected m : (0 < m)%nat -> expected (fun _ => True) (coin m).
Proof.
  intros Hm. assert (HI : 0 < INR m) by (apply lt_0_INR; exact Hm). split.
  - intros X Y H _. split; [exact I|]. unfold coin. f_equal. apply Rsum_ext. intros k _. now rewrite !H.
  - intros a X b Y _ _. split; [exact I|]. unfold coin.
    rewrite (Rsum_ext m _ (fun k => a * (X (k, true) + X (k, false)) + b * (Y (k, true) + Y (k, false)))) by (intros; ring).
    rewrite Rsum_plus, !Rsum_scal_l. field. lra.
  - intros X _ H. unfold coin. apply Rmult_le_pos; [|apply Rlt_le, Rinv_0_lt_compat; lra].
    apply Rsum_nonneg. intros k _. pose proof (H (k, true)). pose proof (H (k, false)). lra.
  - split; [exact I|]. unfold coin. rewrite Rsum_const. field. lra.
Qed.

Definition coin_var (m : nat) (l : nat -> R) (o : nat * bool) : R := (if snd o then 1 else -1) * (sqrt (INR m) * l (fst o)).

Lemma coin_mean m l : coin m (coin_var m l) = 0.
Proof. unfold coin, coin_var. cbn [fst snd]. rewrite Rsum_zero; [unfold Rdiv; ring|]. intros; ring. Qed.

Lemma coin_prod m l l' : (0 < m)%nat -> coin m (fun o => coin_var m l o * coin_var m l' o) = Rsum m (fun k => l k * l' k).
Proof.
  intros Hm. assert (HI : 0 < INR m) by (apply lt_0_INR; exact Hm). unfold coin, coin_var. cbn [fst snd].
  rewrite (Rsum_ext m _ (fun k => (2 * INR m) * (l k * l' k))).
  - rewrite Rsum_scal_l. field. lra.
  - intros k _. rewrite <- (sqrt_sqrt (INR m)) at 5 by lra. ring.
Qed.
