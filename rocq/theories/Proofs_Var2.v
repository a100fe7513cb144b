(** Bounds that always exist: for the derivative matrices and for the noise. *)

From Coq Require Import Reals List Arith Lia Lra.
From Verif Require Import Base NDArray PSD Model_Util Model_Kern Spec_Kern Model_FK Spec_FK Model_Lik Spec_Lik Model_GP Spec_Pred Spec_Opt Spec_Acc Proofs_Acc.
Import ListNotations.
Open Scope R_scope.

Lemma mat_bound n F : op_bound n F (sqrt (Rsum n (fun i => Rsum n (fun j => F i j ^ 2)))).
Proof.
  assert (H0 : 0 <= Rsum n (fun i => Rsum n (fun j => F i j ^ 2))) by (apply Rsum_nonneg; intros; apply sq_nonneg).
  split; [apply sqrt_pos|]. intros v. unfold norm2. rewrite <- sqrt_mult by (try apply sq_nonneg; exact H0). apply sqrt_le_1_alt.
  rewrite <- Rsum_scal_r. apply Rsum_le. intros i Hi. apply cauchy_sq.
Qed.

Lemma pos_floor n (v : nat -> R) : (forall a, (a < n)%nat -> 0 < v a) -> exists s, 0 < s /\ forall a, (a < n)%nat -> s <= v a.
Proof.
  induction n as [|n IH]; intros H; [exists 1; split; [lra|intros; lia]|].
  destruct IH as [s [Hs HF]]; [intros; apply H; lia|]. exists (Rmin s (v n)). split; [apply Rmin_glb_lt; [exact Hs|apply H; lia]|].
  intros a Ha. destruct (Nat.eq_dec a n) as [->|N]; [apply Rmin_r|]. eapply Rle_trans; [apply Rmin_l|apply HF; lia].
Qed.

Lemma noise_floor g : proper (gp_f g) -> exists s, 0 < s /\ forall a, (a < f_D (gp_f g))%nat -> s <= vget (f_noise (gp_f g)) a.
Proof. intros [H _]. now apply pos_floor. Qed.

Lemma K_fit_some_floor g lo hi m : gp_ready g lo hi m -> proper (gp_f g) -> exists s, 0 < s /\ forall x, s * nrm2 (n_obs g) x <= qf (n_obs g) (K_fit g) x.
Proof.
  intros HR Hp. destruct (noise_floor g Hp) as [s [Hs HF]]. exists s. split; [exact Hs|]. exact (K_fit_floor g lo hi m s HR Hp HF).
Qed.
