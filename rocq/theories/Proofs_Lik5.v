(** Positive definiteness of the covariance of the observations. *)

From Coq Require Import Reals List Arith Lia Lra ZArith.
From Verif Require Import Base NDArray PSD Det Proofs_Shur Proofs_Det Model_Util Proofs_Util Model_Linalg Spec_Linalg Proofs_Linalg
  Model_Interp Model_Kern Spec_Kern Proofs_Kern Proofs_KernPSD Model_FK Spec_FK Proofs_FK Model_Grid Spec_Grid Proofs_Grid Proofs_Grid2
  Model_Lik Spec_Lik Proofs_Lik Proofs_Lik2.
Import ListNotations.
Open Scope R_scope.

Lemma psd_pullback n m K (o : nat -> nat) : (forall i, (i < n)%nat -> (o i < m)%nat) -> psd m K -> psd n (fun i j => K (o i) (o j)).
Proof.
  intros Ho HK. apply (psd_ext n (fun i j => Rsum m (fun k => (if Nat.eqb k (o i) then 1 else 0) * Rsum m (fun l => K k l * (if Nat.eqb l (o j) then 1 else 0))))).
  - intros i j Hi Hj.
    rewrite (Rsum_ext m _ (fun k => if Nat.eqb k (o i) then Rsum m (fun l => K k l * (if Nat.eqb l (o j) then 1 else 0)) else 0)) by (intros k _; destruct (Nat.eqb k (o i)); ring).
    rewrite Rsum_delta by auto.
    rewrite (Rsum_ext m _ (fun l => if Nat.eqb l (o j) then K (o i) l else 0)) by (intros l _; destruct (Nat.eqb l (o j)); ring).
    rewrite Rsum_delta by auto. reflexivity.
  - apply (psd_congruence n m K (fun i k => if Nat.eqb k (o i) then 1 else 0)). exact HK.
Qed.

Lemma dist_on_euclid ad x z : dist_on ad x z = euclid (length ad) (fun k => x (nth k ad 0%nat)) (fun k => z (nth k ad 0%nat)).
Proof. unfold dist_on, euclid. f_equal. symmetry. exact (Rsum_lsum 0%nat (fun p => (x p - z p) ^ 2) ad). Qed.

Lemma kernel_psd k ad n (x : nat -> nat -> R) : positive k -> (has_periodic k = true -> length ad = 1%nat) ->
  psd n (fun i j => k_doc k (dist_on ad (x i) (x j))).
Proof.
  intros Hp HP. apply (psd_ext n (fun i j => k_doc k (euclid (length ad) (fun p => x i (nth p ad 0%nat)) (fun p => x j (nth p ad 0%nat))))).
  - intros i j _ _. now rewrite dist_on_euclid.
  - apply (psd_pd_on (length ad) (k_doc k) (pd_kernel (length ad) k Hp HP) n (fun i p => x i (nth p ad 0%nat))).
Qed.

(** Periodic kernels on one dimension only; diagonals non-negative; noise positive. *)
Section PD.
Variables (f : fkernel) (P : nat) (Xs : list ndarr) (lens : list nat).
Hypothesis HL : length lens = f_D f.
Hypothesis Hker : forall q, (q < f_Q f)%nat -> positive (kern_of f q).
Hypothesis Hper : forall q, (q < f_Q f)%nat -> has_periodic (kern_of f q) = true -> length (qdims f q) = 1%nat.
Hypothesis Hdiag : forall q a, (q < f_Q f)%nat -> (a < f_D f)%nat -> 0 <= vget (nth q (f_diags f) []) a.

Let own_lt : forall i, (i < nsum lens)%nat -> (owner lens i < f_D f)%nat.
Proof. intros i Hi. rewrite <- HL. now apply owner_lt. Qed.

Lemma lmc_psd : psd (nsum lens) (fun i j => lmc_cov f (owner lens i) (obs P Xs lens i) (owner lens j) (obs P Xs lens j)).
Proof.
  unfold lmc_cov. apply (psd_Rsum (nsum lens) (f_Q f) (fun q i j => B_of f q (owner lens i) (owner lens j) *
     k_doc (kern_of f q) (dist_on (qdims f q) (obs P Xs lens i) (obs P Xs lens j)))).
  intros q Hq. apply psd_hadamard.
  - intros i j _ _. apply B_of_sym.
  - apply (psd_pullback (nsum lens) (f_D f) (B_of f q)); [exact own_lt|]. apply B_of_psd. auto.
  - apply kernel_psd; auto.
Qed.

Lemma K_obs_pd : (forall a, (a < f_D f)%nat -> 0 < vget (f_noise f) a) -> pos_definite (nsum lens) (K_obs f P Xs lens).
Proof.
  intros Hn x [k [Hk Hx]].
  change (0 < qf (nsum lens) (fun i j => lmc_cov f (owner lens i) (obs P Xs lens i) (owner lens j) (obs P Xs lens j)
      + (if Nat.eqb i j then vget (f_noise f) (owner lens i) else 0)) x).
  unfold qf. rewrite bil_plus. fold (qf (nsum lens) (fun i j => if Nat.eqb i j then vget (f_noise f) (owner lens i) else 0) x).
  pose proof (lmc_psd x) as H. unfold qf in H.
  rewrite (qf_diag (nsum lens) (fun i => vget (f_noise f) (owner lens i)) x).
  assert (0 < Rsum (nsum lens) (fun i => vget (f_noise f) (owner lens i) * (x i * x i))); [|lra].
  apply Rlt_le_trans with (vget (f_noise f) (owner lens k) * (x k * x k)).
  - apply Rmult_lt_0_compat; [auto|nra].
  - rewrite <- (Rsum_delta (nsum lens) k (fun i => vget (f_noise f) (owner lens i) * (x i * x i)) Hk).
    apply Rsum_le. intros i Hi. destruct (Nat.eqb i k); [lra|]. apply Rmult_le_pos; [left; auto|nra].
Qed.
End PD.
