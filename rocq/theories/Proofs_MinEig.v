(** Every symmetric matrix has a smallest eigenvalue: the largest number that
    can be subtracted from the diagonal of a matrix before it stops being
    positive semi-definite. *)

From Coq Require Import Reals List Arith Lia Lra Classical.
From Verif Require Import Base PSD Proofs_Shur Proofs_Det Spec_Testing.
Open Scope R_scope.

Definition lowers (n : nat) (F : nat -> nat -> R) (lam : R) : Prop := forall x, lam * nrm2 n x <= qf n F x.

Lemma qf_bound n F x : Rabs (qf n F x) <= Rsum n (fun i => Rsum n (fun j => Rabs (F i j))) * nrm2 n x.
Proof.
  unfold qf, bil. eapply Rle_trans; [apply Rsum_abs|]. rewrite (Rmult_comm _ (nrm2 n x)), <- Rsum_scal_l. apply Rsum_le. intros i Hi.
  eapply Rle_trans; [apply Rsum_abs|]. rewrite <- Rsum_scal_l. apply Rsum_le. intros j Hj.
  rewrite !Rabs_mult. replace (Rabs (x i) * Rabs (F i j) * Rabs (x j)) with ((Rabs (x i) * Rabs (x j)) * Rabs (F i j)) by ring.
  apply Rmult_le_compat_r; [apply Rabs_pos|].
  assert (P : forall k, (k < n)%nat -> Rabs (x k) * Rabs (x k) <= nrm2 n x).
  { intros k Hk. rewrite <- Rabs_mult, Rabs_right by (pose proof (Rle_0_sqr (x k)); unfold Rsqr in *; lra). unfold nrm2.
    rewrite <- (Rsum_delta n k (fun i => x i * x i) Hk). apply Rsum_le. intros l Hl. destruct (Nat.eqb l k); [lra|]. apply Rle_0_sqr. }
  pose proof (P i Hi). pose proof (P j Hj). pose proof (Rle_0_sqr (Rabs (x i) - Rabs (x j))). unfold Rsqr in *. nra.
Qed.

Lemma lowers_ex n F : exists lam, lowers n F lam.
Proof.
  exists (- Rsum n (fun i => Rsum n (fun j => Rabs (F i j)))). intros x. pose proof (qf_bound n F x) as B.
  pose proof (Rle_abs (- qf n F x)) as A. rewrite Rabs_Ropp in A. lra.
Qed.

Lemma lowers_bound n F : (0 < n)%nat -> bound (lowers n F).
Proof.
  intros Hn. exists (F O O). intros lam H. specialize (H (unitv O)). rewrite qf_unit in H by exact Hn.
  replace (nrm2 n (unitv O)) with 1 in H; [lra|]. rewrite <- qf_id, qf_unit by exact Hn. reflexivity.
Qed.

(** The smallest eigenvalue (any number for the empty matrix). *)
Definition least_eig (n : nat) (F : nat -> nat -> R) : R :=
  match lt_dec 0 n with
  | left Hn => proj1_sig (completeness (lowers n F) (lowers_bound n F Hn) (lowers_ex n F))
  | right _ => 0
  end.

(** A positive definite matrix stays so when a little is subtracted. *)
Lemma pos_def_margin n F : sym n F -> pos_def n F -> exists c, 0 < c /\ lowers n F c.
Proof.
  intros HS HP. destruct (inv_ex n F (pos_def_pivots n F HS HP)) as [X HX].
  set (C := 1 + Rsum n (fun i => Rsum n (fun j => Rabs (X i j)))).
  assert (C0 : 0 <= Rsum n (fun i => Rsum n (fun j => Rabs (X i j)))) by (apply Rsum_nonneg; intros; apply Rsum_nonneg; intros; apply Rabs_pos).
  assert (Cp : 0 < C) by (unfold C; lra). exists (/ C). split; [now apply Rinv_0_lt_compat|]. intros x.
  set (u := fun i => Rsum n (fun j => X i j * x j)).
  pose proof (solves_inv n F X x HS HX) as SV. fold u in SV.
  assert (B1 : forall w, bil n F w u = Rsum n (fun i => w i * x i)).
  { intros w. unfold bil. apply Rsum_ext. intros i Hi. rewrite <- (SV i Hi), <- Rsum_scal_l. apply Rsum_ext. intros. ring. }
  assert (P : 0 <= qf n F (fun i => x i + - / C * u i)).
  { destruct (classic (exists i, (i < n)%nat /\ x i + - / C * u i <> 0)) as [E|E]; [apply Rlt_le, HP, E|].
    right. symmetry. unfold qf, bil. apply Rsum_zero. intros i Hi. apply Rsum_zero. intros j Hj.
    assert (Z : x i + - / C * u i = 0) by (apply NNPP; intros Ne; apply E; now exists i). rewrite Z. ring. }
  unfold qf in P. rewrite bil_add_l, !bil_add_r, !bil_scal_l, !bil_scal_r, (bil_sym n F u x HS), !B1 in P. fold (qf n F x) in P.
  change (Rsum n (fun i => x i * x i)) with (nrm2 n x) in P.
  assert (Eu : Rsum n (fun i => u i * x i) = qf n X x).
  { unfold qf, bil. apply Rsum_ext. intros i Hi. unfold u. rewrite Rmult_comm, <- Rsum_scal_l. apply Rsum_ext. intros. ring. }
  rewrite Eu in P. pose proof (qf_bound n X x) as BX. pose proof (Rle_abs (qf n X x)) as AX. pose proof (nrm2_nonneg n x) as NN.
  assert (QX : qf n X x <= C * nrm2 n x) by (unfold C; nra).
  assert (IC : 0 < / C) by now apply Rinv_0_lt_compat.
  assert (Q2 : / C * (/ C * qf n X x) <= / C * nrm2 n x).
  { apply Rmult_le_compat_l; [lra|]. apply Rmult_le_reg_l with C; [exact Cp|]. rewrite <- Rmult_assoc, Rinv_r, Rmult_1_l by lra. exact QX. }
  nra.
Qed.

Lemma least_eig_ok n F : (0 < n)%nat -> sym n F -> min_eig n F (least_eig n F).
Proof.
  intros Hn HS. unfold least_eig. destruct (lt_dec 0 n) as [H|]; [|lia]. destruct (completeness _ _ _) as [lam [UB LU]]. cbn [proj1_sig].
  assert (LW : lowers n F lam).
  { intros x. destruct (Rle_lt_dec (lam * nrm2 n x) (qf n F x)) as [|C]; [assumption|]. exfalso. pose proof (nrm2_nonneg n x) as NN.
    destruct (Rle_lt_or_eq_dec 0 _ NN) as [NP|NZ].
    - assert (lam <= qf n F x / nrm2 n x).
      { apply LU. intros mu Hmu. specialize (Hmu x). apply Rmult_le_reg_r with (nrm2 n x); [exact NP|]. unfold Rdiv. rewrite Rmult_assoc, Rinv_l by lra. lra. }
      assert (lam * nrm2 n x <= qf n F x / nrm2 n x * nrm2 n x) by (apply Rmult_le_compat_r; lra).
      unfold Rdiv in *. rewrite Rmult_assoc, Rinv_l in * by lra. lra.
    - destruct (lowers_ex n F) as [mu Hmu]. specialize (Hmu x). rewrite <- NZ in *. lra. }
  split; [exact LW|].
  set (G := fun i j => -lam * id_f i j + F i j).
  assert (GS : sym n G) by (apply sym_id'; exact HS).
  assert (GQ : forall x, qf n G x = qf n F x - lam * nrm2 n x).
  { intros x. unfold G, qf. rewrite (bil_plus n (fun i j => - lam * id_f i j) F), bil_scal. change (bil n id_f x x) with (qf n id_f x). rewrite qf_id. ring. }
  assert (GP : psd n G) by (intros x; rewrite GQ; specialize (LW x); lra).
  destruct (classic (pos_def n G)) as [PD|NP].
  - exfalso. destruct (pos_def_margin n G GS PD) as [c [Cp LC]]. assert (lam + c <= lam); [|lra]. apply UB. intros x. specialize (LC x). rewrite GQ in LC. lra.
  - apply not_all_ex_not in NP as [v NP]. apply imply_to_and in NP as [[i0 Hv] Q].
    assert (Q0 : qf n G v = 0) by (pose proof (GP v); lra).
    exists v. split; [exists i0; exact Hv|]. intros i Hi.
    assert (Z : bil n G (unitv i) v = 0).
    { assert (E : 2 * bil n G (unitv i) v = 0); [|lra]. apply (linear_nonneg_zero _ (qf n G (unitv i))). intros t.
      pose proof (GP (fun k => unitv i k + t * v k)) as P. unfold qf in P. rewrite bil_add_l, !bil_add_r, !bil_scal_l, !bil_scal_r, (bil_sym n G v (unitv i) GS) in P.
      change (bil n G v v) with (qf n G v) in P. rewrite Q0 in P. fold (qf n G (unitv i)) in P. lra. }
    rewrite bil_unit in Z by exact Hi. unfold G in Z.
    rewrite (Rsum_ext n _ (fun j => - lam * (if Nat.eqb i j then v j else 0) + F i j * v j)) in Z by (intros j Hj; unfold id_f; destruct (Nat.eqb i j); ring).
    rewrite Rsum_plus, Rsum_scal_l in Z. rewrite (Rsum_delta' n i v Hi) in Z. lra.
Qed.
