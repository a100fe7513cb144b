(** The spread of the estimates over the draws of the probes. *)

From Coq Require Import Reals List Arith Lia Lra ZArith.
From Verif Require Import Base NDArray PSD Det Proofs_Shur Proofs_Det Model_Util Proofs_Util Model_Linalg Spec_Linalg Proofs_Linalg
  Model_Interp Model_Kern Spec_Kern Proofs_Kern Model_FK Spec_FK Proofs_FK Model_Grid Spec_Grid Proofs_Grid Proofs_Grid2
  Model_Lik Spec_Lik Proofs_Lik Proofs_Lik2 Proofs_Lik4.
Import ListNotations.
Open Scope R_scope.

Definition quadr (n : nat) (A : nat -> nat -> R) (v : nat -> R) : R := Rsum n (fun i => Rsum n (fun j => A i j * v i * v j)).
Definition tr (n : nat) (A : nat -> nat -> R) : R := Rsum n (fun i => A i i).

(** The sum of the squares of [A + A^T] below the diagonal. *)
Definition low2 (n : nat) (A : nat -> nat -> R) : R := Rsum n (fun i => Rsum n (fun j => if (i <? j)%nat then (A i j + A j i) ^ 2 else 0)).

Lemma lsum_const {A} (c : R) (l : list A) : lsum (map (fun _ => c) l) = INR (length l) * c.
Proof. induction l as [|x l IH]; [cbn; unfold lsum; cbn; ring|]. cbn [map length]. rewrite S_INR. unfold lsum in *. cbn [fold_right]. rewrite IH. ring. Qed.

Lemma quadr_S n A v : (v O = 1 \/ v O = -1) ->
  quadr (S n) A v = A O O + v O * Rsum n (fun j => (A O (S j) + A (S j) O) * v (S j)) + quadr n (fun i j => A (S i) (S j)) (fun i => v (S i)).
Proof.
  intros H. unfold quadr. rewrite Rsum_S_l, Rsum_S_l.
  rewrite (Rsum_ext n (fun i => Rsum (S n) (fun j => A (S i) j * v (S i) * v j)) (fun i => A (S i) O * v (S i) * v O + Rsum n (fun j => A (S i) (S j) * v (S i) * v (S j))))
    by (intros; now rewrite Rsum_S_l).
  rewrite Rsum_plus. replace (A O O * v O * v O) with (A O O) by (destruct H as [-> | ->]; ring).
  rewrite <- Rsum_scal_l.
  rewrite (Rsum_ext n (fun i => v O * ((A O (S i) + A (S i) O) * v (S i))) (fun i => A O (S i) * v O * v (S i) + A (S i) O * v (S i) * v O)) by (intros; ring).
  rewrite Rsum_plus. ring.
Qed.

Lemma low2_S n A : low2 (S n) A = Rsum n (fun j => (A O (S j) + A (S j) O) ^ 2) + low2 n (fun i j => A (S i) (S j)).
Proof.
  unfold low2. rewrite Rsum_S_l, Rsum_S_l. change ((0 <? 0)%nat) with false. cbv iota.
  rewrite (Rsum_ext n (fun i => if (0 <? S i)%nat then (A O (S i) + A (S i) O) ^ 2 else 0) (fun i => (A O (S i) + A (S i) O) ^ 2)) by reflexivity.
  rewrite (Rsum_ext n (fun i => Rsum (S n) (fun j => if (S i <? j)%nat then (A (S i) j + A j (S i)) ^ 2 else 0))
    (fun i => Rsum n (fun j => if (i <? j)%nat then (A (S i) (S j) + A (S j) (S i)) ^ 2 else 0))).
  - ring.
  - intros i Hi. rewrite Rsum_S_l. change ((S i <? 0)%nat) with false. cbv iota. rewrite Rplus_0_l. reflexivity.
Qed.

(** First and second moments over all sign vectors. *)
Lemma bits_mean1 n : forall A, lsum (map (fun r => quadr n A (vget (signs r)) - tr n A) (all_bits n)) = 0.
Proof.
  induction n as [|n IH]; intros A; [cbn; unfold lsum, quadr, tr; cbn; ring|].
  cbn [all_bits]. rewrite map_app, lsum_app, !map_map, <- lsum_map_plus.
  rewrite (lsum_map_ext _ (fun r => 2 * (quadr n (fun i j => A (S i) (S j)) (vget (signs r)) - tr n (fun i j => A (S i) (S j))))).
  - rewrite lsum_map_scal, (IH (fun i j => A (S i) (S j))). ring.
  - intros r _. rewrite !quadr_S by ((left; cbn; ring) || (right; cbn; ring)). unfold tr. rewrite Rsum_S_l.
    change (fun i : nat => vget (signs (true :: r)) (S i)) with (vget (signs r)). change (fun i : nat => vget (signs (false :: r)) (S i)) with (vget (signs r)).
    change (fun j : nat => (A O (S j) + A (S j) O) * vget (signs (true :: r)) (S j)) with (fun j : nat => (A O (S j) + A (S j) O) * vget (signs r) j).
    change (fun j : nat => (A O (S j) + A (S j) O) * vget (signs (false :: r)) (S j)) with (fun j : nat => (A O (S j) + A (S j) O) * vget (signs r) j).
    change (vget (signs (true :: r)) 0) with (1 * 2 - 1). change (vget (signs (false :: r)) 0) with (0 * 2 - 1). ring.
Qed.

Lemma bits_mean2 n : forall A, lsum (map (fun r => (quadr n A (vget (signs r)) - tr n A) ^ 2) (all_bits n)) = INR (length (all_bits n)) * low2 n A.
Proof.
  induction n as [|n IH]; intros A; [cbn; unfold lsum, quadr, tr, low2; cbn; ring|].
  cbn [all_bits]. rewrite map_app, lsum_app, !map_map, app_length, !map_length, plus_INR, <- lsum_map_plus.
  rewrite (lsum_map_ext _ (fun r => 2 * (Rsum n (fun j => (A O (S j) + A (S j) O) * vget (signs r) j) * Rsum n (fun j => (A O (S j) + A (S j) O) * vget (signs r) j))
    + 2 * (quadr n (fun i j => A (S i) (S j)) (vget (signs r)) - tr n (fun i j => A (S i) (S j))) ^ 2)).
  - rewrite lsum_map_plus, lsum_map_scal, bits_quad.
    rewrite (lsum_map_scal 2 (fun r => (quadr n (fun i j => A (S i) (S j)) (vget (signs r)) - tr n (fun i j => A (S i) (S j))) ^ 2)).
    rewrite (IH (fun i j => A (S i) (S j))), low2_S.
    rewrite (Rsum_ext n (fun j => (A O (S j) + A (S j) O) * (A O (S j) + A (S j) O)) (fun j => (A O (S j) + A (S j) O) ^ 2)) by (intros; ring). ring.
  - intros r _. rewrite !quadr_S by ((left; cbn; ring) || (right; cbn; ring)). unfold tr. rewrite Rsum_S_l.
    change (fun i : nat => vget (signs (true :: r)) (S i)) with (vget (signs r)). change (fun i : nat => vget (signs (false :: r)) (S i)) with (vget (signs r)).
    change (fun j : nat => (A O (S j) + A (S j) O) * vget (signs (true :: r)) (S j)) with (fun j : nat => (A O (S j) + A (S j) O) * vget (signs r) j).
    change (fun j : nat => (A O (S j) + A (S j) O) * vget (signs (false :: r)) (S j)) with (fun j : nat => (A O (S j) + A (S j) O) * vget (signs r) j).
    change (vget (signs (true :: r)) 0) with (1 * 2 - 1). change (vget (signs (false :: r)) 0) with (0 * 2 - 1). ring.
Qed.

(** Sums of independent terms of mean zero. *)
Lemma draws_zero n (u : list bool -> R) : lsum (map u (all_bits n)) = 0 ->
  forall k, lsum (map (fun bits => lsum (map u bits)) (draws k n)) = 0.
Proof. intros H k. rewrite (draws_sum n u 0); [ring|]. rewrite H. ring. Qed.

Lemma draws_sq n (u : list bool -> R) V : lsum (map u (all_bits n)) = 0 -> lsum (map (fun r => u r ^ 2) (all_bits n)) = INR (length (all_bits n)) * V ->
  forall k, lsum (map (fun bits => lsum (map u bits) ^ 2) (draws k n)) = INR k * (INR (length (draws k n)) * V).
Proof.
  intros H1 H2. induction k as [|k IH]; [cbn; unfold lsum; cbn; ring|].
  cbn [draws]. rewrite lsum_flat_map, flat_cons_length, mult_INR, S_INR.
  rewrite (lsum_map_ext _ (fun r => INR (length (draws k n)) * u r ^ 2 + INR k * (INR (length (draws k n)) * V))).
  - rewrite lsum_map_plus, lsum_map_scal, H2, lsum_const. ring.
  - intros r _. rewrite map_map. cbn [map].
    rewrite (lsum_map_ext _ (fun d => u r ^ 2 + (2 * u r * lsum (map u d) + lsum (map u d) ^ 2))) by (intros; unfold lsum; cbn [fold_right]; ring).
    rewrite !lsum_map_plus, lsum_map_scal, IH, lsum_const, (draws_zero n u H1 k). ring.
Qed.

Lemma trace_quadr n X F r : trace_term n X F r = quadr n (fun i j => Rsum n (fun l => X l i * F l j)) (vget (signs r)).
Proof.
  unfold trace_term, quadr. set (v := vget (signs r)).
  rewrite (Rsum_ext n _ (fun l => Rsum n (fun i => Rsum n (fun j => X l i * F l j * v i * v j)))).
  - rewrite Rsum_swap. apply Rsum_ext. intros i Hi. rewrite Rsum_swap. apply Rsum_ext. intros j Hj.
    rewrite <- !Rsum_scal_r. apply Rsum_ext. intros. ring.
  - intros l Hl. rewrite <- Rsum_scal_r. apply Rsum_ext. intros i Hi. rewrite <- Rsum_scal_l. apply Rsum_ext. intros. ring.
Qed.

Lemma trace_var n k X F : (0 < k)%nat ->
  let A := fun i j => Rsum n (fun l => X l i * F l j) in
  mean (draws k n) (fun bits => (lsum (map (trace_term n X F) bits) / INR k - tr n A) ^ 2) = low2 n A / INR k.
Proof.
  intros Hk A. assert (Pk : 0 < INR k) by (apply lt_0_INR; lia). unfold mean.
  set (u := fun r => quadr n A (vget (signs r)) - tr n A).
  rewrite (lsum_map_ext _ (fun bits => / INR k ^ 2 * lsum (map u bits) ^ 2)).
  - rewrite lsum_map_scal, (draws_sq n u (low2 n A) (bits_mean1 n A) (bits_mean2 n A)).
    assert (PD : 0 < INR (length (draws k n))).
    { rewrite draws_length. apply lt_0_INR. pose proof (Nat.pow_nonzero 2 (k * n) ltac:(lia)). lia. }
    field. split; lra.
  - intros bits Hb. apply draws_in in Hb. destruct Hb as [Lb _].
    assert (E : lsum (map u bits) = lsum (map (trace_term n X F) bits) - INR k * tr n A).
    { rewrite <- Lb. clear. induction bits as [|r bits IH]; [cbn; unfold lsum; cbn; ring|]. cbn [map length]. rewrite S_INR. unfold lsum in *. cbn [fold_right].
      rewrite IH. unfold u at 1. rewrite trace_quadr. fold A. ring. }
    rewrite E. field. lra.
Qed.

(** The lower half against the whole. *)
Lemma low2_half n A : Rsum n (fun i => Rsum n (fun j => if (i =? j)%nat then 0 else (A i j + A j i) ^ 2)) = 2 * low2 n A.
Proof.
  set (T := fun i j => if (i <? j)%nat then (A i j + A j i) ^ 2 else 0).
  rewrite (Rsum_ext n _ (fun i => Rsum n (fun j => T i j) + Rsum n (fun j => T j i))).
  - rewrite Rsum_plus, (Rsum_swap n n (fun i j => T j i)). cbv beta. change (low2 n A) with (Rsum n (fun i => Rsum n (fun j => T i j))). ring.
  - intros i Hi. rewrite <- Rsum_plus. apply Rsum_ext. intros j Hj. unfold T.
    destruct (Nat.eqb_spec i j), (Nat.ltb_spec i j), (Nat.ltb_spec j i); try lia; ring.
Qed.

(** Chebyshev: at most the fraction [V / d^2] of the draws is off by [d]. *)
Lemma chebyshev {A} (l : list A) (u : A -> R) d : 0 < d -> l <> [] ->
  INR (length (filter (fun x => if Rle_dec d (Rabs (u x)) then true else false) l)) / INR (length l) <= mean l (fun x => u x ^ 2) / d ^ 2.
Proof.
  intros Hd Hl. unfold mean. assert (P : 0 < INR (length l)) by (apply lt_0_INR; destruct l; [congruence|cbn; lia]).
  apply Rmult_le_reg_r with (INR (length l)); [exact P|]. assert (D2 : 0 < d ^ 2) by (apply pow_lt; exact Hd).
  replace (lsum (map (fun x => u x ^ 2) l) / INR (length l) / d ^ 2 * INR (length l)) with (lsum (map (fun x => u x ^ 2) l) / d ^ 2) by (field; lra).
  replace (INR (length (filter (fun x => if Rle_dec d (Rabs (u x)) then true else false) l)) / INR (length l) * INR (length l))
    with (INR (length (filter (fun x => if Rle_dec d (Rabs (u x)) then true else false) l))) by (field; lra).
  apply Rmult_le_reg_r with (d ^ 2); [exact D2|]. unfold Rdiv. rewrite Rmult_assoc, Rinv_l, Rmult_1_r by lra. clear P Hl.
  induction l as [|x l IH]; [cbn; unfold lsum; cbn; lra|]. cbn [filter map]. unfold lsum in *. cbn [fold_right].
  destruct (Rle_dec d (Rabs (u x))) as [H|H].
  - cbn [length]. rewrite S_INR. assert (d ^ 2 <= u x ^ 2); [|lra]. rewrite <- (pow2_abs (u x)). apply pow_incr. lra.
  - pose proof (pow2_ge_0 (u x)). lra.
Qed.
