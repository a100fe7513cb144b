(** The FFT-based products compute Toeplitz and BTTB products. *)

From Coq Require Import Reals List Arith Lia Lra.
From Coquelicot Require Import Complex.
From Verif Require Import Base NDArray Model_Util Model_Fourier Spec_Linalg Proofs_Util.
Import ListNotations.
Open Scope R_scope.

(** ** Complex sums *)

Lemma Csum_ext n f g : (forall i, (i < n)%nat -> f i = g i) -> Csum n f = Csum n g.
Proof.
  induction n as [|n IH]; intros H; simpl; auto. rewrite IH, H; auto.
Qed.

Lemma Csum_plus n f g : Csum n (fun i => Cplus (f i) (g i)) = Cplus (Csum n f) (Csum n g).
Proof. induction n as [|n IH]; simpl; [ring|]. rewrite IH. ring. Qed.

Lemma Csum_mult_l n c f : Csum n (fun i => Cmult c (f i)) = Cmult c (Csum n f).
Proof. induction n as [|n IH]; simpl; [ring|]. rewrite IH. ring. Qed.

Lemma Csum_mult_r n c f : Csum n (fun i => Cmult (f i) c) = Cmult (Csum n f) c.
Proof. induction n as [|n IH]; simpl; [ring|]. rewrite IH. ring. Qed.

Lemma Csum_zero n f : (forall i, (i < n)%nat -> f i = RtoC 0) -> Csum n f = RtoC 0.
Proof.
  induction n as [|n IH]; intros H; simpl; auto. rewrite IH, H; auto. ring.
Qed.

Lemma Csum_swap n m f :
  Csum n (fun i => Csum m (fun j => f i j)) = Csum m (fun j => Csum n (fun i => f i j)).
Proof.
  induction n as [|n IH]; simpl.
  - symmetry. apply Csum_zero. auto.
  - rewrite IH, <- Csum_plus. reflexivity.
Qed.

Lemma Csum_delta n k f :
  (k < n)%nat -> Csum n (fun i => if Nat.eqb i k then f i else RtoC 0) = f k.
Proof.
  induction n as [|n IH]; intros H; [lia|].
  simpl. destruct (Nat.eqb_spec n k) as [->|Hne].
  - rewrite Csum_zero; [ring|]. intros i Hi. destruct (Nat.eqb_spec i k); [lia|auto].
  - rewrite IH by lia. ring.
Qed.

Lemma RtoC_Rsum n f : RtoC (Rsum n f) = Csum n (fun i => RtoC (f i)).
Proof. induction n as [|n IH]; simpl; auto. rewrite RtoC_plus, IH. reflexivity. Qed.

Lemma Re_Csum n f : Re (Csum n f) = Rsum n (fun i => Re (f i)).
Proof. induction n as [|n IH]; simpl; auto. rewrite <- IH. reflexivity. Qed.

(** ** Multi-index sums *)

Lemma msumC_ext s f g : (forall j, idx_in s j -> f j = g j) -> msumC s f = msumC s g.
Proof.
  revert f g. induction s as [|n s IH]; intros f g H; simpl.
  - apply H. simpl. auto.
  - apply Csum_ext. intros i Hi. apply IH. intros j Hj. apply H. simpl. auto.
Qed.

Lemma msumR_ext s f g : (forall j, idx_in s j -> f j = g j) -> msumR s f = msumR s g.
Proof.
  revert f g. induction s as [|n s IH]; intros f g H; simpl.
  - apply H. simpl. auto.
  - apply Rsum_ext. intros i Hi. apply IH. intros j Hj. apply H. simpl. auto.
Qed.

Lemma msumC_mult_l s c f : msumC s (fun j => Cmult c (f j)) = Cmult c (msumC s f).
Proof.
  revert f. induction s as [|n s IH]; intros f; simpl; auto.
  rewrite <- Csum_mult_l. apply Csum_ext. intros i _. apply IH.
Qed.

Lemma msumC_mult_r s c f : msumC s (fun j => Cmult (f j) c) = Cmult (msumC s f) c.
Proof.
  revert f. induction s as [|n s IH]; intros f; simpl; auto.
  rewrite <- Csum_mult_r. apply Csum_ext. intros i _. apply IH.
Qed.

Lemma msumR_scal_l s c f : msumR s (fun j => c * f j) = c * msumR s f.
Proof.
  revert f. induction s as [|n s IH]; intros f; simpl; auto.
  rewrite <- Rsum_scal_l. apply Rsum_ext. intros i _. apply IH.
Qed.

Lemma msumC_Csum_swap s n f :
  msumC s (fun j => Csum n (fun i => f j i)) = Csum n (fun i => msumC s (fun j => f j i)).
Proof.
  revert f. induction s as [|m s IH]; intros f; simpl; auto.
  rewrite Csum_swap. apply Csum_ext. intros i _. apply IH.
Qed.

Lemma msumC_swap s t f :
  msumC s (fun j => msumC t (fun k => f j k)) = msumC t (fun k => msumC s (fun j => f j k)).
Proof.
  revert f. induction s as [|n s IH]; intros f; simpl; auto.
  rewrite msumC_Csum_swap. apply Csum_ext. intros i _. apply IH.
Qed.

Lemma RtoC_msumR s f : RtoC (msumR s f) = msumC s (fun j => RtoC (f j)).
Proof.
  revert f. induction s as [|n s IH]; intros f; simpl; auto.
  rewrite RtoC_Rsum. apply Csum_ext. intros i _. apply IH.
Qed.

Lemma msumR_flat s f : msumR s f = Rsum (nprod s) (fun k => f (unravel s k)).
Proof.
  revert f. induction s as [|n s IH]; intros f; simpl; [lra|].
  destruct (Nat.eq_dec (nprod s) 0) as [Hz|Hz].
  - rewrite Hz, Nat.mul_0_r. simpl. apply Rsum_zero. intros i _. rewrite IH, Hz. reflexivity.
  - rewrite Rsum_flatten. apply Rsum_ext. intros i Hi. rewrite IH.
    apply Rsum_ext. intros k Hk.
    rewrite (Nat.add_comm (i * nprod s) k), Nat.div_add, Nat.mod_add by lia.
    rewrite Nat.div_small, Nat.mod_small by lia. reflexivity.
Qed.

Lemma msumC_app s t f :
  msumC (s ++ t) f = msumC s (fun a => msumC t (fun b => f (a ++ b))).
Proof.
  revert f. induction s as [|n s IH]; intros f; simpl; auto.
  apply Csum_ext. intros i _. rewrite IH. reflexivity.
Qed.

Lemma msumR_app s t f :
  msumR (s ++ t) f = msumR s (fun a => msumR t (fun b => f (a ++ b))).
Proof.
  revert f. induction s as [|n s IH]; intros f; simpl; auto.
  apply Rsum_ext. intros i _. rewrite IH. reflexivity.
Qed.

(** ** Characters *)

Lemma cis_plus a b : cis (a + b) = Cmult (cis a) (cis b).
Proof.
  unfold cis, Cmult. simpl. rewrite cos_plus, sin_plus. f_equal. ring.
Qed.

Lemma cis_0 : cis 0 = RtoC 1.
Proof. unfold cis, RtoC. rewrite cos_0, sin_0. reflexivity. Qed.

Lemma cis_2PI_nat (k : nat) : cis (2 * PI * INR k) = RtoC 1.
Proof.
  induction k as [|k IH].
  - simpl. rewrite Rmult_0_r. apply cis_0.
  - rewrite S_INR, Rmult_plus_distr_l, cis_plus, IH, Rmult_1_r.
    unfold cis, RtoC, Cmult. rewrite cos_2PI, sin_2PI. simpl. f_equal; ring.
Qed.

Lemma cis_opp_2PI_nat (k : nat) : cis (- (2 * PI) * INR k) = RtoC 1.
Proof.
  assert (H : Cmult (cis (- (2 * PI) * INR k)) (cis (2 * PI * INR k)) = RtoC 1).
  { rewrite <- cis_plus. replace (- (2 * PI) * INR k + 2 * PI * INR k) with 0 by ring. apply cis_0. }
  rewrite cis_2PI_nat in H. rewrite <- H. ring.
Qed.

Fixpoint Cpow_n (z : C) (n : nat) : C :=
  match n with O => RtoC 1 | S k => Cmult z (Cpow_n z k) end.

(** Geometric sums of roots of unity. *)
Lemma Csum_geom z n :
  Cmult (Cminus z (RtoC 1)) (Csum n (fun k => Cpow_n z k)) = Cminus (Cpow_n z n) (RtoC 1).
Proof.
  induction n as [|n IH]; simpl.
  - ring.
  - rewrite Cmult_plus_distr_l, IH. ring.
Qed.

Lemma cis_mult_nat t k : cis (t * INR k) = Cpow_n (cis t) k.
Proof.
  induction k as [|k IH].
  - simpl. rewrite Rmult_0_r. apply cis_0.
  - rewrite S_INR. cbn [Cpow_n]. rewrite Rmult_plus_distr_l, Rmult_1_r, cis_plus, IH.
    ring.
Qed.

Lemma cis_neq_1 t : 0 < t < 2 * PI -> cis t <> RtoC 1.
Proof.
  intros [H1 H2] He. unfold cis, RtoC in He. injection He as Hc _.
  assert (Hs : 0 < sin (t / 2)) by (apply sin_gt_0; lra).
  replace t with (2 * (t / 2)) in Hc by field. rewrite cos_2a_sin in Hc. nra.
Qed.

Lemma cis_neg_neq_1 t : - (2 * PI) < t < 0 -> cis t <> RtoC 1.
Proof.
  intros [H1 H2] He. unfold cis, RtoC in He. injection He as Hc _.
  assert (Hs : 0 < sin (- t / 2)) by (apply sin_gt_0; lra).
  rewrite <- cos_neg in Hc. replace (- t) with (2 * (- t / 2)) in Hc by field.
  rewrite cos_2a_sin in Hc. nra.
Qed.

(** Orthogonality on one axis, for in-range indices. *)
Lemma orth1 N a b :
  (a < N)%nat -> (b < N)%nat ->
  Csum N (fun k => Cmult (cis (2 * PI * (INR a * INR k / INR N)))
                         (cis (- (2 * PI) * (INR b * INR k / INR N))))
  = if Nat.eqb a b then RtoC (INR N) else RtoC 0.
Proof.
  intros Ha Hb.
  assert (HN : 0 < INR N) by (apply lt_0_INR; lia).
  set (t := 2 * PI * ((INR a - INR b) / INR N)).
  rewrite (Csum_ext N _ (fun k => Cpow_n (cis t) k)).
  2:{ intros k _. rewrite <- cis_plus, <- cis_mult_nat. f_equal. unfold t. field. lra. }
  destruct (Nat.eqb_spec a b) as [->|Hne].
  - assert (Ht : t = 0) by (unfold t; field; lra). rewrite Ht, cis_0.
    transitivity (Csum N (fun _ => RtoC 1)).
    + apply Csum_ext. intros i _. induction i as [|i IHi]; simpl; auto.
      rewrite IHi. ring.
    + clear. induction N as [|N IH]; simpl; auto. rewrite IH, <- RtoC_plus.
      f_equal. destruct N; simpl; ring.
  - assert (Hz : cis t <> RtoC 1).
    { pose proof PI_RGT_0 as HPI.
      assert (HaN : INR a < INR N) by now apply lt_INR.
      assert (HbN : INR b < INR N) by now apply lt_INR.
      assert (H0a : 0 <= INR a) by apply pos_INR.
      assert (H0b : 0 <= INR b) by apply pos_INR.
      destruct (Nat.lt_total a b) as [Hlt|[He|Hlt]]; [|congruence|].
      - apply lt_INR in Hlt. apply cis_neg_neq_1. unfold t.
        assert (-1 < (INR a - INR b) / INR N < 0); [|nra].
        split.
        + apply Rmult_lt_reg_r with (INR N); auto. field_simplify; lra.
        + apply Rmult_lt_reg_r with (INR N); auto. field_simplify; lra.
      - apply lt_INR in Hlt. apply cis_neq_1. unfold t.
        assert (0 < (INR a - INR b) / INR N < 1); [|nra].
        split.
        + apply Rmult_lt_reg_r with (INR N); auto. field_simplify; lra.
        + apply Rmult_lt_reg_r with (INR N); auto. field_simplify; lra. }
    assert (HzN : Cpow_n (cis t) N = RtoC 1).
    { rewrite <- cis_mult_nat. unfold t.
      replace (2 * PI * ((INR a - INR b) / INR N) * INR N)
        with (2 * PI * INR a + - (2 * PI) * INR b) by (field; lra).
      rewrite cis_plus, cis_2PI_nat, cis_opp_2PI_nat. ring. }
    pose proof (Csum_geom (cis t) N) as Hg. rewrite HzN in Hg.
    set (S := Csum N (fun k => Cpow_n (cis t) k)) in *.
    assert (Hw : Cminus (cis t) (RtoC 1) <> RtoC 0).
    { intros H. apply Hz. rewrite <- (Cplus_0_r (RtoC 1)), <- H. ring. }
    replace S with (Cmult (Cinv (Cminus (cis t) (RtoC 1)))
                          (Cmult (Cminus (cis t) (RtoC 1)) S)).
    + rewrite Hg. ring.
    + rewrite Cmult_assoc, Cinv_l by auto. ring.
Qed.

(** Multi-index equality test. *)
Fixpoint idx_eqb (a b : list nat) : bool :=
  match a, b with
  | [], [] => true
  | x :: a', y :: b' => (Nat.eqb x y && idx_eqb a' b')%bool
  | _, _ => false
  end.

Lemma idx_eqb_spec a b : idx_eqb a b = true <-> a = b.
Proof.
  revert b. induction a as [|x a IH]; intros [|y b]; simpl; split; intros H; try congruence; auto.
  - apply Bool.andb_true_iff in H. destruct H as [H1 H2].
    apply Nat.eqb_eq in H1. apply IH in H2. congruence.
  - injection H as -> ->. rewrite Nat.eqb_refl. simpl. now apply IH.
Qed.

Lemma orth s a b :
  idx_in s a -> idx_in s b ->
  msumC s (fun k => Cmult (cis (2 * PI * phase s a k)) (cis (- (2 * PI) * phase s b k)))
  = if idx_eqb a b then RtoC (INR (nprod s)) else RtoC 0.
Proof.
  revert a b. induction s as [|n s IH]; intros [|x a] [|y b]; simpl; try tauto.
  - intros _ _. rewrite !Rmult_0_r, cis_0. ring.
  - intros [Hx Ha] [Hy Hb].
    transitivity (Csum n (fun k => Cmult
       (Cmult (cis (2 * PI * (INR x * INR k / INR n))) (cis (- (2 * PI) * (INR y * INR k / INR n))))
       (if idx_eqb a b then RtoC (INR (nprod s)) else RtoC 0))).
    + apply Csum_ext. intros k Hk.
      rewrite <- (IH a b Ha Hb), <- msumC_mult_l. apply msumC_ext. intros r Hr.
      rewrite !Rmult_plus_distr_l, !cis_plus. ring.
    + rewrite Csum_mult_r, orth1 by auto.
      destruct (Nat.eqb x y), (idx_eqb a b); simpl; rewrite ?mult_INR, ?RtoC_mult; ring.
Qed.

(** ** Convolution theorem *)

(** Componentwise sum modulo the shape. *)
Fixpoint idx_addmod (s a b : list nat) : list nat :=
  match s, a, b with
  | n :: s', x :: a', y :: b' => ((x + y) mod n) :: idx_addmod s' a' b'
  | _, _, _ => []
  end.

Lemma idx_addmod_in s a b : (forall n, In n s -> (0 < n)%nat) ->
  idx_in s a -> idx_in s b -> idx_in s (idx_addmod s a b).
Proof.
  revert a b. induction s as [|n s IH]; intros [|x a] [|y b] Hpos; simpl; try tauto.
  intros [Hx Ha] [Hy Hb]. split.
  - apply Nat.mod_upper_bound. assert (0 < n)%nat by (apply Hpos; simpl; auto). lia.
  - apply IH; auto. intros; apply Hpos; simpl; auto.
Qed.

Lemma cis_phase_addmod s a b k :
  (forall n, In n s -> (0 < n)%nat) ->
  length a = length s -> length b = length s -> length k = length s ->
  Cmult (cis (- (2 * PI) * phase s a k)) (cis (- (2 * PI) * phase s b k))
  = cis (- (2 * PI) * phase s (idx_addmod s a b) k).
Proof.
  revert a b k. induction s as [|n s IH]; intros [|x a] [|y b] [|z k] Hpos; simpl;
    try discriminate.
  - intros _ _ _. rewrite Rmult_0_r, cis_0. ring.
  - intros Ha Hb Hk. injection Ha as Ha. injection Hb as Hb. injection Hk as Hk.
    assert (Hn : (0 < n)%nat) by (apply Hpos; simpl; auto).
    assert (HnR : INR n <> 0) by (apply not_0_INR; lia).
    rewrite !Rmult_plus_distr_l, !cis_plus.
    rewrite <- IH by (auto; intros; apply Hpos; simpl; auto).
    assert (H : Cmult (cis (- (2 * PI) * (INR x * INR z / INR n)))
                      (cis (- (2 * PI) * (INR y * INR z / INR n)))
                = cis (- (2 * PI) * (INR ((x + y) mod n) * INR z / INR n))).
    { rewrite <- cis_plus.
      set (q := ((x + y) / n)%nat). set (r := ((x + y) mod n)%nat).
      assert (Hd : INR x + INR y = INR n * INR q + INR r).
      { rewrite <- plus_INR, <- mult_INR, <- plus_INR. f_equal. apply Nat.div_mod. lia. }
      replace (- (2 * PI) * (INR x * INR z / INR n) + - (2 * PI) * (INR y * INR z / INR n))
        with (- (2 * PI) * INR (q * z) + - (2 * PI) * (INR r * INR z / INR n)).
      - rewrite cis_plus, cis_opp_2PI_nat. ring.
      - rewrite mult_INR. replace (INR x) with (INR n * INR q + INR r - INR y) by lra.
        field. auto. }
    rewrite <- H. ring.
Qed.

(** Circular convolution on shape [s]. *)
Definition cconv (s : list nat) (x c : list nat -> R) (j : list nat) : R :=
  msumR s (fun a => msumR s (fun b => if idx_eqb (idx_addmod s a b) j then x a * c b else 0)).

Lemma msumC_delta s j f :
  idx_in s j -> msumC s (fun i => if idx_eqb j i then f i else RtoC 0) = f j.
Proof.
  revert j f. induction s as [|n s IH]; intros [|x j] f; simpl; try tauto.
  intros [Hx Hj].
  transitivity (Csum n (fun i => if Nat.eqb i x then f (i :: j) else RtoC 0)).
  - apply Csum_ext. intros i Hi. rewrite (Nat.eqb_sym i x). destruct (Nat.eqb x i); simpl.
    + apply (IH j (fun r => f (i :: r)) Hj).
    + clear. induction s as [|m s IH]; simpl; auto. apply Csum_zero. auto.
  - rewrite (Csum_delta n x (fun i => f (i :: j))) by auto. reflexivity.
Qed.

Lemma rfftn_conv s x c k :
  (forall n, In n s -> (0 < n)%nat) -> length k = length s ->
  Cmult (np_rfftn s x k) (np_rfftn s c k) = np_rfftn s (cconv s x c) k.
Proof.
  intros Hpos Hk. unfold np_rfftn.
  transitivity (msumC s (fun a => msumC s (fun b =>
     Cmult (RtoC (x a * c b)) (cis (- (2 * PI) * phase s (idx_addmod s a b) k))))).
  - rewrite <- msumC_mult_r. apply msumC_ext. intros a Ha.
    rewrite <- msumC_mult_l. apply msumC_ext. intros b Hb.
    rewrite <- cis_phase_addmod by (auto using idx_in_length).
    rewrite RtoC_mult. ring.
  - symmetry.
    transitivity (msumC s (fun j => msumC s (fun a => msumC s (fun b =>
       if idx_eqb (idx_addmod s a b) j
       then Cmult (RtoC (x a * c b)) (cis (- (2 * PI) * phase s j k)) else RtoC 0)))).
    + apply msumC_ext. intros j Hj. unfold cconv. rewrite RtoC_msumR, <- msumC_mult_r.
      apply msumC_ext. intros a Ha. rewrite RtoC_msumR, <- msumC_mult_r.
      apply msumC_ext. intros b Hb. destruct (idx_eqb _ _); auto. ring.
    + rewrite msumC_swap. apply msumC_ext. intros a Ha.
      rewrite msumC_swap. apply msumC_ext. intros b Hb.
      apply (msumC_delta s (idx_addmod s a b)
        (fun j => Cmult (RtoC (x a * c b)) (cis (- (2 * PI) * phase s j k)))).
      apply idx_addmod_in; auto.
Qed.

(** ** Inversion of the leading axes *)

Lemma phase_app s t a b c d :
  length a = length s -> length c = length s ->
  phase (s ++ t) (a ++ b) (c ++ d) = phase s a c + phase t b d.
Proof.
  revert a c. induction s as [|n s IH]; intros [|x a] [|y c]; simpl; try discriminate.
  - intros _ _. ring.
  - intros Ha Hc. injection Ha as Ha. injection Hc as Hc. rewrite IH by auto. ring.
Qed.

Lemma ifft_front_rfftn sf n w jf k :
  (forall m, In m sf -> (0 < m)%nat) -> idx_in sf jf ->
  ifft_front sf (np_rfftn (sf ++ [n]) w) jf k
  = Csum n (fun j => Cmult (RtoC (w (jf ++ [j]))) (cis (- (2 * PI) * (INR j * INR k / INR n)))).
Proof.
  intros Hpos Hjf. unfold ifft_front, np_rfftn.
  assert (HP : INR (nprod sf) <> 0).
  { apply not_0_INR. pose proof (nprod_pos sf Hpos). lia. }
  transitivity (Cmult (RtoC (/ INR (nprod sf)))
    (msumC sf (fun jf' => Cmult
       (Csum n (fun j => Cmult (RtoC (w (jf' ++ [j]))) (cis (- (2 * PI) * (INR j * INR k / INR n)))))
       (if idx_eqb jf jf' then RtoC (INR (nprod sf)) else RtoC 0)))).
  - f_equal.
    transitivity (msumC sf (fun kf => msumC sf (fun jf' => Cmult
       (Csum n (fun j => Cmult (RtoC (w (jf' ++ [j]))) (cis (- (2 * PI) * (INR j * INR k / INR n)))))
       (Cmult (cis (2 * PI * phase sf jf kf)) (cis (- (2 * PI) * phase sf jf' kf)))))).
    + apply msumC_ext. intros kf Hkf. rewrite msumC_app, <- msumC_mult_r.
      apply msumC_ext. intros jf' Hjf'. simpl.
      rewrite <- !Csum_mult_r. apply Csum_ext. intros j Hj.
      rewrite phase_app by (auto using idx_in_length). simpl.
      rewrite Rplus_0_r, Rmult_plus_distr_l, cis_plus. ring.
    + rewrite msumC_swap. apply msumC_ext. intros jf' Hjf'.
      rewrite msumC_mult_l, orth by auto. reflexivity.
  - transitivity (Cmult (RtoC (/ INR (nprod sf)))
      (Cmult (Csum n (fun j => Cmult (RtoC (w (jf ++ [j]))) (cis (- (2 * PI) * (INR j * INR k / INR n)))))
             (RtoC (INR (nprod sf))))).
    + f_equal.
      rewrite <- (msumC_delta sf jf (fun i => Cmult
       (Csum n (fun j => Cmult (RtoC (w (i ++ [j]))) (cis (- (2 * PI) * (INR j * INR k / INR n)))))
       (RtoC (INR (nprod sf)))) Hjf).
      apply msumC_ext. intros j _. destruct (idx_eqb jf j); auto. ring.
    + rewrite (Cmult_comm (Csum _ _)), Cmult_assoc, <- RtoC_mult.
      rewrite Rinv_l by auto. ring.
Qed.

(** ** One-dimensional inversion of a real signal *)

Lemma real_orth N a b :
  (a < N)%nat -> (b < N)%nat ->
  Rsum N (fun k => cos (2 * PI * ((INR a - INR b) * INR k / INR N)))
  = if Nat.eqb a b then INR N else 0.
Proof.
  intros Ha Hb. pose proof (orth1 N a b Ha Hb) as H.
  apply (f_equal Re) in H. rewrite Re_Csum in H.
  transitivity (Re (if Nat.eqb a b then RtoC (INR N) else RtoC 0)).
  - rewrite <- H. apply Rsum_ext. intros k _.
    rewrite <- cis_plus. simpl. f_equal.
    assert (INR N <> 0) by (apply not_0_INR; lia). field. auto.
  - destruct (Nat.eqb a b); reflexivity.
Qed.

Lemma Rsum_1 f : Rsum 1 f = f O.
Proof. simpl. ring. Qed.

Lemma cos_sum_half m d :
  (0 < m)%nat ->
  (exists a b : nat, d = INR a - INR b) ->
  Rsum (2 * m) (fun k => cos (2 * PI * (d * INR k / INR (2 * m))))
  = 1 + Rsum (m - 1) (fun t => 2 * cos (2 * PI * (d * INR (S t) / INR (2 * m))))
    + cos (PI * d).
Proof.
  intros Hm [a [b Hd]].
  assert (HM : INR (2 * m) <> 0) by (apply not_0_INR; lia).
  assert (HMv : INR (2 * m) = 2 * INR m) by (rewrite mult_INR; simpl; ring).
  assert (Hmv : INR m <> 0) by (apply not_0_INR; lia).
  replace (2 * m)%nat with (1 + ((m - 1) + (1 + (m - 1))))%nat at 1 by lia.
  rewrite Rsum_split, Rsum_split, Rsum_split, !Rsum_1.
  rewrite Rsum_scal_l.
  assert (H0 : cos (2 * PI * (d * INR 0 / INR (2 * m))) = 1).
  { simpl (INR 0). replace (2 * PI * (d * 0 / INR (2 * m))) with 0 by (field; auto). apply cos_0. }
  assert (Hm' : cos (2 * PI * (d * INR (1 + (m - 1 + 0)) / INR (2 * m))) = cos (PI * d)).
  { replace (1 + (m - 1 + 0))%nat with m by lia. f_equal. rewrite HMv. field. auto. }
  rewrite H0, Hm'.
  assert (Hrev : Rsum (m - 1) (fun j => cos (2 * PI * (d * INR (1 + (m - 1 + (1 + j))) / INR (2 * m))))
                 = Rsum (m - 1) (fun t => cos (2 * PI * (d * INR (S t) / INR (2 * m))))).
  { rewrite Rsum_rev. apply Rsum_ext. intros i Hi.
    replace (1 + (m - 1 + (1 + (m - 1 - 1 - i))))%nat with (2 * m - S i)%nat by lia.
    rewrite minus_INR by lia.
    assert (Hc : cis (2 * PI * (d * (INR (2 * m) - INR (S i)) / INR (2 * m)))
               = cis (- (2 * PI * (d * INR (S i) / INR (2 * m))))).
    { replace (2 * PI * (d * (INR (2 * m) - INR (S i)) / INR (2 * m)))
        with (2 * PI * INR a + (- (2 * PI) * INR b + - (2 * PI * (d * INR (S i) / INR (2 * m)))))
        by (rewrite Hd; field; auto).
      rewrite !cis_plus, cis_2PI_nat, cis_opp_2PI_nat. ring. }
    apply (f_equal fst) in Hc. unfold cis in Hc. cbn [fst] in Hc. rewrite Hc. apply cos_neg. }
  rewrite Hrev.
  assert (Hfirst : Rsum (m - 1) (fun j => cos (2 * PI * (d * INR (1 + j) / INR (2 * m))))
                 = Rsum (m - 1) (fun t => cos (2 * PI * (d * INR (S t) / INR (2 * m))))).
  { apply Rsum_ext. auto. }
  rewrite Hfirst. ring.
Qed.

Lemma sin_PI_nat k : sin (PI * INR k) = 0.
Proof.
  induction k as [|k IH]; [simpl; rewrite Rmult_0_r; apply sin_0|].
  rewrite S_INR, Rmult_plus_distr_l, Rmult_1_r, neg_sin, IH. ring.
Qed.

Lemma Re_scal r z : Re (Cmult (RtoC r) z) = r * Re z.
Proof. unfold Re, Cmult, RtoC. simpl. ring. Qed.

Lemma Re_cis t : Re (cis t) = cos t.
Proof. reflexivity. Qed.

Lemma irfft_rfft m w j :
  (0 < m)%nat -> (j < 2 * m)%nat ->
  irfft_at m (fun k => Csum (2 * m) (fun a =>
     Cmult (RtoC (w a)) (cis (- (2 * PI) * (INR a * INR k / INR (2 * m)))))) j = w j.
Proof.
  intros Hm Hj.
  assert (HM : INR (2 * m) <> 0) by (apply not_0_INR; lia).
  assert (HMv : INR (2 * m) = 2 * INR m) by (rewrite mult_INR; simpl; ring).
  assert (Hmv : INR m <> 0) by (apply not_0_INR; lia).
  set (X := fun k => Csum (2 * m) (fun a =>
     Cmult (RtoC (w a)) (cis (- (2 * PI) * (INR a * INR k / INR (2 * m)))))).
  unfold irfft_at.
  assert (H0 : Re (X O) = Rsum (2 * m) (fun a => w a * 1)).
  { unfold X. rewrite Re_Csum. apply Rsum_ext. intros a _.
    simpl (INR 0). replace (- (2 * PI) * (INR a * 0 / INR (2 * m))) with 0 by (field; auto).
    rewrite cis_0. simpl. ring. }
  assert (Hk : forall k, Re (Cmult (X k) (cis (2 * PI * (INR j * INR k / INR (2 * m)))))
       = Rsum (2 * m) (fun a => w a * cos (2 * PI * ((INR j - INR a) * INR k / INR (2 * m))))).
  { intros k. unfold X. rewrite <- Csum_mult_r, Re_Csum. apply Rsum_ext. intros a _.
    rewrite <- Cmult_assoc, <- cis_plus, Re_scal, Re_cis. do 2 f_equal.
    field. auto. }
  assert (Hn : Re (X m) * cos (PI * INR j)
       = Rsum (2 * m) (fun a => w a * cos (PI * (INR j - INR a)))).
  { unfold X. rewrite Re_Csum, <- Rsum_scal_r. apply Rsum_ext. intros a _.
    rewrite Re_scal, Re_cis.
    replace (- (2 * PI) * (INR a * INR m / INR (2 * m))) with (- (PI * INR a))
      by (rewrite HMv; field; auto).
    rewrite cos_neg. rewrite Rmult_minus_distr_l, cos_minus, !sin_PI_nat. ring. }
  rewrite H0, Hn.
  rewrite (Rsum_ext (m - 1) _ (fun t => Rsum (2 * m) (fun a =>
       w a * (2 * cos (2 * PI * ((INR j - INR a) * INR (S t) / INR (2 * m))))))).
  2:{ intros t _. rewrite Hk, <- Rsum_scal_l. apply Rsum_ext. intros a _. ring. }
  rewrite Rsum_swap, <- !Rsum_plus.
  rewrite (Rsum_ext (2 * m) _ (fun a => if Nat.eqb j a then INR (2 * m) * w a else 0)).
  - rewrite (Rsum_delta' (2 * m) j (fun a => INR (2 * m) * w a)) by auto. field. auto.
  - intros a Ha. rewrite Rsum_scal_l, <- !Rmult_plus_distr_l.
    rewrite <- (cos_sum_half m (INR j - INR a)) by eauto.
    rewrite real_orth by auto. destruct (Nat.eqb j a); ring.
Qed.

(** ** n-dimensional inversion of a product *)

Lemma irfft_at_ext m X Y j : (forall k, X k = Y k) -> irfft_at m X j = irfft_at m Y j.
Proof.
  intros H. unfold irfft_at. rewrite !H. do 2 f_equal. f_equal.
  apply Rsum_ext. intros t _. rewrite H. reflexivity.
Qed.

Lemma irfftn_conv sf m x c j :
  (forall n, In n sf -> (0 < n)%nat) -> (0 < m)%nat ->
  idx_in (sf ++ [2 * m]%nat) j ->
  np_irfftn sf m (fun k => Cmult (np_rfftn (sf ++ [2 * m]%nat) x k)
                                 (np_rfftn (sf ++ [2 * m]%nat) c k)) j
  = cconv (sf ++ [2 * m]%nat) x c j.
Proof.
  intros Hpos Hm Hj. unfold np_irfftn.
  assert (Hne : j <> []).
  { intros ->. destruct sf; simpl in Hj; tauto. }
  pose proof (app_removelast_last O Hne) as Hjl.
  set (jf := removelast j) in *. set (jl := last j O) in *.
  assert (Hin : idx_in sf jf /\ (jl < 2 * m)%nat).
  { rewrite Hjl in Hj. clearbody jf jl. clear -Hj. revert jf Hj.
    induction sf as [|n sf IH]; intros [|x jf]; simpl; try tauto.
    - destruct jf; simpl; tauto.
    - destruct sf; simpl; tauto.
    - intros [Hx H]. destruct (IH jf H). tauto. }
  destruct Hin as [Hjf Hjl2].
  set (w := cconv (sf ++ [2 * m]%nat) x c).
  transitivity (irfft_at m (fun k => Csum (2 * m) (fun a =>
     Cmult (RtoC (w (jf ++ [a]))) (cis (- (2 * PI) * (INR a * INR k / INR (2 * m)))))) jl).
  - apply irfft_at_ext. intros k.
    rewrite <- (ifft_front_rfftn sf (2 * m) w jf k) by auto.
    unfold ifft_front. f_equal. apply msumC_ext. intros kf Hkf. f_equal.
    apply rfftn_conv.
    + intros n Hn. apply in_app_or in Hn. destruct Hn as [Hn|[<-|[]]]; auto. lia.
    + rewrite !app_length. simpl. rewrite (idx_in_length _ _ Hkf). reflexivity.
  - rewrite irfft_rfft by auto. congruence.
Qed.

(** ** Circular convolution as a sum *)

Fixpoint idx_submod (s j a : list nat) : list nat :=
  match s, j, a with
  | n :: s', y :: j', x :: a' => ((y + n - x) mod n)%nat :: idx_submod s' j' a'
  | _, _, _ => []
  end.

Lemma addmod_iff n x i j :
  (x < n)%nat -> (i < n)%nat -> (j < n)%nat ->
  Nat.eqb ((x + i) mod n) j = Nat.eqb i ((j + n - x) mod n).
Proof.
  intros Hx Hi Hj.
  assert (H1 : ((x + i) mod n = if Nat.ltb (x + i) n then x + i else x + i - n)%nat).
  { destruct (Nat.ltb_spec (x + i) n).
    - apply Nat.mod_small. auto.
    - replace (x + i)%nat with (x + i - n + 1 * n)%nat at 1 by lia.
      rewrite Nat.mod_add by lia. apply Nat.mod_small. lia. }
  assert (H2 : ((j + n - x) mod n = if Nat.ltb j x then j + n - x else j - x)%nat).
  { destruct (Nat.ltb_spec j x).
    - apply Nat.mod_small. lia.
    - replace (j + n - x)%nat with (j - x + 1 * n)%nat by lia.
      rewrite Nat.mod_add by lia. apply Nat.mod_small. lia. }
  rewrite H1, H2. apply Bool.eq_iff_eq_true. rewrite !Nat.eqb_eq.
  destruct (Nat.ltb_spec (x + i) n), (Nat.ltb_spec j x); lia.
Qed.

Lemma msumR_zero s : msumR s (fun _ => 0) = 0.
Proof. induction s as [|n s IH]; simpl; auto. apply Rsum_zero. intros. apply IH. Qed.

Lemma msumR_addmod s a j f :
  idx_in s a -> idx_in s j ->
  msumR s (fun b => if idx_eqb (idx_addmod s a b) j then f b else 0) = f (idx_submod s j a).
Proof.
  revert a j f. induction s as [|n s IH]; intros [|x a] [|y j] f; simpl; try tauto.
  intros [Hx Ha] [Hy Hj].
  rewrite (Rsum_ext n _ (fun i => if Nat.eqb i ((y + n - x) mod n)
                                 then f (i :: idx_submod s j a) else 0)).
  - rewrite (Rsum_delta n _ (fun i => f (i :: idx_submod s j a))); auto.
    apply Nat.mod_upper_bound. lia.
  - intros i Hi. rewrite addmod_iff by auto.
    destruct (Nat.eqb i ((y + n - x) mod n)); simpl.
    + apply (IH a j (fun r => f (i :: r))); auto.
    + apply msumR_zero.
Qed.

Lemma cconv_sum s x c j :
  idx_in s j -> cconv s x c j = msumR s (fun a => x a * c (idx_submod s j a)).
Proof.
  intros Hj. unfold cconv. apply msumR_ext. intros a Ha.
  apply (msumR_addmod s a j (fun b => x a * c b)); auto.
Qed.

(** ** Toeplitz *)

Lemma irfft_at_ext_le m X Y j :
  (0 < m)%nat -> (forall k, (k <= m)%nat -> X k = Y k) -> irfft_at m X j = irfft_at m Y j.
Proof.
  intros Hm H. unfold irfft_at. rewrite !H by lia. do 2 f_equal. f_equal.
  apply Rsum_ext. intros t Ht. rewrite H by lia. reflexivity.
Qed.

Lemma np_rfft_length x n : length (np_rfft x n) = (n / 2 + 1)%nat.
Proof. apply tab_length. Qed.

Lemma cyclic_extend_length x : length (cyclic_extend x) = (length x * 2)%nat.
Proof. apply tab_length. Qed.

Lemma vget_cyclic_extend top j a :
  (j < length top)%nat -> (a < length top)%nat ->
  vget (cyclic_extend top) ((j + 2 * length top - a) mod (2 * length top))
  = vget top (absdiff j a).
Proof.
  intros Hj Ha. set (n := length top) in *. unfold cyclic_extend. fold n.
  rewrite (Nat.mul_comm n 2).
  rewrite vget_tab by (apply Nat.mod_upper_bound; lia).
  unfold absdiff. destruct (Nat.leb_spec a j) as [Hle|Hlt].
  - replace (j + 2 * n - a)%nat with (j - a + 1 * (2 * n))%nat by lia.
    rewrite Nat.mod_add, Nat.mod_small by lia.
    destruct (Nat.ltb_spec (j - a) n); [reflexivity|lia].
  - rewrite Nat.mod_small by lia.
    destruct (Nat.ltb_spec (j + 2 * n - a) n); [lia|].
    destruct (Nat.leb_spec (n + 1) (j + 2 * n - a)); [|lia].
    unfold vget. rewrite rev_nth by (rewrite skipn_length; fold n; lia).
    rewrite nth_skipn, skipn_length. fold n. f_equal. lia.
Qed.

Lemma toeplitz_matvec_ok top x :
  (0 < length top)%nat -> length x = length top ->
  toeplitz_matvec top x = mat_apply (length top) (length top) (toep_entry top) x.
Proof.
  intros Hn Hx. unfold toeplitz_matvec, toeplitz_circ_fft, mat_apply.
  rewrite Hx, cyclic_extend_length. set (n := length top) in *.
  assert (Hhalf : (n * 2 / 2 + 1 = S n)%nat) by (rewrite Nat.div_mul by lia; lia).
  set (c := cyclic_extend top).
  set (xf := fun idx : list nat => vget x (hd O idx)).
  set (cf := fun idx : list nat => vget c (hd O idx)).
  assert (Hr : forall v k, (k <= n)%nat ->
     nth k (np_rfft v (n * 2)) (RtoC 0) = np_rfftn [(2 * n)%nat] (fun idx => vget v (hd O idx)) [k]).
  { intros v k Hk. unfold np_rfft. rewrite nth_tab by lia. unfold np_rfftn. simpl msumC.
    rewrite (Nat.mul_comm n 2). apply Csum_ext. intros i Hi. cbn [hd phase].
    rewrite Rplus_0_r. reflexivity. }
  assert (Hlen : forall v, length (np_rfft v (n * 2)) = S n) by (intros; rewrite np_rfft_length; auto).
  assert (Hcl : length (cmul_lists (np_rfft x (n * 2)) (np_rfft c (n * 2))) = S n).
  { unfold cmul_lists. rewrite map_length, combine_length, !Hlen. lia. }
  assert (Hnth : forall k, (k <= n)%nat ->
    nth k (cmul_lists (np_rfft x (n * 2)) (np_rfft c (n * 2))) (RtoC 0)
    = Cmult (np_rfftn [(2 * n)%nat] xf [k]) (np_rfftn [(2 * n)%nat] cf [k])).
  { intros k Hk. unfold cmul_lists.
    set (g := fun p : C * C => Cmult (fst p) (snd p)).
    rewrite (nth_indep _ (RtoC 0) (g (RtoC 0, RtoC 0)))
      by (rewrite map_length, combine_length, !Hlen; lia).
    rewrite map_nth, combine_nth by (rewrite !Hlen; auto).
    unfold g. cbn [fst snd]. rewrite !Hr by auto. reflexivity. }
  unfold np_irfft. rewrite Hcl. replace (S n - 1)%nat with n by lia.
  apply vec_ext.
  { rewrite firstn_length, !tab_length. lia. }
  intros j Hj. rewrite firstn_length, tab_length in Hj.
  unfold vget at 1. rewrite nth_firstn by lia. rewrite nth_tab by lia.
  rewrite vget_tab by lia.
  transitivity (np_irfftn [] n (fun k => Cmult (np_rfftn [(2 * n)%nat] xf k)
                                               (np_rfftn [(2 * n)%nat] cf k)) [j]).
  - unfold np_irfftn. cbn [removelast last]. apply irfft_at_ext_le; auto.
    intros k Hk. rewrite Hnth by auto. unfold ifft_front. simpl msumC. simpl nprod.
    simpl phase. rewrite Rmult_0_r, cis_0. simpl INR. rewrite Rinv_1. cbn [app]. change (n + (n + 0))%nat with (2 * n)%nat. ring.
  - assert (Hin : idx_in [(2 * n)%nat] [j]) by (simpl; lia).
    etransitivity; [apply (irfftn_conv [] n xf cf [j]); [intros ? []|lia|exact Hin]|].
    cbn [app]. rewrite cconv_sum by exact Hin. cbn [msumR idx_submod].
    replace (2 * n)%nat with (n + n)%nat at 1 by lia. rewrite Rsum_split.
    match goal with |- ?A + ?B = _ => replace B with 0 end.
    + rewrite Rplus_0_r. apply Rsum_ext. intros a Ha. unfold xf, cf, toep_entry. cbn [hd].
      unfold c. unfold n at 1 2. rewrite vget_cyclic_extend by (fold n; lia). apply Rmult_comm.
    + symmetry. apply Rsum_zero. intros k Hk. unfold xf. cbn [hd]. rewrite vget_over by lia. ring.
Qed.

(** ** BTTB product *)

Lemma pow2_up_even x : (2 <= x)%nat ->
  (x <= pow2_up x)%nat /\ pow2_up x = (2 * (pow2_up x / 2))%nat.
Proof.
  intros Hx. unfold pow2_up, bit_length.
  destruct (x - 1)%nat as [|k] eqn:E; [lia|].
  assert (Hk : (0 < S k)%nat) by lia.
  pose proof (Nat.log2_spec (S k) Hk) as [_ H2].
  split; [lia|].
  rewrite Nat.pow_succ_r', (Nat.mul_comm 2 (2 ^ _)), Nat.div_mul by lia. lia.
Qed.

(** Per-axis index folding performed by [_cyclic_extend_n]. *)
Definition mirror1 (n m q : nat) : nat :=
  if (Nat.leb (m - n + 1) q && Nat.ltb q m)%bool then (m - q)%nat else q.

Fixpoint mirror_map (sizes idx : list nat) : list nat :=
  match sizes, idx with
  | n :: s', q :: idx' => mirror1 n (pow2_up (n * 2)) q :: mirror_map s' idx'
  | _, _ => []
  end.

Lemma set_nth_app pre a rest v :
  set_nth (pre ++ a :: rest) (length pre) v = pre ++ v :: rest.
Proof. induction pre as [|x pre IH]; simpl; auto. rewrite IH. reflexivity. Qed.

Lemma mirror_fold sizes base pre rest :
  length rest = length sizes ->
  fold_right (fun t ext => let '(p, n, m) := t in mirror_axis p n m ext)
    base (axes_from (length pre) sizes) (pre ++ rest)
  = base (pre ++ mirror_map sizes rest).
Proof.
  revert pre rest. induction sizes as [|n sizes IH]; intros pre [|q rest]; simpl; try discriminate.
  - auto.
  - intros Hl. injection Hl as Hl.
    assert (Hstep : forall v,
      fold_right (fun t ext => let '(p, n, m) := t in mirror_axis p n m ext)
        base (axes_from (S (length pre)) sizes) (pre ++ v :: rest)
      = base (pre ++ v :: mirror_map sizes rest)).
    { intros v. specialize (IH (pre ++ [v]) rest Hl).
      rewrite app_length, Nat.add_comm in IH. simpl in IH.
      rewrite <- !app_assoc in IH. exact IH. }
    unfold mirror_axis at 1. rewrite app_nth2, Nat.sub_diag by lia. cbn [nth].
    rewrite set_nth_app, !Hstep. unfold mirror1.
    destruct (_ && _)%bool; reflexivity.
Qed.

Lemma cyclic_extend_n_map sizes top idx :
  length idx = length sizes ->
  cyclic_extend_n sizes top idx = embed sizes top (mirror_map sizes idx).
Proof.
  intros H. unfold cyclic_extend_n.
  rewrite <- fold_left_rev_right. rewrite rev_involutive.
  apply (mirror_fold sizes (embed sizes top) [] idx H).
Qed.

Lemma idx_inb_spec s idx : idx_inb s idx = true <-> idx_in s idx.
Proof.
  revert idx. induction s as [|n s IH]; intros [|i idx]; simpl; try (split; [discriminate|tauto]).
  - tauto.
  - rewrite Bool.andb_true_iff, Nat.ltb_lt, IH. tauto.
Qed.

Lemma absdiff_lt n i j : (i < n)%nat -> (j < n)%nat -> (absdiff i j < n)%nat.
Proof. intros. unfold absdiff. destruct (Nat.leb_spec j i); lia. Qed.

Lemma absdiff_sym i j : absdiff i j = absdiff j i.
Proof. unfold absdiff. destruct (Nat.leb_spec j i), (Nat.leb_spec i j); lia. Qed.

Lemma absdiffs_in s a b : idx_in s a -> idx_in s b -> idx_in s (absdiffs a b).
Proof.
  revert a b. induction s as [|n s IH]; intros [|x a] [|y b]; simpl; try tauto.
  intros [Hx Ha] [Hy Hb]. split; [now apply absdiff_lt|now apply IH].
Qed.

Lemma absdiffs_sym a b : absdiffs a b = absdiffs b a.
Proof.
  revert b. induction a as [|x a IH]; intros [|y b]; simpl; auto.
  rewrite absdiff_sym, IH. reflexivity.
Qed.

Lemma ext_shape_ge sizes : (forall n, In n sizes -> (0 < n)%nat) ->
  forall idx, idx_in sizes idx -> idx_in (ext_shape sizes) idx.
Proof.
  induction sizes as [|n s IH]; intros Hpos [|i idx]; simpl; try tauto.
  intros [Hi H]. assert (0 < n)%nat by (apply Hpos; simpl; auto).
  pose proof (pow2_up_even (n * 2) ltac:(lia)) as [Hp _]. split; [lia|].
  apply IH; auto. intros; apply Hpos; simpl; auto.
Qed.

Lemma mirror_submod sizes j a :
  (forall n, In n sizes -> (0 < n)%nat) ->
  idx_in sizes j -> idx_in sizes a ->
  mirror_map sizes (idx_submod (ext_shape sizes) j a) = absdiffs j a.
Proof.
  revert j a. induction sizes as [|n s IH]; intros [|y j] [|x a] Hpos; simpl; try tauto.
  intros [Hy Hj] [Hx Ha]. f_equal.
  - assert (0 < n)%nat by (apply Hpos; simpl; auto).
    pose proof (pow2_up_even (n * 2) ltac:(lia)) as [Hp _].
    set (m := pow2_up (n * 2)) in *. clearbody m.
    unfold mirror1, absdiff.
    destruct (Nat.leb_spec x y) as [Hle|Hlt].
    + replace (y + m - x)%nat with (y - x + 1 * m)%nat by lia.
      rewrite Nat.mod_add, Nat.mod_small by lia.
      destruct (Nat.leb_spec (m - n + 1) (y - x)); simpl; auto; lia.
    + rewrite Nat.mod_small by lia.
      destruct (Nat.leb_spec (m - n + 1) (y + m - x)); [|lia].
      destruct (Nat.ltb_spec (y + m - x) m); [|lia]. simpl. lia.
  - apply IH; auto. intros; apply Hpos; simpl; auto.
Qed.

Lemma idx_submod_length s j a :
  length j = length s -> length a = length s -> length (idx_submod s j a) = length s.
Proof.
  revert j a. induction s as [|n s IH]; intros [|y j] [|x a]; simpl; try discriminate; auto.
Qed.

Lemma msumR_embed sizes g :
  (forall n, In n sizes -> (0 < n)%nat) ->
  msumR (ext_shape sizes) (fun a => if idx_inb sizes a then g a else 0) = msumR sizes g.
Proof.
  revert g. induction sizes as [|n s IH]; intros g Hpos; simpl; auto.
  assert (0 < n)%nat by (apply Hpos; simpl; auto).
  pose proof (pow2_up_even (n * 2) ltac:(lia)) as [Hp _].
  set (m := pow2_up (n * 2)) in *. clearbody m.
  replace m with (n + (m - n))%nat by lia. rewrite Rsum_split.
  rewrite (Rsum_zero (m - n)).
  - rewrite Rplus_0_r. apply Rsum_ext. intros i Hi.
    rewrite <- IH by (intros; apply Hpos; simpl; auto).
    apply msumR_ext. intros r _. destruct (Nat.ltb_spec i n); [reflexivity|lia].
  - intros i Hi. etransitivity; [|apply (msumR_zero (ext_shape s))]. apply msumR_ext. intros r _.
    destruct (Nat.ltb_spec (n + i) n); [lia|reflexivity].
Qed.

Lemma ext_shape_last sizes :
  sizes <> [] -> (forall n, In n sizes -> (0 < n)%nat) ->
  let s := ext_shape sizes in
  s = removelast s ++ [2 * (last s 0 / 2)]%nat /\
  (forall n, In n s -> (0 < n)%nat) /\ (0 < last s 0 / 2)%nat.
Proof.
  intros Hne Hpos s.
  assert (Hs : s <> []) by (unfold s; destruct sizes; [congruence|discriminate]).
  assert (Hall : forall m, In m s -> (2 <= m)%nat /\ m = (2 * (m / 2))%nat).
  { intros m Hm. unfold s, ext_shape in Hm. apply in_map_iff in Hm.
    destruct Hm as [n [<- Hn]]. specialize (Hpos n Hn).
    destruct (pow2_up_even (n * 2) ltac:(lia)). split; [lia|auto]. }
  assert (Hl : In (last s 0%nat) s).
  { rewrite (app_removelast_last 0%nat Hs) at 2. apply in_or_app. simpl. auto. }
  destruct (Hall _ Hl) as [H2 H3].
  split; [|split].
  - rewrite <- H3. apply app_removelast_last. auto.
  - intros n Hn. destruct (Hall n Hn). lia.
  - set (q := (last s 0 / 2)%nat) in *. lia.
Qed.

Lemma bttb_matvec_ok top sizes x :
  sizes <> [] -> (forall n, In n sizes -> (0 < n)%nat) ->
  bttb_matvec top sizes x = mat_apply (nprod sizes) (nprod sizes) (bttb_entry top sizes) x.
Proof.
  intros Hne Hpos. unfold bttb_matvec, mat_apply. apply tab_ext. intros k Hk.
  destruct (ext_shape_last sizes Hne Hpos) as [Hs [Hp Hm]].
  set (s := ext_shape sizes) in *.
  assert (Hj : idx_in s (unravel sizes k)).
  { apply ext_shape_ge; auto. now apply unravel_in. }
  pose proof (irfftn_conv (removelast s) (last s 0 / 2)%nat (embed sizes x)
                (cyclic_extend_n sizes top) (unravel sizes k)) as Hc.
  rewrite <- Hs in Hc. rewrite Hc; auto.
  2:{ intros n Hn. apply Hp. rewrite Hs. apply in_or_app. auto. }
  clear Hc. rewrite cconv_sum by auto.
  set (j := unravel sizes k) in *.
  assert (Hjs : idx_in sizes j) by now apply unravel_in.
  rewrite (msumR_ext s _ (fun a => if idx_inb sizes a
             then vget x (ravel_idx sizes a) * vget top (ravel_idx sizes (absdiffs j a)) else 0)).
  2:{ intros a Ha. unfold embed at 1. destruct (idx_inb sizes a) eqn:E; [|ring].
      apply idx_inb_spec in E. f_equal.
      rewrite cyclic_extend_n_map.
      - unfold s. rewrite mirror_submod by auto. unfold embed.
        replace (idx_inb sizes (absdiffs j a)) with true; auto.
        symmetry. apply idx_inb_spec. now apply absdiffs_in.
      - rewrite idx_submod_length; unfold s, ext_shape; rewrite map_length;
          auto using idx_in_length. }
  unfold s. rewrite msumR_embed by auto. rewrite msumR_flat.
  apply Rsum_ext. intros l Hl. rewrite ravel_unravel by auto.
  unfold bttb_entry. fold j. ring.
Qed.

(** ** BTTB dense form *)

Lemma fold_set {P} (hit : P -> bool) (v : R) (op : (nat -> nat -> R) -> P -> nat -> nat -> R)
      (r c : nat) (l : list P) z0 :
  (forall p z, In p l -> op z p r c = if hit p then v else z r c) ->
  fold_left op l z0 r c = if existsb hit l then v else z0 r c.
Proof.
  revert z0. induction l as [|p l IH]; intros z0 H; simpl; auto.
  rewrite IH by (intros; apply H; simpl; auto).
  rewrite H by (simpl; auto). destruct (hit p), (existsb hit l); reflexivity.
Qed.

Lemma in_block r N b : (0 < N)%nat ->
  (Nat.leb (b * N) r && Nat.ltb r (b * N + N))%bool = Nat.eqb (r / N) b.
Proof.
  intros HN. apply Bool.eq_iff_eq_true.
  rewrite Bool.andb_true_iff, Nat.leb_le, Nat.ltb_lt, Nat.eqb_eq.
  pose proof (Nat.div_mod r N ltac:(lia)) as Hd.
  pose proof (Nat.mod_upper_bound r N ltac:(lia)) as Hm.
  set (q := (r / N)%nat) in *. set (t := (r mod N)%nat) in *. clearbody q t. subst r.
  split; intros H.
  - assert (q = b); [|auto]. nia.
  - subst. nia.
Qed.

Lemma blit_block z rb cb N f r c : (0 < N)%nat ->
  blit z (rb * N) (cb * N) N f r c
  = if (Nat.eqb (r / N) rb && Nat.eqb (c / N) cb)%bool
    then f (r mod N)%nat (c mod N)%nat else z r c.
Proof.
  intros HN. unfold blit. rewrite <- Bool.andb_assoc, !in_block by auto.
  destruct (Nat.eqb_spec (r / N) rb) as [<-|]; simpl; auto.
  destruct (Nat.eqb_spec (c / N) cb) as [<-|]; simpl; auto.
  f_equal; rewrite (Nat.mul_comm _ N); symmetry; apply Nat.mod_eq; lia.
Qed.

Lemma toep_replicate_ok n N G :
  (0 < N)%nat ->
  (forall i a b, (a < N)%nat -> (b < N)%nat -> G i a b = G i b a) ->
  toep_replicate (tab n (fun i => mk N N (G i))) N
  = mk (n * N) (n * N) (fun r c => G (absdiff (r / N) (c / N)) (r mod N) (c mod N))%nat.
Proof.
  intros HN Hsym. unfold toep_replicate. destruct (Nat.eqb_spec N 1) as [->|HN1].
  - unfold la_toeplitz. rewrite map_tab, tab_length, Nat.mul_1_r.
    apply mk_ext. intros i j Hi Hj. rewrite !Nat.div_1_r, !Nat.mod_1_r.
    rewrite vget_tab by (destruct (Nat.leb_spec j i); lia).
    rewrite mget_mk by lia. reflexivity.
  - rewrite tab_length. apply mk_ext. intros r c Hr Hc.
    assert (HR : (r / N < n)%nat) by (apply Nat.div_lt_upper_bound; lia).
    assert (HC : (c / N < n)%nat) by (apply Nat.div_lt_upper_bound; lia).
    pose proof (Nat.mod_upper_bound r N ltac:(lia)) as Hrm.
    pose proof (Nat.mod_upper_bound c N ltac:(lia)) as Hcm.
    set (v := G (absdiff (r / N) (c / N)) (r mod N)%nat (c mod N)%nat).
    rewrite (fold_set (fun ij : nat * nat => let '(i, j) := ij in
       ((Nat.eqb (r / N) (i + j) && Nat.eqb (c / N) j)
        || (Nat.eqb (r / N) j && Nat.eqb (c / N) (i + j)))%bool) v).
    + replace (existsb _ _) with true; auto. symmetry. apply existsb_exists.
      exists (absdiff (r / N) (c / N), Nat.min (r / N) (c / N)). split.
      * apply in_flat_map. exists (absdiff (r / N) (c / N)). split.
        -- apply in_seq. pose proof (absdiff_lt n _ _ HR HC). lia.
        -- apply in_map. apply in_seq. unfold absdiff. destruct (Nat.leb_spec (c / N) (r / N)); lia.
      * unfold absdiff. destruct (Nat.leb_spec (c / N) (r / N)).
        -- rewrite Nat.min_r by lia.
           replace (r / N - c / N + c / N)%nat with (r / N)%nat by lia.
           rewrite !Nat.eqb_refl. reflexivity.
        -- rewrite Nat.min_l by lia.
           replace (c / N - r / N + r / N)%nat with (c / N)%nat by lia.
           rewrite !Nat.eqb_refl. apply Bool.orb_true_r.
    + intros [i j] z Hin. apply in_flat_map in Hin. destruct Hin as [i' [Hi' Hin]].
      apply in_map_iff in Hin. destruct Hin as [j' [Heq Hj']]. injection Heq as -> ->.
      apply in_seq in Hi'. apply in_seq in Hj'.
      rewrite !blit_block by auto. rewrite nth_tab by lia.
      rewrite !mget_mk by auto.
      destruct (Nat.eqb_spec (r / N) (i + j)) as [E1|E1],
               (Nat.eqb_spec (c / N) j) as [E2|E2],
               (Nat.eqb_spec (r / N) j) as [E3|E3],
               (Nat.eqb_spec (c / N) (i + j)) as [E4|E4]; simpl; auto;
      unfold v, absdiff; destruct (Nat.leb_spec (c / N) (r / N)); try lia;
        try (rewrite (Hsym i (c mod N) (r mod N))%nat by auto);
        f_equal; lia.
Qed.

Lemma chunks_tab {A} B n (f : nat -> A) :
  (0 < n)%nat ->
  chunks_pos (tab (B * n) f) n = tab B (fun b => tab n (fun i => f (b * n + i)%nat)).
Proof.
  intros Hn. unfold chunks_pos, chunks. destruct n as [|n']; [lia|]. set (n := S n') in *.
  rewrite tab_length.
  replace ((B * n + n - 1) / n)%nat with B.
  2:{ replace (B * n + n - 1)%nat with (n - 1 + B * n)%nat by lia.
      rewrite Nat.div_add, Nat.div_small by lia. lia. }
  apply tab_ext. intros b Hb. apply (list_ext (f O)).
  - rewrite slice_length, tab_length; try lia. rewrite tab_length. nia.
  - rewrite slice_length by (rewrite ?tab_length; nia). intros i Hi.
    rewrite nth_slice by lia. rewrite !nth_tab by nia. reflexivity.
Qed.

Lemma bttb_fold_ok top sizes B :
  (forall n, In n sizes -> (0 < n)%nat) ->
  length top = (B * nprod sizes)%nat ->
  fold_left bttb_step (rev sizes) (map (fun t => [[t]]) top, 1%nat)
  = (tab B (fun b => mk (nprod sizes) (nprod sizes) (fun i j =>
       vget top (b * nprod sizes
                 + ravel_idx sizes (absdiffs (unravel sizes i) (unravel sizes j))))),
     nprod sizes).
Proof.
  revert B. induction sizes as [|n sizes IH]; intros B Hpos Hlen.
  - simpl in Hlen |- *. rewrite Nat.mul_1_r in Hlen. f_equal.
    rewrite (list_as_tab 0 top) at 1. rewrite map_tab, Hlen.
    apply tab_ext. intros b Hb. unfold mk, tab. simpl. rewrite Nat.mul_1_r, Nat.add_0_r. reflexivity.
  - assert (Hpos' : forall m, In m sizes -> (0 < m)%nat) by (intros; apply Hpos; simpl; auto).
    assert (Hn : (0 < n)%nat) by (apply Hpos; simpl; auto).
    assert (HN : (0 < nprod sizes)%nat) by now apply nprod_pos.
    simpl rev. rewrite fold_left_app. simpl nprod in Hlen.
    rewrite (IH (B * n)%nat) by (auto; lia).
    set (N := nprod sizes) in *. cbn [fold_left bttb_step].
    change (nprod (n :: sizes)) with (n * N)%nat.
    rewrite chunks_tab by auto. rewrite map_tab.
    f_equal; [|lia].
    apply tab_ext. intros b Hb.
    rewrite (toep_replicate_ok n N (fun i r c => vget top ((b * n + i) * N
        + ravel_idx sizes (absdiffs (unravel sizes r) (unravel sizes c))))%nat); auto.
    + apply mk_ext. intros r c Hr Hc. f_equal. simpl. fold N. lia.
    + intros i a c _ _. rewrite absdiffs_sym. reflexivity.
Qed.

Lemma bttb_as_numpy_ok top sizes :
  (forall n, In n sizes -> (0 < n)%nat) ->
  length top = nprod sizes ->
  bttb_as_numpy top sizes = mk (nprod sizes) (nprod sizes) (bttb_entry top sizes).
Proof.
  intros Hpos Hlen. unfold bttb_as_numpy.
  rewrite (bttb_fold_ok top sizes 1) by (auto; lia). reflexivity.
Qed.

Lemma la_toeplitz_ok top :
  la_toeplitz top = mk (length top) (length top) (toep_entry top).
Proof. reflexivity. Qed.
