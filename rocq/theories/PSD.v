(** Quadratic forms, positive semi-definite matrices, eigenpairs. *)

From Coq Require Import Reals List Arith Lia Lra.
From Verif Require Import Base.
Open Scope R_scope.

Definition bil (n : nat) (F : nat -> nat -> R) (x y : nat -> R) : R :=
  Rsum n (fun i => Rsum n (fun j => x i * F i j * y j)).
Definition qf (n : nat) (F : nat -> nat -> R) (x : nat -> R) : R := bil n F x x.
Definition nrm2 (n : nat) (x : nat -> R) : R := Rsum n (fun i => x i * x i).
Definition sym (n : nat) (F : nat -> nat -> R) : Prop :=
  forall i j, (i < n)%nat -> (j < n)%nat -> F i j = F j i.
Definition psd (n : nat) (F : nat -> nat -> R) : Prop := forall x, 0 <= qf n F x.

Definition id_f (i j : nat) : R := if Nat.eqb i j then 1 else 0.
Definition unitv (k i : nat) : R := if Nat.eqb i k then 1 else 0.
Definition kron_f (m : nat) (A B : nat -> nat -> R) (i j : nat) : R :=
  A (i / m)%nat (j / m)%nat * B (i mod m)%nat (j mod m)%nat.

(** ** Algebra *)

Lemma bil_ext n F G x x' y y' :
  (forall i j, (i < n)%nat -> (j < n)%nat -> F i j = G i j) ->
  (forall i, (i < n)%nat -> x i = x' i) -> (forall i, (i < n)%nat -> y i = y' i) ->
  bil n F x y = bil n G x' y'.
Proof.
  intros HF Hx Hy. apply Rsum_ext. intros i Hi. apply Rsum_ext. intros j Hj.
  now rewrite HF, Hx, Hy.
Qed.

Lemma qf_ext n F G x y :
  (forall i j, (i < n)%nat -> (j < n)%nat -> F i j = G i j) ->
  (forall i, (i < n)%nat -> x i = y i) -> qf n F x = qf n G y.
Proof. intros. apply bil_ext; auto. Qed.

Lemma psd_ext n F G :
  (forall i j, (i < n)%nat -> (j < n)%nat -> F i j = G i j) -> psd n F -> psd n G.
Proof. intros H HF x. rewrite <- (qf_ext n F G x x); auto. Qed.

Lemma bil_plus n F G x y : bil n (fun i j => F i j + G i j) x y = bil n F x y + bil n G x y.
Proof.
  unfold bil. rewrite <- Rsum_plus. apply Rsum_ext. intros i _. rewrite <- Rsum_plus.
  apply Rsum_ext. intros. ring.
Qed.

Lemma bil_scal n c F x y : bil n (fun i j => c * F i j) x y = c * bil n F x y.
Proof.
  unfold bil. rewrite <- Rsum_scal_l. apply Rsum_ext. intros i _. rewrite <- Rsum_scal_l.
  apply Rsum_ext. intros. ring.
Qed.

Lemma bil_minus n F G x y : bil n (fun i j => F i j - G i j) x y = bil n F x y - bil n G x y.
Proof.
  unfold bil. rewrite <- Rsum_minus. apply Rsum_ext. intros i _. rewrite <- Rsum_minus.
  apply Rsum_ext. intros. ring.
Qed.

Lemma bil_add_l n F x x' y : bil n F (fun i => x i + x' i) y = bil n F x y + bil n F x' y.
Proof.
  unfold bil. rewrite <- Rsum_plus. apply Rsum_ext. intros i _. rewrite <- Rsum_plus.
  apply Rsum_ext. intros. ring.
Qed.

Lemma bil_add_r n F x y y' : bil n F x (fun i => y i + y' i) = bil n F x y + bil n F x y'.
Proof.
  unfold bil. rewrite <- Rsum_plus. apply Rsum_ext. intros i _. rewrite <- Rsum_plus.
  apply Rsum_ext. intros. ring.
Qed.

Lemma bil_scal_l n F c x y : bil n F (fun i => c * x i) y = c * bil n F x y.
Proof.
  unfold bil. rewrite <- Rsum_scal_l. apply Rsum_ext. intros i _. rewrite <- Rsum_scal_l.
  apply Rsum_ext. intros. ring.
Qed.

Lemma bil_scal_r n F c x y : bil n F x (fun i => c * y i) = c * bil n F x y.
Proof.
  unfold bil. rewrite <- Rsum_scal_l. apply Rsum_ext. intros i _. rewrite <- Rsum_scal_l.
  apply Rsum_ext. intros. ring.
Qed.

Lemma bil_sym n F x y : sym n F -> bil n F x y = bil n F y x.
Proof.
  intros HF. unfold bil. rewrite Rsum_swap. apply Rsum_ext. intros i Hi.
  apply Rsum_ext. intros j Hj. rewrite (HF i j); auto. ring.
Qed.

Lemma qf_id n x : qf n id_f x = nrm2 n x.
Proof.
  unfold qf, bil, nrm2. apply Rsum_ext. intros i Hi.
  rewrite (Rsum_ext _ _ (fun j => if Nat.eqb i j then x i * x j else 0)).
  - now apply (Rsum_delta' n i (fun j => x i * x j)).
  - intros j Hj. unfold id_f. destruct (Nat.eqb i j); ring.
Qed.

Lemma bil_unit n F k y : (k < n)%nat -> bil n F (unitv k) y = Rsum n (fun j => F k j * y j).
Proof.
  intros Hk. unfold bil.
  rewrite (Rsum_ext _ _ (fun i => if Nat.eqb i k then Rsum n (fun j => F i j * y j) else 0)).
  - now apply (Rsum_delta n k (fun i => Rsum n (fun j => F i j * y j))).
  - intros i Hi. unfold unitv. destruct (Nat.eqb i k).
    + apply Rsum_ext. intros. ring.
    + apply Rsum_zero. intros. ring.
Qed.

Lemma sum_unit n (f : nat -> R) k : (k < n)%nat -> Rsum n (fun j => f j * unitv k j) = f k.
Proof.
  intros Hk. rewrite (Rsum_ext _ _ (fun j => if Nat.eqb j k then f j else 0)).
  - now apply Rsum_delta.
  - intros j Hj. unfold unitv. destruct (Nat.eqb j k); ring.
Qed.

Lemma qf_unit n F k : (k < n)%nat -> qf n F (unitv k) = F k k.
Proof. intros Hk. unfold qf. rewrite bil_unit by auto. now apply sum_unit. Qed.

Lemma psd_diag n F k : psd n F -> (k < n)%nat -> 0 <= F k k.
Proof. intros H Hk. rewrite <- (qf_unit n F k Hk). apply H. Qed.

Lemma nrm2_nonneg n x : 0 <= nrm2 n x.
Proof. apply Rsum_nonneg. intros. nra. Qed.

Lemma nrm2_pos n x k : (k < n)%nat -> x k <> 0 -> 0 < nrm2 n x.
Proof.
  intros Hk Hx. unfold nrm2.
  assert (H : x k * x k <= Rsum n (fun i => x i * x i)).
  { rewrite <- (Rsum_delta n k (fun i => x i * x i) Hk). apply Rsum_le. intros i Hi.
    destruct (Nat.eqb i k); nra. }
  assert (0 < x k * x k) by nra. lra.
Qed.

Lemma psd_plus n F G : psd n F -> psd n G -> psd n (fun i j => F i j + G i j).
Proof. intros HF HG x. unfold qf. rewrite bil_plus. specialize (HF x). specialize (HG x). unfold qf in *. lra. Qed.

Lemma psd_scal n c F : 0 <= c -> psd n F -> psd n (fun i j => c * F i j).
Proof. intros Hc HF x. unfold qf. rewrite bil_scal. apply Rmult_le_pos; auto. apply HF. Qed.

Lemma psd_zero n : psd n (fun _ _ => 0).
Proof. intros x. unfold qf, bil. rewrite Rsum_zero; [lra|]. intros. apply Rsum_zero. intros. ring. Qed.

Lemma psd_Rsum n k (F : nat -> nat -> nat -> R) :
  (forall l, (l < k)%nat -> psd n (F l)) -> psd n (fun i j => Rsum k (fun l => F l i j)).
Proof.
  induction k as [|k IH]; intros H; simpl; [apply psd_zero|]. apply psd_plus; auto.
Qed.

Lemma psd_id n : psd n id_f.
Proof. intros x. rewrite qf_id. apply nrm2_nonneg. Qed.

Lemma qf_diag n v x :
  qf n (fun i j => if Nat.eqb i j then v i else 0) x = Rsum n (fun i => v i * (x i * x i)).
Proof.
  unfold qf, bil. apply Rsum_ext. intros i Hi.
  rewrite (Rsum_ext _ _ (fun j => if Nat.eqb i j then x i * v i * x j else 0)).
  - rewrite (Rsum_delta' n i (fun j => x i * v i * x j)) by auto. ring.
  - intros j Hj. destruct (Nat.eqb i j); ring.
Qed.

Lemma psd_diag_f n v : (forall i, (i < n)%nat -> 0 <= v i) -> psd n (fun i j => if Nat.eqb i j then v i else 0).
Proof.
  intros Hv x. rewrite qf_diag. apply Rsum_nonneg. intros i Hi.
  apply Rmult_le_pos; [auto|nra].
Qed.

(** ** Gram factorisation *)

Lemma qf_S n F x :
  qf (S n) F x = F O O * (x O * x O)
                 + x O * Rsum n (fun j => (F O (S j) + F (S j) O) * x (S j))
                 + qf n (fun i j => F (S i) (S j)) (fun i => x (S i)).
Proof.
  unfold qf, bil. rewrite Rsum_S_l, Rsum_S_l.
  rewrite (Rsum_ext n (fun i => Rsum (S n) (fun j => x (S i) * F (S i) j * x j))
     (fun i => x (S i) * F (S i) O * x O + Rsum n (fun j => x (S i) * F (S i) (S j) * x (S j))))
    by (intros; now rewrite Rsum_S_l).
  rewrite Rsum_plus. rewrite <- Rsum_scal_l.
  rewrite (Rsum_ext n (fun i => x O * ((F O (S i) + F (S i) O) * x (S i)))
    (fun i => x O * F O (S i) * x (S i) + x (S i) * F (S i) O * x O)) by (intros; ring).
  rewrite Rsum_plus. ring.
Qed.

Lemma linear_nonneg_zero b d : (forall t, 0 <= t * b + d) -> b = 0.
Proof.
  intros H. destruct (Req_dec b 0) as [|Hb]; auto. exfalso.
  specialize (H (- (d + 1) / b)). replace (- (d + 1) / b * b) with (- (d + 1)) in H by (field; auto). lra.
Qed.

Lemma gram n F : sym n F -> psd n F ->
  exists L, forall i j, (i < n)%nat -> (j < n)%nat -> F i j = Rsum n (fun l => L i l * L j l).
Proof.
  revert F. induction n as [|n IH]; intros F Hs Hp.
  { exists (fun _ _ => 0). intros; lia. }
  set (a := F O O).
  assert (Ha : 0 <= a) by (apply (psd_diag (S n)); auto; lia).
  set (c := if Req_EM_T a 0 then 0 else / a).
  assert (Hc : 0 <= c).
  { unfold c. destruct (Req_EM_T a 0); [lra|]. left. apply Rinv_0_lt_compat. lra. }
  assert (H0 : a = 0 -> forall j, (j < n)%nat -> F O (S j) = 0).
  { intros Ea j Hj. apply (linear_nonneg_zero _ (F (S j) (S j) / 2)). intros t.
    specialize (Hp (fun i => match i with O => t | S i' => unitv j i' end)).
    rewrite qf_S in Hp. fold a in Hp. rewrite Ea in Hp.
    rewrite (sum_unit n (fun i => F O (S i) + F (S i) O) j Hj) in Hp.
    change (qf n (fun i j0 => F (S i) (S j0)) (fun i => unitv j i))
      with (qf n (fun i j0 => F (S i) (S j0)) (unitv j)) in Hp.
    rewrite qf_unit in Hp by auto.
    rewrite (Hs (S j) O) in Hp by lia. lra. }
  set (G := fun i j => F (S i) (S j) - c * (F (S i) O * F O (S j))).
  destruct (IH G) as [L HL].
  - intros i j Hi Hj. unfold G. rewrite (Hs (S i) (S j)), (Hs (S i) O), (Hs O (S j)) by lia. ring.
  - intros y. set (b := Rsum n (fun j => F O (S j) * y j)).
    assert (Hq : qf n G y = qf n (fun i j => F (S i) (S j)) y - c * (b * b)).
    { unfold G, qf. rewrite (bil_minus n (fun i j => F (S i) (S j))), bil_scal. f_equal. f_equal.
      unfold bil, b. rewrite <- Rsum_scal_r. apply Rsum_ext. intros i Hi.
      rewrite <- Rsum_scal_l. apply Rsum_ext. intros j Hj. rewrite (Hs (S i) O) by lia. ring. }
    rewrite Hq.
    specialize (Hp (fun i => match i with O => - c * b | S i' => y i' end)).
    rewrite qf_S in Hp. fold a in Hp.
    rewrite (Rsum_ext n _ (fun j => 2 * (F O (S j) * y j))) in Hp
      by (intros; rewrite (Hs (S i) O) by lia; ring).
    rewrite Rsum_scal_l in Hp. fold b in Hp.
    change (qf n (fun i j : nat => F (S i) (S j)) (fun i : nat => y i))
      with (qf n (fun i j : nat => F (S i) (S j)) y) in Hp.
    unfold c in *. destruct (Req_EM_T a 0) as [Ea|Ea].
    + lra.
    + replace (a * (- / a * b * (- / a * b)) + - / a * b * (2 * b))
        with (- (/ a * (b * b))) in Hp by (field; auto). lra.
  - exists (fun i l => match i, l with
                       | O, O => sqrt a
                       | O, S _ => 0
                       | S i', O => F (S i') O * sqrt c
                       | S i', S l' => L i' l'
                       end).
    assert (Hac : forall j, (j < n)%nat -> sqrt a * (F (S j) O * sqrt c) = F (S j) O).
    { intros j Hj. unfold c. destruct (Req_EM_T a 0) as [Ea|Ea].
      - rewrite (Hs (S j) O), (H0 Ea j Hj) by lia. ring.
      - transitivity (F (S j) O * (sqrt a * sqrt (/ a))); [ring|].
        rewrite <- sqrt_mult by (auto; left; apply Rinv_0_lt_compat; lra).
        rewrite Rinv_r by auto. rewrite sqrt_1. ring. }
    intros i j Hi Hj. rewrite Rsum_S_l.
    destruct i as [|i], j as [|j].
    + rewrite Rsum_zero by (intros; ring). rewrite sqrt_sqrt by auto. fold a. ring.
    + rewrite Rsum_zero by (intros; ring). rewrite Rplus_0_r, Hac by lia. apply Hs; lia.
    + rewrite Rsum_zero by (intros; ring). rewrite Rplus_0_r, (Rmult_comm _ (sqrt a)), Hac by lia. auto.
    + rewrite <- (HL i j) by lia. unfold G.
      replace (F (S i) O * sqrt c * (F (S j) O * sqrt c))
        with (sqrt c * sqrt c * (F (S i) O * F (S j) O)) by ring.
      rewrite sqrt_sqrt by auto. rewrite (Hs (S j) O) by lia. ring.
Qed.

Lemma gram_psd n k (L : nat -> nat -> R) : psd n (fun i j => Rsum k (fun l => L i l * L j l)).
Proof.
  apply (psd_Rsum n k (fun l i j => L i l * L j l)). intros l _ x. unfold qf, bil.
  rewrite (Rsum_ext n _ (fun i => x i * L i l * Rsum n (fun j => x j * L j l))).
  - rewrite Rsum_scal_r. nra.
  - intros i Hi. rewrite <- Rsum_scal_l. apply Rsum_ext. intros. ring.
Qed.

(** ** Kronecker and entrywise products *)

Lemma divmod_flat m i a : (a < m)%nat -> ((i * m + a) / m = i /\ (i * m + a) mod m = a)%nat.
Proof.
  intros Ha. split.
  - rewrite Nat.div_add_l, Nat.div_small by lia. lia.
  - rewrite Nat.add_comm, Nat.mod_add, Nat.mod_small by lia. lia.
Qed.

Lemma qf_kron n m A B x :
  qf (n * m) (kron_f m A B) x
  = Rsum n (fun i => Rsum n (fun j => A i j *
      bil m B (fun a => x (i * m + a)%nat) (fun b => x (j * m + b)%nat))).
Proof.
  unfold qf, bil at 1. rewrite Rsum_flatten. apply Rsum_ext. intros i Hi.
  rewrite (Rsum_ext m _ (fun a => Rsum n (fun j => Rsum m (fun b =>
     x (i * m + a)%nat * (A i j * B a b) * x (j * m + b)%nat)))).
  - rewrite Rsum_swap. apply Rsum_ext. intros j Hj. unfold bil. rewrite <- Rsum_scal_l.
    apply Rsum_ext. intros a Ha. rewrite <- Rsum_scal_l. apply Rsum_ext. intros. ring.
  - intros a Ha. rewrite Rsum_flatten. apply Rsum_ext. intros j Hj. apply Rsum_ext. intros b Hb.
    unfold kron_f. destruct (divmod_flat m i a Ha) as [-> ->]. destruct (divmod_flat m j b Hb) as [-> ->].
    reflexivity.
Qed.

Lemma bil_Rsum_l n k F (f : nat -> nat -> R) y :
  bil n F (fun i => Rsum k (fun l => f l i)) y = Rsum k (fun l => bil n F (f l) y).
Proof.
  induction k as [|k IH]; simpl.
  - unfold bil. apply Rsum_zero. intros. apply Rsum_zero. intros. ring.
  - rewrite <- IH. rewrite <- (bil_add_l n F (fun i => Rsum k (fun l => f l i)) (f k) y). reflexivity.
Qed.

Lemma bil_Rsum_r n k F (f : nat -> nat -> R) x :
  bil n F x (fun i => Rsum k (fun l => f l i)) = Rsum k (fun l => bil n F x (f l)).
Proof.
  induction k as [|k IH]; simpl.
  - unfold bil. apply Rsum_zero. intros. apply Rsum_zero. intros. ring.
  - rewrite <- IH. rewrite <- (bil_add_r n F x (fun i => Rsum k (fun l => f l i)) (f k)). reflexivity.
Qed.

Lemma psd_kron n m A B : sym n A -> psd n A -> psd m B -> psd (n * m) (kron_f m A B).
Proof.
  intros Hs HA HB x. destruct (gram n A Hs HA) as [L HL].
  rewrite qf_kron.
  rewrite (Rsum_ext n _ (fun i => Rsum n (fun l => Rsum n (fun j =>
     bil m B (fun a => L i l * x (i * m + a)%nat) (fun b => L j l * x (j * m + b)%nat))))).
  - rewrite Rsum_swap. apply Rsum_nonneg. intros l _.
    set (y := fun a => Rsum n (fun i => L i l * x (i * m + a)%nat)).
    replace (Rsum n _) with (qf m B y); [apply HB|].
    unfold qf, y. rewrite (bil_Rsum_l m n B (fun i a => L i l * x (i * m + a)%nat)).
    apply Rsum_ext. intros i Hi. now rewrite (bil_Rsum_r m n B (fun j b => L j l * x (j * m + b)%nat)).
  - intros i Hi. rewrite Rsum_swap. apply Rsum_ext. intros j Hj. rewrite HL by auto.
    rewrite <- Rsum_scal_r. apply Rsum_ext. intros l Hl.
    rewrite (bil_scal_l m B (L i l) (fun a => x (i * m + a)%nat)).
    rewrite (bil_scal_r m B (L j l)). ring.
Qed.

Lemma psd_hadamard n A B : sym n A -> psd n A -> psd n B -> psd n (fun i j => A i j * B i j).
Proof.
  intros Hs HA HB. destruct (gram n A Hs HA) as [L HL].
  apply (psd_ext n (fun i j => Rsum n (fun l => L i l * L j l * B i j))).
  - intros i j Hi Hj. rewrite HL by auto. now rewrite Rsum_scal_r.
  - apply (psd_Rsum n n (fun l i j => L i l * L j l * B i j)). intros l _ x.
    replace (qf n _ x) with (qf n B (fun i => L i l * x i)); [apply HB|].
    unfold qf, bil. apply Rsum_ext. intros. apply Rsum_ext. intros. ring.
Qed.

(** [x^T (W K W^T) x = (W^T x)^T K (W^T x)]. *)
Lemma psd_congruence n m K (W : nat -> nat -> R) :
  psd m K -> psd n (fun i j => Rsum m (fun k => W i k * Rsum m (fun l => K k l * W j l))).
Proof.
  intros HK x.
  replace (qf n _ x) with (qf m K (fun k => Rsum n (fun i => W i k * x i))); [apply HK|].
  unfold qf. rewrite (bil_Rsum_l m n K (fun i k => W i k * x i)).
  unfold bil at 2. apply Rsum_ext. intros i Hi.
  rewrite (bil_Rsum_r m n K (fun j k => W j k * x j)). apply Rsum_ext. intros j Hj.
  unfold bil. rewrite <- Rsum_scal_l, <- Rsum_scal_r. apply Rsum_ext. intros k Hk.
  rewrite <- Rsum_scal_l, <- Rsum_scal_l, <- Rsum_scal_r. apply Rsum_ext. intros. ring.
Qed.

(** ** Eigenvalues *)

Definition eigpair (n : nat) (F : nat -> nat -> R) (lam : R) (v : nat -> R) : Prop :=
  (exists i, (i < n)%nat /\ v i <> 0) /\
  forall i, (i < n)%nat -> Rsum n (fun j => F i j * v j) = lam * v i.

(** [F <= b I] and [- b I <= F] as quadratic forms. *)
Definition below (n : nat) (F : nat -> nat -> R) (b : R) : Prop := forall x, qf n F x <= b * nrm2 n x.
Definition above (n : nat) (F : nat -> nat -> R) (b : R) : Prop := forall x, - (b * nrm2 n x) <= qf n F x.

Lemma eig_qf n F lam v : eigpair n F lam v -> qf n F v = lam * nrm2 n v.
Proof.
  intros [_ H]. unfold qf, bil, nrm2. rewrite <- Rsum_scal_l. apply Rsum_ext. intros i Hi.
  rewrite (Rsum_ext n _ (fun j => v i * (F i j * v j))) by (intros; ring).
  rewrite Rsum_scal_l, H by auto. ring.
Qed.

Lemma below_eig n F b lam v : below n F b -> eigpair n F lam v -> lam <= b.
Proof.
  intros HB He. specialize (HB v). rewrite (eig_qf _ _ _ _ He) in HB.
  destruct He as [[i [Hi Hv]] _]. pose proof (nrm2_pos n v i Hi Hv).
  apply Rmult_le_reg_r with (nrm2 n v); auto.
Qed.

Lemma above_eig n F b lam v : above n F b -> eigpair n F lam v -> - b <= lam.
Proof.
  intros HB He. specialize (HB v). rewrite (eig_qf _ _ _ _ He) in HB.
  destruct He as [[i [Hi Hv]] _]. pose proof (nrm2_pos n v i Hi Hv).
  apply Rmult_le_reg_r with (nrm2 n v); auto. lra.
Qed.

Lemma below_psd n F b : below n F b <-> psd n (fun i j => b * id_f i j - F i j).
Proof.
  assert (E : forall x, qf n (fun i j => b * id_f i j - F i j) x = b * nrm2 n x - qf n F x).
  { intros x. unfold qf. rewrite bil_minus, bil_scal. fold (qf n id_f x). now rewrite qf_id. }
  split; intros H x; specialize (H x); rewrite E in *; lra.
Qed.

Lemma above_psd n F b : above n F b <-> psd n (fun i j => b * id_f i j + F i j).
Proof.
  assert (E : forall x, qf n (fun i j => b * id_f i j + F i j) x = b * nrm2 n x + qf n F x).
  { intros x. unfold qf. rewrite bil_plus, bil_scal. fold (qf n id_f x). now rewrite qf_id. }
  split; intros H x; specialize (H x); rewrite E in *; lra.
Qed.

Lemma below_ext n F G b : (forall i j, (i < n)%nat -> (j < n)%nat -> F i j = G i j) -> below n F b -> below n G b.
Proof. intros H HF x. rewrite <- (qf_ext n F G x x); auto. Qed.
Lemma above_ext n F G b : (forall i j, (i < n)%nat -> (j < n)%nat -> F i j = G i j) -> above n F b -> above n G b.
Proof. intros H HF x. rewrite <- (qf_ext n F G x x); auto. Qed.

Lemma kron_id n m i j : (i < n * m)%nat -> (j < n * m)%nat -> kron_f m id_f id_f i j = id_f i j.
Proof.
  intros Hi Hj. unfold kron_f, id_f. assert (Hm : m <> 0%nat) by nia.
  destruct (Nat.eqb_spec i j) as [->|Hne].
  - now rewrite !Nat.eqb_refl, Rmult_1_r.
  - destruct (Nat.eqb_spec (i / m) (j / m)) as [E1|]; [|ring].
    destruct (Nat.eqb_spec (i mod m) (j mod m)) as [E2|]; [|ring].
    exfalso. apply Hne. rewrite (Nat.div_mod i m Hm), (Nat.div_mod j m Hm). congruence.
Qed.

Lemma sym_id n c F : sym n F -> sym n (fun i j => c * id_f i j - F i j).
Proof.
  intros H i j Hi Hj. rewrite (H i j) by auto. unfold id_f. rewrite (Nat.eqb_sym i j). ring.
Qed.
Lemma sym_id' n c F : sym n F -> sym n (fun i j => c * id_f i j + F i j).
Proof.
  intros H i j Hi Hj. rewrite (H i j) by auto. unfold id_f. rewrite (Nat.eqb_sym i j). ring.
Qed.
Lemma sym_idf n : sym n id_f.
Proof. intros i j _ _. unfold id_f. now rewrite Nat.eqb_sym. Qed.

Lemma sym_kron n m A B : (0 < m)%nat -> sym n A -> sym m B -> sym (n * m) (kron_f m A B).
Proof.
  intros Hm HA HB i j Hi Hj. unfold kron_f.
  rewrite (HA (i / m)%nat), (HB (i mod m)%nat); auto; try (apply Nat.mod_upper_bound; lia);
    apply Nat.div_lt_upper_bound; lia.
Qed.

(** Products of two-sided bounds. *)
Lemma below_kron_two_sided n m A B a b :
  sym n A -> below n A a -> above n A a -> below m B b -> above m B b ->
  below (n * m) (kron_f m A B) (a * b).
Proof.
  intros HsA HA HA' HB HB'. apply below_psd.
  apply below_psd in HA. apply below_psd in HB. apply above_psd in HA'. apply above_psd in HB'.
  pose proof (psd_kron n m _ _ (sym_id n a A HsA) HA HB') as H1.
  pose proof (psd_kron n m _ _ (sym_id' n a A HsA) HA' HB) as H2.
  pose proof (psd_scal _ (/2) _ ltac:(lra) (psd_plus _ _ _ H1 H2)) as H.
  eapply psd_ext; [|exact H]. cbv beta. intros i j Hi Hj.
  rewrite <- (kron_id n m i j Hi Hj). unfold kron_f. field.
Qed.

Lemma above_kron_two_sided n m A B a b :
  sym n A -> below n A a -> above n A a -> below m B b -> above m B b ->
  above (n * m) (kron_f m A B) (a * b).
Proof.
  intros HsA HA HA' HB HB'. apply above_psd.
  apply below_psd in HA. apply below_psd in HB. apply above_psd in HA'. apply above_psd in HB'.
  pose proof (psd_kron n m _ _ (sym_id n a A HsA) HA HB) as H1.
  pose proof (psd_kron n m _ _ (sym_id' n a A HsA) HA' HB') as H2.
  pose proof (psd_scal _ (/2) _ ltac:(lra) (psd_plus _ _ _ H1 H2)) as H.
  eapply psd_ext; [|exact H]. cbv beta. intros i j Hi Hj.
  rewrite <- (kron_id n m i j Hi Hj). unfold kron_f. field.
Qed.

(** Products of upper bounds of PSD matrices. *)
Lemma below_kron_psd n m A B a b :
  (0 < m)%nat -> sym n A -> psd n A -> psd m B -> below n A a -> below m B b ->
  below (n * m) (kron_f m A B) (a * b).
Proof.
  intros Hm HsA HpA HpB HA HB. apply below_psd.
  assert (Hb : 0 <= b).
  { specialize (HB (unitv 0)). rewrite qf_unit in HB by auto.
    pose proof (psd_diag m B 0 HpB Hm).
    pose proof (nrm2_pos m (unitv 0) 0 Hm). unfold unitv in H0 at 1. simpl in H0.
    specialize (H0 ltac:(lra)). nra. }
  apply below_psd in HA. apply below_psd in HB.
  pose proof (psd_kron n m _ _ (sym_id n a A HsA) HA (psd_scal m b id_f Hb (psd_id m))) as H1.
  pose proof (psd_kron n m _ _ HsA HpA HB) as H2.
  pose proof (psd_plus _ _ _ H1 H2) as H.
  eapply psd_ext; [|exact H]. cbv beta. intros i j Hi Hj.
  rewrite <- (kron_id n m i j Hi Hj). unfold kron_f. ring.
Qed.

Lemma below_plus n F G a b : below n F a -> below n G b -> below n (fun i j => F i j + G i j) (a + b).
Proof. intros HF HG x. unfold qf. rewrite bil_plus. specialize (HF x). specialize (HG x). unfold qf in *. lra. Qed.
Lemma above_plus n F G a b : above n F a -> above n G b -> above n (fun i j => F i j + G i j) (a + b).
Proof. intros HF HG x. unfold qf. rewrite bil_plus. specialize (HF x). specialize (HG x). unfold qf in *. lra. Qed.

(** Bilinear bound from the two-sided quadratic bound. *)
Lemma bil_bound n F b x y :
  sym n F -> below n F b -> above n F b ->
  Rabs (bil n F x y) <= b * (nrm2 n x + nrm2 n y) / 2.
Proof.
  intros Hs HB HA.
  assert (Hq : forall s, qf n F (fun i => x i + s * y i) = qf n F x + 2 * s * bil n F x y + s * s * qf n F y).
  { intros s. unfold qf. rewrite bil_add_l, !bil_add_r, !bil_scal_l, !bil_scal_r.
    rewrite (bil_sym n F y x Hs). ring. }
  assert (Hn : forall s, nrm2 n (fun i => x i + s * y i)
      = nrm2 n x + 2 * s * Rsum n (fun i => x i * y i) + s * s * nrm2 n y).
  { intros s. unfold nrm2. rewrite <- !Rsum_scal_l, <- !Rsum_plus. apply Rsum_ext. intros. ring. }
  pose proof (HB (fun i => x i + 1 * y i)) as H1. pose proof (HA (fun i => x i + 1 * y i)) as H2.
  pose proof (HB (fun i => x i + (-1) * y i)) as H3. pose proof (HA (fun i => x i + (-1) * y i)) as H4.
  rewrite !Hq, !Hn in *. apply Rabs_le. split; lra.
Qed.

(** Gershgorin for quadratic forms of symmetric matrices. *)
Lemma gershgorin n F b :
  sym n F -> (forall i, (i < n)%nat -> Rsum n (fun j => Rabs (F i j)) <= b) ->
  below n F b /\ above n F b.
Proof.
  intros Hs Hb.
  assert (H : forall x, Rabs (qf n F x) <= b * nrm2 n x).
  { intros x. unfold qf, bil. eapply Rle_trans; [apply Rsum_abs|].
    eapply Rle_trans.
    - apply Rsum_le. intros i Hi. eapply Rle_trans; [apply Rsum_abs|].
      apply (Rsum_le n _ (fun j => Rabs (F i j) * (x i * x i) / 2 + Rabs (F i j) * (x j * x j) / 2)).
      intros j Hj. rewrite !Rabs_mult.
      assert (Rabs (x i) * Rabs (x j) <= (x i * x i + x j * x j) / 2).
      { rewrite <- (Rabs_pos_eq (x i * x i)), <- (Rabs_pos_eq (x j * x j)) by nra. rewrite !Rabs_mult.
        pose proof (Rle_0_sqr (Rabs (x i) - Rabs (x j))). unfold Rsqr in *. lra. }
      pose proof (Rabs_pos (F i j)). nra.
    - rewrite (Rsum_ext n _ (fun i => Rsum n (fun j => Rabs (F i j)) * (x i * x i) / 2
         + Rsum n (fun j => Rabs (F i j) * (x j * x j) / 2))).
      + rewrite Rsum_plus, (Rsum_swap n n (fun i j => Rabs (F i j) * (x j * x j) / 2)).
        rewrite <- Rsum_plus. unfold nrm2. rewrite <- Rsum_scal_l. apply Rsum_le. intros i Hi.
        rewrite (Rsum_ext n (fun i0 => Rabs (F i0 i) * (x i * x i) / 2)
                   (fun i0 => Rabs (F i i0) * (x i * x i / 2))).
        * rewrite Rsum_scal_r. specialize (Hb i Hi). nra.
        * intros k Hk. rewrite (Hs k i) by auto. field.
      + intros i Hi. rewrite Rsum_plus. f_equal. unfold Rdiv. rewrite Rsum_scal_r. f_equal.
        apply Rsum_scal_r. }
  split; intros x; specialize (H x).
  - apply Rle_trans with (2 := H). apply Rle_abs.
  - pose proof (Rle_abs (- qf n F x)). rewrite Rabs_Ropp in *. lra.
Qed.

(** A symmetric grid of symmetric blocks with two-sided bounds. *)
Lemma qf_blocks D m (G : nat -> nat -> nat -> nat -> R) x :
  qf (D * m) (fun i j => G (i / m)%nat (j / m)%nat (i mod m)%nat (j mod m)%nat) x
  = Rsum D (fun i => Rsum D (fun j =>
      bil m (G i j) (fun a => x (i * m + a)%nat) (fun b => x (j * m + b)%nat))).
Proof.
  unfold qf, bil at 1. rewrite Rsum_flatten. apply Rsum_ext. intros i Hi.
  rewrite (Rsum_ext m _ (fun a => Rsum D (fun j => Rsum m (fun b =>
     x (i * m + a)%nat * G i j a b * x (j * m + b)%nat)))).
  - rewrite Rsum_swap. reflexivity.
  - intros a Ha. rewrite Rsum_flatten. apply Rsum_ext. intros j Hj. apply Rsum_ext. intros b Hb.
    destruct (divmod_flat m i a Ha) as [-> ->]. destruct (divmod_flat m j b Hb) as [-> ->].
    reflexivity.
Qed.

Lemma nrm2_flat D m x : nrm2 (D * m) x = Rsum D (fun i => nrm2 m (fun a => x (i * m + a)%nat)).
Proof. unfold nrm2. apply Rsum_flatten. Qed.

Lemma blocks_bound D m (G : nat -> nat -> nat -> nat -> R) (b : nat -> nat -> R) M :
  (forall i j, (i < D)%nat -> (j < D)%nat -> sym m (G i j)) ->
  (forall i j, (i < D)%nat -> (j < D)%nat -> below m (G i j) (b i j) /\ above m (G i j) (b i j)) ->
  (forall i j, (i < D)%nat -> (j < D)%nat -> b i j = b j i) ->
  (forall j, (j < D)%nat -> Rsum D (fun i => Rabs (b i j)) <= M) ->
  let F := fun i j => G (i / m)%nat (j / m)%nat (i mod m)%nat (j mod m)%nat in
  below (D * m) F M /\ above (D * m) F M.
Proof.
  intros Hs Hb Hbs HM F.
  assert (H : forall x, Rabs (qf (D * m) F x) <= M * nrm2 (D * m) x).
  { intros x. unfold F. rewrite qf_blocks, nrm2_flat.
    set (N := fun i => nrm2 m (fun a => x (i * m + a)%nat)).
    assert (HN : forall i, 0 <= N i) by (intros; apply nrm2_nonneg).
    eapply Rle_trans; [apply Rsum_abs|].
    eapply Rle_trans.
    - apply Rsum_le. intros i Hi. eapply Rle_trans; [apply Rsum_abs|].
      apply (Rsum_le D _ (fun j => Rabs (b i j) * (N i / 2) + Rabs (b i j) * (N j / 2))).
      intros j Hj. destruct (Hb i j Hi Hj) as [H1 H2].
      eapply Rle_trans; [apply (bil_bound m (G i j) (b i j)); auto|]. fold (N i) (N j).
      pose proof (Rle_abs (b i j)). pose proof (HN i). pose proof (HN j). nra.
    - rewrite (Rsum_ext D _ (fun i => Rsum D (fun j => Rabs (b i j)) * (N i / 2)
         + Rsum D (fun j => Rabs (b i j) * (N j / 2)))).
      + rewrite Rsum_plus, (Rsum_swap D D (fun i j => Rabs (b i j) * (N j / 2))).
        rewrite <- Rsum_plus. rewrite <- Rsum_scal_l. apply Rsum_le. intros i Hi.
        rewrite (Rsum_scal_r D (N i / 2)).
        rewrite (Rsum_ext D (fun j => Rabs (b i j)) (fun j => Rabs (b j i)))
          by (intros j Hj; now rewrite (Hbs i j)).
        specialize (HM i Hi). specialize (HN i). fold (N i). nra.
      + intros i Hi. rewrite Rsum_plus. f_equal. apply Rsum_scal_r. }
  split; intros x; specialize (H x).
  - apply Rle_trans with (2 := H). apply Rle_abs.
  - pose proof (Rle_abs (- qf (D * m) F x)). rewrite Rabs_Ropp in *. lra.
Qed.

Lemma sym_blocks D m (G : nat -> nat -> nat -> nat -> R) :
  (forall i j, (i < D)%nat -> (j < D)%nat -> sym m (G i j)) ->
  (forall i j a b, (i < D)%nat -> (j < D)%nat -> G i j a b = G j i a b) ->
  sym (D * m) (fun i j => G (i / m)%nat (j / m)%nat (i mod m)%nat (j mod m)%nat).
Proof.
  intros Hs Hg i j Hi Hj. assert (m <> 0%nat) by nia.
  assert (i / m < D)%nat by (apply Nat.div_lt_upper_bound; lia).
  assert (j / m < D)%nat by (apply Nat.div_lt_upper_bound; lia).
  rewrite (Hs (i / m) (j / m))%nat by (auto; apply Nat.mod_upper_bound; auto). apply Hg; auto.
Qed.
