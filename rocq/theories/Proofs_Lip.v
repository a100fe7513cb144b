(** Lipschitz functions of points: interpolation weights, kernels. *)

From Coq Require Import Reals List Arith ZArith Lia Lra.
From Coquelicot Require Import Coquelicot.
From Verif Require Import Base NDArray PSD Model_Util Proofs_Util Model_Linalg Model_Interp Spec_Interp Proofs_Interp Proofs_Interp2 Model_Kern Spec_Kern Model_FK Spec_FK
  Model_Grid Spec_Grid Spec_Lik Spec_GP Spec_Pred Proofs_Gen Spec_Lip.
Import ListNotations.
Open Scope R_scope.

(** ** Bounded and Lipschitz functions *)

Section Closure.
Variable P : nat.
Let pt := nat -> R.

Definition bnd (F : pt -> R) : Prop := exists B, 0 <= B /\ forall x, Rabs (F x) <= B.
Definition lip (F : pt -> R) : Prop := exists L, 0 <= L /\ forall x y, Rabs (F x - F y) <= L * apart P x y.

Lemma apart_nonneg x y : 0 <= apart P x y.
Proof. apply Rsum_nonneg. intros p Hp. apply Rabs_pos. Qed.

Lemma apart_coord p x y : (p < P)%nat -> Rabs (x p - y p) <= apart P x y.
Proof.
  intros Hp. unfold apart. rewrite <- (Rsum_delta P p (fun i => Rabs (x i - y i))) by exact Hp. apply Rsum_le. intros i Hi.
  destruct (Nat.eqb i p); [lra|apply Rabs_pos].
Qed.

Lemma bnd_const c : bnd (fun _ => c).
Proof. exists (Rabs c). split; [apply Rabs_pos|]. intros; lra. Qed.
Lemma lip_const c : lip (fun _ => c).
Proof. exists 0. split; [lra|]. intros. rewrite Rminus_diag_eq, Rabs_R0 by reflexivity. lra. Qed.

Lemma bnd_plus F G : bnd F -> bnd G -> bnd (fun x => F x + G x).
Proof.
  intros [B [HB H]] [C [HC H']]. exists (B + C). split; [lra|]. intros x. eapply Rle_trans; [apply Rabs_triang|]. specialize (H x). specialize (H' x). lra.
Qed.
Lemma lip_plus F G : lip F -> lip G -> lip (fun x => F x + G x).
Proof.
  intros [B [HB H]] [C [HC H']]. exists (B + C). split; [lra|]. intros x y. replace (F x + G x - (F y + G y)) with ((F x - F y) + (G x - G y)) by ring.
  eapply Rle_trans; [apply Rabs_triang|]. specialize (H x y). specialize (H' x y). lra.
Qed.
Lemma lip_opp F : lip F -> lip (fun x => - F x).
Proof. intros [B [HB H]]. exists B. split; [exact HB|]. intros x y. replace (- F x - - F y) with (- (F x - F y)) by ring. rewrite Rabs_Ropp. apply H. Qed.

Lemma bnd_mult F G : bnd F -> bnd G -> bnd (fun x => F x * G x).
Proof.
  intros [B [HB H]] [C [HC H']]. exists (B * C). split; [now apply Rmult_le_pos|]. intros x. rewrite Rabs_mult. apply Rmult_le_compat; try apply Rabs_pos; auto.
Qed.
Lemma lip_mult F G : lip F -> bnd F -> lip G -> bnd G -> lip (fun x => F x * G x).
Proof.
  intros [L [HL H]] [B [HB HF]] [M [HM H']] [C [HC HG]]. exists (L * C + B * M). split; [apply Rplus_le_le_0_compat; now apply Rmult_le_pos|]. intros x y.
  replace (F x * G x - F y * G y) with ((F x - F y) * G x + F y * (G x - G y)) by ring.
  eapply Rle_trans; [apply Rabs_triang|]. rewrite !Rabs_mult. pose proof (apart_nonneg x y) as HA.
  assert (Rabs (F x - F y) * Rabs (G x) <= L * apart P x y * C) by (apply Rmult_le_compat; try apply Rabs_pos; auto).
  assert (Rabs (F y) * Rabs (G x - G y) <= B * (M * apart P x y)) by (apply Rmult_le_compat; try apply Rabs_pos; auto).
  lra.
Qed.
Lemma lip_scal_r F c : lip F -> lip (fun x => F x * c).
Proof.
  intros [L [HL H]]. exists (L * Rabs c). split; [apply Rmult_le_pos; [exact HL|apply Rabs_pos]|]. intros x y. rewrite <- Rmult_minus_distr_r, Rabs_mult.
  replace (L * Rabs c * apart P x y) with (L * apart P x y * Rabs c) by ring. apply Rmult_le_compat_r; [apply Rabs_pos|apply H].
Qed.
Lemma lip_scal_l F c : lip F -> lip (fun x => c * F x).
Proof. intros H. destruct (lip_scal_r F c H) as [L [HL H']]. exists L. split; [exact HL|]. intros x y. rewrite !(Rmult_comm c). apply H'. Qed.
Lemma bnd_scal_l F c : bnd F -> bnd (fun x => c * F x).
Proof. intros H. apply bnd_mult; [apply bnd_const|exact H]. Qed.

Lemma lip_sum n (F : nat -> pt -> R) : (forall i, (i < n)%nat -> lip (F i)) -> lip (fun x => Rsum n (fun i => F i x)).
Proof.
  induction n as [|n IH]; intros H; [apply (lip_const 0)|]. cbn [Rsum]. apply lip_plus; [apply IH; intros; apply H; lia|apply H; lia].
Qed.
Lemma bnd_sum n (F : nat -> pt -> R) : (forall i, (i < n)%nat -> bnd (F i)) -> bnd (fun x => Rsum n (fun i => F i x)).
Proof.
  induction n as [|n IH]; intros H; [apply (bnd_const 0)|]. cbn [Rsum]. apply bnd_plus; [apply IH; intros; apply H; lia|apply H; lia].
Qed.
Lemma lip_lsum {A} (l : list A) (F : A -> pt -> R) : (forall i, In i l -> lip (F i)) -> lip (fun x => lsum (map (fun i => F i x) l)).
Proof.
  induction l as [|a l IH]; intros H; [apply (lip_const 0)|]. cbn [map]. unfold lsum. cbn [fold_right]. apply (lip_plus (F a) (fun x => lsum (map (fun i => F i x) l))); [apply H; now left|apply IH; intros; apply H; now right].
Qed.
Lemma lip_ext F G : (forall x, F x = G x) -> lip F -> lip G.
Proof. intros E [L [HL H]]. exists L. split; [exact HL|]. intros x y. rewrite <- !E. apply H. Qed.
End Closure.

(** ** Weights of one axis *)

Lemma keys_lip r s : Rabs (keys_cubic r - keys_cubic s) <= 2 * Rabs (r - s).
Proof.
  assert (H : forall r s, 0 <= r -> r <= s -> Rabs (keys_cubic r - keys_cubic s) <= 2 * (s - r)).
  { clear r s. set (p := fun r => 3 / 2 * r ^ 3 - 5 / 2 * r ^ 2 + 1). set (q := fun r => - (1 / 2) * r ^ 3 + 5 / 2 * r ^ 2 - 4 * r + 2).
    assert (KP : forall r, 0 <= r <= 1 -> keys_cubic r = p r).
    { intros r Hr. unfold keys_cubic. rewrite Rabs_pos_eq by lra. destruct (Rle_dec r 1); [reflexivity|lra]. }
    assert (KQ : forall r, 1 <= r <= 2 -> keys_cubic r = q r).
    { intros r Hr. unfold keys_cubic. rewrite Rabs_pos_eq by lra. destruct (Rle_dec r 1); [|destruct (Rle_dec r 2); [reflexivity|lra]]. replace r with 1 by lra. unfold q. lra. }
    assert (KZ : forall r, 2 <= r -> keys_cubic r = 0).
    { intros r Hr. unfold keys_cubic. rewrite Rabs_pos_eq by lra. destruct (Rle_dec r 1); [lra|]. destruct (Rle_dec r 2); [|reflexivity]. replace r with 2 by lra. lra. }
    assert (LP : forall r s, 0 <= r -> r <= s -> s <= 1 -> Rabs (keys_cubic r - keys_cubic s) <= 2 * (s - r)).
    { intros r s H0 H1 H2. rewrite !KP by lra. unfold p.
      replace (3 / 2 * r ^ 3 - 5 / 2 * r ^ 2 + 1 - (3 / 2 * s ^ 3 - 5 / 2 * s ^ 2 + 1)) with ((5 / 2 * (r + s) - 3 / 2 * (r ^ 2 + r * s + s ^ 2)) * (s - r)) by ring.
      rewrite Rabs_mult, (Rabs_pos_eq (s - r)) by lra. apply Rmult_le_compat_r; [lra|]. apply Rabs_le. nra. }
    assert (LQ : forall r s, 1 <= r -> r <= s -> s <= 2 -> Rabs (keys_cubic r - keys_cubic s) <= 2 * (s - r)).
    { intros r s H0 H1 H2. rewrite !KQ by lra. unfold q.
      replace (- (1 / 2) * r ^ 3 + 5 / 2 * r ^ 2 - 4 * r + 2 - (- (1 / 2) * s ^ 3 + 5 / 2 * s ^ 2 - 4 * s + 2)) with ((4 - 5 / 2 * (r + s) + 1 / 2 * (r ^ 2 + r * s + s ^ 2)) * (s - r)) by ring.
      rewrite Rabs_mult, (Rabs_pos_eq (s - r)) by lra. apply Rmult_le_compat_r; [lra|]. apply Rabs_le. nra. }
    assert (LZ : forall r s, 2 <= r -> r <= s -> Rabs (keys_cubic r - keys_cubic s) <= 2 * (s - r)).
    { intros r s H0 H1. rewrite !KZ by lra. rewrite Rminus_diag_eq, Rabs_R0 by reflexivity. lra. }
    assert (T : forall a b c, Rabs (keys_cubic a - keys_cubic b) <= 2 * (b - a) -> Rabs (keys_cubic b - keys_cubic c) <= 2 * (c - b) -> Rabs (keys_cubic a - keys_cubic c) <= 2 * (c - a)).
    { intros a b c Ha Hb. replace (keys_cubic a - keys_cubic c) with ((keys_cubic a - keys_cubic b) + (keys_cubic b - keys_cubic c)) by ring.
      eapply Rle_trans; [apply Rabs_triang|]. lra. }
    assert (L1 : forall r s, 1 <= r -> r <= s -> Rabs (keys_cubic r - keys_cubic s) <= 2 * (s - r)).
    { intros r s H0 H1. destruct (Rle_dec s 2); [now apply LQ|]. destruct (Rle_dec 2 r); [now apply LZ|]. apply (T r 2 s); [apply LQ|apply LZ]; lra. }
    intros r s H0 H1. destruct (Rle_dec s 1); [now apply LP|]. destruct (Rle_dec 1 r); [now apply L1|]. apply (T r 1 s); [apply LP|apply L1]; lra. }
  assert (E : forall r, keys_cubic (Rabs r) = keys_cubic r) by (intros; unfold keys_cubic; now rewrite Rabs_Rabsolu).
  rewrite <- (E r), <- (E s). pose proof (Rabs_triang_inv2 r s) as HT.
  destruct (Rle_dec (Rabs r) (Rabs s)) as [Hrs|Hrs].
  - eapply Rle_trans; [apply H; [apply Rabs_pos|exact Hrs]|]. rewrite Rabs_left1 in HT by lra. lra.
  - rewrite Rabs_minus_sym. eapply Rle_trans; [apply H; [apply Rabs_pos|lra]|]. rewrite Rabs_pos_eq in HT by lra. lra.
Qed.

Lemma keys_far s : 2 <= Rabs s -> keys_cubic s = 0.
Proof. intros H. unfold keys_cubic. destruct (Rle_dec (Rabs s) 1); [lra|]. destruct (Rle_dec (Rabs s) 2); [|reflexivity]. replace (Rabs s) with 2 by lra. lra. Qed.

Lemma wgt_keys t conv : 0 <= t < 1 -> In conv conv_window -> wgt t conv = keys_cubic (t + IZR conv).
Proof.
  intros Ht Hc. unfold wgt, cubic_val, keys_cubic, Rleb. assert (Rabs (t + IZR conv) <= 2) by (apply Rabs_le; destruct Hc as [<-|[<-|[<-|[<-|[]]]]]; lra).
  destruct (Rle_dec (Rabs (t + IZR conv)) 1); [ring|]. destruct (Rle_dec (Rabs (t + IZR conv)) 2); [ring|lra].
Qed.

(** The sum over grid indices from [k - 1] to [k + 3]. *)
Definition five (size j : nat) (k : Z) (f : R) : R :=
  lsum (map (fun i => if Nat.eqb (clamp_idx size (k + i)) j then keys_cubic (f - IZR (k + i)) else 0) [-1; 0; 1; 2; 3]%Z).

Lemma five_cell t x j f : f = (x - snd (fst t)) / snd t -> forall k, (np_floor f = k \/ np_floor f = (k + 1)%Z) -> w1 t x j = five (fst (fst t)) j k f.
Proof.
  intros Ef k Hk. unfold w1, five. rewrite <- Ef. pose proof (floor_bounds f) as [B1 B2].
  assert (W : forall c, In c conv_window -> wgt (f - IZR (np_floor f)) c = keys_cubic (f - IZR (np_floor f) + IZR c)) by (intros c Hc; apply wgt_keys; [lra|exact Hc]).
  unfold conv_window in *. cbn [map]. unfold lsum. cbn [fold_right]. rewrite !W by (cbn; tauto).
  destruct Hk as [Hk|Hk]; rewrite Hk in *.
  - rewrite (keys_far (f - IZR (k + 3))) by (rewrite plus_IZR; rewrite Rabs_left1; lra).
    replace (k - -2)%Z with (k + 2)%Z by lia. replace (k - -1)%Z with (k + 1)%Z by lia. replace (k - 0)%Z with (k + 0)%Z by lia. replace (k - 1)%Z with (k + -1)%Z by lia.
    rewrite !plus_IZR. replace (f - (IZR k + 2)) with (f - IZR k + -2) by ring. replace (f - (IZR k + 1)) with (f - IZR k + -1) by ring.
    replace (f - (IZR k + 0)) with (f - IZR k + 0) by ring. replace (f - (IZR k + -1)) with (f - IZR k + 1) by ring.
    destruct (Nat.eqb (clamp_idx (fst (fst t)) (k + 3)) j); ring.
  - rewrite plus_IZR in *. rewrite (keys_far (f - IZR (k + -1))) by (rewrite plus_IZR; rewrite Rabs_pos_eq; lra).
    replace (k + 1 - -2)%Z with (k + 3)%Z by lia. replace (k + 1 - -1)%Z with (k + 2)%Z by lia. replace (k + 1 - 0)%Z with (k + 1)%Z by lia. replace (k + 1 - 1)%Z with (k + 0)%Z by lia.
    rewrite !plus_IZR. replace (f - (IZR k + 3)) with (f - (IZR k + 1) + -2) by ring. replace (f - (IZR k + 2)) with (f - (IZR k + 1) + -1) by ring.
    replace (f - (IZR k + 0)) with (f - (IZR k + 1) + 1) by ring. replace (f - (IZR k + 1) + 0) with (f - (IZR k + 1)) by ring.
    destruct (Nat.eqb (clamp_idx (fst (fst t)) (k + -1)) j); ring.
Qed.

Lemma five_lip size j k f g : Rabs (five size j k f - five size j k g) <= 10 * Rabs (f - g).
Proof.
  assert (H : forall z, Rabs ((if Nat.eqb (clamp_idx size z) j then keys_cubic (f - IZR z) else 0) - (if Nat.eqb (clamp_idx size z) j then keys_cubic (g - IZR z) else 0)) <= 2 * Rabs (f - g)).
  { intros z. destruct (Nat.eqb (clamp_idx size z) j).
    - eapply Rle_trans; [apply keys_lip|]. replace (f - IZR z - (g - IZR z)) with (f - g) by ring. lra.
    - rewrite Rminus_diag_eq, Rabs_R0 by reflexivity. pose proof (Rabs_pos (f - g)). lra. }
  unfold five. rewrite lsum_minus. eapply Rle_trans; [apply lsum_abs_le|].
  eapply Rle_trans; [apply lsum_le; intros i _; apply (H (k + i)%Z)|]. cbn [map]. unfold lsum. cbn [fold_right]. lra.
Qed.

Lemma keys_bound s : Rabs (keys_cubic s) <= 1.
Proof.
  unfold keys_cubic. pose proof (Rabs_pos s). set (r := Rabs s) in *. destruct (Rle_dec r 1); [apply Rabs_le; split; nra|]. destruct (Rle_dec r 2); [|rewrite Rabs_R0; lra].
  apply Rabs_le. replace (- (1 / 2) * r ^ 3 + 5 / 2 * r ^ 2 - 4 * r + 2) with (- (1 / 2) * ((r - 1) * ((2 - r) * (2 - r)))) by field.
  assert (0 <= (r - 1) * ((2 - r) * (2 - r)) <= 1); [|lra]. split; [apply Rmult_le_pos; [lra|apply Rle_0_sqr]|].
  assert ((2 - r) * (2 - r) <= 1) by nra. nra.
Qed.

Lemma w1_bound t x j : Rabs (w1 t x j) <= 5.
Proof.
  rewrite (five_cell t x j _ eq_refl _ (or_introl eq_refl)). unfold five. eapply Rle_trans; [apply lsum_abs_le|].
  eapply Rle_trans; [apply (lsum_le _ (fun _ => 1))|cbn [map]; unfold lsum; cbn [fold_right]; lra]. intros i _.
  destruct (Nat.eqb _ j); [apply keys_bound|rewrite Rabs_R0; lra].
Qed.

Lemma w1_lip t x y j : 0 < snd t -> Rabs (w1 t x j - w1 t y j) <= 10 / snd t * Rabs (x - y).
Proof.
  intros Hh. set (f := (x - snd (fst t)) / snd t). set (g := (y - snd (fst t)) / snd t).
  assert (E : 10 / snd t * Rabs (x - y) = 10 * Rabs (f - g)).
  { unfold f, g. replace ((x - snd (fst t)) / snd t - (y - snd (fst t)) / snd t) with ((x - y) * / snd t) by (field; lra).
    rewrite Rabs_mult, (Rabs_pos_eq (/ snd t)) by (apply Rlt_le, Rinv_0_lt_compat, Hh). unfold Rdiv. ring. }
  rewrite E. pose proof (floor_bounds f) as Bf. pose proof (floor_bounds g) as Bg.
  assert (FA : forall a b : R, IZR (np_floor a) <= a < IZR (np_floor a) + 1 -> IZR (np_floor b) <= b < IZR (np_floor b) + 1 -> a <= b -> b - a <= 1 -> np_floor b = np_floor a \/ np_floor b = (np_floor a + 1)%Z).
  { intros a b Ba Bb H1 H2. assert (np_floor a < np_floor b + 1)%Z by (apply lt_IZR; rewrite plus_IZR; lra).
    assert (np_floor b < np_floor a + 2)%Z by (apply lt_IZR; rewrite plus_IZR; lra). lia. }
  destruct (Rle_dec (Rabs (f - g)) 1) as [H1|H1].
  - destruct (Rle_dec f g) as [Hfg|Hfg].
    + rewrite Rabs_left1 in H1 by lra. rewrite (five_cell t x j f eq_refl (np_floor f) (or_introl eq_refl)).
      rewrite (five_cell t y j g eq_refl (np_floor f)) by (apply FA; try assumption; lra). apply five_lip.
    + rewrite Rabs_pos_eq in H1 by lra. rewrite (five_cell t y j g eq_refl (np_floor g) (or_introl eq_refl)).
      rewrite (five_cell t x j f eq_refl (np_floor g)) by (apply FA; try assumption; lra). apply five_lip.
  - pose proof (w1_bound t x j) as H2. pose proof (w1_bound t y j) as H3.
    replace (w1 t x j - w1 t y j) with (w1 t x j + - w1 t y j) by ring. eapply Rle_trans; [apply Rabs_triang|]. rewrite Rabs_Ropp. lra.
Qed.

Lemma wN_lip P ad l u : (length l = 1 \/ length l = 2)%nat -> length ad = length l -> List.Forall axis_ok l -> (forall p, In p ad -> (p < P)%nat) ->
  lip P (fun x => wN l (fun k => x (nth k ad 0%nat)) u) /\ bnd (fun x => wN l (fun k => x (nth k ad 0%nat)) u).
Proof.
  intros Hl La Hok Had.
  assert (A : forall t p, axis_ok t -> (p < length ad)%nat -> forall j, lip P (fun x : nat -> R => w1 t (x (nth p ad 0%nat)) j) /\ bnd (fun x : nat -> R => w1 t (x (nth p ad 0%nat)) j)).
  { intros t p [_ Ht] Hp j. split.
    - exists (10 / snd t). split; [apply Rlt_le, Rdiv_lt_0_compat; lra|]. intros x y. eapply Rle_trans; [apply w1_lip, Ht|].
      apply Rmult_le_compat_l; [apply Rlt_le, Rdiv_lt_0_compat; lra|]. apply apart_coord, Had, nth_In, Hp.
    - exists 5. split; [lra|]. intros x. apply w1_bound. }
  destruct l as [|t [|t' [|]]]; cbn in Hl; try lia; cbn [wN].
  - apply Forall_inv in Hok. apply A; [exact Hok|cbn in La; lia].
  - pose proof (Forall_inv Hok) as H1. pose proof (Forall_inv (Forall_inv_tail Hok)) as H2. cbn in La.
    destruct (A t 0%nat H1 ltac:(lia) (u / fst (fst t'))%nat) as [L1 B1]. destruct (A t' 1%nat H2 ltac:(lia) (u mod fst (fst t'))%nat) as [L2 B2].
    split; [now apply lip_mult|now apply bnd_mult].
Qed.

(** ** Kernels *)

Lemma mvt_lip (F dF : R -> R) L : (forall r, is_derive F r (dF r)) -> (forall r, 0 <= r -> Rabs (dF r) <= L) ->
  forall r s, 0 <= r -> 0 <= s -> Rabs (F r - F s) <= L * Rabs (r - s).
Proof.
  intros HD HB r s Hr Hs. destruct (MVT_gen F s r dF) as [c [Hc E]].
  - intros x _. apply HD.
  - intros x _. apply continuity_pt_filterlim. apply (ex_derive_continuous F). now exists (dF x).
  - rewrite E, Rabs_mult. apply Rmult_le_compat_r; [apply Rabs_pos|]. apply HB. unfold Rmin in Hc. destruct (Rle_dec s r); lra.
Qed.

Lemma exp_neg_le u : 0 <= u -> exp (- u) * (1 + u) <= 1.
Proof.
  intros Hu. pose proof (exp_ineq1_le u) as H. pose proof (exp_pos (- u)) as Hp.
  assert (E : exp (- u) * exp u = 1) by (rewrite <- exp_plus; replace (- u + u) with 0 by ring; apply exp_0).
  apply Rle_trans with (exp (- u) * exp u); [apply Rmult_le_compat_l; [lra|exact H]|lra].
Qed.
Lemma exp_neg_1 u : 0 <= u -> exp (- u) <= 1.
Proof. intros Hu. rewrite <- exp_0. destruct Hu as [Hu|<-]; [left; apply exp_increasing; lra|right; f_equal; ring]. Qed.

Lemma k_lip k : identity_based k = false -> positive k -> exists L B, 0 <= L /\ 0 <= B /\
  (forall r s, 0 <= r -> 0 <= s -> Rabs (k_doc k r - k_doc k s) <= L * Rabs (r - s)) /\ (forall r, 0 <= r -> Rabs (k_doc k r) <= B).
Proof.
  induction k as [g|g|g T| |k IH s]; intros Hid Hp.
  - assert (Hg : 0 < g) by (apply Hp; left; reflexivity).
    exists (1 + g), 1. split; [lra|]. split; [lra|]. split.
    + apply (mvt_lip _ (fun r => (- g * r) * exp (- g * r ^ 2 / 2))).
      * intros r. unfold k_doc. auto_derive; [exact I|]. match goal with |- ?l = _ => match l with context [exp ?a] => replace a with (- g * r ^ 2 / 2) by (simpl; field) end end. field.
      * intros r Hr. rewrite Rabs_mult, (Rabs_pos_eq (exp _)) by apply Rlt_le, exp_pos.
        replace (- g * r) with (- (g * r)) by ring. rewrite Rabs_Ropp, (Rabs_pos_eq (g * r)) by (apply Rmult_le_pos; lra).
        assert (Hu : 0 <= g * r ^ 2 / 2) by (apply Rmult_le_pos; [apply Rmult_le_pos; [lra|apply pow2_ge_0]|lra]).
        replace (- g * r ^ 2 / 2) with (- (g * r ^ 2 / 2)) by field. pose proof (exp_neg_le _ Hu) as H1. pose proof (exp_pos (- (g * r ^ 2 / 2))) as H2.
        assert (H3 : g * r <= (1 + g) * (1 + g * r ^ 2 / 2)).
        { destruct (Rle_dec r 1); [|]. - assert (g * r <= g) by (rewrite <- (Rmult_1_r g) at 2; apply Rmult_le_compat_l; lra). nra.
          - assert (r <= r ^ 2) by nra. assert (g * r <= g * r ^ 2) by (apply Rmult_le_compat_l; lra).
            assert (0 <= g * r ^ 2) by lra. assert (Q : 2 * (g * r) <= 1 + g * (g * r ^ 2)); [|nra]. pose proof (Rle_0_sqr (g * r - 1)) as Q. unfold Rsqr in Q. nra. }
        apply Rle_trans with ((1 + g) * (1 + g * r ^ 2 / 2) * exp (- (g * r ^ 2 / 2))); [apply Rmult_le_compat_r; lra|]. 
        replace ((1 + g) * (1 + g * r ^ 2 / 2) * exp (- (g * r ^ 2 / 2))) with ((1 + g) * (exp (- (g * r ^ 2 / 2)) * (1 + g * r ^ 2 / 2))) by ring.
        rewrite <- (Rmult_1_r (1 + g)) at 2. apply Rmult_le_compat_l; lra.
    + intros r Hr. unfold k_doc. rewrite Rabs_pos_eq by apply Rlt_le, exp_pos. replace (- g * r ^ 2 / 2) with (- (g * r ^ 2 / 2)) by field. apply exp_neg_1.
      apply Rmult_le_pos; [apply Rmult_le_pos; [lra|apply pow2_ge_0]|lra].
  - assert (Hg : 0 < g) by (apply Hp; left; reflexivity). set (c := g * sqrt 3). assert (Hc : 0 < c) by (apply Rmult_lt_0_compat; [exact Hg|apply sqrt_lt_R0; lra]).
    exists c, 1. split; [lra|]. split; [lra|].
    assert (E : forall r, k_doc (Matern32 g) r = (1 + c * r) * exp (- (c * r))) by (intros r; unfold k_doc, c; f_equal; [ring|f_equal; ring]).
    split.
    + intros r s Hr Hs. rewrite !E. revert r s Hr Hs. apply (mvt_lip _ (fun r => - c * (c * r) * exp (- (c * r)))).
      * intros r. auto_derive; [exact I|]. ring.
      * intros r Hr. assert (Hu : 0 <= c * r) by (apply Rmult_le_pos; lra). pose proof (exp_neg_le _ Hu) as H1. pose proof (exp_pos (- (c * r))) as H2.
        rewrite Rabs_mult, (Rabs_pos_eq (exp _)) by lra. replace (- c * (c * r)) with (- (c * (c * r))) by ring. rewrite Rabs_Ropp, Rabs_pos_eq by (apply Rmult_le_pos; lra).
        replace (c * (c * r) * exp (- (c * r))) with (c * (exp (- (c * r)) * (c * r))) by ring. apply Rle_trans with (c * 1); [apply Rmult_le_compat_l; lra|lra].
    + intros r Hr. rewrite E. assert (Hu : 0 <= c * r) by (apply Rmult_le_pos; lra). pose proof (exp_neg_le _ Hu). rewrite Rabs_pos_eq by (apply Rmult_le_pos; [lra|apply Rlt_le, exp_pos]). lra.
  - assert (Hg : 0 < g) by (apply Hp; left; reflexivity). assert (HT : 0 < T) by (apply Hp; right; left; reflexivity).
    assert (HL : 0 <= g * (PI / T)) by (apply Rmult_le_pos; [lra|]; apply Rlt_le, Rdiv_lt_0_compat; [apply PI_RGT_0|exact HT]).
    assert (HE : forall r, 0 <= g / 2 * sin (PI * r / T) ^ 2) by (intros r; apply Rmult_le_pos; [lra|apply pow2_ge_0]).
    exists (g * (PI / T)), 1. split; [exact HL|]. split; [lra|]. split.
    + apply (mvt_lip _ (fun r => (- g * (sin (PI * r / T) * cos (PI * r / T)) * (PI / T)) * exp (- g / 2 * sin (PI * r / T) ^ 2))).
      * intros r. unfold k_doc. auto_derive; [lra|].
        repeat match goal with |- context [sin ?a] => lazymatch a with PI * r / T => fail | _ => replace a with (PI * r / T) by (unfold Rdiv; ring) end end.
        repeat match goal with |- context [cos ?a] => lazymatch a with PI * r / T => fail | _ => replace a with (PI * r / T) by (unfold Rdiv; ring) end end.
        match goal with |- ?l = _ => match l with context [exp ?a] => replace a with (- g / 2 * sin (PI * r / T) ^ 2) by (simpl; field; lra) end end. simpl. field. lra.
      * intros r Hr. rewrite Rabs_mult, (Rabs_pos_eq (exp _)) by apply Rlt_le, exp_pos.
        replace (- g / 2 * sin (PI * r / T) ^ 2) with (- (g / 2 * sin (PI * r / T) ^ 2)) by field. pose proof (exp_neg_1 _ (HE r)) as H1. pose proof (exp_pos (- (g / 2 * sin (PI * r / T) ^ 2))) as H2.
        assert (H3 : Rabs (- g * (sin (PI * r / T) * cos (PI * r / T)) * (PI / T)) <= g * (PI / T)).
        { replace (- g * (sin (PI * r / T) * cos (PI * r / T)) * (PI / T)) with (- (g * (PI / T)) * (sin (PI * r / T) * cos (PI * r / T))) by ring.
          rewrite Rabs_mult, Rabs_Ropp, (Rabs_pos_eq (g * (PI / T))) by exact HL. rewrite <- (Rmult_1_r (g * (PI / T))) at 2. apply Rmult_le_compat_l; [exact HL|].
          rewrite Rabs_mult. pose proof (SIN_bound (PI * r / T)). pose proof (COS_bound (PI * r / T)).
          assert (Rabs (sin (PI * r / T)) <= 1) by (apply Rabs_le; lra). assert (Rabs (cos (PI * r / T)) <= 1) by (apply Rabs_le; lra).
          rewrite <- (Rmult_1_r 1). apply Rmult_le_compat; try apply Rabs_pos; assumption. }
        rewrite <- (Rmult_1_r (g * (PI / T))). apply Rmult_le_compat; try assumption; [apply Rabs_pos|lra].
    + intros r Hr. unfold k_doc. rewrite Rabs_pos_eq by apply Rlt_le, exp_pos. replace (- g / 2 * sin (PI * r / T) ^ 2) with (- (g / 2 * sin (PI * r / T) ^ 2)) by field. apply exp_neg_1, HE.
  - discriminate Hid.
  - destruct IH as [L [B (HL & HB & H1 & H2)]]; [exact Hid|intros v Hv; apply Hp; cbn; apply in_or_app; now left|].
    exists (Rabs s * L), (Rabs s * B). split; [apply Rmult_le_pos; [apply Rabs_pos|exact HL]|]. split; [apply Rmult_le_pos; [apply Rabs_pos|exact HB]|]. cbn [k_doc]. split.
    + intros r t Hr Ht. rewrite <- Rmult_minus_distr_l, Rabs_mult, Rmult_assoc. apply Rmult_le_compat_l; [apply Rabs_pos|now apply H1].
    + intros r Hr. rewrite Rabs_mult. apply Rmult_le_compat_l; [apply Rabs_pos|now apply H2].
Qed.

(** ** Distances *)

Lemma sqrt2_lip a b A B : 0 <= A -> 0 <= B -> Rabs (sqrt (a ^ 2 + A) - sqrt (b ^ 2 + B)) <= Rabs (a - b) + Rabs (sqrt A - sqrt B).
Proof.
  intros HA HB.
  assert (H : forall a b A B, 0 <= A -> 0 <= B -> sqrt (a ^ 2 + A) <= sqrt (b ^ 2 + B) + (Rabs (a - b) + Rabs (sqrt A - sqrt B))).
  { clear. intros a b A B HA HB. set (u := Rabs (a - b)). set (v := Rabs (sqrt A - sqrt B)). assert (Hu : 0 <= u) by apply Rabs_pos. assert (Hv : 0 <= v) by apply Rabs_pos.
    set (S := sqrt (b ^ 2 + B)). assert (HS : 0 <= S) by apply sqrt_pos.
    assert (ES : S * S = b ^ 2 + B) by (apply sqrt_sqrt; pose proof (pow2_ge_0 b); lra).
    assert (EA : sqrt A * sqrt A = A) by now apply sqrt_sqrt. assert (EB : sqrt B * sqrt B = B) by now apply sqrt_sqrt. pose proof (sqrt_pos A). pose proof (sqrt_pos B).
    assert (HbS : Rabs b <= S).
    { rewrite <- (sqrt_Rsqr_abs b). unfold S. apply sqrt_le_1_alt. unfold Rsqr. lra. }
    assert (HBS : sqrt B <= S) by (unfold S; apply sqrt_le_1_alt; pose proof (pow2_ge_0 b); lra).
    assert (Ha : Rabs a <= Rabs b + u) by (unfold u; replace a with (b + (a - b)) at 1 by ring; apply Rabs_triang).
    assert (HsA : sqrt A <= sqrt B + v) by (unfold v; pose proof (Rle_abs (sqrt A - sqrt B)); lra).
    assert (HA2 : A <= (sqrt B + v) * (sqrt B + v)) by (rewrite <- EA; apply Rmult_le_compat; lra).
    assert (Ha2 : a ^ 2 <= (Rabs b + u) * (Rabs b + u)).
    { rewrite <- (pow2_abs a). pose proof (Rabs_pos a). pose proof (Rabs_pos b). replace (Rabs a ^ 2) with (Rabs a * Rabs a) by ring. apply Rmult_le_compat; lra. }
    rewrite <- (sqrt_Rsqr (S + (u + v))) by lra. apply sqrt_le_1_alt. unfold Rsqr. pose proof (pow2_abs b) as Eb. pose proof (Rabs_pos b).
    assert (Rabs b * u <= S * u) by (apply Rmult_le_compat_r; lra). assert (sqrt B * v <= S * v) by (apply Rmult_le_compat_r; lra). assert (0 <= u * v) by now apply Rmult_le_pos. nra. }
  pose proof (H a b A B HA HB) as H1. pose proof (H b a B A HB HA) as H2. rewrite (Rabs_minus_sym b a), (Rabs_minus_sym (sqrt B)) in H2. apply Rabs_le. lra.
Qed.

Lemma dist_lip P ad z : (forall p, In p ad -> (p < P)%nat) -> lip P (fun x => dist_on ad x z).
Proof.
  intros Had. exists (INR (length ad)). split; [apply pos_INR|]. intros x y. induction ad as [|p ad IH].
  - unfold dist_on. cbn. rewrite Rminus_diag_eq, Rabs_R0 by reflexivity. lra.
  - assert (E : forall w, dist_on (p :: ad) w z = sqrt ((w p - z p) ^ 2 + lsum (map (fun p => (w p - z p) ^ 2) ad))) by reflexivity.
    rewrite !E. assert (N : forall w : nat -> R, 0 <= lsum (map (fun p => (w p - z p) ^ 2) ad)).
    { intros w. clear. induction ad as [|p ad IH]; [apply Rle_refl|]. cbn [map]. unfold lsum in *. cbn [fold_right]. pose proof (pow2_ge_0 (w p - z p)). lra. }
    eapply Rle_trans; [apply sqrt2_lip; apply N|]. cbn [length]. rewrite S_INR. replace (x p - z p - (y p - z p)) with (x p - y p) by ring.
    assert (IH' := IH (fun p0 H => Had p0 (or_intror H))). unfold dist_on in IH'. pose proof (apart_coord P p x y (Had p (or_introl eq_refl))). lra.
Qed.

Lemma kern_lip P k ad z : identity_based k = false -> positive k -> (forall p, In p ad -> (p < P)%nat) ->
  lip P (fun x => k_doc k (dist_on ad x z)) /\ bnd (fun x => k_doc k (dist_on ad x z)).
Proof.
  intros Hid Hp Had. destruct (k_lip k Hid Hp) as [L [B (HL & HB & H1 & H2)]]. destruct (dist_lip P ad z Had) as [M [HM H3]]. split.
  - exists (L * M). split; [now apply Rmult_le_pos|]. intros x y. eapply Rle_trans; [apply H1; apply sqrt_pos|]. rewrite Rmult_assoc. apply Rmult_le_compat_l; [exact HL|apply H3].
  - exists B. split; [exact HB|]. intros x. apply H2, sqrt_pos.
Qed.
