(** Means over random signs. *)

From Coq Require Import Reals List Arith Lia Lra ZArith.
From Verif Require Import Base NDArray PSD Det Proofs_Shur Proofs_Det Model_Util Proofs_Util Model_Linalg Spec_Linalg Proofs_Linalg
  Model_Interp Model_Kern Spec_Kern Proofs_Kern Model_FK Spec_FK Proofs_FK Model_Grid Spec_Grid Proofs_Grid Proofs_Grid2
  Model_Lik Spec_Lik Proofs_Lik Proofs_Lik2.
Import ListNotations.
Open Scope R_scope.

Definition signs (r : list bool) : vec := map (fun b : bool => (if b then 1 else 0) * 2 - 1) r.

Lemma signs_length r : length (signs r) = length r.
Proof. apply map_length. Qed.

Lemma all_bits_in n : forall r, In r (all_bits n) <-> length r = n.
Proof.
  induction n as [|n IH]; intros r; cbn [all_bits].
  - split; [intros [<-|[]]; reflexivity|]. destruct r; [now left|discriminate].
  - rewrite in_app_iff, !in_map_iff. split.
    + intros [[x [<- H]]|[x [<- H]]]; apply IH in H; cbn; now rewrite H.
    + destruct r as [|b r]; [discriminate|]. cbn. intros H. apply Nat.succ_inj in H.
      destruct b; [left|right]; exists r; (split; [reflexivity|now apply IH]).
Qed.

Lemma NoDup_map_cons {A} (x : A) l : NoDup l -> NoDup (map (cons x) l).
Proof. intros H. apply FinFun.Injective_map_NoDup; [|exact H]. intros a b E. now injection E. Qed.

Lemma NoDup_app_disj {A} (a b : list A) : NoDup a -> NoDup b -> (forall x, In x a -> ~ In x b) -> NoDup (a ++ b).
Proof.
  induction a as [|x a IH]; cbn; intros Ha Hb H; [exact Hb|]. inversion Ha; subst. constructor.
  - rewrite in_app_iff. intros [C|C]; [contradiction|]. apply (H x); auto.
  - apply IH; auto.
Qed.

Lemma all_bits_nodup n : NoDup (all_bits n).
Proof.
  induction n as [|n IH]; cbn [all_bits]; [repeat constructor; auto|].
  apply NoDup_app_disj; try (now apply NoDup_map_cons).
  intros x H1 H2. apply in_map_iff in H1, H2. destruct H1 as [a [<- _]], H2 as [b [E _]]. discriminate E.
Qed.

Lemma all_bits_length n : length (all_bits n) = (2 ^ n)%nat.
Proof. induction n as [|n IH]; [reflexivity|]. cbn [all_bits]. rewrite app_length, !map_length, IH. cbn. lia. Qed.

Lemma draws_in k n : forall bits, In bits (draws k n) <-> length bits = k /\ forall r, In r bits -> length r = n.
Proof.
  induction k as [|k IH]; intros bits; cbn [draws].
  - split; [intros [<-|[]]; split; [reflexivity|intros r []]|]. intros [H _]. destruct bits; [now left|discriminate].
  - rewrite in_flat_map. split.
    + intros [r [Hr H]]. apply in_map_iff in H. destruct H as [d [<- Hd]]. apply IH in Hd. destruct Hd as [L H].
      split; [cbn; now rewrite L|]. intros r' [<-|Hr']; [now apply all_bits_in|now apply H].
    + intros [L H]. destruct bits as [|r bits]; [discriminate|]. exists r. split; [apply all_bits_in, H; now left|].
      apply in_map. apply IH. cbn in L. split; [now apply Nat.succ_inj|]. intros; apply H; now right.
Qed.

Lemma NoDup_flat_cons {A} (d : list (list A)) l : NoDup l -> NoDup d -> NoDup (flat_map (fun r => map (cons r) d) l).
Proof.
  induction l as [|x l IH]; cbn; intros Hl Hd; [constructor|]. inversion Hl; subst.
  apply NoDup_app_disj; [now apply NoDup_map_cons|now apply IH|].
  intros y Hy Hf. apply in_map_iff in Hy. destruct Hy as [a [<- _]]. apply in_flat_map in Hf. destruct Hf as [z [Hz Hf]].
  apply in_map_iff in Hf. destruct Hf as [b [E _]]. injection E as -> _. contradiction.
Qed.

Lemma draws_nodup k n : NoDup (draws k n).
Proof.
  induction k as [|k IH]; cbn [draws]; [repeat constructor; auto|]. apply NoDup_flat_cons; [apply all_bits_nodup|exact IH].
Qed.

Lemma flat_cons_length {A} (d : list (list A)) l : length (flat_map (fun r => map (cons r) d) l) = (length l * length d)%nat.
Proof. induction l as [|x l IH]; [reflexivity|]. cbn [flat_map length]. rewrite app_length, map_length, IH. lia. Qed.

Lemma draws_length k n : length (draws k n) = (2 ^ (k * n))%nat.
Proof.
  induction k as [|k IH]; [reflexivity|]. cbn [draws]. rewrite flat_cons_length, IH, all_bits_length.
  rewrite <- Nat.pow_add_r. reflexivity.
Qed.

Lemma bits_quad n : forall a b : nat -> R,
  lsum (map (fun r => Rsum n (fun j => a j * vget (signs r) j) * Rsum n (fun j => b j * vget (signs r) j)) (all_bits n))
  = INR (length (all_bits n)) * Rsum n (fun j => a j * b j).
Proof.
  induction n as [|n IH]; intros a b; [cbn; ring|].
  cbn [all_bits]. rewrite map_app, lsum_app, !map_map, app_length, !map_length, plus_INR.
  rewrite <- lsum_map_plus.
  rewrite (lsum_map_ext _ (fun r => 2 * (a O * b O) + 2 * (Rsum n (fun j => a (S j) * vget (signs r) j) * Rsum n (fun j => b (S j) * vget (signs r) j)))).
  - rewrite lsum_map_plus.
    rewrite (lsum_map_scal 2 (fun r => Rsum n (fun j => a (S j) * vget (signs r) j) * Rsum n (fun j => b (S j) * vget (signs r) j))).
    rewrite (IH (fun j => a (S j)) (fun j => b (S j))), Rsum_S_l.
    rewrite (lsum_map_ext (fun _ : list bool => 2 * (a O * b O)) (fun _ => (2 * (a O * b O)) * 1)) by (intros; ring). rewrite lsum_map_scal.
    rewrite <- (Rsum_lsum [] (fun _ => 1)), Rsum_const. ring.
  - intros r _. rewrite !Rsum_S_l.
    change (fun i : nat => a (S i) * vget (signs (true :: r)) (S i)) with (fun i : nat => a (S i) * vget (signs r) i).
    change (fun i : nat => b (S i) * vget (signs (true :: r)) (S i)) with (fun i : nat => b (S i) * vget (signs r) i).
    change (fun i : nat => a (S i) * vget (signs (false :: r)) (S i)) with (fun i : nat => a (S i) * vget (signs r) i).
    change (fun i : nat => b (S i) * vget (signs (false :: r)) (S i)) with (fun i : nat => b (S i) * vget (signs r) i).
    change (vget (signs (true :: r)) 0) with (1 * 2 - 1). change (vget (signs (false :: r)) 0) with (0 * 2 - 1). ring.
Qed.

Lemma draws_sum n (g : list bool -> R) m : lsum (map g (all_bits n)) = INR (length (all_bits n)) * m ->
  forall k, lsum (map (fun bits => lsum (map g bits)) (draws k n)) = INR k * (INR (length (draws k n)) * m).
Proof.
  intros Hg. induction k as [|k IH]; [cbn; ring|].
  cbn [draws]. rewrite lsum_flat_map, flat_cons_length, mult_INR, S_INR.
  rewrite (lsum_map_ext _ (fun r => INR (length (draws k n)) * g r + INR k * (INR (length (draws k n)) * m) * 1)).
  - rewrite lsum_map_plus, !lsum_map_scal, Hg. rewrite <- (Rsum_lsum [] (fun _ => 1) (all_bits n)), Rsum_const. ring.
  - intros r _. rewrite map_map. cbn [map].
    rewrite (lsum_map_ext _ (fun d => g r * 1 + lsum (map g d))) by (intros; unfold lsum; cbn [fold_right]; ring).
    rewrite lsum_map_plus, lsum_map_scal, IH. rewrite <- (Rsum_lsum [] (fun _ => 1) (draws k n)), Rsum_const. ring.
Qed.

Lemma inv_solution n K X x b : sym n K -> is_inv n K X -> (forall i, (i < n)%nat -> Rsum n (fun j => K i j * vget x j) = vget b i) ->
  forall i, (i < n)%nat -> vget x i = Rsum n (fun j => X i j * vget b j).
Proof.
  intros Hs Hi Hx i Hin. pose proof (inv_sym n K X Hs Hi) as HsX.
  transitivity (Rsum n (fun j => X i j * Rsum n (fun k => K j k * vget x k))).
  - rewrite (Rsum_ext n _ (fun j => Rsum n (fun k => X i j * K j k * vget x k))).
    + rewrite Rsum_swap. rewrite (Rsum_ext n _ (fun k => if Nat.eqb k i then vget x k else 0)).
      * symmetry. now apply Rsum_delta.
      * intros k Hk. rewrite Rsum_scal_r. rewrite (Rsum_ext n _ (fun j => K k j * X j i)).
        { rewrite (Hi k i Hk Hin). unfold id_f. destruct (Nat.eqb k i); ring. }
        intros j Hj. rewrite (HsX i j Hin Hj), (Hs j k Hj Hk). ring.
    + intros j Hj. rewrite <- Rsum_scal_l. apply Rsum_ext. intros; ring.
  - apply Rsum_ext. intros j Hj. now rewrite Hx.
Qed.

Section Unbiased.
Variables (n k : nat) (K X F : nat -> nat -> R) (Ko dK : Mat) (solve : Mat -> vec -> result vec) (y : vec) (a : nat -> R).
Hypothesis Hk : (0 < k)%nat.
Hypothesis Hsym : sym n K.
Hypothesis Hinv : is_inv n K X.
Hypothesis HdK : represents dK (mk_den n n F).
Hypothesis Hsolve : solves_exactly n K (solve Ko).
Hypothesis Hy : length y = n.
Hypothesis Ha : forall i, (i < n)%nat -> Rsum n (fun j => K i j * a j) = vget y i.

Definition trace_term (r : list bool) : R :=
  Rsum n (fun i => Rsum n (fun j => X i j * vget (signs r) j) * Rsum n (fun j => F i j * vget (signs r) j)).

Definition quad_term : R := Rsum n (fun i => Rsum n (fun j => a i * F i j * a j)).

Lemma generate_ok bits : In bits (draws k n) ->
  exists s, sd_generate solve bits k Ko y = Ok s /\
    sd_d_logdet s dK = Ok (lsum (map trace_term bits) / INR k) /\ sd_d_quadratic s dK = quad_term.
Proof.
  intros Hb. apply draws_in in Hb. destruct Hb as [Lb Hb]. unfold sd_generate. cbn [map_result].
  destruct (Hsolve y Hy) as [xy [Ey [Ly Hxy]]]. rewrite Ey. cbn [bind].
  change (map (map (fun b : bool => (if b then 1 else 0) * 2 - 1)) bits) with (map signs bits).
  assert (HS : exists inv, map_result (solve Ko) (map signs bits) = Ok inv /\
     lsum (map (fun p => np_vdot (snd p) (matvec dK (fst p))) (combine (map signs bits) inv)) = lsum (map trace_term bits)).
  { clear Lb. induction bits as [|r bits IH]; [exists []; split; reflexivity|].
    destruct IH as [inv [Ei Hi]]; [intros; apply Hb; now right|]. cbn [map map_result].
    assert (Lr : length (signs r) = n) by (rewrite signs_length; apply Hb; now left).
    destruct (Hsolve (signs r) Lr) as [x [Ex [Lx Hx]]]. rewrite Ex. cbn [bind]. rewrite Ei. cbn [bind].
    exists (x :: inv). split; [reflexivity|]. cbn [combine map lsum fold_right]. unfold lsum in *. cbn [fold_right fst snd]. rewrite Hi. f_equal.
    rewrite (rep_mv _ _ HdK) by exact Lr. unfold trace_term, np_vdot. rewrite Lx. apply Rsum_ext. intros i Hi'.
    unfold d_apply, mat_apply. cbn [d_r d_c d_f]. rewrite vget_tab by exact Hi'. f_equal. now apply (inv_solution n K X). }
  destruct HS as [inv [Ei Hi]]. rewrite Ei. cbn [bind]. eexists. split; [reflexivity|].
  unfold sd_d_logdet, sd_d_quadratic. cbn [sd_n_it sd_rs sd_inv_rs sd_alpha].
  destruct (Nat.eqb_spec k 0); [lia|]. split; [now rewrite Hi|].
  rewrite (rep_mv _ _ HdK) by exact Ly. unfold np_vdot, quad_term. rewrite Ly. apply Rsum_ext. intros i Hin.
  assert (Exy : forall i, (i < n)%nat -> vget xy i = a i).
  { intros l Hl. rewrite (inv_solution n K X xy y Hsym Hinv Hxy l Hl).
    assert (Hta : forall i, (i < n)%nat -> Rsum n (fun j => K i j * vget (tab n a) j) = vget y i).
    { intros m Hm. rewrite <- (Ha m Hm). apply Rsum_ext. intros j Hj. now rewrite vget_tab. }
    rewrite <- (inv_solution n K X (tab n a) y Hsym Hinv Hta l Hl). now apply vget_tab. }
  unfold d_apply, mat_apply. cbn [d_r d_c d_f]. rewrite vget_tab by exact Hin. rewrite Exy by exact Hin.
  rewrite <- Rsum_scal_l. apply Rsum_ext. intros j Hj. rewrite Exy by exact Hj. ring.
Qed.

End Unbiased.

Lemma trace_mean_k n k X F : (0 < k)%nat ->
  mean (draws k n) (fun bits => lsum (map (trace_term n X F) bits) / INR k) = Rsum n (fun i => Rsum n (fun j => X i j * F i j)).
Proof.
  intros Hk. unfold mean.
  assert (H : lsum (map (trace_term n X F) (all_bits n)) = INR (length (all_bits n)) * Rsum n (fun i => Rsum n (fun j => X i j * F i j))).
  { unfold trace_term. rewrite <- (Rsum_lsum [] (fun r => Rsum n (fun i => Rsum n (fun j => X i j * vget (signs r) j) * Rsum n (fun j => F i j * vget (signs r) j)))).
    rewrite Rsum_swap. rewrite <- Rsum_scal_l. apply Rsum_ext. intros i Hi.
    rewrite (Rsum_lsum [] (fun r => Rsum n (fun j => X i j * vget (signs r) j) * Rsum n (fun j => F i j * vget (signs r) j))).
    apply bits_quad. }
  pose proof (draws_sum n (trace_term n X F) _ H k) as D.
  rewrite (lsum_map_ext _ (fun bits => / INR k * lsum (map (trace_term n X F) bits))) by (intros; unfold Rdiv; ring).
  rewrite lsum_map_scal, D.
  assert (INR k <> 0) by (apply not_0_INR; lia).
  assert (INR (length (draws k n)) <> 0).
  { apply not_0_INR. rewrite draws_length. apply Nat.pow_nonzero. lia. }
  field. auto.
Qed.


Lemma mean_affine {A} (l : list A) g c d : l <> [] -> mean l (fun x => c + d * g x) = c + d * mean l g.
Proof.
  intros H. unfold mean. rewrite lsum_map_plus, lsum_map_scal.
  assert (E : lsum (map (fun _ : A => c) l) = INR (length l) * c).
  { clear H. induction l as [|x l IH]; [cbn; ring|]. cbn [map length]. rewrite S_INR. unfold lsum in *. cbn [fold_right]. rewrite IH. ring. }
  rewrite E. assert (INR (length l) <> 0) by (apply not_0_INR; destruct l; [contradiction|discriminate]). field. auto.
Qed.
