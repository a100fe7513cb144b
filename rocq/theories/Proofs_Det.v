(** Determinants, linear systems and their derivatives by elimination. *)

From Coq Require Import Reals List Arith Lia Lra.
From Coquelicot Require Import Coquelicot.
From Verif Require Import Base PSD Det Proofs_Shur.
Open Scope R_scope.

Definition solves (n : nat) (F : nat -> nat -> R) (x b : nat -> R) : Prop :=
  forall i, (i < n)%nat -> Rsum n (fun j => F i j * x j) = b i.

Definition is_inv (n : nat) (F X : nat -> nat -> R) : Prop :=
  forall i j, (i < n)%nat -> (j < n)%nat -> Rsum n (fun k => F i k * X k j) = id_f i j.

Fixpoint pivots (n : nat) (F : nat -> nat -> R) : Prop :=
  match n with O => True | S m => 0 < F O O /\ pivots m (schur1 F) end.

Lemma pivots_ext n : forall F G, (forall i j, (i < n)%nat -> (j < n)%nat -> F i j = G i j) -> pivots n F -> pivots n G.
Proof.
  induction n as [|m IH]; intros F G H P; [exact I|]. destruct P as [P1 P2]. split.
  - rewrite <- H by lia. exact P1.
  - apply (IH (schur1 F)); [|exact P2]. intros i j Hi Hj. unfold schur1. rewrite !H by lia. reflexivity.
Qed.

Lemma schur1_sym n F : sym (S n) F -> sym n (schur1 F).
Proof.
  intros H i j Hi Hj. unfold schur1. rewrite (H (S i) (S j)), (H (S i) O), (H O (S j)) by lia.
  unfold Rdiv. ring.
Qed.

Lemma det_pos n : forall F, pivots n F -> 0 < det n F.
Proof.
  induction n as [|m IH]; intros F P; [cbn; lra|]. destruct P as [P1 P2].
  rewrite det_pivot by lra. apply Rmult_lt_0_compat; auto.
Qed.

(** ** Linear systems *)

Lemma solves_elim n F x b : F O O <> 0 ->
  (solves (S n) F x b <->
   x O = (b O - Rsum n (fun j => F O (S j) * x (S j))) / F O O /\
   solves n (schur1 F) (fun i => x (S i)) (fun i => b (S i) - F (S i) O * b O / F O O)).
Proof.
  intros Ha.
  assert (E : forall i, Rsum n (fun j => schur1 F i j * x (S j))
            = Rsum n (fun j => F (S i) (S j) * x (S j)) - F (S i) O / F O O * Rsum n (fun j => F O (S j) * x (S j))).
  { intros i. rewrite <- Rsum_scal_l, <- Rsum_minus. apply Rsum_ext. intros j Hj. unfold schur1. field. exact Ha. }
  split.
  - intros H. assert (H0 := H O ltac:(lia)). rewrite Rsum_S_l in H0. split.
    + rewrite <- H0. field. exact Ha.
    + intros i Hi. rewrite E. assert (H1 := H (S i) ltac:(lia)). rewrite Rsum_S_l in H1. rewrite <- H0, <- H1. field. exact Ha.
  - intros [H0 H] i Hi. rewrite Rsum_S_l. destruct i as [|i].
    + rewrite H0. field. exact Ha.
    + assert (H1 := H i ltac:(lia)). cbv beta in H1. rewrite E in H1. rewrite H0.
      apply (Rplus_eq_reg_r (- (F (S i) O * b O / F O O))).
      unfold Rminus in H1. rewrite <- H1. field. exact Ha.
Qed.

Lemma solves_ext n F G x y b c : (forall i j, (i < n)%nat -> (j < n)%nat -> F i j = G i j) ->
  (forall i, (i < n)%nat -> x i = y i) -> (forall i, (i < n)%nat -> b i = c i) -> solves n F x b -> solves n G y c.
Proof.
  intros H1 H2 H3 H i Hi. rewrite <- H3, <- (H i Hi) by lia. apply Rsum_ext. intros j Hj. rewrite H1, H2 by lia. reflexivity.
Qed.

Lemma solves_ex n : forall F b, pivots n F -> exists x, solves n F x b.
Proof.
  induction n as [|m IH]; intros F b P.
  - exists b. intros i Hi. lia.
  - destruct P as [P1 P2].
    destruct (IH (schur1 F) (fun i => b (S i) - F (S i) O * b O / F O O) P2) as [x Hx].
    exists (fun i => match i with O => (b O - Rsum m (fun j => F O (S j) * x j)) / F O O | S j => x j end).
    apply solves_elim; [lra|]. split; [reflexivity|]. exact Hx.
Qed.

Lemma solves_unique n : forall F b x y, pivots n F -> solves n F x b -> solves n F y b ->
  forall i, (i < n)%nat -> x i = y i.
Proof.
  induction n as [|m IH]; intros F b x y P Hx Hy i Hi; [lia|]. destruct P as [P1 P2].
  apply solves_elim in Hx; [|lra]. apply solves_elim in Hy; [|lra].
  destruct Hx as [X0 Hx]. destruct Hy as [Y0 Hy].
  assert (E : forall i, (i < m)%nat -> x (S i) = y (S i)) by (intros k Hk; apply (IH (schur1 F) _ _ _ P2 Hx Hy k Hk)).
  destruct i as [|i]; [|apply E; lia]. rewrite X0, Y0. f_equal. f_equal. apply Rsum_ext. intros j Hj. rewrite E by lia. reflexivity.
Qed.

Lemma inv_ex n F : pivots n F -> exists X, is_inv n F X.
Proof.
  intros P.
  assert (H : forall k, exists X : nat -> nat -> R, forall j, (j < k)%nat -> solves n F (fun i => X i j) (fun i => id_f i j)).
  { induction k as [|k [X HX]]; [exists (fun _ _ => 0); intros; lia|].
    destruct (solves_ex n F (fun i => id_f i k) P) as [x Hx].
    exists (fun i j => if Nat.eqb j k then x i else X i j). intros j Hj.
    destruct (Nat.eqb_spec j k) as [->|N]; [exact Hx|]. apply HX. lia. }
  destruct (H n) as [X HX]. exists X. intros i j Hi Hj. apply (HX j Hj i Hi).
Qed.

Lemma inv_sym n F X : sym n F -> is_inv n F X -> sym n X.
Proof.
  intros Hs HX i j Hi Hj.
  (* X_ij = sum_kl X_ki F_kl X_lj *)
  assert (E : forall a b, (a < n)%nat -> (b < n)%nat ->
     Rsum n (fun k => Rsum n (fun l => X k a * F k l * X l b)) = X b a).
  { intros a b Ha Hb. transitivity (Rsum n (fun k => if Nat.eqb k b then X k a else 0)).
    - apply Rsum_ext. intros k Hk. transitivity (X k a * Rsum n (fun l => F k l * X l b)).
      + rewrite <- Rsum_scal_l. apply Rsum_ext. intros; ring.
      + rewrite HX by lia. unfold id_f. destruct (Nat.eqb k b); ring.
    - rewrite Rsum_delta by lia. reflexivity. }
  rewrite <- (E j i Hj Hi), <- (E i j Hi Hj), Rsum_swap.
  apply Rsum_ext. intros k Hk. apply Rsum_ext. intros l Hl. rewrite (Hs l k Hl Hk). ring.
Qed.

Lemma solves_inv n F X b : sym n F -> is_inv n F X -> solves n F (fun i => Rsum n (fun j => X i j * b j)) b.
Proof.
  intros Hs HX i Hi.
  transitivity (Rsum n (fun j => Rsum n (fun k => F i j * X j k * b k))).
  { apply Rsum_ext. intros j Hj. rewrite <- Rsum_scal_l. apply Rsum_ext. intros; ring. }
  rewrite Rsum_swap. transitivity (Rsum n (fun k => if Nat.eqb i k then b k else 0)).
  - apply Rsum_ext. intros k Hk. rewrite Rsum_scal_r, HX by lia. unfold id_f. destruct (Nat.eqb i k); ring.
  - apply Rsum_delta'. exact Hi.
Qed.

Lemma inv_schur n F X : F O O <> 0 -> is_inv (S n) F X -> is_inv n (schur1 F) (fun i j => X (S i) (S j)).
Proof.
  intros Ha HX i j Hi Hj.
  assert (H : solves (S n) F (fun i => X i (S j)) (fun i => id_f i (S j))) by (intros k Hk; apply HX; lia).
  apply solves_elim in H; [|exact Ha]. destruct H as [_ H].
  rewrite (H i Hi). unfold id_f. cbn [Nat.eqb]. destruct (Nat.eqb i j); unfold Rdiv; ring.
Qed.

(** ** Positive definiteness *)

Lemma qf_pivot n F x : F O O <> 0 -> sym (S n) F ->
  qf (S n) F x = F O O * (x O + Rsum n (fun j => F O (S j) * x (S j)) / F O O) ^ 2 + qf n (schur1 F) (fun i => x (S i)).
Proof.
  intros Ha Hs. unfold qf, bil. rewrite !Rsum_S_l.
  set (s := Rsum n (fun j => F O (S j) * x (S j))).
  rewrite (Rsum_ext n (fun i => Rsum (S n) (fun j => x (S i) * F (S i) j * x j))
     (fun i => F O (S i) * x (S i) * x O + Rsum n (fun j => x (S i) * F (S i) (S j) * x (S j)))).
  2: { intros i Hi. rewrite Rsum_S_l. rewrite (Hs (S i) O) by lia. ring. }
  rewrite Rsum_plus, Rsum_scal_r. fold s.
  rewrite (Rsum_ext n (fun j => x O * F O (S j) * x (S j)) (fun j => x O * (F O (S j) * x (S j)))) by (intros; ring).
  rewrite Rsum_scal_l. fold s.
  rewrite (Rsum_ext n (fun i => Rsum n (fun j => x (S i) * schur1 F i j * x (S j)))
     (fun i => Rsum n (fun j => x (S i) * F (S i) (S j) * x (S j)) - F O (S i) * x (S i) * (s / F O O))).
  2: { intros i Hi. unfold s, Rdiv. rewrite <- Rsum_scal_r, <- Rsum_scal_l, <- Rsum_minus. apply Rsum_ext. intros j Hj.
       unfold schur1. rewrite (Hs (S i) O) by lia. field. exact Ha. }
  rewrite Rsum_minus, Rsum_scal_r. fold s. field. exact Ha.
Qed.

Lemma pos_def_pivots n : forall F, sym n F -> pos_def n F -> pivots n F.
Proof.
  induction n as [|m IH]; intros F Hs Hp; [exact I|].
  assert (Ha : 0 < F O O).
  { rewrite <- (qf_unit (S m) F O) by lia. apply Hp. exists O. split; [lia|]. unfold unitv. cbn. lra. }
  split; [exact Ha|]. apply IH; [apply schur1_sym; exact Hs|].
  intros x [i [Hi Hx]].
  set (z := fun k => match k with O => - (Rsum m (fun j => F O (S j) * x j) / F O O) | S j => x j end).
  assert (H := Hp z ltac:(exists (S i); split; [lia|exact Hx])).
  rewrite qf_pivot in H by (auto; lra). unfold z in H.
  match type of H with 0 < ?a + _ => replace a with 0 in H by (rewrite Rplus_opp_l; ring) end.
  change (0 < 0 + qf m (schur1 F) x) in H. lra.
Qed.

Lemma pivots_pos_def n : forall F, sym n F -> pivots n F -> pos_def n F.
Proof.
  induction n as [|m IH]; intros F Hs P x [i [Hi Hx]]; [lia|]. destruct P as [P1 P2].
  rewrite qf_pivot by (auto; lra).
  assert (IH' := IH (schur1 F) (schur1_sym m F Hs) P2).
  assert (P0 : 0 <= F O O * (x O + Rsum m (fun j => F O (S j) * x (S j)) / F O O) ^ 2).
  { apply Rmult_le_pos; [lra|]. apply pow2_ge_0. }
  destruct (Classical_Prop.classic (exists k, (k < m)%nat /\ x (S k) <> 0)) as [E|E].
  - assert (0 < qf m (schur1 F) (fun i => x (S i))) by (apply IH'; exact E). lra.
  - assert (Z : forall k, (k < m)%nat -> x (S k) = 0).
    { intros k Hk. destruct (Req_dec (x (S k)) 0) as [Ez|Ez]; [exact Ez|]. exfalso. apply E. exists k. auto. }
    assert (Q : qf m (schur1 F) (fun i => x (S i)) = 0).
    { unfold qf, bil. apply Rsum_zero. intros a Ha. apply Rsum_zero. intros b Hb. rewrite Z by lia. ring. }
    rewrite Q, Rplus_0_r. rewrite (Rsum_zero m) by (intros j Hj; rewrite Z by lia; ring).
    destruct i as [|i]; [|exfalso; apply Hx; apply Z; lia].
    apply Rmult_lt_0_compat; [lra|]. replace (x O + 0 / F O O) with (x O) by (field; lra). nra.
Qed.

(** ** Derivatives *)

Lemma deriv_schur (f g h a : R -> R) (t df dg dh da : R) :
  is_derive f t df -> is_derive g t dg -> is_derive h t dh -> is_derive a t da -> a t <> 0 ->
  is_derive (fun s => f s - g s * h s / a s) t
    (df - (dg * h t + g t * dh) / a t + g t * h t * da / (a t * a t)).
Proof.
  intros Hf Hg Hh Ha Na.
  auto_derive.
  - repeat split; try exact Na; eexists; eassumption.
  - change (Derive (fun x => f x) t) with (Derive f t). change (Derive (fun x => g x) t) with (Derive g t).
    change (Derive (fun x => h x) t) with (Derive h t). change (Derive (fun x => a x) t) with (Derive a t).
    rewrite (is_derive_unique f t df Hf), (is_derive_unique g t dg Hg), (is_derive_unique h t dh Hh), (is_derive_unique a t da Ha).
    field. exact Na.
Qed.

Lemma deriv_ln (f : R -> R) (t df : R) : is_derive f t df -> 0 < f t -> is_derive (fun s => ln (f s)) t (df / f t).
Proof.
  intros H P. auto_derive; [repeat split; [eexists; exact H|exact P]|].
  change (Derive (fun x => f x) t) with (Derive f t). rewrite (is_derive_unique f t df H). field. lra.
Qed.

Lemma deriv_sqdiv (y f : R -> R) (t dy df : R) : is_derive y t dy -> is_derive f t df -> f t <> 0 ->
  is_derive (fun s => y s * y s / f s) t (2 * y t * dy / f t - y t * y t * df / (f t * f t)).
Proof.
  intros D1 D2 N. auto_derive.
  - repeat split; try exact N; eexists; eassumption.
  - change (Derive (fun x => y x) t) with (Derive y t). change (Derive (fun x => f x) t) with (Derive f t).
    rewrite (is_derive_unique y t _ D1), (is_derive_unique f t _ D2). field. exact N.
Qed.

Definition dschur (F dF : nat -> nat -> R) (i k : nat) : R :=
  dF (S i) (S k) - (dF (S i) O * F O (S k) + F (S i) O * dF O (S k)) / F O O
  + F (S i) O * F O (S k) * dF O O / (F O O * F O O).

Definition mderive (n : nat) (F : R -> nat -> nat -> R) (t : R) (dF : nat -> nat -> R) : Prop :=
  forall i j, (i < n)%nat -> (j < n)%nat -> is_derive (fun s => F s i j) t (dF i j).

Lemma mderive_schur n F t dF : F t O O <> 0 -> mderive (S n) F t dF ->
  mderive n (fun s => schur1 (F s)) t (dschur (F t) dF).
Proof.
  intros Ha H i j Hi Hj. unfold schur1, dschur. apply deriv_schur; auto; apply H; lia.
Qed.

Lemma locally_pos (f : R -> R) (t df : R) : is_derive f t df -> 0 < f t -> locally t (fun s => 0 < f s).
Proof.
  intros H P. assert (C : continuous f t) by (apply (ex_derive_continuous (V := R_NormedModule) f t); exists df; exact H).
  apply (C (fun y => 0 < y)). apply (open_gt 0). exact P.
Qed.

Lemma pivots_locally n : forall F t dF, mderive n F t dF -> pivots n (F t) -> locally t (fun s => pivots n (F s)).
Proof.
  induction n as [|m IH]; intros F t dF H P; [apply filter_forall; intros; exact I|].
  destruct P as [P1 P2]. cbn [pivots]. apply filter_and.
  - apply (locally_pos (fun s => F s O O) t (dF O O)); [apply H; lia|exact P1].
  - apply (IH (fun s => schur1 (F s)) t (dschur (F t) dF)); [|exact P2]. apply mderive_schur; [lra|exact H].
Qed.

Lemma Rsum2_scal n (f : nat -> nat -> R) c :
  Rsum n (fun i => Rsum n (fun j => f i j * c)) = Rsum n (fun i => Rsum n (fun j => f i j)) * c.
Proof. rewrite <- Rsum_scal_r. apply Rsum_ext. intros i Hi. apply Rsum_scal_r. Qed.

Lemma Rsum2_split n (F X : nat -> nat -> R) :
  Rsum (S n) (fun i => Rsum (S n) (fun j => X i j * F i j))
  = X O O * F O O + Rsum n (fun j => X O (S j) * F O (S j)) + Rsum n (fun i => X (S i) O * F (S i) O)
    + Rsum n (fun i => Rsum n (fun j => X (S i) (S j) * F (S i) (S j))).
Proof.
  rewrite Rsum_S_l, Rsum_S_l.
  rewrite (Rsum_ext n (fun i => Rsum (S n) (fun j => X (S i) j * F (S i) j)) (fun i => X (S i) O * F (S i) O + Rsum n (fun j => X (S i) (S j) * F (S i) (S j)))).
  - rewrite Rsum_plus. ring.
  - intros i Hi. apply Rsum_S_l.
Qed.

(** Trace of [X dF] by elimination. *)
Lemma trace_schur n F X dF : F O O <> 0 -> sym (S n) F -> sym (S n) dF -> is_inv (S n) F X ->
  Rsum (S n) (fun i => Rsum (S n) (fun j => X i j * dF i j))
  = dF O O / F O O + Rsum n (fun i => Rsum n (fun j => X (S i) (S j) * dschur F dF i j)).
Proof.
  intros Ha Hs Hd HX.
  assert (XS := inv_sym _ _ _ Hs HX).
  set (b := fun i => F O (S i)). set (db := fun i => dF O (S i)).
  set (Y := fun i j => X (S i) (S j)).
  assert (X12 : forall j, (j < n)%nat -> X O (S j) = - (Rsum n (fun i => b i * Y i j)) / F O O).
  { intros j Hj. assert (H : solves (S n) F (fun i => X i (S j)) (fun i => id_f i (S j))) by (intros k Hk; apply HX; lia).
    apply solves_elim in H; [|exact Ha]. destruct H as [H _]. rewrite H. unfold id_f. cbn [Nat.eqb]. unfold b, Y, Rdiv. ring. }
  assert (X11 : X O O = (1 - Rsum n (fun i => b i * X O (S i))) / F O O).
  { assert (H : solves (S n) F (fun i => X i O) (fun i => id_f i O)) by (intros k Hk; apply HX; lia).
    apply solves_elim in H; [|exact Ha]. destruct H as [H _]. rewrite H. unfold id_f. cbn [Nat.eqb]. f_equal. f_equal.
    apply Rsum_ext. intros i Hi. unfold b. rewrite (XS (S i) O) by lia. reflexivity. }
  rewrite (Rsum2_split n dF X).
  set (q1 := Rsum n (fun i => Rsum n (fun j => b i * Y i j * db j))).
  set (q2 := Rsum n (fun i => Rsum n (fun j => b i * Y i j * b j))).
  assert (S1 : Rsum n (fun j => X O (S j) * dF O (S j)) = - q1 / F O O).
  { unfold q1. rewrite Rsum_swap. unfold Rdiv. rewrite Ropp_mult_distr_l_reverse, <- Rsum_scal_r, <- Rsum_opp.
    apply Rsum_ext. intros j Hj. rewrite X12 by lia. fold (db j). rewrite Rsum_scal_r. unfold Rdiv. ring. }
  assert (S2 : Rsum n (fun i => X (S i) O * dF (S i) O) = - q1 / F O O).
  { rewrite <- S1. apply Rsum_ext. intros j Hj. rewrite (XS (S j) O), (Hd (S j) O) by lia. reflexivity. }
  assert (S3 : Rsum n (fun i => b i * X O (S i)) = - q2 / F O O).
  { unfold q2. rewrite Rsum_swap. unfold Rdiv. rewrite Ropp_mult_distr_l_reverse, <- Rsum_scal_r, <- Rsum_opp.
    apply Rsum_ext. intros j Hj. rewrite X12 by lia. rewrite Rsum_scal_r. unfold Rdiv. ring. }
  rewrite S1, S2, X11, S3.
  assert (E : Rsum n (fun i => Rsum n (fun j => X (S i) (S j) * dschur F dF i j))
     = Rsum n (fun i => Rsum n (fun j => X (S i) (S j) * dF (S i) (S j))) - 2 * q1 / F O O + q2 * dF O O / (F O O * F O O)).
  { assert (E1 : Rsum n (fun i => Rsum n (fun j => Y i j * (db i * b j))) = q1).
    { unfold q1. rewrite Rsum_swap. apply Rsum_ext. intros i Hi. apply Rsum_ext. intros j Hj.
      unfold Y. rewrite (XS (S j) (S i)) by lia. ring. }
    transitivity (Rsum n (fun i => Rsum n (fun j => X (S i) (S j) * dF (S i) (S j)))
                  - (Rsum n (fun i => Rsum n (fun j => Y i j * (db i * b j))) + q1) / F O O
                  + q2 * dF O O / (F O O * F O O)).
    2: { rewrite E1. field. exact Ha. }
    unfold q1, q2, Rdiv. rewrite <- Rsum_plus. rewrite <- !Rsum_scal_r, <- Rsum_minus, <- Rsum_plus.
    apply Rsum_ext. intros i Hi.
    rewrite <- Rsum_plus, <- !Rsum_scal_r, <- Rsum_minus, <- Rsum_plus. apply Rsum_ext. intros j Hj.
    unfold dschur, Y, b, db. rewrite (Hs (S i) O), (Hd (S i) O) by lia. field. exact Ha. }
  rewrite E. field. exact Ha.
Qed.

Lemma dschur_sym n F dF : sym (S n) F -> sym (S n) dF -> sym n (dschur F dF).
Proof.
  intros Hs Hd i j Hi Hj. unfold dschur, Rdiv.
  rewrite (Hd (S i) (S j)), (Hd (S i) O), (Hs (S i) O), (Hd O (S j)), (Hs O (S j)) by lia. ring.
Qed.

(** Jacobi's formula. *)
Lemma logdet_derive n : forall F t dF X, mderive n F t dF -> sym n (F t) -> sym n dF -> pivots n (F t) -> is_inv n (F t) X ->
  is_derive (fun s => ln (det n (F s))) t (Rsum n (fun i => Rsum n (fun j => X i j * dF i j))).
Proof.
  induction n as [|m IH]; intros F t dF X H Hs Hd P HX.
  - cbn. apply (is_derive_const (ln 1)).
  - destruct P as [P1 P2]. assert (Ha : F t O O <> 0) by lra.
    assert (Hm := mderive_schur m F t dF Ha H).
    apply (is_derive_ext_loc (fun s => ln (F s O O) + ln (det m (schur1 (F s))))).
    + apply (filter_imp (fun s => 0 < F s O O /\ pivots m (schur1 (F s)))).
      * intros s [Q1 Q2]. rewrite det_pivot by lra. rewrite ln_mult; auto. apply det_pos. exact Q2.
      * apply filter_and; [|apply (pivots_locally m _ _ _ Hm P2)].
        apply (locally_pos (fun s => F s O O) t (dF O O)); [apply H; lia|exact P1].
    + rewrite (trace_schur m (F t) X dF Ha Hs Hd HX).
      apply (is_derive_plus (fun s => ln (F s O O)) (fun s => ln (det m (schur1 (F s))))).
      * assert (D : is_derive (fun s => F s O O) t (dF O O)) by (apply H; lia).
        apply (deriv_ln (fun s => F s O O) t (dF O O) D P1).
      * apply (IH (fun s => schur1 (F s))); auto.
        -- apply schur1_sym. exact Hs.
        -- apply dschur_sym; auto.
        -- apply (inv_schur m (F t) X Ha HX).
Qed.

(** The quadratic form of the inverse, by elimination. *)
Fixpoint quad (n : nat) (F : nat -> nat -> R) (y : nat -> R) : R :=
  match n with
  | O => 0
  | S m => y O * y O / F O O + quad m (schur1 F) (fun i => y (S i) - F (S i) O * y O / F O O)
  end.

Lemma quad_solves n : forall F y a, sym n F -> pivots n F -> solves n F a y -> Rsum n (fun i => y i * a i) = quad n F y.
Proof.
  induction n as [|m IH]; intros F y a Hs P H; [reflexivity|]. destruct P as [P1 P2].
  apply solves_elim in H; [|lra]. destruct H as [H0 H].
  cbn [quad]. rewrite <- (IH _ _ _ (schur1_sym m F Hs) P2 H).
  rewrite Rsum_S_l, H0.
  rewrite (Rsum_ext m (fun i => (y (S i) - F (S i) O * y O / F O O) * a (S i))
     (fun i => y (S i) * a (S i) - y O / F O O * (F O (S i) * a (S i)))).
  - rewrite Rsum_minus, Rsum_scal_l. field. lra.
  - intros i Hi. rewrite (Hs (S i) O) by lia. field. lra.
Qed.

Definition vderive (n : nat) (y : R -> nat -> R) (t : R) (dy : nat -> R) : Prop :=
  forall i, (i < n)%nat -> is_derive (fun s => y s i) t (dy i).

Lemma quad_derive n : forall F y t dF dy a, mderive n F t dF -> vderive n y t dy -> sym n (F t) -> sym n dF ->
  pivots n (F t) -> solves n (F t) a (y t) ->
  is_derive (fun s => quad n (F s) (y s)) t
    (2 * Rsum n (fun i => a i * dy i) - Rsum n (fun i => Rsum n (fun j => a i * dF i j * a j))).
Proof.
  induction n as [|m IH]; intros F y t dF dy a H Hy Hs Hd P Ha.
  - cbn. replace (2 * 0 - 0) with 0 by ring. apply (is_derive_const 0).
  - destruct P as [P1 P2]. assert (N : F t O O <> 0) by lra.
    assert (Hm := mderive_schur m F t dF N H).
    apply solves_elim in Ha; [|exact N]. destruct Ha as [A0 Ha].
    set (dz := fun i => dy (S i) - (dF (S i) O * y t O + F t (S i) O * dy O) / F t O O
                        + F t (S i) O * y t O * dF O O / (F t O O * F t O O)).
    assert (Hz : vderive m (fun s i => y s (S i) - F s (S i) O * y s O / F s O O) t dz).
    { intros i Hi. unfold dz. apply (deriv_schur (fun s => y s (S i)) (fun s => F s (S i) O) (fun s => y s O) (fun s => F s O O));
      auto; try apply H; try apply Hy; lia. }
    specialize (IH _ _ t _ dz (fun i => a (S i)) Hm Hz (schur1_sym m (F t) Hs) (dschur_sym m (F t) dF Hs Hd) P2 Ha).
    cbn [quad].
    set (b := fun i => F t O (S i)). set (db := fun i => dF O (S i)).
    set (sb := Rsum m (fun i => b i * a (S i))). set (sdb := Rsum m (fun i => db i * a (S i))).
    set (y0 := y t O). set (f := F t O O).
    assert (D : is_derive (fun s => y s O * y s O / F s O O) t (2 * y0 * dy O / f - y0 * y0 * dF O O / (f * f))).
    { assert (D1 : is_derive (fun s => y s O) t (dy O)) by (apply Hy; lia).
      assert (D2 : is_derive (fun s => F s O O) t (dF O O)) by (apply H; lia).
      apply (deriv_sqdiv (fun s => y s O) (fun s => F s O O) t (dy O) (dF O O) D1 D2 N). }
    replace (2 * Rsum (S m) (fun i => a i * dy i) - Rsum (S m) (fun i => Rsum (S m) (fun j => a i * dF i j * a j)))
      with ((2 * y0 * dy O / f - y0 * y0 * dF O O / (f * f))
            + (2 * Rsum m (fun i => a (S i) * dz i) - Rsum m (fun i => Rsum m (fun j => a (S i) * dschur (F t) dF i j * a (S j))))).
    { exact (is_derive_plus _ _ t _ _ D IH). }
    assert (E1 : Rsum m (fun i => a (S i) * dz i)
       = Rsum m (fun i => a (S i) * dy (S i)) - (sdb * y0 + sb * dy O) / f + sb * y0 * dF O O / (f * f)).
    { unfold sdb, sb, Rdiv. rewrite <- !Rsum_scal_r, <- Rsum_plus, <- Rsum_scal_r, <- Rsum_minus, <- Rsum_plus.
      apply Rsum_ext. intros i Hi. unfold dz, b, db. fold y0. fold f. rewrite (Hs (S i) O), (Hd (S i) O) by lia. unfold Rdiv. ring. }
    assert (E2 : Rsum m (fun i => Rsum m (fun j => a (S i) * dschur (F t) dF i j * a (S j)))
       = Rsum m (fun i => Rsum m (fun j => a (S i) * dF (S i) (S j) * a (S j))) - 2 * sb * sdb / f + sb * sb * dF O O / (f * f)).
    { transitivity (Rsum m (fun i => Rsum m (fun j => a (S i) * dF (S i) (S j) * a (S j)))
         - (Rsum m (fun i => Rsum m (fun j => (db i * a (S i)) * (b j * a (S j))))
            + Rsum m (fun i => Rsum m (fun j => (b i * a (S i)) * (db j * a (S j))))) / f
         + Rsum m (fun i => Rsum m (fun j => (b i * a (S i)) * (b j * a (S j)))) * dF O O / (f * f)).
      - unfold Rdiv. rewrite <- Rsum_plus, <- !Rsum_scal_r, <- Rsum_minus, <- Rsum_plus. apply Rsum_ext. intros i Hi.
        rewrite <- Rsum_plus, <- !Rsum_scal_r, <- Rsum_minus, <- Rsum_plus. apply Rsum_ext. intros j Hj.
        unfold dschur, b, db. fold f. rewrite (Hs (S i) O), (Hd (S i) O) by lia. unfold Rdiv. ring.
      - assert (G : forall u v : nat -> R, Rsum m (fun i => Rsum m (fun j => u i * v j)) = Rsum m u * Rsum m v).
        { intros u v. rewrite <- Rsum_scal_r. apply Rsum_ext. intros i Hi. apply Rsum_scal_l. }
        rewrite !(G (fun i => db i * a (S i)) (fun j => b j * a (S j))), !(G (fun i => b i * a (S i)) (fun j => db j * a (S j))),
                !(G (fun i => b i * a (S i)) (fun j => b j * a (S j))).
        fold sb sdb. field. exact N. }
    assert (E3 : Rsum (S m) (fun i => Rsum (S m) (fun j => a i * dF i j * a j))
       = a O * a O * dF O O + 2 * a O * sdb + Rsum m (fun i => Rsum m (fun j => a (S i) * dF (S i) (S j) * a (S j)))).
    { rewrite Rsum_S_l, Rsum_S_l.
      rewrite (Rsum_ext m (fun i => Rsum (S m) (fun j => a (S i) * dF (S i) j * a j))
        (fun i => a O * (db i * a (S i)) + Rsum m (fun j => a (S i) * dF (S i) (S j) * a (S j)))).
      2: { intros i Hi. rewrite Rsum_S_l. unfold db. rewrite (Hd (S i) O) by lia. ring. }
      rewrite (Rsum_ext m (fun i => a O * dF O (S i) * a (S i)) (fun i => a O * (db i * a (S i)))) by (intros; unfold db; ring).
      rewrite Rsum_plus, !Rsum_scal_l. fold sdb. ring. }
    rewrite E1, E2, E3, Rsum_S_l, A0. fold y0 f. fold (sb). 
    change (Rsum m (fun j => F t O (S j) * a (S j))) with sb.
    field. exact N.
Qed.
