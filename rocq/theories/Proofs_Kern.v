(** Kernel formulas: documentation, gradients, bounds. *)

From Coq Require Import Reals List Arith Lia Lra.
From Coquelicot Require Import Coquelicot.
From Verif Require Import Base NDArray Model_Util Model_Linalg Model_Kern Spec_Kern.
Import ListNotations.
Open Scope R_scope.

(** ** from_dist *)

Lemma rbf_doc g d : rbf_at g d = k_doc (RBF g) d.
Proof. unfold rbf_at; cbn [k_doc]. f_equal. field. Qed.

Lemma matern32_doc g d : matern32_at g d = k_doc (Matern32 g) d.
Proof.
  unfold matern32_at; cbn [k_doc]. cbv zeta. f_equal; [ring | f_equal; ring].
Qed.

Lemma std_periodic_doc g T d : 0 < T -> std_periodic_at g T d = k_doc (StdPeriodic g T) d.
Proof.
  intros HT. unfold std_periodic_at; cbn [k_doc]. cbv zeta.
  replace (PI * d / T) with (PI / T * d) by (field; lra). f_equal. field.
Qed.

Definition arr_shape (d : dists_arg) : list nat :=
  match d with PyNum _ => [1%nat] | Arr a => match a_shape a with [] => [1%nat] | s => s end end.
Definition arr_data (d : dists_arg) : list R := match d with PyNum x => [x] | Arr a => a_data a end.

Lemma ufunc_spec f d : ufunc f d = mk_arr (arr_shape d) (map f (arr_data d)).
Proof. destruct d; reflexivity. Qed.

(** On an array with at least one axis. *)
Lemma from_dist_arr k a :
  positive k -> no_tiny_period k -> a_shape a <> [] ->
  from_dist k (Arr a) = Ok (KArr (mk_arr (a_shape a) (map (k_doc k) (a_data a)))).
Proof.
  induction k as [g|g|g T| |k IH s]; intros Hp Ht Ha.
  - cbn [from_dist]. rewrite ufunc_spec. cbn [arr_shape arr_data].
    destruct (a_shape a) eqn:E; [congruence|].
    do 3 f_equal. apply map_ext; intros; apply rbf_doc.
  - cbn [from_dist]. rewrite ufunc_spec. cbn [arr_shape arr_data].
    destruct (a_shape a) eqn:E; [congruence|].
    do 3 f_equal. apply map_ext; intros; apply matern32_doc.
  - cbn [from_dist]. cbn [no_tiny_period] in Ht.
    destruct (Rlt_dec (ln T) (-200)); [lra|].
    rewrite ufunc_spec. cbn [arr_shape arr_data].
    destruct (a_shape a) eqn:E; [congruence|].
    do 3 f_equal. apply map_ext; intros; apply std_periodic_doc.
    apply Hp; cbn; auto.
  - cbn [from_dist]. reflexivity.
  - cbn [from_dist]. rewrite IH.
    + cbn [bind]. rewrite ufunc_spec. cbn [arr_shape arr_data a_shape a_data].
      destruct (a_shape a) eqn:E; [congruence|].
      do 3 f_equal. rewrite map_map. reflexivity.
    + intros v Hv. apply Hp. cbn. apply in_or_app; auto.
    + exact Ht.
    + exact Ha.
Qed.

(** On a plain number. *)
Fixpoint has_identity (k : kern) : bool :=
  match k with KIdentity => true | Scaled k _ => has_identity k | _ => false end.

Lemma from_dist_num k d :
  positive k -> no_tiny_period k ->
  from_dist k (PyNum d) =
    if has_identity k then Err AttributeError else Ok (KArr (mk_arr [1%nat] [k_doc k d])).
Proof.
  induction k as [g|g|g T| |k IH s]; intros Hp Ht; cbn [has_identity].
  - cbn [from_dist ufunc]. rewrite rbf_doc. reflexivity.
  - cbn [from_dist ufunc]. rewrite matern32_doc. reflexivity.
  - cbn [from_dist ufunc]. cbn [no_tiny_period] in Ht.
    destruct (Rlt_dec (ln T) (-200)); [lra|].
    rewrite std_periodic_doc; [reflexivity|]. apply Hp; cbn; auto.
  - reflexivity.
  - cbn [from_dist]. rewrite IH.
    + destruct (has_identity k); reflexivity.
    + intros v Hv. apply Hp. cbn. apply in_or_app; auto.
    + exact Ht.
Qed.

Lemma from_dist_nan k d :
  ~ no_tiny_period k -> from_dist k d = Ok KNan.
Proof.
  induction k as [g|g|g T| |k IH s]; cbn [no_tiny_period from_dist]; intros H; try tauto.
  - destruct (Rlt_dec (ln T) (-200)); [reflexivity|lra].
  - rewrite IH by exact H. reflexivity.
Qed.

(** ** Gradients *)

Fixpoint k_grad (k : kern) (d : R) : list R :=
  match k with
  | RBF g => rbf_grad_at g d
  | Matern32 g => matern32_grad_at g d
  | StdPeriodic g T => std_periodic_grad_at g T d
  | KIdentity => []
  | Scaled k s => map (fun x => s * x) (k_grad k d) ++ [k_doc k d]
  end.

Lemma k_grad_length k d : length (k_grad k d) = length (params k).
Proof.
  induction k; cbn [k_grad params]; try reflexivity.
  rewrite !app_length, map_length, IHk. reflexivity.
Qed.

Lemma nth_map_scal s l j : nth j (map (fun x => s * x) l) 0 = s * nth j l 0.
Proof. replace 0 with (s * 0) at 1 by ring. apply (map_nth (fun x => s * x)). Qed.

Lemma kernel_gradient_arr k a :
  positive k -> no_tiny_period k -> a_shape a <> [] ->
  kernel_gradient k a =
    Ok (tab (length (params k)) (fun j =>
          KArr (mk_arr (a_shape a) (map (fun d => nth j (k_grad k d) 0) (a_data a))))).
Proof.
  intros Hp Ht Ha.
  assert (Hsh : forall (f : R -> R), ufunc f (Arr a) = mk_arr (a_shape a) (map f (a_data a))).
  { intros f. rewrite ufunc_spec. cbn [arr_shape arr_data].
    destruct (a_shape a); [congruence|reflexivity]. }
  revert Hp Ht. induction k as [g|g|g T| |k IH s]; intros Hp Ht.
  - cbn [kernel_gradient params length]. unfold columns. rewrite map_tab.
    f_equal. apply tab_ext; intros; rewrite Hsh; reflexivity.
  - cbn [kernel_gradient params length]. unfold columns. rewrite map_tab.
    f_equal. apply tab_ext; intros; rewrite Hsh; reflexivity.
  - cbn [kernel_gradient params length]. unfold columns. rewrite map_tab.
    f_equal. apply tab_ext; intros; rewrite Hsh; reflexivity.
  - reflexivity.
  - assert (Hp' : positive k) by (intros v Hv; apply Hp; cbn; apply in_or_app; auto).
    cbn [kernel_gradient]. rewrite IH by assumption. cbn [bind].
    rewrite from_dist_arr by assumption. cbn [bind]. f_equal.
    rewrite map_tab. cbn [params]. rewrite app_length. cbn [length].
    replace (length (params k) + 1)%nat with (S (length (params k))) by lia.
    rewrite tab_S. f_equal.
    + apply tab_ext. intros j Hj. rewrite ufunc_spec. cbn [arr_shape arr_data a_shape a_data].
      replace (match a_shape a with [] => [1%nat] | s0 => s0 end) with (a_shape a)
        by (destruct (a_shape a); congruence).
      f_equal. f_equal. rewrite map_map. apply map_ext. intros d. cbn [k_grad].
      rewrite app_nth1 by (rewrite map_length, k_grad_length; lia).
      rewrite nth_map_scal. reflexivity.
    + do 3 f_equal. apply map_ext. intros d. cbn [k_grad].
      rewrite app_nth2 by (rewrite map_length, k_grad_length; lia).
      rewrite map_length, k_grad_length, Nat.sub_diag. reflexivity.
Qed.

Lemma params_with k j v :
  (j < length (params k))%nat -> nth j (params (with_param k j v)) 0 = v.
Proof.
  induction k as [g|g|g T| |k IH s]; cbn [params with_param length]; intros Hj.
  - destruct j; [reflexivity|lia].
  - destruct j; [reflexivity|lia].
  - destruct j as [|[|j]]; [reflexivity|reflexivity|lia].
  - lia.
  - rewrite app_length in Hj. cbn [length] in Hj.
    destruct (Nat.eqb_spec j (length (params k))).
    + cbn [params]. rewrite app_nth2 by lia. subst j. rewrite Nat.sub_diag. reflexivity.
    + cbn [params].
      assert (L : length (params (with_param k j v)) = length (params k)).
      { clear. revert j. induction k as [g|g|g T| |k IH s]; intros j; cbn [with_param params].
        - destruct j; reflexivity.
        - destruct j; reflexivity.
        - destruct j as [|[|j]]; reflexivity.
        - reflexivity.
        - destruct (Nat.eqb j (length (params k))); cbn [params]; rewrite ?app_length.
          + reflexivity.
          + rewrite IH. reflexivity. }
      rewrite app_nth1 by lia. apply IH. lia.
Qed.

Lemma with_param_same k j : with_param k j (nth j (params k) 0) = k.
Proof.
  revert j. induction k as [g|g|g T| |k IH s]; intros j; cbn [with_param params].
  - destruct j; reflexivity.
  - destruct j; reflexivity.
  - destruct j as [|[|j]]; reflexivity.
  - reflexivity.
  - destruct (Nat.eqb_spec j (length (params k))).
    + subst j. rewrite app_nth2 by lia. rewrite Nat.sub_diag. reflexivity.
    + f_equal. destruct (Nat.lt_ge_cases j (length (params k))).
      * rewrite app_nth1 by lia. apply IH.
      * rewrite (nth_overflow _ 0) by (rewrite app_length; cbn; lia).
        rewrite <- (IH j) at 2. rewrite (nth_overflow (params k)) by lia. reflexivity.
Qed.

Lemma k_grad_derive k d j :
  positive k -> (j < length (params k))%nat ->
  is_derive (fun t => k_doc (with_param k j t) d) (nth j (params k) 0) (nth j (k_grad k d) 0).
Proof.
  revert j. induction k as [g|g|g T| |k IH s]; intros j Hp Hj.
  - cbn [params length] in Hj. assert (j = 0)%nat by lia. subst j.
    cbn [params nth with_param k_doc k_grad Nat.eqb]. unfold rbf_grad_at. cbv zeta. cbn [nth].
    auto_derive; [exact I|].
    replace (- g * (d * (d * 1)) / 2) with (- (1 / 2) * (d * d) * g) by field.
    simpl. replace (- g * (d * (d * 1)) * / 2) with (- (1 / 2) * (d * d) * g) by field. field.
  - cbn [params length] in Hj. assert (j = 0)%nat by lia. subst j.
    cbn [params nth with_param k_doc k_grad Nat.eqb]. unfold matern32_grad_at. cbv zeta. cbn [nth].
    auto_derive; [exact I|].
    replace (- g * d * sqrt 3) with (- (d * sqrt 3 * g)) by ring. ring.
  - assert (HT : 0 < T) by (apply Hp; cbn; auto).
    cbn [params length] in Hj. destruct j as [|[|j]]; [| |lia].
    + cbn [params nth with_param k_doc k_grad Nat.eqb]. unfold std_periodic_grad_at. cbv zeta. cbn [nth].
      auto_derive; [exact I|].
      replace (PI / T * d) with (PI * d * / T) by (field; lra).
      unfold Rdiv. set (q := sin (PI * d * / T)).
      replace (- g * / 2 * (q * (q * 1))) with (- (1 * / 2) * (q * q) * g) by field. field.
    + cbn [params nth with_param k_doc k_grad Nat.eqb]. unfold std_periodic_grad_at. cbv zeta. cbn [nth].
      auto_derive; [lra|].
      replace (PI / T * d) with (PI * d * / T) by (field; lra).
      unfold Rdiv. set (q := sin (PI * d * / T)).
      replace (- g * / 2 * (q * (q * 1))) with (- (1 * / 2) * (q * q) * g) by field. field. lra.
  - cbn [params length] in Hj. lia.
  - cbn [params] in *. rewrite app_length in Hj. cbn [length] in Hj.
    assert (Hp' : positive k) by (intros v Hv; apply Hp; cbn; apply in_or_app; auto).
    cbn [with_param k_grad]. destruct (Nat.eqb_spec j (length (params k))) as [E|E].
    + rewrite !app_nth2 by (rewrite ?map_length, ?k_grad_length; lia).
      rewrite map_length, k_grad_length. subst j. rewrite !Nat.sub_diag. cbn [nth k_doc].
      auto_derive; [exact I|]. ring.
    + rewrite !app_nth1 by (rewrite ?map_length, ?k_grad_length; lia).
      rewrite nth_map_scal. cbn [k_doc].
      apply (is_derive_scal (fun t => k_doc (with_param k j t) d) (nth j (params k) 0) s).
      apply IH; [assumption|lia].
Qed.

(** ** update_gradient *)

Lemma update_gradient_ok k grad :
  length grad = length (params k) ->
  exists k', update_gradient k grad = Ok k' /\ same_class k k' /\ params k' = grad.
Proof.
  revert grad. induction k as [g|g|g T| |k IH s]; intros grad L; cbn [params length] in L.
  - destruct grad as [|a [|? ?]]; try discriminate L. exists (RBF a). repeat split.
  - destruct grad as [|a [|? ?]]; try discriminate L. exists (Matern32 a). repeat split.
  - destruct grad as [|a [|b [|? ?]]]; try discriminate L. exists (StdPeriodic a b). repeat split.
  - destruct grad; try discriminate L. exists KIdentity. repeat split.
  - rewrite app_length in L. cbn [length] in L.
    destruct (list_eq_dec Req_EM_T grad []) as [->|NE]; [cbn in L; lia|].
    destruct (exists_last NE) as [front [lst E]]. subst grad.
    rewrite app_length in L. cbn [length] in L.
    destruct (IH front ltac:(lia)) as [k' [U [C P]]].
    exists (Scaled k' lst). cbn [update_gradient]. rewrite removelast_last, U. cbn [bind].
    unfold py_last. rewrite rev_app_distr. cbn [rev app bind].
    split; [reflexivity|]. split; [exact C|]. cbn [params]. rewrite P. reflexivity.
Qed.

(** ** Bounds *)

Lemma k_doc_zero k : unscaled k -> k_doc k 0 = 1.
Proof.
  destruct k; cbn [unscaled k_doc]; intros H; try tauto.
  - replace (- inv_lengthscale * 0 ^ 2 / 2) with 0 by field. apply exp_0.
  - rewrite !Rmult_0_l, Rmult_0_r, Rmult_0_l, exp_0. ring.
  - unfold Rdiv. rewrite Rmult_0_r, Rmult_0_l, sin_0.
    replace (- inv_lengthscale * / 2 * 0 ^ 2) with 0 by ring. apply exp_0.
  - destruct (Req_EM_T 0 0); lra.
Qed.

Lemma exp_le_1 x : x <= 0 -> exp x <= 1.
Proof. intros H. rewrite <- exp_0. destruct (Req_dec x 0) as [->|]; [lra|]. left. apply exp_increasing. lra. Qed.

Lemma matern_decr a b : 0 <= a -> a < b -> (1 + b) * exp (- b) < (1 + a) * exp (- a).
Proof.
  intros Ha Hab.
  replace (- a) with (- b + (b - a)) by ring. rewrite exp_plus.
  assert (E : 1 + (b - a) < exp (b - a)) by (apply exp_ineq1; lra).
  assert (P := exp_pos (- b)).
  assert (1 + b < (1 + a) * exp (b - a)).
  { apply Rle_lt_trans with ((1 + a) * (1 + (b - a))); [nra|]. apply Rmult_lt_compat_l; lra. }
  rewrite (Rmult_comm (exp (- b))), <- Rmult_assoc. apply Rmult_lt_compat_r; assumption.
Qed.

Lemma sqrt3_pos : 0 < sqrt 3.
Proof. apply sqrt_lt_R0; lra. Qed.

Lemma rbf_strict g r s : 0 < g -> 0 <= r -> r < s -> k_doc (RBF g) s < k_doc (RBF g) r.
Proof.
  intros Hg Hr Hs. cbn [k_doc]. apply exp_increasing.
  assert (r ^ 2 < s ^ 2) by nra. nra.
Qed.

Lemma matern32_strict g r s : 0 < g -> 0 <= r -> r < s -> k_doc (Matern32 g) s < k_doc (Matern32 g) r.
Proof.
  intros Hg Hr Hs. cbn [k_doc]. pose proof sqrt3_pos as H3.
  assert (Hp : 0 < g * sqrt 3) by nra.
  replace (- g * s * sqrt 3) with (- (s * g * sqrt 3)) by ring.
  replace (- g * r * sqrt 3) with (- (r * g * sqrt 3)) by ring.
  apply matern_decr; rewrite !Rmult_assoc.
  - apply Rmult_le_pos; lra.
  - apply Rmult_lt_compat_r; lra.
Qed.

Lemma k_doc_pos k r : positive k -> 0 <= r -> match k with RBF _ | Matern32 _ => 0 < k_doc k r | _ => True end.
Proof.
  destruct k; intros Hp Hr; try exact I; cbn [k_doc]; [apply exp_pos|].
  assert (Hg : 0 < inv_lengthscale) by (apply Hp; cbn; auto).
  pose proof sqrt3_pos. apply Rmult_lt_0_compat; [|apply exp_pos].
  assert (0 <= r * inv_lengthscale * sqrt 3) by (repeat apply Rmult_le_pos; lra). lra.
Qed.

Lemma k_doc_le_1 k r : unscaled k -> positive k -> 0 <= r -> Rabs (k_doc k r) <= 1.
Proof.
  intros Hu Hp Hr. destruct k; cbn [unscaled] in Hu; try tauto.
  - cbn [k_doc]. rewrite Rabs_pos_eq by (left; apply exp_pos). apply exp_le_1.
    assert (Hg : 0 < inv_lengthscale) by (apply Hp; cbn; auto). nra.
  - assert (P := k_doc_pos _ _ Hp Hr). cbn beta iota in P.
    rewrite Rabs_pos_eq by lra. rewrite <- (k_doc_zero (Matern32 inv_lengthscale) I).
    destruct (Req_dec r 0) as [->|]; [lra|]. left. apply matern32_strict; [|lra|lra].
    apply Hp; cbn; auto.
  - cbn [k_doc]. rewrite Rabs_pos_eq by (left; apply exp_pos). apply exp_le_1.
    assert (Hg : 0 < inv_lengthscale) by (apply Hp; cbn; auto).
    assert (0 <= (sin (PI * r / period)) ^ 2) by apply pow2_ge_0. nra.
  - cbn [k_doc]. destruct (Req_EM_T r 0); rewrite ?Rabs_R1, ?Rabs_R0; lra.
Qed.

Lemma periodic_period g T r : 0 < T -> k_doc (StdPeriodic g T) (r + T) = k_doc (StdPeriodic g T) r.
Proof.
  intros HT. cbn [k_doc].
  replace (PI * (r + T) / T) with (PI * r / T + PI) by (field; lra).
  rewrite neg_sin. f_equal. ring.
Qed.

(** ** to_gpy *)

Lemma to_gpy_ok k g r : positive k -> to_gpy k = Ok g -> gpy_at g r = k_doc k r.
Proof.
  intros Hp E. destruct k; cbn [to_gpy] in E; try discriminate E.
  - assert (Hg : 0 < inv_lengthscale) by (apply Hp; cbn; auto).
    injection E as <-. cbn [gpy_at k_doc]. unfold pow_mhalf. rewrite Rmult_1_l. f_equal.
    assert (S := sqrt_sqrt inv_lengthscale ltac:(lra)).
    assert (0 < sqrt inv_lengthscale) by (apply sqrt_lt_R0; lra).
    replace (r / / sqrt inv_lengthscale) with (r * sqrt inv_lengthscale) by (field; lra).
    replace ((r * sqrt inv_lengthscale) ^ 2) with (r * r * (sqrt inv_lengthscale * sqrt inv_lengthscale)) by ring.
    rewrite S. field.
  - assert (Hg : 0 < inv_lengthscale) by (apply Hp; cbn; auto).
    injection E as <-. cbn [gpy_at k_doc].
    replace (sqrt 3 * (r / (1 / inv_lengthscale))) with (r * inv_lengthscale * sqrt 3) by (field; lra).
    replace (- inv_lengthscale * r * sqrt 3) with (- (r * inv_lengthscale * sqrt 3)) by ring. ring.
  - assert (Hg : 0 < inv_lengthscale) by (apply Hp; cbn; auto).
    injection E as <-. cbn [gpy_at k_doc]. unfold pow_mhalf. rewrite Rmult_1_l. f_equal.
    assert (S := sqrt_sqrt inv_lengthscale ltac:(lra)).
    assert (0 < sqrt inv_lengthscale) by (apply sqrt_lt_R0; lra).
    set (q := sin (PI * r / period)).
    replace ((q / / sqrt inv_lengthscale) ^ 2) with (q * q * (sqrt inv_lengthscale * sqrt inv_lengthscale))
      by (field; lra).
    rewrite S. field.
Qed.

(** ** Linked parameters *)

Fixpoint depth_scaled (k : kern) : nat := match k with Scaled k _ => S (depth_scaled k) | _ => 0 end.

Lemma linked_length k n : (length (linked_at n k) + depth_scaled k = length (params k))%nat.
Proof.
  revert n. induction k as [g|g|g T| |k IH s]; intros n; cbn [linked_at depth_scaled params]; try reflexivity.
  rewrite app_length. cbn [length]. specialize (IH (S n)). lia.
Qed.
