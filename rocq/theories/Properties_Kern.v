(** Properties of runlmc/kern (C30, C31, C32, C48). *)

From Coq Require Import Reals List Arith Lia Lra.
From Coquelicot Require Import Coquelicot.
From Verif Require Import Base NDArray Model_Util Model_Linalg Model_Kern Spec_Kern PSD Proofs_Kern Proofs_KernPSD.
Import ListNotations.
Open Scope R_scope.

Lemma periods_ok_no_tiny k : periods_ok k -> no_tiny_period k.
Proof. induction k; cbn; intros; auto; lra. Qed.

Lemma params_with_other k j v x :
  In x (params (with_param k j v)) -> x = v \/ In x (params k).
Proof.
  revert j. induction k as [g|g|g T| |k IH s]; intros j; cbn [with_param].
  - destruct (Nat.eqb j 0); cbn; intuition.
  - destruct (Nat.eqb j 0); cbn; intuition.
  - destruct (Nat.eqb j 0); [|destruct (Nat.eqb j 1)]; cbn; intuition.
  - cbn; intuition.
  - destruct (Nat.eqb j (length (params k))); cbn [params]; rewrite !in_app_iff; cbn [In].
    + intuition.
    + intros [H|H]; [destruct (IH j H); auto|auto].
Qed.

Lemma periods_locally k j :
  positive k -> periods_ok k -> (j < length (params k))%nat ->
  locally (nth j (params k) 0) (fun t => no_tiny_period (with_param k j t)).
Proof.
  revert j. induction k as [g|g|g T| |k IH s]; intros j Hp Hk Hj; cbn [with_param].
  - destruct (Nat.eqb j 0); apply filter_forall; intros; exact I.
  - destruct (Nat.eqb j 0); apply filter_forall; intros; exact I.
  - cbn [periods_ok] in Hk.
    destruct (Nat.eqb_spec j 0); [apply filter_forall; intros; cbn; lra|].
    destruct (Nat.eqb_spec j 1); [|apply filter_forall; intros; cbn; lra].
    subst j. cbn [params nth]. assert (HT : 0 < T) by (apply Hp; cbn; auto).
    assert (C : continuous ln T).
    { apply (ex_derive_continuous ln). auto_derive. assumption. }
    apply (C (fun y => -200 <= y)). apply (locally_interval _ (ln T) (-200) p_infty); cbn; auto.
    intros y Hy _. lra.
  - cbn in Hj. lia.
  - cbn [params] in *. rewrite app_length in Hj. cbn [length] in Hj.
    destruct (Nat.eqb_spec j (length (params k))) as [E|E].
    + apply filter_forall. intros. cbn [no_tiny_period]. apply periods_ok_no_tiny. exact Hk.
    + rewrite app_nth1 by lia. cbn [no_tiny_period]. apply IH; [|exact Hk|lia].
      intros v Hv. apply Hp. cbn. apply in_or_app; auto.
Qed.

Lemma positive_locally k j :
  positive k -> (j < length (params k))%nat ->
  locally (nth j (params k) 0) (fun t => positive (with_param k j t)).
Proof.
  intros Hp Hj. assert (P : 0 < nth j (params k) 0) by (apply Hp, nth_In; assumption).
  apply (locally_interval _ _ 0 p_infty); cbn; auto.
  intros y Hy _ v Hv. destruct (params_with_other k j y v Hv) as [->|]; [assumption|apply Hp; assumption].
Qed.

(** C30: row [j] of [kernel_gradient] holds, at every distance of the array,
    the partial derivative of what [from_dist] returns with respect to
    parameter [j]. *)
Theorem C30_kernel_gradient k a :
  positive k -> periods_ok k -> a_shape a <> [] ->
  exists grads, kernel_gradient k a = Ok (map KArr grads) /\
    length grads = length (params k) /\
    forall j i, (j < length (params k))%nat -> (i < length (a_data a))%nat ->
      a_shape (nth j grads (mk_arr [] [])) = a_shape a /\
      length (a_data (nth j grads (mk_arr [] []))) = length (a_data a) /\
      is_derive (fun t => cell i (from_dist (with_param k j t) (Arr a)))
                (nth j (params k) 0)
                (vget (a_data (nth j grads (mk_arr [] []))) i).
Proof.
  intros Hp Hk Ha.
  exists (tab (length (params k)) (fun j => mk_arr (a_shape a) (map (fun d => nth j (k_grad k d) 0) (a_data a)))).
  rewrite kernel_gradient_arr by (try assumption; apply periods_ok_no_tiny; assumption).
  rewrite map_tab, tab_length. split; [reflexivity|]. split; [reflexivity|].
  intros j i Hj Hi. rewrite !nth_tab by assumption. cbn [a_shape a_data]. rewrite map_length.
  split; [reflexivity|]. split; [reflexivity|].
  unfold vget.
  replace (nth i (map (fun d => nth j (k_grad k d) 0) (a_data a)) 0)
    with (nth j (k_grad k (nth i (a_data a) 0)) 0).
  2:{ rewrite (nth_indep (map _ _) 0 ((fun d => nth j (k_grad k d) 0) 0)) by (rewrite map_length; assumption).
      symmetry. apply (map_nth (fun d => nth j (k_grad k d) 0)). }
  apply (is_derive_ext_loc (fun t => k_doc (with_param k j t) (nth i (a_data a) 0))).
  - apply (filter_imp (fun t => positive (with_param k j t) /\ no_tiny_period (with_param k j t))).
    + intros t [P N]. rewrite from_dist_arr by assumption. cbn [cell a_data]. unfold vget.
      rewrite (nth_indep (map _ _) 0 (k_doc (with_param k j t) 0)) by (rewrite map_length; assumption).
      rewrite map_nth. reflexivity.
    + apply filter_and; [apply positive_locally|apply periods_locally]; assumption.
  - apply k_grad_derive; assumption.
Qed.
Print Assumptions C30_kernel_gradient.

(** C30: [update_gradient] puts entry [j] into parameter [j]. *)
Theorem C30_update_gradient k grad :
  length grad = length (params k) ->
  exists k', update_gradient k grad = Ok k' /\ same_class k k' /\ params k' = grad.
Proof. exact (update_gradient_ok k grad). Qed.
Print Assumptions C30_update_gradient.

Example C30_ex : exists k a grads,
  positive k /\ periods_ok k /\ a_shape a <> [] /\ length (params k) = 3%nat /\
  kernel_gradient k a = Ok grads /\ length grads = 3%nat /\
  update_gradient k [1; 2; 3] = Ok (Scaled (StdPeriodic 1 2) 3).
Proof.
  exists (Scaled (StdPeriodic 2 3) 5), (mk_arr [1%nat; 2%nat] [0; 1]).
  eexists. split; [|split; [|split; [|split; [|split; [|split]]]]].
  - intros v Hv. cbn in Hv. intuition lra.
  - cbn. assert (0 < ln 3) by (rewrite <- ln_1; apply ln_increasing; lra). lra.
  - discriminate.
  - reflexivity.
  - rewrite kernel_gradient_arr; [reflexivity| |cbn; assert (0 < ln 3) by (rewrite <- ln_1; apply ln_increasing; lra); lra|discriminate].
    intros v Hv. cbn in Hv. intuition lra.
  - reflexivity.
  - reflexivity.
Qed.

(** C31: on arrays, [from_dist] is the documented function, entry by entry. *)
Theorem C31_documented_formula k a :
  positive k -> no_tiny_period k -> a_shape a <> [] ->
  from_dist k (Arr a) = Ok (KArr (mk_arr (a_shape a) (map (k_doc k) (a_data a)))).
Proof. exact (from_dist_arr k a). Qed.
Print Assumptions C31_documented_formula.

Lemma kval_doc k d v : positive k -> kval k d v -> no_tiny_period k /\ v = k_doc k d.
Proof.
  intros Hp H. unfold kval in H.
  assert (N : no_tiny_period k).
  { assert (Dec : no_tiny_period k \/ ~ no_tiny_period k).
    { clear. induction k; cbn; auto. destruct (Rle_dec (-200) (ln period)); auto. }
    destruct Dec as [N|N]; [exact N|]. rewrite from_dist_nan in H by assumption. discriminate H. }
  split; [exact N|]. rewrite from_dist_arr in H by (try assumption; discriminate).
  cbn [map a_data a_shape] in H. injection H as H. symmetry. exact H.
Qed.

(** C31: unscaled kernels are correlations. *)
Theorem C31_correlation k d v :
  unscaled k -> positive k -> 0 <= d -> kval k d v -> Rabs v <= 1 /\ (d = 0 -> v = 1).
Proof.
  intros Hu Hp Hd H. destruct (kval_doc k d v Hp H) as [_ ->].
  split; [apply k_doc_le_1; assumption|]. intros ->. apply k_doc_zero. assumption.
Qed.
Print Assumptions C31_correlation.

(** C31: RBF and Matern-3/2 decrease strictly from 1 towards 0. *)
Theorem C31_decreasing k r s u v :
  (exists g, k = RBF g \/ k = Matern32 g) -> positive k -> 0 <= r -> r < s ->
  kval k r u -> kval k s v -> 0 < v /\ v < u /\ u <= 1.
Proof.
  intros [g Hg] Hp Hr Hs Hu Hv.
  destruct (kval_doc k r u Hp Hu) as [_ ->]. destruct (kval_doc k s v Hp Hv) as [_ ->].
  assert (G : 0 < g) by (apply Hp; destruct Hg as [-> | ->]; cbn; auto).
  assert (U : Rabs (k_doc k r) <= 1) by (apply k_doc_le_1; destruct Hg as [-> | ->]; cbn; auto).
  assert (P := k_doc_pos k s Hp ltac:(lra)). assert (P' := k_doc_pos k r Hp Hr).
  destruct Hg as [-> | ->]; cbn beta iota in P, P'.
  - split; [exact P|]. split; [apply rbf_strict; lra|]. rewrite Rabs_pos_eq in U; lra.
  - split; [exact P|]. split; [apply matern32_strict; lra|]. rewrite Rabs_pos_eq in U; lra.
Qed.
Print Assumptions C31_decreasing.

(** C31: StdPeriodic has period T. *)
Theorem C31_period g T d v : 0 < T -> 0 < g -> kval (StdPeriodic g T) d v -> kval (StdPeriodic g T) (d + T) v.
Proof.
  intros HT Hg H.
  assert (Hp : positive (StdPeriodic g T)) by (intros x Hx; cbn in Hx; intuition (subst; assumption)).
  destruct (kval_doc _ d v Hp H) as [N ->]. unfold kval.
  rewrite from_dist_arr by (try assumption; discriminate). cbn [a_shape a_data map].
  rewrite periodic_period by assumption. reflexivity.
Qed.
Print Assumptions C31_period.

(** C31: [to_gpy] describes the same function (GPy's formulas as in its
    manual); Identity and Scaled refuse. *)
Theorem C31_to_gpy k :
  positive k ->
  match to_gpy k with
  | Ok g => unscaled k /\ forall r, gpy_at g r = k_doc k r
  | Err e => e = NotImplementedError /\ (k = KIdentity \/ ~ unscaled k)
  end.
Proof.
  intros Hp. destruct (to_gpy k) as [g|e] eqn:E.
  - split; [destruct k; cbn in *; try exact I; discriminate E|]. intros r. apply to_gpy_ok; assumption.
  - destruct k; cbn in E; try discriminate E; injection E as <-; cbn; auto.
Qed.
Print Assumptions C31_to_gpy.

(** C31 fails for periods below e^-200 (about 1.4e-87): the value is nan. *)
Theorem C31_tiny_period_refuted :
  exists k, positive k /\ unscaled k /\ forall d, from_dist k d = Ok KNan.
Proof.
  exists (StdPeriodic 1 (exp (-201))). split; [|split; [exact I|]].
  - intros v Hv. cbn in Hv. destruct Hv as [<-|[<-|[]]]; [lra|apply exp_pos].
  - intros d. apply from_dist_nan. cbn. rewrite ln_exp. lra.
Qed.
Print Assumptions C31_tiny_period_refuted.

Example C31_ex : kval (StdPeriodic 2 3) 0 1 /\ kval (RBF 2) 1 (exp (-1)) /\ kval (Matern32 1) 0 1.
Proof.
  assert (L3 : 0 < ln 3) by (rewrite <- ln_1; apply ln_increasing; lra).
  split; [|split]; unfold kval; (rewrite from_dist_arr;
    [ | intros v Hv; cbn in Hv; intuition lra | cbn; try exact I; lra | discriminate]);
    cbn [a_shape a_data map]; do 4 f_equal.
  - apply k_doc_zero. exact I.
  - cbn [k_doc]. f_equal. field.
  - apply k_doc_zero. exact I.
Qed.

(** C32: every supplied kernel gives a positive semi-definite matrix on any
    finite set of points of any dimension, StdPeriodic on one dimension.
    Missing (and false, see below): StdPeriodic on two or more active
    dimensions. *)
Theorem C32_psd_partial P k n (x : nat -> nat -> R) (c : nat -> R) (K : nat -> nat -> R) :
  positive k -> (has_periodic k = true -> P = 1%nat) ->
  (forall i j, (i < n)%nat -> (j < n)%nat -> kval k (euclid P (x i) (x j)) (K i j)) ->
  0 <= Rsum n (fun i => Rsum n (fun j => c i * c j * K i j)).
Proof.
  intros Hp HP HK.
  rewrite (Rsum_ext n _ (fun i => Rsum n (fun j => c i * c j * k_doc k (euclid P (x i) (x j))))).
  - apply (pd_kernel P k Hp HP).
  - intros i Hi. apply Rsum_ext. intros j Hj.
    destruct (kval_doc k _ _ Hp (HK i j Hi Hj)) as [_ ->]. reflexivity.
Qed.
Print Assumptions C32_psd_partial.

(** C32: StdPeriodic with two or more active dimensions is never a positive
    semi-definite kernel, whatever its parameters. *)
Theorem C32_std_periodic_2d_refuted P g T :
  (2 <= P)%nat -> 0 < g -> 0 < T -> -200 <= ln T ->
  exists n (x : nat -> nat -> R) (c : nat -> R) (K : nat -> nat -> R),
    (forall i j, (i < n)%nat -> (j < n)%nat -> kval (StdPeriodic g T) (euclid P (x i) (x j)) (K i j)) /\
    Rsum n (fun i => Rsum n (fun j => c i * c j * K i j)) < 0.
Proof.
  intros HP Hg HT HL.
  exists 3%nat, (corner T), (fun i => if Nat.eqb i 0 then -2 else 1),
         (fun i j => k_doc (StdPeriodic g T) (euclid P (corner T i) (corner T j))).
  split.
  - intros i j _ _. unfold kval. rewrite from_dist_arr; [reflexivity| |exact HL|discriminate].
    intros v Hv; cbn in Hv; intuition (subst; assumption).
  - apply periodic_not_pd; assumption.
Qed.
Print Assumptions C32_std_periodic_2d_refuted.

Example C32_ex :
  positive (Scaled (Matern32 2) 3) /\ (has_periodic (Scaled (Matern32 2) 3) = true -> 2%nat = 1%nat) /\
  kval (Scaled (Matern32 2) 3) (euclid 2 (fun p => INR p) (fun p => INR p)) 3.
Proof.
  split; [|split; [discriminate|]].
  - intros v Hv. cbn in Hv. intuition lra.
  - unfold kval. rewrite from_dist_arr; [ |intros v Hv; cbn in Hv; intuition lra|exact I|discriminate].
    cbn [a_shape a_data map]. do 4 f_equal. cbn [k_doc].
    replace (euclid 2 _ _) with 0; [fold (k_doc (Matern32 2) 0); rewrite k_doc_zero by exact I; ring|].
    symmetry. rewrite euclid_sqd. replace (sqd 2 _ _) with 0; [apply sqrt_0|].
    symmetry. apply sqd_zero. reflexivity.
Qed.

(** C48: for unscaled kernels the linked parameters are exactly those with a
    gradient, in the same order. *)
Theorem C48_linked_partial k a gs :
  unscaled k -> kernel_gradient k a = Ok gs ->
  map snd (linked k) = params k /\ length (linked k) = length gs.
Proof.
  intros Hu E. destruct k; cbn in Hu; try tauto; cbn [kernel_gradient] in E;
    apply (f_equal (fun r => match r with Ok l => length l | Err _ => 0%nat end)) in E;
    cbn in E; split; try reflexivity; rewrite <- E; reflexivity.
Qed.
Print Assumptions C48_linked_partial.

(** C48, every kernel: each [Scaled] level reports one gradient more than it
    links parameters, for the [scale] that is never linked. *)
Theorem C48_gradient_count_partial k a :
  positive k -> no_tiny_period k -> a_shape a <> [] ->
  exists gs, kernel_gradient k a = Ok gs /\ length gs = (length (linked k) + depth_scaled k)%nat.
Proof.
  intros Hp Hn Ha. eexists. split; [apply kernel_gradient_arr; assumption|].
  rewrite tab_length. symmetry. apply linked_length.
Qed.
Print Assumptions C48_gradient_count_partial.

(** C48 fails for Scaled kernels: two gradients, one optimisable parameter. *)
Theorem C48_scaled_refuted : exists k a gs, positive k /\ kernel_gradient k a = Ok gs /\
  length gs = 2%nat /\ length (linked k) = 1%nat.
Proof.
  exists (Scaled (RBF 1) 1), (mk_arr [1%nat] [0]). eexists. split; [intros v Hv; cbn in Hv; intuition lra|].
  split; [apply kernel_gradient_arr; [intros v Hv; cbn in Hv; intuition lra|exact I|discriminate]|].
  split; reflexivity.
Qed.
Print Assumptions C48_scaled_refuted.

Example C48_ex : unscaled (StdPeriodic 2 3) /\ map snd (linked (StdPeriodic 2 3)) = [2; 3] /\
  exists gs, kernel_gradient (StdPeriodic 2 3) (mk_arr [1%nat] [1]) = Ok gs.
Proof.
  assert (L3 : 0 < ln 3) by (rewrite <- ln_1; apply ln_increasing; lra).
  split; [exact I|]. split; [reflexivity|]. eexists.
  apply kernel_gradient_arr; [intros v Hv; cbn in Hv; intuition lra|cbn; lra|discriminate].
Qed.
