(** Claims about the scores (C69) and the data splits (C70) of the benchmarks. *)

From Coq Require Import Reals List Arith Lia Lra Sorting.Permutation.
From Verif Require Import Base NDArray Model_Linalg Model_Util Proofs_Linalg Proofs_FK Model_Bench Spec_Bench Proofs_Bench.
From Verif Require Import Model_Interp Model_Kern Spec_Kern Model_FK Spec_FK Model_Grid Model_Lik Spec_Lik Spec_GP Model_GP Spec_Pred Proofs_Pred4 Spec_Units Proofs_Pred2 Proofs_Pred6 Proofs_Units5  Properties_Pred Properties_Units.
Import ListNotations.
Open Scope R_scope.

(** ** C69 *)

Lemma average_ext n p f g : (forall d, (d < n)%nat -> p d = true -> f d = g d) -> average n p f = average n p g.
Proof. intros H. unfold average. f_equal. apply Rsum_ext. intros d Hd. destruct (p d) eqn:E; [now apply H|reflexivity]. Qed.
Lemma average_count n p : (exists d, (d < n)%nat /\ p d = true) -> 0 < Rsum n (fun d => if p d then 1 else 0).
Proof.
  intros [d [Hd Hp]]. apply Rlt_le_trans with 1; [lra|]. pose proof (Rsum_delta n d (fun _ => 1) Hd) as E. cbv beta in E. eapply Rle_trans; [right; symmetry; exact E|]. apply Rsum_le. intros i Hi.
  destruct (Nat.eqb_spec i d) as [->|]; [rewrite Hp; lra|]. destruct (p i); lra.
Qed.
Lemma average_plus n p f g : average n p (fun d => f d + g d) = average n p f + average n p g.
Proof. unfold average. rewrite <- Rdiv_plus_distr, <- Rsum_plus. f_equal. apply Rsum_ext. intros d _. destruct (p d); lra. Qed.
Lemma average_const n p c : (exists d, (d < n)%nat /\ p d = true) -> average n p (fun _ => c) = c.
Proof.
  intros H. apply average_count in H. unfold average. rewrite (Rsum_ext n (fun d => if p d then c else 0) (fun d => c * (if p d then 1 else 0))) by (intros; destruct (p i); ring).
  rewrite Rsum_scal_l. field. lra.
Qed.
Lemma average_zero n p f : (forall d, p d = true -> 0 <= f d) -> (exists d, (d < n)%nat /\ p d = true) ->
  0 <= average n p f /\ (average n p f = 0 <-> forall d, (d < n)%nat -> p d = true -> f d = 0).
Proof.
  intros Hf Hex. pose proof (average_count n p Hex) as Hc. unfold average. set (g := fun d => if p d then f d else 0).
  assert (G : forall d, 0 <= g d) by (intros d; unfold g; destruct (p d) eqn:E; [now apply Hf|lra]).
  assert (S0 : 0 <= Rsum n g) by (apply Rsum_nonneg; intros; apply G).
  split; [apply Rmult_le_pos; [exact S0|apply Rlt_le, Rinv_0_lt_compat, Hc]|]. split.
  - intros H. assert (Z : Rsum n g = 0). { apply (Rmult_eq_reg_r (/ Rsum n (fun d => if p d then 1 else 0))); [|apply Rinv_neq_0_compat; lra]. rewrite Rmult_0_l. exact H. }
    intros d Hd Hp. assert (Hle : g d <= Rsum n g). { rewrite <- (Rsum_delta n d g) by exact Hd. apply Rsum_le. intros i Hi. destruct (Nat.eqb_spec i d); [lra|apply G]. }
    pose proof (G d). unfold g in *. rewrite Hp in *. lra.
  - intros H. rewrite (Rsum_zero n g); [unfold Rdiv; ring|]. intros d Hd. unfold g. destruct (p d) eqn:E; [now apply H|reflexivity].
Qed.

Lemma Rsum_sq_zero n (f : nat -> R) : Rsum n (fun i => f i ^ 2) = 0 <-> forall i, (i < n)%nat -> f i = 0.
Proof.
  split.
  - intros H i Hi. assert (Hle : f i ^ 2 <= Rsum n (fun i => f i ^ 2)).
    { rewrite <- (Rsum_delta n i (fun i => f i ^ 2)) by exact Hi. apply Rsum_le. intros j Hj. pose proof (pow2_ge_0 (f j)). destruct (Nat.eqb_spec j i); lra. }
    pose proof (pow2_ge_0 (f i)). apply Rsqr_0_uniq. unfold Rsqr. lra.
  - intros H. apply Rsum_zero. intros i Hi. rewrite H by exact Hi. ring.
Qed.
Lemma sq_pos n (f : nat -> R) i : (i < n)%nat -> f i <> 0 -> 0 < Rsum n (fun i => f i ^ 2).
Proof.
  intros Hi Hf. assert (0 <= Rsum n (fun i => f i ^ 2)) by (apply Rsum_nonneg; intros; apply pow2_ge_0).
  destruct H as [H|H]; [exact H|]. exfalso. apply Hf. symmetry in H. exact (proj1 (Rsum_sq_zero n f) H i Hi).
Qed.
Lemma tested_lt T d : tested T d = true -> (d < length T)%nat.
Proof. unfold tested, n_ent. intros H. destruct (le_lt_dec (length T) d) as [L|L]; [rewrite nth_overflow in H by exact L; discriminate H|exact L]. Qed.
Lemma n_ent_lt T d i : (i < n_ent T d)%nat -> tested T d = true.
Proof. intros H. unfold tested. apply Nat.ltb_lt. lia. Qed.

Lemma units_length c b Y : length (units c b Y) = length Y.
Proof. unfold units. now rewrite map_length, seq_length. Qed.
Lemma units_nth c b Y d : nth d (units c b Y) [] = map (fun y => c d * y + b d) (nth d Y []).
Proof.
  destruct (le_lt_dec (length Y) d) as [L|L].
  - rewrite !nth_overflow by (rewrite ?units_length; exact L). reflexivity.
  - unfold units. rewrite (nth_indep _ [] (map (fun y => c 0%nat * y + b 0%nat) (nth 0 Y []))) by (rewrite map_length, seq_length; exact L).
    rewrite (map_nth (fun d => map (fun y => c d * y + b d) (nth d Y []))), seq_nth by exact L. reflexivity.
Qed.
Lemma units_n c b Y d : n_ent (units c b Y) d = n_ent Y d.
Proof. unfold n_ent. now rewrite units_nth, map_length. Qed.
Lemma units_ent c b Y d i : (i < n_ent Y d)%nat -> ent (units c b Y) d i = c d * ent Y d i + b d.
Proof. intros H. unfold ent. rewrite units_nth. unfold n_ent in H. rewrite (nth_indep _ 0 (c d * 0 + b d)) by (rewrite map_length; exact H). apply (map_nth (fun y => c d * y + b d)). Qed.
Lemma units_shape c b c' b' Y Z : same_shape Y Z -> same_shape (units c b Y) (units c' b' Z).
Proof. intros [H1 H2]. split; [now rewrite !units_length|]. intros d. now rewrite !units_n. Qed.
Lemma units_tested c b Y d : tested (units c b Y) d = tested Y d.
Proof. unfold tested. now rewrite units_n. Qed.
Lemma units_mean c b Y d : nth d Y [] <> [] -> mean_of (units c b Y) d = c d * mean_of Y d + b d.
Proof.
  intros H. unfold mean_of. rewrite units_n. rewrite (Rsum_ext _ (ent (units c b Y) d) (fun i => c d * ent Y d i + b d)) by (intros; now apply units_ent).
  rewrite Rsum_plus, Rsum_scal_l, Rsum_const. assert (INR (n_ent Y d) <> 0). { apply not_0_INR. intros Z. apply H. now apply length_zero_iff_nil. }
  field. assumption.
Qed.

(** What the benchmarks print as "smse": for predictions of the shape of the
    test outputs, the average over the outputs that have test points of the
    squared error relative to that of predicting the mean of the training
    outputs.  It is 0 exactly for perfect predictions, 1 for the training mean,
    and does not depend on the units of the outputs. *)
Theorem C69_smse :
  forall T P C, same_shape P T -> length C = length T -> (exists d, tested T d = true) ->
  (forall d, tested T d = true -> nth d C [] <> []) ->
  (forall d, tested T d = true -> exists i, (i < n_ent T d)%nat /\ ent T d i <> mean_of C d) ->
  exists v, smse T P C = Ok (Some v) /\
  v = average (length T) (tested T) (fun d => sq_error T P d / sq_spread T C d) /\
  0 <= v /\ (v = 0 <-> forall d i, (i < n_ent T d)%nat -> ent P d i = ent T d i) /\
  ((forall d i, (i < n_ent T d)%nat -> ent P d i = mean_of C d) -> v = 1) /\
  forall c b, (forall d, c d <> 0) -> smse (units c b T) (units c b P) (units c b C) = Ok (Some v).
Proof.
  intros T P C HP HC Hex Htr Hsp.
  assert (Sp : forall d, tested T d = true -> 0 < sq_spread T C d).
  { intros d Hd. destruct (Hsp d Hd) as [i [Hi Hne]]. apply (sq_pos _ (fun i => ent T d i - mean_of C d) i Hi). lra. }
  assert (Hex' : exists d, (d < length T)%nat /\ tested T d = true) by (destruct Hex as [d Hd]; exists d; split; [now apply tested_lt|exact Hd]).
  exists (average (length T) (tested T) (fun d => sq_error T P d / sq_spread T C d)).
  split. { apply smse_value; try assumption. intros d Hd. pose proof (Sp d Hd). lra. }
  split; [reflexivity|].
  destruct (average_zero (length T) (tested T) (fun d => sq_error T P d / sq_spread T C d)) as [A1 A2]; [|exact Hex'|].
  { intros d Hd. pose proof (Sp d Hd). apply Rmult_le_pos; [apply Rsum_nonneg; intros; apply pow2_ge_0|apply Rlt_le, Rinv_0_lt_compat; lra]. }
  split; [exact A1|]. split; [|split].
  - rewrite A2. split.
    + intros H d i Hi. pose proof (n_ent_lt T d i Hi) as Hd. specialize (H d (tested_lt T d Hd) Hd). pose proof (Sp d Hd).
      assert (Z : sq_error T P d = 0). { apply (Rmult_eq_reg_r (/ sq_spread T C d)); [|apply Rinv_neq_0_compat; lra]. rewrite Rmult_0_l. exact H. }
      pose proof (proj1 (Rsum_sq_zero _ (fun i => ent T d i - ent P d i)) Z i Hi) as Q. cbv beta in Q. lra.
    + intros H d _ Hd. unfold sq_error. rewrite Rsum_zero; [unfold Rdiv; ring|]. intros i Hi. rewrite (H d i Hi). ring.
  - intros H. rewrite (average_ext _ _ _ (fun _ => 1)); [now apply average_const|]. intros d _ Hd. pose proof (Sp d Hd).
    replace (sq_error T P d) with (sq_spread T C d); [field; lra|]. unfold sq_spread, sq_error. apply Rsum_ext. intros i Hi. now rewrite (H d i Hi).
  - intros c b Hc.
    assert (E1 : forall d, sq_error (units c b T) (units c b P) d = c d ^ 2 * sq_error T P d).
    { intros d. unfold sq_error. rewrite units_n, <- Rsum_scal_l. apply Rsum_ext. intros i Hi. rewrite !units_ent by (try exact Hi; destruct HP as [_ ->]; exact Hi). ring. }
    assert (E2 : forall d, tested T d = true -> sq_spread (units c b T) (units c b C) d = c d ^ 2 * sq_spread T C d).
    { intros d Hd. unfold sq_spread. rewrite units_n, <- Rsum_scal_l. apply Rsum_ext. intros i Hi. rewrite units_ent, units_mean by (try exact Hi; now apply Htr). ring. }
    rewrite smse_value.
    + do 2 f_equal. rewrite units_length. unfold average.
      rewrite (Rsum_ext _ (fun d => if tested (units c b T) d then 1 else 0) (fun d => if tested T d then 1 else 0)) by (intros; now rewrite units_tested).
      f_equal. apply Rsum_ext. intros d _. rewrite units_tested. destruct (tested T d) eqn:Hd; [|reflexivity]. rewrite E1, E2 by exact Hd. pose proof (Sp d Hd). specialize (Hc d). field. split; [lra|exact Hc].
    + now apply units_shape.
    + now rewrite !units_length.
    + intros d. rewrite units_tested. intros Hd E. rewrite units_nth in E. apply map_eq_nil in E. now apply (Htr d Hd).
    + intros d. rewrite units_tested. intros Hd. rewrite E2 by exact Hd. pose proof (Sp d Hd). pose proof (pow_nonzero (c d) 2 (Hc d)). apply Rmult_integral_contrapositive. split; lra.
    + destruct Hex as [d Hd]. exists d. now rewrite units_tested.
Qed.
Print Assumptions C69_smse.

(** If the test values of an output are all equal to the mean of its training
    values the score is undefined (nan or inf). *)
Lemma npf_mean_none l : In None l -> npf_mean l = None.
Proof.
  intros H. destruct l as [|x l]; [reflexivity|]. unfold npf_mean.
  assert (E : fold_right (fun x acc => match x, acc with Some a, Some s => Some (a + s) | _, _ => None end) (Some 0) (x :: l) = None); [|now rewrite E].
  revert H. generalize (x :: l) as m. induction m as [|y m IH]; [easy|]. intros [->|H]; cbn; [reflexivity|]. rewrite IH by exact H. now destruct y.
Qed.

Theorem C69_smse_undefined :
  forall T P C, same_shape P T -> length C = length T ->
  (forall d, tested T d = true -> nth d C [] <> []) ->
  (exists d, tested T d = true /\ forall i, (i < n_ent T d)%nat -> ent T d i = mean_of C d) ->
  smse T P C = Ok None.
Proof.
  intros T P C HP HC Htr (d0 & Hd0 & Z0). unfold smse. rewrite (filter_cols_nth T P C (length T)) by (try reflexivity; try apply HP; exact HC). cbv zeta. cbn [bind].
  rewrite zip3_map, map_result_map'.
  rewrite (Proofs_FK.map_result_all _ (fun d => npf_div (Some (sq_error T P d / INR (n_ent T d))) (Some (sq_spread T C d / INR (n_ent T d))))).
  - cbn [bind]. f_equal. apply npf_mean_none. apply in_map_iff. exists d0. split.
    + unfold npf_div. destruct (Req_EM_T _ 0) as [_|N]; [reflexivity|]. destruct N. unfold sq_spread. rewrite Rsum_zero; [unfold Rdiv; ring|].
      intros i Hi. rewrite (Z0 i Hi). ring.
    + apply filter_In. split; [|exact Hd0]. apply in_seq. pose proof (tested_lt T d0 Hd0). lia.
  - intros d Hd. apply filter_In in Hd. destruct Hd as [_ Hd]. pose proof (Htr d Hd) as Htr'.
    unfold tested in Hd. apply Nat.ltb_lt in Hd. destruct HP as [HP1 HP2]. specialize (HP2 d). unfold n_ent in *.
    set (t := nth d T []) in *. set (p := nth d P []) in *. set (c := nth d C []) in *.
    unfold np_sub. rewrite HP2, Nat.eqb_refl. cbn [bind].
    match goal with |- context [arr_mean (nth d C ?e)] => change (arr_mean (nth d C e)) with (arr_mean c) end. rewrite (arr_mean_some c) by exact Htr'.
    rewrite !arr_mean_some.
    2:{ unfold np_square. intros E. do 2 apply map_eq_nil in E. rewrite E in Hd. cbn in Hd. lia. }
    2:{ unfold np_square. intros E. apply map_eq_nil in E. apply (f_equal (@length R)) in E. rewrite tab_length in E. cbn in E. lia. }
    assert (E1 : lsum (np_square (tab (length t) (fun i => vget t i - vget p i))) = sq_error T P d).
    { unfold np_square, tab. rewrite map_map, lsum_seq. reflexivity. }
    assert (E2 : lsum (np_square (map (fun y => lsum c / INR (length c) - y) t)) = sq_spread T C d).
    { rewrite lsum_sq_map. unfold sq_spread, n_ent. apply Rsum_ext. intros i Hi. unfold mean_of, n_ent, ent. fold c t.
      assert (L : lsum c = Rsum (length c) (fun j => nth j c 0)) by (rewrite (vec_tab c) at 1; apply lsum_seq).
      rewrite L. change ((Rsum (length c) (fun j => nth j c 0) / INR (length c) - vget t i) ^ 2 = (vget t i - Rsum (length c) (fun j => nth j c 0) / INR (length c)) ^ 2). ring. }
    rewrite E1, E2. unfold np_square. rewrite !map_length, tab_length. reflexivity.
Qed.
Print Assumptions C69_smse_undefined.

(** Both test values are the mean of the training values. *)
Example smse_undefined_example : smse [[2; 2]; [1]] [[1; 3]; [0]] [[1; 3]; [0]] = Ok None.
Proof.
  apply C69_smse_undefined; [split; [reflexivity|]; intros [|[|[|d]]]; reflexivity|reflexivity| |].
  - intros [|[|[|d]]] H; cbn in *; discriminate.
  - exists 0%nat. split; [reflexivity|]. intros [|[|i]] H; cbn in H; try lia; unfold mean_of, n_ent, ent; cbn; field.
Qed.

(** Two outputs, one without test points. *)
Example smse_example : exists T P C, same_shape P T /\ length C = length T /\ (exists d, tested T d = true) /\
  (forall d, tested T d = true -> nth d C [] <> []) /\
  (forall d, tested T d = true -> exists i, (i < n_ent T d)%nat /\ ent T d i <> mean_of C d) /\
  smse T P C = Ok (Some (1 / 5)).
Proof.
  exists [[1; 2]; []], [[1; 1]; []], [[0; 0]; [3]].
  assert (H1 : same_shape [[1; 1]; []] [[1; 2]; []]) by (split; [reflexivity|]; intros [|[|[|d]]]; reflexivity).
  assert (H2 : exists d, tested [[1; 2]; []] d = true) by (exists 0%nat; reflexivity).
  assert (H3 : forall d, tested [[1; 2]; []] d = true -> nth d [[0; 0]; [3]] [] <> []) by (intros [|[|[|d]]] Hd; try discriminate Hd; discriminate).
  assert (H4 : forall d, tested [[1; 2]; []] d = true -> exists i, (i < n_ent [[1; 2]%R; []] d)%nat /\ ent [[1; 2]; []] d i <> mean_of [[0; 0]; [3]] d).
  { intros [|[|[|d]]] Hd; try discriminate Hd. exists 0%nat. split; [cbn; lia|]. unfold mean_of, n_ent, ent. cbn. lra. }
  split; [exact H1|]. split; [reflexivity|]. split; [exact H2|]. split; [exact H3|]. split; [exact H4|].
  destruct (C69_smse _ _ [[0; 0]; [3]] H1 eq_refl H2 H3 H4) as [v [-> [-> _]]]. do 2 f_equal.
  unfold average, sq_error, sq_spread, mean_of, tested, n_ent, ent. cbn. field_simplify; lra.
Qed.

(** Together with C66: the smse of a model that normalises its outputs does not
    depend on the units of the outputs. *)
Lemma each_units c b Y : each (fun d => map (fun y => c d * y + b d)) Y = units c b Y.
Proof.
  unfold each, units.
  assert (H : forall o, map (fun p : nat * vec => map (fun y => c (fst p) * y + b (fst p)) (snd p)) (combine (seq o (length Y)) Y) =
    map (fun d => map (fun y => c d * y + b d) (nth (d - o) Y [])) (seq o (length Y))).
  { induction Y as [|v Y IH]; intros o; [reflexivity|]. cbn [length seq combine map fst snd]. rewrite Nat.sub_diag. cbn [nth]. f_equal. rewrite (IH (S o)).
    apply map_ext_in. intros d Hd. apply in_seq in Hd. replace (d - o)%nat with (S (d - S o)) by lia. reflexivity. }
  eapply eq_trans; [exact (H 0%nat)|]. apply map_ext. intros d. now rewrite Nat.sub_0_r.
Qed.
Lemma out_units_data c b Ys : map a_data (out_units c b Ys) = units c b (map a_data Ys).
Proof.
  rewrite <- each_units. unfold out_units, each. rewrite map_map, map_length.
  generalize (seq 0 (length Ys)) as l. revert Ys. induction Ys as [|Y Ys IH]; intros [|i l]; try reflexivity. cbn. f_equal. apply IH.
Qed.

Theorem C69_model_units :
  forall c b Xs Ys lo hi m pred fk g g' f solve k Zs T mu var,
  (forall d, 0 < c d) -> (forall Y, In Y Ys -> a_data Y <> []) ->
  gp_init Xs Ys true lo hi m pred fk = Ok g ->
  gp_init Xs (out_units c b Ys) true lo hi m pred fk = Ok g' ->
  gp_predict solve (with_params g f) k Zs = Ok (mu, var) ->
  let C := map a_data Ys in
  same_shape mu T -> length C = length T -> (exists d, tested T d = true) ->
  (forall d, tested T d = true -> exists i, (i < n_ent T d)%nat /\ ent T d i <> mean_of C d) ->
  exists mu' var', gp_predict solve (with_params g' f) k Zs = Ok (mu', var') /\
  smse (units c b T) mu' (map a_data (out_units c b Ys)) = smse T mu C.
Proof.
  intros c b Xs Ys lo hi m pred fk g g' f solve k Zs T mu var Hc HY Eg Eg' Ep C HP HC Hex Hsp.
  pose proof (C66_units c b Xs Ys lo hi m pred fk Hc HY) as H. rewrite Eg, Eg' in H. destruct H as [_ H].
  specialize (H f solve [] 0%nat (mk_slots [] [] [] [])). destruct H as [_ H]. specialize (H k). destruct H as [_ H]. specialize (H Zs). destruct H as [H _]. rewrite Ep in H.
  destruct (gp_predict solve (with_params g' f) k Zs) as [[mu' var']|]; [|destruct H]. cbn [alike fst snd] in H. destruct H as [-> _].
  eexists. eexists. split; [reflexivity|]. rewrite each_units, out_units_data.
  destruct (C69_smse T mu C HP HC Hex) as [v [E [_ [_ [_ [_ U]]]]]]; [|exact Hsp|].
  - intros d Hd. apply tested_lt in Hd. rewrite <- HC in Hd. unfold C in *. rewrite map_length in Hd.
    intros Z. apply (HY (nth d Ys (mk_arr [] []))); [now apply nth_In|]. change (@nil R) with (a_data (mk_arr [] [])) in Z. rewrite map_nth in Z. exact Z.
  - fold C. rewrite E. apply U. intros d. specialize (Hc d). lra.
Qed.
Print Assumptions C69_model_units.

(** Celsius to Fahrenheit for output 0, which has three test points. *)
Example model_units_example : exists f g g' solve k T mu var,
  (forall d, 0 < ex_c d) /\ (forall Y, In Y ex1_Ys -> a_data Y <> []) /\
  gp_init ex1_Xs ex1_Ys true (GNum 0) (GNum 10) (GNum 2%nat) (Some OnTheFly) (Some f) = Ok g /\
  gp_init ex1_Xs (out_units ex_c ex_b ex1_Ys) true (GNum 0) (GNum 10) (GNum 2%nat) (Some OnTheFly) (Some f) = Ok g' /\
  gp_predict solve (with_params g (gp_f g)) k ex1_Zs = Ok (mu, var) /\
  same_shape mu T /\ length (map a_data ex1_Ys) = length T /\ (exists d, tested T d = true) /\
  (forall d, tested T d = true -> exists i, (i < n_ent T d)%nat /\ ent T d i <> mean_of (map a_data ex1_Ys) d) /\
  units ex_c ex_b T <> T.
Proof.
  assert (HC : forall d, 0 < ex_c d) by (intros [|d]; cbn; lra).
  assert (NE : forall Y, In Y ex1_Ys -> a_data Y <> []) by (intros Y [<-|[<-|[]]]; discriminate).
  destruct pos_rbf as [H1 [H2 _]]. destruct (ex1_model (RBF 1) (Matern32 2) OnTheFly H1 H2 I I) as [f [g [solve [bits [k (E & Eg & HR & Em & Hs & Hf & Hp & EQ & ED & K0 & K1 & EP & _ & _ & Emul)]]]]].
  assert (Hret := proj1 (proj2 (fit_solver g _ _ _ HR _ _ _ _ Hf Hs))).
  assert (HZ : requests (mg_P (gp_data g)) ex1_Zs [3; 0]%nat) by (rewrite EP; apply ex1_requests).
  assert (Hz : length [3; 0]%nat = f_D (gp_f g)) by now rewrite ED.
  assert (Hid : no_identity (gp_f g)) by (intros [|[|q]] Hq'; [now rewrite K0|now rewrite K1|lia]).
  assert (Hm : mode_ready g) by (unfold mode_ready; rewrite Em; exact I).
  destruct Hf as [old [s Hf]]. destruct (fitted_of g _ _ _ _ _ _ Hf) as [HK _].
  pose proof (predict_ok g _ _ _ HR k HK solve Hret ex1_Zs _ Hid Hm HZ Hz (fun _ => ltac:(cbn; lia))) as Epr.
  replace g with (with_params g (gp_f g)) in Epr at 1 by (destruct g; reflexivity). rewrite ED in Epr.
  exists f, g, (gp_out ex_c ex_b g), solve, k, [[10; 20; 30]; []]. eexists. eexists. split; [exact HC|]. split; [exact NE|].
  split; [exact Eg|]. rewrite gp_init_out, Eg by assumption. split; [reflexivity|]. split; [exact Epr|].
  split; [split; [reflexivity|intros [|[|[|d]]]; reflexivity]|]. split; [reflexivity|]. split; [exists 0%nat; reflexivity|].
  split; [|cbn; intros H; injection H; intros; lra].
  intros [|[|[|d]]] Hd; try discriminate Hd. exists 0%nat. split; [cbn; lia|]. unfold mean_of, n_ent, ent. cbn. lra.
Qed.

(** The score called "nlpd": the average, over the outputs with a predictive
    variance other than 0, of the average negative log density of the test
    points with such a variance.  In other units of the outputs it changes by
    the average logarithm of the factors.  Missing: test points with variance
    0. *)
Theorem C69_nlpd_partial :
  forall T P V, same_shape P T -> same_shape V T -> (forall d i, (i < n_ent V d)%nat -> 0 <= ent V d i) ->
  (exists d i, (i < n_ent V d)%nat /\ ent V d i <> 0) ->
  exists v, nlpd T P V = Ok (Some v) /\
  v = average (length T) (some_counted V) (surprise T P V) /\
  ((forall d i, (i < n_ent V d)%nat -> ent V d i <> 0) ->
     v = average (length T) (tested T) (fun d => Rsum (n_ent T d) (fun i => - ln (normal_pdf (ent P d i) (ent V d i) (ent T d i))) / INR (n_ent T d))) /\
  forall c b, (forall d, 0 < c d) ->
    nlpd (units c b T) (units c b P) (units (fun d => c d ^ 2) (fun _ => 0) V) = Ok (Some (v + average (length T) (some_counted V) (fun d => ln (c d)))).
Proof.
  intros T P V HP HV Hpos Hex.
  assert (Hs : exists d, some_counted V d = true).
  { destruct Hex as [d [i [Hi Hne]]]. exists d. unfold some_counted. apply existsb_exists. exists i. split; [apply in_seq; lia|]. unfold counted. now destruct (Req_EM_T (ent V d i) 0). }
  exists (average (length T) (some_counted V) (surprise T P V)). split; [now apply nlpd_value|]. split; [reflexivity|]. split.
  - intros Hall. assert (Hc : forall d i, (i < n_ent V d)%nat -> counted V d i = true) by (intros d i Hi; unfold counted; destruct (Req_EM_T (ent V d i) 0); [exfalso; now apply (Hall d i)|reflexivity]).
    assert (Ht : forall d, some_counted V d = tested T d).
    { intros d. unfold some_counted, tested. destruct HV as [_ E]. rewrite <- E. destruct (Nat.ltb_spec 0 (n_ent V d)) as [L|L].
      - apply existsb_exists. exists 0%nat. split; [apply in_seq; lia|now apply Hc].
      - replace (n_ent V d) with 0%nat by lia. reflexivity. }
    unfold average at 1. rewrite (Rsum_ext _ (fun d => if some_counted V d then 1 else 0) (fun d => if tested T d then 1 else 0)) by (intros; now rewrite Ht).
    unfold average. f_equal. apply Rsum_ext. intros d _. rewrite Ht. destruct (tested T d); [|reflexivity]. unfold surprise, average. destruct HV as [_ E]. rewrite E. f_equal.
    + apply Rsum_ext. intros i Hi. now rewrite Hc by (rewrite E; exact Hi).
    + rewrite (Rsum_ext _ _ (fun _ => 1)) by (intros i Hi; now rewrite Hc by (rewrite E; exact Hi)). rewrite Rsum_const. ring.
  - intros c b Hc. set (V' := units (fun d => c d ^ 2) (fun _ => 0) V).
    assert (Vn : forall d, n_ent V' d = n_ent V d) by (intros; apply units_n).
    assert (Ve : forall d i, (i < n_ent V d)%nat -> ent V' d i = c d ^ 2 * ent V d i) by (intros d i Hi; unfold V'; rewrite units_ent by exact Hi; ring).
    assert (Cp : forall d, 0 < c d ^ 2) by (intros d; apply pow_lt, Hc).
    assert (Ct : forall d i, (i < n_ent V d)%nat -> counted V' d i = counted V d i).
    { intros d i Hi. unfold counted. rewrite Ve by exact Hi. specialize (Cp d). destruct (Req_EM_T (ent V d i) 0) as [Z|Z], (Req_EM_T (c d ^ 2 * ent V d i) 0) as [Z'|Z']; try reflexivity.
      - exfalso. apply Z'. rewrite Z. ring.
      - exfalso. apply Rmult_integral in Z'. destruct Z'; lra. }
    assert (St : forall d, some_counted V' d = some_counted V d).
    { intros d. unfold some_counted. rewrite Vn. set (n := n_ent V d) in *. assert (Hn : forall i, In i (seq 0 n) -> counted V' d i = counted V d i) by (intros i Hi; apply in_seq in Hi; apply Ct; fold n; lia).
      induction (seq 0 n) as [|x l IH]; [reflexivity|]. cbn. rewrite Hn, IH by (intros; try (apply Hn; right; assumption); left; reflexivity). reflexivity. }
    rewrite nlpd_value.
    + do 2 f_equal. rewrite units_length, <- average_plus. unfold average at 1.
      rewrite (Rsum_ext _ (fun d => if some_counted V' d then 1 else 0) (fun d => if some_counted V d then 1 else 0)) by (intros; now rewrite St).
      unfold average at 1. f_equal. apply Rsum_ext. intros d _. rewrite St. destruct (some_counted V d) eqn:Sd; [|reflexivity].
      assert (Hd : exists i, (i < n_ent V d)%nat /\ counted V d i = true) by (unfold some_counted in Sd; apply existsb_exists in Sd; destruct Sd as [i [Hi Ci]]; apply in_seq in Hi; exists i; split; [lia|exact Ci]).
      rewrite <- (average_const (n_ent V d) (counted V d) (ln (c d)) Hd). unfold surprise. rewrite <- average_plus. rewrite Vn. unfold average.
      rewrite (Rsum_ext _ (fun d0 => if counted V' d d0 then 1 else 0) (fun d0 => if counted V d d0 then 1 else 0)) by (intros; now rewrite Ct).
      f_equal. apply Rsum_ext. intros i Hi. rewrite Ct by exact Hi. destruct (counted V d i) eqn:Ci; [|reflexivity].
      assert (Vp : 0 < ent V d i) by (unfold counted in Ci; destruct (Req_EM_T (ent V d i) 0); [discriminate Ci|]; pose proof (Hpos d i Hi); lra).
      assert (HiT : (i < n_ent T d)%nat) by (destruct HV as [_ <-]; exact Hi).
      rewrite Ve, !units_ent by (try exact Hi; try exact HiT; destruct HP as [_ ->]; exact HiT).
      specialize (Hc d). specialize (Cp d). rewrite !ln_pdf by (try exact Vp; now apply Rmult_lt_0_compat).
      replace (2 * PI * (c d ^ 2 * ent V d i)) with (c d * c d * (2 * PI * ent V d i)) by ring.
      assert (0 < 2 * PI * ent V d i) by (apply Rmult_lt_0_compat; [apply Rmult_lt_0_compat; [lra|apply PI_RGT_0]|exact Vp]).
      rewrite !ln_mult by (try assumption; now apply Rmult_lt_0_compat). field. split; lra.
    + now apply units_shape.
    + now apply units_shape.
    + intros d i Hi. fold V' in Hi. rewrite Vn in Hi. fold V'. rewrite Ve by exact Hi. specialize (Cp d). pose proof (Hpos d i Hi). pose proof (Rmult_le_pos _ _ (Rlt_le _ _ Cp) H). lra.
    + destruct Hs as [d Hd]. exists d. fold V'. now rewrite St.
Qed.
Print Assumptions C69_nlpd_partial.

(** A negative variance, of whatever point, makes the score undefined. *)
Theorem C69_nlpd_negative :
  forall T P V, same_shape P T -> same_shape V T -> (exists d i, (i < n_ent V d)%nat /\ ent V d i < 0) -> nlpd T P V = Ok None.
Proof.
  intros T P V HP HV (d0 & j0 & Hj0 & Neg). unfold nlpd. pose proof HP as [LP EP]. pose proof HV as [LV EV]. rewrite (filter_cols_nth T P V (length T)) by (try reflexivity; assumption). cbv zeta. cbn [bind].
  set (l := filter (tested T) (seq 0 (length T))).
  set (sel := fun d => filter (counted V d) (seq 0 (n_ent V d))).
  unfold filter_by_selection. rewrite map_map.
  assert (S1 : forall Y, same_shape Y T -> map_result (fun p => take (fst p) (snd p)) (combine (map (fun d => nth d Y []) l) (map (fun d => np_flatnonzero (nth d V [])) l)) =
    Ok (map (fun d => map (ent Y d) (sel d)) l)).
  { intros Y [LY EY]. rewrite combine_map2, map_result_map'. apply Proofs_FK.map_result_all. intros d Hd. cbn [fst snd]. rewrite (take_ok _ 0); [reflexivity|].
    intros i Hi. apply filter_In in Hi. destruct Hi as [Hi _]. apply in_seq in Hi. change (length (nth d Y [])) with (n_ent Y d). rewrite EY, <- EV. unfold n_ent. lia. }
  pose proof (S1 T (conj eq_refl (fun _ => eq_refl))) as ST. pose proof (S1 P HP) as SP. pose proof (S1 V HV) as SV.
  unfold vec in *. rewrite ST. cbn [bind]. rewrite SP. cbn [bind]. rewrite SV. cbn [bind]. rewrite filter_cols. cbv zeta. cbn [bind]. rewrite zip3_map, map_result_map'.
  assert (FL : filter (fun x => nonempty (map (ent T x) (sel x))) l = filter (some_counted V) (seq 0 (length T))).
  { unfold l. rewrite filter_filter. apply filter_ext_in. intros d Hd. unfold sel. rewrite nonempty_some. destruct (some_counted V d) eqn:E; [|reflexivity].
    cbn. now apply (counted_tested T V HV). }
  assert (C0 : counted V d0 j0 = true) by (unfold counted; destruct (Req_EM_T (ent V d0 j0) 0); [lra|reflexivity]).
  assert (SC : some_counted V d0 = true) by (unfold some_counted; apply existsb_exists; exists j0; split; [apply in_seq; lia|exact C0]).
  set (term := fun d j => match npf_div (Some ((ent T d j - ent P d j) ^ 2)) (Some (ent V d j)), np_log (2 * PI * ent V d j) with Some a, Some b => Some (a + b) | _, _ => None end).
  rewrite FL. rewrite (Proofs_FK.map_result_all _ (fun d => match npf_mean (map (term d) (sel d)) with Some x => Some (1 / 2 * x) | None => None end)).
  - cbn [bind]. f_equal. apply npf_mean_none. apply in_map_iff. exists d0. split.
    + rewrite npf_mean_none; [reflexivity|]. apply in_map_iff. exists j0. split.
      * unfold term, np_log. destruct (Rlt_dec 0 (2 * PI * ent V d0 j0)) as [L|_]; [|now destruct (npf_div _ _)].
        pose proof PI_RGT_0 as PP. exfalso. assert (0 < PI * - ent V d0 j0) by (apply Rmult_lt_0_compat; lra). lra.
      * apply filter_In. split; [apply in_seq; lia|exact C0].
    + apply filter_In. split; [|exact SC]. apply in_seq. split; [apply Nat.le_0_l|exact (proj1 (counted_tested T V HV d0 SC))].
  - intros d Hd. unfold np_sub. rewrite !map_length, Nat.eqb_refl. cbn [bind]. rewrite tab_length. f_equal.
    set (n := length (sel d)).
    assert (Ht : map (fun i => match npf_div (Some (vget (tab n (fun i0 => vget (map (ent T d) (sel d)) i0 - vget (map (ent P d) (sel d)) i0)) i ^ 2)) (Some (vget (map (ent V d) (sel d)) i)),
                np_log (2 * PI * vget (map (ent V d) (sel d)) i) with Some a, Some b => Some (a + b) | _, _ => None end) (seq 0 n) =
             map (term d) (sel d)).
    { assert (Hs : sel d = map (fun i => nth i (sel d) 0%nat) (seq 0 n)).
      { unfold n. clear. induction (sel d) as [|x s IH]; [reflexivity|]. cbn [length seq map nth]. f_equal. rewrite <- seq_shift, map_map. exact IH. }
      match goal with |- _ = map ?F (sel d) => transitivity (map F (map (fun i => nth i (sel d) 0%nat) (seq 0 n))); [|now rewrite <- Hs] end.
      rewrite map_map. apply map_ext_in. intros i Hi. apply in_seq in Hi.
      assert (G : forall Y, vget (map (ent Y d) (sel d)) i = ent Y d (nth i (sel d) 0%nat)).
      { intros Y. unfold vget. rewrite (nth_indep _ 0 (ent Y d 0%nat)) by (rewrite map_length; fold n; lia). apply map_nth. }
      rewrite vget_tab, !G by lia. reflexivity. }
    rewrite Ht. reflexivity.
Qed.
Print Assumptions C69_nlpd_negative.

(** One of three variances is negative. *)
Example nlpd_negative_example : nlpd [[1; 2]; [3]] [[1; 1]; [3]] [[1; -1]; [2]] = Ok None.
Proof.
  apply C69_nlpd_negative; [split; [reflexivity|]; intros [|[|[|d]]]; reflexivity|split; [reflexivity|]; intros [|[|[|d]]]; reflexivity|].
  exists 0%nat, 1%nat. split; [cbn; lia|]. unfold ent. cbn. lra.
Qed.

(** A prediction that is certain and wrong by any amount costs nothing. *)
Theorem C69_nlpd_refuted :
  exists T V v, same_shape V T /\ (forall d i, (i < n_ent V d)%nat -> 0 <= ent V d i) /\
  forall e, exists P, same_shape P T /\ ent T 0 1 - ent P 0 1 = e /\ nlpd T P V = Ok (Some v).
Proof.
  exists [[1; 2]], [[1; 0]], (1 / 2 * ln (2 * PI)).
  assert (HV : same_shape [[1; 0]] [[1; 2]]) by (split; [reflexivity|]; intros [|[|d]]; reflexivity).
  assert (Hpos : forall d i, (i < n_ent [[1; 0]%R] d)%nat -> 0 <= ent [[1; 0]] d i).
  { intros [|[|d]] i Hi; cbn in Hi; try lia. destruct i as [|[|i]]; [cbn; lra|cbn; lra|lia]. }
  split; [exact HV|]. split; [exact Hpos|]. intros e. exists [[1; 2 - e]].
  assert (HP : same_shape [[1; 2 - e]] [[1; 2]]) by (split; [reflexivity|]; intros [|[|d]]; reflexivity).
  split; [exact HP|]. split; [unfold ent; cbn; ring|].
  destruct (C69_nlpd_partial [[1; 2]] [[1; 2 - e]] [[1; 0]] HP HV Hpos) as [v [-> [-> _]]].
  { exists 0%nat, 0%nat. split; [cbn; lia|]. unfold ent. cbn. lra. }
  do 2 f_equal. unfold average, surprise, average, some_counted, counted, n_ent, ent. cbn [length nth seq existsb Rsum].
  destruct (Req_EM_T 1 0); [lra|]. destruct (Req_EM_T 0 0); [|lra]. cbn [orb]. rewrite ln_pdf by lra. replace (2 * PI * 1) with (2 * PI) by ring. field.
Qed.
Print Assumptions C69_nlpd_refuted.

Example nlpd_example : exists T P V, same_shape P T /\ same_shape V T /\ (forall d i, (i < n_ent V d)%nat -> 0 <= ent V d i) /\
  (exists d i, (i < n_ent V d)%nat /\ ent V d i <> 0) /\ nlpd T P V = Ok (Some (1 / 2 * (4 + ln (2 * PI)))).
Proof.
  exists [[3]; []], [[1]; []], [[1]; []].
  assert (HP : same_shape [[1]; []] [[3]; []]) by (split; [reflexivity|]; intros [|[|[|d]]]; reflexivity).
  assert (Hpos : forall d i, (i < n_ent [[1]%R; []] d)%nat -> 0 <= ent [[1]; []] d i).
  { intros [|[|[|d]]] i Hi; cbn in Hi; try lia. destruct i as [|i]; [cbn; lra|lia]. }
  assert (Hex : exists d i, (i < n_ent [[1]%R; []] d)%nat /\ ent [[1]; []] d i <> 0) by (exists 0%nat, 0%nat; split; [cbn; lia|unfold ent; cbn; lra]).
  split; [exact HP|]. split; [exact HP|]. split; [exact Hpos|]. split; [exact Hex|].
  destruct (C69_nlpd_partial [[3]; []] [[1]; []] [[1]; []] HP HP Hpos Hex) as [v [-> [-> _]]]. do 2 f_equal.
  unfold average, surprise, average, some_counted, counted, n_ent, ent. cbn [length nth seq existsb Rsum orb]. destruct (Req_EM_T 1 0); [lra|]. cbn [orb].
  rewrite ln_pdf by lra. replace (2 * PI * 1) with (2 * PI) by ring. field.
Qed.

(** ** C70 *)

(** One over a rate; nothing if there is none, or if it is 0 (an infinity) *)
Definition recip (y : option R) : option R := match y with Some x => if Req_EM_T x 0 then None else Some (1 / x) | None => None end.

(** The split of the exchange rates: the training inputs are the days with a
    value outside of the held-out range, the test inputs the days inside; no
    day is used for both, each output is the reciprocal of the rate of its day.
    Missing: test days without a value. *)
Theorem C70_fx_partial :
  forall col lo hi, let '(trn_x, trn_y, (tst_x, tst_y)) := fx_split col lo hi in
  NoDup trn_x /\ NoDup tst_x /\ (forall i, In i trn_x -> ~ In i tst_x) /\
  (forall i, In i trn_x <-> (i < length col)%nat /\ nth i col None <> None /\ ~ (lo <= i < hi)%nat) /\
  (forall i, In i tst_x <-> (i < length col)%nat /\ (lo <= i < hi)%nat) /\
  trn_y = map (fun i => recip (nth i col None)) trn_x /\
  tst_y = map (fun i => recip (nth i col None)) tst_x.
Proof.
  assert (RC : forall y, np_reciprocal y = recip y).
  { intros [x|]; [|reflexivity]. cbn. destruct (Req_EM_T x 0); [reflexivity|]. f_equal. unfold Rdiv. ring. }
  intros col lo hi. unfold fx_split. cbv zeta beta. set (n := length col).
  assert (SL : firstn (hi - lo) (skipn lo (seq 0 n)) = seq lo (min (hi - lo) (n - lo))).
  { destruct (le_lt_dec n lo) as [L|L].
    - rewrite skipn_all2 by (rewrite seq_length; exact L). replace (n - lo)%nat with 0%nat by lia. rewrite Nat.min_0_r. now destruct (hi - lo)%nat.
    - replace (seq 0 n) with (seq 0 lo ++ seq lo (n - lo)) by (rewrite <- seq_app; f_equal; lia). rewrite skipn_app, seq_length, Nat.sub_diag.
      rewrite skipn_all2 by (rewrite seq_length; lia). cbn [skipn app].
      generalize (n - lo)%nat as m. generalize (hi - lo)%nat as k. clear. intros k m. revert lo m. induction k as [|k IH]; intros lo m; [reflexivity|]. destruct m as [|m]; [reflexivity|]. cbn. now rewrite IH. }
  assert (IT : forall i, In i (firstn (hi - lo) (skipn lo (seq 0 n))) <-> (i < n)%nat /\ (lo <= i < hi)%nat) by (intros i; rewrite SL, in_seq; lia).
  assert (IN : forall i, In i (filter (fun i => (match nth i col None with Some _ => true | None => false end && negb ((lo <=? i)%nat && (i <? hi)%nat))%bool) (seq 0 n)) <->
     (i < n)%nat /\ nth i col None <> None /\ ~ (lo <= i < hi)%nat).
  { intros i. rewrite filter_In, in_seq, Bool.andb_true_iff, Bool.negb_true_iff, Bool.andb_false_iff, Nat.leb_gt, Nat.ltb_ge. destruct (nth i col None); split; intros H.
    - split; [lia|]. split; [discriminate|lia].
    - split; [lia|]. split; [reflexivity|lia].
    - destruct H as [_ [H _]]. discriminate H.
    - destruct H as [_ [H _]]. congruence. }
  split; [apply NoDup_filter, seq_NoDup|]. split; [rewrite SL; apply seq_NoDup|].
  split. { intros i Hi Ht. apply IN in Hi. apply IT in Ht. tauto. }
  split; [exact IN|]. split; [exact IT|]. split; [apply map_ext; intros; apply RC|]. rewrite (map_ext _ _ RC).
  rewrite <- map_map with (f := fun i => nth i col None). f_equal. rewrite <- firstn_map, <- skipn_map. do 2 f_equal.
  unfold n. clear. induction col as [|x col IH]; [reflexivity|]. cbn [length seq map nth]. f_equal. rewrite <- seq_shift, map_map. exact IH.
Qed.
Print Assumptions C70_fx_partial.

(** A held-out day without a value becomes a test output that is nan. *)
Theorem C70_fx_refuted :
  exists col lo hi, (hi <= length col)%nat /\ (exists i, nth i col None <> None) /\ In None (snd (snd (fx_split col lo hi))).
Proof. exists [Some 2; None], 1%nat, 2%nat. split; [cbn; lia|]. split; [exists 0%nat; discriminate|]. cbn. left. reflexivity. Qed.
Print Assumptions C70_fx_refuted.

Example fx_example : fx_split [Some 2; None; Some 4; Some 8] 2 3 = ([0%nat; 3%nat], [Some (/ 2); Some (/ 8)], ([2%nat], [Some (/ 4)])).
Proof. unfold fx_split, np_reciprocal. cbn [length seq filter nth andb negb Nat.leb Nat.ltb map firstn skipn Nat.sub]. repeat match goal with |- context [Req_EM_T ?a 0] => destruct (Req_EM_T a 0); [lra|] end. reflexivity. Qed.

(** The split of the weather data: it is rejected exactly when a time is
    missing or the number of missing temperatures is not the expected one.
    Otherwise training and test samples together are the samples with a
    temperature, each once; without a held-out interval there are no test
    samples, and else the test samples are those with a time in the
    interval. *)
Theorem C70_weather :
  forall x y na hold, length x = length y ->
  match weather_split x y na hold with
  | Err e => e = AssertionError /\ (In (-1) x \/ count_occ Req_EM_T y (-1) <> na)
  | Ok (trn_x, trn_y, (tst_x, tst_y)) =>
    ~ In (-1) x /\ count_occ Req_EM_T y (-1) = na /\
    length trn_x = length trn_y /\ length tst_x = length tst_y /\
    Permutation (combine trn_x trn_y ++ combine tst_x tst_y) (filter (fun p => if Req_EM_T (snd p) (-1) then false else true) (combine x y)) /\
    match hold with
    | None => tst_x = []
    | Some (lo, hi) => (forall t, In t tst_x -> lo <= t <= hi) /\ (forall t, In t trn_x -> ~ lo <= t <= hi)
    end
  end.
Proof.
  intros x y na hold L. unfold weather_split.
  assert (Cn : forall v : vec, length (filter (fun w => if Req_EM_T w (-1) then true else false) v) = count_occ Req_EM_T v (-1)).
  { induction v as [|w v IH]; [reflexivity|]. cbn. destruct (Req_EM_T w (-1)); cbn; now rewrite IH. }
  rewrite !Cn.
  destruct (Nat.eqb_spec (count_occ Req_EM_T x (-1)) 0) as [E1|E1]; cbn [negb].
  2:{ split; [reflexivity|]. left. destruct (count_occ_In Req_EM_T x (-1)) as [_ H]. apply count_occ_In with (eq_dec := Req_EM_T). lia. }
  apply count_occ_not_In in E1.
  destruct (Nat.eqb_spec (count_occ Req_EM_T y (-1)) na) as [E2|E2]; cbn [negb]; [|split; [reflexivity|right; exact E2]].
  assert (FE : filter (fun p : R * R => negb (if Req_EM_T (snd p) (-1) then true else false)) (combine x y) = filter (fun p => if Req_EM_T (snd p) (-1) then false else true) (combine x y)).
  { apply filter_ext. intros p. now destruct (Req_EM_T (snd p) (-1)). }
  rewrite FE. set (xy := filter (fun p : R * R => if Req_EM_T (snd p) (-1) then false else true) (combine x y)). clearbody xy.
  assert (CM : forall l : list (R * R), combine (map fst l) (map snd l) = l) by (induction l as [|[a b] l IH]; [reflexivity|]; cbn; now rewrite IH).
  destruct hold as [[lo hi]|].
  - split; [exact E1|]. split; [exact E2|]. rewrite !map_length. split; [reflexivity|]. split; [reflexivity|]. rewrite !CM. split.
    + set (sel := fun p : R * R => if Rle_dec lo (fst p) then if Rle_dec (fst p) hi then true else false else false).
      change (fun p : R * R => negb (if Rle_dec lo (fst p) then if Rle_dec (fst p) hi then true else false else false)) with (fun p : R * R => negb (sel p)).
      clearbody sel. clear. induction xy as [|p l IH]; [constructor|]. cbn [filter]. destruct (sel p); cbn [negb app]; [|now apply perm_skip].
      eapply perm_trans; [apply Permutation_sym, Permutation_middle|]. now apply perm_skip.
    + split; intros t Ht; apply in_map_iff in Ht; destruct Ht as [p [<- Hp]]; apply filter_In in Hp; destruct Hp as [_ Hp].
      * destruct (Rle_dec lo (fst p)); [|discriminate Hp]. destruct (Rle_dec (fst p) hi); [|discriminate Hp]. lra.
      * destruct (Rle_dec lo (fst p)); [|lra]. destruct (Rle_dec (fst p) hi); [discriminate Hp|lra].
  - split; [exact E1|]. split; [exact E2|]. rewrite !map_length. split; [reflexivity|]. split; [reflexivity|]. rewrite CM, app_nil_r. split; [apply Permutation_refl|reflexivity].
Qed.
Print Assumptions C70_weather.

Example weather_example : weather_split [1; 2; 3] [10; -1; 12] 1 (Some (2, 4)) = Ok ([1], [10], ([3], [12])).
Proof.
  unfold weather_split. cbn. repeat (match goal with |- context [Req_EM_T ?a ?b] => destruct (Req_EM_T a b); [try lra|try lra] | |- context [Rle_dec ?a ?b] => destruct (Rle_dec a b); [try lra|try lra] end; cbn). reflexivity.
Qed.
