(** Claims about the units in which inputs and outputs are given (C65, C66). *)

From Coq Require Import Reals List Arith ZArith Lia Lra.
From Verif Require Import Base NDArray PSD Model_Util Proofs_Util Spec_Util Model_Linalg Spec_Linalg Proofs_Linalg Model_Interp Spec_Interp
  Model_Kern Spec_Kern Model_FK Spec_FK Model_Grid Spec_Grid Model_Lik Spec_Lik Spec_GP Model_GP Spec_Pred Properties_Pred
  Spec_Units Proofs_Units Proofs_Units2 Proofs_Units3 Proofs_Units4 Proofs_Units5.
Import ListNotations.
Open Scope R_scope.

(** ** C65: units of the inputs *)

Lemma grad_units a k : kern_in_units (/ a) k = kern_grad_in_units a k.
Proof. induction k as [| | | |k IH]; cbn; unfold Rdiv; rewrite ?Rinv_mult, ?Rinv_inv; try reflexivity. now rewrite IH. Qed.
Lemma slots_grad a s : slots_units a s = slots_in_units a s.
Proof. unfold slots_units, slots_in_units. f_equal. apply map_ext. intros k. apply grad_units. Qed.
Lemma sample_few X : sample_array X -> few_dims X.
Proof.
  intros [n [[E L]|[p [E L]]]]; unfold few_dims, wfa; rewrite E; cbn; split; try lia; auto.
Qed.

(** Measuring the inputs in other units, with another origin, changes nothing
    but the parameters that have a dimension.  Construction succeeds or raises
    the same exception.  If it succeeds, for any values of the parameters a step
    of training succeeds or raises alike, the gradients of the coregionalisation
    matrices and of the noise are the same, and those of the kernels differ by
    the factor of their parameter; means, variances, quantiles and the exact
    likelihood are the same. *)
Theorem C65_units :
  forall a t Xs Ys nrm lo hi m pred fk, 0 < a ->
  (forall X, In X Xs -> length (a_data X) = nprod (a_shape X)) -> moves_alike t lo -> moves_alike t hi ->
  alike (fun g g' =>
    gp_f g' = fk_in_units a (gp_f g) /\
    forall f, (forall k, In k (f_kernels f) -> period_safe a (fst k)) ->
    let h := with_params g f in let h' := with_params g' (fk_in_units a f) in
    forall solve bits n_it old,
    alike (fun r r' =>
      snd r' = slots_in_units a (snd r) /\
      gp_log_likelihood h' (fst r') = gp_log_likelihood h (fst r) /\
      forall Zs, (forall Z, In Z Zs -> sample_array Z) ->
        gp_predict solve h' (fst r') (map (in_units a t) Zs) = gp_predict solve h (fst r) Zs /\
        forall ppf qs, gp_predict_quantiles ppf solve h' (fst r') (map (in_units a t) Zs) qs = gp_predict_quantiles ppf solve h (fst r) Zs qs)
      (parameters_changed solve bits n_it h old)
      (parameters_changed solve bits n_it h' (slots_in_units a old)))
    (gp_init Xs Ys nrm lo hi m pred fk)
    (gp_init (map (in_units a t) Xs) Ys nrm (bound_in_units a t lo) (bound_in_units a t hi) m pred (option_map (fk_in_units a) fk)).
Proof.
  intros a t Xs Ys nrm lo hi m pred fk Ha W Hlo Hhi. rewrite (gp_init_units a t Xs Ys nrm lo hi m pred fk Ha W Hlo Hhi).
  destruct (gp_init Xs Ys nrm lo hi m pred fk) as [g|] eqn:E; [|reflexivity]. cbv beta iota delta [alike rmap]. split; [reflexivity|].
  intros f S h h' solve bits n_it old.
  assert (Eh : h' = gp_units a t h) by reflexivity. clearbody h'. subst h'.
  assert (S' : all_safe a (gp_f h)) by exact S.
  assert (G : gp_ok h).
  { unfold gp_ok. change (gp_data h) with (gp_data g). unfold gp_init in E. destruct (multigp_init Xs Ys nrm) as [d|] eqn:M; [|discriminate]. cbn [bind] in E.
    destruct fk as [f0|]; [|discriminate]. destruct pred as [md|]; [|discriminate]. destruct (set_input_dim f0 (mg_P d)) as [f'|]; [|discriminate]. cbn [bind] in E.
    destruct (generate_grids f' (mg_Xs d) lo hi m); [|discriminate]. apply Ok_inj in E. subst g. exact (multigp_init_arrays Xs Ys nrm d W M). }
  assert (Ha' : a <> 0) by lra.
  pose proof (parameters_changed_units solve bits n_it a t h old Ha' S') as H. rewrite slots_grad in H.
  unfold rrel in H. unfold alike. destruct (parameters_changed solve bits n_it h old) as [[k s]|] eqn:E1, (parameters_changed solve bits n_it (gp_units a t h) (slots_in_units a old)) as [[k' s']|]; try exact H.
  cbn [fst snd] in *. destruct H as [K Es]. rewrite Es, slots_grad. split; [reflexivity|]. split; [now apply log_likelihood_units|].
  intros Zs HZ. assert (F : forall Z, In Z Zs -> few_dims Z) by (intros Z H; now apply sample_few, HZ).
  split; [now apply predict_units|]. intros. now apply quantiles_units.
Qed.
Print Assumptions C65_units.

Lemma kern_units_1 k : kern_in_units 1 k = k.
Proof. induction k as [| | | |k IH]; cbn; rewrite ?Rmult_1_r, ?Rinv_1, ?Rmult_1_r; try reflexivity. now rewrite IH. Qed.
Lemma fk_units_1 f : fk_in_units 1 f = f.
Proof.
  destruct f. unfold fk_in_units. cbn. f_equal. rewrite (map_ext _ (fun x => x)); [apply map_id|]. intros [k p]. cbn. now rewrite kern_units_1.
Qed.
Lemma grad_units_1 k : kern_grad_in_units 1 k = k.
Proof. rewrite <- grad_units, Rinv_1. apply kern_units_1. Qed.
Lemma slots_1 s : slots_in_units 1 s = s.
Proof. destruct s. unfold slots_in_units. cbn. f_equal. rewrite (map_ext _ (fun x => x)); [apply map_id|]. apply grad_units_1. Qed.
Lemma safe_1 k : period_safe 1 k.
Proof. induction k; cbn; try exact I; [rewrite Rmult_1_r; tauto|assumption]. Qed.

(** In particular the origin is irrelevant: moving all the inputs (and bounds of
    the grid) and the requested points changes nothing at all. *)
Theorem C65_translation :
  forall t Xs Ys nrm lo hi m pred fk,
  (forall X, In X Xs -> length (a_data X) = nprod (a_shape X)) -> moves_alike t lo -> moves_alike t hi ->
  alike (fun g g' =>
    gp_f g' = gp_f g /\
    forall f, let h := with_params g f in let h' := with_params g' f in
    forall solve bits n_it old,
    alike (fun r r' =>
      snd r' = snd r /\
      gp_log_likelihood h' (fst r') = gp_log_likelihood h (fst r) /\
      forall Zs, (forall Z, In Z Zs -> sample_array Z) ->
        gp_predict solve h' (fst r') (map (in_units 1 t) Zs) = gp_predict solve h (fst r) Zs /\
        forall ppf qs, gp_predict_quantiles ppf solve h' (fst r') (map (in_units 1 t) Zs) qs = gp_predict_quantiles ppf solve h (fst r) Zs qs)
      (parameters_changed solve bits n_it h old) (parameters_changed solve bits n_it h' old))
    (gp_init Xs Ys nrm lo hi m pred fk)
    (gp_init (map (in_units 1 t) Xs) Ys nrm (bound_in_units 1 t lo) (bound_in_units 1 t hi) m pred fk).
Proof.
  intros t Xs Ys nrm lo hi m pred fk W Hlo Hhi. pose proof (C65_units 1 t Xs Ys nrm lo hi m pred fk Rlt_0_1 W Hlo Hhi) as H.
  replace (option_map (fk_in_units 1) fk) with fk in H by (destruct fk; cbn; now rewrite ?fk_units_1).
  unfold alike in H |- *. destruct (gp_init Xs Ys nrm lo hi m pred fk) as [g|], (gp_init (map (in_units 1 t) Xs) _ _ _ _ _ _ _) as [g'|]; try exact H.
  destruct H as [H1 H2]. rewrite fk_units_1 in H1. split; [exact H1|]. intros f. cbv zeta. intros solve bits n_it old.
  specialize (H2 f (fun k _ => safe_1 (fst k)) solve bits n_it old). rewrite slots_1, fk_units_1 in H2.
  destruct (parameters_changed solve bits n_it (with_params g f) old) as [r|], (parameters_changed solve bits n_it (with_params g' f) old) as [r'|]; try exact H2. rewrite slots_1 in H2. exact H2.
Qed.
Print Assumptions C65_translation.

(** Metres and kilometres: a model on two outputs in metres, and in units of
    two metres counted from 3 further on. *)
Definition ex_t : nat -> R := fun _ => 3.
Lemma ex1_WX X : In X ex1_Xs -> length (a_data X) = nprod (a_shape X).
Proof. intros [<-|[<-|[]]]; reflexivity. Qed.

Example C65_units_ex : forall md, exists f g k g' k' solve bits old s,
  gp_init ex1_Xs ex1_Ys true (GNum 0) (GNum 10) (GNum 2%nat) (Some md) (Some f) = Ok g /\
  gp_init (map (in_units 2 ex_t) ex1_Xs) ex1_Ys true (GNum 3) (GNum 23) (GNum 2%nat) (Some md) (Some (fk_in_units 2 f)) = Ok g' /\
  map fst (f_kernels (gp_f g)) = [RBF 1; Matern32 2] /\ map fst (f_kernels (gp_f g')) = [RBF (1 / 4); Matern32 1] /\
  map a_data (map (in_units 2 ex_t) ex1_Xs) = [[7; 19]; [19; 7]] /\
  parameters_changed solve bits 1 g old = Ok (k, s) /\
  parameters_changed solve bits 1 g' (slots_in_units 2 old) = Ok (k', slots_in_units 2 s) /\
  gp_predict solve g' k' [mk_arr [2%nat] [7; 13]; mk_arr [1; 1]%nat [19]] = gp_predict solve g k [mk_arr [2%nat] [2; 5]; mk_arr [1; 1]%nat [8]].
Proof.
  intros md. destruct pos_rbf as [H1 [H2 _]]. destruct (ex1_model (RBF 1) (Matern32 2) md H1 H2 I I) as [f [g [solve [bits [k (E & Eg & HR & Em & Hs & Hf & Hp & EQ & ED & K0 & K1 & _)]]]]].
  pose proof (C65_units 2 ex_t ex1_Xs ex1_Ys true (GNum 0) (GNum 10) (GNum 2%nat) (Some md) (Some f) ltac:(lra) ex1_WX (fun _ => eq_refl) (fun _ => eq_refl)) as H.
  rewrite Eg in H. cbn [option_map] in H.
  replace (bound_in_units 2 ex_t (GNum 0)) with (GNum 3) in H by (cbn; f_equal; unfold ex_t; lra).
  replace (bound_in_units 2 ex_t (GNum 10)) with (GNum 23) in H by (cbn; f_equal; unfold ex_t; lra).
  destruct (gp_init (map (in_units 2 ex_t) ex1_Xs) _ _ _ _ _ _ _) as [g'|] eqn:Eg'; [|destruct H]. cbn [alike] in H. destruct H as [F H].
  destruct Hf as [old [s Ek]].
  assert (KS : map fst (f_kernels (gp_f g)) = [RBF 1; Matern32 2]).
  { unfold f_Q in EQ. unfold kern_of in K0, K1. destruct (f_kernels (gp_f g)) as [|p0 [|p1 [|? ?]]]; try discriminate EQ. cbn [nth] in *. cbn. rewrite K0, K1. reflexivity. }
  assert (SF : forall k, In k (f_kernels (gp_f g)) -> period_safe 2 (fst k)).
  { intros p Hp'. apply (in_map fst) in Hp'. rewrite KS in Hp'. destruct Hp' as [<-|[<-|[]]]; exact I. }
  specialize (H (gp_f g) SF solve bits 1%nat old).
  assert (Wg : with_params g (gp_f g) = g) by (destruct g; reflexivity). assert (Wg' : with_params g' (fk_in_units 2 (gp_f g)) = g') by (rewrite <- F; destruct g'; reflexivity).
  rewrite Wg, Wg', Ek in H. destruct (parameters_changed solve bits 1 g' (slots_in_units 2 old)) as [[k' s']|] eqn:Ek'; [|destruct H]. cbn [alike fst snd] in H. destruct H as [Hs' [_ HZ]]. subst s'.
  exists f, g, k, g', k', solve, bits, old, s. split; [exact Eg|]. split; [exact Eg'|]. split; [exact KS|].
  split. { rewrite F. cbn [fk_in_units f_kernels]. rewrite map_map. cbn [fst]. rewrite <- (map_map fst (kern_in_units 2)), KS. cbn. apply (f_equal2 cons); [f_equal; lra|]. apply (f_equal2 cons); [f_equal; lra|reflexivity]. }
  split. { cbn. repeat (f_equal; unfold ex_t; try lra). }
  split; [exact Ek|]. split; [exact Ek'|].
  destruct (HZ [mk_arr [2%nat] [2; 5]; mk_arr [1; 1]%nat [8]]) as [HP _].
  { intros Z [<-|[<-|[]]]; [exists 2%nat; left|exists 1%nat; right; exists 1%nat]; split; reflexivity. }
  rewrite <- HP. f_equal. unfold in_units, ex_t. cbn. replace (2 * 2 + 3) with 7 by lra. replace (2 * 5 + 3) with 13 by lra. replace (2 * 8 + 3) with 19 by lra. reflexivity.
Qed.

(** The threshold of std_periodic.py:45 is the only obstacle: a period of
    exp(-201) is below it, exp 5 times that is not. *)
Example C65_units_ex_period : period_safe 2 (StdPeriodic 1 3) /\ ~ period_safe (exp 5) (StdPeriodic 1 (exp (-201))).
Proof.
  split; cbn.
  - rewrite ln_mult by lra. assert (0 < ln 2) by (rewrite <- ln_1; apply ln_increasing; lra). assert (0 < ln 3) by (rewrite <- ln_1; apply ln_increasing; lra). split; lra.
  - rewrite <- exp_plus, !ln_exp. intros [_ H]. lra.
Qed.

Example C65_translation_ex : exists f g g', ex_t 0%nat = 3 /\
  gp_init ex1_Xs ex1_Ys true (GNum 0) (GNum 10) (GNum 2%nat) (Some Precompute) (Some f) = Ok g /\
  gp_init (map (in_units 1 ex_t) ex1_Xs) ex1_Ys true (GNum 3) (GNum 13) (GNum 2%nat) (Some Precompute) (Some f) = Ok g' /\ gp_f g' = gp_f g /\
  map a_data (map (in_units 1 ex_t) ex1_Xs) = [[5; 11]; [11; 5]].
Proof.
  destruct pos_rbf as [H1 [H2 _]]. destruct (ex1_model (RBF 1) (Matern32 2) Precompute H1 H2 I I) as [f [g [solve [bits [k (E & Eg & _)]]]]].
  pose proof (C65_translation ex_t ex1_Xs ex1_Ys true (GNum 0) (GNum 10) (GNum 2%nat) (Some Precompute) (Some f) ex1_WX (fun _ => eq_refl) (fun _ => eq_refl)) as H.
  rewrite Eg in H.
  replace (bound_in_units 1 ex_t (GNum 0)) with (GNum 3) in H by (cbn; f_equal; unfold ex_t; lra).
  replace (bound_in_units 1 ex_t (GNum 10)) with (GNum 13) in H by (cbn; f_equal; unfold ex_t; lra).
  destruct (gp_init (map (in_units 1 ex_t) ex1_Xs) _ _ _ _ _ _ _) as [g'|] eqn:Eg'; [|destruct H]. destruct H as [F _].
  exists f, g, g'. repeat split; try assumption. cbn. repeat (f_equal; unfold ex_t; try lra).
Qed.

(** ** C66: units of the outputs *)

(** When the outputs are normalised, measuring output [d] in other units
    (y becomes c y + b, with c > 0) changes neither training nor the
    likelihood, which are those of the normalised data; the predicted means and
    quantiles are the old ones in the new units and variances are multiplied by
    c squared. *)
Theorem C66_units :
  forall c b Xs Ys lo hi m pred fk, (forall d, 0 < c d) -> (forall Y, In Y Ys -> a_data Y <> []) ->
  alike (fun g g' =>
    gp_f g' = gp_f g /\
    forall f solve bits n_it old, let h := with_params g f in let h' := with_params g' f in
    parameters_changed solve bits n_it h' old = parameters_changed solve bits n_it h old /\
    forall k, gp_log_likelihood h' k = gp_log_likelihood h k /\
      forall Zs,
      alike (fun r r' => fst r' = each (fun d => map (fun y => c d * y + b d)) (fst r) /\
                         snd r' = each (fun d => map (fun v => c d ^ 2 * v)) (snd r))
        (gp_predict solve h k Zs) (gp_predict solve h' k Zs) /\
      forall ppf qs, alike (fun r r' => r' = each (fun d => map (map (fun y => c d * y + b d))) r)
        (gp_predict_quantiles ppf solve h k Zs qs) (gp_predict_quantiles ppf solve h' k Zs qs))
    (gp_init Xs Ys true lo hi m pred fk)
    (gp_init Xs (out_units c b Ys) true lo hi m pred fk).
Proof.
  intros c b Xs Ys lo hi m pred fk Hc NE. rewrite gp_init_out by easy. destruct (gp_init Xs Ys true lo hi m pred fk) as [g|] eqn:E; [|reflexivity]. cbv beta iota delta [alike rmap].
  split; [reflexivity|]. intros f solve bits n_it old h h'. assert (Eh : h' = gp_out c b h) by reflexivity. clearbody h'. subst h'.
  destruct (gp_init_norm Xs Ys lo hi m pred fk g E) as [ns N]. change (gp_data g) with (gp_data h) in N.
  split; [apply parameters_changed_out|]. intros k. split; [apply log_likelihood_out|]. intros Zs. split.
  - rewrite (predict_out c b solve h k Zs ns N). destruct (gp_predict solve h k Zs) as [[mu var]|]; cbn; auto.
  - intros ppf qs. rewrite (quantiles_out c b ppf solve h k Zs qs ns N). destruct (gp_predict_quantiles ppf solve h k Zs qs); cbn; auto.
Qed.
Print Assumptions C66_units.

(** Celsius to Fahrenheit for output 0; output 1 halved. *)
Definition ex_c (d : nat) : R := match d with 0%nat => 9 / 5 | _ => 1 / 2 end.
Definition ex_b (d : nat) : R := match d with 0%nat => 32 | _ => 0 end.
Example C66_units_ex : exists f g g', (forall d, 0 < ex_c d) /\ (forall Y, In Y ex1_Ys -> a_data Y <> []) /\
  map a_data (out_units ex_c ex_b ex1_Ys) = [[169 / 5; 178 / 5]; [3 / 2; 5 / 2]] /\
  gp_init ex1_Xs ex1_Ys true (GNum 0) (GNum 10) (GNum 2%nat) (Some OnTheFly) (Some f) = Ok g /\
  gp_init ex1_Xs (out_units ex_c ex_b ex1_Ys) true (GNum 0) (GNum 10) (GNum 2%nat) (Some OnTheFly) (Some f) = Ok g' /\
  mg_Ys (gp_data g') = mg_Ys (gp_data g) /\ mg_norm (gp_data g') <> mg_norm (gp_data g).
Proof.
  assert (HC : forall d, 0 < ex_c d) by (intros [|d]; cbn; lra).
  assert (NE : forall Y, In Y ex1_Ys -> a_data Y <> []) by (intros Y [<-|[<-|[]]]; discriminate).
  destruct pos_rbf as [H1 [H2 _]]. destruct (ex1_model (RBF 1) (Matern32 2) OnTheFly H1 H2 I I) as [f [g [solve [bits [k (E & Eg & HR & Em & Hs & Hf & Hp & EQ & ED & K0 & K1 & EP & _ & _ & Emul)]]]]].
  exists f, g, (gp_out ex_c ex_b g). split; [exact HC|]. split; [exact NE|].
  split; [cbn; repeat (f_equal; try lra)|]. split; [exact Eg|]. rewrite gp_init_out, Eg by assumption. split; [reflexivity|]. split; [reflexivity|].
  apply ex1_multi in Emul. cbn [gp_out gp_data multi_out mg_norm]. rewrite Emul. cbn. intros H. injection H. intros. 
  unfold np_mean in *. cbn in *. lra.
Qed.
