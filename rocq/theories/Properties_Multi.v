(** C99: multilevel priors. *)

From Coq Require Import Reals List Arith Lia Lra Bool.
From Coquelicot Require Import Coquelicot.
From Verif Require Import Base Model_Prior Spec_Prior Proofs_Prior Properties_Prior Model_Multi Spec_Multi.
Import ListNotations.
Open Scope R_scope.

(** ** Values *)

Lemma mlnpdf_meant gammaln th p x : mlnpdf th p x = lnpdf gammaln (meant th (mp_form p)) x + (mp_const p - log_factor gammaln (meant th (mp_form p))).
Proof. unfold mlnpdf, meant. destruct (mp_form p); cbn [lnpdf log_factor]; lra. Qed.

Lemma lsum_plus {A} (f g : A -> R) l : lsum (map (fun x => f x + g x) l) = lsum (map f l) + lsum (map g l).
Proof. induction l as [|x l IH]; cbn; [lra|]. unfold lsum in *. rewrite IH. lra. Qed.
Lemma lsum_const {A} (c : R) (l : list A) : lsum (map (fun _ => c) l) = INR (length l) * c.
Proof. induction l as [|x l IH]; [cbn; lra|]. cbn [map length]. rewrite lsum_cons, IH, S_INR. lra. Qed.
Lemma flat_snd {A B} (h : A -> B) (l : list (A * list nat)) : flat_map snd (map (fun q => (h (fst q), snd q)) l) = flat_map snd l.
Proof. induction l as [|q l IH]; cbn; [reflexivity|]. now rewrite IH. Qed.
Lemma size_plain s : pio_size (priors (plain s)) = pio_size (mpriors s).
Proof. unfold pio_size, plain. cbn [priors]. now rewrite map_map. Qed.

(** The constant of a prior is computed when the prior is created.  So the log
    prior that the model reports is log p(theta | phi) plus, for each parameter
    with a prior, the logarithm of the factor of the density as it was when the
    prior was created minus that logarithm as it is now.  In particular it is
    right as long as the factors are the same as then. *)
Theorem C99_value gammaln s :
  mlog_prior s = log_prior gammaln (plain s) +
    lsum (map (fun q => INR (length (snd q)) * (mp_const (fst q) - log_factor gammaln (meant (mtheta s) (mp_form (fst q))))) (mpriors s)).
Proof.
  unfold mlog_prior, log_prior. rewrite size_plain. destruct (Nat.eqb_spec (pio_size (mpriors s)) 0) as [E|E].
  - destruct (size0 _ E) as [_ _]. unfold pio_size in E. rewrite Rplus_0_l. symmetry. induction (mpriors s) as [|q l IH]; [reflexivity|]. cbn [map list_sum fold_right] in E. rewrite map_cons, lsum_cons.
    rewrite IH by (unfold list_sum in *; lia). replace (length (snd q)) with 0%nat by lia. cbn. lra.
  - cbv zeta. unfold plain. cbn [priors theta constraints]. rewrite (flat_snd (fun p => meant (mtheta s) (mp_form p))). rewrite map_map. cbn [fst snd].
    rewrite (map_ext (fun q => lsum (map (mlnpdf (mtheta s) (fst q)) (take (mtheta s) (snd q))))
      (fun q => lsum (map (lnpdf gammaln (meant (mtheta s) (mp_form (fst q)))) (take (mtheta s) (snd q))) +
        INR (length (snd q)) * (mp_const (fst q) - log_factor gammaln (meant (mtheta s) (mp_form (fst q)))))).
    + rewrite lsum_plus. lra.
    + intros [p idx]. cbn [fst snd]. rewrite (map_ext _ _ (mlnpdf_meant gammaln (mtheta s) p)), lsum_plus, lsum_const. unfold take at 2. now rewrite map_length.
Qed.
Print Assumptions C99_value.

(** Directly after the priors have been created from calls [c], with the same
    values of the parameters, the log prior is the one that is meant. *)
Theorem C99_fresh gammaln th cs ps constraints : Forall2 (fun c q => create gammaln th (fst c) = Ok (fst q) /\ snd q = snd c) cs ps ->
  mlog_prior (mk_mparams th ps constraints) = log_prior gammaln (mk_params th (map (fun c => (meant th (fst c), snd c)) cs) constraints).
Proof.
  intros H. rewrite (C99_value gammaln).
  assert (E : map (fun q => (meant th (mp_form (fst q)), snd q)) ps = map (fun c => (meant th (fst c), snd c)) cs /\
    lsum (map (fun q => INR (length (snd q)) * (mp_const (fst q) - log_factor gammaln (meant th (mp_form (fst q))))) ps) = 0).
  { induction H as [|[c idx] [p idx'] cs ps [E1 E2] _ [I1 I2]]; [split; reflexivity|]. cbn [fst snd map] in *. rewrite lsum_cons, I1, I2. subst idx'.
    assert (G : meant th (mp_form p) = meant th c /\ mp_const p = log_factor gammaln (meant th c)).
    { destruct c as [mu var|a b|a b|b]; cbn [create] in E1; [destruct (Rle_dec (value th var) 0); [discriminate E1|]| | |]; injection E1 as <-; cbn; (split; [reflexivity|lra]). }
    destruct G as [G1 G2]. rewrite G1, G2. split; [reflexivity|lra]. }
  destruct E as [E1 E2]. cbn [mtheta mpriors] in *. rewrite E2, Rplus_0_r. unfold plain. cbn [mtheta mpriors mconstraints]. now rewrite E1.
Qed.
Print Assumptions C99_fresh.

(** ** Gradients *)

(** The gradient that the model reports is that of a model whose priors have
    numbers, the current ones, for parameters. *)
Theorem C99_gradient gradient s : mobjective_gradients gradient s = objective_gradients gradient (plain s).
Proof.
  unfold mobjective_gradients, objective_gradients. replace (log_prior_gradients (plain s)) with (mlog_prior_gradients s); [reflexivity|].
  unfold mlog_prior_gradients, log_prior_gradients. rewrite size_plain. destruct (Nat.eqb (pio_size (mpriors s)) 0); [reflexivity|].
  assert (E : forall l g, fold_left (fun g q => (np_put (fst g) (snd q) (mlnpdf_grad (mtheta s) (fst q) (take (mtheta s) (snd q))), snd q)) l g =
    fold_left (fun g q => (np_put (fst g) (snd q) (lnpdf_grad (fst q) (take (mtheta s) (snd q))), snd q)) (map (fun q => (meant (mtheta s) (mp_form (fst q)), snd q)) l) g).
  { induction l as [|[p idx] l IH]; intros g; [reflexivity|]. cbn [fold_left map fst snd]. rewrite IH. f_equal. f_equal. f_equal. unfold mlnpdf_grad, meant. now destruct (mp_form p). }
  cbn [plain priors theta constraints]. rewrite E. destruct (fold_left _ (map _ (mpriors s)) _) as [grad indices].
  f_equal. replace (flat_map (fun idx => map (fun _ : mprior * list nat => idx) (mpriors s)) indices) with
    (flat_map (fun idx => map (fun _ : prior * list nat => idx) (map (fun q => (meant (mtheta s) (mp_form (fst q)), snd q)) (mpriors s))) indices); [reflexivity|].
  apply flat_map_ext. intros i. now rewrite map_map.
Qed.
Print Assumptions C99_gradient.

Lemma value_with s k t a : (k < length (mtheta s))%nat -> value (mtheta (with_mtheta s k t)) a = if is_ref k a then t else value (mtheta s) a.
Proof.
  intros Hk. destruct a as [r|i]; [reflexivity|]. cbn [value is_ref with_mtheta mtheta]. destruct (Nat.lt_ge_cases i (length (mtheta s))) as [Hi|Hi].
  - rewrite vget_tab by exact Hi. reflexivity.
  - destruct (Nat.eqb_spec i k); [lia|]. unfold vget. rewrite !nth_overflow; [reflexivity|exact Hi|now rewrite tab_length].
Qed.

Lemma meant_with s k t c : (k < length (mtheta s))%nat -> refers k c = false -> meant (mtheta (with_mtheta s k t)) c = meant (mtheta s) c.
Proof.
  intros Hk. destruct c as [a b|a b|a b|b]; cbn [refers meant]; intros H; rewrite ?orb_false_iff in H;
    repeat match goal with H : _ /\ _ |- _ => destruct H end; rewrite !value_with by exact Hk; rewrite ?H, ?H0; reflexivity.
Qed.

Lemma d_hyper_zero th k c x : refers k c = false -> d_hyper th k c x = 0 /\ d_hyper_fixed th k c x = 0.
Proof.
  destruct c as [a b|a b|a b|b]; cbn [refers d_hyper d_hyper_fixed]; intros H; rewrite ?orb_false_iff in H; repeat match goal with H : _ /\ _ |- _ => destruct H end; rewrite ?H, ?H0; lra.
Qed.

(** The derivatives of one log density in the parameter of its prior. *)
Lemma d_hyper_ok gammaln s k p x : (k < length (mtheta s))%nat -> refers k (mp_form p) = true -> valid (meant (mtheta s) (mp_form p)) -> in_domain (meant (mtheta s) (mp_form p)) x ->
  match mp_form p with FGamma _ _ => False | FInverseGamma a _ => is_ref k a = false | _ => True end ->
  is_derive (fun t => lnpdf gammaln (meant (mtheta (with_mtheta s k t)) (mp_form p)) x) (vget (mtheta s) k) (d_hyper (mtheta s) k (mp_form p) x) /\
  is_derive (fun t => mlnpdf (mtheta (with_mtheta s k t)) p x) (vget (mtheta s) k) (d_hyper_fixed (mtheta s) k (mp_form p) x).
Proof.
  intros Hk Hr Hv Hd Hs. destruct p as [c cc]. cbn [mp_form] in *. unfold mlnpdf. cbn [mp_form mp_const].
  assert (VR : forall a, is_ref k a = true -> value (mtheta s) a = vget (mtheta s) k).
  { intros [r|i] H; [discriminate H|]. cbn in H |- *. apply Nat.eqb_eq in H. now subst i. }
  set (u := vget (mtheta s) k) in *. pose proof PI_RGT_0 as HPI. set (w := fun (a : arg) (t : R) => if is_ref k a then t else value (mtheta s) a).
  assert (VW : forall a t, value (mtheta (with_mtheta s k t)) a = w a t) by (intros a t; exact (value_with s k t a Hk)).
  destruct c as [mu var|a b|a b|b]; cbn [refers meant valid in_domain lnpdf d_hyper d_hyper_fixed] in *; [|destruct Hs| |]; cbv zeta.
  - pose proof (VR mu) as Vm. pose proof (VR var) as Vv.
    assert (G : (if is_ref k var then u else value (mtheta s) var) = value (mtheta s) var) by (destruct (is_ref k var); [now rewrite Vv|reflexivity]).
    assert (Gm : (if is_ref k mu then u else value (mtheta s) mu) = value (mtheta s) mu) by (destruct (is_ref k mu); [now rewrite Vm|reflexivity]).
    split; [apply (is_derive_ext (fun t => - (1 / 2) * ln (2 * PI * w var t) - 1 / 2 * ((x - w mu t) * (x - w mu t)) / w var t)); [intros t; now rewrite !VW|]
      |apply (is_derive_ext (fun t => cc - 1 / 2 * ((x - w mu t) * (x - w mu t)) / w var t)); [intros t; now rewrite !VW|]]; unfold w;
    destruct (is_ref k mu) eqn:E1, (is_ref k var) eqn:E2; try discriminate Hr;
      try rewrite (Vm eq_refl) in *; try rewrite (Vv eq_refl) in *; auto_derive; try (repeat split; try lra; try (apply Rmult_lt_0_compat; lra)); try (field; repeat split; lra).
  - rewrite Hs in Hr. cbn [orb] in Hr.
    rewrite Hr. pose proof (VR b Hr) as Vb. rewrite Vb in Hv |- *.
    split; [apply (is_derive_ext (fun t => - gammaln (w a t) + w a t * ln (w b t) - (w a t + 1) * ln x - w b t / x)); [intros t; now rewrite !VW|]
      |apply (is_derive_ext (fun t => cc - (w a t + 1) * ln x - w b t / x)); [intros t; now rewrite !VW|]]; unfold w; rewrite Hs, Hr; auto_derive; try lra; field; lra.
  - rewrite Hr. pose proof (VR b Hr) as Vb. rewrite Vb in Hv |- *.
    split; [apply (is_derive_ext (fun t => - ln (w b t) - x / w b t)); [intros t; now rewrite !VW|]
      |apply (is_derive_ext (fun t => cc - x / w b t)); [intros t; now rewrite !VW|]]; unfold w; rewrite Hr; auto_derive; try lra; field; lra.
Qed.

Lemma over_pairs s f : over s f = lsum (map (fun q => f (mp_form (fst q)) (vget (mtheta s) (snd q))) (pairs (mpriors s))).
Proof. unfold over, pairs. rewrite lsum_flat. apply f_equal, map_ext. intros q. now rewrite map_map. Qed.

Lemma pairs_map {A B} (h : A -> B) (l : list (A * list nat)) : pairs (map (fun q => (h (fst q), snd q)) l) = map (fun q => (h (fst q), snd q)) (pairs l).
Proof. unfold pairs. induction l as [|[a idx] l IH]; [reflexivity|]. cbn [map flat_map fst snd]. rewrite map_app, <- IH, map_map. reflexivity. Qed.

Lemma sum_derive {A} (f : R -> A -> R) (d : A -> R) l x : (forall a, In a l -> is_derive (fun t => f t a) x (d a)) -> is_derive (fun t => lsum (map (f t) l)) x (lsum (map d l)).
Proof.
  induction l as [|a l IH]; intros H; [apply (is_derive_const 0)|]. cbn [map]. unfold lsum. cbn [fold_right].
  apply (is_derive_plus (fun t => f t a) (fun t => lsum (map (f t) l))); [apply H; now left|]. apply IH. intros b Hb. apply H. now right.
Qed.

Section Levels.
  Variables (gammaln : R -> R) (s : mparams) (k : nat).
  Hypothesis Hk : (k < length (mtheta s))%nat.
  Hypothesis Hb : below s k.
  Hypothesis Hr : forall i, In i (flat_map snd (mpriors s)) -> (i < length (mtheta s))%nat.
  Let th t := mtheta (with_mtheta s k t).
  Let u := vget (mtheta s) k.
  Let old (p : mprior) (x : R) := lnpdf gammaln (meant (mtheta s) (mp_form p)) x.

  Lemma vget_th t i : (i < length (mtheta s))%nat -> vget (th t) i = if Nat.eqb i k then t else vget (mtheta s) i.
  Proof. intros Hi. unfold th. cbn [with_mtheta mtheta]. now rewrite vget_tab. Qed.

  Lemma split_true t : log_prior gammaln (plain (with_mtheta s k t)) = log_prior gammaln (with_theta (plain s) k t) +
    lsum (map (fun q => lnpdf gammaln (meant (th t) (mp_form (fst q))) (vget (th t) (snd q)) - old (fst q) (vget (th t) (snd q))) (pairs (mpriors s))).
  Proof.
    rewrite !log_prior_pairs. cbn [plain with_theta priors theta constraints with_mtheta mtheta mpriors mconstraints]. fold (th t).
    rewrite (flat_snd (fun p => meant (tab (length (mtheta s)) (fun i => if Nat.eqb i k then t else vget (mtheta s) i)) (mp_form p))).
    rewrite (flat_snd (fun p => meant (mtheta s) (mp_form p))).
    rewrite (pairs_map (fun p => meant (tab (length (mtheta s)) (fun i => if Nat.eqb i k then t else vget (mtheta s) i)) (mp_form p))).
    rewrite (pairs_map (fun p => meant (mtheta s) (mp_form p))). rewrite !map_map. cbn [fst snd].
    change (tab (length (mtheta s)) (fun i => if Nat.eqb i k then t else vget (mtheta s) i)) with (th t). unfold old.
    rewrite (map_ext (fun x : mprior * nat => lnpdf gammaln (meant (th t) (mp_form (fst x))) (vget (th t) (snd x)))
      (fun x => lnpdf gammaln (meant (mtheta s) (mp_form (fst x))) (vget (th t) (snd x)) + (lnpdf gammaln (meant (th t) (mp_form (fst x))) (vget (th t) (snd x)) - lnpdf gammaln (meant (mtheta s) (mp_form (fst x))) (vget (th t) (snd x)))))
      by (intros; lra).
    rewrite lsum_plus. lra.
  Qed.

  Lemma split_code t : mlog_prior (with_mtheta s k t) = log_prior gammaln (with_theta (plain s) k t) +
    lsum (map (fun q => mlnpdf (th t) (fst q) (vget (th t) (snd q)) - old (fst q) (vget (th t) (snd q))) (pairs (mpriors s))).
  Proof.
    rewrite (C99_value gammaln), split_true, Rplus_assoc. f_equal. cbn [with_mtheta mpriors mtheta].
    change (tab (length (mtheta s)) (fun i => if Nat.eqb i k then t else vget (mtheta s) i)) with (th t).
    replace (lsum (map (fun q : mprior * list nat => INR (length (snd q)) * (mp_const (fst q) - log_factor gammaln (meant (th t) (mp_form (fst q))))) (mpriors s)))
      with (lsum (map (fun q => mp_const (fst q) - log_factor gammaln (meant (th t) (mp_form (fst q)))) (pairs (mpriors s)))).
    - rewrite <- lsum_plus. apply f_equal, map_ext. intros q. rewrite (mlnpdf_meant gammaln). lra.
    - unfold pairs. rewrite lsum_flat. apply f_equal, map_ext. intros [p idx]. rewrite map_map. cbn [fst snd]. now rewrite lsum_const.
  Qed.

  Lemma pair_in p i : In (p, i) (pairs (mpriors s)) -> (i < length (mtheta s))%nat /\ (refers k (mp_form p) = true ->
    i <> k /\ valid (meant (mtheta s) (mp_form p)) /\ in_domain (meant (mtheta s) (mp_form p)) (vget (mtheta s) i) /\
    match mp_form p with FGamma _ _ => False | FInverseGamma a _ => is_ref k a = false | _ => True end).
  Proof.
    intros H. apply pairs_In in H. destruct H as [idx [H1 H2]]. split; [apply Hr, in_flat_map; now exists (p, idx)|].
    intros Hf. destruct (Hb p idx H1 Hf) as (A & B & C & D). split; [intros ->; contradiction|]. auto.
  Qed.

  Lemma extra_derive :
    is_derive (fun t => lsum (map (fun q => lnpdf gammaln (meant (th t) (mp_form (fst q))) (vget (th t) (snd q)) - old (fst q) (vget (th t) (snd q))) (pairs (mpriors s)))) u (over s (d_hyper (mtheta s) k)) /\
    is_derive (fun t => lsum (map (fun q => mlnpdf (th t) (fst q) (vget (th t) (snd q)) - old (fst q) (vget (th t) (snd q))) (pairs (mpriors s)))) u (over s (d_hyper_fixed (mtheta s) k)).
  Proof.
    rewrite !over_pairs.
    split; apply (sum_derive (fun t (q : mprior * nat) => _)); intros [p i] Hq; cbn [fst snd]; destruct (pair_in p i Hq) as [Hi HR]; (destruct (refers k (mp_form p)) eqn:E;
      [destruct (HR eq_refl) as (Ne & V & D & S)|clear HR]).
    - destruct (d_hyper_ok gammaln s k p (vget (mtheta s) i) Hk E V D S) as [H _].
      apply (is_derive_ext (fun t => lnpdf gammaln (meant (th t) (mp_form p)) (vget (mtheta s) i) - old p (vget (mtheta s) i))).
      + intros t. rewrite vget_th by exact Hi. now destruct (Nat.eqb_spec i k).
      + rewrite <- (Rminus_0_r (d_hyper _ _ _ _)). apply (is_derive_minus (fun t => lnpdf gammaln (meant (th t) (mp_form p)) (vget (mtheta s) i)) (fun _ => old p (vget (mtheta s) i))); [exact H|apply (is_derive_const (old p (vget (mtheta s) i)))].
    - rewrite (proj1 (d_hyper_zero _ _ _ _ E)). apply (is_derive_ext (fun _ => 0)); [|apply (is_derive_const 0)].
      intros t. unfold th, old. rewrite meant_with by assumption. lra.
    - destruct (d_hyper_ok gammaln s k p (vget (mtheta s) i) Hk E V D S) as [_ H].
      apply (is_derive_ext (fun t => mlnpdf (th t) p (vget (mtheta s) i) - old p (vget (mtheta s) i))).
      + intros t. rewrite vget_th by exact Hi. now destruct (Nat.eqb_spec i k).
      + rewrite <- (Rminus_0_r (d_hyper_fixed _ _ _ _)). apply (is_derive_minus (fun t => mlnpdf (th t) p (vget (mtheta s) i)) (fun _ => old p (vget (mtheta s) i))); [exact H|apply (is_derive_const (old p (vget (mtheta s) i)))].
    - rewrite (proj2 (d_hyper_zero _ _ _ _ E)). apply (is_derive_ext (fun _ => mp_const p - log_factor gammaln (meant (mtheta s) (mp_form p)))); [|apply (is_derive_const (mp_const p - log_factor gammaln (meant (mtheta s) (mp_form p))))].
      intros t. unfold old. rewrite (mlnpdf_meant gammaln). unfold th. rewrite meant_with by assumption. lra.
  Qed.

  Lemma levels ll G : is_derive (fun t => objective gammaln ll (with_theta (plain s) k t)) u G ->
    is_derive (fun t => objective gammaln ll (plain (with_mtheta s k t))) u (G - over s (d_hyper (mtheta s) k)) /\
    is_derive (fun t => mobjective ll (with_mtheta s k t)) u (G - over s (d_hyper_fixed (mtheta s) k)).
  Proof.
    intros HG. destruct extra_derive as [E1 E2]. split.
    - apply (is_derive_ext (fun t => objective gammaln ll (with_theta (plain s) k t) -
        lsum (map (fun q => lnpdf gammaln (meant (th t) (mp_form (fst q))) (vget (th t) (snd q)) - old (fst q) (vget (th t) (snd q))) (pairs (mpriors s))))).
      + intros t. unfold objective. rewrite split_true. cbn [plain with_theta with_mtheta theta mtheta]. lra.
      + apply (is_derive_minus (fun t => objective gammaln ll (with_theta (plain s) k t))
          (fun t => lsum (map (fun q => lnpdf gammaln (meant (th t) (mp_form (fst q))) (vget (th t) (snd q)) - old (fst q) (vget (th t) (snd q))) (pairs (mpriors s))))); assumption.
    - apply (is_derive_ext (fun t => objective gammaln ll (with_theta (plain s) k t) -
        lsum (map (fun q => mlnpdf (th t) (fst q) (vget (th t) (snd q)) - old (fst q) (vget (th t) (snd q))) (pairs (mpriors s))))).
      + intros t. unfold objective, mobjective. rewrite split_code. cbn [plain with_theta with_mtheta theta mtheta]. lra.
      + apply (is_derive_minus (fun t => objective gammaln ll (with_theta (plain s) k t))
          (fun t => lsum (map (fun q => mlnpdf (th t) (fst q) (vget (th t) (snd q)) - old (fst q) (vget (th t) (snd q))) (pairs (mpriors s))))); assumption.
  Qed.
End Levels.

Lemma plain_range s : tidy (length (theta (plain s))) (priors (plain s)) -> forall i, In i (flat_map snd (mpriors s)) -> (i < length (mtheta s))%nat.
Proof. intros [_ H] i Hi. apply (H i). cbn [plain priors]. now rewrite (flat_snd (fun p => meant (mtheta s) (mp_form p))). Qed.

(** The gradient for a parameter [k] of priors is neither that of the objective
    that is meant nor that of the objective that is computed: it lacks exactly
    the derivatives of the log densities of the level below.  (Where [C47] fails
    as well, see [C47_off], its error is added.) *)
Theorem C99_missing (gammaln : R -> R) ll gradient s k : at_param ll gradient (plain s) k -> below s k ->
  ((forall p, ~ has_prior (plain s) p k) \/ (forall lj ljg, ~ constrained (plain s) (Transformation lj ljg) k) \/
   (exists ps p idx, priors (plain s) = ps ++ [(p, idx)] /\ In k idx)) ->
  let g := vget (mobjective_gradients gradient s) k in
  is_derive (fun t => objective gammaln ll (plain (with_mtheta s k t))) (vget (mtheta s) k) (g - over s (d_hyper (mtheta s) k)) /\
  is_derive (fun t => mobjective ll (with_mtheta s k t)) (vget (mtheta s) k) (g - over s (d_hyper_fixed (mtheta s) k)).
Proof.
  intros H Hb Hc. cbv zeta. rewrite C99_gradient. apply levels; [exact (proj1 H)|exact Hb|apply plain_range; exact (proj1 (proj2 (proj2 H)))|].
  now apply C47_gradient_partial.
Qed.
Print Assumptions C99_missing.

(** With inverse Gamma priors on the level below, as in the notebook, and no
    other error, the gradient for the parameter they share is never that of the
    objective that the optimiser is given. *)
Theorem C99_never ll gradient s k : at_param ll gradient (plain s) k -> below s k ->
  ((forall p, ~ has_prior (plain s) p k) \/ (forall lj ljg, ~ constrained (plain s) (Transformation lj ljg) k) \/
   (exists ps p idx, priors (plain s) = ps ++ [(p, idx)] /\ In k idx)) ->
  (forall p idx, In (p, idx) (mpriors s) -> refers k (mp_form p) = true -> exists a, mp_form p = FInverseGamma (Num a) (Ref k)) ->
  (exists p i idx, In (p, i :: idx) (mpriors s) /\ refers k (mp_form p) = true) ->
  ~ is_derive (fun t => mobjective ll (with_mtheta s k t)) (vget (mtheta s) k) (vget (mobjective_gradients gradient s) k).
Proof.
  intros H Hb Hc HI HE D. destruct (C99_missing (fun _ => 0) ll gradient s k H Hb Hc) as [_ D2].
  apply is_derive_unique in D. apply is_derive_unique in D2. rewrite D in D2.
  assert (N : over s (d_hyper_fixed (mtheta s) k) < 0); [|lra]. clear D D2.
  rewrite over_pairs.
  assert (G : forall q, In q (pairs (mpriors s)) -> d_hyper_fixed (mtheta s) k (mp_form (fst q)) (vget (mtheta s) (snd q)) <= 0 /\
    (refers k (mp_form (fst q)) = true -> d_hyper_fixed (mtheta s) k (mp_form (fst q)) (vget (mtheta s) (snd q)) < 0)).
  { intros [p i] Hq. cbn [fst snd]. apply pairs_In in Hq. destruct Hq as [idx [H1 H2]]. destruct (refers k (mp_form p)) eqn:E.
    - destruct (HI p idx H1 E) as [a Ea]. destruct (Hb p idx H1 E) as (_ & _ & Dm & _). specialize (Dm i H2). rewrite Ea in Dm |- *. cbn in Dm. cbn [d_hyper_fixed is_ref]. rewrite Nat.eqb_refl.
      assert (0 < 1 / vget (mtheta s) i) by (apply Rdiv_lt_0_compat; lra). split; [lra|intros _; lra].
    - rewrite (proj2 (d_hyper_zero _ _ _ _ E)). split; [lra|discriminate]. }
  destruct HE as (p & i & idx & H1 & H2). assert (Hin : In (p, i) (pairs (mpriors s))) by (apply pairs_In; exists (i :: idx); split; [exact H1|now left]).
  clear - G Hin H2. induction (pairs (mpriors s)) as [|q l IH]; [destruct Hin|]. cbn [map]. rewrite lsum_cons. destruct (G q (or_introl eq_refl)) as [G1 G2].
  destruct Hin as [->|Hin].
  - specialize (G2 H2). assert (L : lsum (map (fun q => d_hyper_fixed (mtheta s) k (mp_form (fst q)) (vget (mtheta s) (snd q))) l) <= 0); [|lra].
    assert (G' : forall q, In q l -> d_hyper_fixed (mtheta s) k (mp_form (fst q)) (vget (mtheta s) (snd q)) <= 0) by (intros q Hq; apply G; now right). clear - G'.
    induction l as [|q l IH]; [unfold lsum; cbn; lra|]. cbn [map]. rewrite lsum_cons. pose proof (G' q (or_introl eq_refl)). specialize (IH (fun a Ha => G' a (or_intror Ha))). lra.
  - specialize (IH (fun a Ha => G a (or_intror Ha)) Hin). lra.
Qed.
Print Assumptions C99_never.

(** The gradient for [k] does not change with the values of the level below:
    whatever they are, the optimiser moves [k] as if they were not there. *)
Theorem C99_ignores ll gradient s th' k : at_param ll gradient (plain s) k ->
  let s' := mk_mparams th' (mpriors s) (mconstraints s) in
  at_param ll gradient (plain s') k -> vget th' k = vget (mtheta s) k ->
  (forall p idx, In (p, idx) (mpriors s) -> In k idx -> meant th' (mp_form p) = meant (mtheta s) (mp_form p)) ->
  vget (mobjective_gradients gradient s') k = vget (mobjective_gradients gradient s) k.
Proof.
  intros H s' H' E Em. rewrite !C99_gradient. destruct H as (Hk & Lg & Hp & Hc & Hv & Ht & _). destruct H' as (Hk' & Lg' & Hp' & Hc' & Hv' & Ht' & _).
  rewrite (gradient_code (plain s) k Hk Hp Hv Ht gradient Lg), (gradient_code (plain s') k Hk' Hp' Hv' Ht' gradient Lg').
  assert (E1 : last_indices (plain s') = last_indices (plain s)) by (unfold last_indices, plain; cbn [priors]; rewrite !map_map; reflexivity).
  assert (E2 : djac (plain s') k = djac (plain s) k) by (unfold djac; cbn [plain theta constraints s' mtheta mconstraints]; now rewrite E).
  assert (E3 : dprior (plain s') k = dprior (plain s) k).
  { unfold dprior. cbn [plain theta priors s' mtheta mpriors]. rewrite E, (pairs_map (fun p => meant th' (mp_form p))), (pairs_map (fun p => meant (mtheta s) (mp_form p))).
    unfold at_idx. rewrite !map_map. apply f_equal, map_ext_in. intros [p i] Hq. cbn [fst snd]. destruct (Nat.eqb_spec i k) as [->|]; [|reflexivity].
    apply pairs_In in Hq. destruct Hq as [idx [H1 H2]]. now rewrite (Em p idx H1 H2). }
  rewrite E1, E2, E3. reflexivity.
Qed.
Print Assumptions C99_ignores.

(** ** The notebook *)

(** examples/example.ipynb, last code cell: [shape] has the prior IG(1/2, 1/2),
    the two inverse length scales IG(1/2, shape); [set_prior] makes all three
    positive.  All of them are 1 when the priors are made; then they are [x0],
    [x1] and [b].  [own] tells which of the two priors comes last. *)
Definition nb (own_last : bool) (x0 x1 b : R) (ig ig2 : mprior) : mparams :=
  mk_mparams [x0; x1; b] (if own_last then [(ig2, [0%nat; 1%nat]); (ig, [2%nat])] else [(ig, [2%nat]); (ig2, [0%nat; 1%nat])]) [(logexp, [0%nat; 1%nat; 2%nat])].
Definition nb_ig : form := FInverseGamma (Num (1 / 2)) (Num (1 / 2)).
Definition nb_ig2 : form := FInverseGamma (Num (1 / 2)) (Ref 2).
Definition nb_made (gammaln : R -> R) (ig ig2 : mprior) : Prop := create gammaln [1; 1; 1] nb_ig = Ok ig /\ create gammaln [1; 1; 1] nb_ig2 = Ok ig2.

Lemma nb_at o x0 x1 b ig ig2 : mp_form ig = nb_ig -> mp_form ig2 = nb_ig2 -> 0 < x0 -> 0 < x1 -> 0 < b ->
  at_param (fun v => vget v 0 * vget v 1) [x1; x0; 0] (plain (nb o x0 x1 b ig ig2)) 2 /\ below (nb o x0 x1 b ig ig2) 2.
Proof.
  intros E1 E2 H0 H1 Hb.
  assert (N : NoDup [0%nat; 1%nat; 2%nat]) by (repeat constructor; cbn; lia).
  assert (R3 : forall i, In i [0%nat; 1%nat; 2%nat] -> (i < 3)%nat) by (intros i [<-|[<-|[<-|[]]]]; lia).
  split.
  - split; [cbn; lia|]. split; [reflexivity|]. split; [|split; [split; [exact N|exact R3]|]].
    + destruct o; (split; cbn; [repeat constructor; cbn; lia|intros i Hi; lia]).
    + split; [|split].
      * intros p [idx [HI Hi]]. destruct o; cbn [plain nb priors mpriors map fst snd mtheta theta] in *; destruct HI as [E|[E|[]]]; injection E as <- <-; cbn in Hi; try lia; rewrite E1; cbn; lra.
      * intros lj ljg [idx [[E|[]] Hi]]. injection E as <- <- <-. exact (proj2 (C47_logexp b Hb)).
      * cbn. apply (is_derive_ext (fun t => x0 * x1)); [intros t; reflexivity|]. apply (is_derive_const (x0 * x1)).
  - intros p idx HI HR. assert (G : p = ig2 /\ idx = [0%nat; 1%nat]).
    { destruct o; cbn in HI; destruct HI as [E|[E|[]]]; injection E as <- <-; auto; rewrite E1 in HR; discriminate HR. }
    destruct G as [-> ->]. rewrite E2. cbn. repeat split; try lra; [lia|]. intros i [<-|[<-|[]]]; assumption.
Qed.

Lemma nb_forms gammaln ig ig2 : nb_made gammaln ig ig2 ->
  ig = mk_mprior nb_ig (- gammaln (1 / 2) + 1 / 2 * ln (1 / 2)) /\ ig2 = mk_mprior nb_ig2 (- gammaln (1 / 2) + 1 / 2 * ln 1).
Proof. intros [H1 H2]. cbn in H1, H2. injection H1 as <-. injection H2 as <-. split; reflexivity. Qed.

(** The docstring's "automatically adds in the missing log p(theta | phi) term and
    its derivative" is false in the notebook: once [shape] is not 1 the log prior
    is off by [ln shape], and from the start the gradient for [shape] is that of
    neither objective. *)
Theorem C99_refuted gammaln ig ig2 : nb_made gammaln ig ig2 ->
  (forall o x0 x1 b, 0 < b -> mlog_prior (nb o x0 x1 b ig ig2) = log_prior gammaln (plain (nb o x0 x1 b ig ig2)) - ln b) /\
  (exists ll gradient, at_param ll gradient (plain (nb false 1 1 1 ig ig2)) 2 /\
    ~ is_derive (fun t => objective gammaln ll (plain (with_mtheta (nb false 1 1 1 ig ig2) 2 t))) 1 (vget (mobjective_gradients gradient (nb false 1 1 1 ig ig2)) 2) /\
    ~ is_derive (fun t => mobjective ll (with_mtheta (nb false 1 1 1 ig ig2) 2 t)) 1 (vget (mobjective_gradients gradient (nb false 1 1 1 ig ig2)) 2)).
Proof.
  intros H. destruct (nb_forms _ _ _ H) as [E1 E2].
  assert (F1 : mp_form ig = nb_ig) by now rewrite E1. assert (F2 : mp_form ig2 = nb_ig2) by now rewrite E2. split.
  - intros o x0 x1 b Hb. rewrite (C99_value gammaln).
    assert (L : ln (1 / 2) = - ln 2) by (replace (1 / 2) with (/ 2) by lra; apply ln_Rinv; lra).
    destruct o; rewrite E1, E2; cbn [nb mpriors mtheta map fst snd mp_form mp_const nb_ig nb_ig2 meant value log_factor length INR lsum fold_right vget nth]; rewrite L, ln_1; lra.
  - exists (fun v => vget v 0 * vget v 1), [1; 1; 0]. destruct (nb_at false 1 1 1 ig ig2 F1 F2 Rlt_0_1 Rlt_0_1 Rlt_0_1) as [A B]. split; [exact A|].
    rewrite C99_gradient.
    assert (HC : exists p', has_prior (plain (nb false 1 1 1 ig ig2)) p' 2) by (eexists; exists [2%nat]; split; [left; reflexivity|now left]).
    pose proof (C47_off gammaln _ _ (plain (nb false 1 1 1 ig ig2)) 2 [(meant [1; 1; 1] (mp_form ig), [2%nat])] (meant [1; 1; 1] (mp_form ig2)) [0%nat; 1%nat] _ _
      A eq_refl ltac:(cbn; lia) HC ltac:(exists [0%nat; 1%nat; 2%nat]; split; [left; reflexivity|cbn; tauto])) as D.
    apply levels in D; [|cbn; lia|exact B|apply plain_range; exact (proj1 (proj2 (proj2 A)))].
    assert (V1 : over (nb false 1 1 1 ig ig2) (d_hyper [1; 1; 1] 2) = - 1) by (unfold over; rewrite E1, E2; cbn; lra).
    assert (V2 : over (nb false 1 1 1 ig ig2) (d_hyper_fixed [1; 1; 1] 2) = - 2) by (unfold over; rewrite E1, E2; cbn; lra).
    change (mtheta (nb false 1 1 1 ig ig2)) with [1; 1; 1] in D. rewrite V1, V2 in D. destruct D as [D1 D2].
    change (vget [1; 1; 1] 2) with 1 in D1, D2. change (vget (theta (plain (nb false 1 1 1 ig ig2))) 2) with 1 in D1, D2.
    assert (X : 0 < 1 / (exp 1 - 1) < 1).
    { pose proof (exp_ineq1 1 ltac:(lra)). split; [apply Rdiv_lt_0_compat; lra|]. apply (Rmult_lt_reg_r (exp 1 - 1)); [lra|]. unfold Rdiv. rewrite Rmult_assoc, Rinv_l by lra. lra. }
    split; intros D; apply is_derive_unique in D; [apply is_derive_unique in D1; rewrite D in D1|apply is_derive_unique in D2; rewrite D in D2]; lra.
Qed.
Print Assumptions C99_refuted.

(** With the two priors in the other order only the missing term is left, and
    the gradient for [shape] is off everywhere. *)
Example C99_missing_ex gammaln ig ig2 x0 x1 b : nb_made gammaln ig ig2 -> 0 < x0 -> 0 < x1 -> 0 < b ->
  let s := nb true x0 x1 b ig ig2 in let g := vget (mobjective_gradients [x1; x0; 0] s) 2 in let ll := fun v => vget v 0 * vget v 1 in
  g = (1 / 2 + 1) / b - 1 / 2 / (b * b) - 1 / (exp b - 1) /\
  is_derive (fun t => objective gammaln ll (plain (with_mtheta s 2 t))) b (g + (1 / x0 + 1 / x1 - 1 / b)) /\
  is_derive (fun t => mobjective ll (with_mtheta s 2 t)) b (g + (1 / x0 + 1 / x1)) /\
  ~ is_derive (fun t => mobjective ll (with_mtheta s 2 t)) b g.
Proof.
  intros H H0 H1 Hb. destruct (nb_forms _ _ _ H) as [E1 E2]. cbv zeta. destruct (nb_at true x0 x1 b ig ig2 ltac:(now rewrite E1) ltac:(now rewrite E2) H0 H1 Hb) as [A B].
  assert (C : exists ps p idx, priors (plain (nb true x0 x1 b ig ig2)) = ps ++ [(p, idx)] /\ In 2%nat idx).
  { exists [(meant [x0; x1; b] (mp_form ig2), [0%nat; 1%nat])]. do 2 eexists. split; [reflexivity|now left]. }
  pose proof (exp_ineq1 b ltac:(lra)) as Hx.
  split; [|split; [|split]].
  - rewrite E1, E2. cbn. change (0 mod 1)%nat with 0%nat. cbv iota. field. repeat split; lra.
  - destruct (C99_missing gammaln _ _ _ _ A B (or_intror (or_intror C))) as [D _].
    replace (over (nb true x0 x1 b ig ig2) (d_hyper (mtheta (nb true x0 x1 b ig ig2)) 2)) with (- (1 / x0 + 1 / x1 - 1 / b)) in D by (unfold over; rewrite E1, E2; cbn; field; lra).
    unfold Rminus at 1 in D. rewrite Ropp_involutive in D. exact D.
  - destruct (C99_missing gammaln _ _ _ _ A B (or_intror (or_intror C))) as [_ D].
    replace (over (nb true x0 x1 b ig ig2) (d_hyper_fixed (mtheta (nb true x0 x1 b ig ig2)) 2)) with (- (1 / x0 + 1 / x1)) in D by (unfold over; rewrite E1, E2; cbn; field; lra).
    unfold Rminus at 1 in D. rewrite Ropp_involutive in D. exact D.
  - apply (C99_never _ _ _ 2 A B (or_intror (or_intror C))).
    + intros p idx [E|[E|[]]] HR; injection E as <- <-; [exists (1 / 2); now rewrite E2|rewrite E1 in HR; discriminate HR].
    + exists ig2, 0%nat, [1%nat]. split; [now left|now rewrite E2].
Qed.
Example C99_ignores_ex gammaln ig ig2 x0 x1 y0 y1 b : nb_made gammaln ig ig2 -> 0 < x0 -> 0 < x1 -> 0 < y0 -> 0 < y1 -> 0 < b ->
  vget (mobjective_gradients [0; 0; 0] (nb true y0 y1 b ig ig2)) 2 = vget (mobjective_gradients [0; 0; 0] (nb true x0 x1 b ig ig2)) 2.
Proof.
  intros H H0 H1 G0 G1 Hb. destruct (nb_forms _ _ _ H) as [E1 E2].
  assert (Z : forall u0 u1, 0 < u0 -> 0 < u1 -> at_param (fun _ => 0) [0; 0; 0] (plain (nb true u0 u1 b ig ig2)) 2).
  { intros u0 u1 U0 U1. destruct (nb_at true u0 u1 b ig ig2 ltac:(now rewrite E1) ltac:(now rewrite E2) U0 U1 Hb) as [(A1 & _ & A3 & A4 & A5 & A6 & _) _].
    repeat (split; [assumption || reflexivity|]). apply (is_derive_const 0). }
  apply (C99_ignores (fun _ => 0) _ (nb true x0 x1 b ig ig2) [y0; y1; b] 2 (Z x0 x1 H0 H1) (Z y0 y1 G0 G1) eq_refl).
  intros p idx [E|[E|[]]] Hi; injection E as <- <-; [cbn in Hi; lia|]. now rewrite E1.
Qed.
Example C99_fresh_ex gammaln : exists ig ig2, nb_made gammaln ig ig2 /\
  mlog_prior (nb false 1 1 1 ig ig2) = log_prior gammaln (mk_params [1; 1; 1] [(InverseGamma (1 / 2) (1 / 2), [2%nat]); (InverseGamma (1 / 2) 1, [0%nat; 1%nat])] [(logexp, [0%nat; 1%nat; 2%nat])]).
Proof.
  do 2 eexists. split; [split; reflexivity|]. apply (C99_fresh gammaln [1; 1; 1] [(nb_ig, [2%nat]); (nb_ig2, [0%nat; 1%nat])]). repeat constructor.
Qed.
