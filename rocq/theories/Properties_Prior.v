(** Properties of the priors and of the objective. *)

From Coq Require Import Reals List Arith Lia Lra Bool.
From Coquelicot Require Import Coquelicot.
From Verif Require Import Base Model_Prior Spec_Prior Proofs_Prior Proofs_Prior2 Proofs_Gauss Proofs_GammaF.
Import ListNotations.
Open Scope R_scope.

(** ** C46: the priors *)

(** On its domain [lnpdf] is the logarithm of the textbook density; the only
    assumption about [gammaln] is that it is the logarithm of the integral
    which defines the Gamma function. *)
Theorem C46_density :
  forall gammaln G p x, is_Gamma G -> (forall a, 0 < a -> gammaln a = ln (G a)) ->
    valid p -> in_domain p x ->
    0 < density G p x /\ lnpdf gammaln p x = ln (density G p x).
Proof. intros gammaln G p x HG Hg Hv Hd. apply lnpdf_density; auto. intros a Ha. split; [now apply Gamma_positive|auto]. Qed.
Print Assumptions C46_density.

(** The densities are probability densities: their integrals over the domain
    are 1. *)
Theorem C46_normalised :
  forall G p, is_Gamma G -> valid p ->
    is_RInt_gen (density G p) (match p with Gaussian _ _ => Rbar_locally m_infty | _ => at_right 0 end) (Rbar_locally p_infty) 1.
Proof.
  intros G p HG Hv. pose proof (Gamma_positive G HG) as Gp. destruct p as [mu var|a b|a b|b]; cbn [valid] in Hv.
  - now apply gaussian_total.
  - now apply (gamma_moments G a b HG Gp).
  - now apply inverse_total.
  - now apply halflaplace_total.
Qed.
Print Assumptions C46_normalised.

(** [lnpdf_grad] of an array has as many entries as the array, or one which
    numpy repeats, and each entry is the derivative of [lnpdf] at the entry of
    the array. *)
Theorem C46_gradient :
  forall gammaln p v, valid p ->
    (length (lnpdf_grad p v) = length v \/ length (lnpdf_grad p v) = 1%nat) /\
    forall i, (i < length v)%nat -> in_domain p (vget v i) ->
      is_derive (lnpdf gammaln p) (vget v i) (vget (lnpdf_grad p v) (i mod length (lnpdf_grad p v))).
Proof.
  intros gammaln p v Hv. split.
  - destruct p; cbn [lnpdf_grad]; [left; apply map_length|left; apply map_length|left; apply map_length|right; reflexivity].
  - intros i Hi Hd.
    assert (E : vget (lnpdf_grad p v) (i mod length (lnpdf_grad p v)) = dlnpdf p (vget v i)).
    { assert (G : forall f : R -> R, vget (map f v) (i mod length (map f v)) = f (vget v i)).
      { intros f. rewrite map_length, Nat.mod_small by exact Hi. unfold vget. rewrite (nth_indep _ _ (f 0)) by (now rewrite map_length). apply map_nth. }
      destruct p; cbn [lnpdf_grad dlnpdf]; try apply G. cbn [length]. now rewrite Nat.mod_1_r. }
    rewrite E. now apply dlnpdf_ok.
Qed.
Print Assumptions C46_gradient.

(** [Gamma.from_EV(E, V)] is a Gamma prior whose density has mean [E] and
    variance [V]. *)
Theorem C46_from_EV :
  forall G E V, is_Gamma G -> 0 < E -> 0 < V ->
    valid (from_EV E V) /\
    is_RInt_gen (density G (from_EV E V)) (at_right 0) (Rbar_locally p_infty) 1 /\
    is_RInt_gen (fun x => x * density G (from_EV E V) x) (at_right 0) (Rbar_locally p_infty) E /\
    is_RInt_gen (fun x => (x - E) ^ 2 * density G (from_EV E V) x) (at_right 0) (Rbar_locally p_infty) V.
Proof.
  intros G E V HG HE HV. unfold from_EV.
  assert (Ha : 0 < E * E / V) by (apply Rdiv_lt_0_compat; [apply Rmult_lt_0_compat; exact HE|exact HV]).
  assert (Hb : 0 < E / V) by (apply Rdiv_lt_0_compat; assumption).
  destruct (gamma_moments G _ _ HG (Gamma_positive G HG) Ha Hb) as (M0 & M1 & M2).
  replace (E * E / V / (E / V)) with E in M1, M2 by (field; lra).
  replace (E * E / V / (E / V * (E / V))) with V in M2 by (field; lra).
  split; [split; assumption|]. split; [exact M0|]. split; [exact M1|exact M2].
Qed.
Print Assumptions C46_from_EV.

(** The Gaussian prior refuses exactly the variances that are not positive. *)
Theorem C46_gaussian :
  forall mu var, (0 < var -> exists p, new_gaussian mu var = Ok p /\ valid p) /\ (var <= 0 -> new_gaussian mu var = Err ValueError).
Proof.
  intros mu var. unfold new_gaussian. split; intros H; destruct (Rle_dec var 0); try lra; [|reflexivity].
  exists (Gaussian mu var). split; [reflexivity|exact H].
Qed.
Print Assumptions C46_gaussian.

(** There is a Gamma function, and the hypotheses hold at a point. *)
Example C46_ex :
  (exists G, is_Gamma G) /\
  valid (Gamma 2 3) /\ in_domain (Gamma 2 3) (1 / 2) /\ in_domain (Gamma 2 3) 1 /\
  lnpdf_grad (Gamma 2 3) [1 / 2; 1] = [(2 - 1) / (1 / 2) - 3; (2 - 1) / 1 - 3] /\
  lnpdf_grad (HalfLaplace 2) [1; 3; 4] = [- 1 / 2] /\
  from_EV 3 2 = Gamma (3 * 3 / 2) (3 / 2) /\ new_gaussian 0 (-1) = Err ValueError.
Proof.
  split; [exact Gamma_exists|]. repeat split; try reflexivity; try (cbn; lra). apply C46_gaussian. lra.
Qed.

(** ** C47: the gradient of the objective *)

(** What the hypotheses of the theorems below say: index [k] is a parameter,
    every index carries at most one prior and at most one constraint, the
    value of the parameter is in the domain of its prior, the Jacobian term of
    its constraint is differentiable with the derivative the constraint
    reports, and entry [k] of [gradient] is the derivative of the log
    likelihood. *)
Definition at_param (ll : vec -> R) (gradient : vec) (s : params) (k : nat) : Prop :=
  (k < length (theta s))%nat /\ length gradient = length (theta s) /\
  tidy (length (theta s)) (priors s) /\ tidy (length (theta s)) (constraints s) /\
  (forall p, has_prior s p k -> valid p /\ in_domain p (vget (theta s) k)) /\
  (forall lj ljg, constrained s (Transformation lj ljg) k -> is_derive lj (vget (theta s) k) (ljg (vget (theta s) k))) /\
  is_derive (fun t => ll (theta (with_theta s k t))) (vget (theta s) k) (vget gradient k).

Lemma objective_derive gammaln ll gradient s k : at_param ll gradient s k ->
  is_derive (fun t => objective gammaln ll (with_theta s k t)) (vget (theta s) k)
    (- (vget gradient k + (dprior s k + if mem k (flat_map snd (priors s)) then djac s k else 0))).
Proof.
  intros (Hk & Lg & Hp & Hc & Hv & Ht & Hl). unfold objective.
  apply (is_derive_opp (fun t => ll (theta (with_theta s k t)) + log_prior gammaln (with_theta s k t))).
  apply (is_derive_plus (fun t => ll (theta (with_theta s k t))) (fun t => log_prior gammaln (with_theta s k t))); [exact Hl|].
  now apply log_prior_derive.
Qed.
Lemma last_indices_app s ps p idx : priors s = ps ++ [(p, idx)] -> last_indices s = idx.
Proof. intros E. unfold last_indices. rewrite E, map_app. cbn [map snd]. apply last_last. Qed.
Lemma in_priors s k : In k (flat_map snd (priors s)) <-> exists p, has_prior s p k.
Proof.
  rewrite in_flat_map. split.
  - intros [[p idx] [H1 H2]]. exists p, idx. auto.
  - intros [p [idx [H1 H2]]]. exists (p, idx). auto.
Qed.

(** The entry of [objective_function_gradients] is the derivative of
    [objective_function] at every parameter for which the last prior in the
    order of iteration is its own, or which has no prior, or no
    transformation.  In particular always if there is at most one prior.
    Missing: parameters with a transformation and a prior that is not the last
    one; there it is false, see [C47_off] and [C47_refuted]. *)
Theorem C47_gradient_partial :
  forall gammaln ll gradient s k, at_param ll gradient s k ->
    ((forall p, ~ has_prior s p k) \/ (forall lj ljg, ~ constrained s (Transformation lj ljg) k) \/
     (exists ps p idx, priors s = ps ++ [(p, idx)] /\ In k idx)) ->
    is_derive (fun t => objective gammaln ll (with_theta s k t)) (vget (theta s) k) (vget (objective_gradients gradient s) k).
Proof.
  intros gammaln ll gradient s k H Hl. pose proof (objective_derive gammaln ll gradient s k H) as D. destruct H as (Hk & Lg & Hp & Hc & Hv & Ht & _).
  rewrite (gradient_code s k Hk Hp Hv Ht gradient Lg).
  assert (E : (if mem k (last_indices s) then djac s k else 0) = if mem k (flat_map snd (priors s)) then djac s k else 0); [|now rewrite E].
  destruct (mem k (last_indices s)) eqn:M1, (mem k (flat_map snd (priors s))) eqn:M2; try reflexivity.
  - apply mem_In in M1. apply last_in in M1. apply mem_In in M1. congruence.
  - apply mem_In in M2. destruct Hl as [Hl|[Hl|(ps & p & idx & E & Hi)]].
    + apply in_priors in M2 as [p Hp']. now destruct (Hl p).
    + symmetry. unfold djac, at_idx.
      assert (G : forall q, In q (pairs (constraints s)) -> (if Nat.eqb (snd q) k then ljg_of (fst q) (vget (theta s) k) else 0) = 0).
      { intros [c i] Hq. cbn [fst snd]. destruct (Nat.eqb_spec i k) as [->|_]; [|reflexivity]. destruct c as [lj ljg|]; [|reflexivity].
        destruct (Hl lj ljg). apply pairs_In in Hq. exact Hq. }
      induction (pairs (constraints s)) as [|q l IH]; [reflexivity|]. cbn [map]. rewrite lsum_cons, G by (now left). rewrite IH by (intros; apply G; now right). lra.
    + rewrite <- (last_indices_app _ _ _ _ E) in Hi. apply mem_In in Hi. congruence.
Qed.
Print Assumptions C47_gradient_partial.

(** Where it fails it lacks exactly the derivative of the log Jacobian. *)
Theorem C47_off :
  forall gammaln ll gradient s k ps p idx lj ljg, at_param ll gradient s k ->
    priors s = ps ++ [(p, idx)] -> ~ In k idx -> (exists p', has_prior s p' k) -> constrained s (Transformation lj ljg) k ->
    is_derive (fun t => objective gammaln ll (with_theta s k t)) (vget (theta s) k)
      (vget (objective_gradients gradient s) k - ljg (vget (theta s) k)).
Proof.
  intros gammaln ll gradient s k ps p idx lj ljg H E Hi Hpr Hco. pose proof (objective_derive gammaln ll gradient s k H) as D. destruct H as (Hk & Lg & Hp & Hc & Hv & Ht & _).
  rewrite (gradient_code s k Hk Hp Hv Ht gradient Lg). rewrite (last_indices_app _ _ _ _ E).
  destruct (mem k idx) eqn:M; [apply mem_In in M; contradiction|].
  apply in_priors, mem_In in Hpr. rewrite Hpr in D.
  assert (J : djac s k = ljg (vget (theta s) k)).
  { unfold djac. apply (at_idx_in (fun c => ljg_of c (vget (theta s) k)) _ (Transformation lj ljg)); [rewrite pairs_snd; apply Hc|]. now apply pairs_In. }
  rewrite J in D. replace (- (vget gradient k + (dprior s k + 0)) - ljg (vget (theta s) k)) with (- (vget gradient k + (dprior s k + ljg (vget (theta s) k)))) by ring. exact D.
Qed.
Print Assumptions C47_off.

(** paramz's softplus transformation: [log_jacobian] is the logarithm of the
    derivative of the transformation [log(1 + exp x)] at the argument mapped to
    [t], and [log_jacobian_grad] is its derivative. *)
Theorem C47_logexp :
  forall t, 0 < t ->
    match logexp with
    | Transformation lj ljg =>
      (exists x, ln (1 + exp x) = t /\ is_derive (fun x => ln (1 + exp x)) x (exp (lj t))) /\ is_derive lj t (ljg t)
    | Fixed => False
    end.
Proof.
  intros t Ht. cbn [logexp]. assert (H1 : 1 < exp t) by (rewrite <- exp_0; now apply exp_increasing). split.
  - exists (ln (exp t - 1)). assert (E : 1 + exp (ln (exp t - 1)) = exp t) by (rewrite exp_ln by lra; ring). split; [rewrite E; apply ln_exp|].
    auto_derive; [rewrite E; lra|]. rewrite E. replace (ln (exp t - 1) - t) with (ln (exp t - 1) + - t) by ring. rewrite exp_plus, exp_Ropp, exp_ln by lra. field. lra.
  - auto_derive; [lra|]. field. lra.
Qed.
Print Assumptions C47_logexp.

(** Two Gamma priors on two positive parameters. *)
Definition ex_two : params := mk_params [1; 2] [(Gamma 2 1, [0%nat]); (Gamma 3 1, [1%nat])] [(logexp, [0%nat; 1%nat])].
Lemma ex_two_at k : (k < 2)%nat -> at_param (fun v => vget v 0 * vget v 1) [2; 1] ex_two k.
Proof.
  intros Hk. split; [exact Hk|]. split; [reflexivity|].
  assert (N : NoDup [0%nat; 1%nat]) by (repeat constructor; cbn; lia). assert (R2 : forall i, In i [0%nat; 1%nat] -> (i < 2)%nat) by (intros i [<-|[<-|[]]]; lia).
  split; [split; [exact N|exact R2]|]. split; [split; [exact N|exact R2]|].
  split; [|split].
  - intros p [idx [[E|[E|[]]] Hi]]; injection E as <- <-; destruct Hi as [<-|[]]; cbn; lra.
  - intros lj ljg [idx [[E|[]] Hi]]. injection E as <- <- <-. assert (0 < vget (theta ex_two) k) by (destruct Hi as [<-|[<-|[]]]; cbn; lra). now apply (C47_logexp _ H).
  - destruct k as [|[|k]]; [| |lia]; cbn -[INR].
    + apply (is_derive_ext (fun t => t * 2)); [intros t; reflexivity|]. auto_derive; [exact I|ring].
    + apply (is_derive_ext (fun t => 1 * t)); [intros t; reflexivity|]. auto_derive; [exact I|ring].
Qed.
Theorem C47_refuted :
  exists ll gradient s k, at_param ll gradient s k /\ (forall i, (i < length (theta s))%nat -> exists p, has_prior s p i) /\
    forall gammaln, ~ is_derive (fun t => objective gammaln ll (with_theta s k t)) (vget (theta s) k) (vget (objective_gradients gradient s) k).
Proof.
  exists (fun v => vget v 0 * vget v 1), [2; 1], ex_two, 0%nat. split; [apply ex_two_at; lia|]. split.
  - intros i Hi. cbn in Hi. destruct i as [|[|i]]; [| |lia].
    + exists (Gamma 2 1), [0%nat]. split; [now left|now left].
    + exists (Gamma 3 1), [1%nat]. split; [right; now left|now left].
  - intros gammaln D.
    pose proof (C47_off gammaln _ _ ex_two 0 [(Gamma 2 1, [0%nat])] (Gamma 3 1) [1%nat] (fun t => ln (exp t - 1) - t) (fun t => 1 / (exp t - 1)) (ex_two_at 0 ltac:(lia)) eq_refl) as D'.
    assert (D2 := D' ltac:(cbn; lia)). clear D'.
    assert (D3 := D2 (ex_intro _ (Gamma 2 1) (ex_intro _ [0%nat] (conj (or_introl eq_refl) (or_introl eq_refl)))) (ex_intro _ [0%nat; 1%nat] (conj (or_introl eq_refl) (or_introl eq_refl)))). clear D2.
    apply is_derive_unique in D. apply is_derive_unique in D3. rewrite D in D3. cbv beta in D3.
    assert (V : vget (theta ex_two) 0 = 1) by reflexivity. rewrite V in D3. assert (H1 : 1 < exp 1) by (rewrite <- exp_0 at 1; apply exp_increasing; lra).
    assert (0 < 1 / (exp 1 - 1)) by (apply Rdiv_lt_0_compat; lra). lra.
Qed.
Print Assumptions C47_refuted.

(** The theorem applies to parameter 1 of the same model, whose prior is last;
    and to every parameter of one with a single prior over several of them. *)
Definition ex_one : params := mk_params [1; 2] [(HalfLaplace 2, [1%nat; 0%nat])] [(Fixed, [1%nat]); (logexp, [0%nat])].
Example C47_ex :
  (at_param (fun v => vget v 0 * vget v 1) [2; 1] ex_two 1 /\ exists ps p idx, priors ex_two = ps ++ [(p, idx)] /\ In 1%nat idx) /\
  (forall k, (k < 2)%nat -> at_param (fun v => vget v 0 * vget v 1) [2; 1] ex_one k /\ exists ps p idx, priors ex_one = ps ++ [(p, idx)] /\ In k idx) /\
  objective_gradients [2; 1] ex_one = [- (2 + (-1 / 2 + 1 / (exp 1 - 1))); - (1 + -1 / 2)].
Proof.
  split; [split; [apply ex_two_at; lia|]|split].
  - exists [(Gamma 2 1, [0%nat])], (Gamma 3 1), [1%nat]. split; [reflexivity|now left].
  - intros k Hk. split.
    + split; [exact Hk|]. split; [reflexivity|]. assert (N : NoDup [1%nat; 0%nat]) by (repeat constructor; cbn; lia). assert (R2 : forall i, In i [1%nat; 0%nat] -> (i < 2)%nat) by (intros i [<-|[<-|[]]]; lia).
      split; [split; [exact N|exact R2]|]. split; [split; [exact N|exact R2]|]. split; [|split].
      * intros p [idx [[E|[]] Hi]]. injection E as <- <-. destruct Hi as [<-|[<-|[]]]; cbn; lra.
      * intros lj ljg [idx [[E|[E|[]]] Hi]]; [discriminate E|]. injection E as <- <- <-. destruct Hi as [<-|[]]. apply (C47_logexp 1). lra.
      * destruct k as [|[|k]]; [| |lia]; cbn -[INR].
        -- apply (is_derive_ext (fun t => t * 2)); [intros t; reflexivity|]. auto_derive; [exact I|ring].
        -- apply (is_derive_ext (fun t => 1 * t)); [intros t; reflexivity|]. auto_derive; [exact I|ring].
    + exists [], (HalfLaplace 2), [1%nat; 0%nat]. split; [reflexivity|]. destruct k as [|[|k]]; [right; now left|now left|lia].
  - reflexivity.
Qed.
