(** Properties of quantiles, and of the log prior as a density. *)

From Coq Require Import Reals List Arith Lia Lra Bool.
From Coquelicot Require Import Coquelicot.
From Verif Require Import Base NDArray Model_Linalg Model_Util Model_FK Model_Grid Model_Lik Model_GP Model_Prior Spec_Prior Spec_Bench Spec_Pred Spec_Train Spec_Quant Proofs_Prior Proofs_Quant Proofs_Linalg Proofs_Init Proofs_Pred6 Properties_Prior Properties_Pred Properties_Order Properties_Train.
Import ListNotations.
Open Scope R_scope.

(** ** C100: quantiles *)

(** Entry [j] of the row of a point is the [q_j]-th percentile of the normal
    distribution with the mean and variance that [predict] returns for it: the
    density integrates to [q_j / 100] below it.  Between two entries lies the
    difference: 95 percent for the default (2.5, 97.5). *)
Theorem C100_quantiles ppf solve g k Zs qs mu var : is_ppf ppf ->
  (exists Xs Ys nrm, multigp_init Xs Ys nrm = Ok (gp_data g)) -> gp_predict solve g k Zs = Ok (mu, var) ->
  exists Q, gp_predict_quantiles ppf solve g k Zs qs = Ok Q /\ length Q = length mu /\ length Q = length var /\
    forall d i, (d < length Q)%nat -> (i < length (nth d mu []))%nat -> (i < length (nth d var []))%nat ->
      let m := vget (nth d mu []) i in let v := vget (nth d var []) i in 0 < v ->
      (forall j, (j < length qs)%nat -> 0 < vget qs j < 100 ->
         is_RInt_gen (normal_pdf m v) (Rbar_locally m_infty) (at_point (mget (nth d Q []) i j)) (vget qs j / 100)) /\
      (forall j j', (j < length qs)%nat -> (j' < length qs)%nat -> 0 < vget qs j < 100 -> 0 < vget qs j' < 100 ->
         is_RInt (normal_pdf m v) (mget (nth d Q []) i j) (mget (nth d Q []) i j') ((vget qs j' - vget qs j) / 100) /\
         (vget qs j < vget qs j' -> mget (nth d Q []) i j < mget (nth d Q []) i j')).
Proof.
  intros HP HX HG. destruct (C37_quantiles ppf solve g k Zs qs mu var HX HG) as (Q & E & L1 & L2 & H). exists Q. split; [exact E|]. split; [exact L1|]. split; [exact L2|].
  intros d i Hd Hi Hi' m v Hv. destruct (H d Hd) as [_ H1]. destruct (H1 i Hi Hi') as [H2 _]. fold m v in H2.
  assert (F : forall j, (j < length qs)%nat -> 0 < vget qs j < 100 -> gF m v (mget (nth d Q []) i j) + 1 / 2 = vget qs j / 100).
  { intros j Hj Hq. rewrite (H2 j Hj), gF_scale by exact Hv. symmetry. apply normal_below_unique; [lra|]. apply HP. split; lra. }
  split.
  - intros j Hj Hq. rewrite <- (F j Hj Hq). now apply normal_below.
  - intros j j' Hj Hj' Hq Hq'. pose proof (F j Hj Hq) as F1. pose proof (F j' Hj' Hq') as F2. split.
    + replace ((vget qs j' - vget qs j) / 100) with (gF m v (mget (nth d Q []) i j') - gF m v (mget (nth d Q []) i j)) by lra. now apply pdf_int.
    + intros Lt. destruct (Rlt_or_le (mget (nth d Q []) i j) (mget (nth d Q []) i j')) as [|[L|L]]; [assumption| |].
      * apply (gF_incr m v) in L; [lra|exact Hv].
      * rewrite L in F2. lra.
Qed.
Print Assumptions C100_quantiles.

(** There is such a [ppf]. *)
Example C100_ppf : exists ppf, is_ppf ppf /\ ppf (1 / 2) = 0.
Proof.
  destruct ppf_exists as [ppf H]. exists ppf. split; [exact H|].
  pose proof (normal_below_unique 0 1 Rlt_0_1 _ _ (H (1 / 2) ltac:(lra))) as E.
  assert (Z : gF 0 1 0 = 0) by (pose proof (gF_sym 0 1 Rlt_0_1 0) as S; replace (2 * 0 - 0) with 0 in S by ring; lra).
  destruct (Rtotal_order (ppf (1 / 2)) 0) as [L|[L|L]]; [|exact L|]; apply (gF_incr 0 1) in L; lra.
Qed.

(** ** C100: the log prior is the logarithm of a density *)

Section Unset.
  Variables (gammaln : R -> R) (s : params) (k : nat).
  Hypothesis Hk : (k < length (theta s))%nat.
  Hypothesis Hp : tidy (length (theta s)) (priors s).
  Hypothesis Hc : tidy (length (theta s)) (constraints s).

  Lemma pairs_unset {A} (l : list (A * list nat)) :
    pairs (map (fun q => (fst q, filter (fun i => negb (Nat.eqb i k)) (snd q))) l) = filter (fun q => negb (Nat.eqb (snd q) k)) (pairs l).
  Proof.
    unfold pairs. induction l as [|[a idx] l IH]; [reflexivity|]. cbn [map flat_map fst snd]. rewrite filter_app, IH. f_equal.
    induction idx as [|i idx IHi]; [reflexivity|]. cbn [map filter snd]. destruct (Nat.eqb i k); cbn [negb]; [exact IHi|]. cbn [map]. now rewrite IHi.
  Qed.

  Lemma split_at {A} (f : A -> nat -> R -> R) (l : list (A * nat)) t : (forall i, In i (map snd l) -> (i < length (theta s))%nat) ->
    lsum (map (fun q => f (fst q) (snd q) (vget (theta (with_theta s k t)) (snd q))) l) =
    lsum (map (fun q => f (fst q) (snd q) (vget (theta s) (snd q))) (filter (fun q => negb (Nat.eqb (snd q) k)) l)) + at_idx (fun a => f a k t) l k.
  Proof.
    intros Hr. rewrite lsum_filter. unfold at_idx. induction l as [|[a i] l IH]; [unfold lsum; cbn; lra|]. cbn [map fst snd]. rewrite !lsum_cons, IH by (intros j Hj; apply Hr; now right).
    rewrite vget_with by (try exact Hk; apply Hr; now left). destruct (Nat.eqb_spec i k) as [->|]; cbn [negb]; lra.
  Qed.

  Lemma mem_unset i : mem i (flat_map snd (priors (unset s k))) = (mem i (flat_map snd (priors s)) && negb (Nat.eqb i k))%bool.
  Proof.
    cbn [unset priors]. rewrite <- !pairs_snd, pairs_unset. apply eq_true_iff_eq. rewrite andb_true_iff, !mem_In, !in_map_iff. split.
    - intros [[a j] [<- H]]. apply filter_In in H. destruct H as [H1 H2]. split; [|exact H2]. now exists (a, j).
    - intros [[[a j] [<- H]] N]. exists (a, j). split; [reflexivity|]. apply filter_In. now split.
  Qed.

  Lemma log_prior_unset p t : has_prior s p k -> log_prior gammaln (with_theta s k t) =
    log_prior gammaln (unset s k) + lnpdf gammaln p t + at_idx (fun c => lj_of c t) (pairs (constraints s)) k.
  Proof.
    intros Hpk. rewrite !log_prior_pairs. cbn [with_theta priors constraints].
    change (mk_params (tab (length (theta s)) (fun i => if Nat.eqb i k then t else vget (theta s) i)) (priors s) (constraints s)) with (with_theta s k t).
    rewrite (split_at (fun p _ => lnpdf gammaln p)) by (rewrite pairs_snd; apply Hp).
    rewrite (split_at (fun c i => if mem i (flat_map snd (priors s)) then lj_of c else fun _ => 0)) by (rewrite pairs_snd; apply Hc).
    rewrite (at_idx_in (fun a => lnpdf gammaln a t) (pairs (priors s)) p) by (try (rewrite pairs_snd; apply Hp); apply pairs_In; exact Hpk).
    assert (M : mem k (flat_map snd (priors s)) = true) by (apply mem_In, in_priors; now exists p). rewrite M.
    cbn [unset theta]. rewrite <- pairs_unset. change (map (fun q => (fst q, filter (fun i => negb (Nat.eqb i k)) (snd q))) (priors s)) with (priors (unset s k)). cbn [constraints unset].
    replace (lsum (map (fun q => (if mem (snd q) (flat_map snd (priors (unset s k))) then lj_of (fst q) else fun _ => 0) (vget (theta s) (snd q))) (pairs (constraints s))))
      with (lsum (map (fun q => (if mem (snd q) (flat_map snd (priors s)) then lj_of (fst q) else fun _ => 0) (vget (theta s) (snd q))) (filter (fun q => negb (Nat.eqb (snd q) k)) (pairs (constraints s))))); [lra|].
    rewrite lsum_filter. apply f_equal, map_ext. intros [c i]. cbn [fst snd]. rewrite mem_unset. destruct (Nat.eqb i k), (mem i (flat_map snd (priors s))); reflexivity.
  Qed.
End Unset.

Lemma softplus_derive u : is_derive softplus u (exp u / (1 + exp u)) /\ 0 < softplus u /\ exp (softplus u) = 1 + exp u.
Proof.
  pose proof (exp_pos u) as E. unfold softplus. split; [auto_derive; [lra|field; lra]|]. split; [rewrite <- ln_1; apply ln_increasing; lra|apply exp_ln; lra].
Qed.
Lemma softplus_m : filterlim softplus (Rbar_locally m_infty) (at_right 0).
Proof.
  intros P [e He]. exists (ln e). intros u Hu. destruct (softplus_derive u) as (_ & P1 & _). apply He; [|exact P1].
  unfold ball; cbn. unfold AbsRing_ball, abs, minus, plus, opp; cbn. rewrite Ropp_0, Rplus_0_r, Rabs_pos_eq by lra.
  apply (Rlt_trans _ (exp u)).
  - unfold softplus. pose proof (exp_pos u). apply (Rlt_le_trans _ (ln (exp (exp u)))); [|rewrite ln_exp; lra]. apply ln_increasing; [lra|]. apply exp_ineq1. lra.
  - rewrite <- (exp_ln e) by apply cond_pos. now apply exp_increasing.
Qed.
Lemma softplus_p : filterlim softplus (Rbar_locally p_infty) (Rbar_locally p_infty).
Proof. intros P [M HM]. exists M. intros u Hu. apply HM. apply (Rlt_trans _ u); [exact Hu|]. unfold softplus. rewrite <- (ln_exp u) at 1. apply ln_increasing; [apply exp_pos|lra]. Qed.

(** A positive parameter: integrating the exponential of the log prior over the
    unconstrained value gives that of the model with the prior of this parameter
    unset.  The Jacobian term is what makes this true. *)
Theorem C100_positive gammaln G s k p : is_Gamma G -> (forall a, 0 < a -> gammaln a = ln (G a)) ->
  (k < length (theta s))%nat -> tidy (length (theta s)) (priors s) -> tidy (length (theta s)) (constraints s) ->
  has_prior s p k -> valid p -> (forall mu v, p <> Gaussian mu v) -> constrained s logexp k ->
  is_RInt_gen (fun u => exp (log_prior gammaln (with_theta s k (softplus u)))) (Rbar_locally m_infty) (Rbar_locally p_infty) (exp (log_prior gammaln (unset s k))).
Proof.
  intros HG Hg Hk Hp Hc Hpk Hv Hn Hl. set (c := exp (log_prior gammaln (unset s k))).
  pose proof (C46_normalised G p HG Hv) as N.
  replace (match p with Gaussian _ _ => Rbar_locally m_infty | _ => at_right 0 end) with (at_right 0) in N by (destruct p; [destruct (Hn mu var eq_refl)|reflexivity..]).
  assert (DD : forall x, 0 < x -> in_domain p x) by (intros x Hx; destruct p; [exact I|exact Hx..]).
  assert (EX : forall x, 0 < x -> exp (lnpdf gammaln p x) = density G p x).
  { intros x Hx. destruct (C46_density gammaln G p x HG Hg Hv (DD x Hx)) as [P1 ->]. now apply exp_ln. }
  assert (S : is_RInt_gen (fun u => exp u / (1 + exp u) * density G p (softplus u)) (Rbar_locally m_infty) (Rbar_locally p_infty) 1).
  { apply (subst_gen (Rbar_locally m_infty) (Rbar_locally p_infty) (at_right 0) (Rbar_locally p_infty) (density G p) softplus (fun u => exp u / (1 + exp u)) 1 N softplus_m softplus_p).
    apply filter_forall. intros ab u _. destruct (softplus_derive u) as (D & P1 & _). split; [|split; [exact D|]].
    - assert (C : continuous (fun x => exp (lnpdf gammaln p x)) (softplus u)).
      { apply (ex_derive_continuous (fun x => exp (lnpdf gammaln p x))). eexists. apply (is_derive_comp exp (lnpdf gammaln p)); [apply is_derive_exp|]. apply dlnpdf_ok; [exact Hv|now apply DD]. }
      apply (continuous_ext_loc _ (fun x => exp (lnpdf gammaln p x))); [|exact C]. exists (mkposreal _ P1). intros x Hx. apply EX.
      unfold ball in Hx; cbn in Hx. unfold AbsRing_ball, abs, minus, plus, opp in Hx; cbn in Hx. apply Rabs_def2 in Hx. lra.
    - apply (ex_derive_continuous (fun u => exp u / (1 + exp u))). auto_derive. pose proof (exp_pos u). lra. }
  apply (is_RInt_gen_scal _ c) in S. rewrite <- (Rmult_1_r c).
  apply (is_RInt_gen_ext (fun u => scal c (exp u / (1 + exp u) * density G p (softplus u)))); [|exact S].
  apply filter_forall. intros ab u _. destruct (softplus_derive u) as (_ & P1 & E1). rewrite (log_prior_unset gammaln s k Hk Hp Hc p) by exact Hpk.
  rewrite (at_idx_in (fun c => lj_of c (softplus u)) (pairs (constraints s)) logexp) by (try (rewrite pairs_snd; apply Hc); apply pairs_In; exact Hl).
  cbn [logexp lj_of]. rewrite !exp_plus, EX by exact P1. fold c. rewrite E1. pose proof (exp_pos u) as E2. replace (1 + exp u - 1) with (exp u) by ring.
  unfold Rminus. rewrite exp_plus, exp_Ropp, exp_ln, E1 by exact E2. unfold scal; cbn; unfold mult; cbn. field. lra.
Qed.
Print Assumptions C100_positive.

(** A parameter without constraint and with a Gaussian prior. *)
Theorem C100_real gammaln s k mu v :
  (k < length (theta s))%nat -> tidy (length (theta s)) (priors s) -> tidy (length (theta s)) (constraints s) ->
  has_prior s (Gaussian mu v) k -> 0 < v -> (forall c, ~ constrained s c k) ->
  is_RInt_gen (fun t => exp (log_prior gammaln (with_theta s k t))) (Rbar_locally m_infty) (Rbar_locally p_infty) (exp (log_prior gammaln (unset s k))).
Proof.
  intros Hk Hp Hc Hpk Hv Hn. set (c := exp (log_prior gammaln (unset s k))).
  pose proof (normal_total mu v Hv) as S. apply (is_RInt_gen_scal _ c) in S. rewrite <- (Rmult_1_r c).
  apply (is_RInt_gen_ext (fun t => scal c (normal_pdf mu v t))); [|exact S].
  apply filter_forall. intros ab t _. rewrite (log_prior_unset gammaln s k Hk Hp Hc (Gaussian mu v)) by exact Hpk.
  rewrite at_idx_none.
  - rewrite Rplus_0_r, exp_plus. fold c. unfold scal; cbn -[lnpdf]; unfold mult; cbn -[lnpdf]. f_equal.
    assert (X : 0 < density (fun _ => 1) (Gaussian mu v) t /\ lnpdf gammaln (Gaussian mu v) t = ln (density (fun _ => 1) (Gaussian mu v) t)).
    { destruct (lnpdf_density (fun _ => 0) (fun _ => 1) (Gaussian mu v) t Hv I) as [X1 X2]; [intros a _; rewrite ln_1; split; lra|]. split; [exact X1|exact X2]. }
    destruct X as [X1 X2]. rewrite X2, exp_ln by exact X1. reflexivity.
  - rewrite pairs_snd. intros H. apply in_flat_map in H. destruct H as [[c' idx] [H1 H2]]. apply (Hn c'). now exists idx.
Qed.
Print Assumptions C100_real.

(** In exact mode the variances are positive, so the default quantiles bound
    exactly 95 percent of the distribution of each output at each point. *)
Theorem C100_interval ppf g lo hi m solve bits n_it k Zs zl : is_ppf ppf -> gp_ready g lo hi m -> fitted solve bits n_it g k ->
  returns (n_obs g) (solve (al_K (gpk_lik k))) -> no_identity (gp_f g) -> proper (gp_f g) -> gp_mode g = Exact -> norm_pos g ->
  (exists Xs Ys nrm, multigp_init Xs Ys nrm = Ok (gp_data g)) ->
  requests (mg_P (gp_data g)) Zs zl -> length zl = f_D (gp_f g) ->
  exists mu var Q, gp_predict solve g k Zs = Ok (mu, var) /\ gp_predict_quantiles ppf solve g k Zs [25 / 10; 975 / 10] = Ok Q /\
    length mu = f_D (gp_f g) /\ length var = f_D (gp_f g) /\ length Q = f_D (gp_f g) /\
    forall d i, (d < f_D (gp_f g))%nat -> (i < nth d zl 0)%nat ->
      0 < vget (nth d var []) i /\ mget (nth d Q []) i 0 < mget (nth d Q []) i 1 /\
      is_RInt (normal_pdf (vget (nth d mu []) i) (vget (nth d var []) i)) (mget (nth d Q []) i 0) (mget (nth d Q []) i 1) (95 / 100).
Proof.
  intros HP HR HF Hret Hid Hpr Hm Hn HX Hq HD.
  destruct (C36_exact g lo hi m solve bits n_it k Zs zl HR HF Hret Hid Hpr Hm Hq HD) as (mu & var & E & HV).
  destruct (C100_quantiles ppf solve g k Zs [25 / 10; 975 / 10] mu var HP HX E) as (Q & EQ & LQ & _ & H).
  assert (MR : mode_ready g) by (unfold mode_ready; rewrite Hm; exact (K_obs_pdR g _ _ _ HR Hpr)).
  destruct (C35_pointwise_partial g lo hi m solve bits n_it k HR HF Hret Hid MR) as (Fm & Fv & _ & HL).
  destruct (HL Zs zl Hq HD) as (mu' & var' & E' & L1 & L2 & L3); [congruence|]. rewrite E in E'. injection E' as <- <-.
  exists mu, var, Q. split; [exact E|]. split; [exact EQ|]. split; [exact L1|]. split; [exact L2|]. split; [exact (eq_trans LQ L1)|].
  intros d i Hd Hz. destruct (L3 d Hd) as (M1 & M2 & _). assert (HdQ : (d < length Q)%nat) by (rewrite LQ, L1; exact Hd).
  assert (Hi : (i < length (nth d mu []))%nat) by (rewrite M1; exact Hz). assert (Hi' : (i < length (nth d var []))%nat) by (rewrite M2; exact Hz). destruct (HV d i Hd Hz) as (z & v & _ & _ & [B1 _] & Ev).
  assert (P : 0 < vget (nth d var []) i).
  { rewrite Ev. pose proof (pr_noise _ Hpr d Hd) as N. unfold unnorm_var. destruct (mg_norm (gp_data g)) as [l|] eqn:El; [|lra].
    assert (S : 0 < n_std (nth d l (mk_norm 0 1))).
    { apply (Hn l); [exact El|]. apply nth_In. rewrite (gr_norm _ _ _ _ HR l El). exact Hd. }
    apply Rmult_lt_0_compat; [lra|]. now apply pow_lt. }
  split; [exact P|]. destruct (H d i HdQ Hi Hi' P) as [_ H2]. destruct (H2 0%nat 1%nat) as [H3 H4]; try (cbn; lia); try (cbn; lra).
  split; [apply H4; cbn; lra|]. replace (95 / 100) with ((vget [25 / 10; 975 / 10] 1 - vget [25 / 10; 975 / 10] 0) / 100) by (cbn; lra). exact H3.
Qed.
Print Assumptions C100_interval.

Example C100_interval_ex : exists g solve bits k, gp_ready g (GNum 0) (GNum 10) (GNum 2%nat) /\ fitted solve bits 1 g k /\
  returns (n_obs g) (solve (al_K (gpk_lik k))) /\ no_identity (gp_f g) /\ proper (gp_f g) /\ gp_mode g = Exact /\ norm_pos g /\
  (exists Xs Ys nrm, multigp_init Xs Ys nrm = Ok (gp_data g)) /\ requests (mg_P (gp_data g)) ex1_Zs [3; 0]%nat /\ length [3; 0]%nat = f_D (gp_f g).
Proof.
  destruct (ord_models false Exact) as [f [f' (_ & Hp & Hid & HD & HQ & HA & H)]]. destruct (H _ _ rep_data) as [g (E1 & R1 & F1 & M1 & D1)].
  assert (Hp1 : proper (gp_f g)) by now rewrite F1. destruct (fit_exists g _ _ _ R1 Hp1) as [solve [bits [k [Hs Hf]]]]. exists g, solve, bits, k.
  split; [exact R1|]. split; [exact Hf|]. split; [exact (proj1 (proj2 (fit_solver g _ _ _ R1 _ _ _ _ Hf Hs)))|]. rewrite F1. split; [exact Hid|]. split; [exact Hp|]. split; [exact M1|].
  split; [intros l nm El; rewrite D1 in El; discriminate El|]. split.
  { unfold gp_init in E1. apply bind_ok in E1. destruct E1 as [d [Ed E1]]. exists rep_Xs, rep_Ys, false. rewrite Ed. f_equal.
    repeat match goal with H : bind _ _ = Ok _ |- _ => apply bind_ok in H; destruct H as [? [? H]]; cbv beta iota zeta in H end.
    repeat match type of E1 with (if ?b then _ else _) = _ => destruct b; [discriminate E1|] | (match ?b with _ => _ end) = _ => destruct b; try discriminate E1 end;
    repeat match goal with H : bind _ _ = Ok _ |- _ => apply bind_ok in H; destruct H as [? [? H]]; cbv beta iota zeta in H end.
    apply Ok_inj in E1. now rewrite <- E1. }
  rewrite D1. split; [exact ex1_requests|]. now rewrite HD.
Qed.

(** Three parameters; with the priors unset one after the other nothing is left. *)
Definition mq : params := mk_params [1; 2; 0] [(Gamma 2 3, [0%nat]); (InverseGamma (1 / 2) 1, [1%nat]); (Gaussian 0 1, [2%nat])] [(logexp, [0%nat; 1%nat])].
Example C100_priors_ex gammaln G : is_Gamma G -> (forall a, 0 < a -> gammaln a = ln (G a)) ->
  is_RInt_gen (fun u => exp (log_prior gammaln (with_theta mq 0 (softplus u)))) (Rbar_locally m_infty) (Rbar_locally p_infty) (exp (log_prior gammaln (unset mq 0))) /\
  is_RInt_gen (fun u => exp (log_prior gammaln (with_theta (unset mq 0) 1 (softplus u)))) (Rbar_locally m_infty) (Rbar_locally p_infty) (exp (log_prior gammaln (unset (unset mq 0) 1))) /\
  is_RInt_gen (fun t => exp (log_prior gammaln (with_theta (unset (unset mq 0) 1) 2 t))) (Rbar_locally m_infty) (Rbar_locally p_infty) 1.
Proof.
  intros HG Hg.
  assert (T : forall (A : Type) (l : list (A * list nat)), NoDup (flat_map snd l) -> (forall i, In i (flat_map snd l) -> (i < 3)%nat) -> tidy 3 l) by (intros; now split).
  split; [|split].
  - apply (C100_positive gammaln G mq 0 (Gamma 2 3)); try assumption; [cbn; lia|apply T; cbn; [repeat constructor; cbn; lia|intros; lia]..| | |discriminate|]; [exists [0%nat]; cbn; auto|cbn; lra|exists [0%nat; 1%nat]; cbn; auto].
  - apply (C100_positive gammaln G (unset mq 0) 1 (InverseGamma (1 / 2) 1)); try assumption; [cbn; lia|apply T; cbn; [repeat constructor; cbn; lia|intros; lia]..| | |discriminate|]; [exists [1%nat]; cbn; auto|cbn; lra|exists [0%nat; 1%nat]; cbn; auto].
  - rewrite <- exp_0 at 1. change (exp 0) with (exp (log_prior gammaln (unset (unset (unset mq 0) 1) 2))).
    apply (C100_real gammaln (unset (unset mq 0) 1) 2 0 1); [cbn; lia|apply T; cbn; [repeat constructor; cbn; lia|intros; lia]..|exists [2%nat]; cbn; auto|lra|].
    intros c [idx [[E|[]] Hi]]. injection E as <- <-. cbn in Hi. lia.
Qed.
