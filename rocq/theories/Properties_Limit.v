(** C92: what fine grids and accurate solves converge to. *)

From Coq Require Import Reals List Arith ZArith Lia Lra.
From Coquelicot Require Import Coquelicot.
From Verif Require Import Base NDArray PSD Model_Util Proofs_Util Spec_Util Model_Linalg Spec_Linalg Proofs_Linalg Model_Interp Spec_Interp
  Proofs_Sparse Proofs_Interp Proofs_Interp2 Proofs_Bicubic Proofs_Assemble Proofs_Autogrid Properties_Interp Model_Kern Spec_Kern Proofs_Kern Proofs_KernPSD Model_FK Spec_FK Proofs_FK
  Properties_FK Model_Grid Spec_Grid Proofs_Grid Proofs_Grid2 Det Proofs_Det Model_Lik Spec_Lik Proofs_Lik Proofs_Lik2 Proofs_Lik3 Proofs_Lik4 Proofs_Lik5 Proofs_Lik6 Proofs_Lik7 Properties_Lik
  Properties_Lik2 Spec_GP Proofs_Gen Proofs_Gen2 Properties_Gen Model_GP Spec_Pred Proofs_Pred Proofs_Pred2 Proofs_Pred3 Proofs_Pred4 Proofs_Init Proofs_Pred6 Properties_Pred
  Spec_Opt Spec_Acc Proofs_Acc Proofs_Acc2 Properties_Acc Spec_Ski Proofs_Ski Proofs_Ski2 Proofs_Ski3 Properties_Ski Proofs_State5 Properties_Order Properties_Alike Spec_Limit.
Import ListNotations.
Open Scope R_scope.

(** Against the exact Gaussian process: with solves leaving residuals of at
    most [eps], noise of at least [s] and interpolation errors of at most [E],
    the log likelihood is off by at most [(|y| eps / s + n E |y|^2 / s^2) / 2]. *)
Theorem C92_likelihood :
  forall g lo hi m solve bits n_it k s eps E, gp_ready g lo hi m -> fitted solve bits n_it g k ->
  solves_within eps (n_obs g) (K_fit g) (solve (al_K (gpk_lik k))) -> no_identity (gp_f g) ->
  proper (gp_f g) -> (forall ad, group (gp_f g) ad <> [] -> ~ surplus (gp_f g) ad) ->
  0 < s -> (forall a, (a < f_D (gp_f g))%nat -> s <= vget (f_noise (gp_f g)) a) ->
  (forall a b, (a < f_D (gp_f g))%nat -> (b < f_D (gp_f g))%nat -> ski_error g (fun q => smooth_const (kern_of (gp_f g) q)) a b <= E) ->
  let n := n_obs g in
  let y := norm2 n (y_obs g) in
  exists v l, gp_log_likelihood g k = Ok (Fin v) /\
    log_density n (K_obs (gp_f g) (mg_P (gp_data g)) (mg_Xs (gp_data g)) (map (@length R) (mg_Ys (gp_data g)))) (y_obs g) l /\
    Rabs (v - l) <= 1 / 2 * (y * (eps / s) + y * (INR n * E * y / s ^ 2)).
Proof.
  intros g lo hi m solve bits n_it k s eps E HR [old [sl Hf]] Hs Hid Hp HS Hs0 Hn HE n y.
  set (f := gp_f g) in *. set (lens := map (@length R) (mg_Ys (gp_data g))). set (K := K_obs f (mg_P (gp_data g)) (mg_Xs (gp_data g)) lens).
  destruct (fitted_of g _ _ _ _ _ _ Hf) as [_ Ea].
  pose proof (rd_D g lo hi m HR : length lens = f_D f) as HDl.
  assert (Ow : forall j, (j < n)%nat -> (owner lens j < f_D f)%nat) by (intros j Hj; rewrite <- HDl; now apply owner_lt).
  assert (E0 : 0 <= E).
  { pose proof (rd_n g lo hi m HR) as Hn0. pose proof (Ow 0%nat Hn0) as Hd0.
    eapply Rle_trans; [|exact (HE (owner lens 0) (owner lens 0) Hd0 Hd0)].
    eapply Rle_trans; [apply Rabs_pos|]. exact (C63_fit g lo hi m HR Hid Hp HS 0%nat 0%nat Hn0 Hn0). }
  assert (HKD : forall i j, (i < n)%nat -> (j < n)%nat -> Rabs (K_fit g i j - K i j) <= E).
  { intros i' j' Hi' Hj'. eapply Rle_trans; [apply (C63_fit g lo hi m HR Hid Hp HS i' j' Hi' Hj')|]. apply HE; now apply Ow. }
  pose proof (K_fit_floor g lo hi m s HR Hp Hn) as F1. pose proof (K_obs_floor g lo hi m s HR Hp Hn) as F2.
  pose proof (K_obs_pdR g lo hi m HR Hp) as Hpd. destruct (C53_log_det g lo hi m HR) as [HD _]. destruct (HD Hpd) as [Dp ED].
  assert (Hsym : sym n K) by apply K_obs_sym.
  destruct (inv_ex _ _ (proj1 (pos_definite_pivots _ _ Hsym) Hpd)) as [X HX].
  set (a' := fun j => Rsum n (fun l => X j l * y_obs g l)).
  assert (Ha' : forall i, (i < n)%nat -> Rsum n (fun j => K i j * a' j) = y_obs g i) by (intros i Hi; now apply (inv_col n K X HX)).
  destruct (fit_solution g lo hi m (y_obs g) HR Hp) as [a Ha].
  destruct (Hs (concat (mg_Ys (gp_data g))) (length_concat _)) as [a0 [Ea0 [L0 G0]]].
  assert (EA : a0 = sd_alpha (al_deriv (gpk_lik k))) by (apply Ok_inj; now rewrite <- Ea0, <- Ea). rewrite EA in G0.
  pose proof (coercive_err n (K_fit g) s eps Hs0 F1 (concat (mg_Ys (gp_data g))) _ a Ha G0) as H1.
  pose proof (perturbed n (K_fit g) K s E (y_obs g) a a' Hs0 F1 F2 E0 HKD Ha Ha') as H2.
  unfold gp_log_likelihood. rewrite ED. cbn [bind]. eexists _, _. split; [reflexivity|]. split.
  - split; [exact Dp|]. exists a'. split; [exact Ha'|reflexivity].
  - rewrite concat_len. set (al := vget (sd_alpha (al_deriv (gpk_lik k)))) in *.
    assert (EQ : gp_normal_quadratic g k = Rsum n (fun i => y_obs g i * al i)).
    { unfold gp_normal_quadratic, np_vdot. rewrite concat_len. reflexivity. }
    rewrite EQ. fold n. fold lens K.
    match goal with |- Rabs (- (1 / 2) * (?d + ?u + ?c) - - (1 / 2) * (?d' + ?v + ?c')) <= _ => replace (- (1 / 2) * (d + u + c) - - (1 / 2) * (d' + v + c')) with (- (1 / 2) * (u - v)) by (change d' with d; change c' with c; ring) end.
    rewrite Rabs_mult, Rabs_Ropp, (Rabs_right (1 / 2)) by lra. apply Rmult_le_compat_l; [lra|].
    rewrite <- Rsum_minus. rewrite (Rsum_ext n _ (fun i => y_obs g i * (al i - a i) + y_obs g i * (a i - a' i))) by (intros; ring).
    rewrite Rsum_plus. eapply Rle_trans; [apply Rabs_triang|]. apply Rplus_le_compat.
    + eapply Rle_trans; [apply cauchy|]. apply Rmult_le_compat_l; [apply norm2_nonneg|exact H1].
    + eapply Rle_trans; [apply cauchy|]. apply Rmult_le_compat_l; [apply norm2_nonneg|exact H2].
Qed.
Print Assumptions C92_likelihood.

(** *** Bounds that do not depend on the grid *)

Definition bnd (x : option R) : R := match x with Some v => Rabs v | None => 0 end.
Definition range (data : multigp) (lo hi : grid_arg R) (d : nat) : R :=
  let lens := map (@length R) (mg_Ys data) in
  2 * (Rsum (nsum lens) (fun i => Rabs (obs (mg_P data) (mg_Xs data) lens i d)) + bnd (arg_at lo d) + bnd (arg_at hi d)).

Lemma bnd_pos x : 0 <= bnd x.
Proof. destruct x; cbn; [apply Rabs_pos|lra]. Qed.

Lemma range_pos data lo hi d : 0 <= range data lo hi d.
Proof.
  unfold range. pose proof (bnd_pos (arg_at lo d)). pose proof (bnd_pos (arg_at hi d)).
  match goal with |- context [Rsum ?n ?F] => assert (0 <= Rsum n F) by (apply Rsum_nonneg; intros; apply Rabs_pos) end. lra.
Qed.

Lemma range_ok data lo hi d x y :
  (coord (mg_P data) (mg_Xs data) (map (@length R) (mg_Ys data)) d x \/ arg_at lo d = Some x) ->
  (coord (mg_P data) (mg_Xs data) (map (@length R) (mg_Ys data)) d y \/ arg_at hi d = Some y) -> y - x <= range data lo hi d.
Proof.
  intros Hx Hy. unfold range. set (lens := map (@length R) (mg_Ys data)) in *. set (S := Rsum _ _).
  pose proof (bnd_pos (arg_at lo d)) as B1. pose proof (bnd_pos (arg_at hi d)) as B2.
  assert (HC : forall z, coord (mg_P data) (mg_Xs data) lens d z -> Rabs z <= S).
  { intros z [i [Hi ->]]. apply (Rsum_term (nsum lens) (fun i => Rabs (obs (mg_P data) (mg_Xs data) lens i d))); [exact Hi|]. intros. apply Rabs_pos. }
  assert (S0 : 0 <= S) by (apply Rsum_nonneg; intros; apply Rabs_pos).
  assert (X : Rabs x <= S + bnd (arg_at lo d)) by (destruct Hx as [H|H]; [specialize (HC x H); lra|rewrite H; cbn; lra]).
  assert (Y : Rabs y <= S + bnd (arg_at hi d)) by (destruct Hy as [H|H]; [specialize (HC y H); lra|rewrite H; cbn; lra]).
  pose proof (Rle_abs y). pose proof (Rle_abs (- x)). rewrite Rabs_Ropp in *. lra.
Qed.

Definition err_const (f : fkernel) (data : multigp) (lo hi : grid_arg R) (a b : nat) : R :=
  Rsum (f_Q f) (fun q => Rabs (B_of f q a b) * (2 * Rabs (smooth_const (kern_of f q)) *
    Rsum (length (qdims f q)) (fun p => (5 / 4 * range data lo hi (nth p (qdims f q) 0%nat)) ^ 3))).

Lemma err_const_pos f data lo hi a b : 0 <= err_const f data lo hi a b.
Proof.
  apply Rsum_nonneg. intros q Hq. apply Rmult_le_pos; [apply Rabs_pos|]. apply Rmult_le_pos; [pose proof (Rabs_pos (smooth_const (kern_of f q))); lra|].
  apply Rsum_nonneg. intros p Hp. apply pow_le. pose proof (range_pos data lo hi (nth p (qdims f q) 0%nat)). lra.
Qed.

Lemma ski_error_cells g lo hi m M a b : gp_ready g lo hi m -> (0 < M)%nat -> at_least (gp_f g) M m (gp_data g) ->
  ski_error g (fun q => smooth_const (kern_of (gp_f g) q)) a b <= err_const (gp_f g) (gp_data g) lo hi a b / INR M ^ 3.
Proof.
  intros HR HM HA. unfold ski_error, err_const. unfold Rdiv. rewrite <- Rsum_scal_r. apply Rsum_le. intros q Hq.
  match goal with |- _ <= ?u * (?v * ?w) * ?z => replace (u * (v * w) * z) with (u * (v * (w * z))) by ring end.
  apply Rmult_le_compat_l; [apply Rabs_pos|]. rewrite <- Rsum_scal_r.
  destruct (group_qdims (gp_f g) _ (rd_ok g lo hi m HR) (rd_P g lo hi m HR) q Hq) as [_ Had].
  assert (M1 : 0 < INR M) by (apply lt_0_INR; lia).
  assert (HS : forall p, (p < length (qdims (gp_f g) q))%nat -> 0 <= spacing g (qdims (gp_f g) q) p ^ 3 <=
     (5 / 4 * range (gp_data g) lo hi (nth p (qdims (gp_f g) q) 0%nat)) ^ 3 * / INR M ^ 3).
  { intros p Hp. destruct (C63_spacing g lo hi m _ p HR Had Hp) as [x [y (X & Y & _ & _ & _ & K1 & _ & [S1 S2])]].
    split; [apply pow_le; lra|]. rewrite <- pow_inv by lra. rewrite <- Rpow_mult_distr. apply pow_incr. split; [lra|].
    eapply Rle_trans; [exact S2|]. unfold Rdiv at 1.
    pose proof (range_ok _ _ _ _ _ _ X Y) as HW. set (d := nth p (qdims (gp_f g) q) 0%nat) in *.
    pose proof (range_pos (gp_data g) lo hi d) as W0.
    specialize (HA _ d Had (nth_In _ _ Hp)). apply le_INR in HA. set (kk := INR (cells_for m (map (@length R) (mg_Ys (gp_data g))) d)) in *.
    assert (I1 : / kk <= / INR M) by (apply Rinv_le_contravar; lra). assert (I0 : 0 < / kk) by (apply Rinv_0_lt_compat; lra).
    apply Rle_trans with (5 / 4 * range (gp_data g) lo hi d * / kk); [apply Rmult_le_compat_r; lra|apply Rmult_le_compat_l; lra]. }
  apply Rle_trans with (2 * Rabs (smooth_const (kern_of (gp_f g) q)) * Rsum (length (qdims (gp_f g) q)) (fun p => spacing g (qdims (gp_f g) q) p ^ 3)).
  - apply Rmult_le_compat_r; [apply Rsum_nonneg; intros p Hp; now apply HS|]. pose proof (Rle_abs (smooth_const (kern_of (gp_f g) q))). lra.
  - apply Rmult_le_compat_l; [pose proof (Rabs_pos (smooth_const (kern_of (gp_f g) q))); lra|]. apply Rsum_le. intros p Hp. now apply HS.
Qed.

(** The interpolation error falls with the third power of the number of cells
    asked for: one constant serves all grids over the same data and bounds. *)
Theorem C92_error :
  forall f data lo hi, exists C, 0 <= C /\ forall g m M, gp_ready g lo hi m -> gp_f g = f -> gp_data g = data -> (0 < M)%nat -> at_least f M m data ->
  forall a b, (a < f_D f)%nat -> (b < f_D f)%nat -> ski_error g (fun q => smooth_const (kern_of f q)) a b <= C / INR M ^ 3.
Proof.
  intros f data lo hi. exists (Rsum (f_D f) (fun a => Rsum (f_D f) (fun b => err_const f data lo hi a b))).
  split; [apply Rsum_nonneg; intros; apply Rsum_nonneg; intros; apply err_const_pos|].
  intros g m M HR Ef Ed HM HA a b Ha Hb. subst f data. eapply Rle_trans; [exact (ski_error_cells g lo hi m M a b HR HM HA)|].
  apply Rmult_le_compat_r; [left; apply Rinv_0_lt_compat, pow_lt, lt_0_INR; lia|].
  eapply Rle_trans; [apply (Rsum_term (f_D (gp_f g)) (fun b => err_const (gp_f g) (gp_data g) lo hi a b) b Hb); intros; apply err_const_pos|].
  apply (Rsum_term (f_D (gp_f g)) (fun a => Rsum (f_D (gp_f g)) (fun b => err_const (gp_f g) (gp_data g) lo hi a b)) a Ha).
  intros. apply Rsum_nonneg. intros. apply err_const_pos.
Qed.
Print Assumptions C92_error.

(** Points between inputs and bounds are inside every grid. *)
Theorem C92_between :
  forall g lo hi m x, gp_ready g lo hi m -> between (gp_f g) (gp_data g) lo hi x -> inside g x.
Proof.
  intros g lo hi m x HR Hx ad p Had Hp. destruct (rd_grid g lo hi m HR ad Had) as [_ [l [HL [E1 [E2 [E3 [El [Hl Hax]]]]]]]].
  destruct (axis_desc g ad l p E1 Hax ltac:(lia)) as [_ [_ [-> [-> _]]]].
  destruct (gg_enc _ _ _ _ _ _ _ _ _ _ HL) as [_ HE]. specialize (HE p Hp). cbv zeta in HE. destruct HE as [_ [Ec [_ [H0 [H1 H2]]]]].
  destruct (Hx ad (nth p ad 0%nat) Had) as [u [v [Eu [Ev B]]]]; [now apply nth_In|]. rewrite Ec.
  match goal with |- context [(?c + 4 - 2)%nat] => replace (c + 4 - 2)%nat with (c + 2)%nat by lia end.
  assert (U : snd (fst (nth p l (0%nat, 0, 0))) + snd (nth p l (0%nat, 0, 0)) < u) by (destruct Eu as [Eu|Eu]; [now apply H0|now apply H1]).
  match goal with |- _ <= _ < ?t => assert (V : v < t) by (destruct Ev as [Ev|Ev]; [now apply H0|now apply H2]) end. lra.
Qed.
Print Assumptions C92_between.

Fixpoint k_max (k : kern) : R := match k with Scaled k s => s * k_max k | _ => 1 end.

Lemma k_doc_max k r : positive k -> 0 <= r -> 0 <= k_max k /\ Rabs (k_doc k r) <= k_max k.
Proof.
  induction k; intros Hp Hr; try (split; [cbn; lra|cbn [k_max]; apply k_doc_le_1; [exact I|exact Hp|exact Hr]]).
  assert (Hs : 0 < scale) by (apply Hp; cbn; apply in_or_app; right; now left). assert (Hk : positive k) by (intros v Hv; apply Hp; cbn; apply in_or_app; now left).
  destruct (IHk Hk Hr) as [I1 I2]. cbn [k_max k_doc]. split; [nra|]. rewrite Rabs_mult, (Rabs_right scale) by lra. apply Rmult_le_compat_l; lra.
Qed.

Definition cov_max (f : fkernel) : R := Rsum (f_D f) (fun a => Rsum (f_D f) (fun b => Rsum (f_Q f) (fun q => Rabs (B_of f q a b) * k_max (kern_of f q)))).

Lemma dist_on_pos ad x z : 0 <= dist_on ad x z.
Proof. apply sqrt_pos. Qed.

Lemma lmc_cov_max f a x b z : kernels_ok f -> (a < f_D f)%nat -> (b < f_D f)%nat -> Rabs (lmc_cov f a x b z) <= cov_max f.
Proof.
  intros Hk Ha Hb. assert (P : forall a b q, (q < f_Q f)%nat -> 0 <= Rabs (B_of f q a b) * k_max (kern_of f q)).
  { intros a' b' q Hq. apply Rmult_le_pos; [apply Rabs_pos|]. apply (k_doc_max (kern_of f q) 0); [apply (Hk q Hq)|lra]. }
  unfold lmc_cov. eapply Rle_trans; [apply Rsum_abs|].
  apply Rle_trans with (Rsum (f_Q f) (fun q => Rabs (B_of f q a b) * k_max (kern_of f q))).
  - apply Rsum_le. intros q Hq. rewrite Rabs_mult. apply Rmult_le_compat_l; [apply Rabs_pos|].
    apply k_doc_max; [apply (Hk q Hq)|apply dist_on_pos].
  - eapply Rle_trans; [apply (Rsum_term (f_D f) (fun b => Rsum (f_Q f) (fun q => Rabs (B_of f q a b) * k_max (kern_of f q))) b Hb);
      intros; apply Rsum_nonneg; intros; now apply P|].
    apply (Rsum_term (f_D f) (fun a => Rsum (f_D f) (fun b => Rsum (f_Q f) (fun q => Rabs (B_of f q a b) * k_max (kern_of f q)))) a Ha).
    intros. apply Rsum_nonneg. intros. apply Rsum_nonneg. intros. now apply P.
Qed.

Lemma least_noise n (F : nat -> R) : (forall a, (a < n)%nat -> 0 < F a) -> exists s, 0 < s /\ forall a, (a < n)%nat -> s <= F a.
Proof.
  induction n as [|n IH]; intros H; [exists 1; split; [lra|intros; lia]|].
  destruct IH as [s [S1 S2]]; [intros; apply H; lia|]. exists (Rmin s (F n)). split; [apply Rmin_glb_lt; [exact S1|apply H; lia]|].
  intros a Ha. destruct (Nat.eq_dec a n) as [->|]; [apply Rmin_r|]. eapply Rle_trans; [apply Rmin_l|]. apply S2. lia.
Qed.

Lemma cells_enough C delta : 0 <= C -> 0 < delta -> exists M, (0 < M)%nat /\ C / INR M ^ 3 <= delta.
Proof.
  intros HC Hd. destruct (nfloor_ex (C / delta)) as [N [_ HN]]; [apply Rmult_le_pos; [exact HC|left; now apply Rinv_0_lt_compat]|].
  exists (S N). split; [lia|]. rewrite <- S_INR in HN. set (M := INR (S N)) in *.
  assert (M1 : 1 <= M) by (unfold M; change 1 with (INR 1); apply le_INR; lia).
  assert (M3 : M <= M ^ 3) by (assert (1 <= M ^ 2) by nra; replace (M ^ 3) with (M * M ^ 2) by ring; nra).
  apply (Rmult_le_reg_r (M ^ 3)); [lra|]. replace (C / M ^ 3 * M ^ 3) with C by (field; lra).
  assert (C <= delta * M). { apply (Rmult_lt_compat_l delta) in HN; [|exact Hd]. replace (delta * (C / delta)) with C in HN by (field; lra). lra. }
  nra.
Qed.

Ltac nn := repeat first [assumption|lra|apply Rmult_le_pos].

(** However small [eta], with enough cells and small enough residuals the log
    likelihood, the means at points between inputs and bounds, and the variances
    computed on the fly are within [eta] of those of the exact Gaussian process
    -- for all requests of predictions at once. *)
Theorem C92_limit :
  forall f data lo hi, no_identity f -> proper f -> kernels_ok f -> (forall ad, group f ad <> [] -> ~ surplus f ad) ->
  let P := mg_P data in
  let lens := map (@length R) (mg_Ys data) in
  let n := nsum lens in
  let x := obs P (mg_Xs data) lens in
  let K := K_obs f P (mg_Xs data) lens in
  forall eta, 0 < eta -> exists M eps, 0 < eps /\
  forall g m solve bits n_it k, gp_ready g lo hi m -> gp_f g = f -> gp_data g = data -> at_least f M m data ->
  fitted solve bits n_it g k -> solves_within eps n (K_fit g) (solve (al_K (gpk_lik k))) -> mode_ready g ->
  (exists v l, gp_log_likelihood g k = Ok (Fin v) /\ log_density n K (y_obs g) l /\ Rabs (v - l) <= eta) /\
  forall Zs zl, requests P Zs zl -> length zl = f_D f -> (gp_mode g = OnTheFly -> (0 < nsum zl)%nat) ->
  exists mu var, gp_predict solve g k Zs = Ok (mu, var) /\
    forall d i, (d < f_D f)%nat -> (i < nth d zl 0)%nat ->
      let pt := point P Zs d i in
      let c := fun j => lmc_cov f d pt (owner lens j) (x j) in
      (between f data lo hi pt -> forall alpha, (forall j, (j < n)%nat -> Rsum n (fun l => K j l * alpha l) = y_obs g j) ->
         Rabs (vget (nth d mu []) i - unnorm_mean g d (Rsum n (fun j => c j * alpha j))) <= eta) /\
      (gp_mode g = OnTheFly -> forall z, (forall j, (j < n)%nat -> Rsum n (fun l => K j l * z l) = c j) ->
         Rabs (vget (nth d var []) i - unnorm_var g d (Rmax 0 (lmc_cov f d pt d pt + vget (f_noise f) d - Rsum n (fun j => c j * z j)))) <= eta).
Proof.
  intros f data lo hi Hid Hp Hk HS P lens n x K eta Heta.
  destruct (least_noise (f_D f) (fun a => vget (f_noise f) a)) as [s [Hs0 Hn]]; [apply Hp|].
  destruct (C92_error f data lo hi) as [C [C0 HC]].
  set (Y := norm2 n (vget (concat (mg_Ys data)))). assert (Y0 : 0 <= Y) by apply norm2_nonneg.
  set (osc := fun d => match mg_norm data with Some l => n_std (nth d l (mk_norm 0 1)) | None => 1 end).
  set (O := Rsum (f_D f) (fun d => Rabs (osc d))). assert (O0 : 0 <= O) by (apply Rsum_nonneg; intros; apply Rabs_pos).
  set (N := INR n). assert (N0 : 0 <= N) by apply pos_INR. set (sN := sqrt N). assert (sN0 : 0 <= sN) by apply sqrt_pos.
  set (G := sN * Rabs (cov_max f)). assert (G0 : 0 <= G) by (apply Rmult_le_pos; [exact sN0|apply Rabs_pos]).
  set (i1 := / s). assert (i10 : 0 < i1) by now apply Rinv_0_lt_compat.
  set (A1 := O * ((G + sN) * i1)). set (A2 := O * (sN * (Y * i1) + G * (N * Y * i1 ^ 2))).
  set (A3 := O ^ 2 * (G * i1)). set (A4 := O ^ 2 * (G * (N * G * i1 ^ 2))).
  set (A5 := Y * i1). set (A6 := Y * (N * Y * i1 ^ 2)).
  assert (i20 : 0 <= i1 ^ 2) by (apply pow_le; lra).
  assert (O20 : 0 <= O ^ 2) by apply pow2_ge_0.
  assert (P1 : 0 <= A1) by (unfold A1; nn).
  assert (P2 : 0 <= A2) by (unfold A2; apply Rmult_le_pos; [lra|apply Rplus_le_le_0_compat; nn]).
  assert (P3 : 0 <= A3) by (unfold A3; nn).
  assert (P4 : 0 <= A4) by (unfold A4; nn).
  assert (P5 : 0 <= A5) by (unfold A5; nn).
  assert (P6 : 0 <= A6) by (unfold A6; nn).
  set (A := A1 + A2 + A3 + A4 + A5 + A6 + 1).
  set (delta := Rmin 1 (eta / A)).
  assert (A0 : 1 <= A) by (unfold A; lra).
  assert (D0 : 0 < delta) by (apply Rmin_glb_lt; [lra|apply Rdiv_lt_0_compat; lra]).
  assert (D1 : delta <= 1) by apply Rmin_l.
  assert (D2 : A * delta <= eta).
  { apply Rle_trans with (A * (eta / A)); [apply Rmult_le_compat_l; [lra|apply Rmin_r]|]. right. field. lra. }
  destruct (cells_enough C delta C0 D0) as [M [M0 HM]]. exists M, delta. split; [exact D0|].
  intros g m solve bits n_it k HR Ef Ed HA Hf Hs Hm. subst f data. specialize (HC g m M HR eq_refl eq_refl M0 HA).
  assert (HE : forall a b, (a < f_D (gp_f g))%nat -> (b < f_D (gp_f g))%nat -> ski_error g (fun q => smooth_const (kern_of (gp_f g) q)) a b <= delta).
  { intros a b Ha Hb. eapply Rle_trans; [now apply HC|exact HM]. }
  assert (X1 : forall u, 0 <= u -> u * delta <= u) by (intros; nra).
  split.
  - destruct (C92_likelihood g lo hi m solve bits n_it k s delta delta HR Hf Hs Hid Hp HS Hs0 Hn HE) as [v [l [E1 [E2 E3]]]].
    exists v, l. split; [exact E1|]. split; [exact E2|]. eapply Rle_trans; [exact E3|].
    change (1 / 2 * (Y * (delta * i1) + Y * (N * delta * Y / s ^ 2)) <= eta).
    replace (N * delta * Y / s ^ 2) with (N * Y * i1 ^ 2 * delta) by (unfold i1; field; lra).
    apply Rle_trans with ((A5 + A6) * delta); [|eapply Rle_trans; [|exact D2]; apply Rmult_le_compat_r; [lra|unfold A; lra]].
    assert (0 <= (A5 + A6) * delta) by (apply Rmult_le_pos; lra).
    replace (Y * (delta * i1) + Y * (N * Y * i1 ^ 2 * delta)) with ((A5 + A6) * delta) by (unfold A5, A6; ring). lra.
  - intros Zs zl HZ Hz Ht.
    destruct (C63_predictions g lo hi m solve bits n_it k Zs zl s delta delta HR Hf Hs Hid Hm Hp HS Hs0 Hn HE HZ Hz Ht) as [mu [var [EP H]]].
    exists mu, var. split; [exact EP|]. intros d i Hd Hi pt c. specialize (H d i Hd Hi). cbv zeta in H. destruct H as [H1 H2].
    pose proof (rd_D g lo hi m HR : length lens = f_D (gp_f g)) as HDl.
    assert (Ow : forall j, (j < n)%nat -> (owner lens j < f_D (gp_f g))%nat) by (intros j Hj; rewrite <- HDl; now apply owner_lt).
    assert (Nc : norm2 n c <= G).
    { unfold G, sN, N. rewrite <- norm2_const by apply Rabs_pos. apply norm2_le. intros j Hj. unfold c.
      eapply Rle_trans; [apply lmc_cov_max; [exact Hk|exact Hd|now apply Ow]|apply Rle_abs]. }
    assert (c0 : 0 <= norm2 n c) by apply norm2_nonneg.
    assert (Oc : Rabs (out_scale g d) <= O) by (apply (Rsum_term (f_D (gp_f g)) (fun d => Rabs (osc d)) d Hd); intros; apply Rabs_pos).
    split.
    + intros Hb alpha Hal. specialize (H1 (C92_between g lo hi m pt HR Hb) alpha Hal). eapply Rle_trans; [exact H1|].
      change (Rabs (out_scale g d) * ((norm2 n c + sN * delta) * (delta * i1) + sN * delta * (Y * i1) + norm2 n c * (N * delta * Y / s ^ 2)) <= eta).
      replace (N * delta * Y / s ^ 2) with (N * Y * i1 ^ 2 * delta) by (unfold i1; field; lra).
      apply Rle_trans with ((A1 + A2) * delta); [|eapply Rle_trans; [|exact D2]; apply Rmult_le_compat_r; [lra|unfold A; lra]].
      replace ((A1 + A2) * delta) with (O * (((G + sN) * i1) * delta + (sN * (Y * i1) * delta + G * (N * Y * i1 ^ 2 * delta)))) by (unfold A1, A2; ring).
      assert (0 <= N * Y * i1 ^ 2 * delta) by (nn).
      assert (0 <= delta * i1) by (apply Rmult_le_pos; lra). assert (0 <= sN * delta) by (apply Rmult_le_pos; lra). assert (0 <= Y * i1) by (apply Rmult_le_pos; lra).
      assert (0 <= sN * delta * (Y * i1)) by (apply Rmult_le_pos; lra).
      apply Rmult_le_compat; [apply Rabs_pos| |exact Oc|].
      * repeat apply Rplus_le_le_0_compat; [apply Rmult_le_pos; lra|lra|apply Rmult_le_pos; lra].
      * rewrite Rplus_assoc. apply Rplus_le_compat; [|apply Rplus_le_compat].
        -- replace ((G + sN) * i1 * delta) with ((G + sN) * (delta * i1)) by ring. apply Rmult_le_compat_r; [lra|]. specialize (X1 sN sN0). lra.
        -- right. ring.
        -- apply Rmult_le_compat_r; lra.
    + intros EM z Hz'. specialize (H2 EM z Hz'). eapply Rle_trans; [exact H2|].
      change (out_scale g d ^ 2 * (norm2 n c * (delta * i1) + norm2 n c * (N * delta * norm2 n c / s ^ 2)) <= eta).
      replace (N * delta * norm2 n c / s ^ 2) with (N * i1 ^ 2 * delta * norm2 n c) by (unfold i1; field; lra).
      apply Rle_trans with ((A3 + A4) * delta); [|eapply Rle_trans; [|exact D2]; apply Rmult_le_compat_r; [lra|unfold A; lra]].
      replace ((A3 + A4) * delta) with (O ^ 2 * (G * (delta * i1) + G * (N * i1 ^ 2 * delta * G))) by (unfold A3, A4; ring).
      assert (0 <= delta * i1) by (apply Rmult_le_pos; lra). assert (Q : 0 <= N * i1 ^ 2 * delta) by (nn).
      assert (0 <= N * i1 ^ 2 * delta * norm2 n c) by (apply Rmult_le_pos; lra).
      apply Rmult_le_compat; [apply pow2_ge_0| | |].
      * apply Rplus_le_le_0_compat; apply Rmult_le_pos; lra.
      * rewrite <- pow2_abs. apply pow_incr. split; [apply Rabs_pos|exact Oc].
      * apply Rplus_le_compat; [apply Rmult_le_compat_r; lra|]. apply Rmult_le_compat; [lra|lra|exact Nc|]. apply Rmult_le_compat_l; lra.
Qed.
Print Assumptions C92_limit.

(** *** Example *)

(** Two outputs observed at 2 and 8, kernels RBF and Matern32, any number of
    cells, all modes. *)
Example C92_ex : forall md, exists f data, no_identity f /\ proper f /\ kernels_ok f /\ (forall ad, group f ad <> [] -> ~ surplus f ad) /\
  f_D f = 2%nat /\ data = multi_of 1 ex1_Xs ex1_Ys true /\ between f data (GNum 0) (GNum 10) (fun _ => 5) /\
  requests (mg_P data) ex1_Zs [3; 0]%nat /\
  forall M, (0 < M)%nat -> exists g solve bits k, gp_ready g (GNum 0) (GNum 10) (GNum M) /\ gp_f g = f /\ gp_data g = data /\ gp_mode g = md /\
    mode_ready g /\ at_least f M (GNum M) data /\ fitted solve bits 1 g k /\
    forall eps, 0 <= eps -> solves_within eps (n_obs g) (K_fit g) (solve (al_K (gpk_lik k))).
Proof.
  intros md. destruct (ord_models true md) as [f [f' (Ef & Hp & Hid & HD & HQ & HG & HM)]]. destruct (HM ex1_Xs ex1_Ys ex1_good) as [g0 (E0 & HR0 & Eg & Em & Ed)].
  exists f', (multi_of 1 ex1_Xs ex1_Ys true). split; [exact Hid|]. split; [exact Hp|]. split; [rewrite <- Eg; exact (gr_kern _ _ _ _ HR0)|].
  split; [intros ad Had; now apply HG|]. split; [exact HD|]. split; [reflexivity|]. split.
  { intros ad d Had Hd. rewrite (proj1 (HG ad Had)) in Hd. destruct Hd as [<-|[]]. exists 0, 10. split; [right; reflexivity|]. split; [right; reflexivity|]. lra. }
  split; [apply ex1_requests|]. intros M HM0. set (data := multi_of 1 ex1_Xs ex1_Ys true) in *.
  assert (DA : data_ok f' (mg_P data) (mg_Xs data) (map (@length R) (mg_Ys data)) (GNum 0) (GNum 10) (GNum M)).
  { pose proof (gr_data _ _ _ _ HR0) as DA0. rewrite Eg, Ed in DA0. destruct DA0. constructor; try assumption. intros ad Had. destruct (da_args ad Had).
    constructor; try assumption. intros d k _ E. injection E as <-. lia. }
  assert (Hr : reach f') by (rewrite <- Eg; exact (gr_reach _ _ _ _ HR0)).
  destruct (C57_generate_grids f' _ _ _ _ _ _ Hr DA) as [gr [EG _]].
  set (g := mk_gp data f' gr md).
  assert (HR : gp_ready g (GNum 0) (GNum 10) (GNum M)).
  { constructor; cbn; [exact Hr|rewrite <- Eg; exact (gr_kern _ _ _ _ HR0)|exact DA|exact EG| |].
    - change (mg_D data = f_D f'); rewrite <- Eg, <- Ed. exact (gr_D _ _ _ _ HR0).
    - intros l Hl. rewrite <- Eg. apply (gr_norm _ _ _ _ HR0). rewrite Ed. exact Hl. }
  destruct (fit_exists g _ _ _ HR Hp) as [solve [bits [k [Hs Hf]]]]. exists g, solve, bits, k.
  split; [exact HR|]. split; [reflexivity|]. split; [reflexivity|]. split; [reflexivity|]. split.
  { unfold mode_ready. cbn [gp_mode g]. destruct md; [exact I| |exact (K_obs_pdR g _ _ _ HR Hp)]. intros q Hq. cbn. now apply HQ. }
  split; [intros ad d _ _; cbn; lia|]. split; [exact Hf|]. intros eps He b Hb.
  destruct (exact_within _ _ _ (proj1 (fit_solver g _ _ _ HR _ _ _ _ Hf Hs)) b Hb) as [x [X1 [X2 X3]]]. exists x. split; [exact X1|]. split; [exact X2|eapply Rle_trans; [exact X3|exact He]].
Qed.
