(** Claims about best linear predictions (C84). *)

From Coq Require Import Reals List Arith ZArith Lia Lra.
From Verif Require Import Base NDArray PSD Model_Util Proofs_Util Spec_Util Model_Linalg Spec_Linalg Proofs_Linalg Model_Interp Spec_Interp
  Properties_Interp Model_Kern Spec_Kern Proofs_Kern Proofs_KernPSD Model_FK Spec_FK Proofs_FK
  Properties_FK Model_Grid Spec_Grid Proofs_Grid Proofs_Grid2 Properties_Grid Det Proofs_Det Model_Lik Spec_Lik Proofs_Lik Proofs_Lik2 Proofs_Lik3 Proofs_Lik4 Proofs_Lik5 Proofs_Lik6 Proofs_Lik7 Properties_Lik
  Properties_Lik2 Spec_GP Proofs_Gen Proofs_Gen2 Properties_Gen Model_GP Spec_Pred Proofs_Pred Proofs_Pred2 Proofs_Pred3 Proofs_Pred4 Proofs_Init Proofs_Pred5 Proofs_Pred6 Properties_Pred
  Spec_Order Proofs_Order Proofs_Order2 Proofs_Order3 Properties_Order Spec_Depend Proofs_Depend Properties_Alike Spec_Acc Proofs_Acc Spec_Lip Proofs_Lip Proofs_Lip2 Spec_Far Properties_Far Spec_Noise Proofs_Noise Properties_Noise Spec_Best Proofs_Best.
Import ListNotations.
Open Scope R_scope.

(** The predictions [mu], [var] of output [d] at [x]: the variance is the
    least expected squared error that any guess [b + sum of w i * Y i] of a new
    noisy observation has, in the units of the output; only the weights [z]
    attain it. *)
Definition least_error (g : gp) (d : nat) (x : nat -> R) (var : R) (z : nat -> R) : Prop :=
  forall (W : Type) (L : (W -> R) -> Prop) E Y T, expected L E -> drawn L E g d x Y T ->
    var = unnorm_var g d (E (sq_err (n_obs g) Y T 0 z)) /\
    (forall b w, L (sq_err (n_obs g) Y T b w) /\ var <= unnorm_var g d (E (sq_err (n_obs g) Y T b w))) /\
    (forall b w, (b <> 0 \/ exists i, (i < n_obs g)%nat /\ w i <> z i) ->
       E (sq_err (n_obs g) Y T 0 z) < E (sq_err (n_obs g) Y T b w)).

Lemma least_of_solves g lo hi m d x z var : gp_ready g lo hi m -> proper (gp_f g) ->
  let f := gp_f g in
  let P := mg_P (gp_data g) in
  let Xs := mg_Xs (gp_data g) in
  let lens := map (@length R) (mg_Ys (gp_data g)) in
  let c := fun j => lmc_cov f d x (owner lens j) (obs P Xs lens j) in
  solves (n_obs g) (K_obs f P Xs lens) z c ->
  var = unnorm_var g d (lmc_cov f d x d x + vget (f_noise f) d - Rsum (n_obs g) (fun j => c j * z j)) ->
  least_error g d x var z.
Proof.
  intros HR Hp f P Xs lens c Hz Hv W L E Y T HE HD. set (n := n_obs g) in *.
  pose proof (K_obs_pdR g lo hi m HR Hp : pos_definite n (K_obs f P Xs lens)) as Hpd.
  set (t := lmc_cov f d x d x + vget (f_noise f) d) in *.
  assert (H1 : forall i, (i < n)%nat -> L (Y i) /\ E (Y i) = 0) by apply (dr_one _ _ _ _ _ _ _ HD).
  assert (H2 : L T /\ E T = 0) by apply (dr_new _ _ _ _ _ _ _ HD).
  assert (H3 : forall i j, (i < n)%nat -> (j < n)%nat -> L (fun o => Y i o * Y j o) /\ E (fun o => Y i o * Y j o) = K_obs f P Xs lens i j).
  { intros i j Hi Hj. destruct (dr_two _ _ _ _ _ _ _ HD i j Hi Hj) as [A B]. split; [exact A|].
    unfold cov_of in B. rewrite (proj2 (H1 i Hi)) in B. unfold K_obs. fold f P Xs lens in B. rewrite <- B. ring. }
  assert (H4 : forall i, (i < n)%nat -> L (fun o => T o * Y i o) /\ E (fun o => T o * Y i o) = c i).
  { intros i Hi. destruct (dr_cross _ _ _ _ _ _ _ HD i Hi) as [A B]. split; [exact A|].
    unfold cov_of in B. rewrite (proj2 (H1 i Hi)) in B. unfold c. fold f P Xs lens in B. rewrite <- B. ring. }
  assert (H5 : L (fun o => T o * T o) /\ E (fun o => T o * T o) = t).
  { destruct (dr_self _ _ _ _ _ _ _ HD) as [A B]. split; [exact A|]. unfold cov_of in B. rewrite (proj2 H2) in B. unfold t, f. rewrite <- B. ring. }
  pose proof (K_obs_sym f P Xs lens n) as Hs.
  pose proof (fun b w => err_best L E HE n Y T (K_obs f P Xs lens) c t H1 H2 H3 H4 H5 z b w Hs Hz) as HB.
  assert (H0 : E (sq_err n Y T 0 z) = t - Rsum n (fun i => c i * z i)).
  { rewrite HB. assert (qf n (K_obs f P Xs lens) (fun i => z i + -1 * z i) = 0) as ->; [|ring].
    unfold qf, bil. apply Rsum_zero. intros i _. apply Rsum_zero. intros; ring. }
  pose proof (pd_psd n _ Hpd) as Hps.
  split; [now rewrite H0|]. split.
  - intros b w. split; [exact (proj1 (err_form L E HE n Y T _ c t H1 H2 H3 H4 H5 b w))|].
    rewrite Hv. assert (LE : t - Rsum n (fun i => c i * z i) <= E (sq_err n Y T b w)).
    { rewrite HB. specialize (Hps (fun i => w i + -1 * z i)). pose proof (pow2_ge_0 b). lra. }
    unfold unnorm_var. destruct (mg_norm (gp_data g)); [|exact LE]. apply Rmult_le_compat_r; [apply pow2_ge_0|exact LE].
  - intros b w H. rewrite H0, HB. destruct H as [Hb|[i [Hi Hw]]].
    + specialize (Hps (fun i => w i + -1 * z i)). assert (0 < b ^ 2) by (rewrite <- Rsqr_pow2; now apply Rsqr_pos_lt). lra.
    + assert (0 < qf n (K_obs f P Xs lens) (fun i => w i + -1 * z i)) by (apply Hpd; exists i; split; [exact Hi|lra]).
      pose proof (pow2_ge_0 b). lra.
Qed.

Lemma swap_solves n K w c a y : sym n K -> solves n K w c -> solves n K a y -> Rsum n (fun j => c j * a j) = Rsum n (fun j => w j * y j).
Proof.
  intros Hs Hw Ha.
  transitivity (bil n K a w).
  - unfold bil. apply Rsum_ext. intros i Hi. rewrite <- (Hw i Hi), Rmult_comm, <- Rsum_scal_l. apply Rsum_ext. intros; ring.
  - rewrite (bil_sym n K a w Hs). unfold bil. apply Rsum_ext. intros i Hi. rewrite <- (Ha i Hi), <- Rsum_scal_l. apply Rsum_ext. intros; ring.
Qed.

(** The predicted mean is linear in the data; its weights on the grid. *)
Lemma mean_weights g lo hi m (HR : gp_ready g lo hi m) (Hp : proper (gp_f g)) k :
  solves (n_obs g) (K_fit g) (vget (sd_alpha (al_deriv (gpk_lik k)))) (y_obs g) -> forall d x,
  let f := gp_f g in
  let P := mg_P (gp_data g) in
  let Xs := mg_Xs (gp_data g) in
  let lens := map (@length R) (mg_Ys (gp_data g)) in
  let c := fun j => lmc_cov f d x (owner lens j) (obs P Xs lens j) in
  exists w, solves (n_obs g) (K_fit g) w (fun j => ski_cov g (wt g) d x (owner lens j) (obs P Xs lens j) + ski_extra g (wt g) d x (owner lens j) (obs P Xs lens j)) /\
    Rsum (n_obs g) (fun j => w j * y_obs g j) = mean_at g k d x /\
    (on_grid f P Xs lens (gp_grids g) -> (forall ad, group f ad <> [] -> ~ surplus f ad) -> pt_on_grid g x ->
     forall z, solves (n_obs g) (K_obs f P Xs lens) z c -> forall j, (j < n_obs g)%nat -> w j = z j).
Proof.
  intros Ha d x f P Xs lens c. pose proof (K_fit_sym g lo hi m HR) as Hsf.
  pose proof (proj1 (pos_definite_pivots _ _ Hsf) (K_fit_pd g lo hi m HR Hp)) as Hpv.
  destruct (solves_ex (n_obs g) (K_fit g) (fun j => ski_cov g (wt g) d x (owner lens j) (obs P Xs lens j) + ski_extra g (wt g) d x (owner lens j) (obs P Xs lens j)) Hpv) as [w Hw].
  exists w. split; [exact Hw|]. split.
  - symmetry. exact (swap_solves _ _ _ _ _ _ Hsf Hw Ha).
  - intros OG HS HG z Hz. apply (solves_unique (n_obs g) (K_fit g) c w z Hpv).
    + refine (solves_ext _ _ _ _ _ _ _ _ _ _ Hw); try reflexivity. intros j Hj.
      rewrite (no_extra g lo hi m HR _ _ _ _ _ HS), Rplus_0_r. apply (ski_on_grid g lo hi m HR); [exact HG|]. exact (on_grid_pts g lo hi m HR j OG Hj).
    + refine (solves_ext _ _ _ _ _ _ _ _ _ _ Hz); try reflexivity. intros i j Hi Hj. symmetry. now apply (K_fit_on_grid g lo hi m HR).
Qed.

(** In exact mode the predicted variance is the least expected squared error of
    a linear prediction.  With data and request on the grid the predicted mean
    is that best prediction; in general it is linear in the data, so that its
    error is never below the predicted variance. *)
Theorem C84_exact :
  forall g lo hi m solve bits n_it k Zs zl, gp_ready g lo hi m -> fitted solve bits n_it g k ->
  exact_solver (n_obs g) (K_fit g) solve -> no_identity (gp_f g) -> proper (gp_f g) -> gp_mode g = Exact ->
  requests (mg_P (gp_data g)) Zs zl -> length zl = f_D (gp_f g) ->
  let P := mg_P (gp_data g) in
  let lens := map (@length R) (mg_Ys (gp_data g)) in
  exists mu var, gp_predict solve g k Zs = Ok (mu, var) /\
    forall d i, (d < f_D (gp_f g))%nat -> (i < nth d zl 0)%nat -> exists z w,
      least_error g d (point P Zs d i) (vget (nth d var []) i) z /\
      vget (nth d mu []) i = unnorm_mean g d (Rsum (n_obs g) (fun j => w j * y_obs g j)) /\
      (on_grid (gp_f g) P (mg_Xs (gp_data g)) lens (gp_grids g) -> (forall ad, group (gp_f g) ad <> [] -> ~ surplus (gp_f g) ad) ->
       pt_on_grid g (point P Zs d i) -> forall j, (j < n_obs g)%nat -> w j = z j).
Proof.
  intros g lo hi m solve bits n_it k Zs zl HR Hf Hs Hid Hp Hm HZ Hz P lens.
  pose proof (K_obs_pdR g lo hi m HR Hp) as Hpd.
  assert (MR : mode_ready g) by (unfold mode_ready; rewrite Hm; exact Hpd).
  destruct (fit_solver g lo hi m HR _ _ _ _ Hf Hs) as [_ [Hr Ha]].
  destruct (C36_exact g lo hi m solve bits n_it k Zs zl HR Hf Hr Hid Hp Hm HZ Hz) as [mu [var [E HV]]].
  destruct Hf as [old [s Hf]]. destruct (fitted_of g _ _ _ _ _ _ Hf) as [HK _].
  pose proof (predict_ok g lo hi m HR k HK solve Hr Zs zl Hid MR HZ Hz ltac:(rewrite Hm; discriminate)) as E'.
  rewrite E in E'. apply Ok_inj in E'. injection E' as Emu _.
  exists mu, var. split; [exact E|]. intros d i Hd Hi.
  destruct (HV d i Hd Hi) as [z [v (Hz' & Ev & _ & EV)]].
  destruct (mean_weights g lo hi m HR Hp k Ha d (point P Zs d i)) as [w [Hw [EM HG]]].
  exists z, w. split; [|split].
  - apply (least_of_solves g lo hi m d _ z _ HR Hp Hz'). rewrite EV, Ev. reflexivity.
  - rewrite Emu, nth_tab by exact Hd. rewrite vget_tab by exact Hi. f_equal. symmetry. exact EM.
  - intros OG HS HP. exact (HG OG HS HP z Hz').
Qed.
Print Assumptions C84_exact.

(** On-the-fly predictions on the grid are the best linear predictions too. *)
Theorem C84_on_the_fly :
  forall g lo hi m solve bits n_it k Zs zl, gp_ready g lo hi m -> fitted solve bits n_it g k ->
  exact_solver (n_obs g) (K_fit g) solve -> no_identity (gp_f g) -> gp_mode g = OnTheFly -> proper (gp_f g) ->
  requests (mg_P (gp_data g)) Zs zl -> length zl = f_D (gp_f g) -> (0 < nsum zl)%nat ->
  let P := mg_P (gp_data g) in
  let lens := map (@length R) (mg_Ys (gp_data g)) in
  on_grid (gp_f g) P (mg_Xs (gp_data g)) lens (gp_grids g) -> (forall ad, group (gp_f g) ad <> [] -> ~ surplus (gp_f g) ad) ->
  exists mu var, gp_predict solve g k Zs = Ok (mu, var) /\
    forall d i, (d < f_D (gp_f g))%nat -> (i < nth d zl 0)%nat -> pt_on_grid g (point P Zs d i) -> exists z,
      least_error g d (point P Zs d i) (vget (nth d var []) i) z /\
      vget (nth d mu []) i = unnorm_mean g d (Rsum (n_obs g) (fun j => z j * y_obs g j)).
Proof.
  intros g lo hi m solve bits n_it k Zs zl HR Hf Hs Hid Hm Hp HZ Hz Ht P lens OG HS.
  destruct (C58_on_grid g lo hi m solve bits n_it k Zs zl HR Hf Hs Hid Hm Hp HZ Hz Ht OG HS) as [mu [var [E HV]]].
  exists mu, var. split; [exact E|]. intros d i Hd Hi HG. destruct (HV d i Hd Hi HG) as [alpha [z (Ha & Hz' & EM & EV)]].
  exists z. split; [exact (least_of_solves g lo hi m d _ z _ HR Hp Hz' EV)|].
  rewrite EM. f_equal. exact (swap_solves _ _ _ _ _ _ (K_obs_sym _ _ _ _ _) Hz' Ha).
Qed.
Print Assumptions C84_on_the_fly.

(** There are such random observations, for every model, output and point. *)
Theorem C84_observations :
  forall g lo hi m d x, gp_ready g lo hi m -> proper (gp_f g) -> (d < f_D (gp_f g))%nat ->
  exists (W : Type) (L : (W -> R) -> Prop) E Y T, expected L E /\ drawn L E g d x Y T.
Proof.
  intros g lo hi m d x HR Hp Hd. set (n := n_obs g). set (f := gp_f g) in *.
  set (lens := map (@length R) (mg_Ys (gp_data g))). set (pt := obs (mg_P (gp_data g)) (mg_Xs (gp_data g)) lens).
  assert (OL : forall j, (j < n)%nat -> (owner lens j < f_D f)%nat).
  { intros j Hj. pose proof (rd_D g lo hi m HR) as E. destruct (owner_lt lens j Hj) as [O _]. fold lens f in E. now rewrite E in O. }
  set (o := fun i => match i with O => d | S i => owner lens i end).
  set (p := fun i => match i with O => x | S i => pt i end).
  set (F := fun i j => lmc_cov f (o i) (p i) (o j) (p j) + (if Nat.eqb i j then vget (f_noise f) (o i) else 0)).
  assert (HO : forall i, (i < S n)%nat -> (o i < f_D f)%nat) by (intros [|i] Hi; [exact Hd|apply OL; lia]).
  assert (Hs : sym (S n) F).
  { intros i j _ _. unfold F. rewrite lmc_cov_sym. f_equal. rewrite (Nat.eqb_sym i j). destruct (Nat.eqb_spec j i); [now subst|reflexivity]. }
  assert (HP : psd (S n) F).
  { apply psd_plus.
    - apply lmc_psd_gen; [|exact (pr_per _ Hp)|exact (pr_diag _ Hp)|exact HO]. intros q Hq. apply (gr_kern _ _ _ _ HR q Hq).
    - apply (psd_diag_f (S n) (fun i => vget (f_noise f) (o i))). intros i Hi. apply Rlt_le, (pr_noise _ Hp), HO, Hi. }
  destruct (gram (S n) F Hs HP) as [l Hl].
  assert (HS : (0 < S n)%nat) by lia.
  assert (HC : forall i j, (i < S n)%nat -> (j < S n)%nat -> cov_of (coin (S n)) (coin_var (S n) (l i)) (coin_var (S n) (l j)) = F i j).
  { intros i j Hi Hj. unfold cov_of. rewrite (coin_prod (S n) _ _ HS), !coin_mean, <- Hl by assumption. ring. }
  exists (nat * bool)%type, (fun _ => True), (coin (S n)), (fun i => coin_var (S n) (l (S i))), (coin_var (S n) (l O)).
  split; [exact (coin_expected (S n) HS)|]. fold n in HC. split.
  - intros i _. split; [exact I|apply coin_mean].
  - split; [exact I|apply coin_mean].
  - intros i j Hi Hj. split; [exact I|]. cbv zeta. fold n in Hi, Hj. rewrite HC by lia. reflexivity.
  - intros i Hi. split; [exact I|]. cbv zeta. fold n in Hi. rewrite HC by lia. unfold F. cbn [Nat.eqb o p]. rewrite Rplus_0_r. reflexivity.
  - split; [exact I|]. rewrite HC by lia. reflexivity.
Qed.
Print Assumptions C84_observations.

(** Two outputs with observations on the grid; requests on and off the grid;
    random observations. *)
Example C84_ex : forall md, exists g solve bits k (W : Type) (L : (W -> R) -> Prop) E Y T,
  gp_ready g (GNum 0) (GNum 10) (GNum 2%nat) /\ gp_mode g = md /\ exact_solver (n_obs g) (K_fit g) solve /\ fitted solve bits 1 g k /\
  no_identity (gp_f g) /\ proper (gp_f g) /\
  requests (mg_P (gp_data g)) ex1_Zs [3; 0]%nat /\ length [3; 0]%nat = f_D (gp_f g) /\ (0 < nsum [3; 0])%nat /\
  on_grid (gp_f g) (mg_P (gp_data g)) (mg_Xs (gp_data g)) (map (@length R) (mg_Ys (gp_data g))) (gp_grids g) /\
  (forall ad, group (gp_f g) ad <> [] -> ~ surplus (gp_f g) ad) /\
  pt_on_grid g (point (mg_P (gp_data g)) ex1_Zs 0 0) /\
  expected L E /\ drawn L E g 0 (point (mg_P (gp_data g)) ex1_Zs 0 1) Y T.
Proof.
  intros md. destruct (C33_C59_ex md) as [g [solve [bits [k (HR & Em & _ & Hs & _ & Hf & Hid & Hp & _ & HZ & Hz & Ht & _ & _ & OG & HS & PT & _)]]]].
  destruct (C84_observations g _ _ _ 0%nat (point (mg_P (gp_data g)) ex1_Zs 0 1) HR Hp) as [W [L [E [Y [T [HE HD]]]]]].
  { rewrite <- Hz. cbn. lia. }
  exists g, solve, bits, k, W, L, E, Y, T. repeat (split; [assumption|]). exact HD.
Qed.
