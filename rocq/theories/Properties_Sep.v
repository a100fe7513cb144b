(** The log likelihood of uncorrelated outputs (C91). *)

From Coq Require Import Reals List Arith ZArith Lia Lra Permutation.
From Verif Require Import Base NDArray PSD Model_Util Proofs_Util Spec_Util Model_Linalg Spec_Linalg Proofs_Linalg Model_Interp Spec_Interp
  Properties_Interp Model_Kern Spec_Kern Proofs_Kern Proofs_KernPSD Model_FK Spec_FK Proofs_FK
  Properties_FK Model_Grid Spec_Grid Proofs_Grid Proofs_Grid2 Properties_Grid Det Proofs_Det Model_Lik Spec_Lik Proofs_Lik Proofs_Lik2 Proofs_Lik3 Proofs_Lik4 Proofs_Lik5 Proofs_Lik6 Proofs_Lik7 Properties_Lik
  Properties_Lik2 Spec_GP Proofs_Gen Proofs_Gen2 Properties_Gen Model_GP Spec_Pred Proofs_Pred Proofs_Pred2 Proofs_Pred3 Proofs_Pred4 Proofs_Init Proofs_Pred5 Proofs_Pred6 Properties_Pred
  Spec_Order Proofs_Order Proofs_Order2 Proofs_Order3 Properties_Order Spec_Depend Proofs_Depend Properties_Alike Properties_Depend Spec_Sep Proofs_Sep.
Import ListNotations.
Open Scope R_scope.

Section Pair.
Variables (S : nat -> bool) (g g' : gp) (lo hi : grid_arg R) (m : grid_arg nat).
Hypothesis HR : gp_ready g lo hi m.
Hypothesis HR' : gp_ready g' lo hi m.
Hypothesis HS : same_data S lo hi m g g'.
Hypothesis HU : uncorrelated (gp_f g) S.
Hypothesis Hp : proper (gp_f g).
Let lens := map (@length R) (mg_Ys (gp_data g)).
Let lens' := map (@length R) (mg_Ys (gp_data g')).
Let Ko h := K_obs (gp_f h) (mg_P (gp_data h)) (mg_Xs (gp_data h)) (map (@length R) (mg_Ys (gp_data h))).

Lemma sp_det : det_part lens' (Ko g') S = det_part lens (Ko g) S.
Proof.
  destruct (dp_D S g g' lo hi m HR HR' (sd_in _ _ _ _ _ _ HS)) as [E E'].
  fold lens lens' in E, E'. apply det_part_ext.
  - congruence.
  - rewrite E. exact (dp_len S g g' (sd_in _ _ _ _ _ _ HS)).
  - rewrite E. exact (obs_S S g g' lo hi m HR HR' (sd_in _ _ _ _ _ _ HS)).
Qed.

Lemma y_at h a l : gp_ready h lo hi m -> (a < f_D (gp_f h))%nat -> (l < nth a (map (@length R) (mg_Ys (gp_data h))) 0)%nat ->
  y_obs h (ix (map (@length R) (mg_Ys (gp_data h))) a l) = vget (nth a (mg_Ys (gp_data h)) []) l.
Proof.
  intros HRh Ha Hl. rewrite <- (rd_D h lo hi m HRh) in Ha. destruct (owner_offset _ a l Ha Hl) as [O P].
  unfold y_obs, ix. rewrite concat_get by (now apply nsum_offset). now rewrite O, P.
Qed.

Lemma sp_quad z z' : solves (n_obs g) (K_fit g) z (y_obs g) -> solves (n_obs g') (K_fit g') z' (y_obs g') ->
  forall a, (a < f_D (gp_f g))%nat -> S a = true ->
  Rsum (nth a lens' 0%nat) (fun l => y_obs g' (ix lens' a l) * z' (ix lens' a l)) = Rsum (nth a lens 0%nat) (fun l => y_obs g (ix lens a l) * z (ix lens a l)).
Proof.
  intros Hz Hz' a Ha Ea. pose proof (sd_in _ _ _ _ _ _ HS) as HI. destruct (dp_D S g g' lo hi m HR HR' HI) as [E E']. fold lens lens' in E, E'.
  assert (HY : forall b l, (b < length lens)%nat -> S b = true -> (l < nth b lens 0)%nat -> y_obs g (ix lens b l) = y_obs g' (ix lens' b l)).
  { intros b l Hb Eb Hl. rewrite E in Hb. unfold lens, lens'. rewrite !y_at; try assumption.
    - now rewrite (sd_ys _ _ _ _ _ _ HS).
    - now rewrite (si_f _ _ _ HI).
    - rewrite (dp_len S g g' HI) by assumption. exact Hl. }
  unfold lens' at 1. rewrite (dp_len S g g' HI) by assumption. fold lens. apply Rsum_ext. intros l Hl. rewrite <- E in Ha. rewrite <- HY by assumption. f_equal. symmetry.
  apply (uncoupled S lens lens' (K_fit g) (K_fit g')) with (c := y_obs g) (c' := y_obs g'); try assumption; rewrite ?E.
  - congruence.
  - exact (dp_len S g g' HI).
  - exact (fit_S S g g' lo hi m HR HR' HI (sd_w _ _ _ _ _ _ HS) (sd_w' _ _ _ _ _ _ HS)).
  - exact (fit_0 S g g' lo hi m HR HR' HI HU).
  - exact (fit_0' S g g' lo hi m HR HR' HI HU).
  - exact (fit_pivots g lo hi m HR Hp).
Qed.
End Pair.

(** The log likelihood is the sum of a part for the outputs in [S] and a part
    for the others when no kernel correlates the two: [g a b] has one of two
    data sets for the outputs in [S] and one of two for the others; what the
    first contribute does not depend on the second. *)
Theorem C91_separates :
  forall S (g : bool -> bool -> gp) lo hi m solve bits n_it k f,
  (forall a b, gp_ready (g a b) lo hi m) -> (forall a b, gp_f (g a b) = f) -> proper f -> uncorrelated f S ->
  (forall a, same_data S lo hi m (g a true) (g a false)) ->
  (forall b, same_data (fun d => negb (S d)) lo hi m (g true b) (g false b)) ->
  (forall a b, fitted (solve a b) (bits a b) (n_it a b) (g a b) (k a b)) ->
  (forall a b, exact_solver (n_obs (g a b)) (K_fit (g a b)) (solve a b)) ->
  exists l, (forall a b, gp_log_likelihood (g a b) (k a b) = Ok (Fin (l a b))) /\ l true true - l false true = l true false - l false false.
Proof.
  intros S g lo hi m solve bits n_it k f HR Hf Hp HU HA HB Hfit Hs.
  assert (Hpp : forall a b, proper (gp_f (g a b))) by (intros; now rewrite Hf).
  assert (HUU : forall a b, uncorrelated (gp_f (g a b)) S) by (intros; now rewrite Hf).
  assert (HUN : forall a b, uncorrelated (gp_f (g a b)) (fun d => negb (S d))).
  { intros a b q c d Hq Hc Hd N. apply (HUU a b q c d Hq Hc Hd). intros E. apply N. now rewrite E. }
  set (lens a b := map (@length R) (mg_Ys (gp_data (g a b)))).
  set (Ko a b := K_obs (gp_f (g a b)) (mg_P (gp_data (g a b))) (mg_Xs (gp_data (g a b))) (lens a b)).
  set (z a b := vget (sd_alpha (al_deriv (gpk_lik (k a b))))).
  assert (HPD : forall a b, pos_definite (n_obs (g a b)) (Ko a b)) by (intros a b; exact (K_obs_pdR (g a b) lo hi m (HR a b) (Hpp a b))).
  assert (Hz : forall a b, solves (n_obs (g a b)) (K_fit (g a b)) (z a b) (y_obs (g a b))).
  { intros a b. destruct (fit_solver (g a b) lo hi m (HR a b) _ _ _ _ (Hfit a b) (Hs a b)) as [_ [_ H]]. exact H. }
  assert (HD : forall a b, length (lens a b) = f_D f) by (intros a b; rewrite <- (Hf a b); exact (rd_D (g a b) lo hi m (HR a b))).
  set (sz a b d := Rsum (nth d (lens a b) 0%nat) (fun l => y_obs (g a b) (ix (lens a b) d l) * z a b (ix (lens a b) d l)) + INR (nth d (lens a b) 0%nat) * ln (2 * PI)).
  set (l a b := - (1 / 2) * (ln (det (n_obs (g a b)) (Ko a b)) + Rsum (f_D f) (sz a b))).
  exists l. split.
  - intros a b. destruct (C53_log_det (g a b) lo hi m (HR a b)) as [Hd _]. destruct (Hd (HPD a b)) as [_ E]. unfold gp_log_likelihood. rewrite E. cbn [bind].
    do 2 f_equal. unfold l. rewrite Rplus_assoc. do 3 f_equal. unfold sz. rewrite Rsum_plus, Rsum_scal_r.
    f_equal.
    + unfold gp_normal_quadratic, np_vdot. rewrite concat_len. fold (lens a b). rewrite Rsum_stacked, HD. reflexivity.
    + rewrite concat_len. fold (lens a b). f_equal. rewrite <- (HD a b). generalize (lens a b) as ls. clear. intros ls.
      transitivity (Rsum (nsum ls) (fun _ => 1)); [rewrite Rsum_const; ring|]. rewrite Rsum_stacked. apply Rsum_ext. intros d Hd. rewrite Rsum_const. ring.
  - assert (HP : forall a b, pivots (nsum (lens a b)) (Ko a b)) by (intros a b; apply pos_definite_pivots; [apply K_obs_sym|exact (HPD a b)]).
    assert (ED : forall a b, det (n_obs (g a b)) (Ko a b) = det_part (lens a b) (Ko a b) S * det_part (lens a b) (Ko a b) (fun d => negb (S d))).
    { intros a b. apply det_parts; [exact (HP a b)|]. rewrite HD. rewrite <- (Hf a b).
      destruct b.
      - exact (obs_0 S _ _ lo hi m (HR a true) (HR a false) (sd_in _ _ _ _ _ _ (HA a)) (HUU a true)).
      - pose proof (obs_0' S _ _ lo hi m (HR a true) (HR a false) (sd_in _ _ _ _ _ _ (HA a)) (HUU a true)) as Q. rewrite Hf, <- (Hf a false) in Q. exact Q. }
    assert (EA : forall a, det_part (lens a false) (Ko a false) S = det_part (lens a true) (Ko a true) S) by (intros a; exact (sp_det S _ _ lo hi m (HR a true) (HR a false) (HA a))).
    assert (EB : forall b, det_part (lens false b) (Ko false b) (fun d => negb (S d)) = det_part (lens true b) (Ko true b) (fun d => negb (S d)))
      by (intros b; exact (sp_det _ _ _ lo hi m (HR true b) (HR false b) (HB b))).
    assert (EL : ln (det (n_obs (g true true)) (Ko true true)) + ln (det (n_obs (g false false)) (Ko false false))
               = ln (det (n_obs (g false true)) (Ko false true)) + ln (det (n_obs (g true false)) (Ko true false))).
    { rewrite <- !ln_mult by (apply det_pos, HP). f_equal. rewrite !ED, (EA true), (EA false), (EB true), (EB false). ring. }
    assert (ES : forall d, (d < f_D f)%nat -> sz true true d + sz false false d = sz false true d + sz true false d).
    { intros d Hd. unfold sz. destruct (S d) eqn:E.
      - assert (Q : forall a, sz a false d = sz a true d).
        { intros a. unfold sz. assert (Hd' : (d < f_D (gp_f (g a true)))%nat) by now rewrite Hf. f_equal.
          - exact (sp_quad S _ _ lo hi m (HR a true) (HR a false) (HA a) (HUU a true) (Hpp a true) _ _ (Hz a true) (Hz a false) d Hd' E).
          - f_equal. f_equal. exact (dp_len S _ _ (sd_in _ _ _ _ _ _ (HA a)) d Hd' E). }
        fold (sz true true d) (sz false false d) (sz false true d) (sz true false d). rewrite (Q true), (Q false). ring.
      - assert (Q : forall b, sz false b d = sz true b d).
        { intros b. unfold sz. assert (Hd' : (d < f_D (gp_f (g true b)))%nat) by now rewrite Hf. assert (E' : negb (S d) = true) by now rewrite E. f_equal.
          - exact (sp_quad _ _ _ lo hi m (HR true b) (HR false b) (HB b) (HUN true b) (Hpp true b) _ _ (Hz true b) (Hz false b) d Hd' E').
          - f_equal. f_equal. exact (dp_len _ _ _ (sd_in _ _ _ _ _ _ (HB b)) d Hd' E'). }
        fold (sz true true d) (sz false false d) (sz false true d) (sz true false d). rewrite (Q true), (Q false). ring. }
    assert (EQ : Rsum (f_D f) (sz true true) + Rsum (f_D f) (sz false false) = Rsum (f_D f) (sz false true) + Rsum (f_D f) (sz true false)).
    { rewrite <- !Rsum_plus. apply Rsum_ext. exact ES. }
    unfold l. nra.
Qed.
Print Assumptions C91_separates.

(** ** Example *)

(** Two outputs, each with one of two sets of samples. *)
Definition sep_Xs (a b : bool) : list ndarr := [if b then mk_arr [2]%nat [2; 8] else mk_arr [3]%nat [2; 5; 8]; if a then mk_arr [2; 1]%nat [8; 2] else mk_arr [3; 1]%nat [4; 6; 1]].
Definition sep_Ys (a b : bool) : list ndarr := [if b then mk_arr [2]%nat [1; 2] else mk_arr [3]%nat [1; 7; 2]; if a then mk_arr [2]%nat [3; 5] else mk_arr [3]%nat [7; 1; 1]].

Lemma sep_good a b : good_data (sep_Xs a b) (sep_Ys a b).
Proof.
  destruct a, b; (split; [intros X [<-|[<-|[]]]; reflexivity|]; split; [intros X [<-|[<-|[]]]; reflexivity|];
  split; [|split; [intros X [<-|[<-|[]]]; reflexivity|split; [intros X [<-|[<-|[]]]; discriminate|reflexivity]]];
  split; [discriminate|]; split; [constructor; [|constructor; [|constructor]]; eexists; (split; [|reflexivity]); [left; reflexivity|right; now exists 1%nat]|];
  split; [exists 1%nat; intros X [<-|[<-|[]]]; reflexivity|]); intros Y [<-|[<-|[]]]; right;
    try (exists 1, 2; cbn; repeat split; auto; lra); try (exists 3, 5; cbn; repeat split; auto; lra); exists 7, 1; cbn; repeat split; auto; lra.
Qed.

Lemma sep_same (S : nat -> bool) f' nrm g g' a b a' b' : f_D f' = 2%nat -> gp_f g = f' -> gp_f g' = f' -> gp_mode g' = gp_mode g ->
  gp_data g = multi_of 1 (sep_Xs a b) (sep_Ys a b) nrm -> gp_data g' = multi_of 1 (sep_Xs a' b') (sep_Ys a' b') nrm ->
  (S 0%nat = true -> b' = b) -> (S 1%nat = true -> a' = a) -> same_data S (GNum 0) (GNum 10) (GNum 2%nat) g g'.
Proof.
  intros HD F F' M G G' H0 H1.
  assert (W : forall h h' a b a' b', gp_data h = multi_of 1 (sep_Xs a b) (sep_Ys a b) nrm -> gp_data h' = multi_of 1 (sep_Xs a' b') (sep_Ys a' b') nrm -> within (GNum 0) (GNum 10) (GNum 2%nat) h h').
  { clear. intros h h' a b a' b' E E'. apply (in_bounds _ _ _ _ _ _ _ E E'). unfold n_obs. rewrite E'. intros i Hi. destruct a', b', nrm;
      do 6 (destruct i as [|i]; [cbn in Hi |- *; try lia; lra|]); cbn in Hi; lia. }
  constructor; [| |exact (W _ _ _ _ _ _ G G')|exact (W _ _ _ _ _ _ G' G)]; [constructor; try congruence; [now rewrite G, G'| |]|]; rewrite F, HD, G, G'.
  - intros [|[|d]] Hd Ed; [rewrite (H0 Ed)|rewrite (H1 Ed)|lia]; reflexivity.
  - intros [|[|d]] l c Hd Ed Hl Hc; [rewrite (H0 Ed)|rewrite (H1 Ed)|lia]; reflexivity.
  - intros [|[|d]] Hd Ed; [rewrite (H0 Ed)|rewrite (H1 Ed)|lia]; reflexivity.
Qed.

(** The hypotheses of C91_separates, with different numbers of samples. *)
Example C91_separates_ex : forall md nrm, exists f f' g solve bits k,
  (forall a b, gp_init (sep_Xs a b) (sep_Ys a b) nrm (GNum 0) (GNum 10) (GNum 2%nat) (Some md) (Some f) = Ok (g a b)) /\
  (forall a b, gp_ready (g a b) (GNum 0) (GNum 10) (GNum 2%nat)) /\ (forall a b, gp_f (g a b) = f') /\ proper f' /\ uncorrelated f' (Nat.eqb 1) /\
  (forall a, same_data (Nat.eqb 1) (GNum 0) (GNum 10) (GNum 2%nat) (g a true) (g a false)) /\
  (forall b, same_data (fun d => negb (Nat.eqb 1 d)) (GNum 0) (GNum 10) (GNum 2%nat) (g true b) (g false b)) /\
  (forall a b, fitted (solve a b) (bits a b) 1 (g a b) (k a b)) /\
  (forall a b, exact_solver (n_obs (g a b)) (K_fit (g a b)) (solve a b)) /\
  n_obs (g true true) = 4%nat /\ n_obs (g false true) = 5%nat /\ n_obs (g true false) = 5%nat /\ n_obs (g false false) = 6%nat.
Proof.
  intros md nrm. destruct dep_three as [f [f' (_ & T & U)]].
  pose proof (two_models f f' nrm md (th_reach _ _ T) (th_ok _ _ T) (th_D _ _ T) (th_set _ _ T) (th_active _ _ T) (th_P _ _ T)) as M.
  assert (C : forall a b, exists g solve bits k, gp_init (sep_Xs a b) (sep_Ys a b) nrm (GNum 0) (GNum 10) (GNum 2%nat) (Some md) (Some f) = Ok g /\
    gp_ready g (GNum 0) (GNum 10) (GNum 2%nat) /\ gp_f g = f' /\ gp_mode g = md /\ gp_data g = multi_of 1 (sep_Xs a b) (sep_Ys a b) nrm /\
    exact_solver (n_obs g) (K_fit g) solve /\ fitted solve bits 1 g k).
  { intros a b. destruct (M _ _ (sep_good a b)) as [g (E & HR & F & Mo & G)]. assert (Hp : proper (gp_f g)) by (rewrite F; exact (th_proper _ _ T)).
    destruct (fit_exists g _ _ _ HR Hp) as [solve [bits [k [Hs Hf]]]]. exists g, solve, bits, k. tauto. }
  destruct (C true true) as (g1 & s1 & b1 & k1 & I1 & R1 & F1 & M1 & G1 & S1 & T1). destruct (C true false) as (g2 & s2 & b2 & k2 & I2 & R2 & F2 & M2 & G2 & S2 & T2).
  destruct (C false true) as (g3 & s3 & b3 & k3 & I3 & R3 & F3 & M3 & G3 & S3 & T3). destruct (C false false) as (g4 & s4 & b4 & k4 & I4 & R4 & F4 & M4 & G4 & S4 & T4).
  set (pick := fun A (x1 x2 x3 x4 : A) (a b : bool) => if a then if b then x1 else x2 else if b then x3 else x4).
  exists f, f', (pick _ g1 g2 g3 g4), (pick _ s1 s2 s3 s4), (pick _ b1 b2 b3 b4), (pick _ k1 k2 k3 k4).
  split; [intros [] []; assumption|]. split; [intros [] []; assumption|]. split; [intros [] []; assumption|]. split; [exact (th_proper _ _ T)|]. split; [exact U|].
  split. { intros [].
    - apply (sep_same _ f' nrm _ _ true true true false (th_D' _ _ T)); try assumption; [cbn; congruence|discriminate|reflexivity].
    - apply (sep_same _ f' nrm _ _ false true false false (th_D' _ _ T)); try assumption; [cbn; congruence|discriminate|reflexivity]. }
  split. { intros [].
    - apply (sep_same _ f' nrm _ _ true true false true (th_D' _ _ T)); try assumption; [cbn; congruence|reflexivity|discriminate].
    - apply (sep_same _ f' nrm _ _ true false false false (th_D' _ _ T)); try assumption; [cbn; congruence|reflexivity|discriminate]. }
  split; [intros [] []; assumption|]. split; [intros [] []; assumption|].
  unfold n_obs. cbn [pick]. rewrite G1, G2, G3, G4. destruct nrm; repeat split; reflexivity.
Qed.
