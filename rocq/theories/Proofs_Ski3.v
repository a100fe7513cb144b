(** The effect of structured kernel interpolation on fits and predictions; the
    spacing of the grids. *)

From Coq Require Import Reals List Arith ZArith Lia Lra.
From Coquelicot Require Import Coquelicot.
From Verif Require Import Base NDArray PSD Model_Util Proofs_Util Spec_Util Model_Linalg Spec_Linalg Proofs_Linalg Model_Interp Spec_Interp
  Proofs_Sparse Proofs_Interp Proofs_Interp2 Proofs_Autogrid Properties_Interp Model_Kern Spec_Kern Proofs_Kern Model_FK Spec_FK Proofs_FK Model_Grid Spec_Grid Proofs_Grid
  Proofs_Grid2 Model_Lik Spec_Lik Proofs_Lik Proofs_Lik2 Proofs_Lik5 Proofs_Lik6 Proofs_Lik7 Spec_GP Proofs_Gen Proofs_Gen2 Model_GP Spec_Pred Proofs_Pred2 Proofs_Pred6
  Proofs_Eig Spec_Acc Proofs_Acc Spec_Ski Proofs_Ski Proofs_Ski2.
Import ListNotations.
Open Scope R_scope.

Lemma smooth_all k nd : positive k -> identity_based k = false -> (has_periodic k = true -> nd = 1%nat) -> smooth_kern k nd (smooth_const k).
Proof.
  induction k as [g|g|g T| |k IH s]; intros Hp Hi Hn; cbn [smooth_const].
  - apply smooth_rbf. apply Hp. now left.
  - apply smooth_matern. apply Hp. now left.
  - rewrite (Hn eq_refl). apply smooth_periodic; apply Hp; [now left|right; now left].
  - discriminate Hi.
  - apply smooth_scaled. apply IH; auto. intros v Hv. apply Hp. cbn [params]. apply in_or_app. now left.
Qed.

(** ** Perturbing a coercive system *)

Lemma norm2_le n u v : (forall i, (i < n)%nat -> Rabs (u i) <= v i) -> norm2 n u <= norm2 n v.
Proof.
  intros H. apply sqrt_le_1_alt. apply Rsum_le. intros i Hi. rewrite <- (pow2_abs (u i)). apply pow_incr. split; [apply Rabs_pos|auto].
Qed.

Lemma norm2_const n c : 0 <= c -> norm2 n (fun _ => c) = sqrt (INR n) * c.
Proof.
  intros Hc. unfold norm2. rewrite Rsum_const. rewrite sqrt_mult by (try apply pos_INR; apply pow2_ge_0).
  f_equal. rewrite <- (sqrt_Rsqr c) at 2 by exact Hc. f_equal. unfold Rsqr. ring.
Qed.

Lemma entries_op n (M : nat -> nat -> R) E v : 0 <= E -> (forall i j, (i < n)%nat -> (j < n)%nat -> Rabs (M i j) <= E) ->
  norm2 n (fun i => Rsum n (fun j => M i j * v j)) <= INR n * E * norm2 n v.
Proof.
  intros HE HM. assert (S : sqrt (INR n) * sqrt (INR n) = INR n) by (apply sqrt_sqrt, pos_INR).
  eapply Rle_trans; [apply (norm2_le n _ (fun _ => sqrt (INR n) * E * norm2 n v))|].
  - intros i Hi. eapply Rle_trans; [apply cauchy|]. apply Rmult_le_compat_r; [apply norm2_nonneg|].
    rewrite <- norm2_const by exact HE. apply norm2_le. intros j Hj. now apply HM.
  - rewrite norm2_const.
    + rewrite <- !Rmult_assoc, S. apply Rle_refl.
    + apply Rmult_le_pos; [apply Rmult_le_pos; [apply sqrt_pos|exact HE]|apply norm2_nonneg].
Qed.

Lemma perturbed n (K K' : nat -> nat -> R) s E y a a' : 0 < s -> (forall x, s * nrm2 n x <= qf n K x) -> (forall x, s * nrm2 n x <= qf n K' x) ->
  0 <= E -> (forall i j, (i < n)%nat -> (j < n)%nat -> Rabs (K i j - K' i j) <= E) ->
  (forall i, (i < n)%nat -> Rsum n (fun j => K i j * a j) = y i) -> (forall i, (i < n)%nat -> Rsum n (fun j => K' i j * a' j) = y i) ->
  norm2 n (fun i => a i - a' i) <= INR n * E * norm2 n y / s ^ 2.
Proof.
  intros Hs HK HK' HE HD Ha Ha'.
  pose proof (solution_size n K' s Hs HK' y a' Ha') as S'.
  assert (Hr : forall i, (i < n)%nat -> Rsum n (fun j => K i j * (a j - a' j)) = Rsum n (fun j => (K' i j - K i j) * a' j)).
  { intros i Hi. transitivity (Rsum n (fun j => K i j * a j) - Rsum n (fun j => K i j * a' j)).
    - rewrite <- Rsum_minus. apply Rsum_ext. intros. ring.
    - rewrite (Ha i Hi), <- (Ha' i Hi), <- Rsum_minus. apply Rsum_ext. intros. ring. }
  eapply Rle_trans; [exact (solution_size n K s Hs HK _ _ Hr)|].
  pose proof (entries_op n (fun i j => K' i j - K i j) E a' HE) as O. cbv beta in O.
  assert (O' : norm2 n (fun i => Rsum n (fun j => (K' i j - K i j) * a' j)) <= INR n * E * norm2 n a').
  { apply O. intros i j Hi Hj. rewrite Rabs_minus_sym. now apply HD. }
  apply Rmult_le_reg_r with s; [exact Hs|].
  replace (norm2 n (fun i => Rsum n (fun j => (K' i j - K i j) * a' j)) / s * s) with (norm2 n (fun i => Rsum n (fun j => (K' i j - K i j) * a' j))) by (field; lra).
  eapply Rle_trans; [exact O'|]. replace (INR n * E * norm2 n y / s ^ 2 * s) with (INR n * E * (norm2 n y / s)) by (field; lra).
  apply Rmult_le_compat_l; [apply Rmult_le_pos; [apply pos_INR|exact HE]|exact S'].
Qed.

(** ** The noise is a floor for the exact covariance too *)

Lemma K_obs_floor g lo hi m s : gp_ready g lo hi m -> proper (gp_f g) -> (forall a, (a < f_D (gp_f g))%nat -> s <= vget (f_noise (gp_f g)) a) ->
  forall x, s * nrm2 (n_obs g) x <= qf (n_obs g) (K_obs (gp_f g) (mg_P (gp_data g)) (mg_Xs (gp_data g)) (map (@length R) (mg_Ys (gp_data g)))) x.
Proof.
  intros HR [Hper Hdiag _] Hn x. set (f := gp_f g) in *. set (lens := map (@length R) (mg_Ys (gp_data g))). set (P := mg_P (gp_data g)).
  set (Xs := mg_Xs (gp_data g)). pose proof (rd_D g lo hi m HR) as HD. unfold n_obs. fold lens in HD |- *. fold f in HD.
  assert (H : 0 <= qf (nsum lens) (fun i j => lmc_cov f (owner lens i) (obs P Xs lens i) (owner lens j) (obs P Xs lens j)) x).
  { apply (lmc_psd f P Xs lens HD); auto. intros q Hq. apply (gr_kern _ _ _ _ HR q Hq). }
  change (s * nrm2 (nsum lens) x <= qf (nsum lens) (fun i j => lmc_cov f (owner lens i) (obs P Xs lens i) (owner lens j) (obs P Xs lens j)
      + (if Nat.eqb i j then vget (f_noise f) (owner lens i) else 0)) x).
  unfold qf in *. rewrite bil_plus. fold (qf (nsum lens) (fun i j => if Nat.eqb i j then vget (f_noise f) (owner lens i) else 0) x).
  rewrite (qf_diag (nsum lens) (fun i => vget (f_noise f) (owner lens i)) x).
  assert (s * nrm2 (nsum lens) x <= Rsum (nsum lens) (fun i => vget (f_noise f) (owner lens i) * (x i * x i))); [|lra].
  unfold nrm2. rewrite <- Rsum_scal_l. apply Rsum_le. intros i Hi. apply Rmult_le_compat_r; [nra|]. apply Hn. rewrite <- HD. now apply owner_lt.
Qed.

Lemma fit_err g lo hi m Bs : gp_ready g lo hi m -> (forall ad, group (gp_f g) ad <> [] -> ~ surplus (gp_f g) ad) ->
  (forall q, (q < f_Q (gp_f g))%nat -> smooth_kern (kern_of (gp_f g) q) (length (qdims (gp_f g) q)) (Bs q)) ->
  let lens := map (@length R) (mg_Ys (gp_data g)) in
  forall i j, (i < n_obs g)%nat -> (j < n_obs g)%nat ->
  Rabs (K_fit g i j - K_obs (gp_f g) (mg_P (gp_data g)) (mg_Xs (gp_data g)) lens i j) <= ski_error g Bs (owner lens i) (owner lens j).
Proof.
  intros HR HS Hk lens i j Hi Hj. rewrite (K_fit_weights g lo hi m HR) by assumption. rewrite (no_extra g lo hi m HR) by exact HS.
  unfold K_obs. fold lens.
  match goal with |- Rabs (?u + 0 + ?e - (?v + ?e)) <= _ => replace (u + 0 + e - (v + e)) with (u - v) by ring end.
  apply (ski_cov_err g lo hi m HR (wt g)); [exact (wt_weights g lo hi m HR)| | |exact Hk]; now apply (obs_inside g lo hi m HR).
Qed.

(** ** The spacing of the grids *)

Lemma fold_min_in l : forall a, In (fold_left Rmin l a) (a :: l).
Proof.
  induction l as [|x l IH]; intros a; [now left|]. cbn [fold_left]. destruct (IH (Rmin a x)) as [H|H].
  - rewrite <- H. unfold Rmin. destruct (Rle_dec a x); [now left|right; now left].
  - right. now right.
Qed.
Lemma np_min_in l : l <> [] -> In (np_min l) l.
Proof. destruct l as [|a l]; [congruence|]. intros _. apply fold_min_in. Qed.

Lemma extreme_in Xs P p : Xs <> [] -> (forall X, In X Xs -> (1 <= hd 0 (a_shape X))%nat) -> data_at Xs P p (lo_of Xs P p) /\ data_at Xs P p (hi_of Xs P p).
Proof.
  intros Hne Hs. assert (C : forall X, In X Xs -> arr_col P p X <> []).
  { intros X HX E. apply (f_equal (@length R)) in E. unfold arr_col in E. rewrite tab_length in E. specialize (Hs X HX). cbn in E. lia. }
  split.
  - unfold lo_of. assert (H : In (np_min (map (fun X => np_min (arr_col P p X)) Xs)) (map (fun X => np_min (arr_col P p X)) Xs)).
    { apply np_min_in. destruct Xs; [congruence|discriminate]. }
    apply in_map_iff in H. destruct H as [X [<- HX]]. pose proof (np_min_in _ (C X HX)) as H. unfold arr_col at 2 in H. apply in_tab in H.
    destruct H as [i [Hi E]]. exists X, i. auto.
  - unfold hi_of. assert (H : In (np_max (map (fun X => np_max (arr_col P p X)) Xs)) (map (fun X => np_max (arr_col P p X)) Xs)).
    { apply np_max_in. destruct Xs; [congruence|discriminate]. }
    apply in_map_iff in H. destruct H as [X [<- HX]]. pose proof (np_max_in _ (C X HX)) as H. unfold arr_col at 2 in H. apply in_tab in H.
    destruct H as [i [Hi E]]. exists X, i. auto.
Qed.

Lemma grid_spacing P Xs lens lo hi m ad a p :
  inputs P Xs lens -> lens <> [] -> (forall n, In n lens -> (1 <= n)%nat) -> grid_args_ok P Xs lens lo hi m ad -> generate_grid Xs lo hi m ad = Ok a ->
  (p < length ad)%nat ->
  let d := nth p ad 0%nat in let k := cells_for m lens d in
  exists x y, (coord P Xs lens d x \/ arg_at lo d = Some x) /\ (coord P Xs lens d y \/ arg_at hi d = Some y) /\
    (1 <= k)%nat /\
    (forall z, coord P Xs lens d z -> x <= z <= y) /\ (forall z, arg_at lo d = Some z -> x <= z) /\ (forall z, arg_at hi d = Some z -> z <= y) /\
    vget (nth p (ag_axes a) []) 1 - vget (nth p (ag_axes a) []) 0 = (y - x) * (INR k + 4) / (INR k * (INR k + 3)).
Proof.
  intros Hin Hne Hpos HA HG Hp d k. pose proof (inputs_len _ _ _ Hin) as HL.
  destruct (wrap_ok lo ad (ga_lo _ _ _ _ _ _ _ HA)) as [wlo [Elo Hlo]].
  destruct (wrap_ok hi ad (ga_hi _ _ _ _ _ _ _ HA)) as [whi [Ehi Hhi]].
  destruct (wrap_ok m ad (ga_m _ _ _ _ _ _ _ HA)) as [wm [Em Hm]].
  destruct (take_cols_all ad Xs lens P Hin (ga_range _ _ _ _ _ _ _ HA)) as [Xa [EX [HIa HO]]].
  pose proof (inputs_len _ _ _ HIa) as HLa.
  assert (HXne : Xa <> []) by (destruct Xa; [destruct lens; [congruence|discriminate]|discriminate]).
  assert (HC : forall x, data_at Xa (length ad) p x <-> coord P Xs lens d x).
  { intros x. rewrite (data_coord _ _ lens) by exact HIa. unfold coord.
    split; intros [i [Hi ->]]; exists i; (split; [exact Hi|]); rewrite HO by assumption; reflexivity. }
  unfold generate_grid in HG. rewrite Elo, Ehi, Em, EX in HG. cbn [bind] in HG.
  set (mm := match wm with None => MNone | Some l => MArray l end) in HG.
  assert (Hsh : forall X, In X Xa -> exists n, a_shape X = [n; length ad] /\ (1 <= n)%nat).
  { intros X HX. apply (In_nth _ _ (mk_arr [] [])) in HX. destruct HX as [b [Hb <-]].
    pose proof (Forall2_nth _ _ _ (mk_arr [] []) 0%nat b HIa Hb) as [S1 _]. exists (nth b lens 0%nat). split; [exact S1|]. apply Hpos, nth_In. lia. }
  destruct (autogrid_value Xa (length ad) wlo whi mm HXne Hsh) as [grids [m' [EG [LG [_ HV]]]]].
  { destruct wlo; [exact (proj1 Hlo)|exact I]. } { destruct whi; [exact (proj1 Hhi)|exact I]. }
  { unfold mm. destruct wm; [exact (proj1 Hm)|exact I]. }
  rewrite EG in HG. cbn [bind] in HG. apply bind_ok in HG. destruct HG as [ds [_ HG]]. apply bind_ok in HG. destruct HG as [W [_ HG]].
  apply Ok_inj in HG. subst a. cbn [ag_axes]. specialize (HV p Hp). cbv zeta in HV.
  assert (Ec : cells Xa mm p = k).
  { unfold mm, cells, k, cells_for. fold d. destruct wm as [l|].
    - destruct Hm as [_ Hm]. unfold d. now rewrite (Hm p 0%nat Hp).
    - rewrite Hm. rewrite HLa. f_equal. f_equal. clear - HIa. induction HIa as [|X n Xa lens [A B] _ IH]; [reflexivity|].
      cbn [map]. f_equal; [now rewrite A|exact IH]. }
  rewrite Ec in HV.
  assert (Hk : (1 <= k)%nat).
  { unfold k, cells_for. destruct (arg_at m d) as [c|] eqn:E.
    - apply (ga_pos _ _ _ _ _ _ _ HA d c); [now apply nth_In|exact E].
    - apply mean_ge_1; assumption. }
  assert (Hk0 : 0 < INR k) by (apply lt_0_INR; lia).
  destruct (extreme_in Xa (length ad) p HXne) as [D1 D2].
  { intros X HX. destruct (Hsh X HX) as [n [-> Hn]]. exact Hn. }
  set (x := match wlo with None => lo_of Xa (length ad) p | Some l => Rmin (vget l p) (lo_of Xa (length ad) p) end) in *.
  set (y := match whi with None => hi_of Xa (length ad) p | Some l => Rmax (vget l p) (hi_of Xa (length ad) p) end) in *.
  assert (X1 : coord P Xs lens d x \/ arg_at lo d = Some x).
  { unfold x. destruct wlo as [l|]; [|left; now apply HC]. unfold Rmin. destruct (Rle_dec (vget l p) (lo_of Xa (length ad) p)); [right|left; now apply HC].
    destruct Hlo as [_ Hlo]. exact (Hlo p 0 Hp). }
  assert (Y1 : coord P Xs lens d y \/ arg_at hi d = Some y).
  { unfold y. destruct whi as [l|]; [|left; now apply HC]. unfold Rmax. destruct (Rle_dec (vget l p) (hi_of Xa (length ad) p)); [left; now apply HC|right].
    destruct Hhi as [_ Hhi]. exact (Hhi p 0 Hp). }
  exists x, y. split; [exact X1|]. split; [exact Y1|]. split; [exact Hk|].
  assert (XL : x <= lo_of Xa (length ad) p) by (unfold x; destruct wlo; [apply Rmin_r|lra]).
  assert (YL : hi_of Xa (length ad) p <= y) by (unfold y; destruct whi; [apply Rmax_r|lra]).
  split. { intros z Hz. apply HC in Hz. apply data_bounds in Hz. lra. }
  split. { intros z Hz. destruct wlo as [l|]; [|rewrite Hlo in Hz; discriminate]. destruct Hlo as [_ Hlo]. unfold d in Hz. rewrite (Hlo p 0 Hp) in Hz. injection Hz as <-. apply Rmin_l. }
  split. { intros z Hz. destruct whi as [l|]; [|rewrite Hhi in Hz; discriminate]. destruct Hhi as [_ Hhi]. unfold d in Hz. rewrite (Hhi p 0 Hp) in Hz. injection Hz as <-. apply Rmax_l. }
  unfold vec in *. rewrite HV, linspace_equispaced by lia. rewrite equispaced_0, equispaced_1 by lia.
  replace (k + 4 - 1)%nat with (k + 3)%nat by lia. rewrite plus_INR. replace (INR 3) with 3 by (cbn; ring). fold x y. field. lra.
Qed.
