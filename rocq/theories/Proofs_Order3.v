(** Models whose data differ in order or size: their predictions. *)

From Coq Require Import Reals List Arith ZArith Lia Lra Permutation.
From Verif Require Import Base NDArray PSD Model_Util Proofs_Util Spec_Util Model_Linalg Spec_Linalg Proofs_Linalg Model_Interp Spec_Interp
  Proofs_Sparse Proofs_Interp Proofs_Interp2 Proofs_Autogrid Properties_Interp Model_Kern Spec_Kern Proofs_Kern Model_FK Spec_FK Proofs_FK Model_Grid Spec_Grid Proofs_Grid
  Proofs_Grid2 Det Proofs_Det Model_Lik Spec_Lik Proofs_Lik Proofs_Lik2 Proofs_Lik5 Proofs_Lik6 Proofs_Lik7 Properties_Lik Spec_GP Proofs_Gen Proofs_Gen2 Model_GP Spec_Pred
  Proofs_Pred2 Proofs_Pred3 Proofs_Pred4 Proofs_Init Proofs_Pred6 Proofs_Eig Proofs_Ski3 Spec_Order Proofs_Order Proofs_Order2.
Import ListNotations.
Open Scope R_scope.

Lemma zero_or n (x : nat -> R) : (exists i, (i < n)%nat /\ x i <> 0) \/ forall i, (i < n)%nat -> x i = 0.
Proof.
  induction n as [|n IH]; [right; intros; lia|]. destruct IH as [[i [Hi H]]|IH]; [left; exists i; split; [lia|exact H]|].
  destruct (Req_dec (x n) 0) as [E|E]; [|left; exists n; split; [lia|exact E]]. right. intros i Hi.
  destruct (Nat.eq_dec i n) as [->|]; [exact E|apply IH; lia].
Qed.

Lemma pd_psd n F : pos_definite n F -> psd n F.
Proof.
  intros H x. destruct (zero_or n x) as [E|E]; [apply Rlt_le, (H x E)|].
  unfold qf, bil. apply Req_le. symmetry. apply Rsum_zero. intros i Hi. apply Rsum_zero. intros j Hj. rewrite (E i Hi). ring.
Qed.

(** The explained variance as an inner product with a solution. *)
Section Forms.
Variables (g : gp) (lo hi : grid_arg R) (m : grid_arg nat) (solve : Mat -> vec -> result vec) (k : gp_kernel).
Hypothesis HR : gp_ready g lo hi m.
Let n := n_obs g.
Hypothesis He : solves_exactly n (K_fit g) (solve (al_K (gpk_lik k))).

Lemma sol_solves c : exists z, solves n (K_fit g) z c /\ forall i, (i < n)%nat -> vget (sol k solve (tab n c)) i = z i.
Proof.
  destruct (He (tab n c) (tab_length _ _)) as [z [Ez [_ Hz]]]. exists (vget z). split.
  - intros j Hj. rewrite Hz by exact Hj. now apply vget_tab.
  - intros i Hi. unfold sol. now rewrite Ez.
Qed.

Lemma fly_form a x : exists z, solves n (K_fit g) z (cross g a x) /\ explained_fly g k solve a x = Rsum n (fun l => cross g a x l * z l).
Proof.
  destruct (sol_solves (cross g a x)) as [z [H1 H2]]. exists z. split; [exact H1|]. unfold explained_fly. apply Rsum_ext. intros l Hl. f_equal. now apply H2.
Qed.

Lemma nu_form ad a u : exists z, solves n (K_fit g) z (gcov g ad a u) /\ nu_at g k solve ad a u = Rsum n (fun l => gcov g ad a u l * z l).
Proof.
  destruct (sol_solves (gcov g ad a u)) as [z [H1 H2]]. exists z. split; [exact H1|]. unfold nu_at. apply Rsum_ext. intros l Hl. f_equal. now apply H2.
Qed.

Lemma exact_form e a x : gp_dense g = Ok e -> pos_definite n (K_obs (gp_f g) (mg_P (gp_data g)) (mg_Xs (gp_data g)) (map (@length R) (mg_Ys (gp_data g)))) ->
  exists z, solves n (K_obs (gp_f g) (mg_P (gp_data g)) (mg_Xs (gp_data g)) (map (@length R) (mg_Ys (gp_data g)))) z (cross g a x) /\
    explained_exact g e a x = Rsum n (fun l => cross g a x l * z l).
Proof.
  intros Ee Hpd. destruct (dense_ok g lo hi m HR Hpd) as [e' [Ee' Re]]. rewrite Ee in Ee'. apply Ok_inj in Ee'. subst e'.
  eexists. split; [apply (er_potrs _ _ _ _ _ Re (cross g a x))|reflexivity].
Qed.
End Forms.

Lemma K_fit_sym g lo hi m : gp_ready g lo hi m -> sym (n_obs g) (K_fit g).
Proof. intros HR. exact (K_op_sym _ _ _ _ _ _ _ _ (rd_ok g lo hi m HR) (rd_P g lo hi m HR) (kr_interp g lo hi m HR)). Qed.

Lemma clip_mono x y : x <= y -> clip x <= clip y.
Proof. intros H. unfold clip. destruct (Rlt_dec x 0), (Rlt_dec y 0); lra. Qed.

Lemma both_full g lo hi m : gp_ready g lo hi m -> (forall q, (q < f_Q (gp_f g))%nat -> qdims (gp_f g) q = seq 0 (mg_P (gp_data g))) ->
  group (gp_f g) (seq 0 (mg_P (gp_data g))) <> [].
Proof.
  intros HR H. assert (Hok := rd_ok g lo hi m HR). assert (HP := rd_P g lo hi m HR).
  pose proof (ok_Q _ Hok) as HQ. rewrite <- (H 0%nat) by lia. apply (group_qdims _ _ Hok HP). lia.
Qed.

Section Both.
Variables (g g' : gp) (lo hi : grid_arg R) (m : grid_arg nat).
Hypothesis HR : gp_ready g lo hi m.
Hypothesis HR' : gp_ready g' lo hi m.
Hypothesis HC : comparable g g'.
Hypothesis Hp : proper (gp_f g).
Variable s : nat -> nat.
Hypothesis Hs : sends g g' s.
Hypothesis HW : within lo hi m g g'.
Variables (solve solve' : Mat -> vec -> result vec) (k k' : gp_kernel).
Hypothesis He : solves_exactly (n_obs g) (K_fit g) (solve (al_K (gpk_lik k))).
Hypothesis He' : solves_exactly (n_obs g') (K_fit g') (solve' (al_K (gpk_lik k'))).
Let f := gp_f g.
Let P := mg_P (gp_data g).
Let n := n_obs g.
Let n' := n_obs g'.
Let Ko := K_obs (gp_f g) (mg_P (gp_data g)) (mg_Xs (gp_data g)) (map (@length R) (mg_Ys (gp_data g))).
Let Ko' := K_obs (gp_f g') (mg_P (gp_data g')) (mg_Xs (gp_data g')) (map (@length R) (mg_Ys (gp_data g'))).

Lemma proper' : proper (gp_f g').
Proof. now rewrite (cp_f _ _ HC). Qed.

Lemma both_fit i j : (i < n)%nat -> (j < n)%nat -> K_fit g i j = K_fit g' (s i) (s j).
Proof. exact (two_K_fit g g' lo hi m HR HR' HC s Hs HW i j). Qed.

Lemma both_obs i j : (i < n)%nat -> (j < n)%nat -> Ko i j = Ko' (s i) (s j).
Proof.
  intros Hi Hj. unfold Ko, Ko'. rewrite (cp_f _ _ HC), (cp_P _ _ HC). exact (two_K_obs g g' lo hi m HR s Hs i j Hi Hj).
Qed.

Lemma both_cross a x j : (j < n)%nat -> cross g a x j = cross g' a x (s j).
Proof.
  intros Hj. unfold cross. rewrite (cp_f _ _ HC), (cp_P _ _ HC). exact (two_cross g g' lo hi m HR s Hs a x j Hj).
Qed.

Lemma both_dd ad a u b v : group f ad <> [] -> dd g' ad a u b v = dd g ad a u b v.
Proof. intros Had. unfold dd. rewrite (cp_f _ _ HC), (two_G g g' lo hi m HR HR' HC s Hs HW ad Had). reflexivity. Qed.

Lemma both_gcov ad a u j : group f ad <> [] -> (j < n)%nat -> gcov g ad a u j = gcov g' ad a u (s j).
Proof.
  intros Had Hj. unfold gcov. rewrite (two_pts g g' lo hi m HR HR' HC s Hs HW ad Had), (cp_P _ _ HC). apply Rsum_ext. intros v Hv.
  rewrite (se_own _ _ _ Hs) by exact Hj. rewrite both_dd by exact Had. f_equal. symmetry.
  apply (two_wt g g' lo hi m HR HR' HC s Hs HW ad); [exact Had|]. intros p Hp0. now apply (se_obs _ _ _ Hs).
Qed.

Lemma both_pts ad : group f ad <> [] -> pts g' ad = pts g ad.
Proof. exact (two_pts g g' lo hi m HR HR' HC s Hs HW ad). Qed.

Lemma both_wt ad x u : group f ad <> [] -> wt g' ad x u = wt g ad x u.
Proof. intros Had. apply (two_wt g g' lo hi m HR HR' HC s Hs HW ad); [exact Had|reflexivity]. Qed.

(** *** More data *)

Lemma more_fly a x : explained_fly g k solve a x <= explained_fly g' k' solve' a x.
Proof.
  destruct (fly_form g solve k He a x) as [z [Hz ->]]. destruct (fly_form g' solve' k' He' a x) as [z' [Hz' ->]].
  apply (sub_quad n n' s (K_fit g) (K_fit g') (se_inj _ _ _ Hs) both_fit (K_fit_sym g' lo hi m HR')); [|intros i Hi; now apply both_cross|exact Hz|exact Hz'].
  apply pd_psd, (K_fit_pd g' lo hi m HR'), proper'.
Qed.

Lemma more_exact e e' a x : gp_dense g = Ok e -> gp_dense g' = Ok e' -> explained_exact g e a x <= explained_exact g' e' a x.
Proof.
  intros E1 E2. pose proof (K_obs_pdR g lo hi m HR Hp) as P1. pose proof (K_obs_pdR g' lo hi m HR' proper') as P2.
  destruct (exact_form g lo hi m HR e a x E1 P1) as [z [Hz ->]]. destruct (exact_form g' lo hi m HR' e' a x E2 P2) as [z' [Hz' ->]].
  apply (sub_quad n n' s Ko Ko' (se_inj _ _ _ Hs) both_obs); [apply K_obs_sym|now apply pd_psd|intros i Hi; now apply both_cross|exact Hz|exact Hz'].
Qed.

Lemma more_nu ad a u : group f ad <> [] -> nu_at g k solve ad a u <= nu_at g' k' solve' ad a u.
Proof.
  intros Had. destruct (nu_form g solve k He ad a u) as [z [Hz ->]]. destruct (nu_form g' solve' k' He' ad a u) as [z' [Hz' ->]].
  apply (sub_quad n n' s (K_fit g) (K_fit g') (se_inj _ _ _ Hs) both_fit (K_fit_sym g' lo hi m HR')); [|intros i Hi; now apply both_gcov|exact Hz|exact Hz'].
  apply pd_psd, (K_fit_pd g' lo hi m HR'), proper'.
Qed.

Lemma more_pre a x : (forall q, (q < f_Q f)%nat -> qdims f q = seq 0 P) -> (forall u, (u < pts g (seq 0 P))%nat -> 0 <= wt g (seq 0 P) x u) ->
  explained_pre g k solve a x <= explained_pre g' k' solve' a x.
Proof.
  intros Hq Hw. pose proof (both_full g lo hi m HR Hq) as Had. unfold explained_pre. rewrite (cp_P _ _ HC). fold P. rewrite both_pts by exact Had.
  apply Rsum_le. intros u Hu. rewrite both_wt by exact Had. apply Rmult_le_compat_l; [now apply Hw|now apply more_nu].
Qed.

Lemma more_var a x :
  (gp_mode g = Precompute -> (forall q, (q < f_Q f)%nat -> qdims f q = seq 0 P) /\ forall u, (u < pts g (seq 0 P))%nat -> 0 <= wt g (seq 0 P) x u) ->
  var_at g' k' solve' a x <= var_at g k solve a x.
Proof.
  intros Hpre. unfold var_at. apply clip_mono. rewrite (cp_f _ _ HC). fold f. apply Rplus_le_compat_l, Ropp_le_contravar. unfold explained.
  rewrite (cp_mode _ _ HC). destruct (gp_mode g) eqn:EM.
  - apply more_fly.
  - destruct (Hpre eq_refl) as [H1 H2]. now apply more_pre.
  - destruct (dense_ok g lo hi m HR (K_obs_pdR g lo hi m HR Hp)) as [e [E1 _]].
    destruct (dense_ok g' lo hi m HR' (K_obs_pdR g' lo hi m HR' proper')) as [e' [E2 _]]. rewrite E1, E2. now apply more_exact.
Qed.

(** *** The same data in another order *)

Hypothesis En : n' = n.

Lemma inj_n : injects n n s.
Proof. pose proof (se_inj _ _ _ Hs) as H. fold n n' in H. now rewrite En in H. Qed.

Lemma fit_pivots : pivots n (K_fit g).
Proof. apply pos_definite_pivots; [exact (K_fit_sym g lo hi m HR)|exact (K_fit_pd g lo hi m HR Hp)]. Qed.

Lemma same_inner c c' z z' : (forall i, (i < n)%nat -> c i = c' (s i)) -> solves n (K_fit g) z c -> solves n' (K_fit g') z' c' ->
  forall h h', (forall i, (i < n)%nat -> h i = h' (s i)) -> Rsum n (fun i => h i * z i) = Rsum n' (fun i => h' i * z' i).
Proof.
  intros Hc Hz Hz' h h' Hh. rewrite En in Hz' |- *. exact (reorder_inner n s (K_fit g) (K_fit g') inj_n both_fit c c' z z' fit_pivots Hc Hz Hz' h h' Hh).
Qed.

Lemma same_fly a x : explained_fly g' k' solve' a x = explained_fly g k solve a x.
Proof.
  destruct (fly_form g solve k He a x) as [z [Hz ->]]. destruct (fly_form g' solve' k' He' a x) as [z' [Hz' ->]]. symmetry.
  apply (same_inner _ _ _ _ (both_cross a x) Hz Hz'). intros i Hi. now apply both_cross.
Qed.

Lemma same_exact e e' a x : gp_dense g = Ok e -> gp_dense g' = Ok e' -> explained_exact g' e' a x = explained_exact g e a x.
Proof.
  intros E1 E2. pose proof (K_obs_pdR g lo hi m HR Hp) as P1. pose proof (K_obs_pdR g' lo hi m HR' proper') as P2.
  destruct (exact_form g lo hi m HR e a x E1 P1) as [z [Hz ->]]. destruct (exact_form g' lo hi m HR' e' a x E2 P2) as [z' [Hz' ->]]. symmetry.
  fold Ko in Hz. fold Ko' in Hz'. fold n' in Hz' |- *. rewrite En in Hz' |- *.
  apply (reorder_inner n s Ko Ko' inj_n both_obs (cross g a x) (cross g' a x) z z'); try assumption; try (intros i Hi; now apply both_cross).
  apply pos_definite_pivots; [apply K_obs_sym|exact P1].
Qed.

Lemma same_nu ad a u : group f ad <> [] -> nu_at g' k' solve' ad a u = nu_at g k solve ad a u.
Proof.
  intros Had. destruct (nu_form g solve k He ad a u) as [z [Hz ->]]. destruct (nu_form g' solve' k' He' ad a u) as [z' [Hz' ->]]. symmetry.
  apply (same_inner _ _ _ _ (fun j Hj => both_gcov ad a u j Had Hj) Hz Hz'). intros i Hi. now apply both_gcov.
Qed.

Lemma same_var a x : (gp_mode g = Precompute -> forall q, (q < f_Q f)%nat -> qdims f q = seq 0 P) -> var_at g' k' solve' a x = var_at g k solve a x.
Proof.
  intros Hpre. unfold var_at. rewrite (cp_f _ _ HC). f_equal. f_equal. unfold explained. rewrite (cp_mode _ _ HC). destruct (gp_mode g) eqn:EM.
  - apply same_fly.
  - pose proof (both_full g lo hi m HR (Hpre eq_refl)) as Had. unfold explained_pre. rewrite (cp_P _ _ HC). fold P. rewrite both_pts by exact Had.
    apply Rsum_ext. intros u Hu. rewrite both_wt, same_nu by exact Had. reflexivity.
  - destruct (dense_ok g lo hi m HR (K_obs_pdR g lo hi m HR Hp)) as [e [E1 _]].
    destruct (dense_ok g' lo hi m HR' (K_obs_pdR g' lo hi m HR' proper')) as [e' [E2 _]]. rewrite E1, E2. now apply same_exact.
Qed.

Hypothesis Ha : solves n (K_fit g) (vget (sd_alpha (al_deriv (gpk_lik k)))) (y_obs g).
Hypothesis Ha' : solves n' (K_fit g') (vget (sd_alpha (al_deriv (gpk_lik k')))) (y_obs g').

Lemma same_mean a x : mean_at g' k' a x = mean_at g k a x.
Proof.
  symmetry. unfold mean_at.
  apply (same_inner (y_obs g) (y_obs g') _ _ (fun i Hi => eq_sym (se_y _ _ _ Hs i Hi)) Ha Ha'
    (fun j => ski_cov g (wt g) a x (owner _ j) (obs _ _ _ j) + ski_extra g (wt g) a x (owner _ j) (obs _ _ _ j))
    (fun j => ski_cov g' (wt g') a x (owner _ j) (obs _ _ _ j) + ski_extra g' (wt g') a x (owner _ j) (obs _ _ _ j))).
  intros i Hi. rewrite (se_own _ _ _ Hs) by exact Hi.
  destruct (two_ski g g' lo hi m HR HR' HC s Hs HW a x (owner (map (@length R) (mg_Ys (gp_data g))) i) (obs P (mg_Xs (gp_data g)) (map (@length R) (mg_Ys (gp_data g))) i)
    x (obs P (mg_Xs (gp_data g')) (map (@length R) (mg_Ys (gp_data g'))) (s i))) as [E1 E2].
  - reflexivity.
  - intros p Hp0. now apply (se_obs _ _ _ Hs).
  - rewrite (cp_P _ _ HC). fold P. rewrite E1, E2. reflexivity.
Qed.

Lemma same_det : det n' Ko' = det n Ko.
Proof.
  rewrite En. symmetry. apply (det_reorder n s Ko Ko' inj_n both_obs); [apply K_obs_sym|].
  rewrite <- En. exact (K_obs_pdR g' lo hi m HR' proper').
Qed.

Lemma same_quadratic : Rsum n' (fun i => y_obs g' i * vget (sd_alpha (al_deriv (gpk_lik k'))) i) = Rsum n (fun i => y_obs g i * vget (sd_alpha (al_deriv (gpk_lik k))) i).
Proof.
  symmetry. apply (same_inner (y_obs g) (y_obs g') _ _ (fun i Hi => eq_sym (se_y _ _ _ Hs i Hi)) Ha Ha'). intros i Hi. symmetry. now apply (se_y _ _ _ Hs).
Qed.

End Both.

(** ** From the data given to the constructor *)

Lemma samples_map P Xs (Ys : list ndarr) (nrm : bool) d :
  samples P (map pad1 Xs) (map (fun Y => if nrm then map (fun y => (y - np_mean (a_data Y)) / np_std (a_data Y)) (a_data Y) else a_data Y) Ys) d =
  let y := a_data (nth d Ys (mk_arr [] [])) in
  map (fun p => (fst p, if nrm then (snd p - np_mean y) / np_std y else snd p)) (samples P Xs (map a_data Ys) d).
Proof.
  cbv zeta. set (y := a_data (nth d Ys (mk_arr [] []))). unfold samples. set (F := fun Y : ndarr => if nrm then _ else _).
  assert (E1 : nth d (map F Ys) [] = F (nth d Ys (mk_arr [] []))).
  { assert (E0 : F (mk_arr [] []) = []) by (unfold F; destruct nrm; reflexivity). rewrite <- E0 at 1. apply map_nth. }
  assert (E2 : nth d (map a_data Ys) [] = y) by (exact (map_nth a_data Ys (mk_arr [] []) d)).
  unfold vec in *. rewrite E1, E2, map_tab. assert (EL : length (F (nth d Ys (mk_arr [] []))) = length y) by (unfold F, y; destruct nrm; [apply map_length|reflexivity]).
  rewrite EL. apply tab_ext. intros i Hi. cbn [fst snd]. f_equal.
  - apply tab_ext. intros p Hp. now rewrite point_pad.
  - unfold F. fold y. destruct nrm; [|reflexivity]. unfold vget. rewrite (nth_indep _ 0 ((0 - np_mean y) / np_std y)) by now rewrite map_length.
    apply (map_nth (fun v => (v - np_mean y) / np_std y)).
Qed.

Lemma samples_snd P Xs Ys d : map snd (samples P Xs Ys d) = nth d Ys [].
Proof. unfold samples. rewrite map_tab. cbn [snd]. symmetry. apply (list_as_tab 0). Qed.

Lemma norm_perm (y y' : vec) : Permutation y y' -> scale_by y = scale_by y'.
Proof.
  intros H. unfold scale_by, np_std, np_var. assert (E : np_mean y = np_mean y') by (unfold np_mean; now rewrite (lsum_perm _ _ H), (Permutation_length H)).
  rewrite E, (Permutation_length H). do 3 f_equal. apply lsum_perm, Permutation_map, H.
Qed.
