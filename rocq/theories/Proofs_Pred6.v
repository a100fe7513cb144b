(** The covariance of a fitted model; un-normalised predictions. *)

From Coq Require Import Reals List Arith ZArith Lia Lra.
From Verif Require Import Base NDArray PSD Model_Util Proofs_Util Spec_Util Model_Linalg Spec_Linalg Proofs_Linalg Model_Interp Spec_Interp
  Proofs_Sparse Proofs_Interp Proofs_Interp2 Proofs_Bicubic Proofs_Assemble Proofs_Autogrid Properties_Interp Model_Kern Spec_Kern Proofs_Kern Proofs_KernPSD Model_FK Spec_FK Proofs_FK
  Properties_FK Model_Grid Spec_Grid Proofs_Grid Proofs_Grid2 Det Proofs_Det Model_Lik Spec_Lik Proofs_Lik Proofs_Lik2 Proofs_Lik3 Proofs_Lik5 Proofs_Lik6 Proofs_Lik7 Properties_Lik
  Properties_Lik2 Spec_GP Proofs_Gen Proofs_Gen2 Properties_Gen Model_GP Spec_Pred Proofs_Pred Proofs_Pred2 Proofs_Pred3 Proofs_Pred4 Proofs_Init Proofs_Pred5.
Import ListNotations.
Open Scope R_scope.

Section Fitted.
Variables (g : gp) (lo hi : grid_arg R) (m : grid_arg nat).
Hypothesis HR : gp_ready g lo hi m.
Let f := gp_f g.
Let P := mg_P (gp_data g).
Let Xs := mg_Xs (gp_data g).
Let Ys := mg_Ys (gp_data g).
Let lens := map (@length R) Ys.
Let n := nsum lens.
Let Hok : fk_ok f := rd_ok g lo hi m HR.
Let HP : f_P f = Some P := rd_P g lo hi m HR.

Lemma fit_rep solve bits n_it k : fitted solve bits n_it g k -> represents (al_K (gpk_lik k)) (mk_den n n (K_fit g)).
Proof.
  intros [old [s Hf]]. destruct (fitted_of g _ _ _ _ _ _ Hf) as [HK _].
  destruct (gen_K_op f P _ _ (G_of (gp_grids g)) (W_of (gp_grids g)) _ lens Hok HP (rd_Pp g lo hi m HR) (gr_kern _ _ _ _ HR)
     (rd_D g lo hi m HR) (rd_n g lo hi m HR) (kr_interp g lo hi m HR)) as [Ko [gks [EK RK]]].
  fold f Ys lens in HK. rewrite EK in HK. apply Ok_inj in HK. injection HK as <- _. exact RK.
Qed.

Lemma concat_len : length (concat Ys) = n.
Proof. unfold n, lens. induction Ys as [|y l IH]; [reflexivity|]. cbn [concat map]. rewrite app_length, IH. reflexivity. Qed.

Lemma fit_solver solve bits n_it k : fitted solve bits n_it g k -> exact_solver n (K_fit g) solve ->
  solves_exactly n (K_fit g) (solve (al_K (gpk_lik k))) /\ returns n (solve (al_K (gpk_lik k))) /\
  solves n (K_fit g) (vget (sd_alpha (al_deriv (gpk_lik k)))) (y_obs g).
Proof.
  intros Hf Hs. pose proof (Hs _ (fit_rep _ _ _ _ Hf)) as H. split; [exact H|]. split.
  - intros b Hb. destruct (H b Hb) as [x [E [L _]]]. eauto.
  - destruct Hf as [old [s Hf]]. destruct (fitted_of g _ _ _ _ _ _ Hf) as [_ EA].
    destruct (H (concat Ys) concat_len) as [x [E [_ S]]]. assert (Ex : x = sd_alpha (al_deriv (gpk_lik k))).
    { apply Ok_inj. rewrite <- E. exact EA. }
    rewrite <- Ex. exact S.
Qed.

(** The covariance in terms of the weights. *)
Lemma K_fit_weights i j : (i < n)%nat -> (j < n)%nat ->
  K_fit g i j = ski_cov g (wt g) (owner lens i) (obs P Xs lens i) (owner lens j) (obs P Xs lens j)
              + ski_extra g (wt g) (owner lens i) (obs P Xs lens i) (owner lens j) (obs P Xs lens j)
              + (if Nat.eqb i j then vget (f_noise f) (owner lens i) else 0).
Proof.
  intros Hi Hj. destruct (owner_lt lens i Hi) as [Oi _]. destruct (owner_lt lens j Hj) as [Oj _].
  rewrite (rd_D g lo hi m HR : length lens = _) in Oi, Oj. fold f in Oi, Oj.
  unfold K_fit, K_op, K_ski. fold f Ys lens.
  assert (E1 : Rsum (f_Q f) (fun q => ski_entry (W_of (gp_grids g) (qdims f q)) (f_D f) (nprod (a_shape (G_of (gp_grids g) (qdims f q)))) (B_of f q)
      (K_grid f (G_of (gp_grids g) (qdims f q)) q) i j) = ski_cov g (wt g) (owner lens i) (obs P Xs lens i) (owner lens j) (obs P Xs lens j)).
  { unfold ski_cov. cbv zeta. fold f. apply Rsum_ext. intros q Hq. destruct (group_qdims f P Hok HP q Hq) as [_ Had]. set (ad := qdims f q) in *.
    fold (pts g ad). pose proof (rd_pts g lo hi m HR ad Had) as Hp. unfold ski_entry.
    rewrite (Rsum_ext _ _ (fun u => (if Nat.eqb (u / pts g ad) (owner lens i) then wt g ad (obs P Xs lens i) (u mod pts g ad)%nat else 0) *
       Rsum (f_D f * pts g ad) (fun v => (if Nat.eqb (v / pts g ad) (owner lens j) then wt g ad (obs P Xs lens j) (v mod pts g ad)%nat else 0) *
          (B_of f q (u / pts g ad) (v / pts g ad) * K_grid f (G_of (gp_grids g) ad) q (u mod pts g ad) (v mod pts g ad))))).
    - rewrite (Rsum_block (f_D f) (pts g ad) (owner lens i) (wt g ad (obs P Xs lens i)) _ Oi). rewrite <- Rsum_scal_l. apply Rsum_ext. intros u Hu.
      rewrite (Rsum_block (f_D f) (pts g ad) (owner lens j) (wt g ad (obs P Xs lens j)) _ Oj). rewrite <- !Rsum_scal_l. apply Rsum_ext. intros v Hv.
      rewrite !div_block, !mod_block by assumption. ring.
    - intros u Hu. rewrite <- Rsum_scal_l. apply Rsum_ext. intros v Hv.
      rewrite (wt_obs g lo hi m HR ad i u Had Hi Hu), (wt_obs g lo hi m HR ad j v Had Hj Hv). fold P Xs Ys lens.
      match goal with |- ?a * ?b * ?c = ?a' * (?c' * ?b') => change (a * b * c = a * (c * b)); ring end. }
  rewrite E1. assert (E2 : spurious f (G_of (gp_grids g)) (W_of (gp_grids g)) i j
      = ski_extra g (wt g) (owner lens i) (obs P Xs lens i) (owner lens j) (obs P Xs lens j)).
  { unfold spurious, ski_extra. fold f.
    transitivity (lsum (map (fun ad => if Nat.eqb (owner lens i) (owner lens j) then (if surplus_b f ad then Rsum (pts g ad) (fun u =>
       wt g ad (obs P Xs lens i) u * wt g ad (obs P Xs lens j) u) else 0) else 0) (map fst (f_active f)))).
    2:{ destruct (Nat.eqb _ _); [reflexivity|]. apply lsum_map_zero. reflexivity. }
    apply lsum_map_ext. intros ad Had. apply (keys_group f P Hok HP) in Had. pose proof (rd_pts g lo hi m HR ad Had) as Hp. fold (pts g ad).
    destruct (surplus_b f ad); [|destruct (Nat.eqb _ _); reflexivity].
    rewrite (Rsum_ext _ _ (fun u => (if Nat.eqb (u / pts g ad) (owner lens i) then wt g ad (obs P Xs lens i) (u mod pts g ad)%nat else 0) *
       (if Nat.eqb (u / pts g ad) (owner lens j) then wt g ad (obs P Xs lens j) (u mod pts g ad)%nat else 0))).
    - rewrite (Rsum_block (f_D f) (pts g ad) (owner lens i) (wt g ad (obs P Xs lens i)) _ Oi).
      destruct (Nat.eqb (owner lens i) (owner lens j)) eqn:EO.
      + apply Rsum_ext. intros u Hu. rewrite div_block, mod_block, EO by assumption. reflexivity.
      + apply Rsum_zero. intros u Hu. rewrite div_block, EO by assumption. ring.
    - intros u Hu. rewrite (wt_obs g lo hi m HR ad i u Had Hi Hu), (wt_obs g lo hi m HR ad j u Had Hj Hu). reflexivity. }
  rewrite E2. ring.
Qed.

(** No superfluous identities. *)
Lemma no_extra w a x b z : (forall ad, group f ad <> [] -> ~ surplus f ad) -> ski_extra g w a x b z = 0.
Proof.
  intros HS. unfold ski_extra. fold f. destruct (Nat.eqb a b); [|reflexivity]. apply lsum_map_zero. intros ad Had. apply (keys_group f P Hok HP) in Had.
  destruct (surplus_b f ad) eqn:E; [|reflexivity]. apply surplus_b_ok in E. now apply HS in Had.
Qed.

Lemma on_grid_pts i : on_grid f P Xs lens (gp_grids g) -> (i < n)%nat -> pt_on_grid g (obs P Xs lens i).
Proof.
  intros OG Hi ad Had. destruct (OG ad i Had Hi) as [c [Hc H]]. exists c. split; [|exact H].
  destruct (rd_grid g lo hi m HR ad Had) as [_ [l [_ [E1 [_ [E3 [El [Hl Hax]]]]]]]]. rewrite E3. rewrite E1 in Hc.
  rewrite cart_length, axes_lengths in Hc. exact Hc.
Qed.

Lemma K_fit_on_grid i j : on_grid f P Xs lens (gp_grids g) -> (forall ad, group f ad <> [] -> ~ surplus f ad) ->
  (i < n)%nat -> (j < n)%nat -> K_fit g i j = K_obs f P Xs lens i j.
Proof.
  intros OG HS Hi Hj. rewrite K_fit_weights by assumption. rewrite no_extra by exact HS.
  rewrite (ski_on_grid g lo hi m HR _ _ _ _ (on_grid_pts i OG Hi) (on_grid_pts j OG Hj)). unfold K_obs. fold f. ring.
Qed.

End Fitted.

(** ** Splitting *)

Lemma in_slice {A} b e (l : list A) x : In x (slice b e l) -> In x l.
Proof.
  unfold slice. intros H. assert (H' : In x (skipn b l)).
  { rewrite <- (firstn_skipn (e - b) (skipn b l)). apply in_or_app. now left. }
  rewrite <- (firstn_skipn b l). apply in_or_app. now right.
Qed.

Lemma in_split {A} (l : list A) idxs : forall b v x, In v (np_split_from b l idxs) -> In x v -> In x l.
Proof.
  induction idxs as [|e idxs IH]; intros b v x [<-|H] Hx.
  - eapply in_slice, Hx.
  - destruct H.
  - eapply in_slice, Hx.
  - eapply IH; eassumption.
Qed.

Lemma split_length {A} (l : list A) idxs : forall b, length (np_split_from b l idxs) = S (length idxs).
Proof. induction idxs as [|e idxs IH]; intros b; [reflexivity|]. cbn [np_split_from length]. now rewrite IH. Qed.

Lemma raw_parts solve g k Zs mu var : raw_predict solve g k Zs = Ok (mu, var) ->
  length mu = length var /\ forall v x, In v var -> In x v -> 0 <= x.
Proof.
  unfold raw_predict. intros H.
  repeat (apply bind_ok in H; destruct H as [? [? H]]). destruct (negb _); [discriminate H|]. apply Ok_inj in H. injection H as <- <-.
  unfold np_split. split; [exact (eq_trans (split_length _ _ _) (eq_sym (split_length _ _ _)))|]. intros v y Hv Hy. pose proof (in_split _ _ _ _ _ Hv Hy) as Hv'. clear Hv. rename Hv' into Hv.
  unfold clip0 in Hv. apply in_map_iff in Hv. destruct Hv as [t [<- _]]. destruct (Rlt_dec t 0); lra.
Qed.

Lemma norm_parts solve g k Zs u mu var : gp_predict_norm solve g k Zs u = Ok (mu, var) ->
  exists mu0 var0, raw_predict solve g k Zs = Ok (mu0, var0) /\
    (mu, var) = match mg_norm (gp_data g), u with
                | Some norms, true => (map (fun nm => inverse_mean (fst nm) (snd nm)) (combine norms mu0),
                                       map (fun nv => inverse_variance (fst nv) (snd nv)) (combine norms var0))
                | _, _ => (mu0, var0)
                end.
Proof.
  unfold gp_predict_norm. intros H. destruct (negb _); [discriminate H|]. destruct (negb _); [discriminate H|].
  apply bind_ok in H. destruct H as [[mu0 var0] [E H]]. cbn in H. exists mu0, var0. split; [exact E|].
  destruct (mg_norm (gp_data g)); [destruct u|]; apply Ok_inj in H; now symmetry.
Qed.

Lemma combine_nth' {A B} (l : list A) (l' : list B) a b : forall i, (i < length l)%nat -> (i < length l')%nat ->
  nth i (combine l l') (a, b) = (nth i l a, nth i l' b).
Proof. revert l'. induction l as [|x l IH]; intros [|y l'] [|i] H1 H2; cbn in *; try lia; [reflexivity|]. apply IH; lia. Qed.

Lemma vget_map h (v : vec) i : (i < length v)%nat -> vget (map h v) i = h (vget v i).
Proof. intros H. unfold vget. rewrite (nth_indep _ 0 (h 0)) by (rewrite map_length; exact H). apply map_nth. Qed.
