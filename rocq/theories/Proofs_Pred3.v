(** Prediction: the raw predictions of a fitted model. *)

From Coq Require Import Reals List Arith ZArith Lia Lra.
From Verif Require Import Base NDArray PSD Model_Util Proofs_Util Spec_Util Model_Linalg Spec_Linalg Proofs_Linalg Model_Interp Spec_Interp
  Proofs_Sparse Proofs_Interp Proofs_Interp2 Proofs_Bicubic Proofs_Assemble Proofs_Autogrid Properties_Interp Model_Kern Spec_Kern Proofs_Kern Model_FK Spec_FK Proofs_FK
  Model_Grid Spec_Grid Proofs_Grid Proofs_Grid2 Det Proofs_Det Model_Lik Spec_Lik Proofs_Lik Proofs_Lik2 Proofs_Lik7 Spec_GP Proofs_Gen Proofs_Gen2 Model_GP Spec_Pred
  Proofs_Lik3 Proofs_Lik5 Proofs_Lik6 Properties_Lik Proofs_Pred Proofs_Pred2.
Import ListNotations.
Open Scope R_scope.

(** ** Splitting by output *)

Lemma slice_tab {A} (d : A) b e l : (b <= e)%nat -> (e <= length l)%nat -> slice b e l = tab (e - b) (fun i => nth (b + i) l d).
Proof.
  intros H1 H2. rewrite (list_as_tab d (slice b e l)), slice_length by assumption. apply tab_ext. intros i Hi. now rewrite nth_slice.
Qed.

Lemma split_from {A} (d : A) : forall lens acc x l, length l = (acc + nsum (x :: lens))%nat ->
  np_split_from acc l (removelast (accumulate_from acc (x :: lens)))
  = tab (S (length lens)) (fun a => tab (nth a (x :: lens) 0%nat) (fun i => nth (acc + nsum (firstn a (x :: lens)) + i) l d)).
Proof.
  induction lens as [|y lens IH]; intros acc x l Hl.
  - cbn [length removelast accumulate_from np_split_from]. rewrite tab_S_l. cbn [nsum fold_right] in Hl. unfold nsum in Hl. cbn [fold_right] in Hl.
    rewrite (slice_tab d) by lia. unfold tab at 2. cbn [seq map]. f_equal.
    replace (length l - acc)%nat with x by lia. cbn [nth firstn nsum fold_right]. apply tab_ext. intros i Hi. f_equal. unfold nsum. cbn [fold_right]. lia.
  - cbn [accumulate_from]. cbn [removelast].
    change (np_split_from acc l ((acc + x)%nat :: removelast (accumulate_from (acc + x) (y :: lens))) =
            tab (S (S (length lens))) (fun a => tab (nth a (x :: y :: lens) 0%nat) (fun i => nth (acc + nsum (firstn a (x :: y :: lens)) + i) l d))).
    cbn [np_split_from]. rewrite tab_S_l. unfold nsum in Hl. cbn [fold_right] in Hl. fold (nsum lens) in Hl. f_equal.
    + rewrite (slice_tab d) by lia. replace (acc + x - acc)%nat with x by lia. cbn [nth firstn nsum fold_right]. apply tab_ext. intros i Hi.
      unfold nsum. cbn [fold_right]. f_equal. lia.
    + rewrite (IH (acc + x)%nat y l) by (unfold nsum; cbn [fold_right]; fold (nsum lens); lia).
      apply tab_ext. intros a Ha. cbn [nth firstn]. apply tab_ext. intros i Hi. unfold nsum. cbn [fold_right]. f_equal. lia.
Qed.

Lemma split_tab {A} (F : nat -> A) (lens : list nat) : lens <> [] ->
  np_split (tab (nsum lens) F) (removelast (accumulate lens))
  = tab (length lens) (fun a => tab (nth a lens 0%nat) (fun i => F (nsum (firstn a lens) + i)%nat)).
Proof.
  destruct lens as [|x lens]; [congruence|]. intros _. unfold np_split, accumulate.
  rewrite (split_from (F 0%nat)) by now rewrite tab_length. apply tab_ext. intros a Ha. apply tab_ext. intros i Hi.
  cbn [Nat.add]. rewrite nth_tab; [reflexivity|]. apply offset_lt; assumption.
Qed.

Lemma grids_keys f Xs lo hi m gr : generate_grids f Xs lo hi m = Ok gr -> map fst gr = map fst (f_active f).
Proof.
  intros H. apply map_result_inv in H. symmetry. revert H. generalize (map fst (f_active f)). intros l H.
  induction H as [|ad p l ps E _ IH]; [reflexivity|]. apply bind_ok in E. destruct E as [a [_ E]]. apply Ok_inj in E. subst p.
  cbn [map fst]. now rewrite IH.
Qed.

Section Predict.
Variables (g : gp) (lo hi : grid_arg R) (m : grid_arg nat).
Hypothesis HR : gp_ready g lo hi m.
Let f := gp_f g.
Let P := mg_P (gp_data g).
Let Xs := mg_Xs (gp_data g).
Let Ys := mg_Ys (gp_data g).
Let lens := map (@length R) Ys.
Let n := nsum lens.
Let keys := map fst (f_active f).
Variable k : gp_kernel.
Hypothesis HK : gen_grid_kernel f (grids_dists (gp_grids g)) (grids_interps (gp_grids g)) lens = Ok (al_K (gpk_lik k), gpk_grids k).
Let alpha := sd_alpha (al_deriv (gpk_lik k)).
Let Hok : fk_ok f := rd_ok g lo hi m HR.
Let HP : f_P f = Some P := rd_P g lo hi m HR.

(** Covariance between two interpolated points through the grid of [ad]. *)
Definition cov_ad (ad : dims) (a : nat) (x : nat -> R) (b : nat) (z : nat -> R) : R :=
  Rsum (pts g ad) (fun u => Rsum (pts g ad) (fun v => wt g ad x u * dd g ad a u b v * wt g ad z v)).

Lemma Rsum_lsum_swap {A} c (F : nat -> A -> R) l : Rsum c (fun i => lsum (map (F i) l)) = lsum (map (fun x => Rsum c (fun i => F i x)) l).
Proof.
  unfold lsum. induction l as [|x l IH]; cbn [map fold_right]; [apply Rsum_zero; reflexivity|]. rewrite Rsum_plus. now rewrite IH.
Qed.

Lemma cov_groups a x b z : lsum (map (fun ad => cov_ad ad a x b z) keys) = ski_cov g (wt g) a x b z + ski_extra g (wt g) a x b z.
Proof.
  unfold ski_cov, ski_extra. cbv zeta. fold f. fold keys.
  rewrite <- (sum_groups f P (fun ad q => B_of f q a b * Rsum (pts g ad) (fun u => Rsum (pts g ad) (fun v =>
    wt g ad x u * K_grid f (G_of (gp_grids g) ad) q u v * wt g ad z v))) Hok HP). fold keys.
  set (E := fun ad => if Nat.eqb a b then (if surplus_b f ad then Rsum (pts g ad) (fun u => wt g ad x u * wt g ad z u) else 0) else 0).
  transitivity (lsum (map (fun ad => lsum (map (fun q => B_of f q a b * Rsum (pts g ad) (fun u => Rsum (pts g ad) (fun v =>
    wt g ad x u * K_grid f (G_of (gp_grids g) ad) q u v * wt g ad z v))) (group f ad)) + E ad) keys)).
  - apply lsum_map_ext. intros ad _. unfold cov_ad, dd. fold f.
    transitivity (Rsum (pts g ad) (fun u => Rsum (pts g ad) (fun v =>
        lsum (map (fun q => B_of f q a b * (wt g ad x u * K_grid f (G_of (gp_grids g) ad) q u v * wt g ad z v)) (group f ad))))
      + Rsum (pts g ad) (fun u => Rsum (pts g ad) (fun v =>
          (if Nat.eqb a b then (if surplus_b f ad then wt g ad x u * (if Nat.eqb u v then wt g ad z v else 0) else 0) else 0)))).
    + rewrite <- Rsum_plus. apply Rsum_ext. intros u _. rewrite <- Rsum_plus. apply Rsum_ext. intros v _.
      rewrite (lsum_map_ext (fun q => B_of f q a b * (wt g ad x u * K_grid f (G_of (gp_grids g) ad) q u v * wt g ad z v)) (fun q => (wt g ad x u * wt g ad z v) * (B_of f q a b * K_grid f (G_of (gp_grids g) ad) q u v)) (group f ad))
        by (intros; ring). rewrite lsum_map_scal.
      destruct (surplus_b f ad), (Nat.eqb a b), (Nat.eqb u v); cbn [andb]; ring.
    + f_equal.
      * transitivity (Rsum (pts g ad) (fun u => lsum (map (fun q => Rsum (pts g ad) (fun v => B_of f q a b * (wt g ad x u * K_grid f (G_of (gp_grids g) ad) q u v * wt g ad z v))) (group f ad)))).
        { apply Rsum_ext. intros u _. apply Rsum_lsum_swap. }
        rewrite Rsum_lsum_swap. apply lsum_map_ext. intros q _. rewrite <- Rsum_scal_l. apply Rsum_ext. intros u _. now rewrite Rsum_scal_l.
      * unfold E. destruct (Nat.eqb a b); [|apply Rsum_zero; intros; now apply Rsum_zero].
        destruct (surplus_b f ad); [|apply Rsum_zero; intros; now apply Rsum_zero].
        apply Rsum_ext. intros u Hu. rewrite Rsum_scal_l. f_equal.
        rewrite (Rsum_ext _ _ (fun v => if Nat.eqb v u then wt g ad z v else 0)) by (intros v _; now rewrite Nat.eqb_sym).
        now rewrite Rsum_delta.
  - rewrite lsum_map_plus. f_equal. unfold E. destruct (Nat.eqb a b); [reflexivity|]. now apply lsum_map_zero.
Qed.

Section Request.
Variables (Zs : list ndarr) (zl : list nat).
Hypothesis HZ : inputs P Zs zl.
Hypothesis HzD : length zl = f_D f.
Let t := nsum zl.

(** The interpolation matrix at the requested points. *)
Definition Wreq (ad : dims) : csr :=
  match map_result (take_cols ad) Zs with
  | Ok Xa => match multi_interpolant Xa (map np1 (ag_axes (grid_at (gp_grids g) ad))) with Ok M => M | Err _ => csr_zero 0 0 end
  | Err _ => csr_zero 0 0
  end.

Lemma repeat_tab {A} (c : A) j : repeat c j = tab j (fun _ => c).
Proof. induction j as [|j IH]; [reflexivity|]. rewrite tab_S_l. cbn [repeat]. now rewrite IH. Qed.

Lemma fold_add {A} (h : A -> nat -> R) (v : A -> vec) l : (forall x, In x l -> v x = tab t (h x)) -> forall F,
  fold_left (fun acc x => let! m := acc in add_pass t m (v x)) l (Ok (tab t F)) = Ok (tab t (fun i => F i + lsum (map (fun x => h x i) l))).
Proof.
  induction l as [|x l IH]; intros Hv F; cbn [fold_left].
  - f_equal. apply tab_ext. intros i _. cbn. unfold lsum. cbn. ring.
  - cbn [bind]. rewrite (Hv x) by now left. unfold add_pass. rewrite tab_length, Nat.eqb_refl.
    replace (vadd (tab t F) (tab t (h x))) with (tab t (fun i => F i + h x i)).
    + rewrite IH by (intros y Hy; apply Hv; now right). f_equal. apply tab_ext. intros i _. unfold lsum. cbn [map fold_right]. ring.
    + symmetry. apply vadd_tab.
Qed.

(** The mean at a point. *)
Definition mean_at (a : nat) (x : nat -> R) : R :=
  Rsum n (fun j => (ski_cov g (wt g) a x (owner lens j) (obs P Xs lens j) + ski_extra g (wt g) a x (owner lens j) (obs P Xs lens j)) * vget alpha j).

Lemma Ws_mean : exists ga Ws, grid_alpha g k = Ok ga /\
  map_result (fun p =>
      let! Xa := map_result (take_cols (fst p)) Zs in
      let! ag := dict_get (gp_grids g) (fst p) in
      let! W := multi_interpolant Xa (map np1 (ag_axes ag)) in
      let! d := csr_dot W (snd p) in
      Ok (fst p, W, d)) ga = Ok Ws /\
  map fst Ws = map (fun ad => (ad, Wreq ad)) keys /\
  fold_left (fun acc x => let! m := acc in add_pass t m (snd x)) Ws (Ok (repeat 0 t)) = Ok (tab t (fun i => mean_at (owner zl i) (obs P Zs zl i))).
Proof.
  destruct (kr_alpha g lo hi m HR k HK) as [ga [E1 E2]]. fold f keys in E1.
  exists (map (fun ad => (ad, ga ad)) keys).
  set (val := fun (ad : dims) i => Rsum (pts g ad) (fun u => wt g ad (obs P Zs zl i) u * vget (ga ad) (owner zl i * pts g ad + u))).
  exists (map (fun ad => (ad, Wreq ad, tab t (val ad))) keys).
  assert (HG : forall ad, In ad keys -> group f ad <> []) by (intros ad; apply (keys_group f P Hok HP)).
  split; [exact E1|]. split; [|split].
  - rewrite map_result_map. apply map_result_all. intros ad Had. specialize (HG ad Had). cbn [fst snd].
    destruct (rq_W g lo hi m HR Zs zl HZ HzD ad HG) as [Xa [M [EX [EM HM]]]]. rewrite EX. cbn [bind].
    rewrite (proj1 (rd_grid g lo hi m HR ad HG)). cbn [bind]. rewrite EM. cbn [bind].
    rewrite HM by apply (E2 ad HG). cbn [bind]. unfold Wreq. rewrite EX, EM. reflexivity.
  - rewrite map_map. reflexivity.
  - replace (repeat 0 t) with (tab t (fun _ => 0)) by (symmetry; apply repeat_tab).
    rewrite (fold_add (fun x i => val (fst (fst x)) i) snd).
    + f_equal. apply tab_ext. intros i Hi. rewrite Rplus_0_l, map_map. cbn [fst]. unfold mean_at.
      destruct (owner_lt zl i Hi) as [Ho _]. rewrite HzD in Ho.
      transitivity (Rsum n (fun j => lsum (map (fun ad => cov_ad ad (owner zl i) (obs P Zs zl i) (owner lens j) (obs P Xs lens j) * vget alpha j) keys))).
      * rewrite Rsum_lsum_swap. apply lsum_map_ext. intros ad Had. specialize (HG ad Had). unfold val, cov_ad.
        transitivity (Rsum (pts g ad) (fun u => Rsum n (fun j => Rsum (pts g ad) (fun v => wt g ad (obs P Zs zl i) u * dd g ad (owner zl i) u (owner lens j) v * wt g ad (obs P Xs lens j) v) * vget alpha j))).
        -- apply Rsum_ext. intros u Hu. rewrite (proj2 (E2 ad HG)) by assumption. fold lens n alpha. rewrite <- Rsum_scal_l.
           apply Rsum_ext. intros j Hj. rewrite <- !Rsum_scal_r, <- Rsum_scal_l. apply Rsum_ext. intros v Hv. fold Xs P Ys lens. ring.
        -- rewrite (Rsum_swap (pts g ad) n). apply Rsum_ext. intros j Hj. now rewrite Rsum_scal_r.
      * apply Rsum_ext. intros j Hj. rewrite <- cov_groups. rewrite Rmult_comm, <- lsum_map_scal. apply lsum_map_ext. intros ad _. ring.
    + intros x Hx. apply in_map_iff in Hx. destruct Hx as [ad [<- _]]. reflexivity.
Qed.

(** ** The three ways to compute the explained variance *)

(** Covariance of a point and the [j]-th observation. *)
Definition cross (a : nat) (x : nat -> R) (j : nat) : R := lmc_cov f a x (owner lens j) (obs P Xs lens j).

Lemma dims_range : dims_in_range f P.
Proof.
  intros q p Hq Hp. assert (G : group f (qdims f q) <> []) by (apply (group_qdims f P Hok HP q Hq)).
  exact (ga_range _ _ _ _ _ _ _ (da_args _ _ _ _ _ _ _ (gr_data _ _ _ _ HR) _ G) p Hp).
Qed.

Lemma cross_ok : exists o, kernel_from_indices Zs Xs f = Ok o /\ dense t n o (fun i j => cross (owner zl i) (obs P Zs zl i) j).
Proof.
  destruct (kernel_from_indices_ok f P Zs Xs zl lens Hok HP (rd_Pp g lo hi m HR) (gr_kern _ _ _ _ HR) dims_range HZ
    (da_in _ _ _ _ _ _ _ (gr_data _ _ _ _ HR)) HzD (rd_D g lo hi m HR)) as [o [E D]]. exists o. split; [exact E|exact D].
Qed.

Lemma diag_product_ok o F (B : mx) (S : nat -> nat -> R) : dense t n o F -> (forall i l, (i < t)%nat -> (l < n)%nat -> mget B l i = S i l) ->
  diag_of_product t n (a_data o) B = tab t (fun i => Rsum n (fun l => F i l * S i l)).
Proof.
  intros [_ [_ D]] HB. unfold diag_of_product. apply tab_ext. intros i Hi. apply Rsum_ext. intros l Hl. rewrite D, HB by assumption. reflexivity.
Qed.

Definition explained_exact (e : exact_lik) (a : nat) (x : nat -> R) : R :=
  Rsum n (fun l => cross a x l * potrs n (mget (el_L e)) (cross a x) l).

Lemma exact_ok e : gp_dense g = Ok e -> is_mx n n (el_L e) ->
  var_exact g Zs = Ok (tab t (fun i => explained_exact e (owner zl i) (obs P Zs zl i))).
Proof.
  intros Ee HL. unfold var_exact. rewrite Ee. cbn [bind]. destruct cross_ok as [o [Eo D]]. fold Xs f. rewrite Eo. cbn [bind].
  unfold array_rows. rewrite (proj1 D). cbn [bind fst snd]. unfold cho_solve_mat. rewrite (proj1 HL).
  assert (LT : length (np_T n (arr_rows t n (a_data o))) = n) by (unfold np_T; apply length_mk). rewrite LT, Nat.eqb_refl. cbn [bind].
  f_equal. unfold explained_exact. apply diag_product_ok with (1 := D).
  intros i l Hi Hl. rewrite mget_mk by assumption. apply potrs_ext; [intros ? ? ? ?; reflexivity| |exact Hl].
  intros r Hr. unfold np_T. rewrite mget_mk by (auto; unfold arr_rows; now rewrite length_mk).
  unfold arr_rows. rewrite mget_mk by assumption. apply D; assumption.
Qed.

Variable solve : Mat -> vec -> result vec.
Let solK := solve (al_K (gpk_lik k)).
Hypothesis Hsolve : forall b, length b = n -> exists x, solK b = Ok x /\ length x = n.

Definition sol (b : vec) : vec := match solK b with Ok x => x | Err _ => [] end.
Lemma sol_ok b : length b = n -> solK b = Ok (sol b) /\ length (sol b) = n.
Proof. intros H. unfold sol. destruct (Hsolve b H) as [x [-> Hx]]. auto. Qed.

Definition explained_fly (a : nat) (x : nat -> R) : R :=
  Rsum n (fun l => cross a x l * vget (sol (tab n (cross a x))) l).

Lemma fly_ok : (0 < t)%nat -> var_on_the_fly solve g k Zs = Ok (tab t (fun i => explained_fly (owner zl i) (obs P Zs zl i))).
Proof.
  intros Ht. unfold var_on_the_fly. destruct cross_ok as [o [Eo D]]. fold Xs f. rewrite Eo. cbn [bind].
  unfold array_rows. rewrite (proj1 D). cbn [bind fst snd]. fold solK.
  assert (ER : arr_rows t n (a_data o) = tab t (fun i => tab n (cross (owner zl i) (obs P Zs zl i)))).
  { unfold arr_rows, mk. apply tab_ext. intros i Hi. apply tab_ext. intros j Hj. now apply D. }
  rewrite ER. unfold tab at 1. rewrite map_result_map. unfold vec in *.
  rewrite (map_result_all _ (fun i => sol (tab n (cross (owner zl i) (obs P Zs zl i)))))
    by (intros i _; apply sol_ok; apply tab_length).
  cbn [bind]. destruct (Nat.eqb_spec t 0) as [E|_]; [lia|].
  rewrite (proj2 (forallb_forall _ _)). 2:{ intros v Hv. apply in_map_iff in Hv. destruct Hv as [i [<- _]]. apply Nat.eqb_eq. apply sol_ok. apply tab_length. }
  cbn [negb]. f_equal. unfold explained_fly. apply diag_product_ok with (1 := D). intros i l Hi Hl.
  fold (tab t (fun i => sol (tab n (cross (owner zl i) (obs P Zs zl i))))). unfold np_T.
  rewrite mget_mk by (auto; now rewrite tab_length). unfold mget. rewrite nth_tab by exact Hi. reflexivity.
Qed.

(** *** Precomputed *)

Lemma dd_sym ad a u b v : dd g ad a u b v = dd g ad b v a u.
Proof.
  unfold dd. fold f. f_equal.
  - apply lsum_map_ext. intros q _. rewrite B_of_sym. f_equal. apply bttb_entry_sym.
  - rewrite (Nat.eqb_sym a b), (Nat.eqb_sym u v). reflexivity.
Qed.

(** Covariance of grid point [u] of output [a] and the [j]-th observation. *)
Definition gcov (ad : dims) (a u j : nat) : R :=
  Rsum (pts g ad) (fun v => dd g ad a u (owner lens j) v * wt g ad (obs P Xs lens j) v).

Definition nu_at (ad : dims) (a u : nat) : R :=
  Rsum n (fun j => gcov ad a u j * vget (sol (tab n (gcov ad a u))) j).

Definition dW (ad : dims) : den := mk_den n (f_D f * pts g ad) (sp_get (W_of (gp_grids g) ad)).
Definition dWT (ad : dims) : den := mk_den (f_D f * pts g ad) n (fun U j => sp_get (W_of (gp_grids g) ad) j U).

Lemma gcov_sum ad (d : den) a u j : group f ad <> [] -> d_c d = (f_D f * pts g ad)%nat ->
  (forall a u b v, (u < pts g ad)%nat -> (v < pts g ad)%nat -> d_f d (a * pts g ad + u) (b * pts g ad + v) = dd g ad a u b v) ->
  (u < pts g ad)%nat -> (j < n)%nat ->
  Rsum (d_c d) (fun U => d_f d (a * pts g ad + u) U * sp_get (W_of (gp_grids g) ad) j U) = gcov ad a u j.
Proof.
  intros Had Dc Df Hu Hj. rewrite Dc. destruct (owner_lt lens j Hj) as [Ho _]. rewrite (rd_D g lo hi m HR : length lens = _) in Ho.
  rewrite (Rsum_ext _ _ (fun U => (if Nat.eqb (U / pts g ad) (owner lens j) then wt g ad (obs P Xs lens j) (U mod pts g ad)%nat else 0) * d_f d (a * pts g ad + u) U)).
  - rewrite (Rsum_block (f_D f) (pts g ad) (owner lens j) (wt g ad (obs P Xs lens j)) (d_f d (a * pts g ad + u)) Ho).
    apply Rsum_ext. intros v Hv. rewrite Df by assumption. ring.
  - intros U HU. rewrite (wt_obs g lo hi m HR ad j U Had Hj HU). apply Rmult_comm.
Qed.

Lemma wrap_ok r c F mv : (0 < r)%nat -> (0 < c)%nat -> (forall x, length x = c -> mv x = d_apply (mk_den r c F) x) ->
  exists o, wrap (r, c) mv = Ok o /\ represents o (mk_den r c F).
Proof.
  intros Hr Hc H. assert (E : exists o, wrap (r, c) mv = Ok o).
  { unfold wrap. cbn [fst snd]. rewrite matrix_init_pos by assumption. cbn [bind]. eexists. reflexivity. }
  destruct E as [o E]. exists o. split; [exact E|]. exact (wrap_rep _ _ (mk_den r c F) o eq_refl H E).
Qed.

Lemma nu_ok : keys = [seq 0 P] ->
  precomputed_nu solve g k = Ok (tab (f_D f * pts g (seq 0 P)) (fun U => nu_at (seq 0 P) (U / pts g (seq 0 P)) (U mod pts g (seq 0 P)))).
Proof.
  intros Ek. set (ad := seq 0 P) in *.
  assert (Had : group f ad <> []) by (apply (keys_group f P Hok HP); fold keys; rewrite Ek; now left).
  pose proof (rd_pts g lo hi m HR ad Had) as Hp. pose proof (ok_D _ Hok) as HD. pose proof (rd_n g lo hi m HR : (0 < n)%nat) as Hn.
  destruct (kr_grids g lo hi m HR k HK) as [Eg Hg]. destruct (Hg ad Had) as [gk [Egk [d [Rd [Dr [Dc Df]]]]]].
  destruct (kr_interp g lo hi m HR ad Had) as [_ [_ [EW [I1 I2 I3 I4 I5]]]]. fold (pts g ad) in *. fold f in Dr, Dc, I2, I3. fold Ys lens n in I1, I4.
  unfold precomputed_nu. fold P. fold ad.
  assert (LI : length (grids_interps (gp_grids g)) = 1%nat).
  { transitivity (length (map fst (gp_grids g))); [unfold grids_interps; now rewrite !map_length|].
    rewrite (grids_keys _ _ _ _ _ _ (gr_grids _ _ _ _ HR)). fold f keys. now rewrite Ek. }
  rewrite LI. cbn [Nat.eqb negb]. rewrite EW. cbn [bind fst snd].
  assert (EG : exists p, gpk_grids k = [p] /\ snd p = gk).
  { fold f keys in Eg. rewrite Ek in Eg. destruct (gpk_grids k) as [|p [|? ?]]; try discriminate Eg. exists p. split; [reflexivity|].
    cbn in Eg. injection Eg as Eg. destruct p as [q v]. cbn in Eg. subst q. cbn in Egk.
    destruct (dims_eqb ad ad) eqn:E; [now apply Ok_inj in Egk|discriminate Egk]. }
  destruct EG as [p [-> Ep]]. cbn [bind]. rewrite Ep. rewrite I1, I2, I3, I4.
  destruct (wrap_ok n (f_D f * pts g ad) (sp_get (W_of (gp_grids g) ad)) (sp_dot1 (W_of (gp_grids g) ad))) as [w [Ew Rw]]; [exact Hn|nia| |].
  { intros x Hx. unfold sp_dot1, d_apply, mat_apply. cbn [d_r d_c d_f]. now rewrite I1, I2. }
  rewrite Ew. cbn [bind].
  destruct (composition_ok [w; gk_grid gk] [dW ad; d]) as [XU [EXU RXU]]; [constructor; [assumption|constructor; [assumption|constructor]]|discriminate|cbn; split; [now rewrite Dr|exact I]|].
  rewrite EXU. cbn [bind].
  destruct (wrap_ok (f_D f * pts g ad) n (fun U j => sp_get (W_of (gp_grids g) ad) j U) (sp_dot1 (sparse_of_csr (ag_WT (grid_at (gp_grids g) ad))))) as [wT [EwT RwT]]; [nia|exact Hn| |].
  { intros x Hx. unfold sp_dot1, d_apply, mat_apply. cbn [d_r d_c d_f]. rewrite I3, I4. apply tab_ext. intros i Hi. apply Rsum_ext. intros j Hj. now rewrite I5. }
  rewrite EwT. cbn [bind].
  destruct (composition_ok [gk_grid gk; wT] [d; dWT ad]) as [UX [EUX RUX]]; [constructor; [assumption|constructor; [assumption|constructor]]|discriminate|cbn; split; [now rewrite Dc|exact I]|].
  rewrite EUX. cbn [bind]. rewrite (rep_shape _ _ RXU). cbn [snd d_prod d_mul d_c]. rewrite Dc.
  unfold tab. apply map_result_all. intros U HU. apply in_seq in HU.
  set (a := (U / pts g ad)%nat). set (u := (U mod pts g ad)%nat).
  assert (Hu : (u < pts g ad)%nat) by (apply Nat.mod_upper_bound; lia).
  assert (EU : U = (a * pts g ad + u)%nat) by (unfold a, u; rewrite Nat.mul_comm; apply Nat.div_mod; lia).
  unfold var_solve. rewrite (rep_shape _ _ RXU). cbn [snd d_prod d_mul d_c]. rewrite Dc.
  rewrite (rep_mv _ _ RXU) by (cbn [d_prod d_mul d_c]; rewrite tab_length; now symmetry).
  match goal with |- context [solve _ ?v] => assert (EV : v = tab n (gcov ad a u)) end.
  { unfold d_apply, mat_apply. cbn [d_prod d_mul d_r d_c d_f dW]. apply tab_ext. intros j Hj. rewrite Dc.
    rewrite (Rsum_ext _ _ (fun V => Rsum (f_D f * pts g ad) (fun k0 => sp_get (W_of (gp_grids g) ad) j k0 * d_f d k0 V) * (if Nat.eqb V U then 1 else 0)))
      by (intros V HV; now rewrite vget_tab).
    rewrite (Rsum_ext _ _ (fun V => if Nat.eqb V U then Rsum (f_D f * pts g ad) (fun k0 => sp_get (W_of (gp_grids g) ad) j k0 * d_f d k0 V) else 0))
      by (intros V _; destruct (Nat.eqb V U); ring).
    rewrite Rsum_delta by lia. rewrite <- (gcov_sum ad d a u j Had Dc Df Hu Hj). rewrite Dc. apply Rsum_ext. intros V HV. rewrite Rmult_comm. f_equal.
    rewrite EU. rewrite (Nat.div_mod V (pts g ad)) by lia. rewrite (Nat.mul_comm (pts g ad)).
    assert (V mod pts g ad < pts g ad)%nat by (apply Nat.mod_upper_bound; lia).
    rewrite !Df by assumption. apply dd_sym. }
  rewrite EV. fold (solK (tab n (gcov ad a u))). destruct (sol_ok (tab n (gcov ad a u)) (tab_length _ _)) as [Es Ls]. rewrite Es. cbn [bind]. f_equal.
  rewrite (rep_mv _ _ RUX) by (cbn [d_prod d_mul d_c dWT]; exact Ls). unfold d_apply, mat_apply. cbn [d_prod d_mul d_r d_c d_f dWT].
  rewrite vget_tab by (rewrite Dr; lia). unfold nu_at. apply Rsum_ext. intros j Hj. f_equal. rewrite EU. now apply gcov_sum.
Qed.

Definition explained_pre (a : nat) (x : nat -> R) : R :=
  Rsum (pts g (seq 0 P)) (fun u => wt g (seq 0 P) x u * nu_at (seq 0 P) a u).

Lemma pre_ok : keys = [seq 0 P] ->
  var_precompute solve g k (map (fun ad => (ad, Wreq ad)) keys) = Ok (tab t (fun i => explained_pre (owner zl i) (obs P Zs zl i))).
Proof.
  intros Ek. unfold var_precompute. rewrite (nu_ok Ek). cbn [bind]. rewrite Ek. cbn [map length Nat.eqb negb].
  assert (Had : group f (seq 0 P) <> []) by (apply (keys_group f P Hok HP); fold keys; rewrite Ek; now left).
  destruct (rq_W g lo hi m HR Zs zl HZ HzD (seq 0 P) Had) as [Xa [M [EX [EM HM]]]]. unfold Wreq. rewrite EX, EM.
  rewrite HM by apply tab_length. f_equal. apply tab_ext. intros i Hi. unfold explained_pre. apply Rsum_ext. intros u Hu. f_equal.
  destruct (owner_lt zl i Hi) as [Ho _]. rewrite HzD in Ho. rewrite vget_tab by (fold f; nia). now rewrite div_block, mod_block.
Qed.

(** ** The predictions *)

Definition explained (a : nat) (x : nat -> R) : R :=
  match gp_mode g with
  | OnTheFly => explained_fly a x
  | Precompute => explained_pre a x
  | Exact => match gp_dense g with Ok e => explained_exact e a x | Err _ => 0 end
  end.

Definition clip (x : R) : R := if Rlt_dec x 0 then 0 else x.
Definition var_at (a : nat) (x : nat -> R) : R := clip (prior_var f a - explained a x).

(** The current mode can be used. *)
Definition mode_works : Prop :=
  match gp_mode g with
  | OnTheFly => (0 < t)%nat
  | Precompute => keys = [seq 0 P]
  | Exact => exists e, gp_dense g = Ok e /\ is_mx n n (el_L e)
  end.

Lemma np_repeat_tab (F : nat -> R) (cs : list nat) :
  np_repeat (tab (length cs) F) cs = tab (nsum cs) (fun i => F (owner cs i)).
Proof.
  revert F. induction cs as [|c cs IH]; intros F; [reflexivity|]. cbn [length]. rewrite tab_S_l. unfold np_repeat in *. cbn [combine map concat fst snd].
  rewrite IH. change (nsum (c :: cs)) with (c + nsum cs)%nat. rewrite tab_app, repeat_tab. f_equal.
  - apply tab_ext. intros i Hi. f_equal. cbn [owner]. destruct (Nat.ltb_spec i c); [reflexivity|lia].
  - apply tab_ext. intros i Hi. f_equal. cbn [owner]. destruct (Nat.ltb_spec (c + i) c); [lia|]. do 2 f_equal. lia.
Qed.

Lemma raw_ok : existsb (fun q => identity_based (kern_of f q)) (seq 0 (f_Q f)) = false -> mode_works ->
  raw_predict solve g k Zs = Ok
    (tab (f_D f) (fun a => tab (nth a zl 0%nat) (fun i => mean_at a (point P Zs a i))),
     tab (f_D f) (fun a => tab (nth a zl 0%nat) (fun i => var_at a (point P Zs a i)))).
Proof.
  intros Hid Hm. unfold raw_predict.
  assert (El : map_result np_len Zs = Ok zl).
  { revert HZ. clear. revert Zs. induction zl as [|c cs IH]; intros Zs HZ; inversion HZ as [|Z ? Zs' ? [E1 _] HZ' E]; subst; [reflexivity|].
    cbn [map_result]. unfold np_len at 1. rewrite E1. cbn [bind]. now rewrite (IH Zs' HZ'). }
  rewrite El. cbn [bind]. destruct Ws_mean as [ga [Ws [E1 [E2 [E3 E4]]]]]. rewrite E1. cbn [bind].
  fold f. rewrite (native_ok f P Hok HP (rd_Pp g lo hi m HR) (gr_kern _ _ _ _ HR)), Hid. cbn [bind]. rewrite E2. cbn [bind].
  fold t. rewrite E4. cbn [bind]. unfold repeat_counts. rewrite tab_length, HzD, Nat.eqb_refl. cbn [bind].
  rewrite E3. assert (Hz : zl <> []) by (intros E; pose proof (ok_D _ Hok) as HD; pose proof HzD as Hz; rewrite E in Hz; cbn in Hz; lia).
  assert (EX : (match gp_mode g with
                | OnTheFly => var_on_the_fly solve g k Zs
                | Precompute => var_precompute solve g k (map (fun ad => (ad, Wreq ad)) keys)
                | Exact => var_exact g Zs
                end) = Ok (tab t (fun i => explained (owner zl i) (obs P Zs zl i)))).
  { unfold mode_works in Hm. unfold explained. destruct (gp_mode g).
    - now apply fly_ok.
    - now apply pre_ok.
    - destruct Hm as [e [Ee HL]]. rewrite Ee. now apply exact_ok. }
  rewrite EX. cbn [bind].
  rewrite <- HzD. rewrite np_repeat_tab, !tab_length. fold t. rewrite Nat.eqb_refl. cbn [negb]. f_equal.
  rewrite (split_tab _ zl Hz).
  assert (EC : clip0 (vsub (tab t (fun i => prior_var f (owner zl i))) (tab t (fun i => explained (owner zl i) (obs P Zs zl i))))
               = tab t (fun i => var_at (owner zl i) (obs P Zs zl i))).
  { unfold clip0, vsub. rewrite combine_tab, !map_tab. reflexivity. }
  rewrite EC. rewrite (split_tab _ zl Hz).
  f_equal; apply tab_ext; intros a Ha; apply tab_ext; intros i Hi; unfold obs; destruct (owner_offset zl a i Ha Hi) as [-> ->]; reflexivity.
Qed.

End Request.
End Predict.
