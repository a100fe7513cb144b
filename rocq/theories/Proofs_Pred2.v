(** Prediction: interpolation weights and means. *)

From Coq Require Import Reals List Arith ZArith Lia Lra.
From Verif Require Import Base NDArray PSD Model_Util Proofs_Util Spec_Util Model_Linalg Spec_Linalg Proofs_Linalg Model_Interp Spec_Interp
  Proofs_Sparse Proofs_Interp Proofs_Interp2 Proofs_Bicubic Proofs_Assemble Proofs_Autogrid Properties_Interp Model_Kern Spec_Kern Proofs_Kern Model_FK Spec_FK Proofs_FK
  Model_Grid Spec_Grid Proofs_Grid Proofs_Grid2 Model_Lik Spec_Lik Proofs_Lik Proofs_Lik2 Proofs_Lik7 Spec_GP Proofs_Gen Proofs_Gen2 Model_GP Spec_Pred
  Proofs_Pred.
Import ListNotations.
Open Scope R_scope.

(** ** Weights *)

(** The description of an axis. *)
Definition desc (v : vec) : nat * R * R := (length v, vget v 0, vget v 1 - vget v 0).

Lemma desc_axes l : Forall axis_ok l -> map desc (axes_of l) = l.
Proof.
  induction 1 as [|[[m a] h] l [H1 H2] _ IH]; [reflexivity|]. cbn [fst snd] in *. unfold axes_of in *. cbn [map fst snd]. rewrite IH.
  f_equal. unfold desc. rewrite equispaced_length, equispaced_0, equispaced_1 by lia. f_equal. ring.
Qed.

(** The weight of grid point [u] at [x]. *)
Definition wt (g : gp) (ad : dims) (x : nat -> R) (u : nat) : R :=
  wN (map desc (ag_axes (grid_at (gp_grids g) ad))) (proj ad x) u.

Lemma div_block m o u : (u < m)%nat -> ((o * m + u) / m = o)%nat.
Proof. intros H. rewrite Nat.div_add_l, (Nat.div_small u) by lia. lia. Qed.
Lemma mod_block m o u : (u < m)%nat -> ((o * m + u) mod m = u)%nat.
Proof. intros H. rewrite Nat.add_comm, Nat.mod_add, Nat.mod_small by lia. reflexivity. Qed.

(** Picking one block out of a blocked sum. *)
Lemma Rsum_block D m o (F G : nat -> R) : (o < D)%nat ->
  Rsum (D * m) (fun U => (if Nat.eqb (U / m) o then F (U mod m)%nat else 0) * G U) = Rsum m (fun u => F u * G (o * m + u)%nat).
Proof.
  intros Ho. rewrite Rsum_flatten.
  rewrite (Rsum_ext D _ (fun a => if Nat.eqb a o then Rsum m (fun u => F u * G (a * m + u)%nat) else 0)).
  - now rewrite (Rsum_delta D o (fun a => Rsum m (fun u => F u * G (a * m + u)%nat))).
  - intros a Ha. destruct (Nat.eqb_spec a o) as [->|Hne].
    + apply Rsum_ext. intros u Hu. rewrite div_block, mod_block by exact Hu. now rewrite Nat.eqb_refl.
    + apply Rsum_zero. intros u Hu. rewrite div_block by exact Hu. destruct (Nat.eqb_spec a o); [contradiction|ring].
Qed.

Section Model.
Variables (g : gp) (lo hi : grid_arg R) (m : grid_arg nat).
Hypothesis HR : gp_ready g lo hi m.
Let f := gp_f g.
Let P := mg_P (gp_data g).
Let Xs := mg_Xs (gp_data g).
Let Ys := mg_Ys (gp_data g).
Let lens := map (@length R) Ys.
Let n := nsum lens.

Lemma rd_ok : fk_ok f.
Proof. exact (reach_ok _ (gr_reach _ _ _ _ HR)). Qed.
Lemma rd_P : f_P f = Some P.
Proof. exact (da_P _ _ _ _ _ _ _ (gr_data _ _ _ _ HR)). Qed.
Lemma rd_Pp : (0 < P)%nat.
Proof. exact (da_Pp _ _ _ _ _ _ _ (gr_data _ _ _ _ HR)). Qed.
Lemma rd_D : length lens = f_D f.
Proof. exact (da_D _ _ _ _ _ _ _ (gr_data _ _ _ _ HR)). Qed.
Lemma rd_n : (0 < n)%nat.
Proof. exact (da_n f P Xs lens lo hi m rd_ok (gr_data _ _ _ _ HR)). Qed.

Lemma rd_grid ad : group f ad <> [] -> dict_get (gp_grids g) ad = Ok (grid_at (gp_grids g) ad) /\
  exists l, group_grid f P Xs lens lo hi m ad (grid_at (gp_grids g) ad) l /\
    ag_axes (grid_at (gp_grids g) ad) = axes_of l /\ map desc (ag_axes (grid_at (gp_grids g) ad)) = l /\
    pts g ad = axes_points l /\ length l = length ad /\ (length l = 1 \/ length l = 2)%nat /\ Forall axis_ok l.
Proof.
  intros Had. destruct (grids_facts f P Xs lens lo hi m rd_ok (gr_data _ _ _ _ HR) (gp_grids g) (gr_grids _ _ _ _ HR) ad Had) as [E [l HL]].
  split; [exact E|]. exists l. split; [exact HL|].
  assert (EA : ag_axes (grid_at (gp_grids g) ad) = axes_of l) by (rewrite (gg_ag _ _ _ _ _ _ _ _ _ _ HL); reflexivity).
  split; [exact EA|]. pose proof (gg_ax _ _ _ _ _ _ _ _ _ _ HL) as Hax. split; [rewrite EA; now apply desc_axes|].
  split; [unfold pts, G_of; rewrite (gg_ag _ _ _ _ _ _ _ _ _ _ HL); reflexivity|].
  pose proof (proj1 (gg_enc _ _ _ _ _ _ _ _ _ _ HL)) as Hl.
  pose proof (ga_dims _ _ _ _ _ _ _ (da_args _ _ _ _ _ _ _ (gr_data _ _ _ _ HR) ad Had)) as Hd.
  split; [exact Hl|]. split; [lia|exact Hax].
Qed.

Lemma rd_pts ad : group f ad <> [] -> (0 < pts g ad)%nat.
Proof. intros Had. destruct (rd_grid ad Had) as [_ [l [_ [_ [_ [-> [_ [_ H]]]]]]]]. now apply axes_points_pos. Qed.

Lemma wt_obs ad i u : group f ad <> [] -> (i < n)%nat -> (u < f_D f * pts g ad)%nat ->
  sp_get (W_of (gp_grids g) ad) i u = if Nat.eqb (u / pts g ad) (owner lens i) then wt g ad (obs P Xs lens i) (u mod pts g ad) else 0.
Proof.
  intros Had Hi Hu. destruct (rd_grid ad Had) as [_ [l [HL [_ [E2 [E3 _]]]]]]. unfold wt. rewrite E2. rewrite E3 in *.
  exact (gg_get _ _ _ _ _ _ _ _ _ _ HL i u Hi Hu).
Qed.

Lemma wt_weights : weights g (wt g).
Proof.
  constructor.
  - intros ad i u Had. cbv zeta. intros Hi Hu. now apply wt_obs.
  - intros ad x z u Had Hxz. destruct (rd_grid ad Had) as [_ [l [_ [_ [E2 [_ [El _]]]]]]]. unfold wt. rewrite E2. apply wN_ext.
    intros p Hp. rewrite El in Hp. unfold proj. apply Hxz. now apply nth_In.
  - intros ad x Had. destruct (rd_grid ad Had) as [_ [l [_ [_ [E2 [E3 [El [Hl Hax]]]]]]]]. unfold wt. rewrite E2, E3. now apply wN_sum.
  - intros ad x u k Had Hu Hk Hx. destruct (rd_grid ad Had) as [_ [l [_ [E1 [E2 [E3 [El [Hl Hax]]]]]]]].
    unfold wt. rewrite E2. rewrite E1 in Hx. rewrite E3 in *.
    rewrite <- (wN_node l k u Hl Hax Hk Hu). apply wN_ext. intros p Hp. unfold proj. apply Hx. lia.
  - intros ad x u Had Hu axes Hx. destruct (rd_grid ad Had) as [_ [l [_ [E1 [E2 [E3 [El [Hl Hax]]]]]]]].
    assert (EA : axes = axes_of l) by exact E1. clearbody axes. subst axes.
    assert (EN : forall p, (p < length l)%nat -> let t := nth p l (0%nat, 0, 0) in
       nth p (axes_of l) [] = equispaced (fst (fst t)) (snd (fst t)) (snd t) /\ axis_ok t).
    { intros p Hp t. split.
      - unfold axes_of. rewrite (nth_indep _ [] (equispaced (fst (fst (0%nat, 0, 0))) (snd (fst (0%nat, 0, 0))) (snd (0%nat, 0, 0)))) by (now rewrite map_length).
        rewrite (map_nth (fun t => equispaced (fst (fst t)) (snd (fst t)) (snd t))). reflexivity.
      - rewrite Forall_forall in Hax. apply Hax. now apply nth_In. }
    unfold wt. rewrite E2, (wN_keys l (proj ad x) u Hl Hax); [|rewrite <- E3; exact Hu|].
    + rewrite El. f_equal. apply tab_ext. intros p Hp. rewrite <- El in Hp. destruct (EN p Hp) as [-> [H1 H2]].
      rewrite equispaced_0, equispaced_1 by lia. unfold proj. do 2 f_equal. ring.
    + intros p Hp. cbv zeta. destruct (EN p Hp) as [EQ [H1 H2]]. rewrite El in Hp. specialize (Hx p Hp). rewrite EQ in Hx.
      rewrite equispaced_length in Hx. rewrite equispaced_1 in Hx by lia. unfold equispaced in Hx. rewrite vget_tab in Hx by lia. exact Hx.
Qed.

(** ** Interpolation at requested points *)

Section Request.
Variables (Zs : list ndarr) (zl : list nat).
Hypothesis HZ : inputs P Zs zl.
Hypothesis HzD : length zl = f_D f.
Let t := nsum zl.

Lemma rq_W ad : group f ad <> [] -> exists Xa M, map_result (take_cols ad) Zs = Ok Xa /\
  multi_interpolant Xa (map np1 (ag_axes (grid_at (gp_grids g) ad))) = Ok M /\
  forall x, length x = (f_D f * pts g ad)%nat ->
    csr_dot M x = Ok (tab t (fun i => Rsum (pts g ad) (fun u => wt g ad (obs P Zs zl i) u * vget x (owner zl i * pts g ad + u)))).
Proof.
  intros Had. destruct (rd_grid ad Had) as [_ [l [_ [E1 [E2 [E3 [El [Hl Hax]]]]]]]].
  assert (Hrg : forall d, In d ad -> (d < P)%nat) by apply (ga_range _ _ _ _ _ _ _ (da_args _ _ _ _ _ _ _ (gr_data _ _ _ _ HR) ad Had)).
  destruct (take_cols_all ad Zs zl P HZ Hrg) as [Xa [EX [HX Hobs]]].
  assert (NX : Xa <> []).
  { intros E. rewrite E in HX. apply inputs_len in HX. pose proof (ok_D _ rd_ok). cbn in HX. lia. }
  rewrite <- El in HX, Hobs. destruct (multi_ok l Xa zl Hl Hax NX HX) as [M [EM [Mr [Mc [Wf MG]]]]].
  exists Xa, M. split; [exact EX|]. split; [rewrite E1; exact EM|]. intros x Hx.
  unfold csr_dot. rewrite Mc, HzD, Hx, E3, Nat.eqb_refl. f_equal.
  rewrite (list_as_tab 0 (csr_dot1 M x)). assert (Ln : length (csr_dot1 M x) = t) by (unfold csr_dot1; now rewrite tab_length, Mr).
  rewrite Ln. apply tab_ext. intros i Hi. fold (vget (csr_dot1 M x) i). rewrite csr_dot1_get by (auto; now rewrite Mr).
  destruct (owner_lt zl i Hi) as [Ho _]. rewrite HzD in Ho. rewrite Mc, HzD.
  rewrite (Rsum_ext _ _ (fun U => (if Nat.eqb (U / axes_points l) (owner zl i) then wt g ad (obs P Zs zl i) (U mod axes_points l)%nat else 0) * vget x U)).
  - rewrite (Rsum_block (f_D f) (axes_points l) (owner zl i) (wt g ad (obs P Zs zl i)) (vget x) Ho). reflexivity.
  - intros U HU. rewrite MG by (auto; now rewrite HzD). f_equal. destruct (Nat.eqb _ _); [|reflexivity].
    unfold wt. rewrite E2. apply wN_ext. intros p Hp. rewrite Hobs by (auto; lia). reflexivity.
Qed.

End Request.

(** ** The kernel of a fitted model *)

(** What [parameters_changed] leaves behind. *)
Lemma fitted_of solve bits n_it k old s : parameters_changed solve bits n_it g old = Ok (k, s) ->
  gen_grid_kernel f (grids_dists (gp_grids g)) (grids_interps (gp_grids g)) lens = Ok (al_K (gpk_lik k), gpk_grids k) /\
  solve (al_K (gpk_lik k)) (concat Ys) = Ok (sd_alpha (al_deriv (gpk_lik k))).
Proof.
  intros H. unfold parameters_changed in H. fold f Ys lens in H.
  apply bind_ok in H. destruct H as [[K gks] [E1 H]]. cbn in H. apply bind_ok in H. destruct H as [l [E2 H]].
  apply bind_ok in H. destruct H as [dg [E3 H]]. apply bind_ok in H. destruct H as [s' [E4 H]]. apply Ok_inj in H.
  injection H as <- <-. cbn [gpk_lik gpk_grids]. unfold approx_init in E2.
  apply bind_ok in E2. destruct E2 as [Kqs [_ E2]]. apply bind_ok in E2. destruct E2 as [ms [_ E2]].
  apply bind_ok in E2. destruct E2 as [d [Ed E2]]. apply bind_ok in E2. destruct E2 as [gr [_ E2]]. apply Ok_inj in E2. subst l.
  cbn [al_K al_deriv]. split; [exact E1|]. unfold sd_generate in Ed. cbn [map_result] in Ed.
  destruct (solve K (concat Ys)) as [a|e]; [|discriminate Ed]. cbn [bind] in Ed.
  apply bind_ok in Ed. destruct Ed as [sol [Es Ed]]. apply bind_ok in Es. destruct Es as [r [_ Es]]. apply Ok_inj in Es. subst sol.
  apply Ok_inj in Ed. subst d. reflexivity.
Qed.

(** The matrix on the grid for the dimensions [ad], in blocks. *)
Definition dd (ad : dims) (a u b v : nat) : R :=
  lsum (map (fun q => B_of f q a b * K_grid f (G_of (gp_grids g) ad) q u v) (group f ad))
  + (if surplus_b f ad then (if (Nat.eqb a b && Nat.eqb u v)%bool then 1 else 0) else 0).

Lemma block_eqb p a u b v : (u < p)%nat -> (v < p)%nat -> Nat.eqb (a * p + u) (b * p + v) = (Nat.eqb a b && Nat.eqb u v)%bool.
Proof.
  intros Hu Hv. destruct (Nat.eqb_spec (a * p + u) (b * p + v)) as [E|E].
  - assert (a = b) by (rewrite <- (div_block p a u Hu), E; now apply div_block).
    assert (u = v) by (rewrite <- (mod_block p a u Hu), E; now apply mod_block). subst. now rewrite !Nat.eqb_refl.
  - destruct (Nat.eqb_spec a b) as [->|]; [|reflexivity]. destruct (Nat.eqb_spec u v) as [->|]; [congruence|reflexivity].
Qed.

Variable k : gp_kernel.
Hypothesis HK : gen_grid_kernel f (grids_dists (gp_grids g)) (grids_interps (gp_grids g)) lens = Ok (al_K (gpk_lik k), gpk_grids k).

Let alpha := sd_alpha (al_deriv (gpk_lik k)).

Lemma kr_interp : forall ad, group f ad <> [] ->
  dict_get (grids_dists (gp_grids g)) ad = Ok (G_of (gp_grids g) ad) /\ dists_ok (G_of (gp_grids g) ad) /\
  dict_get (grids_interps (gp_grids g)) ad = Ok (W_of (gp_grids g) ad, sparse_of_csr (ag_WT (grid_at (gp_grids g) ad))) /\
  interp_ok n (f_D f * nprod (a_shape (G_of (gp_grids g) ad))) (W_of (gp_grids g) ad) (sparse_of_csr (ag_WT (grid_at (gp_grids g) ad))).
Proof. exact (grids_interp f P Xs lens lo hi m rd_ok (gr_data _ _ _ _ HR) (gp_grids g) (gr_grids _ _ _ _ HR)). Qed.

Lemma kr_op : represents (al_K (gpk_lik k)) (mk_den n n (K_op f (G_of (gp_grids g)) (W_of (gp_grids g)) lens)).
Proof.
  destruct (gen_K_op f P _ _ (G_of (gp_grids g)) (W_of (gp_grids g)) _ lens rd_ok rd_P rd_Pp (gr_kern _ _ _ _ HR) rd_D rd_n kr_interp)
    as [o [ks [E Ro]]]. rewrite HK in E. apply Ok_inj in E. injection E as -> _. exact Ro.
Qed.

Lemma kr_grids : map fst (gpk_grids k) = map fst (f_active f) /\
  forall ad, group f ad <> [] -> exists gk, dict_get (gpk_grids k) ad = Ok gk /\
    exists d, represents (gk_grid gk) d /\ d_r d = (f_D f * pts g ad)%nat /\ d_c d = (f_D f * pts g ad)%nat /\
      forall a u b v, (u < pts g ad)%nat -> (v < pts g ad)%nat ->
        d_f d (a * pts g ad + u) (b * pts g ad + v) = dd ad a u b v.
Proof.
  destruct (gen_ok f P _ _ lens (G_of (gp_grids g)) (W_of (gp_grids g)) _ rd_ok rd_P rd_Pp (gr_kern _ _ _ _ HR) rd_D rd_n kr_interp)
    as [o [ks [ds [E [Ek [F _]]]]]]. rewrite HK in E. apply Ok_inj in E. injection E as _ E. rewrite E. split; [exact Ek|].
  intros ad Had. assert (Hin : In ad (map fst ks)) by (rewrite Ek; now apply (keys_group f P rd_ok rd_P)).
  apply dict_key in Hin. destruct Hin as [gk Hgk]. exists gk. split; [exact Hgk|]. apply dict_get_in in Hgk.
  assert (X : exists d, grid_of f (G_of (gp_grids g)) ad d /\ represents (gk_grid gk) d).
  { clear - F Hgk. induction F as [|p d ks ds [H1 [H2 _]] F IH]; [destruct Hgk|]. destruct Hgk as [->|Hin]; [|auto].
    exists d. cbn [fst snd] in *. auto. }
  destruct X as [d [[D1 D2] Rd]]. exists d. split; [exact Rd|].
  destruct (surplus_b f ad) eqn:Es.
  - pose proof Es as Es'. apply surplus_b_ok in Es. rewrite (D2 Es). split; [reflexivity|]. split; [reflexivity|].
    intros a u b v Hu Hv. cbn [d_sum d_f map d_id K_UU]. unfold dd. rewrite Es'. fold (pts g ad).
    rewrite !div_block, !mod_block by assumption. rewrite block_eqb by assumption. cbn [lsum fold_right]. unfold lsum. ring.
  - assert (NS : ~ surplus f ad) by (intros C; apply surplus_b_ok in C; congruence). rewrite (D1 NS).
    split; [reflexivity|]. split; [reflexivity|]. intros a u b v Hu Hv. cbn [K_UU d_f]. unfold dd. rewrite Es. fold (pts g ad).
    rewrite !div_block, !mod_block by assumption. ring.
Qed.

(** [_grid_alpha] for one set of active dimensions. *)
Lemma kr_alpha : exists ga : dims -> vec,
  grid_alpha g k = Ok (map (fun ad => (ad, ga ad)) (map fst (f_active f))) /\
  forall ad, group f ad <> [] -> length (ga ad) = (f_D f * pts g ad)%nat /\
    forall a u, (a < f_D f)%nat -> (u < pts g ad)%nat ->
      vget (ga ad) (a * pts g ad + u) = Rsum n (fun j => Rsum (pts g ad) (fun v =>
        dd ad a u (owner lens j) v * wt g ad (obs P Xs lens j) v) * vget alpha j).
Proof.
  set (gk := fun ad => match dict_get (gpk_grids k) ad with Ok x => x | Err _ => mk_gk (al_K (gpk_lik k)) (al_K (gpk_lik k)) end).
  exists (fun ad => matvec (gk_grid (gk ad)) (sp_dot1 (sparse_of_csr (ag_WT (grid_at (gp_grids g) ad))) alpha)). split.
  - unfold grid_alpha. fold f. rewrite (map_result_all _ (fun ad => (ad, matvec (gk_grid (gk ad)) (sp_dot1 (sparse_of_csr (ag_WT (grid_at (gp_grids g) ad))) alpha)))); [reflexivity|].
    intros ad Had. apply (keys_group f P rd_ok rd_P) in Had. destruct (kr_interp ad Had) as [_ [_ [-> _]]]. cbn [bind].
    destruct (proj2 kr_grids ad Had) as [x [Ex _]]. rewrite Ex. cbn [bind snd]. unfold gk. rewrite Ex. reflexivity.
  - intros ad Had. destruct (proj2 kr_grids ad Had) as [x [Ex [d [Rd [Dr [Dc Df]]]]]]. unfold gk. rewrite Ex.
    destruct (kr_interp ad Had) as [_ [_ [_ [I1 I2 I3 I4 I5]]]]. fold (pts g ad) in *.
    set (WT := sparse_of_csr (ag_WT (grid_at (gp_grids g) ad))) in *.
    assert (Lv : length (sp_dot1 WT alpha) = d_c d) by (unfold sp_dot1; rewrite tab_length, Dc; exact I3).
    rewrite (rep_mv _ _ Rd) by exact Lv. unfold d_apply, mat_apply. rewrite tab_length, Dr. split; [reflexivity|].
    intros a u Ha Hu. rewrite vget_tab by nia. rewrite Dc, Rsum_flatten.
    transitivity (Rsum n (fun j => Rsum (f_D f) (fun b => Rsum (pts g ad) (fun v => dd ad a u b v * sp_get (W_of (gp_grids g) ad) j (b * pts g ad + v)%nat * vget alpha j)))).
    + rewrite (Rsum_swap n (f_D f)). apply Rsum_ext. intros b Hb. rewrite (Rsum_swap n). apply Rsum_ext. intros v Hv.
      rewrite Df by assumption. unfold sp_dot1. rewrite I3, vget_tab by nia. rewrite I4, <- Rsum_scal_l. apply Rsum_ext. intros j Hj.
      rewrite I5. ring.
    + apply Rsum_ext. intros j Hj. destruct (owner_lt lens j Hj) as [Ho _]. rewrite rd_D in Ho.
      rewrite <- Rsum_scal_r.
      rewrite (Rsum_ext (f_D f) _ (fun b => if Nat.eqb b (owner lens j) then Rsum (pts g ad) (fun v => dd ad a u b v * wt g ad (obs P Xs lens j) v * vget alpha j) else 0)).
      * now rewrite Rsum_delta.
      * intros b Hb. destruct (Nat.eqb_spec b (owner lens j)) as [E|E].
        -- apply Rsum_ext. intros v Hv. rewrite wt_obs by (auto; nia). rewrite div_block, mod_block by exact Hv.
           rewrite (proj2 (Nat.eqb_eq _ _) E). reflexivity.
        -- apply Rsum_zero. intros v Hv. rewrite wt_obs by (auto; nia). rewrite div_block by exact Hv.
           destruct (Nat.eqb_spec b (owner lens j)); [contradiction|ring].
Qed.

End Model.
