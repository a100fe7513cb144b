(** Prediction: what predict returns. *)

From Coq Require Import Reals List Arith ZArith Lia Lra.
From Verif Require Import Base NDArray PSD Model_Util Proofs_Util Spec_Util Model_Linalg Spec_Linalg Proofs_Linalg Model_Interp Spec_Interp
  Proofs_Sparse Proofs_Interp Proofs_Interp2 Proofs_Bicubic Proofs_Assemble Proofs_Autogrid Properties_Interp Model_Kern Spec_Kern Proofs_Kern Proofs_KernPSD Model_FK Spec_FK Proofs_FK
  Model_Grid Spec_Grid Proofs_Grid Proofs_Grid2 Det Proofs_Det Model_Lik Spec_Lik Proofs_Lik Proofs_Lik2 Proofs_Lik3 Proofs_Lik5 Proofs_Lik6 Proofs_Lik7 Properties_Lik
  Spec_GP Proofs_Gen Proofs_Gen2 Model_GP Spec_Pred Proofs_Pred Proofs_Pred2 Proofs_Pred3.
Import ListNotations.
Open Scope R_scope.

(** ** Requests *)

Lemma pad_ok P Zs zl : requests P Zs zl -> pad_dims P Zs = Ok (map pad1 Zs) /\ inputs P (map pad1 Zs) zl.
Proof.
  intros H. assert (HI : inputs P (map pad1 Zs) zl).
  { unfold inputs. induction H as [|Z c Zs zl [[E|[E ->]] Hl] _ IH]; cbn [map]; constructor; auto; unfold pad1; rewrite E; cbn; auto. }
  split; [|exact HI]. unfold pad_dims.
  assert (E : exists u, map_result (fun X => match nth_error (a_shape X) 1 with
                                 | None => Err IndexError
                                 | Some p => if Nat.eqb p P then Ok tt else Err ValueError
                                 end) (map pad1 Zs) = Ok u).
  { clear H. revert HI. generalize (map pad1 Zs). intros l HI. unfold inputs in HI. induction HI as [|Z c l zl [E _] _ [u IH]]; [eexists; reflexivity|].
    cbn [map_result]. rewrite E. change (nth_error [c; P] 1) with (Some P). cbv beta iota. rewrite Nat.eqb_refl. cbn [bind]. rewrite IH. eexists. reflexivity. }
  destruct E as [u ->]. reflexivity.
Qed.

Lemma point_pad P Zs a i : point P (map pad1 Zs) a i = point P Zs a i.
Proof.
  unfold point. assert (E : a_data (nth a (map pad1 Zs) (mk_arr [] [])) = a_data (nth a Zs (mk_arr [] []))); [|now rewrite E].
  change (mk_arr [] []) with (pad1 (mk_arr [] [])) at 1. rewrite map_nth. unfold pad1. destruct (a_shape _) as [|? [|? ?]]; reflexivity.
Qed.

Lemma forallb_inputs P Zs zl : inputs P Zs zl -> forallb (fun X => Nat.eqb (nth 1 (a_shape X) 0%nat) P) Zs = true.
Proof. induction 1 as [|Z c Zs zl [E _] _ IH]; [reflexivity|]. cbn [forallb]. rewrite E. cbn [nth]. now rewrite Nat.eqb_refl, IH. Qed.

Lemma no_identity_b f : no_identity f -> existsb (fun q => identity_based (kern_of f q)) (seq 0 (f_Q f)) = false.
Proof.
  intros H. destruct (existsb _ _) eqn:E; [|reflexivity]. apply existsb_exists in E. destruct E as [q [Hq E]]. apply in_seq in Hq.
  rewrite H in E by lia. discriminate E.
Qed.

Section Ready.
Variables (g : gp) (lo hi : grid_arg R) (m : grid_arg nat).
Hypothesis HR : gp_ready g lo hi m.
Let f := gp_f g.
Let P := mg_P (gp_data g).
Let Xs := mg_Xs (gp_data g).
Let Ys := mg_Ys (gp_data g).
Let lens := map (@length R) Ys.
Let n := nsum lens.
Let keys := map fst (f_active f).
Let Hok : fk_ok f := rd_ok g lo hi m HR.
Let HP : f_P f = Some P := rd_P g lo hi m HR.

Lemma dims_rangeR : dims_in_range f P.
Proof.
  intros q p Hq Hp. assert (G : group f (qdims f q) <> []) by (apply (group_qdims f P Hok HP q Hq)).
  exact (ga_range _ _ _ _ _ _ _ (da_args _ _ _ _ _ _ _ (gr_data _ _ _ _ HR) _ G) p Hp).
Qed.

Lemma dense_ok : pos_definite n (K_obs f P Xs lens) -> exists e, gp_dense g = Ok e /\ exact_rep f P Xs Ys e.
Proof.
  intros Hpd. unfold gp_dense.
  apply (proj1 (exact_init_ok f P Xs Ys Hok HP (rd_Pp g lo hi m HR) (gr_kern _ _ _ _ HR) dims_rangeR (da_in _ _ _ _ _ _ _ (gr_data _ _ _ _ HR))
    (eq_trans (eq_sym (map_length _ _)) (rd_D g lo hi m HR)))).
  apply pos_definite_pivots; [apply K_obs_sym|exact Hpd].
Qed.

(** All kernels on one set of dimensions. *)
Lemma keys_single ad : (forall q, (q < f_Q f)%nat -> qdims f q = ad) -> keys = [ad].
Proof.
  intros H. assert (HI : forall a, In a keys -> a = ad).
  { intros a Ha. apply (keys_group f P Hok HP) in Ha. destruct (group f a) as [|q l] eqn:E; [congruence|].
    assert (Hq : In q (group f a)) by (rewrite E; now left). unfold group in Hq. apply filter_In in Hq. destruct Hq as [Hq Ed].
    apply in_seq in Hq. specialize (H q ltac:(lia)). unfold qdims in H. destruct (dims_of f q) as [a'|]; [|discriminate Ed].
    destruct (list_eq_dec Nat.eq_dec a' a); [congruence|discriminate Ed]. }
  assert (HN : NoDup keys). { pose proof (ok_dims _ Hok) as DI. rewrite HP in DI. exact (do_nodup _ DI). }
  assert (H0 : In ad keys).
  { pose proof (ok_Q _ Hok) as HQ. rewrite <- (H 0%nat) by lia. apply (keys_group f P Hok HP). apply (group_qdims f P Hok HP). lia. }
  destruct keys as [|a [|b l]]; [destruct H0| |].
  - f_equal. apply HI. now left.
  - exfalso. inversion HN as [|? ? Hn _]; subst. apply Hn. rewrite (HI a (or_introl eq_refl)), <- (HI b) by (right; now left). now left.
Qed.

Variable k : gp_kernel.
Hypothesis HK : gen_grid_kernel f (grids_dists (gp_grids g)) (grids_interps (gp_grids g)) lens = Ok (al_K (gpk_lik k), gpk_grids k).
Variable solve : Mat -> vec -> result vec.
Hypothesis Hsolve : returns n (solve (al_K (gpk_lik k))).

Lemma predict_ok Zs zl : no_identity f -> mode_ready g -> requests P Zs zl -> length zl = f_D f ->
  (gp_mode g = OnTheFly -> (0 < nsum zl)%nat) ->
  gp_predict solve g k Zs = Ok
    (tab (f_D f) (fun a => tab (nth a zl 0%nat) (fun i => unnorm_mean g a (mean_at g k a (point P Zs a i)))),
     tab (f_D f) (fun a => tab (nth a zl 0%nat) (fun i => unnorm_var g a (var_at g k solve a (point P Zs a i))))).
Proof.
  intros Hid Hm HZ Hz Ht. destruct (pad_ok P Zs zl HZ) as [Ep Hin]. unfold gp_predict. fold P. rewrite Ep. cbn [bind].
  unfold gp_predict_norm. fold P. rewrite (gr_D _ _ _ _ HR). fold f. rewrite (inputs_len P _ _ Hin), Hz, Nat.eqb_refl. cbn [negb].
  rewrite (forallb_inputs P _ _ Hin). cbn [negb].
  assert (MW : mode_works g zl).
  { unfold mode_works. unfold mode_ready in Hm. destruct (gp_mode g) eqn:EM.
    - now apply Ht.
    - apply keys_single. exact Hm.
    - destruct (dense_ok Hm) as [e [Ee He]]. exists e. split; [exact Ee|]. apply (er_L _ _ _ _ _ He). }
  rewrite (raw_ok g lo hi m HR k HK (map pad1 Zs) zl Hin Hz solve Hsolve (no_identity_b _ Hid) MW). cbn [bind].
  fold f P. assert (EP : forall a i, point P (map pad1 Zs) a i = point P Zs a i) by (intros; apply point_pad).
  unfold unnorm_mean, unnorm_var. destruct (mg_norm (gp_data g)) as [l|] eqn:EN.
  - pose proof (gr_norm _ _ _ _ HR l EN) as Ll. fold f in Ll.
    rewrite (list_as_tab (mk_norm 0 1) l) at 1 2. rewrite Ll, !combine_tab, !map_tab. f_equal. f_equal; apply tab_ext; intros a Ha; cbn [fst snd].
    + unfold inverse_mean. rewrite map_tab. apply tab_ext. intros i Hi. now rewrite EP.
    + unfold inverse_variance. rewrite map_tab. apply tab_ext. intros i Hi. rewrite EP. ring.
  - f_equal. f_equal; apply tab_ext; intros a Ha; apply tab_ext; intros i Hi; now rewrite EP.
Qed.

(** *** Dependence on the coordinates *)

Lemma mean_ext a x z : (forall p, (p < P)%nat -> x p = z p) -> mean_at g k a x = mean_at g k a z.
Proof.
  intros H. unfold mean_at. apply Rsum_ext. intros j Hj. f_equal.
  assert (HW : forall ad u, group f ad <> [] -> wt g ad x u = wt g ad z u).
  { intros ad u Had. apply (we_ext _ _ (wt_weights g lo hi m HR)); [exact Had|]. intros p Hp. apply H.
    exact (ga_range _ _ _ _ _ _ _ (da_args _ _ _ _ _ _ _ (gr_data _ _ _ _ HR) ad Had) p Hp). }
  f_equal.
  - unfold ski_cov. cbv zeta. fold f. apply Rsum_ext. intros q Hq. f_equal. apply Rsum_ext. intros u Hu. apply Rsum_ext. intros v Hv.
    rewrite HW; [reflexivity|]. apply (group_qdims f P Hok HP q Hq).
  - unfold ski_extra. fold f. destruct (Nat.eqb _ _); [|reflexivity]. apply lsum_map_ext. intros ad Had.
    apply (keys_group f P Hok HP) in Had. destruct (surplus_b f ad); [|reflexivity]. apply Rsum_ext. intros u Hu. now rewrite HW.
Qed.

Lemma cross_ext a x z j : (forall p, (p < P)%nat -> x p = z p) -> cross g a x j = cross g a z j.
Proof.
  intros H. unfold cross, lmc_cov. fold f. apply Rsum_ext. intros q Hq. f_equal. f_equal. unfold dist_on. f_equal. apply lsum_map_ext. intros p Hp.
  rewrite H; [reflexivity|]. now apply (dims_rangeR q).
Qed.

Lemma explained_ext a x z : mode_ready g -> (forall p, (p < P)%nat -> x p = z p) -> explained g k solve a x = explained g k solve a z.
Proof.
  intros Hm H. assert (HC : forall j, cross g a x j = cross g a z j) by (intros; now apply cross_ext).
  unfold explained. unfold mode_ready in Hm. destruct (gp_mode g).
  - unfold explained_fly. apply Rsum_ext. intros l Hl. rewrite HC. f_equal. f_equal. f_equal. apply tab_ext. intros; apply HC.
  - unfold explained_pre. apply Rsum_ext. intros u Hu. f_equal. apply (we_ext _ _ (wt_weights g lo hi m HR)).
    + apply (keys_group f P Hok HP). fold keys. rewrite (keys_single (seq 0 P) Hm). now left.
    + intros p Hp. apply in_seq in Hp. apply H. lia.
  - destruct (gp_dense g) as [e|]; [|reflexivity]. unfold explained_exact. apply Rsum_ext. intros l Hl. rewrite HC. f_equal.
    apply potrs_ext; [intros ? ? ? ?; reflexivity|intros; apply HC|exact Hl].
Qed.

Lemma var_ext a x z : mode_ready g -> (forall p, (p < P)%nat -> x p = z p) -> var_at g k solve a x = var_at g k solve a z.
Proof. intros Hm H. unfold var_at. now rewrite (explained_ext a x z Hm H). Qed.

(** *** On the grid *)

Lemma ski_on_grid a x b z : pt_on_grid g x -> pt_on_grid g z -> ski_cov g (wt g) a x b z = lmc_cov f a x b z.
Proof.
  intros Hx Hz. unfold ski_cov, lmc_cov. cbv zeta. fold f. apply Rsum_ext. intros q Hq. f_equal.
  destruct (group_qdims f P Hok HP q Hq) as [_ Had]. set (ad := qdims f q) in *.
  destruct (Hx ad Had) as [k1 [H1 P1]]. destruct (Hz ad Had) as [k2 [H2 P2]].
  rewrite (Rsum_ext (pts g ad) _ (fun u => if Nat.eqb u k1 then K_grid f (G_of (gp_grids g) ad) q u k2 else 0)).
  - rewrite Rsum_delta by exact H1. destruct (rd_grid g lo hi m HR ad Had) as [_ [l [HL [E1 [E2 [E3 [El [Hl Hax]]]]]]]].
    rewrite E3 in H1, H2. rewrite E1 in P1, P2.
    assert (EG : G_of (gp_grids g) ad = dists_of l) by (unfold G_of; now rewrite (gg_ag _ _ _ _ _ _ _ _ _ _ HL)).
    unfold K_grid. rewrite EG. unfold dists_of. cbn [a_data a_shape].
    rewrite grid_dists_entry; [| |now apply axes_points_pos|exact H1|exact H2].
    + f_equal. rewrite dist_on_euclid, El. apply euclid_ext; intros p Hp; symmetry; [now apply P1|now apply P2].
    + destruct l; [cbn in *; lia|discriminate].
  - intros u Hu. rewrite (we_node _ _ (wt_weights g lo hi m HR) ad x u k1 Had Hu H1 P1).
    destruct (Nat.eqb_spec u k1) as [->|]; [|apply Rsum_zero; intros; ring].
    rewrite (Rsum_ext _ _ (fun v => if Nat.eqb v k2 then K_grid f (G_of (gp_grids g) ad) q k1 v else 0)).
    + now rewrite Rsum_delta.
    + intros v Hv. rewrite (we_node _ _ (wt_weights g lo hi m HR) ad z v k2 Had Hv H2 P2). destruct (Nat.eqb v k2); ring.
Qed.

End Ready.

(** ** Gaussian conditioning *)

Lemma lmc_psd_gen f n (o : nat -> nat) (x : nat -> nat -> R) :
  (forall q, (q < f_Q f)%nat -> positive (kern_of f q)) ->
  (forall q, (q < f_Q f)%nat -> has_periodic (kern_of f q) = true -> length (qdims f q) = 1%nat) ->
  (forall q a, (q < f_Q f)%nat -> (a < f_D f)%nat -> 0 <= vget (nth q (f_diags f) []) a) ->
  (forall i, (i < n)%nat -> (o i < f_D f)%nat) ->
  psd n (fun i j => lmc_cov f (o i) (x i) (o j) (x j)).
Proof.
  intros Hker Hper Hdiag Ho. unfold lmc_cov.
  apply (psd_Rsum n (f_Q f) (fun q i j => B_of f q (o i) (o j) * k_doc (kern_of f q) (dist_on (qdims f q) (x i) (x j)))).
  intros q Hq. apply psd_hadamard.
  - intros i j _ _. apply B_of_sym.
  - apply (psd_pullback n (f_D f) (B_of f q)); [exact Ho|]. apply B_of_psd. auto.
  - apply kernel_psd; auto.
Qed.

Lemma dist_on_self ad x : dist_on ad x x = 0.
Proof. unfold dist_on. rewrite lsum_map_zero by (intros; ring). apply sqrt_0. Qed.

(** The variance left after conditioning is at least the noise. *)
Lemma cond_bounds f n (o : nat -> nat) (x : nat -> nat -> R) (s : nat -> R) a x0 z :
  (forall q, (q < f_Q f)%nat -> positive (kern_of f q)) ->
  (forall q, (q < f_Q f)%nat -> has_periodic (kern_of f q) = true -> length (qdims f q) = 1%nat) ->
  (forall q a, (q < f_Q f)%nat -> (a < f_D f)%nat -> 0 <= vget (nth q (f_diags f) []) a) ->
  (forall i, (i < n)%nat -> (o i < f_D f)%nat) -> (a < f_D f)%nat -> (forall i, (i < n)%nat -> 0 <= s i) ->
  let c := fun j => lmc_cov f a x0 (o j) (x j) in
  solves n (fun i j => lmc_cov f (o i) (x i) (o j) (x j) + (if Nat.eqb i j then s i else 0)) z c ->
  0 <= Rsum n (fun l => c l * z l) /\ Rsum n (fun l => c l * z l) <= Rsum (f_Q f) (fun q => B_of f q a a * k_doc (kern_of f q) 0).
Proof.
  intros Hker Hper Hdiag Ho Ha Hs c Hz.
  set (L := fun i j => lmc_cov f (o i) (x i) (o j) (x j)).
  assert (EQ : Rsum n (fun l => c l * z l) = qf n L z + Rsum n (fun i => s i * (z i * z i))).
  { rewrite (Rsum_ext n _ (fun i => z i * Rsum n (fun j => L i j * z j) + s i * (z i * z i))).
    - rewrite Rsum_plus. f_equal. unfold qf, bil. apply Rsum_ext. intros i Hi. rewrite <- Rsum_scal_l. apply Rsum_ext. intros; ring.
    - intros i Hi. rewrite <- (Hz i Hi).
      rewrite (Rsum_ext n _ (fun j => L i j * z j + (if Nat.eqb j i then s i * z j else 0))).
      + rewrite Rsum_plus, Rsum_delta by exact Hi. ring.
      + intros j Hj. unfold L. rewrite (Nat.eqb_sym i j). destruct (Nat.eqb j i); ring. }
  assert (HN : 0 <= Rsum n (fun i => s i * (z i * z i))).
  { apply Rsum_nonneg. intros i Hi. apply Rmult_le_pos; [now apply Hs|nra]. }
  pose proof (lmc_psd_gen f n o x Hker Hper Hdiag Ho z) as HL. fold L in HL.
  split; [lra|].
  (* the quadratic form of the extended set of points at (-1, z) *)
  set (o' := fun i => match i with O => a | S i => o i end).
  set (x' := fun i => match i with O => x0 | S i => x i end).
  set (z' := fun i => match i with O => -1 | S i => z i end).
  assert (HE := lmc_psd_gen f (S n) o' x' Hker Hper Hdiag). 
  assert (Ho' : forall i, (i < S n)%nat -> (o' i < f_D f)%nat) by (intros [|i] Hi; cbn; [exact Ha|apply Ho; lia]).
  specialize (HE Ho' z').
  assert (Eq : qf (S n) (fun i j => lmc_cov f (o' i) (x' i) (o' j) (x' j)) z'
     = lmc_cov f a x0 a x0 - 2 * Rsum n (fun l => c l * z l) + qf n L z).
  { unfold qf, bil. rewrite Rsum_S_l, Rsum_S_l. cbn [o' x' z']. unfold qf, bil in *.
    rewrite (Rsum_ext n (fun i => Rsum (S n) _) (fun i => - (c i * z i) + Rsum n (fun j => z i * L i j * z j))).
    - rewrite Rsum_plus. unfold qf, bil.
      rewrite (Rsum_ext n (fun i => - (c i * z i)) (fun i => (-1) * (c i * z i))) by (intros; ring). rewrite Rsum_scal_l.
      rewrite (Rsum_ext n (fun i => -1 * lmc_cov f a x0 (o i) (x i) * z i) (fun i => (-1) * (c i * z i))) by (intros; unfold c; ring). rewrite Rsum_scal_l. ring.
    - intros i Hi. rewrite Rsum_S_l. cbn [o' x' z']. rewrite (lmc_cov_sym f (o i) (x i) a x0). unfold c, L. ring. }
  rewrite Eq in HE.
  assert (E0 : lmc_cov f a x0 a x0 = Rsum (f_Q f) (fun q => B_of f q a a * k_doc (kern_of f q) 0)).
  { unfold lmc_cov. apply Rsum_ext. intros q Hq. now rewrite dist_on_self. }
  lra.
Qed.
