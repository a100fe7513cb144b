(** When prediction fails; exact solvers. *)

From Coq Require Import Reals List Arith ZArith Lia Lra.
From Verif Require Import Base NDArray PSD Model_Util Proofs_Util Spec_Util Model_Linalg Spec_Linalg Proofs_Linalg Model_Interp Spec_Interp
  Proofs_Sparse Proofs_Interp Proofs_Interp2 Proofs_Bicubic Proofs_Assemble Proofs_Autogrid Properties_Interp Model_Kern Spec_Kern Proofs_Kern Proofs_KernPSD Model_FK Spec_FK Proofs_FK
  Properties_FK Model_Grid Spec_Grid Proofs_Grid Proofs_Grid2 Det Proofs_Det Model_Lik Spec_Lik Proofs_Lik Proofs_Lik2 Proofs_Lik3 Proofs_Lik5 Proofs_Lik6 Proofs_Lik7 Properties_Lik
  Properties_Lik2 Spec_GP Proofs_Gen Proofs_Gen2 Properties_Gen Model_GP Spec_Pred Proofs_Pred Proofs_Pred2 Proofs_Pred3 Proofs_Pred4 Proofs_Init.
Import ListNotations.
Open Scope R_scope.

Lemma np_len_inputs P Zs zl : inputs P Zs zl -> map_result np_len Zs = Ok zl.
Proof.
  revert Zs. induction zl as [|c cs IH]; intros Zs HZ; inversion HZ as [|Z ? Zs' ? [E1 _] HZ' E]; subst; [reflexivity|].
  cbn [map_result]. unfold np_len at 1. rewrite E1. cbn [bind]. now rewrite (IH Zs' HZ').
Qed.

Section Fails.
Variables (g : gp) (lo hi : grid_arg R) (m : grid_arg nat).
Hypothesis HR : gp_ready g lo hi m.
Let f := gp_f g.
Let P := mg_P (gp_data g).
Let Xs := mg_Xs (gp_data g).
Let Ys := mg_Ys (gp_data g).
Let lens := map (@length R) Ys.
Let n := nsum lens.
Let keys := map fst (f_active f).
Let Hok : fk_ok f := rd_ok g lo hi m HR.
Let HP : f_P f = Some P := rd_P g lo hi m HR.
Variable k : gp_kernel.
Hypothesis HK : gen_grid_kernel f (grids_dists (gp_grids g)) (grids_interps (gp_grids g)) lens = Ok (al_K (gpk_lik k), gpk_grids k).
Variable solve : Mat -> vec -> result vec.

Lemma predict_err Zs zl e : requests P Zs zl -> length zl = f_D f -> raw_predict solve g k (map pad1 Zs) = Err e ->
  gp_predict solve g k Zs = Err e.
Proof.
  intros HZ Hz E. destruct (pad_ok P Zs zl HZ) as [Ep Hin]. unfold gp_predict. fold P. rewrite Ep. cbn [bind].
  unfold gp_predict_norm. fold P. rewrite (gr_D _ _ _ _ HR). fold f. rewrite (inputs_len P _ _ Hin), Hz, Nat.eqb_refl. cbn [negb].
  rewrite (forallb_inputs P _ _ Hin). cbn [negb]. rewrite E. reflexivity.
Qed.

Lemma raw_identity Zs zl : inputs P Zs zl -> length zl = f_D f ->
  existsb (fun q => identity_based (kern_of f q)) (seq 0 (f_Q f)) = true -> raw_predict solve g k Zs = Err AttributeError.
Proof.
  intros HZ Hz Hid. unfold raw_predict. rewrite (np_len_inputs P _ _ HZ). cbn [bind].
  destruct (Ws_mean g lo hi m HR k HK Zs zl HZ Hz) as [ga [Ws [E1 _]]]. rewrite E1. cbn [bind]. fold f.
  now rewrite (native_ok f P Hok HP (rd_Pp g lo hi m HR) (gr_kern _ _ _ _ HR)), Hid.
Qed.

Lemma raw_var_err Zs zl e : inputs P Zs zl -> length zl = f_D f ->
  existsb (fun q => identity_based (kern_of f q)) (seq 0 (f_Q f)) = false ->
  (match gp_mode g with
   | OnTheFly => var_on_the_fly solve g k Zs
   | Precompute => var_precompute solve g k (map (fun ad => (ad, Wreq g Zs ad)) keys)
   | Exact => var_exact g Zs
   end) = Err e -> raw_predict solve g k Zs = Err e.
Proof.
  intros HZ HzD Hid Ee. unfold raw_predict. rewrite (np_len_inputs P _ _ HZ). cbn [bind].
  destruct (Ws_mean g lo hi m HR k HK Zs zl HZ HzD) as [ga [Ws [E1 [E2 [E3 E4]]]]]. rewrite E1. cbn [bind].
  fold f. rewrite (native_ok f P Hok HP (rd_Pp g lo hi m HR) (gr_kern _ _ _ _ HR)), Hid. cbn [bind]. rewrite E2. cbn [bind].
  rewrite E4. cbn [bind]. unfold repeat_counts. rewrite tab_length. fold f in HzD. rewrite HzD, Nat.eqb_refl. cbn [bind].
  rewrite E3. fold f keys. rewrite Ee. reflexivity.
Qed.

Lemma fly_empty Zs zl : inputs P Zs zl -> length zl = f_D f -> nsum zl = 0%nat -> var_on_the_fly solve g k Zs = Err ValueError.
Proof.
  intros HZ Hz H0. unfold var_on_the_fly. destruct (cross_ok g lo hi m HR Zs zl HZ Hz) as [o [Eo D]]. rewrite Eo. cbn [bind].
  rewrite H0 in D. unfold array_rows. rewrite (proj1 D). cbn [bind fst snd]. unfold arr_rows, mk, tab. reflexivity.
Qed.

Lemma interps_len : length (grids_interps (gp_grids g)) = length keys.
Proof.
  transitivity (length (map fst (gp_grids g))); [unfold grids_interps; now rewrite !map_length|].
  now rewrite (grids_keys _ _ _ _ _ _ (gr_grids _ _ _ _ HR)).
Qed.

Lemma keys_split q q' : (q < f_Q f)%nat -> (q' < f_Q f)%nat -> qdims f q <> qdims f q' -> length keys <> 1%nat.
Proof.
  intros Hq Hq' N E. apply N.
  assert (H1 : In (qdims f q) keys) by (apply (keys_group f P Hok HP); apply (group_qdims f P Hok HP q Hq)).
  assert (H2 : In (qdims f q') keys) by (apply (keys_group f P Hok HP); apply (group_qdims f P Hok HP q' Hq')).
  destruct keys as [|a [|b l]]; cbn in E; try lia. destruct H1 as [<-|[]]. destruct H2 as [<-|[]]. reflexivity.
Qed.

Lemma pre_split q q' Ws : (q < f_Q f)%nat -> (q' < f_Q f)%nat -> qdims f q <> qdims f q' -> var_precompute solve g k Ws = Err ValueError.
Proof.
  intros Hq Hq' N. unfold var_precompute, precomputed_nu. rewrite interps_len.
  pose proof (keys_split q q' Hq Hq' N) as H. destruct (Nat.eqb_spec (length keys) 1); [contradiction|]. reflexivity.
Qed.

Lemma pre_missing ad Ws : (forall q, (q < f_Q f)%nat -> qdims f q = ad) -> ad <> seq 0 P -> var_precompute solve g k Ws = Err KeyError.
Proof.
  intros Had N. unfold var_precompute, precomputed_nu. rewrite interps_len. pose proof (keys_single g lo hi m HR ad Had) as Ek. fold f keys in Ek.
  rewrite Ek. cbn [length Nat.eqb negb]. fold P.
  assert (EG : map fst (grids_interps (gp_grids g)) = [ad]).
  { unfold grids_interps. rewrite map_map. cbn [fst]. rewrite <- Ek. exact (grids_keys _ _ _ _ _ _ (gr_grids _ _ _ _ HR)). }
  destruct (grids_interps (gp_grids g)) as [|[a w] l]; [discriminate EG|]. cbn in EG. injection EG as -> El. destruct l; [|discriminate El].
  cbn [dict_get]. destruct (dims_eqb (seq 0 P) ad) eqn:E; [|reflexivity]. unfold dims_eqb in E. destruct (list_eq_dec Nat.eq_dec (seq 0 P) ad); [congruence|discriminate E].
Qed.
End Fails.

(** ** Exact solvers exist *)

Lemma exact_solver_ex n K : sym n K -> pos_definite n K -> exists solve, exact_solver n K solve.
Proof.
  intros Hs Hp. destruct (inv_ex n K (proj1 (pos_definite_pivots n K Hs) Hp)) as [X HX].
  exists (fun _ b => Ok (tab n (fun i => Rsum n (fun j => X i j * vget b j)))). intros Ko _ b Hb.
  eexists. split; [reflexivity|]. split; [apply tab_length|]. intros i Hi.
  pose proof (solves_inv n K X (vget b) Hs HX) as H. rewrite <- (H i Hi). apply Rsum_ext. intros j Hj. now rewrite vget_tab.
Qed.
