(** Claims about the grid kernels and the SKI operator (C23, C24, C26). *)

From Coq Require Import Reals List Arith ZArith Lia Lra.
From Verif Require Import Base NDArray PSD Model_Util Spec_Util Model_Fourier Model_Linalg Spec_Linalg Proofs_Linalg Model_Interp Spec_Interp
  Model_Kern Model_FK Spec_Kern Spec_FK Proofs_Kern Proofs_KernPSD Proofs_FK Model_Grid Spec_Grid Proofs_Grid Proofs_Grid2.
Import ListNotations.
Open Scope R_scope.

(** ** C23: the representations of the grid covariance *)

(** Each of the three representations can be built for each group.  'sum' and
    'bt' always represent [sum_q B_q (x) K_q]; 'slfm' does if the group has an
    LMC or SLFM kernel and an LMC or independent kernel. *)
Theorem C23_same_covariance_partial :
  forall f P ad dists W WT n kt,
    reach f -> f_P f = Some P -> (0 < P)%nat -> group f ad <> [] -> kernels_ok f -> dists_ok dists ->
    (0 < n)%nat -> interp_ok n (f_D f * nprod (a_shape dists)) W WT ->
    (kt = KtSlfm -> has_coreg f ad /\ has_diag f ad) ->
    exists o, grid_kernel f dists W WT kt ad = Ok o /\ represents (gk_grid o) (K_UU f dists ad) /\
              represents (gk_mat o) (ski_den W (K_UU f dists ad)).
Proof.
  intros f P ad dists W WT n kt Hf HP HPp Hg Hk Hd Hn HI Hkt. pose proof (reach_ok _ Hf) as Hok.
  destruct (grid_kernel_ok f P ad dists Hok HP HPp Hg Hk Hd W WT n kt Hn HI) as [o [E [H1 _]]].
  exists o. split; [exact E|]. apply H1. intros [K [C|C]]; apply Hkt in K; tauto.
Qed.
Print Assumptions C23_same_covariance_partial.

(** Otherwise 'slfm' has an identity matrix too many. *)
Theorem C23_slfm_deviation :
  forall f P ad dists W WT n,
    reach f -> f_P f = Some P -> (0 < P)%nat -> group f ad <> [] -> kernels_ok f -> dists_ok dists ->
    (0 < n)%nat -> interp_ok n (f_D f * nprod (a_shape dists)) W WT ->
    ~ has_coreg f ad \/ ~ has_diag f ad ->
    exists o, grid_kernel f dists W WT KtSlfm ad = Ok o /\
      represents (gk_grid o) (d_sum [K_UU f dists ad; d_id (f_D f * nprod (a_shape dists))]) /\
      represents (gk_mat o) (ski_den W (d_sum [K_UU f dists ad; d_id (f_D f * nprod (a_shape dists))])).
Proof.
  intros f P ad dists W WT n Hf HP HPp Hg Hk Hd Hn HI HC. pose proof (reach_ok _ Hf) as Hok.
  destruct (grid_kernel_ok f P ad dists Hok HP HPp Hg Hk Hd W WT n KtSlfm Hn HI) as [o [E [_ H1]]].
  exists o. split; [exact E|]. apply H1. auto.
Qed.
Print Assumptions C23_slfm_deviation.

(** gen_grid_kernel picks such a representation exactly in the cases of
    [surplus]: several kernels, and the group has only independent kernels
    (two outputs or more), or only SLFM kernels, fewer than D^2 of them. *)
Theorem C23_selection :
  forall f P ad, reach f -> f_P f = Some P -> (0 < P)%nat -> group f ad <> [] ->
    exists kt, choose_ktype f ad = Ok kt /\
      (kt = KtSlfm /\ (~ has_coreg f ad \/ ~ has_diag f ad) <-> surplus f ad).
Proof.
  intros f P ad Hf HP HPp Hg. pose proof (reach_ok _ Hf) as Hok.
  apply (choose_ok f P ad (mk_arr [1%nat] [0]) Hok HP HPp Hg). split; [discriminate|]. split; [cbn; lia|reflexivity].
Qed.
Print Assumptions C23_selection.

(** ** C26: the SKI operator *)

(** gen_grid_kernel multiplies by the sum over the groups of
    [W (sum_q B_q (x) K_q) W^T], plus the noise, if no group is in the case of
    C23_selection. *)
Theorem C26_operator_partial :
  forall f P dists interps lens (G : dims -> ndarr) (W WT : dims -> sparse),
    reach f -> f_P f = Some P -> (0 < P)%nat -> kernels_ok f -> length lens = f_D f -> (0 < nsum lens)%nat ->
    (forall ad, group f ad <> [] -> dict_get dists ad = Ok (G ad) /\ dists_ok (G ad) /\
       dict_get interps ad = Ok (W ad, WT ad) /\ interp_ok (nsum lens) (f_D f * nprod (a_shape (G ad))) (W ad) (WT ad)) ->
    (forall ad, group f ad <> [] -> ~ surplus f ad) ->
    exists o ks, gen_grid_kernel f dists interps lens = Ok (o, ks) /\
      represents o (d_sum (map (fun ad => ski_den (W ad) (K_UU f (G ad) ad)) (map fst (f_active f)) ++ [noise_den f lens])) /\
      forall ad, group f ad <> [] -> exists gk, dict_get ks ad = Ok gk /\ represents (gk_grid gk) (K_UU f (G ad) ad).
Proof.
  intros f P dists interps lens G W WT Hf HP HPp Hk HL Hn HG HS. pose proof (reach_ok _ Hf) as Hok.
  destruct (gen_clean f P dists interps lens G W WT Hok HP HPp Hk HL Hn HG HS) as [o [ks [E [R H]]]].
  exists o, ks. split; [exact E|]. split; [exact R|]. intros ad Had. destruct (H ad Had) as [gk [E1 [E2 _]]].
  exists gk. auto.
Qed.
Print Assumptions C26_operator_partial.

(** The operator is symmetric, and positive semi-definite if the diagonals,
    the noise and the kernel matrices of the grids are. *)
Theorem C26_symmetric_psd :
  forall f P dists interps lens (G : dims -> ndarr) (W WT : dims -> sparse),
    reach f -> f_P f = Some P -> (0 < P)%nat -> kernels_ok f -> length lens = f_D f -> (0 < nsum lens)%nat ->
    (forall ad, group f ad <> [] -> dict_get dists ad = Ok (G ad) /\ dists_ok (G ad) /\
       dict_get interps ad = Ok (W ad, WT ad) /\ interp_ok (nsum lens) (f_D f * nprod (a_shape (G ad))) (W ad) (WT ad)) ->
    (forall q a, (q < f_Q f)%nat -> (a < f_D f)%nat -> 0 <= vget (nth q (f_diags f) []) a) ->
    (forall a, (a < f_D f)%nat -> 0 <= vget (f_noise f) a) ->
    (forall ad q, In q (group f ad) -> psd (nprod (a_shape (G ad))) (K_grid f (G ad) q)) ->
    exists o ks, gen_grid_kernel f dists interps lens = Ok (o, ks) /\ shape o = (nsum lens, nsum lens) /\
      (forall i j, (i < nsum lens)%nat -> (j < nsum lens)%nat -> mget (as_numpy o) i j = mget (as_numpy o) j i) /\
      (forall x, length x = nsum lens -> 0 <= Rsum (nsum lens) (fun i => vget x i * vget (matvec o x) i)).
Proof.
  intros f P dists interps lens G W WT Hf HP HPp Hk HL Hn HG Hkap Hnoise HK. pose proof (reach_ok _ Hf) as Hok.
  destruct (gen_ok f P dists interps lens G W WT Hok HP HPp Hk HL Hn HG) as [o [ks [ds [E [Ek [F Ro]]]]]].
  exists o, ks. split; [exact E|].
  set (l := map (fun p : dims * gridkernel * den => ski_den (W (fst (fst p))) (snd p)) (combine ks ds) ++ [noise_den f lens]) in *.
  assert (SP : sym_psd (d_sum l) (nsum lens)).
  { apply d_sum_sym_psd; [unfold l; destruct (map _ (combine ks ds)); discriminate|].
    intros d Hd. unfold l in Hd. apply in_app_or in Hd. destruct Hd as [Hd|[<-|[]]]; [|now apply noise_sym_psd].
    apply in_map_iff in Hd. destruct Hd as [[p d'] [<- Hin]]. cbn [fst snd].
    assert (Hg : group f (fst p) <> []).
    { apply (keys_group f P Hok HP). rewrite <- Ek. apply in_map. apply in_combine_l in Hin. exact Hin. }
    destruct (HG _ Hg) as [_ [[_ [Hm _]] [_ [I1 I2 _ _ _]]]]. rewrite <- I1.
    apply (ski_sym_psd _ _ _ I2).
    assert (Hgo : grid_of f G (fst p) d').
    { clear - F Hin. induction F as [|x y a b H F IH]; [destruct Hin|]. destruct Hin as [Eq|Hin]; [|auto]. injection Eq as -> ->. tauto. }
    assert (KP : sym_psd (K_UU f (G (fst p)) (fst p)) (f_D f * nprod (a_shape (G (fst p))))).
    { split; [reflexivity|]. split; [reflexivity|]. split; [now apply K_UU_sym|]. apply K_UU_psd; [assumption| |apply HK].
      intros q a Hq Ha. apply Hkap; [|assumption]. now apply group_lt in Hq. }
    destruct Hgo as [G1 G2].
    destruct (Classical_Prop.classic (surplus f (fst p))) as [S|S].
    - rewrite (G2 S). apply d_sum_sym_psd; [discriminate|]. intros d [<-|[<-|[]]]; [exact KP|apply id_sym_psd].
    - rewrite (G1 S). exact KP. }
  destruct SP as [Er [Ec [S Pd]]]. split; [rewrite (rep_shape _ _ Ro); now rewrite Er, Ec|].
  split.
  - intros i j Hi Hj. rewrite (rep_np _ _ Ro). unfold d_dense. rewrite Er, Ec, !mget_mk by assumption. now apply S.
  - intros x Hx. rewrite (rep_mv _ _ Ro) by (rewrite Ec; exact Hx). unfold d_apply, mat_apply. rewrite Er, Ec.
    specialize (Pd (vget x)). unfold qf, bil in Pd.
    erewrite Rsum_ext; [exact Pd|]. intros i Hi. cbv beta. unfold vget at 2. rewrite nth_tab by assumption.
    rewrite <- Rsum_scal_l. apply Rsum_ext. intros j Hj. ring.
Qed.
Print Assumptions C26_symmetric_psd.

(** The premise on the kernel matrices holds for the grids of the model, for
    every kernel except StdPeriodic on two or more dimensions (C32). *)
Theorem C26_base_psd :
  forall f l q d, l <> [] -> (0 < axes_points l)%nat -> grid_dists (axes_of l) = Ok d ->
    positive (kern_of f q) -> (has_periodic (kern_of f q) = true -> length l = 1%nat) ->
    psd (nprod (a_shape d)) (K_grid f d q).
Proof. exact grid_base_psd. Qed.
Print Assumptions C26_base_psd.

(** ** C24: BTTB of the distances is the kernel matrix of the grid *)

Theorem C24_kernel_matrix :
  forall k l, l <> [] -> (0 < axes_points l)%nat -> positive k -> no_tiny_period k ->
    exists d v o, grid_dists (axes_of l) = Ok d /\ from_dist k (Arr d) = Ok (KArr v) /\
      bttb (np1 (a_data v)) (a_shape v) = Ok o /\
      as_numpy o = mk (axes_points l) (axes_points l)
        (fun i j => k_doc k (euclid (length l) (grid_pt (axes_of l) i) (grid_pt (axes_of l) j))).
Proof.
  intros k l Hne Hpos Hk Ht.
  assert (Hne' : axes_of l <> []) by (destruct l; [congruence|discriminate]).
  pose proof (grid_dists_value (axes_of l) Hne') as E. rewrite axes_lengths in E. specialize (E Hpos).
  assert (EL : @length vec (axes_of l) = length l) by apply map_length. unfold vec in *. rewrite EL in E. fold (axes_points l) in E.
  set (d := mk_arr _ _) in E. exists d.
  exists (mk_arr (a_shape d) (map (k_doc k) (a_data d))).
  assert (Hsh : a_shape d <> []) by (destruct l; [congruence|discriminate]).
  destruct (bttb_ok (a_shape d) (map (k_doc k) (a_data d))) as [o [Eo Ro]]; [exact Hsh|exact Hpos| |].
  { rewrite map_length. cbn [d a_data a_shape]. apply tab_length. }
  exists o. split; [exact E|]. split; [now apply from_dist_arr|]. split; [exact Eo|].
  rewrite (rep_np _ _ Ro). unfold d_dense. cbn [d_r d_c d_f d a_shape a_data]. fold (axes_points l). apply mk_ext.
  intros i j Hi Hj. now apply grid_dists_entry.
Qed.
Print Assumptions C24_kernel_matrix.

Example C24_ex : exists d v o, grid_dists [[0; 1]; [0; 2; 4]] = Ok d /\ from_dist (RBF 2) (Arr d) = Ok (KArr v) /\
  bttb (np1 (a_data v)) (a_shape v) = Ok o /\ mget (as_numpy o) 1 5 = exp (- (1 / 2) * 5 * 2).
Proof.
  assert (Ea : [[0; 1]; [0; 2; 4]] = axes_of [(2%nat, 0, 1); (3%nat, 0, 2)]).
  { cbv -[Rmult Rplus IZR]. repeat f_equal; ring. }
  rewrite Ea.
  destruct (C24_kernel_matrix (RBF 2) [(2%nat, 0, 1); (3%nat, 0, 2)]) as [d [v [o [E1 [E2 [E3 E4]]]]]].
  - discriminate.
  - cbn. lia.
  - intros x [<-|[]]; lra.
  - exact I.
  - exists d, v, o. split; [exact E1|]. split; [exact E2|]. split; [exact E3|]. rewrite E4, mget_mk by (cbn; lia).
    rewrite <- Ea. unfold grid_pt, euclid. cbn [cart flat_map map nth app length k_doc].
    cbn [Rsum]. f_equal. 
    match goal with |- context[sqrt ?a] => replace a with 5 by ring end.
    rewrite pow2_sqrt by lra. field.
Qed.

(** ** Examples and the refutation of C23 *)

(** Two independent GPs for two outputs on one dimension, each output observed
    at its one grid point. *)
Definition ex_ind : result fkernel :=
  let! f := fk_init (fun _ _ _ => 1) (Some 2%nat) (Some []) (Some []) (Some []) (Some [(RBF 1, None); (RBF 2, None)]) None in
  set_input_dim f 1.
Definition ex_W : sparse := mk_sparse 2 2 (fun i j => if Nat.eqb i j then 1 else 0).
Definition ex_d : ndarr := mk_arr [1%nat] [0].
Definition ex_dists : dict ndarr := [([0%nat], ex_d)].
Definition ex_interps : interpolants := [([0%nat], (ex_W, ex_W))].

Lemma ex_ind_reach f : ex_ind = Ok f -> reach f.
Proof.
  unfold ex_ind. intros E. apply bind_ok in E. destruct E as [g [E1 E2]].
  eapply reach_dim; [eapply reach_init; exact E1|exact E2].
Qed.

Lemma ex_d_ok : dists_ok ex_d.
Proof. split; [discriminate|]. split; [cbn; lia|reflexivity]. Qed.

Lemma ex_W_ok : interp_ok 2 (2 * nprod (a_shape ex_d)) ex_W ex_W.
Proof. split; try reflexivity. intros i j. cbn. now rewrite Nat.eqb_sym. Qed.

Lemma ex_single f : f_active f = [([0%nat], seq 0 (f_Q f))] -> reach f -> f_P f = Some 1%nat ->
  forall ad, group f ad <> [] -> ad = [0%nat].
Proof.
  intros EA Hr HP ad Had. apply (keys_group f 1 (reach_ok _ Hr) HP) in Had. rewrite EA in Had. destruct Had as [<-|[]]. reflexivity.
Qed.

Theorem C23_same_covariance_refuted :
  exists f ad dists interps lens o ks gk,
    reach f /\ f_P f = Some 1%nat /\ group f ad <> [] /\ kernels_ok f /\
    dists_ok dists /\ interp_ok (nsum lens) (f_D f * nprod (a_shape dists)) (fst interps) (snd interps) /\
    gen_grid_kernel f [(ad, dists)] [(ad, interps)] lens = Ok (o, ks) /\ dict_get ks ad = Ok gk /\
    mget (as_numpy (gk_grid gk)) 0 0 = d_f (K_UU f dists ad) 0 0 + 1 /\
    mget (as_numpy o) 0 0 = d_f (d_sum [ski_den (fst interps) (K_UU f dists ad); noise_den f lens]) 0 0 + 1.
Proof.
  destruct ex_ind as [f|] eqn:E; [|discriminate E]. pose proof (ex_ind_reach f E) as Hr.
  cbv -[IZR Rmult Rinv Rplus Rdiv Ropp] in E. apply Ok_inj in E.
  assert (Hk : kernels_ok f).
  { intros q Hq. subst f. cbn in Hq. destruct q as [|[|q]]; [| |cbn in Hq; lia]; (split; [|exact I]); cbn; intros v [<-|[]]; lra. }
  assert (HP : f_P f = Some 1%nat) by (subst f; reflexivity).
  assert (HQ : f_Q f = 2%nat) by (subst f; reflexivity). assert (HD : f_D f = 2%nat) by (subst f; reflexivity).
  assert (HA : f_active f = [([0%nat], seq 0 (f_Q f))]) by (subst f; reflexivity).
  assert (Hg : group f [0%nat] = [0; 1]%nat) by (subst f; reflexivity).
  assert (Hc : ~ has_coreg f [0%nat]).
  { intros [q [_ Hq]]. subst f. unfold is_lmc, is_slfm in Hq. cbn in Hq. lia. }
  assert (HS : surplus f [0%nat]) by (split; [lia|left; split; [exact Hc|lia]]).
  destruct (gen_ok f 1 ex_dists ex_interps [1; 1]%nat (fun _ => ex_d) (fun _ => ex_W) (fun _ => ex_W)
              (reach_ok _ Hr) HP (Nat.lt_succ_diag_r 0) Hk) as [o [ks [ds [Eg [Ek [F Ro]]]]]].
  { now rewrite HD. }
  { cbn; lia. }
  { intros ad Had. rewrite (ex_single f HA Hr HP ad Had). split; [reflexivity|]. split; [apply ex_d_ok|]. split; [reflexivity|].
    rewrite HD. apply ex_W_ok. }
  rewrite HA in Ek. destruct ks as [|[ad gk] [|? ?]]; try discriminate Ek. cbn in Ek. injection Ek as ->.
  inversion F as [|x y a b H F0]; subst x a. inversion F0; subst b.
  destruct H as [G1 [G2 _]]. destruct G1 as [_ G1]. specialize (G1 HS). cbn [fst snd] in *.
  exists f, [0%nat], ex_d, (ex_W, ex_W), [1; 1]%nat, o, [([0%nat], gk)], gk.
  split; [exact Hr|]. split; [exact HP|]. split; [rewrite Hg; discriminate|]. split; [exact Hk|]. split; [apply ex_d_ok|].
  split; [cbn [fst snd]; rewrite HD; apply ex_W_ok|]. split; [exact Eg|]. split; [reflexivity|]. subst ds. subst y.
  assert (HKr : d_r (K_UU f ex_d [0%nat]) = 2%nat) by (cbn; rewrite HD; reflexivity).
  split.
  - rewrite (rep_np _ _ G2). unfold d_dense. rewrite mget_mk by (cbn [d_sum d_r d_c K_UU]; rewrite HD; cbn; lia).
    change (d_f (K_UU f ex_d [0%nat]) 0 0 + (1 + 0) = d_f (K_UU f ex_d [0%nat]) 0 0 + 1)%R. ring.
  - rewrite (rep_np _ _ Ro). unfold d_dense. rewrite mget_mk by (cbn; lia).
    cbn [combine map fst snd app]. set (K := K_UU f ex_d [0%nat]) in *.
    change (d_f (ski_den ex_W (d_sum [K; d_id (f_D f * nprod (a_shape ex_d))])) 0 0 + (d_f (noise_den f [1; 1]%nat) 0 0 + 0)
            = d_f (ski_den ex_W K) 0 0 + (d_f (noise_den f [1; 1]%nat) 0 0 + 0) + 1)%R.
    cbn [ski_den d_mul d_f W_den d_c d_T d_r sp_c ex_W sp_get sp_r d_sum]. unfold K at 3. cbn [K_UU d_c]. rewrite HD.
    assert (HKc : d_c K = 2%nat) by exact HKr. rewrite HKc.
    change (2 * nprod (a_shape ex_d))%nat with 2%nat.
    cbn [Rsum Nat.eqb d_id d_f map]. unfold lsum. cbn [fold_right]. ring.
Qed.
Print Assumptions C23_same_covariance_refuted.

(** An LMC kernel and an independent one: 'slfm' is picked, rightly. *)
Definition ex_mix : result fkernel :=
  let! f := fk_init (fun _ _ _ => 1) (Some 2%nat) (Some [(RBF 1, None)]) (Some [1%Z]) (Some []) (Some [(RBF 2, None)]) None in
  set_input_dim f 1.

Example C23_C26_ex : exists f,
  ex_mix = Ok f /\ reach f /\ f_P f = Some 1%nat /\ kernels_ok f /\ length [1%nat; 1%nat] = f_D f /\
  (forall ad, group f ad <> [] -> dict_get ex_dists ad = Ok ex_d /\ dists_ok ex_d /\
       dict_get ex_interps ad = Ok (ex_W, ex_W) /\ interp_ok 2 (f_D f * nprod (a_shape ex_d)) ex_W ex_W) /\
  choose_ktype f [0%nat] = Ok KtSlfm /\ has_coreg f [0%nat] /\ has_diag f [0%nat] /\
  (forall ad, group f ad <> [] -> ~ surplus f ad) /\
  (forall q a, (q < f_Q f)%nat -> (a < f_D f)%nat -> 0 <= vget (nth q (f_diags f) []) a) /\
  (forall a, (a < f_D f)%nat -> 0 <= vget (f_noise f) a) /\
  (forall ad q, In q (group f ad) -> psd (nprod (a_shape ex_d)) (K_grid f ex_d q)) /\
  d_f (K_UU f ex_d [0%nat]) 0 0 = 3 /\ d_f (K_UU f ex_d [0%nat]) 0 1 = 1 /\ d_f (K_UU f ex_d [0%nat]) 1 1 = 2.
Proof.
  destruct ex_mix as [f|] eqn:E; [|discriminate E]. exists f. split; [reflexivity|].
  assert (Hr : reach f).
  { unfold ex_mix in E. apply bind_ok in E. destruct E as [g [E1 E2]]. eapply reach_dim; [eapply reach_init; exact E1|exact E2]. }
  cbv -[IZR Rmult Rinv Rplus Rdiv Ropp] in E. apply Ok_inj in E.
  assert (HP : f_P f = Some 1%nat) by (subst f; reflexivity).
  assert (HQ : f_Q f = 2%nat) by (subst f; reflexivity). assert (HD : f_D f = 2%nat) by (subst f; reflexivity).
  assert (HA : f_active f = [([0%nat], seq 0 (f_Q f))]) by (subst f; reflexivity).
  assert (Hg : group f [0%nat] = [0; 1]%nat) by (subst f; reflexivity).
  assert (C1 : has_coreg f [0%nat]).
  { exists 0%nat. rewrite Hg. split; [now left|]. left. subst f. unfold is_lmc. cbn. lia. }
  assert (C2 : has_diag f [0%nat]).
  { exists 0%nat. rewrite Hg. split; [now left|]. left. subst f. unfold is_lmc. cbn. lia. }
  assert (Hk : kernels_ok f).
  { intros q Hq. subst f. cbn in Hq. destruct q as [|[|q]]; [| |cbn in Hq; lia]; (split; [|exact I]); cbn; intros v [<-|[]]; lra. }
  split; [exact Hr|]. split; [exact HP|]. split; [exact Hk|]. split; [now rewrite HD|]. split.
  { intros ad Had. rewrite (ex_single f HA Hr HP ad Had). split; [reflexivity|]. split; [apply ex_d_ok|]. split; [reflexivity|].
    rewrite HD. apply ex_W_ok. }
  split; [subst f; reflexivity|]. split; [exact C1|]. split; [exact C2|]. split.
  { intros ad Had [_ [[H _]|[H _]]]; rewrite (ex_single f HA Hr HP ad Had) in H; tauto. }
  split.
  { intros q a Hq Ha. rewrite HQ in Hq. rewrite HD in Ha. subst f. destruct q as [|[|q]]; [| |lia]; destruct a as [|[|a]]; cbn; try lia; lra. }
  split.
  { intros a Ha. rewrite HD in Ha. subst f. destruct a as [|[|a]]; cbn; try lia; lra. }
  split.
  { intros ad q Hq. apply (grid_base_psd f [(1%nat, 0, 1)] q ex_d); [discriminate|cbn; lia| | |].
    - cbv -[Rmult Rplus IZR sqrt pow Rminus]. unfold ex_d. repeat f_equal. 
      match goal with |- sqrt ?a = _ => replace a with 0 by ring end. apply sqrt_0.
    - apply Hk. now apply group_lt in Hq.
    - intros _. reflexivity. }
  subst f. cbv -[Rmult Rplus IZR exp pow Rminus Ropp Rdiv].
  replace (- (1) * 0 ^ 2 / 2) with 0 by field. replace (- (2) * 0 ^ 2 / 2) with 0 by field. rewrite exp_0.
  split; [ring|]. split; ring.
Qed.
