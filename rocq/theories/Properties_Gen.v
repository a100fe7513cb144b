(** Claims about the grids of a model and data on them (C27, C57). *)

From Coq Require Import Reals List Arith Lia Lra ZArith.
From Verif Require Import Base NDArray PSD Model_Util Proofs_Util Spec_Util Model_Linalg Spec_Linalg Proofs_Linalg Model_Interp Spec_Interp
  Proofs_Autogrid Model_Kern Spec_Kern Proofs_Kern Model_FK Spec_FK Proofs_FK Model_Grid Spec_Grid Proofs_Grid Proofs_Grid2 Properties_Grid
  Model_Lik Spec_Lik Proofs_Lik Proofs_Lik2 Proofs_Lik3 Proofs_Lik4 Properties_Lik Proofs_Lik6 Proofs_Lik7 Properties_Lik2
  Spec_GP Proofs_Gen Proofs_Gen2.
Import ListNotations.
Open Scope R_scope.

(** ** C57: building the grids *)

(** _generate_grids succeeds whenever every active dimension has two different
    values (or bounds), and produces for each set of active dimensions an
    equispaced grid around the data, the distances of its points to the first
    one, and an interpolation matrix with its transpose; each row of the matrix
    sums to one and only involves grid points of the observation's own output.
    The results satisfy the hypotheses of C26 and C56. *)
Theorem C57_generate_grids :
  forall f P Xs lens lo hi m, reach f -> data_ok f P Xs lens lo hi m ->
  exists g, generate_grids f Xs lo hi m = Ok g /\ map fst g = map fst (f_active f) /\
    forall ad, group f ad <> [] ->
      (exists l, encloses P Xs lens lo hi m ad l /\ ag_axes (grid_at g ad) = axes_of l /\
         a_shape (G_of g ad) = map (fun t => fst (fst t)) l /\
         (forall u, (u < axes_points l)%nat ->
            vget (a_data (G_of g ad)) u = euclid (length l) (grid_pt (axes_of l) u) (grid_pt (axes_of l) 0))) /\
      (forall i, (i < nsum lens)%nat ->
         let pts := nprod (a_shape (G_of g ad)) in
         Rsum (f_D f * pts) (fun u => sp_get (W_of g ad) i u) = 1 /\
         forall u, (u < f_D f * pts)%nat -> (u / pts)%nat <> owner lens i -> sp_get (W_of g ad) i u = 0) /\
      dict_get (grids_dists g) ad = Ok (G_of g ad) /\ dists_ok (G_of g ad) /\
      dict_get (grids_interps g) ad = Ok (W_of g ad, sparse_of_csr (ag_WT (grid_at g ad))) /\
      interp_ok (nsum lens) (f_D f * nprod (a_shape (G_of g ad))) (W_of g ad) (sparse_of_csr (ag_WT (grid_at g ad))).
Proof.
  intros f P Xs lens lo hi m Hf DA. pose proof (reach_ok _ Hf) as Hok.
  destruct (generate_grids_ok f P Xs lens lo hi m Hok DA) as [g [E [Ek H]]]. exists g. split; [exact E|]. split; [exact Ek|].
  intros ad Had. destruct (H ad Had) as [_ [l HL]].
  assert (EG : G_of g ad = dists_of l) by (unfold G_of; now rewrite (gg_ag _ _ _ _ _ _ _ _ _ _ HL)).
  pose proof (proj1 (gg_enc _ _ _ _ _ _ _ _ _ _ HL)) as Ll. pose proof (ga_dims _ _ _ _ _ _ _ (da_args _ _ _ _ _ _ _ DA ad Had)) as Hd.
  pose proof (gg_ax _ _ _ _ _ _ _ _ _ _ HL) as Hax. pose proof (axes_points_pos l Hax) as Hpp.
  split; [|split; [|exact (grids_interp f P Xs lens lo hi m Hok DA g E ad Had)]].
  - exists l. split; [exact (gg_enc _ _ _ _ _ _ _ _ _ _ HL)|].
    split; [rewrite (gg_ag _ _ _ _ _ _ _ _ _ _ HL); reflexivity|]. rewrite EG. split; [reflexivity|].
    intros u Hu. cbn [dists_of a_data]. now rewrite vget_tab.
  - intros i Hi. cbv zeta. replace (nprod (a_shape (G_of g ad))) with (axes_points l) by (rewrite EG; reflexivity).
    set (pts := axes_points l) in *. pose proof (da_D _ _ _ _ _ _ _ DA) as HD.
    assert (HW : forall u, (u < f_D f * pts)%nat -> sp_get (W_of g ad) i u =
      if Nat.eqb (u / pts) (owner lens i) then wN l (proj ad (obs P Xs lens i)) (u mod pts) else 0).
    { intros u Hu. exact (gg_get _ _ _ _ _ _ _ _ _ _ HL i u Hi Hu). }
    split.
    + rewrite Rsum_flatten. destruct (owner_lt lens i Hi) as [O1 _]. rewrite HD in O1.
      rewrite (Rsum_ext (f_D f) _ (fun o => if Nat.eqb o (owner lens i) then 1 else 0)).
      * now rewrite (Rsum_delta (f_D f) (owner lens i) (fun _ => 1)).
      * intros o Ho.
        rewrite (Rsum_ext pts _ (fun u => if Nat.eqb o (owner lens i) then wN l (proj ad (obs P Xs lens i)) u else 0)).
        -- destruct (Nat.eqb o (owner lens i)); [|apply Rsum_zero; reflexivity]. apply wN_sum; [lia|exact Hax].
        -- intros u Hu. rewrite HW by nia. rewrite Nat.div_add_l, (Nat.div_small u) by lia. rewrite Nat.add_0_r.
           rewrite (Nat.add_comm (o * pts)), Nat.mod_add, (Nat.mod_small u) by lia. reflexivity.
    + intros u Hu Hne. rewrite HW by exact Hu. destruct (Nat.eqb_spec (u / pts) (owner lens i)); [contradiction|reflexivity].
Qed.
Print Assumptions C57_generate_grids.

(** ** C27: data on the grid *)

(** If every input is a grid point (in the dimensions of each kernel), the SKI
    covariance is the exact one; gen_grid_kernel multiplies by it except for
    the superfluous identities of C23_selection, each of which adds one for
    observations of one output with the same active coordinates. *)
Theorem C27_exact_on_grid_partial :
  forall f P Xs lens lo hi m g, reach f -> kernels_ok f -> data_ok f P Xs lens lo hi m ->
  generate_grids f Xs lo hi m = Ok g -> on_grid f P Xs lens g ->
  let n := nsum lens in
  (forall i j, (i < n)%nat -> (j < n)%nat -> K_ski f (G_of g) (W_of g) lens i j = K_obs f P Xs lens i j) /\
  exists o ks, gen_grid_kernel f (grids_dists g) (grids_interps g) lens = Ok (o, ks) /\
    represents o (mk_den n n (fun i j => K_obs f P Xs lens i j +
      lsum (map (fun ad => if surplus_b f ad then
                             (if Nat.eqb (owner lens i) (owner lens j) then
                               (if Req_EM_T (dist_on ad (obs P Xs lens i) (obs P Xs lens j)) 0 then 1 else 0) else 0)
                           else 0) (map fst (f_active f))))) /\
    ((forall ad, group f ad <> [] -> ~ surplus f ad) -> represents o (mk_den n n (K_obs f P Xs lens))).
Proof.
  intros f P Xs lens lo hi m g Hf Hk DA Hg OG n. pose proof (reach_ok _ Hf) as Hok. pose proof (da_P _ _ _ _ _ _ _ DA) as HP.
  pose proof (on_grid_exact f P Xs lens lo hi m Hok DA g Hg OG) as HE. split; [exact HE|].
  destruct (C26_operator f P (grids_dists g) (grids_interps g) lens (G_of g) (W_of g) (fun ad => sparse_of_csr (ag_WT (grid_at g ad)))
     Hf HP (da_Pp _ _ _ _ _ _ _ DA) Hk (da_D _ _ _ _ _ _ _ DA) (da_n f P Xs lens lo hi m Hok DA)
     (grids_interp f P Xs lens lo hi m Hok DA g Hg)) as [[o [ks [E Ro]]] [HS _]].
  exists o, ks. split; [exact E|]. split.
  - eapply represents_ext; [exact Ro|]. split; [reflexivity|]. split; [reflexivity|]. intros i j Hi Hj. cbn [d_f d_r d_c] in *.
    unfold K_op. rewrite HE by assumption. f_equal. unfold spurious. apply lsum_map_ext. intros ad Had.
    destruct (surplus_b f ad); [|reflexivity]. apply (keys_group f P Hok HP) in Had.
    apply (on_grid_gram f P Xs lens lo hi m Hok DA g Hg OG); assumption.
  - intros HN. eapply represents_ext; [exact Ro|]. split; [reflexivity|]. split; [reflexivity|]. intros i j Hi Hj. cbn [d_f d_r d_c] in *.
    rewrite (HS HN). now apply HE.
Qed.
Print Assumptions C27_exact_on_grid_partial.

(** The grid that autogrid returned. *)
Lemma generate_grid_axes Xs lo hi m ad a : generate_grid Xs lo hi m ad = Ok a ->
  exists wlo whi wm Xa m', wrap_arg lo ad = Ok wlo /\ wrap_arg hi ad = Ok whi /\ wrap_arg m ad = Ok wm /\
    map_result (take_cols ad) Xs = Ok Xa /\
    autogrid Xa wlo whi (match wm with None => MNone | Some l => MArray l end) = Ok (ag_axes a, m').
Proof.
  unfold generate_grid. intros E.
  apply bind_ok in E. destruct E as [wlo [E1 E]]. apply bind_ok in E. destruct E as [whi [E2 E]].
  apply bind_ok in E. destruct E as [wm [E3 E]]. apply bind_ok in E. destruct E as [Xa [E4 E]].
  apply bind_ok in E. destruct E as [[axes m'] [E5 E]]. apply bind_ok in E. destruct E as [ds [_ E]].
  apply bind_ok in E. destruct E as [W [_ E]]. apply Ok_inj in E. subst a. exists wlo, whi, wm, Xa, m'. auto.
Qed.

(** One input per output, at 2 and at 8, and a grid on [0, 10] with two cells:
    -10, -4, 2, 8, 14, 20. *)
Definition ex_Xs : list ndarr := [mk_arr [1; 1]%nat [2]; mk_arr [1; 1]%nat [8]].

Lemma ex_args ad : ad = [0%nat] -> grid_args_ok 1 ex_Xs [1; 1]%nat (GNum 0) (GNum 10) (GNum 2%nat) ad.
Proof.
  intros ->. constructor; cbn; auto.
  - intros d [<-|[]]. lia.
  - intros d k [<-|[]] E. injection E as <-. lia.
  - intros d [<-|[]]. exists 0, 10. split; [lra|]. split; right; reflexivity.
Qed.

Lemma ex_data f : reach f -> f_P f = Some 1%nat -> f_D f = 2%nat -> f_active f = [([0%nat], seq 0 (f_Q f))] ->
  data_ok f 1 ex_Xs [1; 1]%nat (GNum 0) (GNum 10) (GNum 2%nat).
Proof.
  intros Hr HP HD HA. constructor; auto.
  - constructor; [split; reflexivity|]. constructor; [split; reflexivity|]. constructor.
  - intros n [<-|[<-|[]]]; lia.
  - intros ad Had. apply ex_args. exact (ex_single f HA Hr HP ad Had).
Qed.

Lemma ex_axes a : generate_grid ex_Xs (GNum 0) (GNum 10) (GNum 2%nat) [0%nat] = Ok a ->
  ag_axes a = [[-10; -4; 2; 8; 14; 20]].
Proof.
  intros E. apply generate_grid_axes in E. destruct E as [wlo [whi [wm [Xa [m' [E1 [E2 [E3 [E4 E5]]]]]]]]].
  apply Ok_inj in E1, E2, E3. subst wlo whi wm.
  apply Ok_inj in E4. subst Xa.
  cbv -[Rmult Rplus IZR Ropp Rdiv Rinv Rminus Rmin Rmax ag_axes] in E5. apply Ok_inj in E5.
  rewrite (Rmin_left 2 8), (Rmin_left 0 2), (Rmax_right 2 8), (Rmax_left 10 8) in E5 by lra.
  apply (f_equal fst) in E5. cbn [fst] in E5. rewrite <- E5.
  repeat match goal with |- _ :: _ = _ :: _ => apply (f_equal2 (@cons _)) end; try reflexivity; lra.
Qed.

Lemma ex_on_grid f : reach f -> f_P f = Some 1%nat -> f_D f = 2%nat -> f_active f = [([0%nat], seq 0 (f_Q f))] ->
  exists g, generate_grids f ex_Xs (GNum 0) (GNum 10) (GNum 2%nat) = Ok g /\
    ag_axes (grid_at g [0%nat]) = [[-10; -4; 2; 8; 14; 20]] /\ on_grid f 1 ex_Xs [1; 1]%nat g.
Proof.
  intros Hr HP HD HA. pose proof (reach_ok _ Hr) as Hok. pose proof (ex_data f Hr HP HD HA) as DA.
  destruct (generate_grids_ok f 1 ex_Xs _ _ _ _ Hok DA) as [g [E [Ek H]]]. exists g. split; [exact E|].
  assert (EA : ag_axes (grid_at g [0%nat]) = [[-10; -4; 2; 8; 14; 20]]).
  { unfold generate_grids in E. rewrite HA in E. cbn [map fst map_result] in E. apply bind_ok in E. destruct E as [p [E E']].
    apply bind_ok in E. destruct E as [a [Ea E]]. apply Ok_inj in E. subst p. cbn [bind] in E'. apply Ok_inj in E'. subst g.
    cbn. now apply ex_axes. }
  split; [exact EA|]. intros ad i Had Hi. rewrite (ex_single f HA Hr HP ad Had). rewrite EA. cbn in Hi.
  destruct i as [|[|i]]; [exists 2%nat|exists 3%nat|lia]; (split; [cbn; lia|]); intros p Hp; destruct p; [|cbn in Hp; lia| |cbn in Hp; lia];
    reflexivity.
Qed.

Example C27_C57_ex : exists f g, reach f /\ kernels_ok f /\ data_ok f 1 ex_Xs [1; 1]%nat (GNum 0) (GNum 10) (GNum 2%nat) /\
  generate_grids f ex_Xs (GNum 0) (GNum 10) (GNum 2%nat) = Ok g /\ on_grid f 1 ex_Xs [1; 1]%nat g /\
  (forall ad, group f ad <> [] -> ~ surplus f ad) /\ f_Q f = 2%nat /\
  ag_axes (grid_at g [0%nat]) = [[-10; -4; 2; 8; 14; 20]].
Proof.
  destruct C23_C26_ex as [f [E [Hr [HP [Hk [HL [_ [_ [_ [_ [HS _]]]]]]]]]]].
  assert (HD : f_D f = 2%nat) by (symmetry; exact HL).
  assert (HQ : f_Q f = 2%nat /\ f_active f = [([0%nat], seq 0 (f_Q f))]).
  { cbv -[IZR Rmult Rinv Rplus Rdiv Ropp] in E. apply Ok_inj in E. subst f. split; reflexivity. }
  destruct HQ as [HQ HA]. destruct (ex_on_grid f Hr HP HD HA) as [g [Eg [EA OG]]]. exists f, g.
  split; [exact Hr|]. split; [exact Hk|]. split; [exact (ex_data f Hr HP HD HA)|]. auto 10.
Qed.

(** With independent kernels only, the operator is off by one on the diagonal
    even for data on the grid. *)
Theorem C27_exact_on_grid_refuted :
  exists f P Xs lens lo hi m g o ks, reach f /\ kernels_ok f /\ data_ok f P Xs lens lo hi m /\
    generate_grids f Xs lo hi m = Ok g /\ on_grid f P Xs lens g /\
    gen_grid_kernel f (grids_dists g) (grids_interps g) lens = Ok (o, ks) /\
    mget (as_numpy o) 0 0 = K_obs f P Xs lens 0 0 + 1.
Proof.
  destruct ex_ind as [f|] eqn:E; [|discriminate E]. pose proof (ex_ind_reach f E) as Hr.
  cbv -[IZR Rmult Rinv Rplus Rdiv Ropp] in E. apply Ok_inj in E.
  assert (Hk : kernels_ok f).
  { intros q Hq. subst f. cbn in Hq. destruct q as [|[|q]]; [| |cbn in Hq; lia]; (split; [|exact I]); cbn; intros v [<-|[]]; lra. }
  assert (HP : f_P f = Some 1%nat) by (subst f; reflexivity). assert (HD : f_D f = 2%nat) by (subst f; reflexivity).
  assert (HA : f_active f = [([0%nat], seq 0 (f_Q f))]) by (subst f; reflexivity).
  assert (HS : surplus_b f [0%nat] = true) by (subst f; reflexivity).
  destruct (ex_on_grid f Hr HP HD HA) as [g [Eg [EA OG]]]. pose proof (ex_data f Hr HP HD HA) as DA.
  destruct (C27_exact_on_grid_partial f 1 ex_Xs _ _ _ _ g Hr Hk DA Eg OG) as [_ [o [ks [Eo [Ro _]]]]].
  exists f, 1%nat, ex_Xs, [1; 1]%nat, (GNum 0), (GNum 10), (GNum 2%nat), g, o, ks.
  split; [exact Hr|]. split; [exact Hk|]. split; [exact DA|]. split; [exact Eg|]. split; [exact OG|]. split; [exact Eo|].
  rewrite (rep_np _ _ Ro). unfold d_dense. cbn [d_r d_c]. rewrite mget_mk by (cbn; lia). cbn [d_f]. f_equal.
  rewrite HA. cbn [map fst]. rewrite HS. rewrite Nat.eqb_refl.
  destruct (Req_EM_T (dist_on [0%nat] (obs 1 ex_Xs [1; 1]%nat 0) (obs 1 ex_Xs [1; 1]%nat 0)) 0) as [_|N].
  - cbn. ring.
  - exfalso. apply N. unfold dist_on. cbn [map lsum fold_right].
    match goal with |- sqrt ?a = _ => replace a with 0; [apply sqrt_0|] end. unfold lsum. cbn [fold_right]. ring.
Qed.
Print Assumptions C27_exact_on_grid_refuted.
