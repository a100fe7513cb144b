(** What an update records. *)

From Coq Require Import Reals List Arith ZArith Lia Lra Bool.
From Verif Require Import Base NDArray PSD Model_Util Proofs_Util Spec_Util Model_Linalg Spec_Linalg Proofs_Linalg Model_Interp Spec_Interp
  Proofs_Sparse Proofs_Interp Proofs_Interp2 Proofs_Bicubic Proofs_Assemble Proofs_Autogrid Properties_Interp Model_Kern Spec_Kern Proofs_Kern Proofs_KernPSD Model_FK Spec_FK Proofs_FK Properties_FK
  Model_Grid Spec_Grid Proofs_Grid Proofs_Grid2 Det Proofs_Det Model_Lik Spec_Lik Proofs_Lik Proofs_Lik2 Proofs_Lik3 Proofs_Lik4 Proofs_Lik5 Proofs_Lik6 Proofs_Lik7 Properties_Lik Properties_Lik2
  Spec_GP Proofs_Gen Proofs_Gen2 Model_GP Spec_Pred Proofs_Pred Proofs_Pred2 Proofs_Pred3 Proofs_Pred4 Proofs_Pred5 Proofs_Pred6 Proofs_Init Properties_Pred Model_State Spec_State Proofs_State Proofs_State2 Proofs_State3 Proofs_State4 Spec_Met.
Import ListNotations.
Open Scope R_scope.

Lemma fold_biggest l : forall m, exists x, fold_left (fun m y => Rmax m (Rabs y)) l m = x /\ m <= x /\ (forall v, In v l -> Rabs v <= x) /\ (x = m \/ exists v, In v l /\ x = Rabs v).
Proof.
  induction l as [|y l IH]; intros m; [exists m; cbn; split; [reflexivity|]; split; [lra|]; split; [intros v []|now left]|].
  cbn [fold_left]. destruct (IH (Rmax m (Rabs y))) as [x [E [H1 [H2 H3]]]]. exists x. split; [exact E|].
  pose proof (Rmax_l m (Rabs y)). pose proof (Rmax_r m (Rabs y)). split; [lra|]. split.
  - intros v [<-|Hv]; [lra|auto].
  - destruct H3 as [->|[v [Hv Ev]]]; [|right; exists v; split; [now right|exact Ev]].
    unfold Rmax in *. destruct (Rle_dec m (Rabs y)); [right; exists y; split; [now left|reflexivity]|now left].
Qed.
Lemma inf_norm_biggest v r : inf_norm v = Ok r -> biggest v r.
Proof.
  destruct v as [|x v]; [discriminate|]. cbn [inf_norm]. intros E. apply Ok_inj in E.
  destruct (fold_biggest v (Rabs x)) as [z [Ez [H1 [H2 H3]]]]. rewrite Ez in E. subst r. split.
  - destruct H3 as [->|[u [Hu Eu]]]; [exists x; split; [now left|reflexivity]|exists u; split; [now right|exact Eu]].
  - intros u [<-|Hu]; auto.
Qed.

Section S.
  Variable solve : Mat -> vec -> result vec.
  Variable info : Mat -> vec -> R * R.
  Variable n_it : nat.
  Variable debug : bool.
  Variable ppf : R -> R.
  Notation step := (step solve info n_it debug ppf).
  Notation run := (run solve info n_it debug ppf).
  Notation answer := (answer solve info n_it debug ppf).
  Notation consistent := (consistent solve).
  Notation st_pc := (st_parameters_changed solve info n_it debug).
  Notation pc := (parameters_changed solve).

  Definition add_solves (m : metrics) (done : list (R * R)) : metrics :=
    mk_metrics (iterations m ++ [np_mean_l (map fst done)]) (grad_norms m) (grad_error m) (solv_error m ++ [np_mean_l (map snd done)]) (log_likely m).

  Lemma approx_init_val i o bits K w l ref : w_inst w i = Some o -> in_service o = Some ref ->
    let g := in_gp o in
    approx_init solve bits n_it (gp_f g) K (grids_dists (gp_grids g)) (grids_interps (gp_grids g)) (mg_Ys (gp_data g)) = Ok l ->
    al_K l = K /\ sd_rs (al_deriv l) = signs bits /\
    w_heap (fst (st_approx_init solve info n_it i bits K w)) ref = add_solves (w_heap w ref) (map (info K) (concat (mg_Ys (gp_data g)) :: signs bits)).
  Proof.
    intros H Hr g E. unfold approx_init in E. apply bind_ok in E. destruct E as [Kqs [E1 E]]. apply bind_ok in E. destruct E as [ms [E2 E]].
    apply bind_ok in E. destruct E as [d [E3 E]]. apply bind_ok in E. destruct E as [gr [E4 E]]. apply Ok_inj in E. subst l. cbn [al_K al_deriv].
    assert (Ed : sd_rs d = signs bits).
    { unfold sd_generate in E3. apply bind_ok in E3. destruct E3 as [sol [_ E3]]. destruct sol as [|a inv]; [discriminate E3|]. apply Ok_inj in E3. subst d. cbn [sd_rs].
      unfold signs. apply map_ext. intros b. apply map_ext. intros []; lra. }
    split; [reflexivity|]. split; [exact Ed|].
    unfold st_approx_init. rewrite (mbind_eq _ _ w w (Ok o)) by (unfold self_; now rewrite H). cbv zeta. fold g.
    rewrite (mbind_eq _ _ w w _ eq_refl), E1. rewrite (mbind_eq _ _ w w _ eq_refl), E2.
    unfold st_generate at 1. unfold mbind at 1. rewrite (mbind_eq _ _ w w _ eq_refl), E3. rewrite (mbind_eq _ _ w w (Ok o)) by (unfold self_; now rewrite H). rewrite Hr.
    unfold mbind, lift, on_metrics, ret. cbn [fst snd]. rewrite E4. cbn [fst snd w_heap]. unfold at_key. rewrite Nat.eqb_refl. rewrite Ed. reflexivity.
  Qed.

  Lemma pc_val i o bits w k s ref : w_inst w i = Some o -> pc bits n_it (in_gp o) (in_slots o) = Ok (k, s) ->
    (debug = false \/ exists e, gp_dense (in_gp o) = Ok e) -> in_service o = Some ref ->
    sd_rs (al_deriv (gpk_lik k)) = signs bits /\
    exists w4, st_pc i bits w = st_record i w4 /\ consistent w4 /\ w_inst w4 i = Some (mk_inst (in_gp o) (Some k) s (in_metrics o) (in_service o)) /\
      w_heap w4 ref = add_solves (w_heap w ref) (map (info (al_K (gpk_lik k))) (concat (mg_Ys (gp_data (in_gp o))) :: signs bits)).
  Proof.
    intros H Hpc HD Hr. unfold st_parameters_changed. rewrite (mbind_eq _ _ w (fst (clear_caches w)) (Ok tt)) by reflexivity.
    set (w0 := fst (clear_caches w)). assert (H0 : w_inst w0 i = Some o) by exact H.
    rewrite (mbind_eq _ _ w0 w0 (Ok o)) by (unfold self_; now rewrite H0). cbv zeta. set (g := in_gp o) in *.
    rewrite (mbind_eq _ _ w0 w0 _ eq_refl). unfold parameters_changed in Hpc.
    destruct (gen_grid_kernel (gp_f g) _ _ _) as [[K gks]|e]; [|discriminate Hpc]. cbn [bind] in Hpc.
    destruct (approx_init_step solve info n_it i o bits K w0 H0) as [w1 [E1 [I1 [N1 [S1 [O1 _]]]]]]. fold g in E1.
    destruct (approx_init solve bits n_it (gp_f g) K _ _ _) as [l|e] eqn:El; [|discriminate Hpc]. cbn [bind] in Hpc.
    destruct (approx_init_val i o bits K w0 l ref H0 Hr El) as [EK [Ers A1]]. rewrite E1 in A1. cbn [fst] in A1. fold g in A1.
    rewrite (mbind_eq _ _ _ _ _ E1).
    set (o2 := mk_inst g (Some (mk_gpk l gks)) (in_slots o) (in_metrics o) (in_service o)). set (w2 := fst (set_self i o2 w1)).
    rewrite (mbind_eq _ _ w1 w2 (Ok tt)) by reflexivity.
    assert (C2 : consistent w2).
    { destruct S1 as (A & B & C & D). split; intros j v E; cbn in E; rewrite ?A, ?B, ?C, ?D in E; discriminate E. }
    assert (I2 : w_inst w2 i = Some o2) by (cbn; unfold at_key; now rewrite Nat.eqb_refl).
    assert (HDb : exists w3, (if debug then do! _ := st_log_likelihood i in do! _ := st_normal_quadratic i in do! _ := st_log_det_K i in ret tt else ret tt) w2 = (w3, Ok tt) /\ quiet w2 w3 /\ consistent w3).
    { destruct debug; [|exists w2; split; [reflexivity|]; split; [apply quiet_refl|exact C2]].
      destruct HD as [HD|[e He]]; [discriminate HD|].
      assert (Hk2 : in_kernel o2 = Some (mk_gpk l gks)) by reflexivity.
      assert (EL : exists v, gp_log_det_K g = Ok v) by (unfold gp_log_det_K; fold g in He; rewrite He; cbn [bind]; destruct (Rle_dec _ 0); eauto).
      destruct EL as [v Ev].
      assert (EL : exists u, gp_log_likelihood g (mk_gpk l gks) = Ok u) by (unfold gp_log_likelihood; rewrite Ev; cbn [bind]; destruct v; eauto).
      destruct EL as [u Eu].
      destruct (y_bind' solve i o2 (st_log_likelihood i) (fun _ => do! _ := st_normal_quadratic i in do! _ := st_log_det_K i in ret tt) u (Ok tt)
        (y_eq solve i o2 _ _ _ (y_log_lik solve i o2 _ Hk2) Eu)) with (w := w2) as [w3 [E3 [Q3 C3]]]; [|exact C2|exact I2|].
      - apply (y_bind' solve i o2 _ _ _ _ (y_quadratic solve i o2 _ Hk2)). apply (y_bind' solve i o2 _ _ v _); [|apply y_ret].
        apply (y_eq solve i o2 _ _ _ (y_log_det solve i o2) Ev).
      - exists w3. auto. }
    destruct HDb as [w3 [E3 [[Q3 [N3 [H3 X3]]] C3]]]. rewrite (mbind_eq _ _ _ _ _ E3).
    rewrite (mbind_eq _ _ w3 w3 _ eq_refl).
    destruct (all_gradients (approx_ops (gp_f g) l) (gp_f g)) as [dg|e]; [|discriminate Hpc]. cbn [bind] in Hpc.
    rewrite (mbind_eq _ _ w3 w3 _ eq_refl).
    destruct (fk_update_gradient (gp_f g) dg (in_slots o)) as [s'|e]; [|discriminate Hpc]. cbn [bind] in Hpc.
    apply Ok_inj in Hpc. injection Hpc as <- <-. split; [exact Ers|].
    set (o4 := mk_inst g (Some (mk_gpk l gks)) s' (in_metrics o) (in_service o)). set (w4 := fst (set_self i o4 w3)).
    rewrite (mbind_eq _ _ w3 w4 (Ok tt)) by reflexivity.
    assert (I3 : w_inst w3 i = Some o2) by now rewrite Q3.
    assert (I4 : w_inst w4 i = Some o4) by (cbn; unfold at_key; now rewrite Nat.eqb_refl).
    assert (J4 : forall j, j <> i -> w_inst w4 j = w_inst w3 j) by (intros j Hj; cbn; unfold at_key; apply Nat.eqb_neq in Hj; now rewrite Hj).
    exists w4. split; [reflexivity|]. split; [|split; [exact I4|]].
    - destruct C3 as [D1 D2 D3 D4]. split; intros j v E; cbn in E.
      + destruct (D1 j v E) as [oj [Ej Gj]]. destruct (Nat.eq_dec j i) as [->|Nj]; [|exists oj; rewrite J4 by exact Nj; auto]. rewrite I3 in Ej. injection Ej as <-. now exists o4.
      + destruct (D2 j v E) as [oj [kj [Ej [Gj Lj]]]]. destruct (Nat.eq_dec j i) as [->|Nj]; [|exists oj, kj; rewrite J4 by exact Nj; auto]. rewrite I3 in Ej. injection Ej as <-. now exists o4, kj.
      + destruct (D3 j v E) as [oj [Ej Gj]]. destruct (Nat.eq_dec j i) as [->|Nj]; [|exists oj; rewrite J4 by exact Nj; auto]. rewrite I3 in Ej. injection Ej as <-. now exists o4.
      + destruct (D4 j v E) as [oj [kj [Ej [Gj Lj]]]]. destruct (Nat.eq_dec j i) as [->|Nj]; [|exists oj, kj; rewrite J4 by exact Nj; auto]. rewrite I3 in Ej. injection Ej as <-. now exists o4, kj.
    - change (w_heap w4) with (w_heap w3). rewrite H3. change (w_heap w2) with (w_heap w1). rewrite A1. cbn [gpk_lik]. rewrite EK. reflexivity.
  Qed.

  Lemma record_val i o k w e ga ge na ne nd ll ref : w_inst w i = Some o -> in_kernel o = Some k -> consistent w -> in_metrics o = Some ref ->
    gp_dense (in_gp o) = Ok e -> flat_gradient (approx_ops (gp_f (in_gp o)) (gpk_lik k)) (gp_f (in_gp o)) = Ok ga ->
    flat_gradient (exact_ops (gp_f (in_gp o)) e) (gp_f (in_gp o)) = Ok ge -> length ga = length ge ->
    inf_norm ga = Ok na -> inf_norm ge = Ok ne -> inf_norm (vsub ga ge) = Ok nd -> gp_log_likelihood (in_gp o) k = Ok ll ->
    exists w1, st_record i w = (w1, Ok tt) /\ w_inst w1 = w_inst w /\
      let m := w_heap w ref in
      w_heap w1 ref = mk_metrics (iterations m) (grad_norms m ++ [na]) (grad_error m ++ [nd / ne]) (solv_error m) (log_likely m ++ [ll]).
  Proof.
    intros H Hk C Em He Ha Hg HL Ena Ene End Eu. unfold st_record. rewrite (mbind_eq _ _ w w (Ok o)) by (unfold self_; now rewrite H).
    rewrite Em. cbv zeta.
    destruct (y_kernel solve i o k Hk w C H) as [w0 [E0 [[Q0 [_ [H0 _]]] C0]]]. rewrite (mbind_eq _ _ _ _ _ E0).
    assert (I0 : w_inst w0 i = Some o) by now rewrite Q0.
    destruct (y_dense solve i o w0 C0 I0) as [w1 [E1 [[Q1 [_ [H1 _]]] C1]]]. rewrite (mbind_eq _ _ _ _ _ E1). rewrite He.
    rewrite (mbind_eq _ _ w1 w1 _ eq_refl), Ha. rewrite (mbind_eq _ _ w1 w1 _ eq_refl), Hg.
    rewrite (mbind_eq _ _ w1 w1 _ eq_refl), Ena. rewrite (mbind_eq _ _ w1 w1 _ eq_refl), Ene.
    rewrite (mbind_eq _ _ w1 w1 _ eq_refl). rewrite HL, Nat.eqb_refl, End.
    match goal with |- context [mbind (on_metrics ref ?u) _ w1] => pose (w2 := fst (on_metrics ref u w1)); rewrite (mbind_eq _ _ w1 w2 (Ok tt)) by reflexivity end.
    match goal with |- context [mbind (on_metrics ref ?u) _ w2] => pose (w3 := fst (on_metrics ref u w2)); rewrite (mbind_eq _ _ w2 w3 (Ok tt)) by reflexivity end.
    assert (C3 : consistent w3) by (split; apply C1). assert (I3 : w_inst w3 i = Some o) by (change (w_inst w3) with (w_inst w1); now rewrite Q1).
    destruct (y_log_lik solve i o k Hk w3 C3 I3) as [w4 [E4 [[Q4 [_ [H4 _]]] _]]]. rewrite (mbind_eq _ _ _ _ _ E4). rewrite Eu.
    unfold on_metrics. eexists. split; [reflexivity|]. cbn [w_inst w_heap]. split; [rewrite Q4; change (w_inst w3) with (w_inst w1); congruence|].
    unfold at_key. rewrite Nat.eqb_refl, H4. cbn. unfold at_key. rewrite !Nat.eqb_refl. cbn. rewrite H1, H0. reflexivity.
  Qed.

  Lemma slots_grads f g s : shaped f g -> s_noise s = g_noise g -> length (s_vecs s) = f_Q f -> length (s_diags s) = f_Q f -> length (s_kernels s) = f_Q f ->
    (forall q, (q < f_Q f)%nat -> nth q (s_vecs s) [] = nth q (g_vecs g) [] /\ nth q (s_diags s) [] = nth q (g_diags g) [] /\
       params (nth q (s_kernels s) KIdentity) = nth q (g_kernels g) []) -> all_slots s = all_grads g.
  Proof.
    intros ((L1 & _) & (L2 & _) & (L3 & _) & _) En S1 S2 S3 H. unfold all_slots, all_grads. rewrite En.
    assert (E1 : s_vecs s = g_vecs g) by (apply (nth_ext _ _ [] []); [exact (eq_trans S1 (eq_sym L1))|]; intros q Hq; unfold mx, vec in *; rewrite S1 in Hq; now apply H).
    assert (E2 : s_diags s = g_diags g) by (apply (nth_ext _ _ [] []); [exact (eq_trans S2 (eq_sym L2))|]; intros q Hq; unfold mx, vec in *; rewrite S2 in Hq; now apply H).
    assert (E3 : map params (s_kernels s) = g_kernels g).
    { apply (nth_ext _ _ [] []); [rewrite map_length; exact (eq_trans S3 (eq_sym L3))|]. intros q Hq. unfold vec in *. rewrite map_length, S3 in Hq.
      change (@nil R) with (params KIdentity) at 1. rewrite map_nth. now apply H. }
    now rewrite E1, E2, E3.
  Qed.

  (** An update of a sound object. *)
  Lemma met_sound i o bits w lo hi m ref : (0 < n_it)%nat -> w_inst w i = Some o -> gp_ready (in_gp o) lo hi m -> proper (gp_f (in_gp o)) -> exact_solver (n_obs (in_gp o)) (K_fit (in_gp o)) solve ->
    slots_fit (in_slots o) (gp_f (in_gp o)) -> In bits (draws n_it (n_obs (in_gp o))) -> in_metrics o = Some ref -> in_service o = Some ref ->
    exists w1 o1 e, st_pc i bits w = (w1, Ok tt) /\ w_inst w1 i = Some o1 /\ in_metrics o1 = Some ref /\ recorded info (in_gp o) bits (in_slots o1) e /\
      (exists k, pc bits n_it (in_gp o) (in_slots o) = Ok (k, in_slots o1)) /\
      let m := w_heap w ref in
      w_heap w1 ref = mk_metrics (iterations m ++ [e_iterations e]) (grad_norms m ++ [e_grad_norm e]) (grad_error m ++ [e_grad_error e])
                                 (solv_error m ++ [e_solv_error e]) (log_likely m ++ [Fin (e_log_likely e)]).
  Proof.
    intros Hn H HR Hp Hs (O1 & O2 & O3) Hb Em Es. set (g := in_gp o) in *.
    pose proof (K_fit_pd g lo hi m HR Hp) as Hpd. pose proof (K_obs_pdR g lo hi m HR Hp) as Hpo.
    set (f := gp_f g) in *. set (P := mg_P (gp_data g)). set (Ys := mg_Ys (gp_data g)). set (lens := map (@length R) Ys).
    pose proof (rd_ok g lo hi m HR) as Hok. pose proof (rd_P g lo hi m HR) as HP. fold f in Hok, HP.
    destruct (gen_K_op f P _ _ (G_of (gp_grids g)) (W_of (gp_grids g)) _ lens Hok HP (rd_Pp g lo hi m HR) (gr_kern _ _ _ _ HR)
       (rd_D g lo hi m HR) (rd_n g lo hi m HR) (kr_interp g lo hi m HR)) as [Ko [gks [EK RK]]].
    assert (HY : length Ys = f_D f) by exact (eq_trans (eq_sym (map_length _ _)) (rd_D g lo hi m HR)).
    destruct (C56_expected_gradients f P (grids_dists (gp_grids g)) (grids_interps (gp_grids g)) Ys (G_of (gp_grids g)) (W_of (gp_grids g)) _ n_it solve Ko
       (gr_reach _ _ _ _ HR) HP (rd_Pp g lo hi m HR) (gr_kern _ _ _ _ HR) HY (rd_n g lo hi m HR) Hn (kr_interp g lo hi m HR) Hpd (Hs Ko RK))
      as [dg [H0 _]].
    destruct (H0 bits Hb) as [l [El [Eg SH]]]. pose proof SH as [[L1 _] [[L2 _] [[L3 L3'] _]]].
    destruct (C54_update_gradient f P (dg bits) (in_slots o) (gr_reach _ _ _ _ HR) HP (rd_Pp g lo hi m HR) L1 L2 L3 L3' O1 O2 O3) as [new [En [Nn [N1 [N2 [N3 NV]]]]]].
    set (k := mk_gpk l gks).
    assert (Epc : pc bits n_it g (in_slots o) = Ok (k, new)).
    { unfold parameters_changed. fold f Ys lens. rewrite EK. cbn [bind]. rewrite El. cbn [bind]. rewrite Eg. cbn [bind]. rewrite En. reflexivity. }
    destruct (dense_ok g lo hi m HR Hpo) as [e [He _]].
    assert (He' : exact_init f (mg_Xs (gp_data g)) Ys = Ok e) by exact He.
    destruct (C28_exact_gradients f P (mg_Xs (gp_data g)) Ys e (gr_reach _ _ _ _ HR) HP (rd_Pp g lo hi m HR) (gr_kern _ _ _ _ HR) (dims_rangeR g lo hi m HR)
      (da_in _ _ _ _ _ _ _ (gr_data _ _ _ _ HR)) HY He') as [ge [Ege [G1 [G2 [G3 [G4 GD]]]]]].
    assert (SHe : shaped f ge) by (split; [exact G1|]; split; [exact G2|]; split; [exact G3|exact G4]).
    assert (SHa : shaped f (dg bits)) by exact SH.
    assert (HQ : (0 < f_Q f)%nat) by exact (ok_Q _ Hok).
    assert (Fa : flat_gradient (approx_ops f l) f = Ok (all_grads (dg bits))) by exact (flat_ok _ _ _ HQ Eg SHa).
    assert (Fe : flat_gradient (exact_ops f e) f = Ok (all_grads ge)) by exact (flat_ok _ _ _ HQ Ege SHe).
    assert (FL : length (all_grads (dg bits)) = length (all_grads ge)) by exact (flat_len _ _ _ SHa SHe).
    assert (NE : all_grads (dg bits) <> []).
    { intros C. unfold all_grads in C. apply (f_equal (@length R)) in C. rewrite !app_length in C. cbn [length] in C.
      destruct SHa as (_ & _ & _ & L4). pose proof (ok_D _ Hok). unfold vec in *. lia. }
    assert (NE' : all_grads ge <> []) by (intros C; apply NE, length_zero_iff_nil; rewrite FL, C; reflexivity).
    assert (NE2 : vsub (all_grads (dg bits)) (all_grads ge) <> []) by (destruct (all_grads (dg bits)); [congruence|]; destruct (all_grads ge); [congruence|discriminate]).
    destruct (inf_norm_ok _ NE) as [na Ena]. destruct (inf_norm_ok _ NE') as [ne Ene]. destruct (inf_norm_ok _ NE2) as [nd End].
    destruct (C53_log_likelihood g lo hi m solve bits n_it k HR (ex_intro _ _ (ex_intro _ _ Epc)) Hs Hpo) as [v [a [Ev [Hav Evv]]]].
    assert (Esl : all_slots new = all_grads (dg bits)).
    { apply (slots_grads f); auto. intros q Hq. destruct (NV q Hq) as (V1 & V2 & _ & V3). auto. }
    destruct (pc_val i o bits w k new ref H Epc (or_intror (ex_intro _ e He)) Es) as [_ [w4 [E4 [C4 [I4 H4]]]]].
    destruct (record_val i _ k w4 e _ _ na ne nd (Fin v) ref I4 eq_refl C4 Em He Fa Fe FL Ena Ene End Ev) as [w5 [E5 [Q5 H5]]].
    exists w5. eexists. 
    exists (mk_entry (mean (concat Ys :: signs bits) (fun b => fst (info (al_K l) b))) na (nd / ne) (mean (concat Ys :: signs bits) (fun b => snd (info (al_K l) b))) v).
    split; [rewrite E4; exact E5|]. split; [rewrite Q5; exact I4|]. split; [exact Em|]. cbn [in_slots].
    split; [|split; [exists k; exact Epc|]].
    - split; [|split; [|split]]; cbn [e_iterations e_grad_norm e_grad_error e_solv_error e_log_likely].
      + exists (al_K l). split; [|split; reflexivity]. change (al_K l) with (al_K (gpk_lik k)). apply (fit_rep g lo hi m HR solve bits n_it k). exists (in_slots o), new. exact Epc.
      + rewrite Esl. now apply inf_norm_biggest.
      + exists ge, ne, nd. split.
        { split; [exact G1|]. split; [exact G2|]. split; [exact G3|]. split; [exact G4|]. exact GD. }
        rewrite Esl. split; [exact FL|]. split; [now apply inf_norm_biggest|]. split; [exact (inf_norm_biggest _ _ End)|]. intros Hne. field. exact Hne.
      + exists a. split; [exact Hav|exact Evv].
    - cbn [e_iterations e_grad_norm e_grad_error e_solv_error e_log_likely]. cbv zeta in H5. rewrite H5, H4.
      unfold add_solves. cbn [iterations grad_norms grad_error solv_error log_likely]. fold Ys. unfold np_mean_l, mean. rewrite !map_map, !map_length. reflexivity.
  Qed.
End S.
