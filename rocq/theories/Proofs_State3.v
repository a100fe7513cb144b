(** Updates of sound objects never raise. *)

From Coq Require Import Reals List Arith ZArith Lia Lra Bool.
From Verif Require Import Base NDArray PSD Model_Util Proofs_Util Spec_Util Model_Linalg Spec_Linalg Proofs_Linalg Model_Interp Spec_Interp
  Proofs_Sparse Proofs_Interp Proofs_Interp2 Proofs_Bicubic Proofs_Assemble Proofs_Autogrid Properties_Interp Model_Kern Spec_Kern Proofs_Kern Proofs_KernPSD Model_FK Spec_FK Proofs_FK Properties_FK
  Model_Grid Spec_Grid Proofs_Grid Proofs_Grid2 Det Proofs_Det Model_Lik Spec_Lik Proofs_Lik Proofs_Lik2 Proofs_Lik3 Proofs_Lik4 Proofs_Lik5 Proofs_Lik6 Proofs_Lik7 Properties_Lik Properties_Lik2
  Spec_GP Proofs_Gen Proofs_Gen2 Model_GP Spec_Pred Proofs_Pred Proofs_Pred2 Proofs_Pred3 Proofs_Pred4 Proofs_Pred5 Proofs_Init Model_State Spec_State Proofs_State Proofs_State2.
Import ListNotations.
Open Scope R_scope.

(** ** All gradients in one array *)

Definition shaped (f : fkernel) (g : gradients) : Prop :=
  (length (g_vecs g) = f_Q f /\ forall q, (q < f_Q f)%nat -> is_mx (length (nth q (f_vecs f) [])) (f_D f) (nth q (g_vecs g) [])) /\
  (length (g_diags g) = f_Q f /\ forall q, (q < f_Q f)%nat -> length (nth q (g_diags g) []) = f_D f) /\
  (length (g_kernels g) = f_Q f /\ forall q, (q < f_Q f)%nat -> length (nth q (g_kernels g) []) = length (params (kern_of f q))) /\
  length (g_noise g) = f_D f.

Lemma concat_same (l l' : list vec) : length l = length l' -> (forall q, (q < length l)%nat -> length (nth q l []) = length (nth q l' [])) ->
  length (concat l) = length (concat l').
Proof.
  revert l'. induction l as [|a l IH]; intros [|b l'] HL H; [reflexivity|discriminate HL|discriminate HL|]. cbn in HL. cbn [concat]. rewrite !app_length.
  rewrite (H 0%nat ltac:(cbn; lia) : length a = length b). f_equal. apply IH; [lia|]. intros q Hq. apply (H (S q)). cbn. lia.
Qed.
Lemma concat_mx r c (A : mx) : is_mx r c A -> length (concat A) = (r * c)%nat.
Proof.
  intros [H1 H2]. revert r H1. induction A as [|a A IH]; intros r H1; cbn in H1; subst r; [reflexivity|]. cbn [concat]. rewrite app_length.
  rewrite (H2 a (or_introl eq_refl)). rewrite (IH (fun x Hx => H2 x (or_intror Hx)) (length A) eq_refl). reflexivity.
Qed.

Lemma flat_ok {T} (o : lik_ops T) f g : (0 < f_Q f)%nat -> all_gradients o f = Ok g -> shaped f g ->
  flat_gradient o f = Ok (concat (map (@concat R) (g_vecs g)) ++ concat (g_diags g) ++ concat (g_kernels g) ++ g_noise g).
Proof.
  intros HQ E ((L1 & _) & (L2 & _) & (L3 & _) & _). unfold all_gradients in E. unfold flat_gradient.
  destruct (coreg_vec_gradients o f) as [v|]; [|discriminate E]. cbn [bind] in E |- *.
  destruct (coreg_diags_gradients o f) as [d|]; [|discriminate E]. cbn [bind] in E.
  destruct (kernel_gradients o f) as [k|]; [|discriminate E]. cbn [bind] in E.
  destruct (noise_gradient o f) as [n|]; [|discriminate E]. cbn [bind] in E. apply Ok_inj in E. subst g. cbn [g_vecs g_diags g_kernels g_noise] in *.
  assert (NC : forall l : list vec, length l = f_Q f -> np_concat l = Ok (concat l)) by (intros [|a l] H; [cbn in H; lia|reflexivity]).
  rewrite NC by (rewrite map_length; exact L1). cbn [bind]. rewrite NC by exact L2. cbn [bind]. rewrite NC by exact L3. reflexivity.
Qed.
Lemma flat_len f g g' : shaped f g -> shaped f g' ->
  let F g := concat (map (@concat R) (g_vecs g)) ++ concat (g_diags g) ++ concat (g_kernels g) ++ g_noise g in
  length (F g) = length (F g').
Proof.
  intros ((L1 & M1) & (L2 & M2) & (L3 & M3) & L4) ((L1' & M1') & (L2' & M2') & (L3' & M3') & L4') F. unfold F. rewrite !app_length.
  assert (E1 : length (concat (map (@concat R) (g_vecs g))) = length (concat (map (@concat R) (g_vecs g')))).
  { apply concat_same; rewrite !map_length; [exact (eq_trans L1 (eq_sym L1'))|]. intros q Hq. unfold mx, vec in *. rewrite L1 in Hq.
    change (@nil R) with (concat (@nil (list R))). rewrite !map_nth. rewrite (concat_mx _ _ _ (M1 q Hq)), (concat_mx _ _ _ (M1' q Hq)). reflexivity. }
  assert (E2 : length (concat (g_diags g)) = length (concat (g_diags g'))) by (apply concat_same; [exact (eq_trans L2 (eq_sym L2'))|]; intros q Hq; apply (fun H => eq_ind _ (fun x => (q < x)%nat) H _ L2) in Hq; exact (eq_trans (M2 q Hq) (eq_sym (M2' q Hq)))).
  assert (E3 : length (concat (g_kernels g)) = length (concat (g_kernels g'))) by (apply concat_same; [exact (eq_trans L3 (eq_sym L3'))|]; intros q Hq; apply (fun H => eq_ind _ (fun x => (q < x)%nat) H _ L3) in Hq; exact (eq_trans (M3 q Hq) (eq_sym (M3' q Hq)))).
  unfold vec in *. lia.
Qed.

Section S.
  Variable solve : Mat -> vec -> result vec.
  Variable info : Mat -> vec -> R * R.
  Variable n_it : nat.
  Variable debug : bool.
  Variable ppf : R -> R.
  Notation step := (step solve info n_it debug ppf).
  Notation run := (run solve info n_it debug ppf).
  Notation answer := (answer solve info n_it debug ppf).
  Notation settled := (settled solve info n_it debug ppf).
  Notation updated := (updated solve info n_it debug ppf).
  Notation consistent := (consistent solve).
  Notation st_pc := (st_parameters_changed solve info n_it debug).
  Notation pc := (parameters_changed solve).

  (** ** When parameters_changed succeeds *)

  (** The part before the metrics. *)
  Lemma pc_run i o bits w k s : w_inst w i = Some o -> pc bits n_it (in_gp o) (in_slots o) = Ok (k, s) ->
    (debug = false \/ exists e, gp_dense (in_gp o) = Ok e) ->
    exists w4, st_pc i bits w = st_record i w4 /\ consistent w4 /\ w_inst w4 i = Some (mk_inst (in_gp o) (Some k) s (in_metrics o) (in_service o)) /\
      forall ref, in_service o = Some ref -> adds 1 0 0 1 0 (w_heap w ref) (w_heap w4 ref).
  Proof.
    intros H Hpc HD. unfold st_parameters_changed. rewrite (mbind_eq _ _ w (fst (clear_caches w)) (Ok tt)) by reflexivity.
    set (w0 := fst (clear_caches w)). assert (H0 : w_inst w0 i = Some o) by exact H.
    rewrite (mbind_eq _ _ w0 w0 (Ok o)) by (unfold self_; now rewrite H0). cbv zeta. set (g := in_gp o) in *.
    rewrite (mbind_eq _ _ w0 w0 _ eq_refl). unfold parameters_changed in Hpc.
    destruct (gen_grid_kernel (gp_f g) _ _ _) as [[K gks]|e]; [|discriminate Hpc]. cbn [bind] in Hpc.
    destruct (approx_init_step solve info n_it i o bits K w0 H0) as [w1 [E1 [I1 [N1 [S1 [O1 A1]]]]]]. fold g in E1, A1. rewrite (mbind_eq _ _ _ _ _ E1).
    destruct (approx_init solve bits n_it (gp_f g) K _ _ _) as [l|e]; [|discriminate Hpc]. cbn [bind] in Hpc.
    specialize (A1 (ex_intro _ l eq_refl)).
    set (o2 := mk_inst g (Some (mk_gpk l gks)) (in_slots o) (in_metrics o) (in_service o)). set (w2 := fst (set_self i o2 w1)).
    rewrite (mbind_eq _ _ w1 w2 (Ok tt)) by reflexivity.
    assert (C2 : consistent w2).
    { destruct S1 as (A & B & C & D). split; intros j v E; cbn in E; rewrite ?A, ?B, ?C, ?D in E; discriminate E. }
    assert (I2 : w_inst w2 i = Some o2) by (cbn; unfold at_key; now rewrite Nat.eqb_refl).
    assert (HDb : exists w3, (if debug then do! _ := st_log_likelihood i in do! _ := st_normal_quadratic i in do! _ := st_log_det_K i in ret tt else ret tt) w2 = (w3, Ok tt) /\ quiet w2 w3 /\ consistent w3).
    { destruct debug; [|exists w2; split; [reflexivity|]; split; [apply quiet_refl|exact C2]].
      destruct HD as [HD|[e He]]; [discriminate HD|].
      assert (Hk2 : in_kernel o2 = Some (mk_gpk l gks)) by reflexivity.
      assert (EL : exists v, gp_log_det_K g = Ok v) by (unfold gp_log_det_K; fold g in He; rewrite He; cbn [bind]; destruct (Rle_dec _ 0); eauto).
      destruct EL as [v Ev].
      assert (EL : exists u, gp_log_likelihood g (mk_gpk l gks) = Ok u) by (unfold gp_log_likelihood; rewrite Ev; cbn [bind]; destruct v; eauto).
      destruct EL as [u Eu].
      destruct (y_bind' solve i o2 (st_log_likelihood i) (fun _ => do! _ := st_normal_quadratic i in do! _ := st_log_det_K i in ret tt) u (Ok tt)
        (y_eq solve i o2 _ _ _ (y_log_lik solve i o2 _ Hk2) Eu)) with (w := w2) as [w3 [E3 [Q3 C3]]]; [|exact C2|exact I2|].
      - apply (y_bind' solve i o2 _ _ _ _ (y_quadratic solve i o2 _ Hk2)). apply (y_bind' solve i o2 _ _ v _); [|apply y_ret].
        apply (y_eq solve i o2 _ _ _ (y_log_det solve i o2) Ev).
      - exists w3. auto. }
    destruct HDb as [w3 [E3 [[Q3 [N3 [H3 X3]]] C3]]]. rewrite (mbind_eq _ _ _ _ _ E3).
    rewrite (mbind_eq _ _ w3 w3 _ eq_refl).
    destruct (all_gradients (approx_ops (gp_f g) l) (gp_f g)) as [dg|e]; [|discriminate Hpc]. cbn [bind] in Hpc.
    rewrite (mbind_eq _ _ w3 w3 _ eq_refl).
    destruct (fk_update_gradient (gp_f g) dg (in_slots o)) as [s'|e]; [|discriminate Hpc]. cbn [bind] in Hpc.
    apply Ok_inj in Hpc. injection Hpc as <- <-.
    set (o4 := mk_inst g (Some (mk_gpk l gks)) s' (in_metrics o) (in_service o)). set (w4 := fst (set_self i o4 w3)).
    rewrite (mbind_eq _ _ w3 w4 (Ok tt)) by reflexivity.
    assert (I3 : w_inst w3 i = Some o2) by now rewrite Q3.
    assert (I4 : w_inst w4 i = Some o4) by (cbn; unfold at_key; now rewrite Nat.eqb_refl).
    assert (J4 : forall j, j <> i -> w_inst w4 j = w_inst w3 j) by (intros j Hj; cbn; unfold at_key; apply Nat.eqb_neq in Hj; now rewrite Hj).
    exists w4. split; [reflexivity|]. split; [|split; [exact I4|]].
    - destruct C3 as [D1 D2 D3 D4]. split; intros j v E; cbn in E.
      + destruct (D1 j v E) as [oj [Ej Gj]]. destruct (Nat.eq_dec j i) as [->|Nj]; [|exists oj; rewrite J4 by exact Nj; auto]. rewrite I3 in Ej. injection Ej as <-. now exists o4.
      + destruct (D2 j v E) as [oj [kj [Ej [Gj Lj]]]]. destruct (Nat.eq_dec j i) as [->|Nj]; [|exists oj, kj; rewrite J4 by exact Nj; auto]. rewrite I3 in Ej. injection Ej as <-. now exists o4, kj.
      + destruct (D3 j v E) as [oj [Ej Gj]]. destruct (Nat.eq_dec j i) as [->|Nj]; [|exists oj; rewrite J4 by exact Nj; auto]. rewrite I3 in Ej. injection Ej as <-. now exists o4.
      + destruct (D4 j v E) as [oj [kj [Ej [Gj Lj]]]]. destruct (Nat.eq_dec j i) as [->|Nj]; [|exists oj, kj; rewrite J4 by exact Nj; auto]. rewrite I3 in Ej. injection Ej as <-. now exists o4, kj.
    - intros ref Es. specialize (A1 ref Es). change (w_heap w4) with (w_heap w3). rewrite H3. exact A1.
  Qed.

  (** The metrics. *)
  Definition recordable (g : gp) (k : gp_kernel) : Prop :=
    exists e ga ge, gp_dense g = Ok e /\ flat_gradient (approx_ops (gp_f g) (gpk_lik k)) (gp_f g) = Ok ga /\
      flat_gradient (exact_ops (gp_f g) e) (gp_f g) = Ok ge /\ length ga = length ge /\ ga <> [].

  Lemma inf_norm_ok v : v <> [] -> exists r, inf_norm v = Ok r.
  Proof. destruct v; [congruence|]. cbn. eauto. Qed.

  Lemma record_ok i o k w : w_inst w i = Some o -> in_kernel o = Some k -> consistent w -> recordable (in_gp o) k -> snd (st_record i w) = Ok tt.
  Proof.
    intros H Hk C (e & ga & ge & He & Ha & Hg & HL & NE). unfold st_record. rewrite (mbind_eq _ _ w w (Ok o)) by (unfold self_; now rewrite H).
    destruct (in_metrics o) as [rf|]; [|reflexivity]. cbv zeta.
    destruct (y_kernel solve i o k Hk w C H) as [w0 [E0 [[Q0 _] C0]]]. rewrite (mbind_eq _ _ _ _ _ E0).
    assert (I0 : w_inst w0 i = Some o) by now rewrite Q0.
    destruct (y_dense solve i o w0 C0 I0) as [w1 [E1 [[Q1 _] C1]]]. rewrite (mbind_eq _ _ _ _ _ E1). rewrite He.
    rewrite (mbind_eq _ _ w1 w1 _ eq_refl), Ha. rewrite (mbind_eq _ _ w1 w1 _ eq_refl), Hg.
    assert (NE' : ge <> []) by (intros ->; destruct ga; [congruence|discriminate HL]).
    destruct (inf_norm_ok ga NE) as [na Ena]. destruct (inf_norm_ok ge NE') as [ne Ene].
    rewrite (mbind_eq _ _ w1 w1 _ eq_refl), Ena. rewrite (mbind_eq _ _ w1 w1 _ eq_refl), Ene.
    rewrite (mbind_eq _ _ w1 w1 _ eq_refl). rewrite HL, Nat.eqb_refl.
    destruct (inf_norm_ok (vsub ga ge)) as [nd End]. { destruct ga; [congruence|]. destruct ge; [congruence|]. discriminate. }
    rewrite End.
    match goal with |- context [mbind (on_metrics rf ?u) _ w1] => pose (w2 := fst (on_metrics rf u w1)); rewrite (mbind_eq _ _ w1 w2 (Ok tt)) by reflexivity end.
    match goal with |- context [mbind (on_metrics rf ?u) _ w2] => pose (w3 := fst (on_metrics rf u w2)); rewrite (mbind_eq _ _ w2 w3 (Ok tt)) by reflexivity end.
    assert (C3 : consistent w3) by (split; apply C1). assert (I3 : w_inst w3 i = Some o) by (change (w_inst w3) with (w_inst w1); now rewrite Q1).
    destruct (y_log_lik solve i o k Hk w3 C3 I3) as [w4 [E4 _]]. rewrite (mbind_eq _ _ _ _ _ E4).
    assert (EL : exists u, gp_log_likelihood (in_gp o) k = Ok u).
    { unfold gp_log_likelihood, gp_log_det_K. rewrite He. cbn [bind]. destruct (Rle_dec _ 0); cbn [bind]; eauto. }
    destruct EL as [u Eu]. rewrite Eu. reflexivity.
  Qed.

  Lemma record_err i o k w e ref : w_inst w i = Some o -> in_kernel o = Some k -> consistent w -> in_metrics o = Some ref -> gp_dense (in_gp o) = Err e ->
    exists w1, st_record i w = (w1, Err e) /\ w_heap w1 = w_heap w /\ w_inst w1 = w_inst w.
  Proof.
    intros H Hk C Em He. unfold st_record. rewrite (mbind_eq _ _ w w (Ok o)) by (unfold self_; now rewrite H). rewrite Em. cbv zeta.
    destruct (y_kernel solve i o k Hk w C H) as [w0 [E0 [[Q0 [_ [H0 _]]] C0]]]. rewrite (mbind_eq _ _ _ _ _ E0).
    assert (I0 : w_inst w0 i = Some o) by now rewrite Q0.
    destruct (y_dense solve i o w0 C0 I0) as [w1 [E1 [[Q1 [_ [H1 _]]] C1]]]. rewrite (mbind_eq _ _ _ _ _ E1). rewrite He.
    exists w1. split; [reflexivity|]. split; congruence.
  Qed.

  (** A sound model is fitted without an exception. *)
  Lemma sound_fit g lo hi m bits old : (0 < n_it)%nat -> gp_ready g lo hi m -> proper (gp_f g) -> exact_solver (n_obs g) (K_fit g) solve ->
    slots_fit old (gp_f g) -> In bits (draws n_it (n_obs g)) ->
    exists k s, pc bits n_it g old = Ok (k, s) /\ slots_fit s (gp_f g) /\ recordable g k.
  Proof.
    intros Hn HR Hp Hs (O1 & O2 & O3) Hb. pose proof (K_fit_pd g lo hi m HR Hp) as Hpd.
    set (f := gp_f g) in *. set (P := mg_P (gp_data g)). set (Ys := mg_Ys (gp_data g)). set (lens := map (@length R) Ys).
    pose proof (rd_ok g lo hi m HR) as Hok. pose proof (rd_P g lo hi m HR) as HP. fold f in Hok, HP.
    destruct (gen_K_op f P _ _ (G_of (gp_grids g)) (W_of (gp_grids g)) _ lens Hok HP (rd_Pp g lo hi m HR) (gr_kern _ _ _ _ HR)
       (rd_D g lo hi m HR) (rd_n g lo hi m HR) (kr_interp g lo hi m HR)) as [Ko [gks [EK RK]]].
    assert (HY : length Ys = f_D f) by exact (eq_trans (eq_sym (map_length _ _)) (rd_D g lo hi m HR)).
    destruct (C56_expected_gradients f P (grids_dists (gp_grids g)) (grids_interps (gp_grids g)) Ys (G_of (gp_grids g)) (W_of (gp_grids g)) _ n_it solve Ko
       (gr_reach _ _ _ _ HR) HP (rd_Pp g lo hi m HR) (gr_kern _ _ _ _ HR) HY (rd_n g lo hi m HR) Hn (kr_interp g lo hi m HR) Hpd (Hs Ko RK))
      as [dg [H0 _]].
    destruct (H0 bits Hb) as [l [El [Eg SH]]]. pose proof SH as [[L1 _] [[L2 _] [[L3 L3'] _]]].
    destruct (C54_update_gradient f P (dg bits) old (gr_reach _ _ _ _ HR) HP (rd_Pp g lo hi m HR) L1 L2 L3 L3' O1 O2 O3) as [new [En [_ [N1 [N2 [N3 _]]]]]].
    exists (mk_gpk l gks), new. split; [|split; [now repeat split|]].
    - unfold parameters_changed. fold f Ys lens. rewrite EK. cbn [bind]. rewrite El. cbn [bind]. rewrite Eg. cbn [bind]. rewrite En. reflexivity.
    - destruct (dense_ok g lo hi m HR (K_obs_pdR g lo hi m HR Hp)) as [e [He _]].
      assert (He' : exact_init f (mg_Xs (gp_data g)) Ys = Ok e) by exact He.
      destruct (C28_exact_gradients f P (mg_Xs (gp_data g)) Ys e (gr_reach _ _ _ _ HR) HP (rd_Pp g lo hi m HR) (gr_kern _ _ _ _ HR) (dims_rangeR g lo hi m HR)
        (da_in _ _ _ _ _ _ _ (gr_data _ _ _ _ HR)) HY He') as [ge [Ege [G1 [G2 [G3 [G4 _]]]]]].
      assert (SHe : shaped f ge) by (split; [exact G1|]; split; [exact G2|]; split; [exact G3|exact G4]).
      assert (SHa : shaped f (dg bits)) by exact SH.
      assert (HQ : (0 < f_Q f)%nat) by exact (ok_Q _ Hok).
      exists e. eexists _, _. fold f. split; [exact He|]. split; [apply (flat_ok _ _ _ HQ Eg SHa)|]. split; [apply (flat_ok _ _ _ HQ Ege SHe)|].
      split; [exact (flat_len _ _ _ SHa SHe)|]. intros C. apply (f_equal (@length R)) in C. rewrite !app_length in C. cbn [length] in C.
      destruct SHa as (_ & _ & _ & L4). pose proof (ok_D _ Hok). unfold vec in *. lia.
  Qed.

  Lemma pc_sound i o bits w lo hi m : (0 < n_it)%nat -> w_inst w i = Some o -> gp_ready (in_gp o) lo hi m -> proper (gp_f (in_gp o)) -> exact_solver (n_obs (in_gp o)) (K_fit (in_gp o)) solve ->
    slots_fit (in_slots o) (gp_f (in_gp o)) -> In bits (draws n_it (n_obs (in_gp o))) ->
    exists w1 o1, st_pc i bits w = (w1, Ok tt) /\ w_inst w1 i = Some o1 /\ in_gp o1 = in_gp o /\ slots_fit (in_slots o1) (gp_f (in_gp o)) /\ in_kernel o1 <> None /\
      forall j, j <> i -> w_inst w1 j = w_inst w j.
  Proof.
    intros Hn H HR Hp Hs Hf Hb. destruct (sound_fit (in_gp o) lo hi m bits (in_slots o) Hn HR Hp Hs Hf Hb) as [k [s [Epc [Hsl Hrec]]]].
    pose proof Hrec as (e & _ & _ & He & _).
    destruct (pc_run i o bits w k s H Epc (or_intror (ex_intro _ e He))) as [w4 [E4 [C4 [I4 _]]]].
    destruct (record_step solve i _ k w4 I4 eq_refl C4) as [w5 [r [E5 [Q5 _]]]].
    pose proof (record_ok i _ k w4 I4 eq_refl C4 Hrec) as Er. rewrite E5 in Er. cbn [snd] in Er. subst r.
    destruct (pc_step solve info n_it debug i o bits w H) as (w' & r' & E' & _ & _ & J' & _). rewrite E4, E5 in E'. injection E' as <- <-.
    exists w5. eexists. split; [now rewrite E4|]. split; [rewrite Q5; exact I4|]. split; [reflexivity|]. split; [exact Hsl|]. split; [discriminate|exact J'].
  Qed.
End S.
