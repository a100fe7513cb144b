(** The gradients of ApproxLMCLikelihood with any solver. *)

From Coq Require Import Reals List Arith ZArith Lia Lra.
From Coquelicot Require Import Coquelicot.
From Verif Require Import Base NDArray PSD Model_Util Proofs_Util Spec_Util Model_Linalg Spec_Linalg Proofs_Linalg Model_Interp Spec_Interp
  Proofs_Sparse Proofs_Interp Proofs_Interp2 Proofs_Bicubic Proofs_Assemble Proofs_Autogrid Properties_Interp Model_Kern Spec_Kern Proofs_Kern Proofs_KernPSD Model_FK Spec_FK Proofs_FK
  Properties_FK Model_Grid Spec_Grid Proofs_Grid Proofs_Grid2 Det Proofs_Det Model_Lik Spec_Lik Proofs_Lik Proofs_Lik2 Proofs_Lik3 Proofs_Lik4 Proofs_Lik5 Proofs_Lik6 Proofs_Lik7 Properties_Lik
  Properties_Lik2 Spec_GP Proofs_Gen Proofs_Gen2 Properties_Gen Model_GP Spec_Pred Proofs_Pred Proofs_Pred2 Proofs_Pred3 Proofs_Pred4 Proofs_Init Proofs_Pred6
  Model_Opt Spec_Opt Proofs_Opt Spec_Acc Proofs_Acc.
Import ListNotations.
Open Scope R_scope.

Lemma is_derive_replace (h : R -> R) (t a b : R) : is_derive h t a -> b = a -> is_derive h t b.
Proof. now intros H ->. Qed.

(** What the derivative service makes of the matrix [F]. *)
Definition est (n : nat) (s : stoch_deriv) (F : nat -> nat -> R) : R :=
  Model_Lik.derivative (Rsum n (fun i => vget (sd_alpha s) i * Rsum n (fun j => F i j * vget (sd_alpha s) j)))
    (lsum (map (fun p => Rsum n (fun i => vget (snd p) i * Rsum n (fun j => F i j * vget (fst p) j))) (combine (sd_rs s) (sd_inv_rs s))) / INR (sd_n_it s)).

Record sd_sized (n k : nat) (s : stoch_deriv) : Prop := {
  sz_alpha : length (sd_alpha s) = n;
  sz_rs : List.Forall (fun r => length r = n) (sd_rs s);
  sz_inv : List.Forall (fun r => length r = n) (sd_inv_rs s);
  sz_it : sd_n_it s = k
}.

Lemma generate_sized n k solve Ko bits y : returns n (solve Ko) -> length y = n -> In bits (draws k n) ->
  exists s, sd_generate solve bits k Ko y = Ok s /\ sd_sized n k s.
Proof.
  intros Hs Hy Hb. apply draws_in in Hb. destruct Hb as [_ Hb]. unfold sd_generate. cbn [map_result].
  destruct (Hs y Hy) as [xy [Ey Ly]]. rewrite Ey. cbn [bind].
  change (map (map (fun b : bool => (if b then 1 else 0) * 2 - 1)) bits) with (map signs bits).
  assert (HS : List.Forall (fun r => length r = n) (map signs bits) /\ exists inv, map_result (solve Ko) (map signs bits) = Ok inv /\ List.Forall (fun r => length r = n) inv).
  { induction bits as [|r bits IH]; [split; [constructor|exists []; split; [reflexivity|constructor]]|].
    destruct IH as [H1 [inv [Ei Hi]]]; [intros; apply Hb; now right|]. cbn [map map_result].
    assert (Lr : length (signs r) = n) by (rewrite signs_length; apply Hb; now left).
    destruct (Hs (signs r) Lr) as [x [Ex Lx]]. split; [now constructor|]. rewrite Ex. cbn [bind]. rewrite Ei. cbn [bind].
    exists (x :: inv). split; [reflexivity|now constructor]. }
  destruct HS as [H1 [inv [Ei Hi]]]. rewrite Ei. cbn [bind]. eexists. split; [reflexivity|]. constructor; auto.
Qed.

Section Approx.
Variables (f : fkernel) (P : nat) (dists : dict ndarr) (interps : interpolants) (G : dims -> ndarr) (W WT : dims -> sparse) (Ys : list vec).
Let lens := map (@length R) Ys.
Let n := nsum lens.
Hypothesis Hok : fk_ok f.
Hypothesis HP : f_P f = Some P.
Hypothesis HPp : (0 < P)%nat.
Hypothesis Hker : kernels_ok f.
Hypothesis HY : length Ys = f_D f.
Hypothesis Hn : (0 < n)%nat.
Hypothesis HG : forall ad, group f ad <> [] -> dict_get dists ad = Ok (G ad) /\ dists_ok (G ad) /\
  dict_get interps ad = Ok (W ad, WT ad) /\ interp_ok n (f_D f * nprod (a_shape (G ad))) (W ad) (WT ad).

Let Gq q := G (qdims f q).
Let mq q := nprod (a_shape (Gq q)).
Let mq_pos' q : (q < f_Q f)%nat -> (0 < mq q)%nat := mq_pos f P dists interps G W WT Ys Hok HP HG q.

Section Gen.
Variables (k : nat) (l : approx_lik) (s : stoch_deriv) (Ko : Mat).
Hypothesis Hk : (0 < k)%nat.
Hypothesis Hsz : sd_sized n k s.
Hypothesis Hl : approx_rep f interps G Ys l s Ko.

Lemma dL_gen o F : represents o (mk_den n n F) -> dL_dK (approx_ops f l) o = Ok (est n s F).
Proof.
  intros Ho. unfold approx_ops. cbn [dL_dK]. rewrite (ar_deriv _ _ _ _ _ _ _ Hl). unfold sd_d_logdet, sd_d_quadratic.
  rewrite (sz_it _ _ _ Hsz). destruct (Nat.eqb_spec k 0); [lia|]. cbn [bind]. f_equal. unfold est. rewrite (sz_it _ _ _ Hsz). f_equal.
  - rewrite (rep_mv _ _ Ho) by exact (sz_alpha _ _ _ Hsz). unfold np_vdot. rewrite (sz_alpha _ _ _ Hsz). apply Rsum_ext. intros i Hi.
    unfold d_apply, mat_apply. cbn [d_r d_c d_f]. now rewrite vget_tab.
  - f_equal. apply lsum_map_ext. intros [r x] Hp. cbn [fst snd]. 
    assert (Lr : length r = n) by (apply in_combine_l in Hp; pose proof (sz_rs _ _ _ Hsz) as A; rewrite Forall_forall in A; auto).
    assert (Lx : length x = n) by (apply in_combine_r in Hp; pose proof (sz_inv _ _ _ Hsz) as A; rewrite Forall_forall in A; auto).
    rewrite (rep_mv _ _ Ho) by exact Lr. unfold np_vdot. rewrite Lx. apply Rsum_ext. intros i Hi.
    unfold d_apply, mat_apply. cbn [d_r d_c d_f]. now rewrite vget_tab.
Qed.

Lemma gradients_gen : all_gradients (approx_ops f l) f = Ok (mk_grads
  (tab (f_Q f) (fun q => mk (length (nth q (f_vecs f) [])) (f_D f) (fun r d => est n s (F_vec f G W q r d))))
  (tab (f_Q f) (fun q => tab (f_D f) (fun d => est n s (F_diag f G W q d))))
  (tab (f_Q f) (fun q => tab (length (params (kern_of f q))) (fun j => est n s (F_kparam f G W q j))))
  (tab (f_D f) (fun d => est n s (F_noise f Ys d)))).
Proof.
  unfold all_gradients.
  assert (E1 : coreg_vec_gradients (approx_ops f l) f = Ok (tab (f_Q f) (fun q => mk (length (nth q (f_vecs f) [])) (f_D f) (fun r d => est n s (F_vec f G W q r d))))).
  { unfold coreg_vec_gradients. rewrite (@combine_seq mx _ []), map_result_map, (ok_nvecs _ Hok). cbn [fst snd].
    apply map_result_tab. intros q Hq.
    rewrite (list_as_tab [] (nth q (f_vecs f) [])) at 1. unfold tab at 1. rewrite map_result_map.
    apply map_result_tab. intros r Hr. apply map_result_tab. intros j Hj.
    rewrite (mx_self (f_D f) (f_D f) (dA_vec (f_D f) (nth r (nth q (f_vecs f) []) []) j)) by apply mk_is_mx.
    destruct (approx_dA_ok f P dists interps G W WT Ys Hok HP Hn HG l s Ko Hl (mget (dA_vec (f_D f) (nth r (nth q (f_vecs f) []) []) j)) q Hq) as [o [Eo Ho]].
    rewrite Eo. cbn [bind]. apply dL_gen. exact Ho. }
  assert (E2 : coreg_diags_gradients (approx_ops f l) f = Ok (tab (f_Q f) (fun q => tab (f_D f) (fun d => est n s (F_diag f G W q d))))).
  { unfold coreg_diags_gradients. apply map_result_tab. intros q Hq. apply map_result_tab. intros d Hd.
    rewrite (mx_self (f_D f) (f_D f) (dA_diag (f_D f) d)) by apply mk_is_mx.
    destruct (approx_dA_ok f P dists interps G W WT Ys Hok HP Hn HG l s Ko Hl (mget (dA_diag (f_D f) d)) q Hq) as [o [Eo Ho]]. rewrite Eo. cbn [bind]. apply dL_gen. exact Ho. }
  assert (E3 : kernel_gradients (approx_ops f l) f = Ok (tab (f_Q f) (fun q => tab (length (params (kern_of f q))) (fun j => est n s (F_kparam f G W q j))))).
  { unfold kernel_gradients. rewrite (coreg_mats_all f Hok). cbn [bind].
    rewrite (@combine_seq mx _ []), map_result_map, tab_length. cbn [fst snd].
    apply map_result_tab. intros q Hq. rewrite nth_tab by exact Hq.
    destruct (approx_dKq_ok f P dists interps G W WT Ys Hok HP Hn HG l s Ko Hl (B_of f q) q Hq) as [os [Eos Hos]]. rewrite Eos. cbn [bind].
    clear Eos. unfold tab. induction Hos as [|j o js os Ho _ IH]; [reflexivity|].
    cbn [map_result]. rewrite (dL_gen o _ Ho). cbn [bind]. rewrite IH. reflexivity. }
  assert (E4 : noise_gradient (approx_ops f l) f = Ok (tab (f_D f) (fun d => est n s (F_noise f Ys d)))).
  { unfold noise_gradient. rewrite (ok_noise _ Hok).
    rewrite (map_result_tab _ (fun d => est n s (F_noise f Ys d))).
    - cbn [bind]. rewrite Nat.sub_diag. cbn [repeat]. rewrite app_nil_r. reflexivity.
    - intros d Hd. destruct (approx_dEps_ok f interps G Ys HY Hn l s Ko Hl (d_noise (f_D f) d)) as [o [Eo Ho]]; [apply tab_length|].
      rewrite Eo. cbn [bind]. rewrite (dL_gen o _ Ho). cbn [bind]. destruct (Nat.ltb_spec d (f_D f)); [reflexivity|lia]. }
  rewrite E1. cbn [bind]. rewrite E2. cbn [bind]. rewrite E3. cbn [bind]. rewrite E4. reflexivity.
Qed.
End Gen.

(** *** The matrices of derivatives *)

Lemma ski_derive fam t dB dk dn E i j : family f fam t dB dk dn -> (forall s, f_D (fam s) = f_D f) ->
  is_derive (fun s => K_ski (fam s) G W lens i j + E) t
    (Rsum (f_Q f) (fun q => ski_entry (W (qdims f q)) (f_D f) (mq q) (dB q) (K_grid f (Gq q) q) i j
        + ski_entry (W (qdims f q)) (f_D f) (mq q) (B_of f q) (bttb_entry (map (dk q) (a_data (Gq q))) (a_shape (Gq q))) i j)
    + (if Nat.eqb i j then dn (owner lens i) else 0)).
Proof.
  intros [F1 F2 F3 F4 F5 F6] FD. rewrite <- (Rplus_0_r (_ + _)).
  apply (is_derive_plus (fun s => K_ski (fam s) G W lens i j) (fun _ => E)); [|apply derive_const]. unfold K_ski.
  apply (is_derive_plus (fun s => Rsum (f_Q (fam s)) _) (fun s => if Nat.eqb i j then vget (f_noise (fam s)) (owner lens i) else 0)).
  + apply (is_derive_ext (fun s => Rsum (f_Q f) (fun q => ski_entry (W (qdims f q)) (f_D f) (mq q) (B_of (fam s) q) (K_grid (fam s) (Gq q) q) i j))).
    { intros s. rewrite F1. apply Rsum_ext. intros q _. rewrite F2, FD. reflexivity. }
    apply (is_derive_Rsum (f_Q f) (fun q s => ski_entry (W (qdims f q)) (f_D f) (mq q) (B_of (fam s) q) (K_grid (fam s) (Gq q) q) i j)).
    intros q Hq.
    pose proof (ski_entry_derive (W (qdims f q)) (f_D f) (mq q) (fun s => B_of (fam s) q) (fun s => K_grid (fam s) (Gq q) q) t
                  (dB q) (bttb_entry (map (dk q) (a_data (Gq q))) (a_shape (Gq q))) i j (mq_pos' q Hq)) as H.
    cbv beta in H. rewrite F3 in H. apply H.
    * intros x y Hx Hy. now apply F4.
    * intros x y. unfold K_grid, bttb_entry. apply (vget_map_derive (fun s r => k_doc (kern_of (fam s) q) r) (dk q)). intros r. now apply F5.
  + destruct (Nat.eqb i j); [apply F6|apply derive_const].
Qed.

Definition F_par (p : par) : nat -> nat -> R :=
  match p with
  | PVec q r d => F_vec f G W q r d
  | PDiag q d => F_diag f G W q d
  | PKern q j => F_kparam f G W q j
  | PNoise d => F_noise f Ys d
  end.

Let own_lt : forall i, (i < n)%nat -> (owner lens i < f_D f)%nat.
Proof. intros i Hi. rewrite <- HY. replace (length Ys) with (length lens) by (unfold lens; apply map_length). now apply owner_lt. Qed.

Lemma spurious_par p v : has_par f p -> spurious (with_par f p v) G W = spurious f G W.
Proof.
  destruct p; cbn [has_par with_par].
  - intros [Hq _]. apply spurious_vec. now rewrite (ok_nvecs _ Hok).
  - intros _. apply spurious_diag.
  - intros [Hq _]. now apply spurious_kparam.
  - intros _. apply spurious_noise.
Qed.

Lemma par_derive p i j : has_par f p -> (i < n)%nat -> (j < n)%nat ->
  is_derive (fun v => K_op (with_par f p v) G W lens i j) (par_value f p) (F_par p i j).
Proof.
  intros Hp Hi Hj.
  apply (is_derive_ext (fun v => K_ski (with_par f p v) G W lens i j + spurious f G W i j)).
  { intros v. unfold K_op. now rewrite (spurious_par p v Hp). }
  destruct p; cbn [has_par with_par par_value F_par] in *.
  - destruct Hp as [Hq [Hr Hd]]. eapply is_derive_replace; [exact (ski_derive _ _ _ _ _ _ i j (vec_family f Hok q r d Hq Hr Hd) (fun _ => eq_refl))|].
    rewrite (one_term f _ q Hq).
    + rewrite Nat.eqb_refl. rewrite ski_zero_bttb by now apply mq_pos'. unfold F_vec.
      rewrite (ski_entry_ext _ _ _ _ (fun a0 b => (if Nat.eqb a0 d then mget (nth q (f_vecs f) []) r b else 0) + (if Nat.eqb b d then mget (nth q (f_vecs f) []) r a0 else 0)) _ (K_grid f (Gq q) q)); auto.
      * destruct (Nat.eqb i j); unfold mq, Gq; ring.
      * now apply mq_pos'.
      * intros x y Hx Hy. rewrite dA_vec_entry by assumption. reflexivity.
    + intros q' Hq' Hne. rewrite ski_zero_bttb by now apply mq_pos'. destruct (Nat.eqb_spec q' q); [contradiction|].
      rewrite ski_entry_zero_l. ring.
  - destruct Hp as [Hq Hd]. eapply is_derive_replace; [exact (ski_derive _ _ _ _ _ _ i j (diag_family f Hok q d Hq Hd) (fun _ => eq_refl))|].
    rewrite (one_term f _ q Hq).
    + rewrite Nat.eqb_refl. rewrite ski_zero_bttb by now apply mq_pos'. unfold F_diag.
      rewrite (ski_entry_ext _ _ _ _ (fun a0 b => if (Nat.eqb a0 d && Nat.eqb b d)%bool then 1 else 0) _ (K_grid f (Gq q) q)); auto.
      * destruct (Nat.eqb i j); unfold mq, Gq; ring.
      * now apply mq_pos'.
      * intros x y Hx Hy. unfold dA_diag. now rewrite mget_mk.
    + intros q' Hq' Hne. rewrite ski_zero_bttb by now apply mq_pos'. destruct (Nat.eqb_spec q' q); [contradiction|].
      rewrite ski_entry_zero_l. ring.
  - destruct Hp as [Hq Hl]. rename j0 into l. eapply is_derive_replace; [exact (ski_derive _ _ _ _ _ _ i j (kparam_family f Hok q l (proj1 (Hker q Hq)) Hq Hl) (fun _ => eq_refl))|].
    rewrite (one_term f _ q Hq).
    + rewrite Nat.eqb_refl, ski_entry_zero_l. unfold F_kparam. destruct (Nat.eqb i j); unfold mq, Gq; ring.
    + intros q' Hq' Hne. destruct (Nat.eqb_spec q' q); [contradiction|]. rewrite ski_zero_bttb by now apply mq_pos'.
      rewrite ski_entry_zero_l. ring.
  - eapply is_derive_replace; [exact (ski_derive _ _ _ _ _ _ i j (noise_family f Hok d Hp) (fun _ => eq_refl))|].
    rewrite Rsum_zero.
    + unfold F_noise, d_noise. destruct (Nat.eqb i j); [|ring]. rewrite vget_tab by auto. now rewrite Rplus_0_l.
    + intros q Hq. rewrite ski_entry_zero_l, ski_zero_bttb by now apply mq_pos'. ring.
Qed.

End Approx.

(** ** Fitting with any solver *)

Section Fit.
Variables (g : gp) (lo hi : grid_arg R) (m : grid_arg nat).
Hypothesis HR : gp_ready g lo hi m.
Let f := gp_f g.
Let P := mg_P (gp_data g).
Let Ys := mg_Ys (gp_data g).
Let lens := map (@length R) Ys.
Let n := nsum lens.
Let Hok : fk_ok f := rd_ok g lo hi m HR.
Let HP : f_P f = Some P := rd_P g lo hi m HR.

Definition F_fit (p : par) : nat -> nat -> R := F_par f (G_of (gp_grids g)) (W_of (gp_grids g)) Ys p.

Lemma fit_derive p i j : has_par f p -> (i < n)%nat -> (j < n)%nat ->
  is_derive (fun v => K_fit (with_params g (with_par f p v)) i j) (par_value f p) (F_fit p i j).
Proof.
  intros Hp Hi Hj. unfold K_fit, with_params, F_fit. cbn [gp_f gp_grids gp_data].
  eapply (par_derive f P); try eassumption.
  - exact (gr_kern _ _ _ _ HR).
  - exact (eq_trans (eq_sym (map_length _ _)) (rd_D g lo hi m HR)).
  - exact (kr_interp g lo hi m HR).
Qed.

Lemma fit_gen solve k old bits : (forall Ko, represents Ko (mk_den n n (K_fit g)) -> returns n (solve Ko)) -> (0 < k)%nat -> In bits (draws k n) ->
  length (s_vecs old) = f_Q f -> length (s_diags old) = f_Q f -> length (s_kernels old) = f_Q f ->
  exists Ko s kk new, represents Ko (mk_den n n (K_fit g)) /\ sd_generate solve bits k Ko (concat Ys) = Ok s /\ sd_sized n k s /\
    parameters_changed solve bits k g old = Ok (kk, new) /\ al_K (gpk_lik kk) = Ko /\ al_deriv (gpk_lik kk) = s /\
    forall p, has_par f p -> slot new p = est n s (F_fit p).
Proof.
  intros Hs Hk Hb O1 O2 O3.
  destruct (gen_K_op f P _ _ (G_of (gp_grids g)) (W_of (gp_grids g)) _ lens Hok HP (rd_Pp g lo hi m HR) (gr_kern _ _ _ _ HR)
     (rd_D g lo hi m HR) (rd_n g lo hi m HR) (kr_interp g lo hi m HR)) as [Ko [gks [EK RK]]].
  assert (HY : length Ys = f_D f) by exact (eq_trans (eq_sym (map_length _ _)) (rd_D g lo hi m HR)).
  destruct (generate_sized n k solve Ko bits (concat Ys) (Hs Ko RK) (length_concat Ys) Hb) as [s [Es Hz]].
  destruct (approx_init_ok f P (grids_dists (gp_grids g)) (grids_interps (gp_grids g)) (G_of (gp_grids g)) (W_of (gp_grids g)) _ Ys Hok HP
     (rd_Pp g lo hi m HR) (gr_kern _ _ _ _ HR) HY (rd_n g lo hi m HR) (kr_interp g lo hi m HR) solve bits k Ko s Es) as [l [El Hl]].
  pose proof (gradients_gen f P (grids_dists (gp_grids g)) (grids_interps (gp_grids g)) (G_of (gp_grids g)) (W_of (gp_grids g)) _ Ys Hok HP (rd_Pp g lo hi m HR) HY
     (rd_n g lo hi m HR) (kr_interp g lo hi m HR) k l s Ko Hk Hz Hl) as Eg.
  set (dg := mk_grads _ _ _ _) in Eg.
  destruct (C54_update_gradient f P dg old (gr_reach _ _ _ _ HR) HP (rd_Pp g lo hi m HR)) as [new [En [Hn [_ [_ [_ H]]]]]]; try assumption;
    try (unfold dg; cbn [g_vecs g_diags g_kernels]; apply tab_length).
  { intros q Hq. unfold dg. cbn [g_kernels]. rewrite nth_tab by exact Hq. apply tab_length. }
  exists Ko, s, (mk_gpk l gks), new. split; [exact RK|]. split; [exact Es|]. split; [exact Hz|]. split; [|split; [|split]].
  - unfold parameters_changed. fold f Ys lens. rewrite EK. cbn [bind]. rewrite El. cbn [bind]. fold f in Eg. rewrite Eg. cbn [bind]. rewrite En. reflexivity.
  - exact (ar_K _ _ _ _ _ _ _ Hl).
  - exact (ar_deriv _ _ _ _ _ _ _ Hl).
  - intros [q r d|q d|q j|d]; cbn [has_par slot]; intros Hp; unfold F_fit; cbn [F_par].
    + destruct Hp as [Hq [Hr Hd]]. destruct (H q Hq) as [-> _]. unfold dg. cbn [g_vecs]. rewrite nth_tab by exact Hq. now rewrite mget_mk.
    + destruct Hp as [Hq Hd]. destruct (H q Hq) as [_ [-> _]]. unfold dg. cbn [g_diags]. rewrite nth_tab by exact Hq. now rewrite vget_tab.
    + destruct Hp as [Hq Hj]. destruct (H q Hq) as [_ [_ [_ ->]]]. unfold dg. cbn [g_kernels]. rewrite nth_tab by exact Hq. now rewrite nth_tab.
    + rewrite Hn. unfold dg. cbn [g_noise]. now rewrite vget_tab.
Qed.
End Fit.

(** ** Errors of the estimates *)

Lemma vget_signs_eq r : forall j, vget (signs r) j = vget (map (fun b : bool => (if b then 1 else 0) * 2 - 1) r) j.
Proof. reflexivity. Qed.

Section Est.
Variables (n k : nat) (K X F : nat -> nat -> R) (Ko : Mat) (solve : Mat -> vec -> result vec) (y : vec) (a : nat -> R) (c eps M : R).
Hypothesis Hk : (0 < k)%nat.
Hypothesis Hs : 0 < c.
Hypothesis HK : forall x, c * nrm2 n x <= qf n K x.
Hypothesis Hinv : is_inv n K X.
Hypothesis Hsolve : solves_within eps n K (solve Ko).
Hypothesis Hy : length y = n.
Hypothesis Ha : forall i, (i < n)%nat -> Rsum n (fun j => K i j * a j) = vget y i.
Hypothesis HM : op_bound n F M.

Definition est_true (bits : list (list bool)) : R :=
  Model_Lik.derivative (Rsum n (fun i => Rsum n (fun j => a i * F i j * a j))) (lsum (map (trace_term n X F) bits) / INR k).

Lemma est_err bits s : In bits (draws k n) -> sd_generate solve bits k Ko y = Ok s ->
  Rabs (est n s F - est_true bits) <= M * (eps / c) * (norm2 n (vget y) / c + eps / c / 2 + sqrt (INR n) / 2).
Proof.
  intros Hb Es. apply draws_in in Hb. destruct Hb as [Lb Hb]. unfold sd_generate in Es. cbn [map_result] in Es.
  destruct (Hsolve y Hy) as [xy [Ey [Ly Hxy]]]. rewrite Ey in Es. cbn [bind] in Es.
  change (map (map (fun b : bool => (if b then 1 else 0) * 2 - 1)) bits) with (map signs bits) in Es.
  set (B := M * sqrt (INR n) * (eps / c)).
  assert (HS : exists inv, map_result (solve Ko) (map signs bits) = Ok inv /\
     Rabs (lsum (map (fun p => Rsum n (fun i => vget (snd p) i * Rsum n (fun j => F i j * vget (fst p) j))) (combine (map signs bits) inv)) - lsum (map (trace_term n X F) bits)) <= INR (length bits) * B).
  { clear Lb Es. induction bits as [|r bits IH].
    - exists []. split; [reflexivity|]. cbn. unfold lsum. cbn. rewrite Rminus_0_r, Rabs_R0. lra.
    - destruct IH as [inv [Ei Hi]]; [intros; apply Hb; now right|]. cbn [map map_result].
      assert (Lr : length r = n) by (apply Hb; now left). assert (Lr' : length (signs r) = n) by now rewrite signs_length.
      destruct (Hsolve (signs r) Lr') as [x [Ex [Lx Hx]]]. rewrite Ex. cbn [bind]. rewrite Ei. cbn [bind].
      exists (x :: inv). split; [reflexivity|]. cbn [combine map length]. unfold lsum in *. cbn [fold_right fst snd].
      rewrite S_INR. pose proof (probe_err n K X F c eps M Hs HK Hinv HM r x Lr Hx) as H1. fold B in H1.
      match goal with |- Rabs (?u + ?v - (?w + ?z)) <= _ => replace (u + v - (w + z)) with ((u - w) + (v - z)) by ring end.
      eapply Rle_trans; [apply Rabs_triang|]. lra. }
  destruct HS as [inv [Ei Hi]]. rewrite Ei in Es. cbn [bind] in Es. apply Ok_inj in Es. subst s.
  unfold est, est_true, Model_Lik.derivative. cbn [sd_n_it sd_rs sd_inv_rs sd_alpha].
  pose proof (quad_err n K F y a c eps M Hs HK Ha HM xy Hxy) as HQ.
  set (q1 := Rsum n (fun i => vget xy i * Rsum n (fun j => F i j * vget xy j))) in *. set (q0 := Rsum n (fun i => Rsum n (fun j => a i * F i j * a j))) in *.
  set (l1 := lsum (map _ (combine (map signs bits) inv))) in *. set (l0 := lsum (map (trace_term n X F) bits)) in *.
  assert (HL : Rabs (l1 / INR k - l0 / INR k) <= B).
  { rewrite Lb in Hi. assert (Pk : 0 < INR k) by (apply lt_0_INR; lia).
    replace (l1 / INR k - l0 / INR k) with ((l1 - l0) * / INR k) by (unfold Rdiv; ring).
    rewrite Rabs_mult. rewrite (Rabs_right (/ INR k)) by (left; now apply Rinv_0_lt_compat).
    apply Rmult_le_reg_r with (INR k); [exact Pk|]. rewrite Rmult_assoc, Rinv_l, Rmult_1_r by lra. lra. }
  replace (1 / 2 * (q1 - l1 / INR k) - 1 / 2 * (q0 - l0 / INR k)) with (1 / 2 * (q1 - q0) + - (1 / 2) * (l1 / INR k - l0 / INR k)) by ring.
  eapply Rle_trans; [apply Rabs_triang|]. rewrite !Rabs_mult, Rabs_Ropp. rewrite !(Rabs_right (1 / 2)) by lra.
  unfold B in HL. set (t := eps / c) in *. set (N := norm2 n (vget y) / c) in *. lra.
Qed.
End Est.

Lemma exact_within n K solve : solves_exactly n K solve -> solves_within 0 n K solve.
Proof.
  intros H b Hb. destruct (H b Hb) as [x [E [L S]]]. exists x. split; [exact E|]. split; [exact L|]. unfold gap.
  rewrite Rsum_zero; [rewrite sqrt_0; lra|]. intros i Hi. rewrite (S i Hi). ring.
Qed.
