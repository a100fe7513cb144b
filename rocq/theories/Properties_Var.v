(** C62: the spread of the stochastic gradients. *)

From Coq Require Import Reals List Arith ZArith Lia Lra.
From Coquelicot Require Import Coquelicot.
From Verif Require Import Base NDArray PSD Model_Util Proofs_Util Spec_Util Model_Linalg Spec_Linalg Proofs_Linalg Model_Interp Spec_Interp
  Model_Kern Spec_Kern Proofs_Kern Proofs_KernPSD Model_FK Spec_FK Proofs_FK
  Properties_FK Model_Grid Spec_Grid Proofs_Grid Proofs_Grid2 Det Proofs_Det Model_Lik Spec_Lik Proofs_Lik Proofs_Lik2 Proofs_Lik3 Proofs_Lik4 Proofs_Lik5 Proofs_Lik6 Proofs_Lik7 Properties_Lik
  Properties_Lik2 Spec_GP Proofs_Gen Proofs_Gen2 Model_GP Spec_Pred Proofs_Pred Proofs_Pred2 Proofs_Pred3 Proofs_Pred4 Proofs_Init Proofs_Pred6 Properties_Pred
  Spec_Opt Spec_Acc Proofs_Acc Proofs_Acc2 Proofs_Var Proofs_Var2.
Import ListNotations.
Open Scope R_scope.

(** Over all draws of [k] probes, a gradient assigned by parameters_changed has
    the gradient [G] of the log density as its mean; its variance is that of a
    single probe divided by [k], where a single probe has the variance
    [1/8 * sum_{i <> j} (A_ij + A_ji)^2], [A = K^-1 dK/dp].  Hence at most the
    fraction [V / (k d^2)] of the draws gives a gradient off by [d] or more. *)
Theorem C62_variance :
  forall g lo hi m solve k old, gp_ready g lo hi m -> proper (gp_f g) ->
  exact_solver (n_obs g) (K_fit g) solve -> (0 < k)%nat ->
  let f := gp_f g in
  let n := n_obs g in
  length (s_vecs old) = f_Q f -> length (s_diags old) = f_Q f -> length (s_kernels old) = f_Q f ->
  exists (grads : list (list bool) -> grad_slots) (X : nat -> nat -> R),
    (forall bits, In bits (draws k n) -> exists kk, parameters_changed solve bits k g old = Ok (kk, grads bits)) /\
    (forall i j, (i < n)%nat -> (j < n)%nat -> Rsum n (fun l => K_fit g i l * X l j) = if (i =? j)%nat then 1 else 0) /\
    forall p, has_par f p -> exists G F,
      is_gradient n (fun v => K_fit (with_params g (with_par f p v))) (y_obs g) (par_value f p) G /\
      (forall i j, (i < n)%nat -> (j < n)%nat ->
         is_derive (fun v => K_fit (with_params g (with_par f p v)) i j) (par_value f p) (F i j)) /\
      mean (draws k n) (fun bits => slot (grads bits) p) = G /\
      let A := fun i j => Rsum n (fun l => X i l * F l j) in
      let V := / 8 * Rsum n (fun i => Rsum n (fun j => if (i =? j)%nat then 0 else (A i j + A j i) ^ 2)) in
      mean (draws k n) (fun bits => (slot (grads bits) p - G) ^ 2) = V / INR k /\
      forall d, 0 < d ->
        INR (length (filter (fun bits => if Rle_dec d (Rabs (slot (grads bits) p - G)) then true else false) (draws k n))) / INR (length (draws k n))
        <= V / (INR k * d ^ 2).
Proof.
  intros g lo hi m solve k old HR Hp H0 Hk f n O1 O2 O3.
  pose proof (K_fit_pd g lo hi m HR Hp) as Hpd.
  assert (Hsy : sym n (K_fit g)) by apply (K_op_sym f (mg_P (gp_data g)) (grids_dists (gp_grids g)) (grids_interps (gp_grids g)) (G_of (gp_grids g)) (W_of (gp_grids g)) _ _
      (rd_ok g lo hi m HR) (rd_P g lo hi m HR) (kr_interp g lo hi m HR)).
  assert (HPv : pivots n (K_fit g)) by (apply pos_definite_pivots; assumption).
  destruct (inv_ex n _ HPv) as [X HX]. destruct (solves_ex n _ (y_obs g) HPv) as [a Ha]. pose proof (inv_sym n _ X Hsy HX) as HXs.
  destruct (fit_ok g lo hi m HR solve k old Hp H0 Hk O1 O2 O3) as [grads (E0 & GV & GD & GK & GN)].
  exists grads, X. split; [exact E0|]. split; [intros i j Hi Hj; rewrite (HX i j Hi Hj); unfold id_f; destruct (i =? j)%nat; reflexivity|].
  intros p HPp. exists (mean (draws k n) (fun bits => slot (grads bits) p)), (F_fit g p). split; [|split; [|split; [reflexivity|]]].
  - destruct p; cbn [has_par] in HPp; [now apply GV|now apply GD|now apply GK|now apply GN].
  - intros i j Hi Hj. now apply (fit_derive g lo hi m HR).
  - intros A V. set (F := F_fit g p) in *. set (c := Rsum n (fun i => Rsum n (fun j => a i * F i j * a j))).
    assert (HS : forall bits, In bits (draws k n) -> slot (grads bits) p = 1 / 2 * (c - lsum (map (trace_term n X F) bits) / INR k)).
    { intros bits Hb. destruct (fit_gen g lo hi m HR solve k old bits (fun Ko RK => within_returns _ _ _ _ (exact_within _ _ _ (H0 Ko RK))) Hk Hb O1 O2 O3)
        as [Ko [sd [kk [new (RK & Es & Hz & Ep & _ & _ & Hsl)]]]].
      destruct (E0 bits Hb) as [kk' E1]. rewrite Ep in E1. apply Ok_inj in E1. injection E1 as _ <-. rewrite (Hsl p HPp).
      pose proof (mat_bound n F) as HM. set (M := sqrt _) in HM. destruct (K_fit_some_floor g lo hi m HR Hp) as [s [Hs HF]].
      pose proof (est_err n k (K_fit g) X F Ko solve (concat (mg_Ys (gp_data g))) a s 0 M Hk Hs HF HX (exact_within _ _ _ (H0 Ko RK)) (length_concat _) Ha HM bits sd Hb Es) as E.
      replace (0 / s) with 0 in E by (unfold Rdiv; ring). rewrite Rmult_0_r, Rmult_0_l in E.
      unfold est_true in E. fold c in E. unfold Model_Lik.derivative in E.
      match type of E with Rabs (?u - ?v) <= 0 => assert (Rabs (u - v) = 0) by (pose proof (Rabs_pos (u - v)); lra);
        destruct (Req_dec (u - v) 0) as [Z|Z]; [|apply Rabs_no_R0 in Z; contradiction]; change (u = v); lra end. }
    assert (EA : forall i j, (i < n)%nat -> A i j = Rsum n (fun l => X l i * F l j)).
    { intros i j Hi. apply Rsum_ext. intros l Hl. now rewrite (HXs i l Hi Hl). }
    set (A' := fun i j => Rsum n (fun l => X l i * F l j)) in *.
    assert (EV : V = / 4 * low2 n A').
    { unfold V. rewrite (Rsum_ext n _ (fun i => Rsum n (fun j => if (i =? j)%nat then 0 else (A' i j + A' j i) ^ 2))).
      - rewrite low2_half. field.
      - intros i Hi. apply Rsum_ext. intros j Hj. rewrite (EA i j Hi), (EA j i Hj). reflexivity. }
    assert (EG : mean (draws k n) (fun bits => slot (grads bits) p) = 1 / 2 * (c - tr n A')).
    { pose proof (trace_mean_k n k X F Hk) as HT.
      replace (tr n A') with (Rsum n (fun i => Rsum n (fun j => X i j * F i j))).
      2:{ unfold tr, A'. rewrite Rsum_swap. reflexivity. }
      rewrite <- HT. unfold mean.
      rewrite (lsum_map_ext (fun bits => slot (grads bits) p) (fun bits => 1 / 2 * c + - (1 / 2) * (lsum (map (trace_term n X F) bits) / INR k)))
        by (intros bits Hb; rewrite (HS bits Hb); ring).
      rewrite lsum_map_plus, lsum_const, lsum_map_scal.
      assert (PD : 0 < INR (length (draws k n))).
      { rewrite draws_length. apply lt_0_INR. pose proof (Nat.pow_nonzero 2 (k * n) ltac:(lia)). lia. }
      set (L := lsum _). field. lra. }
    assert (Pk : 0 < INR k) by (apply lt_0_INR; lia).
    assert (EM : mean (draws k n) (fun bits => (slot (grads bits) p - mean (draws k n) (fun bits => slot (grads bits) p)) ^ 2) = V / INR k).
    { rewrite EG, EV. transitivity (/ 4 * (low2 n A' / INR k)); [|field; lra]. assert (TV : mean (draws k n) (fun bits => (lsum (map (trace_term n X F) bits) / INR k - tr n A') ^ 2) = low2 n A' / INR k) by exact (trace_var n k X F Hk).
      rewrite <- TV. unfold mean.
      rewrite (lsum_map_ext _ (fun bits => / 4 * (lsum (map (trace_term n X F) bits) / INR k - tr n A') ^ 2)) by (intros bits Hb; rewrite (HS bits Hb); field; lra).
      rewrite lsum_map_scal. unfold Rdiv. ring. }
    split; [exact EM|]. intros d Hd.
    replace (V / (INR k * d ^ 2)) with (V / INR k / d ^ 2) by (field; split; lra). rewrite <- EM. apply chebyshev; [exact Hd|].
    intros EN; pose proof (draws_length k n) as L; rewrite EN in L; cbn [length] in L; pose proof (Nat.pow_nonzero 2 (k * n) ltac:(lia)); lia.
Qed.
Print Assumptions C62_variance.

(** A model that meets the hypotheses. *)
Example C62_ex : exists g solve old,
  gp_ready g (GNum 0) (GNum 10) (GNum 2%nat) /\ proper (gp_f g) /\ exact_solver (n_obs g) (K_fit g) solve /\
  length (s_vecs old) = f_Q (gp_f g) /\ length (s_diags old) = f_Q (gp_f g) /\ length (s_kernels old) = f_Q (gp_f g) /\
  has_par (gp_f g) (PDiag 0 1) /\ has_par (gp_f g) (PKern 1 0) /\ has_par (gp_f g) (PNoise 1).
Proof.
  destruct pos_rbf as [H1 [H2 [H3 _]]].
  destruct (ex1_model (RBF 1) (Matern32 2) OnTheFly H1 H2 I I) as
    [f [g [solve [bits [k (E & Eg & HR & Em & Hs & Hf & Hp & EQ & ED & K1 & K2 & EP & HQ & HS & Ed)]]]]].
  exists g, solve, (mk_slots (repeat [] 2) (repeat [] 2) (repeat KIdentity 2) []).
  split; [exact HR|]. split; [exact Hp|]. split; [exact Hs|]. rewrite EQ. repeat (split; [reflexivity|]).
  split; [cbn; lia|]. split; [split; [lia|rewrite K2; cbn; lia]|]. cbn; lia.
Qed.
