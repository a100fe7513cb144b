(** Properties of the likelihoods (C25, C28, C29, C54, C55). *)

From Coq Require Import Reals List Arith Lia Lra ZArith.
From Coquelicot Require Import Coquelicot.
From Verif Require Import Base NDArray PSD Det Proofs_Shur Proofs_Det Model_Util Proofs_Util Model_Linalg Spec_Linalg Proofs_Linalg
  Model_Interp Model_Kern Spec_Kern Proofs_Kern Proofs_KernPSD Model_FK Spec_FK Proofs_FK Properties_FK Model_Grid Spec_Grid Proofs_Grid Proofs_Grid2
  Model_Lik Spec_Lik Proofs_Lik Proofs_Lik2 Proofs_Lik3 Proofs_Lik4 Proofs_Lik5.
Import ListNotations.
Open Scope R_scope.

(** ** C25: kernel matrices *)

Lemma offset_lt lens a i : (a < length lens)%nat -> (i < nth a lens 0)%nat -> (nsum (firstn a lens) + i < nsum lens)%nat.
Proof.
  revert a. induction lens as [|n lens IH]; intros [|a] Ha Hi; cbn in Ha; try lia.
  - unfold nsum. cbn [firstn fold_right] in *. cbn in Hi. lia.
  - cbn [firstn]. unfold nsum. cbn [fold_right]. fold (nsum (firstn a lens)). fold (nsum lens). cbn in Hi.
    specialize (IH a ltac:(lia) Hi). lia.
Qed.

(** Row [i] of output [a] starts after the observations of the outputs before
    it; the entries are those of the linear model of coregionalization, with
    the output's noise on the diagonal. *)
Theorem C25_exact_kernel :
  forall f P Xs Ys e,
    reach f -> f_P f = Some P -> (0 < P)%nat -> kernels_ok f -> dims_in_range f P ->
    inputs P Xs (map (@length R) Ys) -> length Ys = f_D f -> exact_init f Xs Ys = Ok e ->
    let lens := map (@length R) Ys in
    a_shape (el_K e) = [nsum lens; nsum lens] /\
    (forall a b i j, (a < f_D f)%nat -> (b < f_D f)%nat -> (i < nth a lens 0)%nat -> (j < nth b lens 0)%nat ->
       vget (a_data (el_K e)) ((nsum (firstn a lens) + i) * nsum lens + (nsum (firstn b lens) + j))
       = Rsum (f_Q f) (fun q => B_of f q a b * k_doc (kern_of f q) (dist_on (qdims f q) (point P Xs a i) (point P Xs b j)))
         + (if (Nat.eqb a b && Nat.eqb i j)%bool then vget (f_noise f) a else 0)) /\
    (forall i j, (i < nsum lens)%nat -> (j < nsum lens)%nat ->
       vget (a_data (el_K e)) (i * nsum lens + j) = vget (a_data (el_K e)) (j * nsum lens + i)).
Proof.
  intros f P Xs Ys e Hf HP HPp Hk Hdr HX HY E lens. pose proof (reach_ok _ Hf) as Hok.
  destruct (exact_pivots f P Xs Ys e Hok HP HPp Hk Hdr HX HY E) as [_ Hr].
  destruct (er_K _ _ _ _ _ Hr) as [H1 [H2 H3]]. fold lens in H1, H2, H3.
  assert (HL : length lens = f_D f) by (unfold lens; rewrite map_length; exact HY).
  split; [exact H1|]. split.
  - intros a b i j Ha Hb Hi Hj. rewrite <- HL in Ha, Hb.
    pose proof (offset_lt lens a i Ha Hi) as Oi. pose proof (offset_lt lens b j Hb Hj) as Oj. rewrite H3 by assumption.
    destruct (owner_offset lens a i Ha Hi) as [E1 E2]. destruct (owner_offset lens b j Hb Hj) as [E3 E4].
    unfold K_obs, obs, lmc_cov. rewrite E1, E2, E3, E4. f_equal.
    destruct (Nat.eqb_spec (nsum (firstn a lens) + i) (nsum (firstn b lens) + j)) as [Q|Q].
    + assert (a = b) by (rewrite <- E1, <- E3, Q; reflexivity). assert (i = j) by (rewrite <- E2, <- E4, Q; reflexivity).
      subst b j. rewrite !Nat.eqb_refl. reflexivity.
    + destruct (Nat.eqb_spec a b); [subst b|reflexivity]. destruct (Nat.eqb_spec i j); [subst j; contradiction|reflexivity].
  - intros i j Hi Hj. rewrite !H3 by assumption. now apply (K_obs_sym f P Xs lens (nsum lens)).
Qed.
Print Assumptions C25_exact_kernel.

(** Cross-covariances of two lists of inputs, without noise. *)
Theorem C25_kernel_from_indices :
  forall f P Xs Zs rlens clens,
    reach f -> f_P f = Some P -> (0 < P)%nat -> kernels_ok f -> dims_in_range f P ->
    inputs P Xs rlens -> inputs P Zs clens -> length rlens = f_D f -> length clens = f_D f ->
    exists o, kernel_from_indices Xs Zs f = Ok o /\ a_shape o = [nsum rlens; nsum clens] /\
      forall a b i j, (a < f_D f)%nat -> (b < f_D f)%nat -> (i < nth a rlens 0)%nat -> (j < nth b clens 0)%nat ->
        vget (a_data o) ((nsum (firstn a rlens) + i) * nsum clens + (nsum (firstn b clens) + j))
        = Rsum (f_Q f) (fun q => B_of f q a b * k_doc (kern_of f q) (dist_on (qdims f q) (point P Xs a i) (point P Zs b j))).
Proof.
  intros f P Xs Zs rlens clens Hf HP HPp Hk Hdr HX HZ Hr Hc. pose proof (reach_ok _ Hf) as Hok.
  destruct (kernel_from_indices_ok f P Xs Zs rlens clens Hok HP HPp Hk Hdr HX HZ Hr Hc) as [o [E [H1 [H2 H3]]]].
  exists o. split; [exact E|]. split; [exact H1|]. intros a b i j Ha Hb Hi Hj. rewrite <- Hr in Ha. rewrite <- Hc in Hb.
  pose proof (offset_lt rlens a i Ha Hi) as Oi. pose proof (offset_lt clens b j Hb Hj) as Oj. rewrite H3 by assumption.
  destruct (owner_offset rlens a i Ha Hi) as [E1 E2]. destruct (owner_offset clens b j Hb Hj) as [E3 E4].
  unfold obs, lmc_cov. rewrite E1, E2, E3, E4. reflexivity.
Qed.
Print Assumptions C25_kernel_from_indices.

(** ** C55: when the exact likelihood exists *)

Lemma pos_definite_pivots n F : sym n F -> (pos_definite n F <-> pivots n F).
Proof.
  intros Hs. split; intros H.
  - apply pos_def_pivots; [exact Hs|]. intros x Hx. exact (H x Hx).
  - intros x Hx. exact (pivots_pos_def n F Hs H x Hx).
Qed.

(** The factorisation succeeds exactly on positive definite covariances. *)
Theorem C55_exact_exists :
  forall f P Xs Ys,
    reach f -> f_P f = Some P -> (0 < P)%nat -> kernels_ok f -> dims_in_range f P ->
    inputs P Xs (map (@length R) Ys) -> length Ys = f_D f ->
    let lens := map (@length R) Ys in
    (pos_definite (nsum lens) (K_obs f P Xs lens) /\ exists e, exact_init f Xs Ys = Ok e) \/
    (~ pos_definite (nsum lens) (K_obs f P Xs lens) /\ exact_init f Xs Ys = Err LinAlgError).
Proof.
  intros f P Xs Ys Hf HP HPp Hk Hdr HX HY lens. pose proof (reach_ok _ Hf) as Hok.
  destruct (exact_init_ok f P Xs Ys Hok HP HPp Hk Hdr HX HY) as [H1 H2]. fold lens in H1, H2.
  pose proof (pos_definite_pivots (nsum lens) _ (K_obs_sym f P Xs lens (nsum lens))) as HI.
  destruct (pivots_dec (nsum lens) (K_obs f P Xs lens)) as [HPv|HPv].
  - left. split; [now apply HI|]. destruct (H1 HPv) as [e [E _]]. now exists e.
  - right. split; [rewrite HI; exact HPv|]. exact (H2 HPv).
Qed.
Print Assumptions C55_exact_exists.

(** It succeeds for all data with positive noise, non-negative diagonals and
    periodic kernels on single dimensions. *)
Theorem C55_exact_succeeds :
  forall f P Xs Ys,
    reach f -> f_P f = Some P -> (0 < P)%nat -> kernels_ok f -> dims_in_range f P ->
    inputs P Xs (map (@length R) Ys) -> length Ys = f_D f ->
    (forall q, (q < f_Q f)%nat -> has_periodic (kern_of f q) = true -> length (qdims f q) = 1%nat) ->
    (forall q a, (q < f_Q f)%nat -> (a < f_D f)%nat -> 0 <= vget (nth q (f_diags f) []) a) ->
    (forall a, (a < f_D f)%nat -> 0 < vget (f_noise f) a) ->
    exists e, exact_init f Xs Ys = Ok e.
Proof.
  intros f P Xs Ys Hf HP HPp Hk Hdr HX HY Hper Hdiag Hn.
  destruct (C55_exact_exists f P Xs Ys Hf HP HPp Hk Hdr HX HY) as [[_ H]|[H _]]; [exact H|].
  exfalso. apply H. apply K_obs_pd; auto.
  - rewrite map_length. exact HY.
  - intros q Hq. apply Hk. exact Hq.
Qed.
Print Assumptions C55_exact_succeeds.

(** ** C28: gradients of the exact likelihood *)

Theorem C28_exact_gradients :
  forall f P Xs Ys e,
    reach f -> f_P f = Some P -> (0 < P)%nat -> kernels_ok f -> dims_in_range f P ->
    inputs P Xs (map (@length R) Ys) -> length Ys = f_D f -> exact_init f Xs Ys = Ok e ->
    let lens := map (@length R) Ys in
    let n := nsum lens in
    let y := vget (concat Ys) in
    exists g, all_gradients (exact_ops f e) f = Ok g /\
      (length (g_vecs g) = f_Q f /\ forall q, (q < f_Q f)%nat -> is_mx (length (nth q (f_vecs f) [])) (f_D f) (nth q (g_vecs g) [])) /\
      (length (g_diags g) = f_Q f /\ forall q, (q < f_Q f)%nat -> length (nth q (g_diags g) []) = f_D f) /\
      (length (g_kernels g) = f_Q f /\ forall q, (q < f_Q f)%nat -> length (nth q (g_kernels g) []) = length (params (kern_of f q))) /\
      length (g_noise g) = f_D f /\
      (forall q r d, (q < f_Q f)%nat -> (r < length (nth q (f_vecs f) []))%nat -> (d < f_D f)%nat ->
         is_gradient n (fun s => K_obs (with_vec f q r d s) P Xs lens) y (mget (nth q (f_vecs f) []) r d) (mget (nth q (g_vecs g) []) r d)) /\
      (forall q d, (q < f_Q f)%nat -> (d < f_D f)%nat ->
         is_gradient n (fun s => K_obs (with_diag f q d s) P Xs lens) y (vget (nth q (f_diags f) []) d) (vget (nth q (g_diags g) []) d)) /\
      (forall q j, (q < f_Q f)%nat -> (j < length (params (kern_of f q)))%nat ->
         is_gradient n (fun s => K_obs (with_kparam f q j s) P Xs lens) y (nth j (params (kern_of f q)) 0) (nth j (nth q (g_kernels g) []) 0)) /\
      (forall d, (d < f_D f)%nat ->
         is_gradient n (fun s => K_obs (with_noise f d s) P Xs lens) y (vget (f_noise f) d) (vget (g_noise g) d)).
Proof.
  intros f P Xs Ys e Hf HP HPp Hk Hdr HX HY E lens n y. pose proof (reach_ok _ Hf) as Hok.
  destruct (exact_pivots f P Xs Ys e Hok HP HPp Hk Hdr HX HY E) as [_ Hr].
  unfold all_gradients.
  rewrite (vec_gradients_ok f P Xs Ys Hok HPp HY e Hr). cbn [bind].
  rewrite (diags_gradients_ok f P Xs Ys Hok HPp HY e Hr). cbn [bind].
  rewrite (kernel_gradients_ok f P Xs Ys Hok HPp HY e Hr). cbn [bind].
  rewrite (noise_gradient_ok f P Xs Ys Hok HPp HY e Hr). cbn [bind].
  eexists. split; [reflexivity|]. cbn [g_vecs g_diags g_kernels g_noise].
  split; [|split; [|split; [|split; [|split; [|split; [|split]]]]]].
  - split; [apply tab_length|]. intros q Hq. rewrite nth_tab by exact Hq. apply mk_is_mx.
  - split; [apply tab_length|]. intros q Hq. rewrite nth_tab by exact Hq. apply tab_length.
  - split; [apply tab_length|]. intros q Hq. rewrite nth_tab by exact Hq. apply tab_length.
  - apply tab_length.
  - intros q r d Hq Hr' Hd. rewrite (nth_tab (f_Q f)) by exact Hq. 
    fold (mk (length (nth q (f_vecs f) [])) (f_D f) (fun r j => grad_val Ys e (fun i l => kq f P Xs Ys q i l *
      mget (dA_vec (f_D f) (nth r (nth q (f_vecs f) []) []) j) (owner (map (length (A:=R)) Ys) i) (owner (map (length (A:=R)) Ys) l)))).
    rewrite mget_mk by assumption.
    exact (vec_gradient f P Xs Ys e Hok HP HPp Hk Hdr HX HY E q r d Hq Hr' Hd).
  - intros q d Hq Hd. rewrite (nth_tab (f_Q f)) by exact Hq. rewrite vget_tab by exact Hd.
    exact (diag_gradient f P Xs Ys e Hok HP HPp Hk Hdr HX HY E q d Hq Hd).
  - intros q j Hq Hj. rewrite (nth_tab (f_Q f)) by exact Hq. rewrite nth_tab by exact Hj.
    exact (kparam_gradient f P Xs Ys e Hok HP HPp Hk Hdr HX HY E q j Hq Hj).
  - intros d Hd. rewrite vget_tab by exact Hd.
    exact (noise_gradient' f P Xs Ys e Hok HP HPp Hk Hdr HX HY E d Hd).
Qed.
Print Assumptions C28_exact_gradients.

(** ** C54: the slots of the parameters receive the partial derivatives *)

Theorem C54_exact_delivery :
  forall f P Xs Ys e g old,
    reach f -> f_P f = Some P -> (0 < P)%nat -> kernels_ok f -> dims_in_range f P ->
    inputs P Xs (map (@length R) Ys) -> length Ys = f_D f -> exact_init f Xs Ys = Ok e ->
    all_gradients (exact_ops f e) f = Ok g ->
    length (s_vecs old) = f_Q f -> length (s_diags old) = f_Q f -> length (s_kernels old) = f_Q f ->
    let lens := map (@length R) Ys in
    let n := nsum lens in
    let y := vget (concat Ys) in
    exists new, fk_update_gradient f g old = Ok new /\
      (forall q r d, (q < f_Q f)%nat -> (r < length (nth q (f_vecs f) []))%nat -> (d < f_D f)%nat ->
         is_gradient n (fun s => K_obs (with_vec f q r d s) P Xs lens) y (mget (nth q (f_vecs f) []) r d) (mget (nth q (s_vecs new) []) r d)) /\
      (forall q d, (q < f_Q f)%nat -> (d < f_D f)%nat ->
         is_gradient n (fun s => K_obs (with_diag f q d s) P Xs lens) y (vget (nth q (f_diags f) []) d) (vget (nth q (s_diags new) []) d)) /\
      (forall q j, (q < f_Q f)%nat -> (j < length (params (kern_of f q)))%nat ->
         is_gradient n (fun s => K_obs (with_kparam f q j s) P Xs lens) y (nth j (params (kern_of f q)) 0)
           (nth j (params (nth q (s_kernels new) KIdentity)) 0)) /\
      (forall d, (d < f_D f)%nat ->
         is_gradient n (fun s => K_obs (with_noise f d s) P Xs lens) y (vget (f_noise f) d) (vget (s_noise new) d)).
Proof.
  intros f P Xs Ys e g old Hf HP HPp Hk Hdr HX HY E Eg O1 O2 O3 lens n y.
  destruct (C28_exact_gradients f P Xs Ys e Hf HP HPp Hk Hdr HX HY E) as [g' [Eg' [[L1 _] [[L2 _] [[L3 L3'] [L4 [G1 [G2 [G3 G4]]]]]]]]].
  rewrite Eg in Eg'. apply Ok_inj in Eg'. subst g'.
  destruct (C54_update_gradient f P g old Hf HP HPp L1 L2 L3 L3' O1 O2 O3) as [new [En [Hn [_ [_ [_ H]]]]]].
  exists new. split; [exact En|]. split; [|split; [|split]].
  - intros q r d Hq Hr Hd. destruct (H q Hq) as [-> _]. now apply G1.
  - intros q d Hq Hd. destruct (H q Hq) as [_ [-> _]]. now apply G2.
  - intros q j Hq Hj. destruct (H q Hq) as [_ [_ [_ ->]]]. now apply G3.
  - intros d Hd. rewrite Hn. now apply G4.
Qed.
Print Assumptions C54_exact_delivery.

(** ** C29: stochastic gradients are unbiased *)

(** [draws] lists every outcome once. *)
Theorem C29_draws :
  forall k n, NoDup (draws k n) /\ length (draws k n) = (2 ^ (k * n))%nat /\
    forall bits, In bits (draws k n) <-> length bits = k /\ forall r, In r bits -> length r = n.
Proof. intros k n. split; [apply draws_nodup|]. split; [apply draws_length|]. intros. apply draws_in. Qed.
Print Assumptions C29_draws.

(** For every invertible covariance [K] (inverse [X]), observations [y]
    ([a = K^-1 y]), direction [F] and number of samples [k], if the solver is
    exact: the estimates of d_logdet_K, over all draws, have mean
    [tr(K^-1 F)], and d_normal_quadratic is [a^T F a] for each. *)
Theorem C29_unbiased :
  forall n k K X F Ko dK solve y a,
    (0 < k)%nat ->
    (forall i j, (i < n)%nat -> (j < n)%nat -> K i j = K j i) ->
    (forall i j, (i < n)%nat -> (j < n)%nat -> Rsum n (fun l => K i l * X l j) = if Nat.eqb i j then 1 else 0) ->
    represents dK (mk_den n n F) -> solves_exactly n K (solve Ko) -> length y = n ->
    (forall i, (i < n)%nat -> Rsum n (fun j => K i j * a j) = vget y i) ->
    exists v, (forall bits, In bits (draws k n) -> exists s, sd_generate solve bits k Ko y = Ok s /\
         sd_d_logdet s dK = Ok (v bits) /\ sd_d_quadratic s dK = Rsum n (fun i => Rsum n (fun j => a i * F i j * a j))) /\
      mean (draws k n) v = Rsum n (fun i => Rsum n (fun j => X i j * F i j)).
Proof.
  intros n k K X F Ko dK solve y a Hk Hs Hi HdK Hsol Hy Ha.
  exists (fun bits => lsum (map (trace_term n X F) bits) / INR k). split.
  - intros bits Hb. exact (generate_ok n k K X F Ko dK solve y a Hk Hs Hi HdK Hsol Hy Ha bits Hb).
  - now apply trace_mean_k.
Qed.
Print Assumptions C29_unbiased.

(** The same against the exact likelihood: the mean over all draws of the
    stochastic derivative is the derivative of ExactDeriv. *)
Theorem C29_mean_is_exact :
  forall f P Xs Ys e k Ko dK dKa F solve g,
    reach f -> f_P f = Some P -> (0 < P)%nat -> kernels_ok f -> dims_in_range f P ->
    inputs P Xs (map (@length R) Ys) -> length Ys = f_D f -> exact_init f Xs Ys = Ok e ->
    let n := nsum (map (@length R) Ys) in
    (0 < k)%nat -> solves_exactly n (K_obs f P Xs (map (@length R) Ys)) (solve Ko) ->
    represents dK (mk_den n n F) -> dense n n dKa F -> dL_dK (exact_ops f e) dKa = Ok g ->
    exists v, (forall bits, In bits (draws k n) -> exists s w, sd_generate solve bits k Ko (concat Ys) = Ok s /\
         sd_d_logdet s dK = Ok w /\ v bits = derivative (sd_d_quadratic s dK) w) /\
      mean (draws k n) v = g.
Proof.
  intros f P Xs Ys e k Ko dK dKa F solve g Hf HP HPp Hk Hdr HX HY E n Hk0 Hsol HdK HdKa Eg. pose proof (reach_ok _ Hf) as Hok.
  destruct (exact_pivots f P Xs Ys e Hok HP HPp Hk Hdr HX HY E) as [_ Hr].
  rewrite (dL_ok f P Xs Ys e Hr dKa F HdKa) in Eg. apply Ok_inj in Eg. subst g.
  destruct (C29_unbiased n k (K_obs f P Xs (map (@length R) Ys)) (mget (el_Kinv e)) F Ko dK solve (concat Ys) (vget (el_alpha e)))
    as [v [H1 H2]]; try assumption.
  - apply K_obs_sym.
  - exact (er_inv _ _ _ _ _ Hr).
  - apply length_concat.
  - exact (er_solve _ _ _ _ _ Hr).
  - set (qt := Rsum n (fun i => Rsum n (fun j => vget (el_alpha e) i * F i j * vget (el_alpha e) j))) in *.
    exists (fun bits => 1 / 2 * qt + - (1 / 2) * v bits). split.
    + intros bits Hb. destruct (H1 bits Hb) as [s [Es [El Eq]]]. exists s, (v bits). split; [exact Es|]. split; [exact El|].
      unfold derivative. rewrite Eq. field.
    + rewrite mean_affine.
      * rewrite H2. unfold grad_val. fold n. fold qt. field.
      * intros C. assert (L : length (draws k n) = 0%nat) by now rewrite C. rewrite draws_length in L.
        apply Nat.pow_nonzero in L; [exact L|lia].
Qed.
Print Assumptions C29_mean_is_exact.

(** ** Examples *)

(** Two outputs, an LMC kernel and an independent one, three observations. *)
Definition ex_lmc : result fkernel :=
  let! f := fk_init (fun _ _ _ => 1) (Some 2%nat) (Some [(RBF 1, None)]) (Some [1%Z]) (Some []) (Some [(Matern32 2, None)]) None in
  set_input_dim f 1.
Definition ex_Xs : list ndarr := [mk_arr [2; 1]%nat [0; 1]; mk_arr [1; 1]%nat [2]].
Definition ex_Ys : list vec := [[1; 2]; [3]].

Example C25_C28_C55_ex : exists f e g,
  ex_lmc = Ok f /\ reach f /\ f_P f = Some 1%nat /\ kernels_ok f /\ dims_in_range f 1 /\
  inputs 1 ex_Xs (map (@length R) ex_Ys) /\ length ex_Ys = f_D f /\
  (forall q, (q < f_Q f)%nat -> has_periodic (kern_of f q) = true -> length (qdims f q) = 1%nat) /\
  (forall q a, (q < f_Q f)%nat -> (a < f_D f)%nat -> 0 <= vget (nth q (f_diags f) []) a) /\
  (forall a, (a < f_D f)%nat -> 0 < vget (f_noise f) a) /\
  exact_init f ex_Xs ex_Ys = Ok e /\ vget (a_data (el_K e)) 8 = 2 + vget (f_noise f) 1 /\
  all_gradients (exact_ops f e) f = Ok g.
Proof.
  destruct ex_lmc as [f|] eqn:E; [|discriminate E].
  assert (Hr : reach f).
  { unfold ex_lmc in E. apply bind_ok in E. destruct E as [g [E1 E2]]. eapply reach_dim; [eapply reach_init; exact E1|exact E2]. }
  cbv -[IZR Rmult Rinv Rplus Rdiv Ropp] in E. apply Ok_inj in E.
  assert (HP : f_P f = Some 1%nat) by (subst f; reflexivity).
  assert (HQ : f_Q f = 2%nat) by (subst f; reflexivity). assert (HD : f_D f = 2%nat) by (subst f; reflexivity).
  assert (Hk : kernels_ok f).
  { intros q Hq. subst f. cbn in Hq. destruct q as [|[|q]]; [| |cbn in Hq; lia]; (split; [|exact I]); cbn; intros v [<-|[]]; lra. }
  assert (Hdr : dims_in_range f 1).
  { intros q p Hq. rewrite HQ in Hq. subst f. destruct q as [|[|q]]; [| |lia]; cbn; intros [<-|[]]; lia. }
  assert (HX : inputs 1 ex_Xs (map (@length R) ex_Ys)) by (repeat constructor).
  assert (HY : length ex_Ys = f_D f) by now rewrite HD.
  assert (H1 : forall q, (q < f_Q f)%nat -> has_periodic (kern_of f q) = true -> length (qdims f q) = 1%nat).
  { intros q Hq. rewrite HQ in Hq. subst f. destruct q as [|[|q]]; [| |lia]; reflexivity. }
  assert (H2 : forall q a, (q < f_Q f)%nat -> (a < f_D f)%nat -> 0 <= vget (nth q (f_diags f) []) a).
  { intros q a Hq Ha. rewrite HQ in Hq. rewrite HD in Ha. subst f. destruct q as [|[|q]]; [| |lia]; destruct a as [|[|a]]; cbn; try lia; lra. }
  assert (H3 : forall a, (a < f_D f)%nat -> 0 < vget (f_noise f) a).
  { intros a Ha. rewrite HD in Ha. subst f. destruct a as [|[|a]]; cbn; try lia; lra. }
  destruct (C55_exact_succeeds f 1 ex_Xs ex_Ys Hr HP (Nat.lt_succ_diag_r 0) Hk Hdr HX HY H1 H2 H3) as [e Ee].
  destruct (C28_exact_gradients f 1 ex_Xs ex_Ys e Hr HP (Nat.lt_succ_diag_r 0) Hk Hdr HX HY Ee) as [g [Eg _]].
  exists f, e, g. repeat (split; [assumption|]). split; [reflexivity|]. 
  repeat (split; [assumption|]). split; [|exact Eg].
  destruct (C25_exact_kernel f 1 ex_Xs ex_Ys e Hr HP (Nat.lt_succ_diag_r 0) Hk Hdr HX HY Ee) as [_ [H _]].
  specialize (H 1%nat 1%nat 0%nat 0%nat). rewrite HD in H. specialize (H (Nat.lt_succ_diag_r 1) (Nat.lt_succ_diag_r 1) (Nat.lt_succ_diag_r 0) (Nat.lt_succ_diag_r 0)).
  change ((nsum (firstn 1 (map (@length R) ex_Ys)) + 0) * nsum (map (@length R) ex_Ys) + (nsum (firstn 1 (map (@length R) ex_Ys)) + 0))%nat with 8%nat in H.
  rewrite H. rewrite HQ. cbn [Nat.eqb andb]. f_equal.
  assert (Z : forall ad x, dist_on ad x x = 0).
  { intros ad x. unfold dist_on. rewrite lsum_map_zero; [apply sqrt_0|]. intros; ring. }
  cbn [Rsum]. rewrite !Z. subst f. cbv -[Rmult Rplus IZR exp pow Rminus Ropp Rdiv sqrt].
  replace (- (1) * 0 ^ 2 / 2) with 0 by field. rewrite exp_0. ring.
Qed.

(** [[2, 1], [1, 2]] with its inverse, and the derivative [[1, 0], [0, 3]]. *)
Definition ex_Kf (i j : nat) : R := if Nat.eqb i j then 2 else 1.
Definition ex_Xf (i j : nat) : R := if Nat.eqb i j then 2 / 3 else - (1 / 3).
Definition ex_Ff (i j : nat) : R := if Nat.eqb i j then if Nat.eqb i 0 then 1 else 3 else 0.
Definition ex_solve (_ : Mat) (b : vec) : result vec := Ok (tab 2 (fun i => Rsum 2 (fun j => ex_Xf i j * vget b j))).

Example C29_ex : exists o, np_mat 2 2 (mk 2 2 ex_Ff) = Ok o /\ represents o (mk_den 2 2 ex_Ff) /\
  (forall i j, (i < 2)%nat -> (j < 2)%nat -> ex_Kf i j = ex_Kf j i) /\
  (forall i j, (i < 2)%nat -> (j < 2)%nat -> Rsum 2 (fun l => ex_Kf i l * ex_Xf l j) = if Nat.eqb i j then 1 else 0) /\
  solves_exactly 2 ex_Kf (ex_solve o) /\
  (forall i, (i < 2)%nat -> Rsum 2 (fun j => ex_Kf i j * vget [1; 0] j) = vget [2; 1] i) /\
  Rsum 2 (fun i => Rsum 2 (fun j => ex_Xf i j * ex_Ff i j)) = 8 / 3.
Proof.
  destruct (np_mat_ok 2 2 ex_Ff) as [o [E Ho]]; try lia. exists o. split; [exact E|]. split; [exact Ho|].
  assert (T : forall i, (i < 2)%nat -> i = 0%nat \/ i = 1%nat) by lia.
  split; [|split; [|split; [|split]]].
  - intros i j Hi Hj. destruct (T i Hi) as [-> | ->], (T j Hj) as [-> | ->]; reflexivity.
  - intros i j Hi Hj. unfold ex_Kf, ex_Xf. destruct (T i Hi) as [-> | ->], (T j Hj) as [-> | ->]; cbn; field.
  - intros b Hb. unfold ex_solve. eexists. split; [reflexivity|]. split; [reflexivity|]. intros i Hi.
    destruct b as [|b0 [|b1 [|? ?]]]; try discriminate Hb.
    unfold ex_Kf, ex_Xf. destruct (T i Hi) as [-> | ->]; cbn; field.
  - intros i Hi. unfold ex_Kf. destruct (T i Hi) as [-> | ->]; cbn; ring.
  - unfold ex_Xf, ex_Ff. cbn. field.
Qed.
