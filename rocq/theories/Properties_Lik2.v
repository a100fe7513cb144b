(** Claims about the approximate likelihood (C26, C56). *)

From Coq Require Import Reals List Arith Lia Lra ZArith FunctionalExtensionality.
From Coquelicot Require Import Coquelicot.
From Verif Require Import Base NDArray PSD Det Proofs_Shur Proofs_Det Model_Util Proofs_Util Model_Linalg Spec_Linalg Proofs_Linalg
  Model_Interp Model_Kern Spec_Kern Proofs_Kern Model_FK Spec_FK Proofs_FK Model_Grid Spec_Grid Proofs_Grid Proofs_Grid2 Properties_Grid
  Properties_FK Model_Lik Spec_Lik Proofs_Lik Proofs_Lik2 Proofs_Lik3 Proofs_Lik4 Properties_Lik Proofs_Lik6 Proofs_Lik7.
Import ListNotations.
Open Scope R_scope.

(** ** C26: the SKI operator as one matrix *)

(** For every model, gen_grid_kernel multiplies by the sum over all kernels of
    [W (B_q (x) K_q) W^T], plus the noise, plus [W W^T] for each group in the
    case of C23_selection; it is positive definite for positive noise. *)
Theorem C26_operator :
  forall f P dists interps lens (G : dims -> ndarr) (W WT : dims -> sparse),
    reach f -> f_P f = Some P -> (0 < P)%nat -> kernels_ok f -> length lens = f_D f -> (0 < nsum lens)%nat ->
    (forall ad, group f ad <> [] -> dict_get dists ad = Ok (G ad) /\ dists_ok (G ad) /\
       dict_get interps ad = Ok (W ad, WT ad) /\ interp_ok (nsum lens) (f_D f * nprod (a_shape (G ad))) (W ad) (WT ad)) ->
    (exists o ks, gen_grid_kernel f dists interps lens = Ok (o, ks) /\
       represents o (mk_den (nsum lens) (nsum lens) (K_op f G W lens))) /\
    ((forall ad, group f ad <> [] -> ~ surplus f ad) -> forall i j, K_op f G W lens i j = K_ski f G W lens i j) /\
    ((forall q a, (q < f_Q f)%nat -> (a < f_D f)%nat -> 0 <= vget (nth q (f_diags f) []) a) ->
     (forall q, (q < f_Q f)%nat -> psd (nprod (a_shape (G (qdims f q)))) (K_grid f (G (qdims f q)) q)) ->
     (forall a, (a < f_D f)%nat -> 0 < vget (f_noise f) a) -> pos_definite (nsum lens) (K_op f G W lens)).
Proof.
  intros f P dists interps lens G W WT Hf HP HPp Hk HL Hn HG. pose proof (reach_ok _ Hf) as Hok. split; [|split].
  - exact (gen_K_op f P dists interps G W WT lens Hok HP HPp Hk HL Hn HG).
  - intros HS i j. unfold K_op, spurious. rewrite lsum_map_zero; [ring|]. intros ad Had. apply (keys_group f P Hok HP) in Had.
    destruct (surplus_b f ad) eqn:E; [|reflexivity]. apply surplus_b_ok in E. now apply HS in Had.
  - apply K_op_pd. exact HL.
Qed.
Print Assumptions C26_operator.

(** ** C56: the approximate likelihood follows the gradient of its operator *)

(** With exact solves, the mean over all draws of every derivative that
    ApproxLMCLikelihood reports is the partial derivative of the log density
    of the observations under the covariance that gen_grid_kernel multiplies
    by. *)
Theorem C56_expected_gradients :
  forall f P dists interps Ys (G : dims -> ndarr) (W WT : dims -> sparse) k solve Ko,
    reach f -> f_P f = Some P -> (0 < P)%nat -> kernels_ok f -> length Ys = f_D f ->
    let lens := map (@length R) Ys in
    let n := nsum lens in
    let y := vget (concat Ys) in
    (0 < n)%nat -> (0 < k)%nat ->
    (forall ad, group f ad <> [] -> dict_get dists ad = Ok (G ad) /\ dists_ok (G ad) /\
       dict_get interps ad = Ok (W ad, WT ad) /\ interp_ok n (f_D f * nprod (a_shape (G ad))) (W ad) (WT ad)) ->
    pos_definite n (K_op f G W lens) ->
    solves_exactly n (K_op f G W lens) (solve Ko) ->
    exists g : list (list bool) -> gradients,
      (forall bits, In bits (draws k n) -> exists l,
         approx_init solve bits k f Ko dists interps Ys = Ok l /\ all_gradients (approx_ops f l) f = Ok (g bits) /\
         (length (g_vecs (g bits)) = f_Q f /\
          forall q, (q < f_Q f)%nat -> is_mx (length (nth q (f_vecs f) [])) (f_D f) (nth q (g_vecs (g bits)) [])) /\
         (length (g_diags (g bits)) = f_Q f /\ forall q, (q < f_Q f)%nat -> length (nth q (g_diags (g bits)) []) = f_D f) /\
         (length (g_kernels (g bits)) = f_Q f /\
          forall q, (q < f_Q f)%nat -> length (nth q (g_kernels (g bits)) []) = length (params (kern_of f q))) /\
         length (g_noise (g bits)) = f_D f) /\
      (forall q r d, (q < f_Q f)%nat -> (r < length (nth q (f_vecs f) []))%nat -> (d < f_D f)%nat ->
         is_gradient n (fun s => K_op (with_vec f q r d s) G W lens) y (mget (nth q (f_vecs f) []) r d)
           (mean (draws k n) (fun bits => mget (nth q (g_vecs (g bits)) []) r d))) /\
      (forall q d, (q < f_Q f)%nat -> (d < f_D f)%nat ->
         is_gradient n (fun s => K_op (with_diag f q d s) G W lens) y (vget (nth q (f_diags f) []) d)
           (mean (draws k n) (fun bits => vget (nth q (g_diags (g bits)) []) d))) /\
      (forall q j, (q < f_Q f)%nat -> (j < length (params (kern_of f q)))%nat ->
         is_gradient n (fun s => K_op (with_kparam f q j s) G W lens) y (nth j (params (kern_of f q)) 0)
           (mean (draws k n) (fun bits => nth j (nth q (g_kernels (g bits)) []) 0))) /\
      (forall d, (d < f_D f)%nat ->
         is_gradient n (fun s => K_op (with_noise f d s) G W lens) y (vget (f_noise f) d)
           (mean (draws k n) (fun bits => vget (g_noise (g bits)) d))).
Proof.
  intros f P dists interps Ys G W WT k solve Ko Hf HP HPp Hk HY lens n y Hn Hk0 HG Hpd Hsol. pose proof (reach_ok _ Hf) as Hok.
  assert (HL : length lens = f_D f) by (unfold lens; now rewrite map_length).
  pose proof (K_op_sym f P dists interps G W WT lens Hok HP HG) as Hsym.
  assert (HPv : pivots n (K_op f G W lens)) by now apply pos_definite_pivots.
  destruct (inv_ex n _ HPv) as [X HX]. destruct (solves_ex n _ y HPv) as [a Ha].
  pose proof (spurious_sym f G W lens) as HE.
  exists (fun bits => mk_grads
    (tab (f_Q f) (fun q => mk (length (nth q (f_vecs f) [])) (f_D f) (fun r d => gval Ys k X a bits (F_vec f G W q r d))))
    (tab (f_Q f) (fun q => tab (f_D f) (fun d => gval Ys k X a bits (F_diag f G W q d))))
    (tab (f_Q f) (fun q => tab (length (params (kern_of f q))) (fun j => gval Ys k X a bits (F_kparam f G W q j))))
    (tab (f_D f) (fun d => gval Ys k X a bits (F_noise f Ys d)))).
  cbn [g_vecs g_diags g_kernels g_noise]. split; [|split; [|split; [|split]]].
  - intros bits Hb.
    destruct (np_mat_ok n n (fun _ _ => 0) Hn Hn) as [z [_ Hz]].
    destruct (generate_ok n k (K_op f G W lens) X (fun _ _ => 0) Ko z solve (concat Ys) a Hk0 Hsym HX Hz Hsol (length_concat Ys) Ha bits Hb) as [s [Es _]].
    destruct (approx_init_ok f P dists interps G W WT Ys Hok HP HPp Hk HY Hn HG solve bits k Ko s Es) as [l [El Hl]].
    exists l. split; [exact El|]. split.
    + eapply approx_gradients_ok with (E := spurious f G W) (s := s); eassumption.
    + split; [|split; [|split]].
      * split; [apply tab_length|]. intros q Hq. rewrite nth_tab by exact Hq. apply mk_is_mx.
      * split; [apply tab_length|]. intros q Hq. rewrite nth_tab by exact Hq. apply tab_length.
      * split; [apply tab_length|]. intros q Hq. rewrite nth_tab by exact Hq. apply tab_length.
      * apply tab_length.
  - intros q r d Hq Hr Hd. unfold K_op.
    replace (fun s => fun i j => K_ski (with_vec f q r d s) G W lens i j + spurious (with_vec f q r d s) G W i j)
      with (fun s => fun i j => K_ski (with_vec f q r d s) G W lens i j + spurious f G W i j).
    2:{ apply functional_extensionality. intros s. rewrite spurious_vec; [reflexivity|]. now rewrite (ok_nvecs _ Hok). }
    match goal with |- is_gradient _ _ _ _ ?v => replace v with (mean (draws k n) (fun bits => gval Ys k X a bits (F_vec f G W q r d))) end.
    + eapply vec_mean; eassumption.
    + f_equal. apply functional_extensionality. intros bits. rewrite (nth_tab (f_Q f)) by exact Hq. now rewrite mget_mk.
  - intros q d Hq Hd. unfold K_op.
    replace (fun s => fun i j => K_ski (with_diag f q d s) G W lens i j + spurious (with_diag f q d s) G W i j)
      with (fun s => fun i j => K_ski (with_diag f q d s) G W lens i j + spurious f G W i j).
    2:{ apply functional_extensionality. intros s. rewrite spurious_diag. reflexivity. }
    match goal with |- is_gradient _ _ _ _ ?v => replace v with (mean (draws k n) (fun bits => gval Ys k X a bits (F_diag f G W q d))) end.
    + eapply diag_mean; eassumption.
    + f_equal. apply functional_extensionality. intros bits. rewrite (nth_tab (f_Q f)) by exact Hq. now rewrite vget_tab.
  - intros q j Hq Hj. unfold K_op.
    replace (fun s => fun i' j' => K_ski (with_kparam f q j s) G W lens i' j' + spurious (with_kparam f q j s) G W i' j')
      with (fun s => fun i' j' => K_ski (with_kparam f q j s) G W lens i' j' + spurious f G W i' j').
    2:{ apply functional_extensionality. intros s. rewrite spurious_kparam; [reflexivity|exact Hq]. }
    match goal with |- is_gradient _ _ _ _ ?v => replace v with (mean (draws k n) (fun bits => gval Ys k X a bits (F_kparam f G W q j))) end.
    + eapply kparam_mean; eassumption.
    + f_equal. apply functional_extensionality. intros bits. rewrite (nth_tab (f_Q f)) by exact Hq. now rewrite nth_tab.
  - intros d Hd. unfold K_op.
    replace (fun s => fun i j => K_ski (with_noise f d s) G W lens i j + spurious (with_noise f d s) G W i j)
      with (fun s => fun i j => K_ski (with_noise f d s) G W lens i j + spurious f G W i j).
    2:{ apply functional_extensionality. intros s. rewrite spurious_noise. reflexivity. }
    match goal with |- is_gradient _ _ _ _ ?v => replace v with (mean (draws k n) (fun bits => gval Ys k X a bits (F_noise f Ys d))) end.
    + eapply noise_mean; eassumption.
    + f_equal. apply functional_extensionality. intros bits. now rewrite vget_tab.
Qed.
Print Assumptions C56_expected_gradients.

(** Two outputs with an LMC and an independent kernel, one observation each. *)
Example C26_C56_ex : exists f solve Ko ks,
  ex_mix = Ok f /\ reach f /\ f_P f = Some 1%nat /\ kernels_ok f /\ length [[1]; [2]] = f_D f /\
  (forall ad, group f ad <> [] -> dict_get ex_dists ad = Ok ex_d /\ dists_ok ex_d /\
       dict_get ex_interps ad = Ok (ex_W, ex_W) /\ interp_ok 2 (f_D f * nprod (a_shape ex_d)) ex_W ex_W) /\
  gen_grid_kernel f ex_dists ex_interps [1; 1]%nat = Ok (Ko, ks) /\
  pos_definite 2 (K_op f (fun _ => ex_d) (fun _ => ex_W) [1; 1]%nat) /\
  solves_exactly 2 (K_op f (fun _ => ex_d) (fun _ => ex_W) [1; 1]%nat) (solve Ko) /\
  K_op f (fun _ => ex_d) (fun _ => ex_W) [1; 1]%nat 0 0 = 3 + vget (f_noise f) 0 /\
  K_op f (fun _ => ex_d) (fun _ => ex_W) [1; 1]%nat 0 1 = 1.
Proof.
  destruct C23_C26_ex as [f [E [Hr [HP [Hk [HL [HG [_ [_ [_ [HS [Hd [_ [Hpsd [K1 [K2 _]]]]]]]]]]]]]]]].
  pose proof (reach_ok _ Hr) as Hok.
  assert (Hg : forall q, (q < f_Q f)%nat -> In q (group f (qdims f q))).
  { intros q Hq. apply in_group. split; [exact Hq|]. apply (group_qdims f 1 Hok HP q Hq). }
  assert (Hnz : forall a, (a < f_D f)%nat -> 0 < vget (f_noise f) a).
  { clear - E. cbv -[IZR Rmult Rinv Rplus Rdiv Ropp] in E. apply Ok_inj in E. subst f. intros a Ha. cbn in Ha.
    destruct a as [|[|a]]; cbn; try lia; lra. }
  destruct (C26_operator f 1 ex_dists ex_interps [1; 1]%nat (fun _ => ex_d) (fun _ => ex_W) (fun _ => ex_W)
     Hr HP (Nat.lt_succ_diag_r 0) Hk HL (Nat.lt_0_succ 1) HG) as [[Ko [ks [EK RK]]] [HK Hpd]].
  specialize (HK HS). specialize (Hpd Hd (fun q Hq => Hpsd _ q (Hg q Hq)) Hnz).
  assert (Hsym := K_op_sym f 1 ex_dists ex_interps (fun _ => ex_d) (fun _ => ex_W) (fun _ => ex_W) [1; 1]%nat Hok HP HG).
  assert (HPv : pivots 2 (K_op f (fun _ => ex_d) (fun _ => ex_W) [1; 1]%nat)) by now apply pos_definite_pivots.
  destruct (inv_ex 2 _ HPv) as [X HX].
  exists f, (fun _ b => Ok (tab 2 (fun i => Rsum 2 (fun j => X i j * vget b j)))), Ko, ks.
  repeat (split; [assumption|]). split; [|split].
  - intros b Hb. eexists. split; [reflexivity|]. split; [reflexivity|]. intros i Hi.
    rewrite <- (solves_inv 2 _ X (vget b) Hsym HX i Hi). apply Rsum_ext. intros j Hj. now rewrite vget_tab.
  - rewrite HK. unfold K_ski. rewrite <- (sum_groups f 1 (fun ad q => ski_entry ex_W (f_D f) (nprod (a_shape ex_d)) (B_of f q) (K_grid f ex_d q) 0 0) Hok HP).
    assert (HA : map fst (f_active f) = [[0%nat]]) by (cbv -[IZR Rmult Rinv Rplus Rdiv Ropp] in E; apply Ok_inj in E; subst f; reflexivity).
    assert (HD : f_D f = 2%nat) by (symmetry; exact HL).
    rewrite HA. cbn [map Nat.eqb]. change (owner [1; 1]%nat 0) with 0%nat.
    rewrite <- (ski_K_UU f ex_dists ex_interps (fun _ => ex_d) (fun _ => ex_W) (fun _ => ex_W) [1; 1]%nat HG [0%nat] 0 0).
    2:{ cbv -[IZR Rmult Rinv Rplus Rdiv Ropp] in E; apply Ok_inj in E; subst f; discriminate. }
    f_equal. match goal with |- lsum [?a] = _ => change (a + 0 = 3) end.
    rewrite (ski_den_entry f ex_dists ex_interps (fun _ => ex_d) (fun _ => ex_W) (fun _ => ex_W) [1; 1]%nat HG [0%nat]); try reflexivity.
    2:{ cbv -[IZR Rmult Rinv Rplus Rdiv Ropp] in E; apply Ok_inj in E; subst f; discriminate. }
    rewrite HD. change (2 * nprod (a_shape ex_d))%nat with 2%nat. cbn [Rsum]. rewrite K1. cbn. ring.
  - rewrite HK. unfold K_ski. rewrite <- (sum_groups f 1 (fun ad q => ski_entry ex_W (f_D f) (nprod (a_shape ex_d)) (B_of f q) (K_grid f ex_d q) 0 1) Hok HP).
    assert (HA : map fst (f_active f) = [[0%nat]]) by (cbv -[IZR Rmult Rinv Rplus Rdiv Ropp] in E; apply Ok_inj in E; subst f; reflexivity).
    assert (HD : f_D f = 2%nat) by (symmetry; exact HL).
    rewrite HA. cbn [map Nat.eqb].
    rewrite <- (ski_K_UU f ex_dists ex_interps (fun _ => ex_d) (fun _ => ex_W) (fun _ => ex_W) [1; 1]%nat HG [0%nat] 0 1).
    2:{ cbv -[IZR Rmult Rinv Rplus Rdiv Ropp] in E; apply Ok_inj in E; subst f; discriminate. }
    match goal with |- lsum [?a] + 0 = _ => change (a + 0 + 0 = 1) end.
    rewrite (ski_den_entry f ex_dists ex_interps (fun _ => ex_d) (fun _ => ex_W) (fun _ => ex_W) [1; 1]%nat HG [0%nat]); try reflexivity.
    2:{ cbv -[IZR Rmult Rinv Rplus Rdiv Ropp] in E; apply Ok_inj in E; subst f; discriminate. }
    rewrite HD. change (2 * nprod (a_shape ex_d))%nat with 2%nat. cbn [Rsum]. rewrite K2. cbn. ring.
Qed.
