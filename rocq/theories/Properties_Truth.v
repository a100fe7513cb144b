(** Claims about data drawn from the model (C86). *)

From Coq Require Import Reals List Arith ZArith Lia Permutation Lra.
From Verif Require Import Base NDArray PSD Model_Util Proofs_Util Spec_Util Model_Linalg Spec_Linalg Proofs_Linalg Model_Interp Spec_Interp
  Properties_Interp Model_Kern Spec_Kern Proofs_Kern Proofs_KernPSD Model_FK Spec_FK Proofs_FK
  Properties_FK Model_Grid Spec_Grid Proofs_Grid Proofs_Grid2 Properties_Grid Det Proofs_Det Model_Lik Spec_Lik Proofs_Lik Proofs_Lik2 Proofs_Lik3 Proofs_Lik4 Proofs_Lik5 Proofs_Lik6 Proofs_Lik7 Properties_Lik
  Properties_Lik2 Spec_GP Proofs_Gen Proofs_Gen2 Properties_Gen Model_GP Spec_Pred Proofs_Pred Proofs_Pred2 Proofs_Pred3 Proofs_Pred4 Proofs_Init Proofs_Pred5 Proofs_Pred6 Properties_Pred
  Spec_Order Proofs_Order Proofs_Order2 Proofs_Order3 Properties_Order Spec_Depend Proofs_Depend Properties_Alike Spec_Acc Proofs_Acc Spec_Lip Proofs_Lip Proofs_Lip2 Spec_Far Properties_Far Spec_Noise Proofs_Noise Properties_Noise Spec_Best Proofs_Best Properties_Best Spec_Chain Proofs_Chain Properties_Chain Spec_Truth Proofs_Truth.
Import ListNotations.
Open Scope R_scope.

(** If the values are drawn from the model with the very parameters, every
    entry of every gradient of the exact likelihood has expected value zero. *)
Theorem C86_score :
  forall (W : Type) (L : (W -> R) -> Prop) E f P Xs lens (Ys : W -> list vec) (e : W -> exact_lik) (gr : W -> gradients), expected L E ->
    reach f -> f_P f = Some P -> (0 < P)%nat -> kernels_ok f -> dims_in_range f P ->
    inputs P Xs lens -> length lens = f_D f -> (forall o, map (@length R) (Ys o) = lens) ->
    (forall o, exact_init f Xs (Ys o) = Ok (e o)) -> (forall o, all_gradients (exact_ops f (e o)) f = Ok (gr o)) ->
    random_values L E (nsum lens) (K_obs f P Xs lens) (fun o => vget (concat (Ys o))) ->
    (forall q r d, (q < f_Q f)%nat -> (r < length (nth q (f_vecs f) []))%nat -> (d < f_D f)%nat ->
       has_mean L E (fun o => mget (nth q (g_vecs (gr o)) []) r d) 0) /\
    (forall q d, (q < f_Q f)%nat -> (d < f_D f)%nat -> has_mean L E (fun o => vget (nth q (g_diags (gr o)) []) d) 0) /\
    (forall q j, (q < f_Q f)%nat -> (j < length (params (kern_of f q)))%nat -> has_mean L E (fun o => nth j (nth q (g_kernels (gr o)) []) 0) 0) /\
    (forall d, (d < f_D f)%nat -> has_mean L E (fun o => vget (g_noise (gr o)) d) 0).
Proof.
  intros W L E f P Xs lens Ys e gr HE Hf HP HPp Hk Hdr HX HL HY Ee Eg HR. pose proof (reach_ok _ Hf) as Hok.
  assert (LY : forall o, length (Ys o) = f_D f) by (intros o; rewrite <- HL, <- (HY o), map_length; reflexivity).
  assert (HRep : forall o, pivots (nsum lens) (K_obs f P Xs lens) /\ exact_rep f P Xs (Ys o) (e o)).
  { intros o. pose proof (exact_pivots f P Xs (Ys o) (e o) Hok HP HPp Hk Hdr) as H. rewrite (HY o) in H. exact (H HX (LY o) (Ee o)). }
  pose proof (score L E HE f P Xs lens Ys e HY HR HRep) as HS.
  assert (G : forall o, exists gv, gr o = gv /\ g_vecs gv = tab (f_Q f) (fun q => tab (length (nth q (f_vecs f) [])) (fun r => tab (f_D f) (fun j =>
       grad_val (Ys o) (e o) (fun i l => kq f P Xs (Ys o) q i l * mget (dA_vec (f_D f) (nth r (nth q (f_vecs f) []) []) j) (owner lens i) (owner lens l))))) /\
     g_diags gv = tab (f_Q f) (fun q => tab (f_D f) (fun d => grad_val (Ys o) (e o) (fun i l => kq f P Xs (Ys o) q i l * mget (dA_diag (f_D f) d) (owner lens i) (owner lens l)))) /\
     g_kernels gv = tab (f_Q f) (fun q => tab (length (params (kern_of f q))) (fun j =>
        grad_val (Ys o) (e o) (fun i l => nth j (k_grad (kern_of f q) (dist_on (qdims f q) (obs P Xs lens i) (obs P Xs lens l))) 0 * B_of f q (owner lens i) (owner lens l)))) /\
     g_noise gv = tab (f_D f) (fun d => grad_val (Ys o) (e o) (fun i l => if Nat.eqb i l then vget (d_noise (f_D f) d) (owner lens i) else 0))).
  { intros o. exists (gr o). split; [reflexivity|]. specialize (Eg o). destruct (HRep o) as [_ Hr]. unfold all_gradients in Eg.
    rewrite (vec_gradients_ok f P Xs (Ys o) Hok HPp (LY o) (e o) Hr) in Eg. cbn [bind] in Eg.
    rewrite (diags_gradients_ok f P Xs (Ys o) Hok HPp (LY o) (e o) Hr) in Eg. cbn [bind] in Eg.
    rewrite (kernel_gradients_ok f P Xs (Ys o) Hok HPp (LY o) (e o) Hr) in Eg. cbn [bind] in Eg.
    rewrite (noise_gradient_ok f P Xs (Ys o) Hok HPp (LY o) (e o) Hr) in Eg. cbn [bind] in Eg.
    apply Ok_inj in Eg. rewrite <- Eg, <- (HY o). repeat split; reflexivity. }
  assert (EK : forall o q i l, kq f P Xs (Ys o) q i l = k_doc (kern_of f q) (dist_on (qdims f q) (obs P Xs lens i) (obs P Xs lens l))).
  { intros o q i l. unfold kq. now rewrite (HY o). }
  split; [|split; [|split]].
  - intros q r d Hq Hr Hd. refine (mean_ext L E HE _ _ _ _ (HS (fun i l => k_doc (kern_of f q) (dist_on (qdims f q) (obs P Xs lens i) (obs P Xs lens l)) *
      mget (dA_vec (f_D f) (nth r (nth q (f_vecs f) []) []) d) (owner lens i) (owner lens l)))).
    intros o. destruct (G o) as [gv (-> & EV & _)]. rewrite EV, nth_tab by exact Hq. unfold mget. rewrite nth_tab by exact Hr. rewrite nth_tab by exact Hd.
    unfold grad_val, kq. rewrite (HY o). reflexivity.
  - intros q d Hq Hd. refine (mean_ext L E HE _ _ _ _ (HS (fun i l => k_doc (kern_of f q) (dist_on (qdims f q) (obs P Xs lens i) (obs P Xs lens l)) *
      mget (dA_diag (f_D f) d) (owner lens i) (owner lens l)))).
    intros o. destruct (G o) as [gv (-> & _ & EV & _)]. rewrite EV, nth_tab by exact Hq. rewrite vget_tab by exact Hd.
    unfold grad_val, kq. rewrite (HY o). reflexivity.
  - intros q j Hq Hj. refine (mean_ext L E HE _ _ _ _ (HS (fun i l => nth j (k_grad (kern_of f q) (dist_on (qdims f q) (obs P Xs lens i) (obs P Xs lens l))) 0 * B_of f q (owner lens i) (owner lens l)))).
    intros o. destruct (G o) as [gv (-> & _ & _ & EV & _)]. rewrite EV, nth_tab by exact Hq. rewrite nth_tab by exact Hj. reflexivity.
  - intros d Hd. refine (mean_ext L E HE _ _ _ _ (HS (fun i l => if Nat.eqb i l then vget (d_noise (f_D f) d) (owner lens i) else 0))).
    intros o. destruct (G o) as [gv (-> & _ & _ & _ & EV)]. rewrite EV, vget_tab by exact Hd. reflexivity.
Qed.
Print Assumptions C86_score.

Lemma fit_density g k : on_grid_fit g k ->
  let lens := map (@length R) (mg_Ys (gp_data g)) in
  let K := K_obs (gp_f g) (mg_P (gp_data g)) (mg_Xs (gp_data g)) lens in
  pivots (nsum lens) K /\ exists v, gp_log_likelihood g k = Ok (Fin v) /\ log_density (nsum lens) K (y_obs g) v.
Proof.
  intros [[lo [hi [m [solve [bits [n_it (HR & Hf & Hs)]]]]]] Hp OG HS] lens K.
  pose proof (K_obs_pdR g lo hi m HR Hp) as Pd. split; [|exact (C53_on_grid g lo hi m solve bits n_it k HR Hf Hs Pd OG HS)].
  apply pos_definite_pivots; [apply K_obs_sym|exact Pd].
Qed.

(** The log likelihood of models with parameters [f] has a fixed expected value
    when the values are drawn with the covariances [A]. *)
Lemma expected_density {W : Type} (L : (W -> R) -> Prop) E f P Xs lens (g : W -> gp) A : expected L E ->
  same_inputs f P Xs lens g -> (forall o, exists k, on_grid_fit (g o) k) ->
  random_values L E (nsum lens) A (fun o => y_obs (g o)) ->
  let n := nsum lens in
  let K := K_obs f P Xs lens in
  pivots n K /\ exists X l, is_inv n K X /\ (forall o k, on_grid_fit (g o) k -> gp_log_likelihood (g o) k = Ok (Fin (l o))) /\
    has_mean L E l (- (1 / 2) * Rsum n (fun i => Rsum n (fun j => X i j * A i j)) + - (1 / 2) * (ln (det n K) + INR n * ln (2 * PI))).
Proof.
  intros HE HI HF HR n K.
  assert (FD : forall o k, on_grid_fit (g o) k -> pivots n K /\ exists v, gp_log_likelihood (g o) k = Ok (Fin v) /\ log_density n K (y_obs (g o)) v).
  { intros o k Hk. pose proof (fit_density (g o) k Hk) as H. cbv zeta in H. rewrite (si_f _ _ _ _ _ HI), (si_P _ _ _ _ _ HI), (si_Xs _ _ _ _ _ HI), (si_lens _ _ _ _ _ HI) in H. exact H. }
  assert (PK : pivots n K).
  { destruct (pivots_dec n K) as [H|H]; [exact H|]. exfalso. apply (no_empty L E HE). intros o. destruct (HF o) as [k Hk]. exact (H (proj1 (FD o k Hk))). }
  split; [exact PK|]. pose proof (K_obs_sym f P Xs lens n : sym n K) as Hs. destruct (inv_ex n K PK) as [X HX].
  exists X. eexists. split; [exact HX|]. split; [|exact (mean_affine L E HE _ _ _ _ (rv_form L E HE n A _ HR X))].
  intros o k Hk. destruct (FD o k Hk) as [_ [v [-> Hv]]]. do 2 f_equal. exact (density_quad n K (y_obs (g o)) v Hs PK Hv X HX).
Qed.

(** No parameters have a greater expected log likelihood than those the data
    are drawn with, and only parameters with the same covariances attain it. *)
Theorem C86_truth :
  forall (W : Type) (L : (W -> R) -> Prop) E f f' P Xs lens (g g' : W -> gp), expected L E ->
    same_inputs f P Xs lens g -> same_inputs f' P Xs lens g' -> (forall o, mg_Ys (gp_data (g' o)) = mg_Ys (gp_data (g o))) ->
    (forall o, exists k, on_grid_fit (g o) k) -> (forall o, exists k, on_grid_fit (g' o) k) ->
    let n := nsum lens in
    let K := K_obs f P Xs lens in
    let K' := K_obs f' P Xs lens in
    random_values L E n K (fun o => y_obs (g o)) ->
    exists l l', (forall o k, on_grid_fit (g o) k -> gp_log_likelihood (g o) k = Ok (Fin (l o))) /\
      (forall o k, on_grid_fit (g' o) k -> gp_log_likelihood (g' o) k = Ok (Fin (l' o))) /\
      has_mean L E l (- (1 / 2) * (ln (det n K) + INR n + INR n * ln (2 * PI))) /\ L l' /\
      E l' <= E l /\ (E l' = E l -> forall i j, (i < n)%nat -> (j < n)%nat -> K' i j = K i j).
Proof.
  intros W L E f f' P Xs lens g g' HE HI HI' HYs HF HF' n K K' HR.
  assert (HR' : random_values L E n K (fun o => y_obs (g' o))).
  { assert (EY : forall o, y_obs (g' o) = y_obs (g o)) by (intros o; unfold y_obs; now rewrite HYs).
    destruct HR as [R1 R2]. split.
    - intros i Hi. apply (mean_ext L E HE (fun o => y_obs (g o) i)); [intros o; now rewrite EY|exact (R1 i Hi)].
    - intros i j Hi Hj. destruct (R2 i j Hi Hj) as [A B]. unfold cov_of in *.
      destruct (ex_ext _ _ HE (fun o => y_obs (g o) i * y_obs (g o) j) (fun o => y_obs (g' o) i * y_obs (g' o) j)) as [A' B']; [intros o; now rewrite EY|exact A|]. split; [exact A'|].
      rewrite <- B', <- B. f_equal. f_equal;
      [symmetry; apply (ex_ext _ _ HE (fun o => y_obs (g o) i)); [intros o; now rewrite EY|exact (proj1 (R1 i Hi))]
      |symmetry; apply (ex_ext _ _ HE (fun o => y_obs (g o) j)); [intros o; now rewrite EY|exact (proj1 (R1 j Hj))]]. }
  destruct (expected_density L E f P Xs lens g K HE HI HF HR) as [PK [X [l (HX & Hl & Ml)]]].
  destruct (expected_density L E f' P Xs lens g' K HE HI' HF' HR') as [PK' [X' [l' (HX' & Hl' & [Ll' El'])]]].
  fold n K in PK, HX, Ml. fold n K' in PK', HX', El'.
  pose proof (K_obs_sym f P Xs lens n : sym n K) as Hs. pose proof (K_obs_sym f' P Xs lens n : sym n K') as Hs'.
  rewrite (trace_id n K X Hs HX) in Ml.
  destruct (gibbs n K' K X' Hs' Hs PK' PK HX') as [G1 G2]. destruct Ml as [Ll El].
  exists l, l'. split; [exact Hl|]. split; [exact Hl'|]. split; [split; [exact Ll|rewrite El; field]|]. split; [exact Ll'|].
  rewrite El, El'. split; [lra|]. intros EQ i j Hi Hj. symmetry. apply G2; [lra|exact Hi|exact Hj].
Qed.
Print Assumptions C86_truth.

(** ** Examples *)

Lemma ord_models3 nrm md : exists f f', ex_f (RBF 3) (Matern32 2) None None = Ok f /\ proper f' /\ no_identity f' /\ f_D f' = 2%nat /\
  (forall q, (q < f_Q f')%nat -> qdims f' q = [0%nat]) /\ (forall ad, group f' ad <> [] -> ad = [0%nat] /\ ~ surplus f' ad) /\
  forall Xs Ys, good_data Xs Ys -> exists g, gp_init Xs Ys nrm (GNum 0) (GNum 10) (GNum 2%nat) (Some md) (Some f) = Ok g /\
    gp_ready g (GNum 0) (GNum 10) (GNum 2%nat) /\ gp_f g = f' /\ gp_mode g = md /\ gp_data g = multi_of 1 Xs Ys nrm.
Proof.
  destruct pos_rbf as [_ [P2 _]]. pose proof pos_rbf3 as P1. destruct (ex_f (RBF 3) (Matern32 2) None None) as [f|] eqn:E; [|discriminate E].
  assert (Hr : reach f) by (eapply reach_init; exact E).
  destruct (set_input_dim f 1) as [f'|] eqn:E'.
  2:{ cbv -[IZR Rmult Rinv Rplus Rdiv Ropp] in E. apply Ok_inj in E. subst f. discriminate E'. }
  assert (Hr' : reach f') by (eapply reach_dim; eassumption).
  cbv -[IZR Rmult Rinv Rplus Rdiv Ropp] in E. apply Ok_inj in E.
  assert (Ef : f' = match set_input_dim f 1 with Ok x => x | _ => f' end) by now rewrite E'.
  rewrite <- E in Ef. cbv -[IZR Rmult Rinv Rplus Rdiv Ropp] in Ef.
  assert (HP : f_P f' = Some 1%nat) by (rewrite Ef; reflexivity).
  assert (HA : f_active f' = [([0%nat], seq 0 (f_Q f'))]) by (rewrite Ef; reflexivity).
  assert (HQ2 : f_Q f' = 2%nat) by (rewrite Ef; reflexivity).
  assert (HQ : forall q, (q < f_Q f')%nat -> qdims f' q = [0%nat]) by (rewrite HQ2; intros [|[|q]] Hq; [rewrite Ef; reflexivity|rewrite Ef; reflexivity|lia]).
  assert (Hk : kernels_ok f) by (intros q Hq; rewrite <- E in *; cbn in Hq; destruct q as [|[|q]]; [split; [assumption|exact I]|split; [assumption|exact I]|lia]).
  exists f, f'. split; [reflexivity|]. split; [|split; [|split; [rewrite Ef; reflexivity|split; [exact HQ|split]]]].
  - constructor.
    + intros q Hq _. now rewrite HQ.
    + intros q a Hq Ha. rewrite Ef in *. cbn in Hq, Ha. destruct q as [|[|q]]; [| |lia]; destruct a as [|[|a]]; try lia; cbn; lra.
    + intros a Ha. rewrite Ef in *. cbn in Ha. destruct a as [|[|a]]; [| |lia]; cbn; lra.
  - intros q Hq. rewrite HQ2 in Hq. destruct q as [|[|q]]; [rewrite Ef; reflexivity|rewrite Ef; reflexivity|lia].
  - intros ad Had. split; [exact (ex_single f' HA Hr' HP ad Had)|]. intros [_ [[H _]|[H _]]]; rewrite (ex_single f' HA Hr' HP ad Had) in H.
    + apply H. exists 0%nat. rewrite Ef. split; [left; reflexivity|left; unfold is_lmc; cbn; lia].
    + apply H. exists 0%nat. rewrite Ef. split; [left; reflexivity|left; unfold is_lmc; cbn; lia].
  - intros Xs Ys (WX & WY & VD & HW & NE & L2).
    apply (gp_init_ready Xs Ys nrm (GNum 0) (GNum 10) (GNum 2%nat) md f 1 f' WX WY VD HW NE (le_n 1) Hr Hk); [rewrite L2, <- E; reflexivity|exact E'|].
    intros ad Had. rewrite (ex_single f' HA Hr' HP ad Had). constructor; cbn; auto.
    + intros d [<-|[]]. lia.
    + intros d k [<-|[]] E0. injection E0 as <-. lia.
    + intros d [<-|[]]. exists 0, 10. split; [lra|]. split; right; reflexivity.
Qed.

(** The inputs of [ex1_Xs] with the values [y]. *)
Definition truth_Ys (y : nat -> R) : list ndarr := [mk_arr [2]%nat [y 0%nat; y 1%nat]; mk_arr [2]%nat [y 2%nat; y 3%nat]].

Lemma truth_good y : y 0%nat <> y 1%nat -> y 2%nat <> y 3%nat -> good_data ex1_Xs (truth_Ys y).
Proof.
  intros H1 H2. split; [intros X [<-|[<-|[]]]; reflexivity|]. split; [intros X [<-|[<-|[]]]; reflexivity|].
  split; [|split; [intros X [<-|[<-|[]]]; reflexivity|split; [intros X [<-|[<-|[]]]; discriminate|reflexivity]]].
  split; [discriminate|]. split; [constructor; [|constructor; [|constructor]]; exists 2%nat; (split; [|reflexivity]); [left; reflexivity|right; now exists 1%nat]|].
  split; [exists 1%nat; intros X [<-|[<-|[]]]; reflexivity|]. intros Y [<-|[<-|[]]]; right; [exists (y 0%nat), (y 1%nat)|exists (y 2%nat), (y 3%nat)]; cbn; repeat split; auto.
Qed.

Lemma truth_grid g y : gp_ready g (GNum 0) (GNum 10) (GNum 2%nat) -> gp_data g = multi_of 1 ex1_Xs (truth_Ys y) false ->
  (forall ad, group (gp_f g) ad <> [] -> ad = [0%nat]) ->
  on_grid (gp_f g) (mg_P (gp_data g)) (mg_Xs (gp_data g)) (map (@length R) (mg_Ys (gp_data g))) (gp_grids g).
Proof.
  intros HR Ed HA ad i Had Hi. pose proof (HA ad Had) as ->.
  assert (EX : ag_axes (grid_at (gp_grids g) [0%nat]) = [[-10; -4; 2; 8; 14; 20]]).
  { destruct (rd_grid g _ _ _ HR [0%nat] Had) as [E [l [HL _]]].
    pose proof (gr_grids _ _ _ _ HR) as EG. rewrite Ed in EG. cbn [multi_of mg_Xs] in EG.
    unfold generate_grids in EG. apply map_result_inv in EG. apply dict_get_in in E.
    assert (HI : forall l1 (l2 : dict ad_grid), Forall2 (fun ad p => (let! a := generate_grid (map pad1 ex1_Xs) (GNum 0) (GNum 10) (GNum 2%nat) ad in Ok (ad, a)) = Ok p) l1 l2 ->
       forall p, In p l2 -> generate_grid (map pad1 ex1_Xs) (GNum 0) (GNum 10) (GNum 2%nat) (fst p) = Ok (snd p)).
    { induction 1 as [|x p l1 l2 Hp _ IH]; intros p' Hp'; [destruct Hp'|]. destruct Hp' as [<-|Hp']; [|now apply IH].
      apply bind_ok in Hp. destruct Hp as [a [Ea Hp]]. apply Ok_inj in Hp. subst p. exact Ea. }
    apply ex1_axes. exact (HI _ _ EG _ E). }
  rewrite EX. rewrite Ed in *. cbn in Hi.
  destruct i as [|[|[|[|i]]]]; [exists 2%nat|exists 3%nat|exists 3%nat|exists 2%nat|lia]; (split; [cbn; lia|]); intros p Hp'; (destruct p; [|cbn in Hp'; lia]); reflexivity.
Qed.

(** Random values of four observations for which every outcome is acceptable
    data. *)
Lemma truth_values f : proper f -> kernels_ok f -> f_D f = 2%nat -> exists m l, (0 < m)%nat /\
  random_values (fun _ => True) (coin m) 4 (K_obs f 1 (map pad1 ex1_Xs) [2; 2]%nat) (fun o i => coin_var m (l i) o) /\
  forall o, coin_var m (l 0%nat) o <> coin_var m (l 1%nat) o /\ coin_var m (l 2%nat) o <> coin_var m (l 3%nat) o.
Proof.
  intros Hp Hk HD. set (K := K_obs f 1 (map pad1 ex1_Xs) [2; 2]%nat).
  assert (N1 : 0 < vget (f_noise f) 0) by (apply (pr_noise _ Hp); lia). assert (N2 : 0 < vget (f_noise f) 1) by (apply (pr_noise _ Hp); lia).
  set (eps := Rmin (vget (f_noise f) 0) (vget (f_noise f) 1) / 2).
  assert (He : 0 < eps) by (unfold eps; apply Rdiv_lt_0_compat; [now apply Rmin_glb_lt|lra]).
  pose proof (Rmin_l (vget (f_noise f) 0) (vget (f_noise f) 1)) as M1. pose proof (Rmin_r (vget (f_noise f) 0) (vget (f_noise f) 1)) as M2.
  set (v := fun i : nat => match i with O => 1 | 2%nat => 1 | _ => 0 end).
  set (C := fun i j => lmc_cov f (owner [2; 2]%nat i) (obs 1 (map pad1 ex1_Xs) [2; 2]%nat i) (owner [2; 2]%nat j) (obs 1 (map pad1 ex1_Xs) [2; 2]%nat j)).
  assert (HC : psd 4 C).
  { apply lmc_psd_gen; [|exact (pr_per _ Hp)|exact (pr_diag _ Hp)|].
    - intros q Hq. apply (Hk q Hq).
    - intros i Hi. rewrite HD. destruct (owner_lt [2; 2]%nat i) as [O _]; [exact Hi|exact O]. }
  destruct (no_ties 4 K v eps 0 1 2 3 (K_obs_sym _ _ _ _ _) He) as [m [l (Hm & Hl & HN)]]; [|unfold v; ring|unfold v; ring|].
  { intros x. specialize (HC x). 
    assert (E : qf 4 (fun i j => K i j - eps * (v i * v j)) x = qf 4 C x + vget (f_noise f) 0 * (x 0%nat ^ 2 + x 1%nat ^ 2) + vget (f_noise f) 1 * (x 2%nat ^ 2 + x 3%nat ^ 2) - eps * (x 0%nat + x 2%nat) ^ 2).
    { assert (EK : forall i j, K i j = C i j + (if Nat.eqb i j then vget (f_noise f) (owner [2; 2]%nat i) else 0)) by reflexivity.
      unfold qf, bil. cbn [Rsum]. rewrite !EK. cbn [Nat.eqb]. unfold v.
      change (owner [2; 2]%nat 0) with 0%nat. change (owner [2; 2]%nat 1) with 0%nat. change (owner [2; 2]%nat 2) with 1%nat. change (owner [2; 2]%nat 3) with 1%nat. ring. }
    rewrite E. pose proof (pow2_ge_0 (x 0%nat - x 2%nat)). pose proof (pow2_ge_0 (x 0%nat)). pose proof (pow2_ge_0 (x 1%nat)). pose proof (pow2_ge_0 (x 2%nat)). pose proof (pow2_ge_0 (x 3%nat)).
    assert (eps * (x 0%nat + x 2%nat) ^ 2 <= eps * (2 * x 0%nat ^ 2 + 2 * x 2%nat ^ 2)) by (apply Rmult_le_compat_l; [lra|nra]).
    assert (2 * eps * x 0%nat ^ 2 <= vget (f_noise f) 0 * x 0%nat ^ 2) by (apply Rmult_le_compat_r; [assumption|unfold eps; lra]).
    assert (2 * eps * x 2%nat ^ 2 <= vget (f_noise f) 1 * x 2%nat ^ 2) by (apply Rmult_le_compat_r; [assumption|unfold eps; lra]).
    assert (0 <= vget (f_noise f) 0 * x 1%nat ^ 2) by (apply Rmult_le_pos; lra).
    assert (0 <= vget (f_noise f) 1 * x 3%nat ^ 2) by (apply Rmult_le_pos; lra). lra. }
  exists m, l. split; [exact Hm|]. split.
  - split; [intros i _; split; [exact I|apply coin_mean]|]. intros i j Hi Hj. split; [exact I|].
    unfold cov_of. rewrite (coin_prod m _ _ Hm), !coin_mean, <- Hl by assumption. ring.
  - intros [k b]. destruct (HN k) as [H1 H2]. pose proof (sqrt_lt_R0 (INR m) (lt_0_INR m Hm)).
    unfold coin_var. cbn [fst snd]. split; intros C0; apply Rmult_eq_reg_l in C0; try (destruct b; lra); apply Rmult_eq_reg_l in C0; try lra; contradiction.
Qed.

Example C86_truth_ex : forall md, exists (W : Type) (L : (W -> R) -> Prop) E f f' P Xs lens (g g' : W -> gp), expected L E /\
  same_inputs f P Xs lens g /\ same_inputs f' P Xs lens g' /\ (forall o, mg_Ys (gp_data (g' o)) = mg_Ys (gp_data (g o))) /\
  (forall o, gp_mode (g o) = md) /\
  (forall o, exists k, on_grid_fit (g o) k) /\ (forall o, exists k, on_grid_fit (g' o) k) /\
  random_values L E (nsum lens) (K_obs f P Xs lens) (fun o => y_obs (g o)) /\ nsum lens = 4%nat.
Proof.
  intros md. destruct (ord_models false md) as [f0 [f (Ef & Hp & _ & HD & _ & HA & H)]]. destruct (ord_models3 false md) as [f0' [f' (Ef' & Hp' & _ & HD' & _ & HA' & H')]].
  assert (GY : good_data ex1_Xs (truth_Ys INR)) by (apply truth_good; cbn; lra).
  destruct (H _ _ GY) as [g0 (I1 & R1 & F1 & M1 & D1)]. destruct (H' _ _ GY) as [g0' (I1' & R1' & F1' & M1' & D1')].
  assert (Hk : kernels_ok f) by (rewrite <- F1; exact (gr_kern _ _ _ _ R1)).
  destruct (truth_values f Hp Hk HD) as [m [l (Hm & HR & HT)]].
  set (y := fun (o : nat * bool) i => coin_var m (l i) o).
  set (g := fun o => match gp_init ex1_Xs (truth_Ys (y o)) false (GNum 0) (GNum 10) (GNum 2%nat) (Some md) (Some f0) with Ok g => g | _ => g0 end).
  set (g' := fun o => match gp_init ex1_Xs (truth_Ys (y o)) false (GNum 0) (GNum 10) (GNum 2%nat) (Some md) (Some f0') with Ok g => g | _ => g0' end).
  assert (Hg : forall o, gp_ready (g o) (GNum 0) (GNum 10) (GNum 2%nat) /\ gp_f (g o) = f /\ gp_mode (g o) = md /\ gp_data (g o) = multi_of 1 ex1_Xs (truth_Ys (y o)) false).
  { intros o. destruct (HT o) as [T1 T2]. destruct (H _ _ (truth_good (y o) T1 T2)) as [go (E1 & E2)]. unfold g. rewrite E1. exact E2. }
  assert (Hg' : forall o, gp_ready (g' o) (GNum 0) (GNum 10) (GNum 2%nat) /\ gp_f (g' o) = f' /\ gp_mode (g' o) = md /\ gp_data (g' o) = multi_of 1 ex1_Xs (truth_Ys (y o)) false).
  { intros o. destruct (HT o) as [T1 T2]. destruct (H' _ _ (truth_good (y o) T1 T2)) as [go (E1 & E2)]. unfold g'. rewrite E1. exact E2. }
  assert (FIT : forall gg ff o, gp_ready gg (GNum 0) (GNum 10) (GNum 2%nat) /\ gp_f gg = ff /\ gp_mode gg = md /\ gp_data gg = multi_of 1 ex1_Xs (truth_Ys (y o)) false ->
     proper ff -> (forall ad, group ff ad <> [] -> ad = [0%nat] /\ ~ surplus ff ad) -> exists k, on_grid_fit gg k).
  { intros gg ff o (R & <- & _ & D) Hpp HAA. destruct (fit_exists gg _ _ _ R Hpp) as [solve [bits [k [Hs Hf]]]]. exists k. constructor.
    - exists (GNum 0), (GNum 10), (GNum 2%nat), solve, bits, 1%nat. auto.
    - exact Hpp.
    - apply (truth_grid gg (y o) R D). intros ad Had. apply HAA, Had.
    - intros ad Had. apply HAA, Had. }
  exists (nat * bool)%type, (fun _ => True), (coin m), f, f', 1%nat, (map pad1 ex1_Xs), [2; 2]%nat, g, g'.
  split; [exact (coin_expected m Hm)|].
  split; [constructor; intros o; destruct (Hg o) as (_ & EF & _ & ED); [exact EF| | |]; rewrite ED; reflexivity|].
  split; [constructor; intros o; destruct (Hg' o) as (_ & EF & _ & ED); [exact EF| | |]; rewrite ED; reflexivity|].
  split; [intros o; destruct (Hg o) as (_ & _ & _ & ->), (Hg' o) as (_ & _ & _ & ->); reflexivity|].
  split; [intros o; apply Hg|].
  split; [intros o; exact (FIT _ f o (Hg o) Hp HA)|]. split; [intros o; exact (FIT _ f' o (Hg' o) Hp' HA')|].
  split; [|reflexivity].
  - assert (EY : forall o i, (i < 4)%nat -> y_obs (g o) i = coin_var m (l i) o).
    { intros o i Hi. unfold y_obs. destruct (Hg o) as (_ & _ & _ & ->). destruct i as [|[|[|[|i]]]]; try lia; reflexivity. }
    destruct HR as [A B]. split.
    + intros i Hi. split; [exact I|]. rewrite <- (proj2 (A i Hi)). unfold coin. f_equal. apply Rsum_ext. intros k _. now rewrite !EY.
    + intros i j Hi Hj. split; [exact I|]. rewrite <- (proj2 (B i j Hi Hj)). unfold cov_of.
      assert (EX : forall i, (i < 4)%nat -> coin m (fun o => y_obs (g o) i) = coin m (fun o => coin_var m (l i) o)).
      { intros a Ha. unfold coin. f_equal. apply Rsum_ext. intros k _. now rewrite !EY. }
      rewrite (EX i Hi), (EX j Hj). f_equal. unfold coin. f_equal. apply Rsum_ext. intros k _. now rewrite !EY.
Qed.

Example C86_score_ex : exists (W : Type) (L : (W -> R) -> Prop) E f lens (Ys : W -> list vec) (e : W -> exact_lik) (gr : W -> gradients), expected L E /\
  reach f /\ f_P f = Some 1%nat /\ kernels_ok f /\ dims_in_range f 1 /\ inputs 1 Properties_Lik.ex_Xs lens /\ length lens = f_D f /\
  (forall o, map (@length R) (Ys o) = lens) /\
  (forall o, exact_init f Properties_Lik.ex_Xs (Ys o) = Ok (e o)) /\ (forall o, all_gradients (exact_ops f (e o)) f = Ok (gr o)) /\
  random_values L E (nsum lens) (K_obs f 1 Properties_Lik.ex_Xs lens) (fun o => vget (concat (Ys o))) /\ nsum lens = 3%nat.
Proof.
  destruct C25_C28_C55_ex as [f [e0 [g0 (_ & Hr & HP & Hk & Hdr & HX & HY & H1 & H2 & H3 & Ee0 & _ & Eg0)]]].
  change (map (@length R) Properties_Lik.ex_Ys) with [2; 1]%nat in HX. set (lens := [2; 1]%nat) in *. change (length Properties_Lik.ex_Ys) with (length lens) in HY.
  assert (Pd : pos_definite 3 (K_obs f 1 Properties_Lik.ex_Xs lens)).
  { apply (K_obs_pd f 1 Properties_Lik.ex_Xs lens); auto. intros q Hq. apply Hk. exact Hq. }
  destruct (gram 3 (K_obs f 1 Properties_Lik.ex_Xs lens) (K_obs_sym _ _ _ _ _) (pd_psd _ _ Pd)) as [l Hl].
  set (y := fun (o : nat * bool) i => coin_var 3 (l i) o).
  set (Ys := fun o => [[y o 0%nat; y o 1%nat]; [y o 2%nat]] : list vec).
  set (e := fun o => match exact_init f Properties_Lik.ex_Xs (Ys o) with Ok e => e | _ => e0 end).
  assert (He : forall o, exact_init f Properties_Lik.ex_Xs (Ys o) = Ok (e o)).
  { intros o. destruct (C55_exact_succeeds f 1 Properties_Lik.ex_Xs (Ys o) Hr HP (Nat.lt_succ_diag_r 0) Hk Hdr HX HY H1 H2 H3) as [e1 E1]. unfold e. now rewrite E1. }
  set (gr := fun o => match all_gradients (exact_ops f (e o)) f with Ok g => g | _ => g0 end).
  exists (nat * bool)%type, (fun _ => True), (coin 3), f, lens, Ys, e, gr. split; [apply coin_expected; lia|].
  repeat (split; [assumption|]). split; [reflexivity|]. split; [exact He|]. split; [|split; [|reflexivity]].
  - intros o. destruct (C28_exact_gradients f 1 Properties_Lik.ex_Xs (Ys o) (e o) Hr HP (Nat.lt_succ_diag_r 0) Hk Hdr HX HY (He o)) as [g [Eg _]]. unfold gr. now rewrite Eg.
  - assert (EY : forall o i, (i < 3)%nat -> vget (concat (Ys o)) i = coin_var 3 (l i) o).
    { intros o i Hi. destruct i as [|[|[|i]]]; try lia; reflexivity. }
    assert (EX : forall i, (i < 3)%nat -> coin 3 (fun o => vget (concat (Ys o)) i) = 0).
    { intros i Hi. rewrite <- (coin_mean 3 (l i)). unfold coin. f_equal. apply Rsum_ext. intros k _. now rewrite !EY. }
    split; [intros i Hi; split; [exact I|exact (EX i Hi)]|]. intros i j Hi Hj. split; [exact I|].
    unfold cov_of. rewrite (EX i Hi), (EX j Hj). change (nsum lens) with 3%nat in Hi, Hj. rewrite (Hl i j Hi Hj), <- (coin_prod 3 (l i) (l j)) by lia.
    rewrite Rmult_0_l, Rminus_0_r. unfold coin. f_equal. apply Rsum_ext. intros k _. now rewrite !EY.
Qed.
