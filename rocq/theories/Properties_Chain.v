(** Claims about one more sample (C85). *)

From Coq Require Import Reals List Arith ZArith Lia Permutation Lra.
From Verif Require Import Base NDArray PSD Model_Util Proofs_Util Spec_Util Model_Linalg Spec_Linalg Proofs_Linalg Model_Interp Spec_Interp
  Properties_Interp Model_Kern Spec_Kern Proofs_Kern Proofs_KernPSD Model_FK Spec_FK Proofs_FK
  Properties_FK Model_Grid Spec_Grid Proofs_Grid Proofs_Grid2 Properties_Grid Det Proofs_Det Model_Lik Spec_Lik Proofs_Lik Proofs_Lik2 Proofs_Lik3 Proofs_Lik4 Proofs_Lik5 Proofs_Lik6 Proofs_Lik7 Properties_Lik
  Properties_Lik2 Spec_GP Proofs_Gen Proofs_Gen2 Properties_Gen Model_GP Spec_Pred Proofs_Pred Proofs_Pred2 Proofs_Pred3 Proofs_Pred4 Proofs_Init Proofs_Pred5 Proofs_Pred6 Properties_Pred
  Spec_Order Proofs_Order Proofs_Order2 Proofs_Order3 Properties_Order Spec_Depend Proofs_Depend Properties_Alike Spec_Acc Proofs_Acc Spec_Lip Proofs_Lip Proofs_Lip2 Spec_Far Properties_Far Spec_Noise Proofs_Noise Properties_Noise Spec_Best Proofs_Best Properties_Best Spec_Chain Proofs_Chain.
Import ListNotations.
Import ListNotations.
Open Scope R_scope.

(** On the grid, in the exact and on-the-fly modes. *)
Lemma grid_pred g lo hi m solve bits n_it k Zs zl : gp_ready g lo hi m -> fitted solve bits n_it g k ->
  exact_solver (n_obs g) (K_fit g) solve -> no_identity (gp_f g) -> gp_mode g <> Precompute -> proper (gp_f g) ->
  requests (mg_P (gp_data g)) Zs zl -> length zl = f_D (gp_f g) -> (0 < nsum zl)%nat ->
  let f := gp_f g in
  let P := mg_P (gp_data g) in
  let Xs := mg_Xs (gp_data g) in
  let lens := map (@length R) (mg_Ys (gp_data g)) in
  let n := n_obs g in
  on_grid f P Xs lens (gp_grids g) -> (forall ad, group f ad <> [] -> ~ surplus f ad) ->
  exists mu var, gp_predict solve g k Zs = Ok (mu, var) /\
    forall d i, (d < f_D f)%nat -> (i < nth d zl 0)%nat -> pt_on_grid g (point P Zs d i) ->
      let x := point P Zs d i in
      let c := fun j => lmc_cov f d x (owner lens j) (obs P Xs lens j) in
      exists z, solves n (K_obs f P Xs lens) z c /\
        vget (nth d mu []) i = unnorm_mean g d (Rsum n (fun j => z j * y_obs g j)) /\
        vget (nth d var []) i = unnorm_var g d (lmc_cov f d x d x + vget (f_noise f) d - Rsum n (fun j => c j * z j)).
Proof.
  intros HR Hf Hs Hid Hm Hp HZ Hz Ht f P Xs lens n OG HS. destruct (gp_mode g) eqn:EM; [|congruence|].
  - destruct (C58_on_grid g lo hi m solve bits n_it k Zs zl HR Hf Hs Hid EM Hp HZ Hz Ht OG HS) as [mu [var [E HV]]].
    exists mu, var. split; [exact E|]. intros d i Hd Hi HG x c. destruct (HV d i Hd Hi HG) as [alpha [z (Ha & Hz' & E1 & E2)]].
    exists z. split; [exact Hz'|]. split; [|exact E2]. rewrite E1. f_equal. exact (swap_solves _ _ _ _ _ _ (K_obs_sym _ _ _ _ _) Hz' Ha).
  - assert (MR : mode_ready g) by (unfold mode_ready; rewrite EM; exact (K_obs_pdR g lo hi m HR Hp)).
    destruct (fit_solver g lo hi m HR _ _ _ _ Hf Hs) as [_ [Hr Ha]].
    destruct (C36_exact g lo hi m solve bits n_it k Zs zl HR Hf Hr Hid Hp EM HZ Hz) as [mu [var [E HV]]].
    destruct Hf as [old [s Hf]]. destruct (fitted_of g _ _ _ _ _ _ Hf) as [HK _].
    pose proof (predict_ok g lo hi m HR k HK solve Hr Zs zl Hid MR HZ Hz ltac:(rewrite EM; discriminate)) as E'.
    rewrite E in E'. apply Ok_inj in E'. injection E' as Emu _.
    exists mu, var. split; [exact E|]. intros d i Hd Hi HG x c.
    destruct (HV d i Hd Hi) as [z [v (Hz' & Ev & _ & EV)]].
    destruct (mean_weights g lo hi m HR Hp k Ha d x) as [w [Hw [EMn HW]]].
    exists z. split; [exact Hz'|]. split; [|rewrite EV, Ev; reflexivity].
    rewrite Emu, nth_tab by exact Hd. rewrite vget_tab by exact Hi. f_equal. etransitivity; [symmetry; exact EMn|].
    apply Rsum_ext. intros j Hj. f_equal. exact (HW OG HS HG z Hz' j Hj).
Qed.

(** One more sample adds to the log likelihood the log density that was
    predicted for it. *)
Theorem C85_chain :
  forall g g' lo hi m lo' hi' m' solve solve' bits bits' n_it n_it' k k' Zs zl d i y,
  gp_ready g lo hi m -> gp_ready g' lo' hi' m' -> comparable g g' ->
  fitted solve bits n_it g k -> fitted solve' bits' n_it' g' k' ->
  exact_solver (n_obs g) (K_fit g) solve -> exact_solver (n_obs g') (K_fit g') solve' ->
  no_identity (gp_f g) -> gp_mode g <> Precompute -> proper (gp_f g) ->
  requests (mg_P (gp_data g)) Zs zl -> length zl = f_D (gp_f g) -> (d < f_D (gp_f g))%nat -> (i < nth d zl 0)%nat ->
  let P := mg_P (gp_data g) in
  let lens g := map (@length R) (mg_Ys (gp_data g)) in
  on_grid (gp_f g) P (mg_Xs (gp_data g)) (lens g) (gp_grids g) -> on_grid (gp_f g) P (mg_Xs (gp_data g')) (lens g') (gp_grids g') ->
  (forall ad, group (gp_f g) ad <> [] -> ~ surplus (gp_f g) ad) -> pt_on_grid g (point P Zs d i) ->
  one_more g g' d (point P Zs d i) y ->
  exists mu var mean v l, gp_predict solve g k Zs = Ok (mu, var) /\
    vget (nth d mu []) i = unnorm_mean g d mean /\ vget (nth d var []) i = unnorm_var g d v /\ 0 < v /\
    gp_log_likelihood g k = Ok (Fin l) /\ gp_log_likelihood g' k' = Ok (Fin (l + normal_ln mean v y)).
Proof.
  intros g g' lo hi m lo' hi' m' solve solve' bits bits' n_it n_it' k k' Zs zl d i y HR HR' HC Hf Hf' Hs Hs' Hid Hm Hp HZ Hz Hd Hi P lens OG OG' HS HG HO.
  assert (Ht : (0 < nsum zl)%nat).
  { assert (Hl : (d < length zl)%nat) by (rewrite Hz; exact Hd). pose proof (nsum_offset zl d i Hl Hi). lia. }
  set (f := gp_f g) in *. set (x := point P Zs d i) in *.
  destruct (grid_pred g lo hi m solve bits n_it k Zs zl HR Hf Hs Hid Hm Hp HZ Hz Ht OG HS) as [mu [var [E HV]]].
  destruct (HV d i Hd Hi HG) as [z (Hz' & EM & EV)]. clear HV. fold P f x in Hz', EM, EV.
  assert (Hp' : proper (gp_f g')) by (rewrite (cp_f _ _ HC); exact Hp).
  pose proof (K_obs_pdR g lo hi m HR Hp) as Pd. pose proof (K_obs_pdR g' lo' hi' m' HR' Hp') as Pd'.
  pose proof (rd_D g lo hi m HR) as D1. pose proof (rd_D g' lo' hi' m' HR') as D2. rewrite (cp_f _ _ HC) in D2. rewrite map_length in D1, D2. fold f in D1, D2.
  destruct (C53_on_grid g lo hi m solve bits n_it k HR Hf Hs Pd OG HS) as [l [El [_ [a [Ha Hl]]]]].
  assert (OG2 : on_grid (gp_f g') (mg_P (gp_data g')) (mg_Xs (gp_data g')) (map (@length R) (mg_Ys (gp_data g'))) (gp_grids g')).
  { rewrite (cp_f _ _ HC), (cp_P _ _ HC). exact OG'. }
  assert (HS2 : forall ad, group (gp_f g') ad <> [] -> ~ surplus (gp_f g') ad) by (rewrite (cp_f _ _ HC); exact HS).
  destruct (C53_on_grid g' lo' hi' m' solve' bits' n_it' k' HR' Hf' Hs' Pd' OG2 HS2) as [l' [El' [_ [a' [Ha' Hl']]]]].
  rewrite (cp_f _ _ HC), (cp_P _ _ HC) in Ha', Hl', Pd'. fold f P in Ha', Hl', Pd', Pd, Ha, Hl.
  destruct (one_sends g g' d x y (cp_P _ _ HC)) as [En [s (Si & S1 & S2 & S3 & S4)]]; [unfold vec in *; congruence|unfold vec in *; rewrite D1; exact Hd|exact HO|].
  fold (lens g) (lens g') in *. fold P in S1, S4. change (nsum (lens g')) with (n_obs g') in Pd'. change (nsum (lens g)) with (n_obs g) in Pd. rewrite En in *. set (n := n_obs g) in *.
  set (X := obs P (mg_Xs (gp_data g)) (lens g)) in *. set (X' := obs P (mg_Xs (gp_data g')) (lens g')) in *.
  set (K := K_obs f P (mg_Xs (gp_data g)) (lens g)) in *. set (K' := K_obs f P (mg_Xs (gp_data g')) (lens g')) in *.
  set (F := fun i j => K' (s i) (s j)).
  set (c := fun j => lmc_cov f d x (owner (lens g) j) (X j)) in *.
  assert (FE : forall i j, (i < n)%nat -> (j < n)%nat -> F i j = K i j).
  { intros a0 b Ha0 Hb. unfold F, K', K, K_obs. fold X X'. destruct (S1 a0 Ha0) as [O1 [_ P1]]. destruct (S1 b Hb) as [O2 [_ P2]]. rewrite O1, O2. f_equal.
    - apply (lmc_ext g lo hi m HR); assumption.
    - destruct (Nat.eqb_spec a0 b) as [->|N]; [now rewrite Nat.eqb_refl|]. destruct (Nat.eqb_spec (s a0) (s b)) as [C|]; [|reflexivity]. apply Si in C; [congruence|lia|lia]. }
  assert (Fc : forall j, (j < n)%nat -> F n j = c j).
  { intros b Hb. unfold F, K', K_obs. fold X'. destruct (S1 b Hb) as [O2 [_ P2]]. rewrite S2, O2.
    destruct (Nat.eqb_spec (s n) (s b)) as [C|_]; [apply Si in C; lia|]. rewrite Rplus_0_r. apply (lmc_ext g lo hi m HR); assumption. }
  assert (Fn : F n n = lmc_cov f d x d x + vget (f_noise f) d).
  { unfold F, K', K_obs. fold X'. rewrite S2, Nat.eqb_refl. f_equal. apply (lmc_ext g lo hi m HR); assumption. }
  assert (Fs : sym (S n) F) by (intros u w _ _; unfold F, K'; apply (K_obs_sym _ _ _ _ (S (s u + s w))); lia).
  assert (Fp : pivots (S n) F).
  { apply pos_definite_pivots; [exact Fs|]. apply (sub_pd (S n) (S n) s F K' Si); [reflexivity|exact Pd']. }
  assert (Fz : solves n F z (F n)).
  { refine (solves_ext n K F z z c (F n) _ _ _ Hz'); [|reflexivity|]; [intros; symmetry; now apply FE|intros; symmetry; now apply Fc]. }
  assert (Fa : solves n F a (fun j => y_obs g' (s j))).
  { refine (solves_ext n K F a a (y_obs g) _ _ _ _ Ha); [|reflexivity|]; [intros; symmetry; now apply FE|intros j Hj; symmetry; apply S1, Hj]. }
  pose proof (pivots_less n F Fp) as Fpn.
  pose proof (det_last n F z Fs Fpn Fz) as ED.
  set (v := F n n - Rsum n (fun j => F n j * z j)) in *.
  assert (EvE : lmc_cov f d x d x + vget (f_noise f) d - Rsum n (fun j => c j * z j) = v).
  { unfold v. rewrite Fn. f_equal. apply Rsum_ext. intros j Hj. now rewrite Fc. }
  pose proof (det_pos (S n) F Fp) as Dp'. pose proof (det_pos n F Fpn) as Dp.
  assert (Hv : 0 < v).
  { rewrite ED in Dp'. destruct (Rle_or_lt v 0) as [C|]; [|assumption]. nra. }
  pose proof (quad_last n F z a (fun j => a' (s j)) (fun j => y_obs g' (s j)) Fs Fz Fa) as EQ. cbv zeta in EQ. fold v in EQ.
  specialize (EQ ltac:(lra) Fp (reorder_solves (S n) s F K' Si ltac:(reflexivity) a' (y_obs g') Ha')).
  cbv beta in EQ. rewrite (Rsum_reindex (S n) s (fun j => y_obs g' j * a' j) Si) in EQ.
  rewrite (Rsum_ext n (fun i => y_obs g' (s i) * a i) (fun i => y_obs g i * a i)) in EQ by (intros j Hj; f_equal; apply S1, Hj).
  rewrite (Rsum_ext n (fun j => z j * y_obs g' (s j)) (fun j => z j * y_obs g j)) in EQ by (intros j Hj; f_equal; apply S1, Hj).
  rewrite S3 in EQ. set (mean := Rsum n (fun j => z j * y_obs g j)) in *.
  assert (EK : det (S n) F = det (S n) K').
  { apply (det_reorder (S n) s F K' Si); [reflexivity| |exact Pd']. intros u w _ _; unfold K'; apply (K_obs_sym _ _ _ _ (S (u + w))); lia. }
  exists mu, var, mean, v, l. split; [exact E|]. split; [exact EM|]. split; [rewrite EV; f_equal; exact EvE|]. split; [exact Hv|]. split; [exact El|].
  rewrite El'. do 2 f_equal. rewrite Hl', Hl. fold n. rewrite EQ, <- EK, ED. rewrite (det_ext n F K FE). rewrite (det_ext n F K FE) in Dp.
  rewrite ln_mult by assumption. unfold normal_ln. rewrite (ln_mult (2 * PI) v) by (pose proof PI_RGT_0; lra). rewrite S_INR. field. lra.
Qed.
Print Assumptions C85_chain.

(** ** Example *)

(** The data of [ex1_Xs] with the value 7 of the first output at 8. *)
Definition chain_Xs : list ndarr := [mk_arr [3]%nat [8; 2; 8]; mk_arr [2; 1]%nat [8; 2]].
Definition chain_Ys : list ndarr := [mk_arr [3]%nat [7; 1; 2]; mk_arr [2]%nat [3; 5]].

Lemma chain_data : good_data chain_Xs chain_Ys.
Proof.
  split; [intros X [<-|[<-|[]]]; reflexivity|]. split; [intros X [<-|[<-|[]]]; reflexivity|].
  split; [|split; [intros X [<-|[<-|[]]]; reflexivity|split; [intros X [<-|[<-|[]]]; discriminate|reflexivity]]].
  split; [discriminate|]. split; [constructor; [|constructor; [|constructor]]; [exists 3%nat|exists 2%nat]; (split; [|reflexivity]); [left; reflexivity|right; now exists 1%nat]|].
  split; [exists 1%nat; intros X [<-|[<-|[]]]; reflexivity|]. intros Y [<-|[<-|[]]]; right; [exists 1, 2|exists 3, 5]; cbn; repeat split; auto; lra.
Qed.

Lemma chain_axis g : gp_ready g (GNum 0) (GNum 10) (GNum 2%nat) -> gp_data g = multi_of 1 ex1_Xs ex1_Ys false ->
  group (gp_f g) [0%nat] <> [] -> ag_axes (grid_at (gp_grids g) [0%nat]) = [[-10; -4; 2; 8; 14; 20]].
Proof.
  intros HR Ed Had. destruct (rd_grid g _ _ _ HR [0%nat] Had) as [E [l [HL _]]].
  pose proof (gr_grids _ _ _ _ HR) as EG. rewrite Ed in EG. cbn [multi_of mg_Xs] in EG.
  unfold generate_grids in EG. apply map_result_inv in EG. apply dict_get_in in E.
  assert (HI : forall l1 (l2 : dict ad_grid), Forall2 (fun ad p => (let! a := generate_grid (map pad1 ex1_Xs) (GNum 0) (GNum 10) (GNum 2%nat) ad in Ok (ad, a)) = Ok p) l1 l2 ->
     forall p, In p l2 -> generate_grid (map pad1 ex1_Xs) (GNum 0) (GNum 10) (GNum 2%nat) (fst p) = Ok (snd p)).
  { induction 1 as [|x p l1 l2 Hp _ IH]; intros p' Hp'; [destruct Hp'|]. destruct Hp' as [<-|Hp']; [|now apply IH].
    apply bind_ok in Hp. destruct Hp as [a [Ea Hp]]. apply Ok_inj in Hp. subst p. exact Ea. }
  apply ex1_axes. exact (HI _ _ EG _ E).
Qed.

Example C85_ex : forall md, md <> Precompute -> exists g g' solve solve' bits bits' k k',
  gp_ready g (GNum 0) (GNum 10) (GNum 2%nat) /\ gp_ready g' (GNum 0) (GNum 10) (GNum 2%nat) /\ comparable g g' /\
  fitted solve bits 1 g k /\ fitted solve' bits' 1 g' k' /\
  exact_solver (n_obs g) (K_fit g) solve /\ exact_solver (n_obs g') (K_fit g') solve' /\
  no_identity (gp_f g) /\ gp_mode g = md /\ proper (gp_f g) /\
  requests (mg_P (gp_data g)) ex1_Zs [3; 0]%nat /\ length [3; 0]%nat = f_D (gp_f g) /\
  on_grid (gp_f g) (mg_P (gp_data g)) (mg_Xs (gp_data g)) (map (@length R) (mg_Ys (gp_data g))) (gp_grids g) /\
  on_grid (gp_f g) (mg_P (gp_data g)) (mg_Xs (gp_data g')) (map (@length R) (mg_Ys (gp_data g'))) (gp_grids g') /\
  (forall ad, group (gp_f g) ad <> [] -> ~ surplus (gp_f g) ad) /\ pt_on_grid g (point (mg_P (gp_data g)) ex1_Zs 0 2) /\
  one_more g g' 0 (point (mg_P (gp_data g)) ex1_Zs 0 2) 7.
Proof.
  intros md Hmd. destruct (ord_models false md) as [f [f' (_ & Hp & Hid & HD & HQ & HA & H)]].
  destruct (H _ _ ex1_good) as [g (E1 & R1 & F1 & M1 & D1)]. destruct (H _ _ chain_data) as [g' (E2 & R2 & F2 & M2 & D2)].
  assert (Hp1 : proper (gp_f g)) by now rewrite F1. assert (Hp2 : proper (gp_f g')) by now rewrite F2.
  destruct (fit_exists g _ _ _ R1 Hp1) as [solve [bits [k [Hs Hf]]]]. destruct (fit_exists g' _ _ _ R2 Hp2) as [solve' [bits' [k' [Hs' Hf']]]].
  assert (HC : comparable g g') by (constructor; [now rewrite D1, D2|congruence|congruence|now rewrite D1, D2]).
  assert (HM : one_more g g' 0 (point (mg_P (gp_data g)) ex1_Zs 0 2) 7).
  { intros d. unfold data_of. rewrite D1, D2. destruct d as [|[|d]].
    - cbn. apply Permutation_sym, (Permutation_cons_append [([2], 1); ([8], 2)] ([8], 7)).
    - cbn. apply Permutation_refl.
    - cbn. destruct d; apply perm_nil. }
  assert (HMS : more_samples g g').
  { intros d. specialize (HM d). eexists. exact HM. }
  assert (HW : within (GNum 0) (GNum 10) (GNum 2%nat) g g').
  { unfold within. rewrite D1, D2. cbn [multi_of mg_P mg_Xs mg_Ys]. intros [|p] Hp0; [|lia]. split; [reflexivity|].
    intros x [i [Hi ->]]. cbn in Hi. exists 0, 10. split; [right; reflexivity|]. split; [right; reflexivity|].
    destruct i as [|[|[|[|[|i]]]]]; try lia; cbn; lra. }
  destruct (more_sends g g' (cp_P _ _ HC) (two_D g g' _ _ _ R1 R2 HC) HMS) as [s Hse].
  assert (AX : forall ad, group (gp_f g) ad <> [] -> ag_axes (grid_at (gp_grids g) ad) = [[-10; -4; 2; 8; 14; 20]]).
  { intros ad Had. assert (ad = [0%nat]) as -> by (apply HA; now rewrite <- F1). exact (chain_axis g R1 D1 Had). }
  assert (AX' : forall ad, group (gp_f g) ad <> [] -> ag_axes (grid_at (gp_grids g') ad) = [[-10; -4; 2; 8; 14; 20]]).
  { intros ad Had. rewrite (two_axes g g' _ _ _ R1 R2 HC s Hse HW ad Had). exact (AX ad Had). }
  exists g, g', solve, solve', bits, bits', k, k'. repeat (split; [assumption|]). split; [now rewrite F1|]. split; [exact M1|]. split; [exact Hp1|].
  split; [rewrite D1; exact ex1_requests|]. split; [rewrite F1, HD; reflexivity|].
  split. { intros ad i Had Hi. rewrite (AX ad Had). assert (ad = [0%nat]) as -> by (apply HA; now rewrite <- F1). rewrite D1 in *. cbn in Hi.
    destruct i as [|[|[|[|i]]]]; [exists 2%nat|exists 3%nat|exists 3%nat|exists 2%nat|lia]; (split; [cbn; lia|]); intros p Hp'; (destruct p; [|cbn in Hp'; lia]); reflexivity. }
  split. { intros ad i Had Hi. rewrite (AX' ad Had). assert (ad = [0%nat]) as -> by (apply HA; now rewrite <- F1). rewrite D1, D2 in *. cbn in Hi.
    destruct i as [|[|[|[|[|i]]]]]; [exists 3%nat|exists 2%nat|exists 3%nat|exists 3%nat|exists 2%nat|lia]; (split; [cbn; lia|]); intros p Hp'; (destruct p; [|cbn in Hp'; lia]); reflexivity. }
  split; [rewrite F1; intros ad Had; apply HA, Had|]. split; [|exact HM].
  intros ad Had. assert (EA := AX ad Had). assert (ad = [0%nat]) as -> by (apply HA; now rewrite <- F1). exists 3%nat. rewrite EA. split.
  - destruct (rd_grid g _ _ _ R1 [0%nat] Had) as [_ [l [_ [E3 [_ [E5 _]]]]]]. rewrite E5.
    rewrite EA in E3. unfold axes_points. apply (f_equal (map (@length R))) in E3. rewrite axes_lengths in E3. rewrite <- E3. cbn. lia.
  - intros p Hp'. destruct p; [|cbn in Hp'; lia]. rewrite D1. reflexivity.
Qed.
