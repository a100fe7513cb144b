(** Claims about the order and the amount of the data (C71). *)

From Coq Require Import Reals List Arith ZArith Lia Lra Permutation.
From Verif Require Import Base NDArray PSD Model_Util Proofs_Util Spec_Util Model_Linalg Spec_Linalg Proofs_Linalg Model_Interp Spec_Interp
  Properties_Interp Model_Kern Spec_Kern Proofs_Kern Proofs_KernPSD Model_FK Spec_FK Proofs_FK
  Properties_FK Model_Grid Spec_Grid Proofs_Grid Proofs_Grid2 Properties_Grid Det Proofs_Det Model_Lik Spec_Lik Proofs_Lik Proofs_Lik2 Proofs_Lik3 Proofs_Lik4 Proofs_Lik5 Proofs_Lik6 Proofs_Lik7 Properties_Lik
  Properties_Lik2 Spec_GP Proofs_Gen Proofs_Gen2 Properties_Gen Model_GP Spec_Pred Proofs_Pred Proofs_Pred2 Proofs_Pred3 Proofs_Pred4 Proofs_Init Proofs_Pred5 Proofs_Pred6 Properties_Pred
  Spec_Order Proofs_Order Proofs_Order2 Proofs_Order3.
Import ListNotations.
Open Scope R_scope.

(** Models built by the same constructor call, except that the samples of each
    output come in another order, hold the same samples (normalised alike, if
    at all). *)
Theorem C71_init :
  forall Xs Ys Xs' Ys' nrm lo hi m md fk P g g',
  (forall X, In X Xs -> a_shape X <> []) -> (forall Y, In Y Ys -> a_shape Y <> []) ->
  (forall X, In X Xs' -> a_shape X <> []) -> (forall Y, In Y Ys' -> a_shape Y <> []) ->
  (forall X, In X Xs -> width X = P) -> (forall X, In X Xs' -> width X = P) -> length Xs' = length Xs ->
  (forall d, Permutation (samples P Xs (map a_data Ys) d) (samples P Xs' (map a_data Ys') d)) ->
  gp_init Xs Ys nrm lo hi m md fk = Ok g -> gp_init Xs' Ys' nrm lo hi m md fk = Ok g' ->
  comparable g g' /\ same_samples g g'.
Proof.
  assert (HI : forall Xs Ys nrm lo hi m md fk P g, (forall X, In X Xs -> a_shape X <> []) -> (forall Y, In Y Ys -> a_shape Y <> []) ->
    (forall X, In X Xs -> width X = P) -> gp_init Xs Ys nrm lo hi m md fk = Ok g ->
    gp_data g = multi_of P Xs Ys nrm /\ length Xs = length Ys /\ Some (gp_mode g) = md /\ exists f, fk = Some f /\ set_input_dim f P = Ok (gp_f g)).
  { intros Xs Ys nrm lo hi m md fk P g SX SY HW E. unfold gp_init in E. apply bind_ok in E. destruct E as [d [Em E]].
    destruct (multigp_init_spec Xs Ys nrm SX SY) as [[VD [P' [HP' E']]]|[_ E']]; rewrite E' in Em; [|discriminate Em]. apply Ok_inj in Em. subst d.
    assert (P' = P) as -> by (destruct VD as (NX & _); destruct Xs as [|X0 Xs]; [congruence|]; rewrite <- (HP' X0) by (now left); apply HW; now left).
    destruct fk as [f|]; [|destruct md; discriminate E]. destruct md as [md|]; [|discriminate E].
    apply bind_ok in E. destruct E as [f' [Ef E]]. apply bind_ok in E. destruct E as [gr [_ E]]. apply Ok_inj in E. subst g. cbn [gp_data gp_mode gp_f].
    split; [reflexivity|]. split; [destruct VD as (_ & F2 & _); eapply Forall2_len; exact F2|]. split; [reflexivity|]. exists f. split; [reflexivity|exact Ef]. }
  intros Xs Ys Xs' Ys' nrm lo hi m md fk P g g' SX SY SX' SY' HW HW' EL HP E E'.
  destruct (HI _ _ _ _ _ _ _ _ P g SX SY HW E) as (D1 & L1 & M1 & f & F1 & S1). destruct (HI _ _ _ _ _ _ _ _ P g' SX' SY' HW' E') as (D2 & L2 & M2 & f2 & F2 & S2).
  assert (HY : forall d, Permutation (a_data (nth d Ys (mk_arr [] []))) (a_data (nth d Ys' (mk_arr [] [])))).
  { intros d. specialize (HP d). apply (Permutation_map snd) in HP. rewrite !samples_snd in HP.
    change (@nil R) with (a_data (mk_arr [] [])) in HP. rewrite !map_nth in HP. exact HP. }
  split.
  - constructor.
    + now rewrite D1, D2.
    + rewrite F2 in F1. injection F1 as <-. rewrite S2 in S1. now apply Ok_inj in S1.
    + rewrite <- M2 in M1. now injection M1 as ->.
    + rewrite D1, D2. cbn [multi_of mg_norm]. destruct nrm; [|reflexivity]. f_equal. rewrite !map_map.
      apply (nth_ext _ _ (scale_by (a_data (mk_arr [] []))) (scale_by (a_data (mk_arr [] [])))); [rewrite !map_length; congruence|].
      intros d _. rewrite !(map_nth (fun x => scale_by (a_data x))). symmetry. apply norm_perm, HY.
  - intros d. unfold data_of. rewrite D1, D2. cbn [multi_of mg_P mg_Xs mg_Ys]. rewrite !samples_map. cbv zeta.
    pose proof (norm_perm _ _ (HY d)) as EN. injection EN as EN1 EN2. rewrite EN1, EN2. apply Permutation_map, HP.
Qed.
Print Assumptions C71_init.

(** Such models make the same predictions, in every mode, and have the same
    log likelihood. *)
Theorem C71_order :
  forall g g' lo hi m solve solve' bits bits' n_it n_it' k k', gp_ready g lo hi m -> gp_ready g' lo hi m -> comparable g g' -> same_samples g g' ->
  fitted solve bits n_it g k -> fitted solve' bits' n_it' g' k' ->
  exact_solver (n_obs g) (K_fit g) solve -> exact_solver (n_obs g') (K_fit g') solve' -> proper (gp_f g) ->
  (forall Zs zl, no_identity (gp_f g) -> mode_ready g -> requests (mg_P (gp_data g)) Zs zl -> length zl = f_D (gp_f g) -> (0 < nsum zl)%nat ->
     exists mu var, gp_predict solve g k Zs = Ok (mu, var) /\ gp_predict solve' g' k' Zs = Ok (mu, var)) /\
  exists v, gp_log_likelihood g k = Ok v /\ gp_log_likelihood g' k' = Ok v.
Proof.
  intros g g' lo hi m solve solve' bits bits' n_it n_it' k k' HR HR' HC HS Hf Hf' Hs Hs' Hp.
  pose proof (two_D g g' lo hi m HR HR' HC) as ED. pose proof (same_count g g' ED HS) as EL.
  pose proof (same_within g g' lo hi m HR HR' HC HS) as HW.
  destruct (more_sends g g' (cp_P _ _ HC) ED (same_more _ _ HS)) as [s Hse].
  assert (En : n_obs g' = n_obs g) by (unfold n_obs; now rewrite EL).
  destruct (fit_solver g lo hi m HR _ _ _ _ Hf Hs) as [He [Hr Ha]]. destruct (fit_solver g' lo hi m HR' _ _ _ _ Hf' Hs') as [He' [Hr' Ha']].
  assert (Hp' : proper (gp_f g')) by (rewrite (cp_f _ _ HC); exact Hp).
  split.
  - intros Zs zl Hid Hm HZ Hz Ht.
    assert (MR' : mode_ready g').
    { unfold mode_ready in *. rewrite (cp_mode _ _ HC). destruct (gp_mode g); [exact I| |].
      - rewrite (cp_f _ _ HC), (cp_P _ _ HC). exact Hm.
      - exact (K_obs_pdR g' lo hi m HR' Hp'). }
    destruct Hf as [old [st Hf]]. destruct Hf' as [old' [st' Hf']].
    destruct (fitted_of g _ _ _ _ _ _ Hf) as [HK _]. destruct (fitted_of g' _ _ _ _ _ _ Hf') as [HK' _].
    eexists _, _. split; [exact (predict_ok g lo hi m HR k HK solve Hr Zs zl Hid Hm HZ Hz (fun _ => Ht))|].
    rewrite (predict_ok g' lo hi m HR' k' HK' solve' Hr' Zs zl); try assumption;
      try (rewrite (cp_f _ _ HC); assumption); try (rewrite (cp_P _ _ HC); assumption); try (intros _; exact Ht).
    rewrite (cp_f _ _ HC), (cp_P _ _ HC). do 2 f_equal.
    + apply tab_ext. intros a Ha0. apply tab_ext. intros i Hi. unfold unnorm_mean. rewrite (cp_norm _ _ HC).
      rewrite (same_mean g g' lo hi m HR HR' HC Hp s Hse HW k k' En Ha Ha'). reflexivity.
    + apply tab_ext. intros a Ha0. apply tab_ext. intros i Hi. unfold unnorm_var. rewrite (cp_norm _ _ HC).
      rewrite (same_var g g' lo hi m HR HR' HC Hp s Hse HW solve solve' k k' He He' En); [reflexivity|].
      intros EM. unfold mode_ready in Hm. now rewrite EM in Hm.
  - pose proof (K_obs_pdR g lo hi m HR Hp) as P1. pose proof (K_obs_pdR g' lo hi m HR' Hp') as P2.
    pose proof (proj1 (C53_log_det g lo hi m HR) P1) as [_ D1]. pose proof (proj1 (C53_log_det g' lo hi m HR') P2) as [_ D2].
    unfold gp_log_likelihood. rewrite D1, D2. cbn [bind]. eexists. split; [reflexivity|]. do 2 f_equal.
    rewrite !concat_len. f_equal. f_equal.
    + f_equal.
      * f_equal. exact (same_det g g' lo hi m HR HR' HC Hp s Hse En).
      * unfold gp_normal_quadratic, np_vdot. rewrite !concat_len. exact (same_quadratic g g' lo hi m HR HR' HC Hp s Hse HW k k' En Ha Ha').
    + f_equal. f_equal. exact En.
Qed.
Print Assumptions C71_order.

(** With the same parameters and more data within the range of the old, no
    predicted variance grows: for exact and on-the-fly predictions anywhere,
    for precomputed ones on the grid. *)
Theorem C71_more_data :
  forall g g' lo hi m solve solve' bits bits' n_it n_it' k k' Zs zl, gp_ready g lo hi m -> gp_ready g' lo hi m -> comparable g g' ->
  more_samples g g' -> within lo hi m g g' ->
  fitted solve bits n_it g k -> fitted solve' bits' n_it' g' k' ->
  exact_solver (n_obs g) (K_fit g) solve -> exact_solver (n_obs g') (K_fit g') solve' -> proper (gp_f g) ->
  no_identity (gp_f g) -> mode_ready g -> requests (mg_P (gp_data g)) Zs zl -> length zl = f_D (gp_f g) -> (0 < nsum zl)%nat ->
  exists mu var mu' var', gp_predict solve g k Zs = Ok (mu, var) /\ gp_predict solve' g' k' Zs = Ok (mu', var') /\
    forall d i, (d < f_D (gp_f g))%nat -> (i < nth d zl 0)%nat ->
      (gp_mode g = Precompute -> pt_on_grid g (point (mg_P (gp_data g)) Zs d i)) ->
      vget (nth d var' []) i <= vget (nth d var []) i.
Proof.
  intros g g' lo hi m solve solve' bits bits' n_it n_it' k k' Zs zl HR HR' HC HS HW Hf Hf' Hs Hs' Hp Hid Hm HZ Hz Ht.
  pose proof (two_D g g' lo hi m HR HR' HC) as ED.
  destruct (more_sends g g' (cp_P _ _ HC) ED HS) as [s Hse].
  destruct (fit_solver g lo hi m HR _ _ _ _ Hf Hs) as [He [Hr _]]. destruct (fit_solver g' lo hi m HR' _ _ _ _ Hf' Hs') as [He' [Hr' _]].
  assert (Hp' : proper (gp_f g')) by (rewrite (cp_f _ _ HC); exact Hp).
  assert (MR' : mode_ready g').
  { unfold mode_ready in *. rewrite (cp_mode _ _ HC). destruct (gp_mode g); [exact I| |].
    - rewrite (cp_f _ _ HC), (cp_P _ _ HC). exact Hm.
    - exact (K_obs_pdR g' lo hi m HR' Hp'). }
  destruct Hf as [old [st Hf]]. destruct Hf' as [old' [st' Hf']].
  destruct (fitted_of g _ _ _ _ _ _ Hf) as [HK _]. destruct (fitted_of g' _ _ _ _ _ _ Hf') as [HK' _].
  eexists _, _, _, _. split; [exact (predict_ok g lo hi m HR k HK solve Hr Zs zl Hid Hm HZ Hz (fun _ => Ht))|]. split.
  - apply (predict_ok g' lo hi m HR' k' HK' solve' Hr' Zs zl); try assumption;
      try (rewrite (cp_f _ _ HC); assumption); try (rewrite (cp_P _ _ HC); assumption); try (intros _; exact Ht).
  - intros d i Hd Hi HG. rewrite (cp_f _ _ HC), (cp_P _ _ HC), !nth_tab by exact Hd. rewrite !vget_tab by exact Hi.
    set (x := point (mg_P (gp_data g)) Zs d i) in *.
    assert (V : var_at g' k' solve' d x <= var_at g k solve d x).
    { apply (more_var g g' lo hi m HR HR' HC Hp s Hse HW solve solve' k k' He He'). intros EM. unfold mode_ready in Hm. rewrite EM in Hm.
      split; [exact Hm|]. intros u Hu. pose proof (both_full g lo hi m HR Hm) as Had. destruct (HG EM _ Had) as [c [Hc Hx]].
      rewrite (we_node _ _ (wt_weights g lo hi m HR) _ x u c Had Hu Hc Hx). destruct (Nat.eqb u c); lra. }
    unfold unnorm_var. rewrite (cp_norm _ _ HC). destruct (mg_norm (gp_data g)) as [l|]; [|exact V].
    apply Rmult_le_compat_r; [|exact V]. rewrite <- Rsqr_pow2. apply Rle_0_sqr.
Qed.
Print Assumptions C71_more_data.

(** ** Examples *)

(** The data of [ex1_Xs] in another order, and with one more sample. *)
Definition ord_Xs : list ndarr := [mk_arr [2]%nat [8; 2]; mk_arr [2; 1]%nat [2; 8]].
Definition ord_Ys : list ndarr := [mk_arr [2]%nat [2; 1]; mk_arr [2]%nat [5; 3]].
Definition more_Xs : list ndarr := [mk_arr [3]%nat [2; 5; 8]; mk_arr [2; 1]%nat [8; 2]].
Definition more_Ys : list ndarr := [mk_arr [3]%nat [1; 7; 2]; mk_arr [2]%nat [3; 5]].

Definition good_data (Xs Ys : list ndarr) : Prop :=
  (forall X, In X Xs -> length (a_data X) = nprod (a_shape X)) /\ (forall Y, In Y Ys -> length (a_data Y) = nprod (a_shape Y)) /\
  valid_data Xs Ys /\ (forall X, In X Xs -> width X = 1%nat) /\ (forall Y, In Y Ys -> a_data Y <> []) /\ length Xs = 2%nat.

Lemma ord_data : good_data ord_Xs ord_Ys.
Proof.
  split; [intros X [<-|[<-|[]]]; reflexivity|]. split; [intros X [<-|[<-|[]]]; reflexivity|].
  split; [|split; [intros X [<-|[<-|[]]]; reflexivity|split; [intros X [<-|[<-|[]]]; discriminate|reflexivity]]].
  split; [discriminate|]. split; [constructor; [|constructor; [|constructor]]; exists 2%nat; (split; [|reflexivity]); [left; reflexivity|right; now exists 1%nat]|].
  split; [exists 1%nat; intros X [<-|[<-|[]]]; reflexivity|]. intros Y [<-|[<-|[]]]; right; [exists 1, 2|exists 3, 5]; cbn; repeat split; auto; lra.
Qed.

Lemma more_data : good_data more_Xs more_Ys.
Proof.
  split; [intros X [<-|[<-|[]]]; reflexivity|]. split; [intros X [<-|[<-|[]]]; reflexivity|].
  split; [|split; [intros X [<-|[<-|[]]]; reflexivity|split; [intros X [<-|[<-|[]]]; discriminate|reflexivity]]].
  split; [discriminate|]. split; [constructor; [|constructor; [|constructor]]; [exists 3%nat|exists 2%nat]; (split; [|reflexivity]); [left; reflexivity|right; now exists 1%nat]|].
  split; [exists 1%nat; intros X [<-|[<-|[]]]; reflexivity|]. intros Y [<-|[<-|[]]]; right; [exists 1, 2|exists 3, 5]; cbn; repeat split; auto; lra.
Qed.

Lemma fit_exists g lo hi m : gp_ready g lo hi m -> proper (gp_f g) -> exists solve bits k, exact_solver (n_obs g) (K_fit g) solve /\ fitted solve bits 1 g k.
Proof.
  intros HR Hp'. assert (Hsym : sym (n_obs g) (K_fit g)) by exact (K_fit_sym g lo hi m HR).
  destruct (exact_solver_ex (n_obs g) (K_fit g) Hsym (K_fit_pd g lo hi m HR Hp')) as [solve Hs].
  set (old := mk_slots (repeat [] (f_Q (gp_f g))) (repeat [] (f_Q (gp_f g))) (repeat KIdentity (f_Q (gp_f g))) []).
  destruct (C59_fit g lo hi m solve 1 old HR Hp' Hs (le_n 1) (repeat_length _ _) (repeat_length _ _) (repeat_length _ _)) as [_ [s [H _]]].
  set (bits := [repeat true (n_obs g)]).
  assert (HB : In bits (draws 1 (n_obs g))).
  { apply draws_in. split; [reflexivity|]. intros r [<-|[]]. apply repeat_length. }
  destruct (H bits HB) as [kk EK]. exists solve, bits, kk. split; [exact Hs|]. exists old, (s bits). exact EK.
Qed.

(** Models of such data with kernels RBF (LMC) and Matern32 (independent). *)
Lemma ord_models nrm md : exists f f', ex_f (RBF 1) (Matern32 2) None None = Ok f /\ proper f' /\ no_identity f' /\ f_D f' = 2%nat /\
  (forall q, (q < f_Q f')%nat -> qdims f' q = [0%nat]) /\ (forall ad, group f' ad <> [] -> ad = [0%nat] /\ ~ surplus f' ad) /\
  forall Xs Ys, good_data Xs Ys -> exists g, gp_init Xs Ys nrm (GNum 0) (GNum 10) (GNum 2%nat) (Some md) (Some f) = Ok g /\
    gp_ready g (GNum 0) (GNum 10) (GNum 2%nat) /\ gp_f g = f' /\ gp_mode g = md /\ gp_data g = multi_of 1 Xs Ys nrm.
Proof.
  destruct pos_rbf as [P1 [P2 _]]. destruct (ex_f (RBF 1) (Matern32 2) None None) as [f|] eqn:E; [|discriminate E].
  assert (Hr : reach f) by (eapply reach_init; exact E).
  destruct (set_input_dim f 1) as [f'|] eqn:E'.
  2:{ cbv -[IZR Rmult Rinv Rplus Rdiv Ropp] in E. apply Ok_inj in E. subst f. discriminate E'. }
  assert (Hr' : reach f') by (eapply reach_dim; eassumption).
  cbv -[IZR Rmult Rinv Rplus Rdiv Ropp] in E. apply Ok_inj in E.
  assert (Ef : f' = match set_input_dim f 1 with Ok x => x | _ => f' end) by now rewrite E'.
  rewrite <- E in Ef. cbv -[IZR Rmult Rinv Rplus Rdiv Ropp] in Ef.
  assert (HP : f_P f' = Some 1%nat) by (rewrite Ef; reflexivity).
  assert (HA : f_active f' = [([0%nat], seq 0 (f_Q f'))]) by (rewrite Ef; reflexivity).
  assert (HQ2 : f_Q f' = 2%nat) by (rewrite Ef; reflexivity).
  assert (HQ : forall q, (q < f_Q f')%nat -> qdims f' q = [0%nat]) by (rewrite HQ2; intros [|[|q]] Hq; [rewrite Ef; reflexivity|rewrite Ef; reflexivity|lia]).
  assert (Hk : kernels_ok f) by (intros q Hq; rewrite <- E in *; cbn in Hq; destruct q as [|[|q]]; [split; [assumption|exact I]|split; [assumption|exact I]|lia]).
  exists f, f'. split; [reflexivity|]. split; [|split; [|split; [rewrite Ef; reflexivity|split; [exact HQ|split]]]].
  - constructor.
    + intros q Hq _. now rewrite HQ.
    + intros q a Hq Ha. rewrite Ef in *. cbn in Hq, Ha. destruct q as [|[|q]]; [| |lia]; destruct a as [|[|a]]; try lia; cbn; lra.
    + intros a Ha. rewrite Ef in *. cbn in Ha. destruct a as [|[|a]]; [| |lia]; cbn; lra.
  - intros q Hq. rewrite HQ2 in Hq. destruct q as [|[|q]]; [rewrite Ef; reflexivity|rewrite Ef; reflexivity|lia].
  - intros ad Had. split; [exact (ex_single f' HA Hr' HP ad Had)|]. intros [_ [[H _]|[H _]]]; rewrite (ex_single f' HA Hr' HP ad Had) in H.
    + apply H. exists 0%nat. rewrite Ef. split; [left; reflexivity|left; unfold is_lmc; cbn; lia].
    + apply H. exists 0%nat. rewrite Ef. split; [left; reflexivity|left; unfold is_lmc; cbn; lia].
  - intros Xs Ys (WX & WY & VD & HW & NE & L2).
    apply (gp_init_ready Xs Ys nrm (GNum 0) (GNum 10) (GNum 2%nat) md f 1 f' WX WY VD HW NE (le_n 1) Hr Hk); [rewrite L2, <- E; reflexivity|exact E'|].
    intros ad Had. rewrite (ex_single f' HA Hr' HP ad Had). constructor; cbn; auto.
    + intros d [<-|[]]. lia.
    + intros d k [<-|[]] E0. injection E0 as <-. lia.
    + intros d [<-|[]]. exists 0, 10. split; [lra|]. split; right; reflexivity.
Qed.

Lemma ex1_good : good_data ex1_Xs ex1_Ys.
Proof. destruct ex1_data as (A & B & C & D & E). repeat (split; [assumption|]). reflexivity. Qed.

(** The hypotheses of C71_init and C71_order, in all modes. *)
Example C71_order_ex : forall md, exists f g g' solve solve' bits bits' k k',
  gp_init ex1_Xs ex1_Ys true (GNum 0) (GNum 10) (GNum 2%nat) (Some md) (Some f) = Ok g /\
  gp_init ord_Xs ord_Ys true (GNum 0) (GNum 10) (GNum 2%nat) (Some md) (Some f) = Ok g' /\
  (forall d, Permutation (samples 1 ex1_Xs (map a_data ex1_Ys) d) (samples 1 ord_Xs (map a_data ord_Ys) d)) /\
  gp_ready g (GNum 0) (GNum 10) (GNum 2%nat) /\ gp_ready g' (GNum 0) (GNum 10) (GNum 2%nat) /\
  comparable g g' /\ same_samples g g' /\ gp_data g <> gp_data g' /\
  fitted solve bits 1 g k /\ fitted solve' bits' 1 g' k' /\
  exact_solver (n_obs g) (K_fit g) solve /\ exact_solver (n_obs g') (K_fit g') solve' /\ proper (gp_f g) /\
  no_identity (gp_f g) /\ mode_ready g /\ requests (mg_P (gp_data g)) ex1_Zs [3; 0]%nat /\ length [3; 0]%nat = f_D (gp_f g) /\ (0 < nsum [3; 0])%nat.
Proof.
  intros md. destruct (ord_models true md) as [f [f' (_ & Hp & Hid & HD & HQ & _ & H)]].
  destruct (H _ _ ex1_good) as [g (E1 & R1 & F1 & M1 & D1)]. destruct (H _ _ ord_data) as [g' (E2 & R2 & F2 & M2 & D2)].
  assert (Hp1 : proper (gp_f g)) by now rewrite F1. assert (Hp2 : proper (gp_f g')) by now rewrite F2.
  destruct (fit_exists g _ _ _ R1 Hp1) as [solve [bits [k [Hs Hf]]]]. destruct (fit_exists g' _ _ _ R2 Hp2) as [solve' [bits' [k' [Hs' Hf']]]].
  assert (HS : forall d, Permutation (samples 1 ex1_Xs (map a_data ex1_Ys) d) (samples 1 ord_Xs (map a_data ord_Ys) d)).
  { intros [|[|[|d]]]; [apply perm_swap|apply perm_swap|apply perm_nil|apply perm_nil]. }
  destruct (C71_init ex1_Xs ex1_Ys ord_Xs ord_Ys true (GNum 0) (GNum 10) (GNum 2%nat) (Some md) (Some f) 1 g g') as [HC HSS];
    try (intros X [<-|[<-|[]]]; first [discriminate|reflexivity]); try reflexivity; try assumption.
  exists f, g, g', solve, solve', bits, bits', k, k'. repeat (split; [assumption|]).
  split. { rewrite D1, D2. intros C. apply (f_equal mg_Xs) in C. cbn in C. injection C as C _ _. lra. }
  repeat (split; [assumption|]). rewrite F1. split; [exact Hid|]. split.
  { unfold mode_ready. rewrite F1, M1. destruct md; [exact I|rewrite D1; exact HQ|]. rewrite <- F1. exact (K_obs_pdR g _ _ _ R1 Hp1). }
  rewrite D1. split; [exact ex1_requests|]. split; [now rewrite HD|cbn; lia].
Qed.

(** The hypotheses of C71_more_data, in all modes. *)
Example C71_more_data_ex : forall md, exists g g' solve solve' bits bits' k k',
  gp_ready g (GNum 0) (GNum 10) (GNum 2%nat) /\ gp_ready g' (GNum 0) (GNum 10) (GNum 2%nat) /\
  comparable g g' /\ more_samples g g' /\ within (GNum 0) (GNum 10) (GNum 2%nat) g g' /\ n_obs g' = S (n_obs g) /\
  fitted solve bits 1 g k /\ fitted solve' bits' 1 g' k' /\
  exact_solver (n_obs g) (K_fit g) solve /\ exact_solver (n_obs g') (K_fit g') solve' /\ proper (gp_f g) /\
  no_identity (gp_f g) /\ gp_mode g = md /\ mode_ready g /\ requests (mg_P (gp_data g)) ex1_Zs [3; 0]%nat /\ length [3; 0]%nat = f_D (gp_f g) /\ (0 < nsum [3; 0])%nat.
Proof.
  intros md. destruct (ord_models false md) as [f [f' (_ & Hp & Hid & HD & HQ & _ & H)]].
  destruct (H _ _ ex1_good) as [g (E1 & R1 & F1 & M1 & D1)]. destruct (H _ _ more_data) as [g' (E2 & R2 & F2 & M2 & D2)].
  assert (Hp1 : proper (gp_f g)) by now rewrite F1. assert (Hp2 : proper (gp_f g')) by now rewrite F2.
  destruct (fit_exists g _ _ _ R1 Hp1) as [solve [bits [k [Hs Hf]]]]. destruct (fit_exists g' _ _ _ R2 Hp2) as [solve' [bits' [k' [Hs' Hf']]]].
  exists g, g', solve, solve', bits, bits', k, k'. split; [exact R1|]. split; [exact R2|].
  split; [constructor; [now rewrite D1, D2|congruence|congruence|now rewrite D1, D2]|].
  split. { intros d. unfold data_of. rewrite D1, D2. destruct d as [|[|d]]; [exists [([5], 7)]|exists []|exists []].
    - cbn. apply perm_skip. apply perm_swap.
    - rewrite app_nil_r. apply Permutation_refl.
    - rewrite app_nil_r. destruct d; apply perm_nil. }
  split. { unfold within. rewrite D1, D2. cbn [multi_of mg_P mg_Xs mg_Ys]. intros [|p] Hp0; [|lia]. split; [reflexivity|].
    intros x [i [Hi ->]]. cbn in Hi. exists 0, 10. split; [right; reflexivity|]. split; [right; reflexivity|].
    destruct i as [|[|[|[|[|i]]]]]; try lia; cbn; lra. }
  split; [unfold n_obs; now rewrite D1, D2|].
  repeat (split; [assumption|]). rewrite F1. split; [exact Hid|]. split; [exact M1|]. split.
  { unfold mode_ready. rewrite F1, M1. destruct md; [exact I|rewrite D1; exact HQ|]. rewrite <- F1. exact (K_obs_pdR g _ _ _ R1 Hp1). }
  rewrite D1. split; [exact ex1_requests|]. split; [now rewrite HD|cbn; lia].
Qed.
