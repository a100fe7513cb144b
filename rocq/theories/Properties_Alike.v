(** Claims about models with the same covariance functions (C78). *)

From Coq Require Import Reals List Arith ZArith Lia Lra Permutation.
From Verif Require Import Base NDArray PSD Model_Util Proofs_Util Spec_Util Model_Linalg Spec_Linalg Proofs_Linalg Model_Interp Spec_Interp
  Properties_Interp Model_Kern Spec_Kern Proofs_Kern Proofs_KernPSD Model_FK Spec_FK Proofs_FK
  Properties_FK Model_Grid Spec_Grid Proofs_Grid Proofs_Grid2 Properties_Grid Det Proofs_Det Model_Lik Spec_Lik Proofs_Lik Proofs_Lik2 Proofs_Lik3 Proofs_Lik4 Proofs_Lik5 Proofs_Lik6 Proofs_Lik7 Properties_Lik
  Properties_Lik2 Spec_GP Proofs_Gen Proofs_Gen2 Properties_Gen Model_GP Spec_Pred Proofs_Pred Proofs_Pred2 Proofs_Pred3 Proofs_Pred4 Proofs_Init Proofs_Pred5 Proofs_Pred6 Properties_Pred
  Spec_Order Proofs_Order Proofs_Order2 Proofs_Order3 Properties_Order Spec_Alike Proofs_Alike Proofs_Alike2.
Import ListNotations.
Open Scope R_scope.

Lemma nsum_pos l a : (0 < nth a l 0)%nat -> (0 < nsum l)%nat.
Proof. revert a. induction l as [|x l IH]; intros [|a] H; unfold nsum in *; cbn [nth fold_right] in *; try lia. specialize (IH a H). lia. Qed.
Lemma nsum_some l : (0 < nsum l)%nat -> exists a, (a < length l)%nat /\ (0 < nth a l 0)%nat.
Proof.
  induction l as [|x l IH]; cbn [nsum fold_right]; intros H; [cbn in H; lia|]. destruct x as [|x]; [|exists 0%nat; cbn; lia].
  destruct IH as [a [Ha Hb]]; [cbn in H; exact H|]. exists (S a). cbn. split; [lia|exact Hb].
Qed.

(** What a model predicts, and its log likelihood, depend on the outputs'
    covariance functions only: not on how outputs are numbered, nor on which
    kernels, vectors and diagonals make them up, nor in which order (as long as
    the spurious identities of C23 appear in both or in neither). *)
Theorem C78_same_covariance_partial :
  forall p g g' lo hi m solve solve' bits bits' n_it n_it' k k', gp_ready g lo hi m -> gp_ready g' lo hi m ->
  same_cov p (gp_f g) (gp_f g') -> (forall ad, group (gp_f g) ad <> [] -> surplus (gp_f g') ad <-> surplus (gp_f g) ad) -> same_data p g g' -> gp_mode g' = gp_mode g ->
  fitted solve bits n_it g k -> fitted solve' bits' n_it' g' k' ->
  exact_solver (n_obs g) (K_fit g) solve -> exact_solver (n_obs g') (K_fit g') solve' -> proper (gp_f g) -> proper (gp_f g') ->
  (forall Zs zl Zs' zl', no_identity (gp_f g) -> no_identity (gp_f g') -> mode_ready g ->
     let P := mg_P (gp_data g) in let D := f_D (gp_f g) in
     requests P Zs zl -> requests P Zs' zl' -> length zl = D -> length zl' = D -> (0 < nsum zl)%nat ->
     (forall a, (a < D)%nat -> nth (p a) zl' 0%nat = nth a zl 0%nat /\
        forall i c, (i < nth a zl 0)%nat -> (c < P)%nat -> point P Zs' (p a) i c = point P Zs a i c) ->
     exists mu var mu' var', gp_predict solve g k Zs = Ok (mu, var) /\ gp_predict solve' g' k' Zs' = Ok (mu', var') /\
       forall a, (a < D)%nat -> nth (p a) mu' [] = nth a mu [] /\ nth (p a) var' [] = nth a var []) /\
  exists v, gp_log_likelihood g k = Ok v /\ gp_log_likelihood g' k' = Ok v.
Proof.
  intros p g g' lo hi m solve solve' bits bits' n_it n_it' k k' HR HR' HC HU HD HM Hf Hf' Hs Hs' Hp Hp'.
  destruct (al_sends p g g' lo hi m HR HR' HC HD) as [s Hse].
  pose proof (al_n p g g' lo hi m HR HR' HC HD) as En.
  destruct (fit_solver g lo hi m HR _ _ _ _ Hf Hs) as [He [Hr Ha]]. destruct (fit_solver g' lo hi m HR' _ _ _ _ Hf' Hs') as [He' [Hr' Ha']].
  split.
  - intros Zs zl Zs' zl' Hid Hid' Hm P D HZ HZ' Hz Hz' Ht HP.
    assert (MR' : mode_ready g').
    { unfold mode_ready in *. rewrite HM. destruct (gp_mode g); [exact I| |].
      - rewrite (sd_P _ _ _ HD). intros q Hq. 
        destruct (group_qdims (gp_f g') _ (rd_ok g' _ _ _ HR') (rd_P g' _ _ _ HR') q Hq) as [E _].
        destruct (proj1 (sc_dims _ _ _ HC (qdims (gp_f g') q)) (ex_intro _ q (conj Hq E))) as [q0 [Hq0 E0]].
        destruct (group_qdims (gp_f g) _ (rd_ok g _ _ _ HR) (rd_P g _ _ _ HR) q0 Hq0) as [E1 _]. rewrite E1 in E0. injection E0 as <-. now apply Hm.
      - exact (K_obs_pdR g' lo hi m HR' Hp'). }
    assert (Ht' : (0 < nsum zl')%nat).
    { destruct (nsum_some _ Ht) as [a [Ha0 Hb]]. rewrite Hz in Ha0. apply (nsum_pos _ (p a)). now rewrite (proj1 (HP a Ha0)). }
    destruct Hf as [old [st Hf]]. destruct Hf' as [old' [st' Hf']].
    destruct (fitted_of g _ _ _ _ _ _ Hf) as [HK _]. destruct (fitted_of g' _ _ _ _ _ _ Hf') as [HK' _].
    eexists _, _, _, _. split; [exact (predict_ok g lo hi m HR k HK solve Hr Zs zl Hid Hm HZ Hz (fun _ => Ht))|]. split.
    { apply (predict_ok g' lo hi m HR' k' HK' solve' Hr' Zs' zl'); try assumption;
        try (rewrite (sc_D _ _ _ HC); assumption); try (rewrite (sd_P _ _ _ HD); assumption); try (intros _; exact Ht'). }
    intros a Ha0. destruct (HP a Ha0) as [EZ EP]. pose proof (sc_p _ _ _ HC a Ha0) as Hpa.
    rewrite (sc_D _ _ _ HC), (sd_P _ _ _ HD). fold P D. fold D in Hpa. rewrite !nth_tab by assumption. rewrite EZ.
    assert (EPt : forall i, (i < nth a zl 0)%nat -> mean_at g' k' (p a) (point P Zs' (p a) i) = mean_at g k a (point P Zs a i) /\
      var_at g' k' solve' (p a) (point P Zs' (p a) i) = var_at g k solve a (point P Zs a i)).
    { intros i Hi. destruct (alp_point g' lo hi m k' solve' (p a) (point P Zs a i) (point P Zs' (p a) i) HR') as [E1 E2].
      { rewrite (sd_P _ _ _ HD). intros c Hc. now apply EP. }
      rewrite E1, (E2 MR'). split.
      - exact (alp_mean p g g' lo hi m HR HR' HC HU HD Hp s Hse k k' Ha Ha' a _ Ha0).
      - apply (alp_var p g g' lo hi m HR HR' HC HU HD HM Hp Hp' s Hse solve solve' k k' He He' a _ Ha0).
        intros EM. unfold mode_ready in Hm. now rewrite EM in Hm. }
    assert (EN : match mg_norm (gp_data g), mg_norm (gp_data g') with None, None => True | Some l, Some l' => nth (p a) l' (mk_norm 0 1) = nth a l (mk_norm 0 1) | _, _ => False end).
    { pose proof (sd_norm _ _ _ HD) as E. destruct (mg_norm (gp_data g)), (mg_norm (gp_data g')); try exact E. now apply E. }
    split; apply tab_ext; intros i Hi; destruct (EPt i Hi) as [E1 E2]; unfold unnorm_mean, unnorm_var; rewrite ?E1, ?E2;
      destruct (mg_norm (gp_data g)), (mg_norm (gp_data g')); try destruct EN; try reflexivity; now rewrite EN.
  - pose proof (K_obs_pdR g lo hi m HR Hp) as P1. pose proof (K_obs_pdR g' lo hi m HR' Hp') as P2.
    pose proof (proj1 (C53_log_det g lo hi m HR) P1) as [_ D1]. pose proof (proj1 (C53_log_det g' lo hi m HR') P2) as [_ D2].
    unfold gp_log_likelihood. rewrite D1, D2. cbn [bind]. eexists. split; [reflexivity|]. do 2 f_equal.
    rewrite !concat_len. f_equal. f_equal.
    + f_equal.
      * f_equal. exact (alp_det p g g' lo hi m HR HR' HC HD Hp' s Hse).
      * unfold gp_normal_quadratic, np_vdot. rewrite !concat_len. exact (alp_quadratic p g g' lo hi m HR HR' HC HU HD Hp s Hse k k' Ha Ha').
    + f_equal. f_equal. exact En.
Qed.
Print Assumptions C78_same_covariance_partial.

(** ** Examples *)

Lemma two_models f f' nrm md : reach f -> kernels_ok f -> f_D f = 2%nat -> set_input_dim f 1 = Ok f' -> f_active f' = [([0%nat], seq 0 (f_Q f'))] -> f_P f' = Some 1%nat ->
  forall Xs Ys, good_data Xs Ys -> exists g, gp_init Xs Ys nrm (GNum 0) (GNum 10) (GNum 2%nat) (Some md) (Some f) = Ok g /\
    gp_ready g (GNum 0) (GNum 10) (GNum 2%nat) /\ gp_f g = f' /\ gp_mode g = md /\ gp_data g = multi_of 1 Xs Ys nrm.
Proof.
  intros Hr Hk HD E' HA HP Xs Ys (WX & WY & VD & HW & NE & L2).
  assert (Hr' : reach f') by (eapply reach_dim; eassumption).
  apply (gp_init_ready Xs Ys nrm (GNum 0) (GNum 10) (GNum 2%nat) md f 1 f' WX WY VD HW NE (le_n 1) Hr Hk); [congruence|exact E'|].
  intros ad Had. rewrite (ex_single f' HA Hr' HP ad Had). constructor; cbn; auto.
  - intros d [<-|[]]. lia.
  - intros d k [<-|[]] E0. injection E0 as <-. lia.
  - intros d [<-|[]]. exists 0, 10. split; [lra|]. split; right; reflexivity.
Qed.

(** Two kernel states with the same covariance functions: outputs swapped,
    kernels listed in the other order. *)
Definition alike_rand (q r d : nat) : R := match q, d with O, O => 1 | O, _ => 2 | _, O => 3 | _, _ => 1 end.
Definition alike_f : result fkernel :=
  fk_init alike_rand (Some 2%nat) (Some [(RBF 1, None); (Matern32 2, None)]) (Some [1%Z; 1%Z]) (Some []) (Some [(RBF 3, None)]) (Some [0%Z]).
Definition alike_f' : result fkernel :=
  fk_init (fun q r d => alike_rand (1 - q) r (1 - d)) (Some 2%nat) (Some [(Matern32 2, None); (RBF 1, None)]) (Some [1%Z; 1%Z]) (Some []) (Some [(RBF 3, None)]) (Some [1%Z]).

Definition swap (a : nat) : nat := (1 - a)%nat.

Lemma pos_rbf3 : positive (RBF 3).
Proof. intros v H; cbn in H; repeat destruct H as [<-|H]; try destruct H; lra. Qed.

Lemma swap_good : good_data (rev ex1_Xs) (rev ex1_Ys).
Proof.
  split; [intros X [<-|[<-|[]]]; reflexivity|]. split; [intros X [<-|[<-|[]]]; reflexivity|].
  split; [|split; [intros X [<-|[<-|[]]]; reflexivity|split; [intros X [<-|[<-|[]]]; discriminate|reflexivity]]].
  split; [discriminate|]. split; [constructor; [|constructor; [|constructor]]; exists 2%nat; (split; [|reflexivity]); [right; now exists 1%nat|left; reflexivity]|].
  split; [exists 1%nat; intros X [<-|[<-|[]]]; reflexivity|]. intros Y [<-|[<-|[]]]; right; [exists 3, 5|exists 1, 2]; cbn; repeat split; auto; lra.
Qed.

(** What both states share. *)
Record three (f f' : fkernel) : Prop := {
  th_set : set_input_dim f 1 = Ok f';
  th_reach : reach f;
  th_ok : kernels_ok f;
  th_D : f_D f = 2%nat;
  th_D' : f_D f' = 2%nat;
  th_P : f_P f' = Some 1%nat;
  th_active : f_active f' = [([0%nat], seq 0 (f_Q f'))];
  th_Q : f_Q f' = 3%nat;
  th_qdims : forall q, (q < f_Q f')%nat -> dims_of f' q = Some [0%nat];
  th_proper : proper f';
  th_id : no_identity f';
  th_surplus : forall ad, group f' ad <> [] -> ~ surplus f' ad
}.

Lemma alike_three : exists f f', alike_f = Ok f /\ three f f' /\
  f_vecs f' = [[[1; 2]]; [[3; 1]]; [[0; 0]]] /\ f_diags f' = [[1; 1]; [1; 1]; [1; 0]] /\ f_noise f' = [1/10; 1/10] /\
  map fst (f_kernels f') = [RBF 1; Matern32 2; RBF 3].
Proof.
  destruct pos_rbf as [P1 [P2 _]]. pose proof pos_rbf3 as P3. destruct alike_f as [f|] eqn:E; [|discriminate E].
  assert (Hr : reach f) by (eapply reach_init; exact E).
  destruct (set_input_dim f 1) as [f'|] eqn:E'.
  2:{ cbv -[IZR Rmult Rinv Rplus Rdiv Ropp] in E. apply Ok_inj in E. subst f. discriminate E'. }
  assert (Hr' : reach f') by (eapply reach_dim; eassumption).
  cbv -[IZR Rmult Rinv Rplus Rdiv Ropp] in E. apply Ok_inj in E.
  assert (Ef : f' = match set_input_dim f 1 with Ok x => x | _ => f' end) by now rewrite E'.
  rewrite <- E in Ef. cbv -[IZR Rmult Rinv Rplus Rdiv Ropp] in Ef.
  exists f, f'. split; [reflexivity|].
  assert (HQ : forall q, (q < f_Q f')%nat -> dims_of f' q = Some [0%nat]).
  { intros q Hq. rewrite Ef in *. cbn in Hq. destruct q as [|[|[|q]]]; [reflexivity|reflexivity|reflexivity|lia]. }
  split; [constructor; try assumption; try (rewrite Ef; reflexivity); try (rewrite <- E; reflexivity)|repeat split; rewrite Ef; reflexivity].
  - intros q Hq; rewrite <- E in *; cbn in Hq. destruct q as [|[|[|q]]]; [split; [assumption|exact I]..|lia].
  - constructor.
    + intros q Hq _. unfold qdims. now rewrite HQ.
    + intros q a Hq Ha. rewrite Ef in *. cbn in Hq, Ha. destruct q as [|[|[|q]]]; [| | |lia]; destruct a as [|[|a]]; try lia; cbn; lra.
    + intros a Ha. rewrite Ef in *. cbn in Ha. destruct a as [|[|a]]; [| |lia]; cbn; lra.
  - intros q Hq. rewrite Ef in *. cbn in Hq. destruct q as [|[|[|q]]]; [reflexivity|reflexivity|reflexivity|lia].
  - intros ad Had. assert (HA : f_active f' = [([0%nat], seq 0 (f_Q f'))]) by (rewrite Ef; reflexivity). assert (HP : f_P f' = Some 1%nat) by (rewrite Ef; reflexivity).
    pose proof (ex_single f' HA Hr' HP ad Had) as ->.
    intros [_ [[H _]|[H _]]]; apply H; exists 0%nat; rewrite Ef; (split; [left; reflexivity|left; unfold is_lmc; cbn; lia]).
Qed.

Lemma alike_three' : exists f f', alike_f' = Ok f /\ three f f' /\
  f_vecs f' = [[[1; 3]]; [[2; 1]]; [[0; 0]]] /\ f_diags f' = [[1; 1]; [1; 1]; [0; 1]] /\ f_noise f' = [1/10; 1/10] /\
  map fst (f_kernels f') = [Matern32 2; RBF 1; RBF 3].
Proof.
  destruct pos_rbf as [P1 [P2 _]]. pose proof pos_rbf3 as P3. destruct alike_f' as [f|] eqn:E; [|discriminate E].
  assert (Hr : reach f) by (eapply reach_init; exact E).
  destruct (set_input_dim f 1) as [f'|] eqn:E'.
  2:{ cbv -[IZR Rmult Rinv Rplus Rdiv Ropp] in E. apply Ok_inj in E. subst f. discriminate E'. }
  assert (Hr' : reach f') by (eapply reach_dim; eassumption).
  cbv -[IZR Rmult Rinv Rplus Rdiv Ropp] in E. apply Ok_inj in E.
  assert (Ef : f' = match set_input_dim f 1 with Ok x => x | _ => f' end) by now rewrite E'.
  rewrite <- E in Ef. cbv -[IZR Rmult Rinv Rplus Rdiv Ropp] in Ef.
  exists f, f'. split; [reflexivity|].
  assert (HQ : forall q, (q < f_Q f')%nat -> dims_of f' q = Some [0%nat]).
  { intros q Hq. rewrite Ef in *. cbn in Hq. destruct q as [|[|[|q]]]; [reflexivity|reflexivity|reflexivity|lia]. }
  split; [constructor; try assumption; try (rewrite Ef; reflexivity); try (rewrite <- E; reflexivity)|repeat split; rewrite Ef; reflexivity].
  - intros q Hq; rewrite <- E in *; cbn in Hq. destruct q as [|[|[|q]]]; [split; [assumption|exact I]..|lia].
  - constructor.
    + intros q Hq _. unfold qdims. now rewrite HQ.
    + intros q a Hq Ha. rewrite Ef in *. cbn in Hq, Ha. destruct q as [|[|[|q]]]; [| | |lia]; destruct a as [|[|a]]; try lia; cbn; lra.
    + intros a Ha. rewrite Ef in *. cbn in Ha. destruct a as [|[|a]]; [| |lia]; cbn; lra.
  - intros q Hq. rewrite Ef in *. cbn in Hq. destruct q as [|[|[|q]]]; [reflexivity|reflexivity|reflexivity|lia].
  - intros ad Had. assert (HA : f_active f' = [([0%nat], seq 0 (f_Q f'))]) by (rewrite Ef; reflexivity). assert (HP : f_P f' = Some 1%nat) by (rewrite Ef; reflexivity).
    pose proof (ex_single f' HA Hr' HP ad Had) as ->.
    intros [_ [[H _]|[H _]]]; apply H; exists 0%nat; rewrite Ef; (split; [left; reflexivity|left; unfold is_lmc; cbn; lia]).
Qed.

Lemma three_group f f' ad : three f f' -> group f' ad = if list_eq_dec Nat.eq_dec ad [0%nat] then [0; 1; 2]%nat else [].
Proof.
  intros H. unfold group. fold (f_Q f'). pose proof (th_qdims _ _ H) as E. rewrite (th_Q _ _ H) in *. cbn [seq filter].
  rewrite !E by lia. destruct (list_eq_dec Nat.eq_dec [0%nat] ad), (list_eq_dec Nat.eq_dec ad [0%nat]); congruence.
Qed.

(** The hypotheses of C78_same_covariance, in all modes. *)
Example C78_same_covariance_ex : forall md, exists f f' g g' solve solve' bits bits' k k',
  gp_init ex1_Xs ex1_Ys true (GNum 0) (GNum 10) (GNum 2%nat) (Some md) (Some f) = Ok g /\
  gp_init (rev ex1_Xs) (rev ex1_Ys) true (GNum 0) (GNum 10) (GNum 2%nat) (Some md) (Some f') = Ok g' /\
  gp_ready g (GNum 0) (GNum 10) (GNum 2%nat) /\ gp_ready g' (GNum 0) (GNum 10) (GNum 2%nat) /\
  same_cov swap (gp_f g) (gp_f g') /\ (forall ad, group (gp_f g) ad <> [] -> surplus (gp_f g') ad <-> surplus (gp_f g) ad) /\ same_data swap g g' /\
  f_kernels (gp_f g') <> f_kernels (gp_f g) /\ gp_data g' <> gp_data g /\ gp_mode g' = gp_mode g /\
  fitted solve bits 1 g k /\ fitted solve' bits' 1 g' k' /\
  exact_solver (n_obs g) (K_fit g) solve /\ exact_solver (n_obs g') (K_fit g') solve' /\ proper (gp_f g) /\ proper (gp_f g') /\
  no_identity (gp_f g) /\ no_identity (gp_f g') /\ mode_ready g /\
  mg_P (gp_data g) = 1%nat /\ f_D (gp_f g) = 2%nat /\
  requests 1 ex1_Zs [3; 0]%nat /\ requests 1 (rev ex1_Zs) [0; 3]%nat /\
  (forall a, (a < 2)%nat -> nth (swap a) [0; 3]%nat 0%nat = nth a [3; 0]%nat 0%nat /\
     forall i c, (i < nth a [3; 0] 0)%nat -> (c < 1)%nat -> point 1 (rev ex1_Zs) (swap a) i c = point 1 ex1_Zs a i c).
Proof.
  intros md. destruct alike_three as [f1 [f1' (_ & T1 & V1 & D1 & N1 & K1)]]. destruct alike_three' as [f2 [f2' (_ & T2 & V2 & D2 & N2 & K2)]].
  destruct (two_models f1 f1' true md (th_reach _ _ T1) (th_ok _ _ T1) (th_D _ _ T1) (th_set _ _ T1) (th_active _ _ T1) (th_P _ _ T1) _ _ ex1_good) as [g (E1 & R1 & F1 & M1 & G1)].
  destruct (two_models f2 f2' true md (th_reach _ _ T2) (th_ok _ _ T2) (th_D _ _ T2) (th_set _ _ T2) (th_active _ _ T2) (th_P _ _ T2) _ _ swap_good) as [g' (E2 & R2 & F2 & M2 & G2)].
  assert (Hp1 : proper (gp_f g)) by (rewrite F1; exact (th_proper _ _ T1)). assert (Hp2 : proper (gp_f g')) by (rewrite F2; exact (th_proper _ _ T2)).
  destruct (fit_exists g _ _ _ R1 Hp1) as [solve [bits [k [Hs Hf]]]]. destruct (fit_exists g' _ _ _ R2 Hp2) as [solve' [bits' [k' [Hs' Hf']]]].
  assert (KO : forall f ks q, map fst (f_kernels f) = ks -> kern_of f q = nth q ks KIdentity).
  { intros f ks q <-. unfold kern_of. now rewrite (map_nth fst (f_kernels f) (KIdentity, None)). }
  exists f1, f2, g, g', solve, solve', bits, bits', k, k'. repeat (split; [assumption|]). rewrite F1, F2.
  split. { constructor.
    - now rewrite (th_D' _ _ T1), (th_D' _ _ T2).
    - rewrite (th_D' _ _ T1). unfold swap. lia.
    - rewrite (th_D' _ _ T1). unfold swap. lia.
    - intros ad. rewrite <- !group_ne, (three_group _ _ ad T1), (three_group _ _ ad T2). tauto.
    - intros ad a b r Ha Hb Hr. rewrite (th_D' _ _ T1) in *. unfold cov_on. rewrite (three_group _ _ ad T1), (three_group _ _ ad T2).
      destruct (list_eq_dec Nat.eq_dec ad [0%nat]); [|reflexivity]. cbn [map lsum fold_right]. unfold lsum. cbn [fold_right].
      rewrite !(KO _ _ _ K1), !(KO _ _ _ K2). cbn [nth]. unfold B_of. rewrite V1, V2, D1, D2.
      destruct a as [|[|a]]; [| |lia]; (destruct b as [|[|b]]; [| |lia]); cbn; ring.
    - intros a Ha. rewrite (th_D' _ _ T1) in Ha. rewrite N1, N2. destruct a as [|[|a]]; [reflexivity|reflexivity|lia]. }
  split. { intros ad Had. pose proof (th_surplus _ _ T1 ad Had). assert (Had' : group f2' ad <> []) by (rewrite (three_group _ _ ad T1) in Had; now rewrite (three_group _ _ ad T2)).
    pose proof (th_surplus _ _ T2 ad Had'). tauto. }
  split. { constructor.
    - now rewrite G1, G2.
    - rewrite G1, G2. cbn [multi_of mg_norm]. intros a Ha. rewrite F1, (th_D' _ _ T1) in Ha. destruct a as [|[|a]]; [reflexivity|reflexivity|lia].
    - intros a Ha. rewrite F1, (th_D' _ _ T1) in Ha. unfold data_of. rewrite G1, G2. destruct a as [|[|a]]; [apply Permutation_refl|apply Permutation_refl|lia]. }
  split. { intros C. apply (f_equal (map fst)) in C. rewrite K1, K2 in C. discriminate C. }
  split. { rewrite G1, G2. intros C. apply (f_equal mg_Xs) in C. cbn in C. injection C; intros; lra. }
  split; [congruence|]. repeat (split; [assumption|]). rewrite <- F1, <- F2. repeat (split; [assumption|]). rewrite F1, F2. split; [exact (th_id _ _ T1)|]. split; [exact (th_id _ _ T2)|]. split.
  { unfold mode_ready. rewrite F1, M1. destruct md; [exact I| |].
    - rewrite G1. intros q Hq. unfold qdims. now rewrite (th_qdims _ _ T1 q Hq).
    - rewrite <- F1. exact (K_obs_pdR g _ _ _ R1 Hp1). }
  split; [now rewrite G1|]. split; [exact (th_D' _ _ T1)|]. split; [exact ex1_requests|]. split.
  { constructor; [split; [left; reflexivity|reflexivity]|]. constructor; [split; [right; split; reflexivity|reflexivity]|constructor]. }
  intros [|[|a]] Ha; [split; [reflexivity|]|split; [reflexivity|]|lia]; intros i c Hi Hc; [|cbn in Hi; lia].
  reflexivity.
Qed.

(** *** One kernel, or the same one in two parts *)

Definition sp_Xs : list ndarr := [mk_arr [2]%nat [2; 2]; mk_arr [2]%nat [2; 2]].
Definition sp_Zs : list ndarr := [mk_arr [1]%nat [2]; mk_arr [0]%nat []].

Lemma sp_good : good_data sp_Xs ex1_Ys.
Proof.
  split; [intros X [<-|[<-|[]]]; reflexivity|]. split; [intros X [<-|[<-|[]]]; reflexivity|].
  split; [|split; [intros X [<-|[<-|[]]]; reflexivity|split; [intros X [<-|[<-|[]]]; discriminate|reflexivity]]].
  split; [discriminate|]. split; [constructor; [|constructor; [|constructor]]; exists 2%nat; (split; [|reflexivity]); left; reflexivity|].
  split; [exists 1%nat; intros X [<-|[<-|[]]]; reflexivity|]. intros Y [<-|[<-|[]]]; right; [exists 1, 2|exists 3, 5]; cbn; repeat split; auto; lra.
Qed.

Lemma sp_axes a : generate_grid (map pad1 sp_Xs) (GNum 0) (GNum 10) (GNum 2%nat) [0%nat] = Ok a ->
  ag_axes a = [[-10; -4; 2; 8; 14; 20]].
Proof.
  intros E. apply generate_grid_axes in E. destruct E as [wlo [whi [wm [Xa [m' [E1 [E2 [E3 [E4 E5]]]]]]]]].
  apply Ok_inj in E1, E2, E3. subst wlo whi wm.
  apply Ok_inj in E4. subst Xa.
  cbv -[Rmult Rplus IZR Ropp Rdiv Rinv Rminus Rmin Rmax ag_axes] in E5. apply Ok_inj in E5.
  repeat (rewrite ?(Rmin_left 2 2), ?(Rmin_left 0 2), ?(Rmax_left 2 2), ?(Rmax_left 10 2) in E5 by lra).
  apply (f_equal fst) in E5. cbn [fst] in E5. rewrite <- E5.
  repeat match goal with |- _ :: _ = _ :: _ => apply (f_equal2 (@cons _)) end; try reflexivity; lra.
Qed.

Lemma sp_node g : gp_ready g (GNum 0) (GNum 10) (GNum 2%nat) -> gp_data g = multi_of 1 sp_Xs ex1_Ys false ->
  (forall ad, group (gp_f g) ad <> [] -> ad = [0%nat]) -> forall x, x 0%nat = 2 -> pt_on_grid g x.
Proof.
  intros HR Ed HA x Hx ad Had. pose proof (HA ad Had) as E. subst ad. 
  assert (EA : ag_axes (grid_at (gp_grids g) [0%nat]) = [[-10; -4; 2; 8; 14; 20]]).
  { destruct (rd_grid g _ _ _ HR [0%nat] Had) as [E _].
    pose proof (gr_grids _ _ _ _ HR) as EG. rewrite Ed in EG. cbn [multi_of mg_Xs] in EG.
    unfold generate_grids in EG. apply map_result_inv in EG. apply dict_get_in in E.
    assert (HI : forall l1 (l2 : dict ad_grid), Forall2 (fun ad p => (let! a := generate_grid (map pad1 sp_Xs) (GNum 0) (GNum 10) (GNum 2%nat) ad in Ok (ad, a)) = Ok p) l1 l2 ->
       forall p, In p l2 -> generate_grid (map pad1 sp_Xs) (GNum 0) (GNum 10) (GNum 2%nat) (fst p) = Ok (snd p)).
    { induction 1 as [|y p l1 l2 Hp _ IH]; intros p' Hp'; [destruct Hp'|]. destruct Hp' as [<-|Hp']; [|now apply IH].
      apply bind_ok in Hp. destruct Hp as [a [Ea Hp]]. apply Ok_inj in Hp. subst p. exact Ea. }
    apply sp_axes. exact (HI _ _ EG _ E). }
  exists 2%nat. rewrite EA. split.
  - destruct (rd_grid g _ _ _ HR [0%nat] Had) as [_ [l [_ [E1 [_ [E3 _]]]]]]. rewrite E3.
    rewrite EA in E1. unfold axes_points. apply (f_equal (map (@length R))) in E1. rewrite axes_lengths in E1. rewrite <- E1. cbn. lia.
  - intros p Hp. destruct p; [|cbn in Hp; lia]. cbn. exact Hx.
Qed.

(** All samples at one grid point: the equations for the mean there. *)
Lemma sp_mean g k bb : gp_ready g (GNum 0) (GNum 10) (GNum 2%nat) -> gp_data g = multi_of 1 sp_Xs ex1_Ys false ->
  f_active (gp_f g) = [([0%nat], seq 0 (f_Q (gp_f g)))] -> (forall ad, group (gp_f g) ad <> [] -> ad = [0%nat]) -> group (gp_f g) [0%nat] <> [] ->
  f_noise (gp_f g) = [1/10; 1/10] -> (forall a b x, (a < 2)%nat -> (b < 2)%nat -> lmc_cov (gp_f g) a x b x = 1) -> surplus_b (gp_f g) [0%nat] = bb ->
  solves (n_obs g) (K_fit g) (vget (sd_alpha (al_deriv (gpk_lik k)))) (y_obs g) ->
  mean_at g k 0 (point 1 sp_Zs 0 0) = if bb then 1940/1281 else 110/41.
Proof.
  intros HR Ed HA HS HG HN HC Hb Ha. set (al := vget (sd_alpha (al_deriv (gpk_lik k)))) in *.
  assert (En : n_obs g = 4%nat) by (unfold n_obs; rewrite Ed; reflexivity).
  assert (EX : forall a b x z, x 0%nat = 2 -> z 0%nat = 2 -> (a < 2)%nat -> (b < 2)%nat ->
    ski_cov g (wt g) a x b z + ski_extra g (wt g) a x b z = 1 + (if Nat.eqb a b then if bb then 1 else 0 else 0)).
  { intros a b x z Hx Hz Hab Hbb. f_equal.
    - rewrite (ski_on_grid g _ _ _ HR a x b z (sp_node g HR Ed HS x Hx) (sp_node g HR Ed HS z Hz)). rewrite <- (HC a b x Hab Hbb).
      apply (lmc_ext g _ _ _ HR); rewrite Ed; intros [|c] Hc; try (cbn in Hc; lia); congruence.
    - unfold ski_extra. destruct (Nat.eqb a b); [|reflexivity]. rewrite HA. cbn [map fst]. unfold lsum. cbn [fold_right]. rewrite Hb. destruct bb; [|ring].
      destruct (sp_node g HR Ed HS x Hx _ HG) as [c [Hc Pc]]. destruct (sp_node g HR Ed HS z Hz _ HG) as [c' [Hc' Pc']].
      assert (EW : forall u, wt g [0%nat] z u = wt g [0%nat] x u) by (intros u; apply (we_ext _ _ (wt_weights g _ _ _ HR)); [exact HG|intros p [<-|[]]; congruence]).
      rewrite (Rsum_ext _ _ (fun u => if Nat.eqb u c then 1 else 0)); [rewrite Rsum_delta by exact Hc; ring|].
      intros u Hu. rewrite EW, (we_node _ _ (wt_weights g _ _ _ HR) _ x u c HG Hu Hc Pc). destruct (Nat.eqb u c); ring. }
  assert (EK : forall i j, (i < 4)%nat -> (j < 4)%nat -> K_fit g i j = 1 + (if Nat.eqb (owner [2; 2]%nat i) (owner [2; 2]%nat j) then if bb then 1 else 0 else 0) + (if Nat.eqb i j then 1/10 else 0)).
  { intros i j Hi Hj. rewrite (K_fit_weights g _ _ _ HR) by (fold (n_obs g); now rewrite En). rewrite EX.
    - rewrite Ed, HN. cbn [multi_of mg_Ys]. change (map (length (A:=R)) (map (fun Y : ndarr => a_data Y) ex1_Ys)) with [2; 2]%nat. f_equal.
      destruct (Nat.eqb i j); [|reflexivity]. do 4 (destruct i as [|i]; [reflexivity|]). lia.
    - rewrite Ed. do 4 (destruct i as [|i]; [reflexivity|]). lia.
    - rewrite Ed. do 4 (destruct j as [|j]; [reflexivity|]). lia.
    - rewrite Ed. do 4 (destruct i as [|i]; [cbn; lia|]). lia.
    - rewrite Ed. do 4 (destruct j as [|j]; [cbn; lia|]). lia. }
  assert (EM : mean_at g k 0 (point 1 sp_Zs 0 0) = al 0%nat + al 1%nat + al 2%nat + al 3%nat + (if bb then 1 else 0) * (al 0%nat + al 1%nat)).
  { unfold mean_at. fold (n_obs g). rewrite En. unfold al. cbn [Rsum].
    rewrite !EX; try reflexivity; try (rewrite Ed; reflexivity); try lia; try (rewrite Ed; cbn; lia).
    rewrite Ed. cbn [multi_of mg_Ys]. change (map (length (A:=R)) (map (fun Y : ndarr => a_data Y) ex1_Ys)) with [2; 2]%nat. cbn [owner Nat.ltb Nat.leb Nat.sub Nat.eqb]. destruct bb; ring. }
  rewrite EM. rewrite En in Ha.
  pose proof (Ha 0%nat ltac:(lia)) as A0. pose proof (Ha 1%nat ltac:(lia)) as A1. pose proof (Ha 2%nat ltac:(lia)) as A2. pose proof (Ha 3%nat ltac:(lia)) as A3.
  cbn [Rsum] in A0, A1, A2, A3. rewrite !EK in A0, A1, A2, A3 by lia. cbn [owner Nat.ltb Nat.leb Nat.sub Nat.eqb] in A0, A1, A2, A3.
  unfold y_obs in *. rewrite Ed in *. cbn in A0, A1, A2, A3. destruct bb; lra.
Qed.

(** An SLFM kernel with vector (1, 1); the same in two parts. *)
Definition one_f : result fkernel := fk_init (fun _ _ _ => 1) (Some 2%nat) (Some []) (Some []) (Some [(RBF 1, None)]) (Some []) (Some []).
Definition parts_f : result fkernel := fk_init (fun q _ _ => match q with O => 3/5 | _ => 4/5 end) (Some 2%nat) (Some []) (Some []) (Some [(RBF 1, None); (RBF 1, None)]) (Some []) (Some []).

Record slfm_of (n : nat) (f f' : fkernel) : Prop := {
  so_set : set_input_dim f 1 = Ok f';
  so_reach : reach f;
  so_ok : kernels_ok f;
  so_D : f_D f = 2%nat;
  so_D' : f_D f' = 2%nat;
  so_P : f_P f' = Some 1%nat;
  so_active : f_active f' = [([0%nat], seq 0 (f_Q f'))];
  so_Q : f_Q f' = n;
  so_noise : f_noise f' = [1/10; 1/10];
  so_kern : forall q, (q < n)%nat -> kern_of f' q = RBF 1 /\ dims_of f' q = Some [0%nat];
  so_proper : proper f';
  so_id : no_identity f';
  so_cov : forall a b, (a < 2)%nat -> (b < 2)%nat -> Rsum n (fun q => B_of f' q a b) = 1;
  so_surplus : surplus_b f' [0%nat] = negb (Nat.eqb n 1)
}.

Lemma one_slfm : exists f f', one_f = Ok f /\ slfm_of 1 f f'.
Proof.
  destruct pos_rbf as [P1 _]. destruct one_f as [f|] eqn:E; [|discriminate E].
  assert (Hr : reach f) by (eapply reach_init; exact E).
  destruct (set_input_dim f 1) as [f'|] eqn:E'.
  2:{ cbv -[IZR Rmult Rinv Rplus Rdiv Ropp] in E. apply Ok_inj in E. subst f. discriminate E'. }
  assert (Hr' : reach f') by (eapply reach_dim; eassumption).
  cbv -[IZR Rmult Rinv Rplus Rdiv Ropp] in E. apply Ok_inj in E.
  assert (Ef : f' = match set_input_dim f 1 with Ok x => x | _ => f' end) by now rewrite E'.
  rewrite <- E in Ef. cbv -[IZR Rmult Rinv Rplus Rdiv Ropp] in Ef.
  exists f, f'. split; [reflexivity|].
  assert (HQ : forall q, (q < 1)%nat -> kern_of f' q = RBF 1 /\ dims_of f' q = Some [0%nat]).
  { intros q Hq. rewrite Ef. destruct q as [|[|q]]; try lia; split; reflexivity. }
  assert (EQ : f_Q f' = 1%nat) by (rewrite Ef; reflexivity).
  constructor; try assumption; try (rewrite Ef; reflexivity); try (rewrite <- E; reflexivity).
  - intros q Hq; rewrite <- E in *; cbn in Hq. destruct q as [|[|q]]; try lia; (split; [assumption|exact I]).
  - constructor.
    + intros q Hq _. unfold qdims. rewrite EQ in Hq. now rewrite (proj2 (HQ q Hq)).
    + intros q a Hq Ha. rewrite EQ in Hq. rewrite Ef in *. cbn in Ha. destruct q as [|[|q]]; try lia; destruct a as [|[|a]]; try lia; cbn; lra.
    + intros a Ha. rewrite Ef in *. cbn in Ha. destruct a as [|[|a]]; [| |lia]; cbn; lra.
  - intros q Hq. rewrite EQ in Hq. rewrite (proj1 (HQ q Hq)). reflexivity.
  - intros a b Ha Hb. rewrite Ef. destruct a as [|[|a]]; [| |lia]; (destruct b as [|[|b]]; [| |lia]); unfold B_of; cbn; lra.
Qed.

Lemma parts_slfm : exists f f', parts_f = Ok f /\ slfm_of 2 f f'.
Proof.
  destruct pos_rbf as [P1 _]. destruct parts_f as [f|] eqn:E; [|discriminate E].
  assert (Hr : reach f) by (eapply reach_init; exact E).
  destruct (set_input_dim f 1) as [f'|] eqn:E'.
  2:{ cbv -[IZR Rmult Rinv Rplus Rdiv Ropp] in E. apply Ok_inj in E. subst f. discriminate E'. }
  assert (Hr' : reach f') by (eapply reach_dim; eassumption).
  cbv -[IZR Rmult Rinv Rplus Rdiv Ropp] in E. apply Ok_inj in E.
  assert (Ef : f' = match set_input_dim f 1 with Ok x => x | _ => f' end) by now rewrite E'.
  rewrite <- E in Ef. cbv -[IZR Rmult Rinv Rplus Rdiv Ropp] in Ef.
  exists f, f'. split; [reflexivity|].
  assert (HQ : forall q, (q < 2)%nat -> kern_of f' q = RBF 1 /\ dims_of f' q = Some [0%nat]).
  { intros q Hq. rewrite Ef. destruct q as [|[|q]]; try lia; split; reflexivity. }
  assert (EQ : f_Q f' = 2%nat) by (rewrite Ef; reflexivity).
  constructor; try assumption; try (rewrite Ef; reflexivity); try (rewrite <- E; reflexivity).
  - intros q Hq; rewrite <- E in *; cbn in Hq. destruct q as [|[|q]]; try lia; (split; [assumption|exact I]).
  - constructor.
    + intros q Hq _. unfold qdims. rewrite EQ in Hq. now rewrite (proj2 (HQ q Hq)).
    + intros q a Hq Ha. rewrite EQ in Hq. rewrite Ef in *. cbn in Ha. destruct q as [|[|q]]; try lia; destruct a as [|[|a]]; try lia; cbn; lra.
    + intros a Ha. rewrite Ef in *. cbn in Ha. destruct a as [|[|a]]; [| |lia]; cbn; lra.
  - intros q Hq. rewrite EQ in Hq. rewrite (proj1 (HQ q Hq)). reflexivity.
  - intros a b Ha Hb. rewrite Ef. destruct a as [|[|a]]; [| |lia]; (destruct b as [|[|b]]; [| |lia]); unfold B_of; cbn; lra.
Qed.

Lemma slfm_group n f f' ad : slfm_of n f f' -> group f' ad = if list_eq_dec Nat.eq_dec ad [0%nat] then seq 0 n else [].
Proof.
  intros H. unfold group. fold (f_Q f'). rewrite (so_Q _ _ _ H).
  assert (G : forall s l, (s + l <= n)%nat -> filter (fun q => match dims_of f' q with Some a => if list_eq_dec Nat.eq_dec a ad then true else false | None => false end) (seq s l)
     = if list_eq_dec Nat.eq_dec ad [0%nat] then seq s l else []).
  { intros s l. revert s. induction l as [|l IH]; intros s Hl; [cbn; now destruct (list_eq_dec _ _ _)|]. cbn [seq filter].
    rewrite (proj2 (so_kern _ _ _ H s ltac:(lia))), IH by lia.
    destruct (list_eq_dec Nat.eq_dec [0%nat] ad), (list_eq_dec Nat.eq_dec ad [0%nat]); congruence. }
  apply G. lia.
Qed.

(** The hypothesis on the spurious identities is needed: the same covariance
    functions, written as one SLFM kernel or as two, lead to different
    predictions. *)
Theorem C78_same_covariance_refuted :
  exists f f' g g' solve solve' bits bits' k k' mu var mu' var',
  gp_init sp_Xs ex1_Ys false (GNum 0) (GNum 10) (GNum 2%nat) (Some OnTheFly) (Some f) = Ok g /\
  gp_init sp_Xs ex1_Ys false (GNum 0) (GNum 10) (GNum 2%nat) (Some OnTheFly) (Some f') = Ok g' /\
  gp_ready g (GNum 0) (GNum 10) (GNum 2%nat) /\ gp_ready g' (GNum 0) (GNum 10) (GNum 2%nat) /\
  same_cov (fun a => a) (gp_f g) (gp_f g') /\ same_data (fun a => a) g g' /\ gp_mode g' = gp_mode g /\
  fitted solve bits 1 g k /\ fitted solve' bits' 1 g' k' /\
  exact_solver (n_obs g) (K_fit g) solve /\ exact_solver (n_obs g') (K_fit g') solve' /\ proper (gp_f g) /\ proper (gp_f g') /\
  no_identity (gp_f g) /\ no_identity (gp_f g') /\ mode_ready g /\ requests 1 sp_Zs [1; 0]%nat /\
  gp_predict solve g k sp_Zs = Ok (mu, var) /\ gp_predict solve' g' k' sp_Zs = Ok (mu', var') /\
  vget (nth 0 mu []) 0 = 110/41 /\ vget (nth 0 mu' []) 0 = 1940/1281.
Proof.
  destruct one_slfm as [f1 [f1' (_ & T1)]]. destruct parts_slfm as [f2 [f2' (_ & T2)]].
  destruct (two_models f1 f1' false OnTheFly (so_reach _ _ _ T1) (so_ok _ _ _ T1) (so_D _ _ _ T1) (so_set _ _ _ T1) (so_active _ _ _ T1) (so_P _ _ _ T1) _ _ sp_good) as [g (E1 & R1 & F1 & M1 & G1)].
  destruct (two_models f2 f2' false OnTheFly (so_reach _ _ _ T2) (so_ok _ _ _ T2) (so_D _ _ _ T2) (so_set _ _ _ T2) (so_active _ _ _ T2) (so_P _ _ _ T2) _ _ sp_good) as [g' (E2 & R2 & F2 & M2 & G2)].
  assert (Hp1 : proper (gp_f g)) by (rewrite F1; exact (so_proper _ _ _ T1)). assert (Hp2 : proper (gp_f g')) by (rewrite F2; exact (so_proper _ _ _ T2)).
  destruct (fit_exists g _ _ _ R1 Hp1) as [solve [bits [k [Hs Hf]]]]. destruct (fit_exists g' _ _ _ R2 Hp2) as [solve' [bits' [k' [Hs' Hf']]]].
  assert (HP : forall h n f f' so bi kk, gp_ready h (GNum 0) (GNum 10) (GNum 2%nat) -> gp_f h = f' -> gp_mode h = OnTheFly -> gp_data h = multi_of 1 sp_Xs ex1_Ys false -> slfm_of n f f' -> (1 <= n)%nat ->
    fitted so bi 1 h kk -> exact_solver (n_obs h) (K_fit h) so ->
    exists mu var, gp_predict so h kk sp_Zs = Ok (mu, var) /\ vget (nth 0 mu []) 0 = if negb (Nat.eqb n 1) then 1940/1281 else 110/41).
  { intros h n f f' so bi kk R F M G T Hn HF HE. destruct (fit_solver h _ _ _ R _ _ _ _ HF HE) as [_ [Hr Ha]].
    destruct HF as [old [st HF]]. destruct (fitted_of h _ _ _ _ _ _ HF) as [HK _].
    eexists _, _. split.
    - apply (predict_ok h _ _ _ R kk HK so Hr sp_Zs [1; 0]%nat).
      + rewrite F. exact (so_id _ _ _ T).
      + unfold mode_ready. now rewrite M.
      + rewrite G. constructor; [split; [right; split; reflexivity|reflexivity]|]. constructor; [split; [right; split; reflexivity|reflexivity]|constructor].
      + now rewrite F, (so_D' _ _ _ T).
      + intros _. cbn. lia.
    - rewrite F, (so_D' _ _ _ T), nth_tab by lia. rewrite vget_tab by (cbn; lia). unfold unnorm_mean. rewrite G. cbn [multi_of mg_norm mg_P].
      assert (GR : forall ad, group f' ad <> [] -> ad = [0%nat]) by (intros ad; rewrite (slfm_group _ _ _ ad T); destruct (list_eq_dec _ _ _); congruence).
      apply sp_mean; try assumption; try (rewrite F).
      + exact (so_active _ _ _ T).
      + exact GR.
      + rewrite (slfm_group _ _ _ _ T). cbn. destruct n; [lia|discriminate].
      + exact (so_noise _ _ _ T).
      + intros a b x Ha0 Hb0. unfold lmc_cov. rewrite (so_Q _ _ _ T). rewrite <- (so_cov _ _ _ T a b Ha0 Hb0). apply Rsum_ext. intros q Hq.
        rewrite dist_on_self, (proj1 (so_kern _ _ _ T q Hq)), k_doc_zero by exact I. ring.
      + exact (so_surplus _ _ _ T). }
  destruct (HP g 1%nat f1 f1' solve bits k R1 F1 M1 G1 T1 (le_n 1) Hf Hs) as [mu [var [EP EV]]].
  destruct (HP g' 2%nat f2 f2' solve' bits' k' R2 F2 M2 G2 T2 (le_S _ _ (le_n 1)) Hf' Hs') as [mu' [var' [EP' EV']]].
  exists f1, f2, g, g', solve, solve', bits, bits', k, k', mu, var, mu', var'. repeat (split; [assumption|]).
  split. { rewrite F1, F2. constructor.
    - now rewrite (so_D' _ _ _ T1), (so_D' _ _ _ T2).
    - auto.
    - auto.
    - intros ad. rewrite <- !group_ne, (slfm_group _ _ _ ad T1), (slfm_group _ _ _ ad T2). destruct (list_eq_dec _ _ _); [|tauto]. split; discriminate.
    - intros ad a b r Ha Hb Hr. rewrite (so_D' _ _ _ T1) in *. unfold cov_on. rewrite (slfm_group _ _ _ ad T1), (slfm_group _ _ _ ad T2).
      destruct (list_eq_dec Nat.eq_dec ad [0%nat]); [|reflexivity]. pose proof (so_cov _ _ _ T1 a b Ha Hb) as C1. pose proof (so_cov _ _ _ T2 a b Ha Hb) as C2.
      cbn [seq map]. unfold lsum. cbn [fold_right]. rewrite (proj1 (so_kern _ _ _ T1 0%nat ltac:(lia))), (proj1 (so_kern _ _ _ T2 0%nat ltac:(lia))), (proj1 (so_kern _ _ _ T2 1%nat ltac:(lia))).
      cbn [Rsum] in C1, C2. replace (B_of f1' 0 a b) with 1 by lra. replace (B_of f2' 1 a b) with (1 - B_of f2' 0 a b) by lra. ring.
    - intros a Ha. now rewrite (so_noise _ _ _ T1), (so_noise _ _ _ T2). }
  split. { constructor.
    - now rewrite G1, G2.
    - rewrite G1, G2. exact I.
    - intros a Ha. unfold data_of. rewrite G1, G2. apply Permutation_refl. }
  split; [congruence|]. repeat (split; [assumption|]). rewrite F1, F2. split; [exact (so_id _ _ _ T1)|]. split; [exact (so_id _ _ _ T2)|].
  split; [unfold mode_ready; now rewrite M1|]. split.
  { constructor; [split; [right; split; reflexivity|reflexivity]|]. constructor; [split; [right; split; reflexivity|reflexivity]|constructor]. }
  repeat (split; [assumption|]). exact EV'.
Qed.
Print Assumptions C78_same_covariance_refuted.
