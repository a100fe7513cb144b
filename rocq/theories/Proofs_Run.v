(** Proofs about repeated runs of the benchmark. *)

From Coq Require Import Reals List Arith ZArith Lia Lra Bool.
From Verif Require Import Base NDArray PSD Model_Util Proofs_Util Spec_Util Model_Linalg Spec_Linalg Proofs_Linalg Model_Interp Spec_Interp
  Model_Kern Spec_Kern Proofs_Kern Model_FK Spec_FK Proofs_FK Properties_FK Model_Grid Spec_Grid Proofs_Grid Model_Lik Spec_Lik Proofs_Lik
  Spec_GP Model_GP Spec_Pred Proofs_Pred Proofs_Pred2 Proofs_Pred3 Proofs_Pred4 Proofs_Pred5 Proofs_Init Properties_Pred Properties_Bench Model_State Spec_State Proofs_State4 Proofs_State5
  Proofs_Acc Proofs_Acc2 Model_Bench Spec_Bench Proofs_Bench Model_Table Model_Run Spec_Run.
Import ListNotations.
Open Scope R_scope.

(** ** Statistics *)

Lemma npf_stats_some n (x : nat -> R) : (0 < n)%nat -> npf_stats (map (fun i => Some (x i)) (seq 0 n)) = (Some (mean_over n x), Some (error_over n x)).
Proof.
  intros Hn. assert (Pn : 0 < INR n) by now apply lt_0_INR.
  assert (NM : forall y : nat -> R, npf_mean (map (fun i => Some (y i)) (seq 0 n)) = Some (mean_over n y)).
  { intros y. rewrite <- (map_map y Some), npf_mean_some.
    - rewrite lsum_seq, map_length, seq_length. reflexivity.
    - destruct n; [lia|discriminate]. }
  unfold npf_stats, npf_std. rewrite NM. f_equal. rewrite map_map.
  change (map (fun x0 => Some ((x x0 - mean_over n x) ^ 2)) (seq 0 n)) with (map (fun i => Some ((fun i => (x i - mean_over n x) ^ 2) i)) (seq 0 n)).
  rewrite NM, map_length, seq_length. cbn [npf_div]. destruct (Req_EM_T (sqrt (INR n)) 0) as [Z|Z].
  - exfalso. apply sqrt_eq_0 in Z; lra.
  - f_equal. unfold error_over, mean_over at 1. set (t := Rsum n _). assert (0 <= t) by (apply Rsum_nonneg; intros; apply pow2_ge_0).
    rewrite sqrt_div_alt by exact Pn. assert (0 < sqrt (INR n)) by now apply sqrt_lt_R0.
    unfold Rdiv. rewrite Rmult_assoc, <- Rinv_mult. now rewrite sqrt_sqrt by lra.
Qed.

Lemma npf_mean_none l : In None l -> npf_mean l = None.
Proof.
  intros H. unfold npf_mean. destruct l as [|a l]; [reflexivity|].
  assert (E : fold_right (fun x acc => match x, acc with Some a, Some s => Some (a + s) | _, _ => None end) (Some 0) (a :: l) = None); [|now rewrite E].
  generalize dependent (a :: l). clear. induction l as [|b l IH]; intros H; [destruct H|]. cbn [fold_right]. destruct H as [->|H]; [reflexivity|]. rewrite (IH H). now destruct b.
Qed.
Lemma npf_stats_none l : In None l -> npf_stats l = (None, None).
Proof. intros H. unfold npf_stats, npf_std. now rewrite (npf_mean_none l H). Qed.

(** ** nlpd when no variance is positive *)
Lemma nlpd_none T P V : same_shape P T -> same_shape V T -> (forall d, some_counted V d = false) -> nlpd T P V = Ok None.
Proof.
  intros HP HV Hno. unfold nlpd. pose proof HP as [LP EP]. pose proof HV as [LV EV]. rewrite (filter_cols_nth T P V (length T)) by (try reflexivity; assumption). cbv zeta. cbn [bind].
  set (l := filter (tested T) (seq 0 (length T))).
  set (sel := fun d => filter (counted V d) (seq 0 (n_ent V d))).
  unfold filter_by_selection. rewrite map_map.
  assert (S1 : forall Y, same_shape Y T -> map_result (fun p => take (fst p) (snd p)) (combine (map (fun d => nth d Y []) l) (map (fun d => np_flatnonzero (nth d V [])) l)) =
    Ok (map (fun d => map (ent Y d) (sel d)) l)).
  { intros Y [LY EY]. rewrite combine_map2, map_result_map'. apply Proofs_FK.map_result_all. intros d Hd. cbn [fst snd]. rewrite (take_ok _ 0); [reflexivity|].
    intros i Hi. apply filter_In in Hi. destruct Hi as [Hi _]. apply in_seq in Hi. change (length (nth d Y [])) with (n_ent Y d). rewrite EY, <- EV. unfold n_ent. lia. }
  pose proof (S1 T (conj eq_refl (fun _ => eq_refl))) as ST. pose proof (S1 P HP) as SP. pose proof (S1 V HV) as SV.
  unfold vec in *. rewrite ST. cbn [bind]. rewrite SP. cbn [bind]. rewrite SV. cbn [bind]. rewrite filter_cols. cbv zeta. cbn [bind]. rewrite zip3_map, map_result_map'.
  replace (filter (fun x => Proofs_Bench.nonempty (map (ent T x) (sel x))) l) with (@nil nat); [reflexivity|].
  symmetry. clear ST SP SV S1. generalize l. clear l. induction l as [|d l' IH]; [reflexivity|]. cbn [filter]. unfold sel at 1. rewrite nonempty_some, Hno. exact IH.
Qed.

Lemma counted_cases T V : same_shape V T -> (exists d, some_counted V d = true) \/ (forall d, some_counted V d = false).
Proof.
  intros [LV EV]. destruct (existsb (some_counted V) (seq 0 (length V))) eqn:E.
  - left. apply existsb_exists in E. destruct E as [d [_ Hd]]. now exists d.
  - right. intros d. destruct (some_counted V d) eqn:Ed; [|reflexivity]. exfalso. rewrite <- Bool.not_true_iff_false in E. apply E. apply existsb_exists. exists d. split; [|exact Ed].
    apply in_seq. split; [lia|]. cbn. destruct (le_lt_dec (length V) d) as [L|L]; [|exact L]. exfalso. unfold some_counted, n_ent in Ed. rewrite nth_overflow in Ed by exact L. discriminate Ed.
Qed.

(** ** Kernels *)

Lemma slots_keep solve bits n_it g old k s f : parameters_changed solve bits n_it g old = Ok (k, s) -> slots_fit old f -> slots_fit s f.
Proof.
  intros H (O1 & O2 & O3). unfold parameters_changed in H.
  apply bind_ok in H. destruct H as [[K gks] [_ H]]. apply bind_ok in H. destruct H as [l [_ H]].
  apply bind_ok in H. destruct H as [dg [_ H]]. apply bind_ok in H. destruct H as [s' [E4 H]]. apply Ok_inj in H. injection H as _ <-.
  unfold fk_update_gradient in E4. apply bind_ok in E4. destruct E4 as [u [_ E4]]. apply bind_ok in E4. destruct E4 as [ks [Ek E4]]. apply Ok_inj in E4. subst s'.
  assert (ZA : forall A (a b : list A), length (zip_assign a b) = length a).
  { intros A a b. unfold zip_assign. rewrite app_length, firstn_length, skipn_length. lia. }
  assert (ZU : forall a b c r, zip_update a b c = Ok r -> length r = length c).
  { induction a as [|x a IH]; intros b c r E; [injection E as <-; reflexivity|]. destruct b as [|y b]; [injection E as <-; reflexivity|]. destruct c as [|z c]; [injection E as <-; reflexivity|].
    cbn [zip_update] in E. apply bind_ok in E. destruct E as [g1 [_ E]]. apply bind_ok in E. destruct E as [gs [E1 E]]. apply Ok_inj in E. subst r. cbn. f_equal. now apply (IH b). }
  split; [|split]; cbn [s_vecs s_diags s_kernels]; rewrite ?ZA; auto. rewrite (ZU _ _ _ _ Ek). exact O3.
Qed.

Lemma assign_values f v : assign f v = set_values f (v_kernels v) (v_vecs v) (v_diags v) (v_noise v).
Proof. reflexivity. Qed.

Lemma same_class_identity a : forall b, same_class a b -> identity_based b = identity_based a.
Proof. induction a as [| | | |a IH s]; intros b H; destruct b; cbn in *; try tauto; try reflexivity. now apply IH. Qed.

Lemma assign_kern f v q : update_ok f (v_kernels v) (v_vecs v) (v_diags v) (v_noise v) -> (q < f_Q f)%nat -> same_class (kern_of f q) (kern_of (assign f v) q).
Proof.
  intros U Hq. pose proof (u_ks _ _ _ _ _ U) as F. pose proof (Forall2_len _ _ _ F) as L. rewrite map_length in L.
  unfold kern_of, assign. cbn [f_kernels].
  rewrite <- !(map_nth fst). rewrite map_fst_combine by (rewrite map_length; lia). cbn [fst].
  unfold f_Q in Hq. revert q Hq. revert F. generalize (f_kernels f). clear. intros l. revert l. induction (v_kernels v) as [|k ks IH]; intros [|a l] F q Hq; inversion F; subst; cbn in *; try lia.
  destruct q as [|q]; [assumption|]. apply IH; [assumption|lia].
Qed.

Lemma assign_identity f v : no_identity f -> update_ok f (v_kernels v) (v_vecs v) (v_diags v) (v_noise v) -> no_identity (assign f v).
Proof.
  intros H U q Hq. rewrite assign_values in Hq. rewrite set_values_Q in Hq by exact U. rewrite (same_class_identity _ _ (assign_kern f v q U Hq)). now apply H.
Qed.

(** A plain kernel can be built, for any draw, and has positive noise. *)
Lemma plain_start gn D P e : plain gn D -> (0 < D)%nat -> (0 < P)%nat ->
  exists f0 f, fk_init (e_rand e) (Some D) (Some (g_k gn)) (Some (g_r gn)) (Some (g_slfm gn)) (Some (g_indep gn)) None = Ok f0 /\ set_input_dim f0 P = Ok f /\
    reach f0 /\ kernels_ok f0 /\ f_D f0 = D /\ reach f /\ no_identity f /\ proper f /\ (forall q, (q < f_Q f)%nat -> qdims f q = seq 0 P) /\
    (forall ad, group f ad <> [] -> ad = seq 0 P) /\ f_kernels f0 = g_k gn ++ g_slfm gn ++ g_indep gn /\
    f_nl f = length (g_k gn) /\ f_ns f = length (g_slfm gn) /\ f_D f = D /\ (forall q, (q < f_Q f)%nat -> kern_of f q = kern_of f0 q) /\ f_Q f = f_Q f0 /\
    f_vecs f = f_vecs f0 /\ f_diags f = f_diags f0.
Proof.
  intros [PR PS PI PK] HD HP.
  destruct (C21_accepts (e_rand e) D (g_k gn) (g_r gn) (Some (g_slfm gn)) (Some (g_indep gn)) None HD) as [f0 [E0 [EQ [ED [EK _]]]]]; cbn [given].
  { exact PS. } { exact PR. } { cbn. now rewrite map_length, seq_length. }
  { cbn. intros d Hd. apply in_map_iff in Hd. destruct Hd as [i [<- Hi]]. apply in_seq in Hi. lia. }
  cbn [given] in *. destruct (set_input_dim f0 P) as [f|er] eqn:Ef.
  2:{ exfalso. destruct (fk_init_ok _ _ _ _ _ _ _ _ E0) as (d & _ & _ & _ & _ & _ & _ & _ & _ & _ & _ & FR & _). unfold set_input_dim in Ef. rewrite (proj1 FR) in Ef. discriminate Ef. }
  exists f0, f.
  assert (Hr0 : reach f0) by (eapply reach_init; exact E0). assert (Hr : reach f) by (eapply reach_dim; eassumption).
  destruct (fk_init_ok _ _ _ _ _ _ _ _ E0) as (d & Ed & _ & Ed' & _ & Enl & Ens & _ & _ & _ & En & FR & _ & _ & idx & Ei & Li & Edg). injection Ed as <-. cbn [given] in *.
  destruct (C22_first_call f0 P f Hr0 (proj1 FR) Ef) as (F1 & F2 & F3 & F4 & F5 & F6 & F7).
  destruct (set_input_dim_fresh f0 P f FR Ef) as (_ & _ & _ & _ & G5 & G6 & _ & _ & _ & _).
  assert (KI : forall q, (q < f_Q f0)%nat -> In (kern_of f0 q, dims_of f0 q) (g_k gn ++ g_slfm gn ++ g_indep gn)).
  { intros q Hq. rewrite <- EK. unfold kern_of, dims_of. rewrite <- surjective_pairing. now apply nth_In. }
  assert (DQ : forall q, (q < f_Q f)%nat -> dims_of f q = Some (seq 0 P)).
  { intros q Hq. rewrite F2 in Hq. destruct (F7 q Hq) as [_ HH]. now rewrite (proj1 (PK _ _ (KI q Hq))) in HH. }
  split; [exact E0|]. split; [exact Ef|]. split; [exact Hr0|]. split.
  { intros q Hq. destruct (PK _ _ (KI q Hq)) as (_ & A & B & _). now split. }
  split; [exact ED|]. split; [exact Hr|]. split.
  { intros q Hq. rewrite F2 in Hq. rewrite (proj1 (F7 q Hq)). now destruct (PK _ _ (KI q Hq)) as (_ & _ & _ & A & _). }
  split.
  { split.
    - intros q Hq HH. rewrite F2 in Hq. rewrite (proj1 (F7 q Hq)) in HH. destruct (PK _ _ (KI q Hq)) as (_ & _ & _ & _ & A). congruence.
    - intros q a Hq Ha. rewrite F2 in Hq. rewrite F3, ED in Ha. rewrite F5.
      apply initialize_kq_nth in Edg. destruct Edg as (Ld & D1 & D2 & D3).
      rewrite EQ in Hq. destruct (Nat.lt_ge_cases q (length (g_k gn))) as [H1|H1].
      + rewrite (D1 q H1). unfold vget. rewrite nth_repeat_in by exact Ha. lra.
      + destruct (Nat.lt_ge_cases q (length (g_k gn) + length (g_slfm gn))) as [H2|H2].
        * rewrite (D2 q (conj H1 H2)). unfold vget. rewrite nth_repeat_in by exact Ha. lra.
        * assert (Hi : is_indep f0 q) by (split; [lia|lia]). destruct (ok_diag_indep _ (reach_ok _ Hr0) q Hi) as [d [_ Eq]]. rewrite Eq, ED, vget_tab by exact Ha. destruct (Nat.eqb a d); lra.
    - intros a Ha. rewrite F3, ED in Ha. rewrite F6, En. unfold vget. rewrite nth_repeat_in by exact Ha. lra. }
  split. { intros q Hq. unfold qdims. now rewrite DQ. }
  split.
  { intros ad Had. destruct (group f ad) as [|q l] eqn:Eg; [congruence|]. assert (Hin : In q (group f ad)) by (rewrite Eg; now left). unfold group in Hin. apply filter_In in Hin.
    destruct Hin as [Hq Hc]. apply in_seq in Hq. rewrite DQ in Hc by lia. now destruct (list_eq_dec Nat.eq_dec (seq 0 P) ad). }
  split; [exact EK|]. split; [congruence|]. split; [congruence|]. split; [congruence|]. split; [intros q Hq; apply F7; lia|]. split; [exact F2|]. split; [exact F4|exact F5].
Qed.

(** ** One run *)

Lemma with_same g : with_params g (gp_f g) = g.
Proof. now destruct g. Qed.

Lemma fit_step solve n_it g lo hi m bits old : returning solve -> (0 < n_it)%nat -> gp_ready g lo hi m -> In bits (draws n_it (n_obs g)) -> slots_fit old (gp_f g) ->
  exists k s, parameters_changed solve bits n_it g old = Ok (k, s) /\ slots_fit s (gp_f g) /\ returns (n_obs g) (solve (al_K (gpk_lik k))).
Proof.
  intros HS Hn HR Hb Hsl. pose proof Hsl as (O1 & O2 & O3).
  destruct (fit_gen g lo hi m HR solve n_it old bits (fun Ko => HS _ _ Ko) Hn Hb O1 O2 O3) as (Ko & s & k & new & RK & _ & _ & E & EK & _).
  exists k, new. split; [exact E|]. split; [exact (slots_keep _ _ _ _ _ _ _ _ E Hsl)|]. rewrite EK. exact (HS _ _ Ko RK).
Qed.

Lemma opt_steps_ok solve n_it lo hi m P steps : returning solve -> (0 < n_it)%nat -> forall g k s bits old, gp_ready g lo hi m -> proper (gp_f g) -> no_identity (gp_f g) ->
  (forall q, (q < f_Q (gp_f g))%nat -> qdims (gp_f g) q = seq 0 P) -> parameters_changed solve bits n_it g old = Ok (k, s) -> slots_fit s (gp_f g) ->
  returns (n_obs g) (solve (al_K (gpk_lik k))) -> path n_it (n_obs g) (gp_f g) steps ->
  let g' := with_params g (final (gp_f g) steps) in
  exists k' bits', opt_steps solve n_it g k s steps = Ok (g', k') /\ fitted solve bits' n_it g' k' /\ returns (n_obs g) (solve (al_K (gpk_lik k'))) /\
    gp_ready g' lo hi m /\ proper (gp_f g') /\ no_identity (gp_f g') /\ (forall q, (q < f_Q (gp_f g'))%nat -> qdims (gp_f g') q = seq 0 P) /\
    f_D (gp_f g') = f_D (gp_f g).
Proof.
  intros HS Hn. induction steps as [|[v b] r IH]; intros g k s bits old HR Hp Hid HQ E Hsl Hret Hpath g'.
  - subst g'. cbn [final opt_steps]. rewrite with_same. exists k, bits. split; [reflexivity|]. split; [exists old, s; exact E|]. repeat (split; [assumption|]). reflexivity.
  - cbn [path] in Hpath. destruct Hpath as [[U [HK Hp']] [Hb Hr]]. cbn [opt_steps]. cbv zeta.
    set (g1 := mk_gp (gp_data g) (assign (gp_f g) v) (gp_grids g) (gp_mode g)).
    assert (HR1 : gp_ready g1 lo hi m) by exact (ready_update g lo hi m _ _ _ _ HR U HK).
    assert (EQ : f_Q (assign (gp_f g) v) = f_Q (gp_f g)) by exact (set_values_Q _ _ _ _ _ U).
    assert (Hsl1 : slots_fit s (gp_f g1)) by (unfold slots_fit; cbn [g1 gp_f]; rewrite EQ; exact Hsl).
    destruct (fit_step solve n_it g1 lo hi m b s HS Hn HR1 Hb Hsl1) as (k1 & s1 & E1 & Hs1 & Hret1). rewrite E1. cbn [bind].
    destruct (IH g1 k1 s1 b s HR1 Hp' (assign_identity _ _ Hid U)) as (k' & b' & Q1 & Q2 & Q3 & Q4 & Q5 & Q6 & Q7 & Q8); try assumption.
    { intros q Hq. cbn [g1 gp_f] in *. rewrite EQ in Hq. rewrite <- (HQ q Hq). unfold qdims. rewrite assign_values, set_values_dims by exact U. reflexivity. }
    exists k', b'. repeat (split; [assumption|]). exact Q8.
Qed.

Lemma std_nonzero xss yss Y : valid_data xss yss -> In Y yss -> a_data Y <> [] -> n_std (scale_by (a_data Y)) <> 0.
Proof.
  intros (_ & _ & _ & H) HY NE. specialize (H Y HY). destruct (zero_std_spec (a_data Y)) as [[Z _]|[_ Z]]; [|now exfalso]. unfold zero_std in Z.
  destruct (a_data Y) as [|y l]; [congruence|]. cbn in *. now destruct (Req_EM_T _ 0).
Qed.

Section Run.
Variables (solve : Mat -> vec -> result vec) (n_it : nat) (xss yss test_xss : list ndarr) (test_yss : list vec) (gn : gens)
  (lo hi : grid_arg R) (m : grid_arg nat) (md : mode) (P : nat).
Hypothesis HS : returning solve.
Hypothesis Hn : (0 < n_it)%nat.
Hypothesis HB : bench_data P xss yss lo hi m.
Hypothesis HG : plain gn (length xss).
Hypothesis HZ : requests P test_xss (map (@length R) test_yss).
Hypothesis HT : length test_yss = length xss.
Hypothesis Hsome : exists d, tested test_yss d = true.
Hypothesis Hsp : forall d, tested test_yss d = true -> exists j, (j < n_ent test_yss d)%nat /\ ent test_yss d j <> mean_of (map a_data yss) d.

Let n := nsum (map (fun Y => length (a_data Y)) yss).
Let C := map a_data yss.

Lemma run_ok e : may_run n_it n gn (length xss) P e ->
  exists g mu var nl, ends solve n_it xss yss test_xss gn lo hi m md P e g mu var /\
    same_shape mu test_yss /\ same_shape var test_yss /\ (forall d i, (i < n_ent var d)%nat -> 0 <= ent var d i) /\
    (md = Exact -> forall d i, (i < n_ent var d)%nat -> 0 < ent var d i) /\
    one_run solve n_it xss yss test_xss test_yss gn lo hi m md e =
      Ok (e_time e, Some (average (length xss) (tested test_yss) (fun d => sq_error test_yss mu d / sq_spread test_yss C d)), nl, g) /\
    ((exists d, some_counted var d = true) /\ nl = Some (average (length xss) (some_counted var) (surprise test_yss mu var)) \/
     (forall d, some_counted var d = false) /\ nl = None).
Proof.
  intros He. assert (HD : (0 < length xss)%nat). { pose proof (proj1 (bd_valid _ _ _ _ _ _ HB)). destruct xss; [congruence|cbn; lia]. }
  destruct (plain_start gn (length xss) P e HG HD (bd_pos _ _ _ _ _ _ HB)) as (f0 & f & E0 & Ef & R0 & K0 & D0 & Rf & Hid & Hp & HQ & Hgr & _ & _ & _ & FD & _).
  destruct (He f) as (Hsl & Hb & Hpath). { exists f0. now split. }
  destruct (gp_init_ready xss yss true lo hi m md f0 P f (bd_x _ _ _ _ _ _ HB) (bd_y _ _ _ _ _ _ HB) (bd_valid _ _ _ _ _ _ HB) (bd_width _ _ _ _ _ _ HB) (bd_some _ _ _ _ _ _ HB) (bd_pos _ _ _ _ _ _ HB) R0 K0 D0 Ef)
    as (g0 & Eg & HR & Eg1 & Eg2 & Eg3).
  { intros ad Had. rewrite (Hgr ad Had). exact (bd_args _ _ _ _ _ _ HB). }
  assert (NO : n_obs g0 = n).
  { unfold n_obs, n. rewrite Eg3. cbn [multi_of mg_Ys]. rewrite map_map. f_equal. apply map_ext. intros Y. now rewrite map_length. }
  assert (EP : mg_P (gp_data g0) = P) by now rewrite Eg3.
  rewrite <- Eg1 in Hsl, Hpath, Hp, Hid, HQ. rewrite <- NO in Hb, Hpath.
  destruct (fit_step solve n_it g0 lo hi m (e_bits e) (e_slots e) HS Hn HR Hb Hsl) as (k1 & s1 & E1 & Hs1 & Hret1).
  destruct (opt_steps_ok solve n_it lo hi m P (e_steps e) HS Hn g0 k1 s1 (e_bits e) (e_slots e) HR Hp Hid HQ E1 Hs1 Hret1 Hpath)
    as (k & b & Eo & Hfit & Hret & HR' & Hp' & Hid' & HQ' & HD').
  set (g := with_params g0 (final (gp_f g0) (e_steps e))) in *.
  assert (FDg : f_D (gp_f g) = length xss) by (rewrite HD', Eg1; exact FD).
  assert (Mg : gp_mode g = md) by exact Eg2.
  assert (HM : mode_ready g).
  { unfold mode_ready. destruct (gp_mode g); [exact I| |exact (K_obs_pdR g lo hi m HR' Hp')]. intros q Hq. change (mg_P (gp_data g)) with (mg_P (gp_data g0)). rewrite EP. now apply HQ'. }
  assert (Hz : length (map (@length R) test_yss) = f_D (gp_f g)) by (rewrite map_length; exact (eq_trans HT (eq_sym FDg))).
  assert (Hpos : (0 < nsum (map (@length R) test_yss))%nat).
  { destruct Hsome as [d Hd]. unfold tested, n_ent in Hd. apply Nat.ltb_lt in Hd. clear - Hd. revert d Hd. induction test_yss as [|y l IH]; intros [|d] Hd; cbn in *; try lia. specialize (IH d Hd). unfold nsum in *. lia. }
  assert (HZ' : requests (mg_P (gp_data g)) test_xss (map (@length R) test_yss)) by (change (mg_P (gp_data g)) with (mg_P (gp_data g0)); rewrite EP; exact HZ).
  pose proof Hfit as [old [sl Hf]]. destruct (fitted_of g _ _ _ _ _ _ Hf) as [HK _].
  pose proof (predict_ok g lo hi m HR' k HK solve Hret test_xss _ Hid' HM HZ' Hz (fun _ => Hpos)) as Epred.
  match type of Epred with _ = Ok (?a, ?b) => set (mu := a) in *; set (var := b) in * end.
  assert (NL : forall d, nth d (map (@length R) test_yss) 0%nat = n_ent test_yss d) by (intros d; unfold n_ent; exact (map_nth (@length R) test_yss [] d)).
  assert (SHM : forall F : nat -> nat -> R, same_shape (tab (f_D (gp_f g)) (fun a => tab (nth a (map (@length R) test_yss) 0%nat) (F a))) test_yss).
  { intros F. split; [rewrite tab_length; exact (eq_trans FDg (eq_sym HT))|]. intros d. unfold n_ent at 1. destruct (le_lt_dec (f_D (gp_f g)) d) as [L|L].
    - rewrite nth_overflow by (rewrite tab_length; exact L). unfold n_ent. rewrite nth_overflow by lia. reflexivity.
    - rewrite nth_tab by exact L. rewrite tab_length. apply NL. }
  assert (S1 : same_shape mu test_yss) by apply SHM. assert (S2 : same_shape var test_yss) by apply SHM.
  assert (V0 : forall d i, (i < n_ent var d)%nat -> 0 <= ent var d i).
  { intros d i Hi. unfold n_ent in Hi. apply (C36_nonnegative solve g k test_xss mu var Epred (nth d var []) (ent var d i)); [|now apply nth_In].
    apply nth_In. destruct (le_lt_dec (length var) d) as [L|L]; [|exact L]. rewrite nth_overflow in Hi by exact L. cbn in Hi. lia. }
  assert (HCn : forall d, tested test_yss d = true -> nth d C [] <> []).
  { intros d Hd. assert (Hlt : (d < length xss)%nat) by (unfold tested, n_ent in Hd; destruct (le_lt_dec (length test_yss) d) as [L|L]; [rewrite nth_overflow in Hd by exact L; discriminate Hd|lia]). pose proof (Forall2_len _ _ _ (proj1 (proj2 (bd_valid _ _ _ _ _ _ HB)))) as L. unfold C.
    change (@nil R) with (a_data (mk_arr [] [])) at 1. rewrite map_nth. apply (bd_some _ _ _ _ _ _ HB). apply nth_In. lia. }
  assert (LC : length C = length test_yss). { unfold C. rewrite map_length. pose proof (Forall2_len _ _ _ (proj1 (proj2 (bd_valid _ _ _ _ _ _ HB)))). congruence. }
  assert (ES : smse test_yss mu C = Ok (Some (average (length xss) (tested test_yss) (fun d => sq_error test_yss mu d / sq_spread test_yss C d)))).
  { rewrite <- HT. destruct (C69_smse test_yss mu C S1 LC Hsome HCn Hsp) as (v & Ev & Hv & _). rewrite Ev, Hv. reflexivity. }
  assert (EN : exists nl, nlpd test_yss mu var = Ok nl /\ ((exists d, some_counted var d = true) /\ nl = Some (average (length xss) (some_counted var) (surprise test_yss mu var)) \/
     (forall d, some_counted var d = false) /\ nl = None)).
  { destruct (counted_cases test_yss var S2) as [Hc|Hc].
    - eexists. split; [apply nlpd_value; assumption|]. left. split; [exact Hc|]. now rewrite HT.
    - exists None. split; [now apply nlpd_none|]. right. now split. }
  destruct EN as [nl [EN Hnl]].
  exists g, mu, var, nl. split.
  { exists f0, f, g0, b, k. split; [exact E0|]. split; [exact Ef|]. split; [exact Eg|]. split; [exact Eg1|]. split; [unfold g; now rewrite Eg1|]. split; [exact Hfit|exact Epred]. }
  split; [exact S1|]. split; [exact S2|]. split; [exact V0|]. split; [|split; [|exact Hnl]].
  - intros EM d i Hi. assert (Mx : gp_mode g = Exact) by congruence.
    destruct (C36_exact g lo hi m solve b n_it k test_xss (map (@length R) test_yss) HR' Hfit Hret Hid' Hp' Mx HZ' Hz) as (mu' & var' & Ep' & H).
    rewrite Epred in Ep'. injection Ep' as _ Ev. change (var = var') in Ev.
    assert (Hi' : (i < n_ent test_yss d)%nat) by (rewrite <- (proj2 S2); exact Hi). assert (Hd : (d < length xss)%nat).
    { unfold n_ent in Hi'. destruct (le_lt_dec (length test_yss) d) as [L|L]; [rewrite nth_overflow in Hi' by exact L; cbn in Hi'; lia|lia]. }
    assert (Hdf : (d < f_D (gp_f g))%nat) by lia.
    assert (Hi2 : (i < nth d (map (@length R) test_yss) 0)%nat) by (rewrite NL; exact Hi').
    destruct (H d i Hdf Hi2) as (z & v & _ & _ & Hv & Hvar). unfold ent. rewrite Ev. unfold vget in Hvar. rewrite Hvar. unfold unnorm_var.
    change (gp_data g) with (gp_data g0). rewrite Eg3. cbn [multi_of mg_norm].
    apply Rmult_lt_0_compat; [pose proof (pr_noise _ Hp' d Hdf); lra|]. 
    assert (Hs : n_std (nth d (map scale_by (map a_data yss)) (mk_norm 0 1)) <> 0).
    { pose proof (Forall2_len _ _ _ (proj1 (proj2 (bd_valid _ _ _ _ _ _ HB)))) as L. rewrite map_map.
      rewrite (nth_indep _ (mk_norm 0 1) (scale_by (a_data (mk_arr [] [])))) by (rewrite map_length; lia). rewrite (map_nth (fun x => scale_by (a_data x))).
      assert (HI : In (nth d yss (mk_arr [] [])) yss) by (apply nth_In; lia). apply (std_nonzero xss yss); [exact (bd_valid _ _ _ _ _ _ HB)|exact HI|exact (bd_some _ _ _ _ _ _ HB _ HI)]. }
    destruct (Rdichotomy _ _ Hs); nra.
  - unfold one_run. rewrite E0. cbn [bind]. rewrite Eg. cbn [bind]. rewrite E1. cbn [bind]. rewrite Eo. cbn [bind]. rewrite Epred. cbn [bind]. fold C. rewrite ES. cbn [bind]. rewrite EN. reflexivity.
Qed.
End Run.

(** ** The models of the benchmark *)

Lemma positive_rbf : positive (RBF 1). Proof. intros v [<-|[]]. lra. Qed.
Lemma positive_scaled : positive (Scaled (RBF 1) 1). Proof. intros v [<-|[<-|[]]]; lra. Qed.

Lemma slfm_plain D r : (0 < D)%nat -> plain (slfm_gp D r) D.
Proof.
  intros HD. split; cbn.
  - split; [reflexivity|intros z []].
  - rewrite !repeat_length. lia.
  - rewrite repeat_length. lia.
  - intros k ad H. apply in_app_or in H. destruct H as [H|H]; apply repeat_spec in H; injection H as -> ->; (split; [reflexivity|]; split; [apply positive_rbf || apply positive_scaled|now repeat split]).
Qed.

Lemma alvarez_plain D : plain alvarez_and_lawrence_gp D.
Proof.
  split; cbn.
  - split; [reflexivity|]. intros z [<-|[]]. lia.
  - lia.
  - lia.
  - intros k ad [H|[]]. injection H as <- <-. split; [reflexivity|]. split; [apply positive_rbf|now repeat split].
Qed.

Definition slfm_state (D r P : nat) (f : fkernel) : Prop :=
  reach f /\ f_nl f = O /\ f_ns f = r /\ f_D f = D /\ f_Q f = (r + D)%nat /\ (forall q, (q < r + D)%nat -> qdims f q = seq 0 P) /\
  (forall q, (q < r)%nat -> exists g, 0 < g /\ kern_of f q = RBF g) /\
  (forall d, (d < D)%nat -> exists h, 0 < h /\ kern_of f (r + d) = Scaled (RBF h) 1) /\
  (forall d, (d < D)%nat -> nth (r + d) (f_diags f) [] = tab D (fun j => if Nat.eqb j d then 1 else 0)).

Lemma map_scales_nth (l l' : list kern) q : map scales l = map scales l' -> scales (nth q l KIdentity) = scales (nth q l' KIdentity).
Proof. intros H. rewrite <- !(map_nth scales). now rewrite H. Qed.

Lemma kern_fst f q : kern_of f q = nth q (map fst (f_kernels f)) KIdentity.
Proof. unfold kern_of. now rewrite <- (map_nth fst). Qed.

Lemma slfm_state_assign D r P f v : slfm_state D r P f -> may_take f v -> only_linked f v -> slfm_state D r P (assign f v).
Proof.
  intros (HR & H1 & H2 & H3 & H4 & H5 & H6 & H7 & H8) [U [HK _]] HL.
  assert (EQ : f_Q (assign f v) = f_Q f) by exact (set_values_Q _ _ _ _ _ U).
  assert (HS : forall q, scales (kern_of (assign f v) q) = scales (kern_of f q)).
  { intros q. rewrite !kern_fst. unfold assign. cbn [f_kernels]. pose proof (Forall2_len _ _ _ (u_ks _ _ _ _ _ U)) as L. rewrite map_length in L.
    rewrite map_fst_combine by (rewrite map_length; lia). apply map_scales_nth. exact HL. }
  split; [exact (reach_update _ _ _ _ _ HR U)|]. split; [exact H1|]. split; [exact H2|]. split; [exact H3|]. split; [congruence|]. split; [|split; [|split]].
  - intros q Hq. rewrite <- (H5 q Hq). unfold qdims. rewrite assign_values, set_values_dims by exact U. reflexivity.
  - intros q Hq. destruct (H6 q Hq) as [g [Pg Eg]]. pose proof (assign_kern f v q U ltac:(lia)) as SC. rewrite Eg in SC. destruct (HK q ltac:(lia)) as [PK _].
    destruct (kern_of (assign f v) q) as [g'| | | |]; try contradiction. exists g'. split; [apply PK; now left|reflexivity].
  - intros d Hd. destruct (H7 d Hd) as [g [Pg Eg]]. pose proof (assign_kern f v (r + d) U ltac:(lia)) as SC. rewrite Eg in SC. destruct (HK (r + d)%nat ltac:(lia)) as [PK _].
    pose proof (HS (r + d)%nat) as ES. rewrite Eg in ES.
    destruct (kern_of (assign f v) (r + d)) as [| | | |k' s]; try contradiction. destruct k' as [g'| | | |]; try contradiction. cbn in ES. injection ES as ->.
    exists g'. split; [apply PK; now left|reflexivity].
  - intros d Hd. cbn [assign f_diags]. rewrite (u_diag_fixed _ _ _ _ _ U) by lia. now apply H8.
Qed.

Lemma slfm_state_final D r P steps : forall n_it n f, slfm_state D r P f -> path n_it n f steps -> linked_path f steps -> slfm_state D r P (final f steps).
Proof.
  induction steps as [|[v b] l IH]; intros n_it n f H Hp Hl; [exact H|]. cbn in *. destruct Hp as (M & _ & Hp), Hl as [L Hl].
  apply (IH n_it n); [|exact Hp|exact Hl]. now apply slfm_state_assign.
Qed.

Lemma slfm_state_start D r P e f : (0 < D)%nat -> (0 < P)%nat -> starts (slfm_gp D r) D P e f -> slfm_state D r P f.
Proof.
  intros HD HP (f0' & E0' & Ef').
  destruct (plain_start (slfm_gp D r) D P e (slfm_plain D r HD) HD HP) as (f0 & f' & E0 & Ef & R0 & K0 & D0 & Rf & Hid & Hp & HQ & Hgr & FK & Fl & Fs & FD & FKern & FQ & FV & FDg).
  rewrite E0 in E0'. apply Ok_inj in E0'. subst f0'. rewrite Ef in Ef'. apply Ok_inj in Ef'. subst f'. cbn [slfm_gp g_k g_slfm g_indep length app] in FK, Fl, Fs.
  rewrite repeat_length in Fs.
  assert (Q0 : f_Q f0 = (r + D)%nat) by (unfold f_Q; rewrite FK, app_length, !repeat_length; reflexivity).
  split; [exact Rf|]. split; [exact Fl|]. split; [exact Fs|]. split; [exact FD|]. split; [congruence|]. split; [intros q Hq; apply HQ; lia|]. split; [|split].
  - intros q Hq. exists 1. split; [lra|]. rewrite FKern by lia. unfold kern_of. rewrite FK, app_nth1 by (rewrite repeat_length; exact Hq). now rewrite nth_repeat_in.
  - intros d Hd. exists 1. split; [lra|]. rewrite FKern by lia. unfold kern_of. rewrite FK, app_nth2 by (rewrite repeat_length; lia). rewrite repeat_length.
    replace (r + d - r)%nat with d by lia. now rewrite nth_repeat_in.
  - intros d Hd. rewrite FDg.
    destruct (fk_init_ok _ _ _ _ _ _ _ _ E0) as (d' & Ed & _ & Ed' & _ & Enl & Ens & _ & _ & _ & En & FR & _ & _ & idx & Ei & Li & Edg). injection Ed as <-. cbn in Enl, Ens, Li, Ei, Edg.
    rewrite !repeat_length in *. apply initialize_kq_nth in Edg. destruct Edg as (_ & _ & _ & D3). destruct (D3 d) as (k & Hk & Hi & E); [lia|].
    cbn [Nat.add] in E. rewrite E. rewrite Ei in Hi.
    assert (Hk' : k = d). { rewrite (nth_indep _ 0%Z (Z.of_nat 0)) in Hi by (rewrite map_length, seq_length; exact Hd). rewrite (map_nth Z.of_nat), seq_nth in Hi by exact Hd. lia. }
    now rewrite Hk'.
Qed.

Lemma slfm_state_form D r P f : slfm_state D r P f ->
  exists g h : nat -> R, (forall q, (q < r)%nat -> 0 < g q) /\ (forall d, (d < D)%nat -> 0 < h d) /\
  forall a b x z, (a < D)%nat -> (b < D)%nat ->
    lmc_cov f a x b z = Rsum r (fun q => mget (nth q (f_vecs f) []) 0 a * mget (nth q (f_vecs f) []) 0 b * exp (- g q * dist_on (seq 0 P) x z ^ 2 / 2))
      + (if Nat.eqb a b then exp (- h a * dist_on (seq 0 P) x z ^ 2 / 2) else 0).
Proof.
  intros (HR & H1 & H2 & H3 & H4 & H5 & H6 & H7 & H8).
  exists (fun q => hd 0 (params (kern_of f q))), (fun d => hd 0 (params (kern_of f (r + d)))). split; [intros q Hq; now destruct (H6 q Hq) as [g [Pg ->]]|]. split; [intros q Hq; now destruct (H7 q Hq) as [g [Pg ->]]|].
  intros a b x z Ha Hb. destruct (C21_coreg_forms f HR) as (_ & CS & _). pose proof (reach_ok _ HR) as I.
  unfold lmc_cov. rewrite H4, Rsum_split. f_equal.
  - apply Rsum_ext. intros q Hq. rewrite CS by (unfold is_slfm; lia). rewrite (H5 q) by lia. destruct (H6 q Hq) as [g [_ ->]]. reflexivity.
  - rewrite (Rsum_ext D _ (fun d => if Nat.eqb a d then (if Nat.eqb a b then exp (- hd 0 (params (kern_of f (r + d))) * dist_on (seq 0 P) x z ^ 2 / 2) else 0) else 0)).
    + now rewrite (Rsum_delta' D a (fun d => if Nat.eqb a b then exp (- hd 0 (params (kern_of f (r + d))) * dist_on (seq 0 P) x z ^ 2 / 2) else 0) Ha).
    + intros d Hd. rewrite (H5 (r + d)%nat) by lia. destruct (H7 d Hd) as [h [_ ->]]. cbn [params app hd k_doc].
      assert (HI : is_indep f (r + d)) by (unfold is_indep; lia). unfold B_of. rewrite (ok_vec_indep _ I _ HI), H8 by exact Hd. rewrite (proj1 (mk_is_mx _ _ _)). cbn [Rsum].
      rewrite H3, !mget_mk by lia. rewrite vget_tab by exact Ha.
      destruct (Nat.eqb a b); destruct (Nat.eqb a d); ring.
Qed.

(** [f] with one LMC kernel, an RBF, of rank [k]. *)
Definition lmc1_state (D k P : nat) (f : fkernel) : Prop :=
  reach f /\ f_nl f = 1%nat /\ f_D f = D /\ f_Q f = 1%nat /\ qdims f 0 = seq 0 P /\ (exists g, 0 < g /\ kern_of f 0 = RBF g) /\ length (nth 0 (f_vecs f) []) = k.

Lemma lmc1_final D k P steps : forall n_it n f, lmc1_state D k P f -> path n_it n f steps -> lmc1_state D k P (final f steps).
Proof.
  induction steps as [|[v b] l IH]; intros n_it n f H Hp; [exact H|]. cbn in *. destruct Hp as ([U [HK _]] & _ & Hp).
  apply (IH n_it n); [|exact Hp]. clear IH Hp. destruct H as (HR & H1 & H3 & H4 & H5 & [g [Pg Eg]] & H7).
  assert (EQ : f_Q (assign f v) = f_Q f) by exact (set_values_Q _ _ _ _ _ U).
  split; [exact (reach_update _ _ _ _ _ HR U)|]. split; [exact H1|]. split; [exact H3|]. split; [congruence|]. split; [|split].
  - rewrite <- H5. unfold qdims. rewrite assign_values, set_values_dims by exact U. reflexivity.
  - pose proof (assign_kern f v 0 U ltac:(lia)) as SC. rewrite Eg in SC. destruct (HK 0%nat ltac:(lia)) as [PK _].
    destruct (kern_of (assign f v) 0) as [g'| | | |]; try contradiction. exists g'. split; [apply PK; now left|reflexivity].
  - cbn [assign f_vecs]. destruct (u_vec _ _ _ _ _ U 0%nat ltac:(lia)) as [L _]. congruence.
Qed.

Lemma lmc1_start D P e f : (0 < D)%nat -> (0 < P)%nat -> starts alvarez_and_lawrence_gp D P e f -> lmc1_state D 2 P f.
Proof.
  intros HD HP (f0' & E0' & Ef').
  destruct (plain_start _ D P e (alvarez_plain D) HD HP) as (f0 & f' & E0 & Ef & R0 & K0 & D0 & Rf & Hid & Hp & HQ & Hgr & FK & Fl & Fs & FD & FKern & FQ & FV & FDg).
  rewrite E0 in E0'. apply Ok_inj in E0'. subst f0'. rewrite Ef in Ef'. apply Ok_inj in Ef'. subst f'. cbn in FK, Fl.
  assert (Q0 : f_Q f0 = 1%nat) by (unfold f_Q; rewrite FK; reflexivity).
  split; [exact Rf|]. split; [exact Fl|]. split; [exact FD|]. split; [congruence|]. split; [apply HQ; lia|]. split.
  - exists 1. split; [lra|]. rewrite FKern by lia. unfold kern_of. now rewrite FK.
  - rewrite FV. destruct D; [lia|]. cbn in E0. apply Ok_inj in E0. rewrite <- E0. reflexivity.
Qed.

Lemma lmc1_form D k P f : lmc1_state D k P f ->
  exists g, 0 < g /\ forall a b x z, (a < D)%nat -> (b < D)%nat ->
    lmc_cov f a x b z = (Rsum k (fun r => mget (nth 0 (f_vecs f) []) r a * mget (nth 0 (f_vecs f) []) r b) + (if Nat.eqb a b then vget (nth 0 (f_diags f) []) a else 0))
      * exp (- g * dist_on (seq 0 P) x z ^ 2 / 2).
Proof.
  intros (HR & H1 & H3 & H4 & H5 & [g [Pg Eg]] & H7). exists g. split; [exact Pg|]. intros a b x z Ha Hb. unfold lmc_cov. rewrite H4. cbn [Rsum]. rewrite H5, Eg. cbn [k_doc]. unfold B_of. rewrite H7. ring.
Qed.

Lemma choose {A} (a : A) (Rl : nat -> A -> Prop) n : (forall i, (i < n)%nat -> exists x, Rl i x) -> exists F, forall i, (i < n)%nat -> Rl i (F i).
Proof.
  induction n as [|n IH]; intros H; [exists (fun _ => a); lia|]. destruct IH as [F HF]; [intros; apply H; lia|]. destruct (H n) as [x Hx]; [lia|].
  exists (fun i => if Nat.eqb i n then x else F i). intros i Hi. destruct (Nat.eqb_spec i n) as [->|]; [exact Hx|]. apply HF. lia.
Qed.
