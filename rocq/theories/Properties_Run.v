(** Properties of the benchmark of the library itself (C97). *)

From Coq Require Import Reals List Arith ZArith Lia Lra Bool.
From Verif Require Import Base NDArray PSD Model_Util Proofs_Util Spec_Util Model_Linalg Spec_Linalg Proofs_Linalg Model_Interp Spec_Interp
  Model_Kern Spec_Kern Model_FK Spec_FK Proofs_FK Model_Grid Spec_Grid Model_Lik Spec_Lik
  Spec_GP Model_GP Spec_Pred Proofs_Pred Proofs_Pred4 Properties_Pred Spec_State Proofs_State5
  Model_Bench Spec_Bench Proofs_Bench Model_Table Model_Run Spec_Run Proofs_Run.
Import ListNotations.
Open Scope R_scope.

(** C97: the benchmark runs to its end, whatever is drawn and wherever the
    optimiser goes, and every tracked number is the mean, or the standard error
    of the mean, over the runs: of the seconds, of the standardised squared
    error, and of the average surprise over the test points with positive
    variance.  Predictive variances are not negative, and positive in exact
    mode; if a run has no positive variance at all, both numbers on surprise
    are nan.  With [return_lmc] the model of the last run comes along. *)
Theorem C97_completes :
  forall solve n_it xss yss test_xss test_yss gn lo hi m md P n env,
  returning solve -> (0 < n_it)%nat -> bench_data P xss yss lo hi m -> plain gn (length xss) ->
  requests P test_xss (map (@length R) test_yss) -> length test_yss = length xss ->
  (exists d, tested test_yss d = true) ->
  (forall d, tested test_yss d = true -> exists j, (j < n_ent test_yss d)%nat /\ ent test_yss d j <> mean_of (map a_data yss) d) ->
  (0 < n)%nat -> (forall i, (i < n)%nat -> may_run n_it (nsum (map (fun Y => length (a_data Y)) yss)) gn (length xss) P (env i)) ->
  let sm := fun mu => average (length xss) (tested test_yss) (fun d => sq_error test_yss mu d / sq_spread test_yss (map a_data yss) d) in
  let nl := fun mu var => average (length xss) (some_counted var) (surprise test_yss mu var) in
  exists (g : nat -> gp) (mu var : nat -> list vec) s,
    (forall i, (i < n)%nat -> ends solve n_it xss yss test_xss gn lo hi m md P (env i) (g i) (mu i) (var i) /\
       same_shape (mu i) test_yss /\ same_shape (var i) test_yss /\
       (forall d j, (j < n_ent (var i) d)%nat -> 0 <= ent (var i) d j) /\
       (md = Exact -> forall d j, (j < n_ent (var i) d)%nat -> 0 < ent (var i) d j)) /\
    (forall rl, bench_runlmc solve n_it n m xss yss test_xss test_yss gn lo hi md rl env =
       Ok (match rl with None => Stats s | Some _ => StatsModel s (g (n - 1)%nat) end)) /\
    track_mean_time s = Ok (Some (mean_over n (fun i => e_time (env i)))) /\
    track_se_time s = Ok (Some (error_over n (fun i => e_time (env i)))) /\
    track_mean_smse s = Ok (Some (mean_over n (fun i => sm (mu i)))) /\
    track_se_smse s = Ok (Some (error_over n (fun i => sm (mu i)))) /\
    ((forall i, (i < n)%nat -> exists d, some_counted (var i) d = true) ->
       track_mean_nlpd s = Ok (Some (mean_over n (fun i => nl (mu i) (var i)))) /\
       track_se_nlpd s = Ok (Some (error_over n (fun i => nl (mu i) (var i))))) /\
    ((exists i, (i < n)%nat /\ forall d, some_counted (var i) d = false) ->
       track_mean_nlpd s = Ok None /\ track_se_nlpd s = Ok None).
Proof.
  intros solve n_it xss yss test_xss test_yss gn lo hi m md P n env HS Hni HB HG HZ HT Hsome Hsp Hn Henv sm nl.
  pose proof (fun i Hi => run_ok solve n_it xss yss test_xss test_yss gn lo hi m md P HS Hni HB HG HZ HT Hsome Hsp (env i) (Henv i Hi)) as HR. cbv zeta in HR.
  set (C := map a_data yss) in *.
  set (Rl := fun i (x : gp * list vec * list vec * npf) =>
    ends solve n_it xss yss test_xss gn lo hi m md P (env i) (fst (fst (fst x))) (snd (fst (fst x))) (snd (fst x)) /\
    same_shape (snd (fst (fst x))) test_yss /\ same_shape (snd (fst x)) test_yss /\ (forall d j, (j < n_ent (snd (fst x)) d)%nat -> 0 <= ent (snd (fst x)) d j) /\
    (md = Exact -> forall d j, (j < n_ent (snd (fst x)) d)%nat -> 0 < ent (snd (fst x)) d j) /\
    one_run solve n_it xss yss test_xss test_yss gn lo hi m md (env i) = Ok (e_time (env i), Some (sm (snd (fst (fst x)))), snd x, fst (fst (fst x))) /\
    ((exists d, some_counted (snd (fst x)) d = true) /\ snd x = Some (nl (snd (fst (fst x))) (snd (fst x))) \/
     (forall d, some_counted (snd (fst x)) d = false) /\ snd x = None)).
  assert (HR' : forall i, (i < n)%nat -> exists x, Rl i x).
  { intros i Hi. destruct (HR i Hi) as (g & mu & var & v & H). exists (g, mu, var, v). exact H. }
  destruct (HR' 0%nat Hn) as [x0 _]. destruct (choose x0 Rl n HR') as [F HF]. clear HR HR' x0.
  set (g := fun i => fst (fst (fst (F i)))). set (mu := fun i => snd (fst (fst (F i)))). set (var := fun i => snd (fst (F i))). set (v := fun i => snd (F i)).
  exists g, mu, var, (map npf_stats [map (fun i => Some (e_time (env i))) (seq 0 n); map (fun i => Some (sm (mu i))) (seq 0 n); map v (seq 0 n)]).
  split; [|split; [|split; [|split; [|split; [|split; [|split]]]]]].
  - intros i Hi. destruct (HF i Hi) as (H1 & H2 & H3 & H4 & H5 & _). repeat (split; [assumption|]). exact H5.
  - intros rl. unfold bench_runlmc.
    rewrite (Proofs_FK.map_result_all _ (fun i => (e_time (env i), Some (sm (mu i)), v i, g i))) by (intros i Hi; apply in_seq in Hi; apply HF; lia).
    cbn [bind]. rewrite !map_map. cbn [fst snd]. destruct rl; [|reflexivity]. destruct n as [|n']; [lia|]. rewrite seq_S, map_app, rev_app_distr. cbn [map rev app snd]. replace (S n' - 1)%nat with (0 + n')%nat by lia. reflexivity.
  - cbn [map]. rewrite (npf_stats_some n (fun i => sm (mu i)) Hn), (npf_stats_some n (fun i => e_time (env i)) Hn). reflexivity.
  - cbn [map]. rewrite (npf_stats_some n (fun i => sm (mu i)) Hn), (npf_stats_some n (fun i => e_time (env i)) Hn). reflexivity.
  - cbn [map]. rewrite (npf_stats_some n (fun i => sm (mu i)) Hn), (npf_stats_some n (fun i => e_time (env i)) Hn). reflexivity.
  - cbn [map]. rewrite (npf_stats_some n (fun i => sm (mu i)) Hn), (npf_stats_some n (fun i => e_time (env i)) Hn). reflexivity.
  - intros Hc. assert (E : map v (seq 0 n) = map (fun i => Some (nl (mu i) (var i))) (seq 0 n)).
    { apply map_ext_in. intros i Hi. apply in_seq in Hi. destruct (HF i) as (_ & _ & _ & _ & _ & _ & [[_ H]|[H _]]); [lia|exact H|]. destruct (Hc i) as [d Hd]; [lia|]. unfold var in Hd. congruence. }
    rewrite E. cbn [map]. rewrite (npf_stats_some n (fun i => nl (mu i) (var i)) Hn).
    rewrite (npf_stats_some n (fun i => sm (mu i)) Hn), (npf_stats_some n (fun i => e_time (env i)) Hn). now split.
  - intros [i [Hi Hc]]. assert (E : In None (map v (seq 0 n))).
    { apply in_map_iff. exists i. split; [|apply in_seq; lia]. destruct (HF i Hi) as (_ & _ & _ & _ & _ & _ & [[[d Hd] _]|[_ H]]); [|exact H]. unfold var in Hc. specialize (Hc d). congruence. }
    cbn [map]. rewrite (npf_stats_none _ E).
    rewrite (npf_stats_some n (fun i => sm (mu i)) Hn), (npf_stats_some n (fun i => e_time (env i)) Hn). now split.
Qed.
Print Assumptions C97_completes.

(** C97: without any run, every tracked number is nan, and asking for the model
    raises UnboundLocalError. *)
Theorem C97_no_runs :
  forall solve n_it xss yss test_xss test_yss gn lo hi m md env,
  exists s, bench_runlmc solve n_it 0 m xss yss test_xss test_yss gn lo hi md None env = Ok (Stats s) /\
    (forall b, bench_runlmc solve n_it 0 m xss yss test_xss test_yss gn lo hi md (Some b) env = Ok UnboundLocal) /\
    forall track, In track [track_mean_time; track_se_time; track_mean_smse; track_se_smse; track_mean_nlpd; track_se_nlpd] -> track s = Ok None.
Proof.
  intros. eexists. split; [reflexivity|]. split; [reflexivity|]. intros track H. repeat (destruct H as [<-|H]; [reflexivity|]). destruct H.
Qed.
Print Assumptions C97_no_runs.

(** C97: the model that the FX and weather benchmarks train: the covariance of
    two outputs is a sum of [r] shared parts with learned weights and length
    scales, and each output has a part of its own with a learned length scale,
    but of amplitude 1: optimisation reaches linked parameters only, and the
    scale of a Scaled kernel is not linked. *)
Theorem C97_slfm_form :
  forall D r P e f n_it n steps, (0 < D)%nat -> (0 < P)%nat -> starts (slfm_gp D r) D P e f ->
  path n_it n f steps -> linked_path f steps ->
  let f' := final f steps in
  let a := fun q d => mget (nth q (f_vecs f') []) 0 d in
  exists g h : nat -> R, (forall q, (q < r)%nat -> 0 < g q) /\ (forall d, (d < D)%nat -> 0 < h d) /\
    (forall c d x z, (c < D)%nat -> (d < D)%nat ->
      lmc_cov f' c x d z = Rsum r (fun q => a q c * a q d * exp (- g q * dist_on (seq 0 P) x z ^ 2 / 2))
        + (if Nat.eqb c d then exp (- h c * dist_on (seq 0 P) x z ^ 2 / 2) else 0)) /\
    (forall d x, (d < D)%nat -> lmc_cov f' d x d x = 1 + Rsum r (fun q => a q d ^ 2) /\ 1 + vget (f_noise f') d <= lmc_cov f' d x d x + vget (f_noise f') d).
Proof.
  intros D r P e f n_it n steps HD HP Hst Hp Hl f' a.
  pose proof (slfm_state_final D r P steps n_it n f (slfm_state_start D r P e f HD HP Hst) Hp Hl) as HF.
  destruct (slfm_state_form D r P _ HF) as (g & h & Hg & Hh & Hform). fold f' in Hform. exists g, h. split; [exact Hg|]. split; [exact Hh|]. split; [exact Hform|].
  intros d x Hd. assert (E : lmc_cov f' d x d x = 1 + Rsum r (fun q => a q d ^ 2)).
  { rewrite Hform by exact Hd. rewrite dist_on_self, Nat.eqb_refl. replace (- h d * 0 ^ 2 / 2) with 0 by field. rewrite exp_0, Rplus_comm. f_equal. apply Rsum_ext. intros q Hq.
    replace (- g q * 0 ^ 2 / 2) with 0 by field. rewrite exp_0. unfold a. ring. }
  split; [exact E|]. rewrite E. assert (0 <= Rsum r (fun q => a q d ^ 2)) by (apply Rsum_nonneg; intros; apply pow2_ge_0). lra.
Qed.
Print Assumptions C97_slfm_form.

(** C97: the model of Álvarez and Lawrence is intrinsic coregionalization: one
    covariance of outputs, with two learned vectors and a learned diagonal, times
    one kernel, whatever parameters are reached. *)
Theorem C97_alvarez_form :
  forall D P e f n_it n steps, (0 < D)%nat -> (0 < P)%nat -> starts alvarez_and_lawrence_gp D P e f -> path n_it n f steps ->
  exists (g : R) (a b k : nat -> R), 0 < g /\ forall c d x z, (c < D)%nat -> (d < D)%nat ->
    lmc_cov (final f steps) c x d z = (a c * a d + b c * b d + (if Nat.eqb c d then k c else 0)) * exp (- g * dist_on (seq 0 P) x z ^ 2 / 2).
Proof.
  intros D P e f n_it n steps HD HP Hst Hp. destruct (lmc1_form D 2 P _ (lmc1_final D 2 P steps n_it n f (lmc1_start D P e f HD HP Hst) Hp)) as (g & Pg & H).
  set (f' := final f steps) in *. exists g, (mget (nth 0 (f_vecs f') []) 0), (mget (nth 0 (f_vecs f') []) 1), (vget (nth 0 (f_diags f') [])). split; [exact Pg|].
  intros c d x z Hc Hd. rewrite H by assumption. cbn [Rsum]. f_equal. ring.
Qed.
Print Assumptions C97_alvarez_form.

(** ** Examples *)

(** The values of [f] again with other noise. *)
Definition same_values (f : fkernel) (noise : vec) : values := mk_values (map fst (f_kernels f)) (f_vecs f) (f_diags f) noise.

Definition ex_starts (gn : gens) : fkernel :=
  match fk_init (fun _ _ _ => 1 / 2) (Some 2%nat) (Some (g_k gn)) (Some (g_r gn)) (Some (g_slfm gn)) (Some (g_indep gn)) None with
  | Ok f0 => match set_input_dim f0 1 with Ok f => f | Err _ => f0 end
  | Err _ => mk_fk 0 [] [] [] [] 0 0 None [] [] [] []
  end.

(** Two steps of the optimiser, which change the noise. *)
Definition ex_env (gn : gens) (i : nat) : run_env :=
  let f := ex_starts gn in
  mk_env (fun _ _ _ => 1 / 2) (some_slots f) [repeat true 4]
    [(same_values f [1; 2], [repeat true 4]); (same_values f [INR i + 1; 3], [repeat true 4])] (INR i).

Definition ex_T : list vec := [[1; 2; 3]; []].

Lemma kernels_with f noise : f_kernels (assign f (same_values f noise)) = f_kernels f.
Proof. cbn. clear. induction (f_kernels f) as [|[k ad] l IH]; [reflexivity|]. cbn. f_equal. exact IH. Qed.
Lemma same_again f a b : same_values (assign f (same_values f a)) b = same_values f b.
Proof. unfold same_values at 1 3. rewrite kernels_with. reflexivity. Qed.

Lemma take_noise f noise : reach f -> kernels_ok f -> proper f -> length noise = f_D f -> (forall a, (a < f_D f)%nat -> 0 < vget noise a) ->
  let f' := assign f (same_values f noise) in may_take f (same_values f noise) /\ only_linked f (same_values f noise) /\ reach f' /\ kernels_ok f' /\ proper f' /\ f_D f' = f_D f.
Proof.
  intros HR HK Hp Hl Hpos f'. assert (U : update_ok f (map fst (f_kernels f)) (f_vecs f) (f_diags f) noise).
  { apply revalue_ok; [exact (reach_ok _ HR)| |exact Hl]. clear. induction (map fst (f_kernels f)) as [|k l IH]; constructor; [|exact IH]. induction k; cbn; auto. }
  assert (EQ : f_Q f' = f_Q f) by (unfold f_Q, f'; now rewrite kernels_with).
  assert (EK : forall q, kern_of f' q = kern_of f q) by (intros q; unfold kern_of, f'; now rewrite kernels_with).
  assert (HK' : kernels_ok f') by (intros q Hq; rewrite EK; apply HK; lia).
  assert (Hp' : proper f').
  { split; [intros q Hq; rewrite EK; unfold qdims, dims_of, f'; rewrite kernels_with; apply (pr_per _ Hp); lia|intros q a Hq Ha; apply (pr_diag _ Hp); [lia|exact Ha]|exact Hpos]. }
  split; [split; [exact U|split; [exact HK'|exact Hp']]|]. split; [reflexivity|]. split; [exact (reach_update _ _ _ _ _ HR U)|]. split; [exact HK'|]. split; [exact Hp'|reflexivity].
Qed.

Lemma ex_starts_only gn i f : starts gn 2 1 (ex_env gn i) f -> f = ex_starts gn.
Proof. intros (f0 & E0 & Ef). cbn [ex_env e_rand] in E0. unfold ex_starts. now rewrite E0, Ef. Qed.

Lemma ex_may_run gn i : plain gn 2 -> may_run 1 4 gn 2 1 (ex_env gn i) /\ (forall f, starts gn 2 1 (ex_env gn i) f -> linked_path f (e_steps (ex_env gn i))) /\
  exists f, starts gn 2 1 (ex_env gn i) f.
Proof.
  intros HG. destruct (plain_start gn 2 1 (ex_env gn i) HG ltac:(lia) ltac:(lia)) as (f0 & f & E0 & Ef & R0 & K0 & D0 & Rf & Hid & Hp & HQ & Hgr & FK & Fl & Fs & FD & FKern & FQ & FV & FDg).
  assert (Hst : starts gn 2 1 (ex_env gn i) f) by (exists f0; now split).
  assert (HK : kernels_ok f) by (intros q Hq; rewrite FKern by exact Hq; apply K0; lia).
  assert (HD : In [repeat true 4] (draws 1 4)) by (cbn; tauto).
  pose proof (ex_starts_only gn i f Hst) as Eq.
  assert (V1 : forall a, (a < f_D f)%nat -> 0 < vget [1; 2] a) by (intros [|[|a]] Ha; cbn; lra || lia).
  assert (V2 : forall a, (a < f_D f)%nat -> 0 < vget [INR i + 1; 3] a) by (intros [|[|a]] Ha; cbn; try lia; pose proof (pos_INR i); lra).
  destruct (take_noise f [1; 2] Rf HK Hp (eq_sym FD) V1) as (M1 & L1 & R1 & K1 & P1 & D1).
  destruct (take_noise (assign f (same_values f [1; 2])) [INR i + 1; 3] R1 K1 P1 (eq_sym FD) V2) as (M2 & L2 & _). rewrite same_again in M2, L2.
  split; [|split; [|now exists f]].
  - intros f' Hf'. rewrite (ex_starts_only gn i f' Hf'), <- Eq. unfold ex_env. rewrite <- Eq. cbn [e_slots e_bits e_steps]. split; [apply some_slots_ok|]. split; [exact HD|].
    cbn [path]. repeat (split; [assumption|]). exact I.
  - intros f' Hf'. rewrite (ex_starts_only gn i f' Hf'), <- Eq. unfold ex_env. rewrite <- Eq. cbn [e_steps linked_path]. split; [exact L1|]. split; [exact L2|exact I].
Qed.

(** The hypotheses of C97, for both kinds of models and all modes: three runs,
    of different lengths, that end with different parameters. *)
Example C97_ex : forall gn, gn = slfm_gp 2 1 \/ gn = alvarez_and_lawrence_gp ->
  returning (fun _ b => Ok b) /\ bench_data 1 ex1_Xs ex1_Ys (GNum 0) (GNum 10) (GNum 2%nat) /\ plain gn (length ex1_Xs) /\
  requests 1 ex1_Zs (map (@length R) ex_T) /\ length ex_T = length ex1_Xs /\ tested ex_T 0 = true /\ tested ex_T 1 = false /\
  (forall d, tested ex_T d = true -> exists j, (j < n_ent ex_T d)%nat /\ ent ex_T d j <> mean_of (map a_data ex1_Ys) d) /\
  (forall i, (i < 3)%nat -> may_run 1 (nsum (map (fun Y => length (a_data Y)) ex1_Ys)) gn (length ex1_Xs) 1 (ex_env gn i)) /\
  (forall i, exists f, starts gn 2 1 (ex_env gn i) f /\ path 1 4 f (e_steps (ex_env gn i)) /\ linked_path f (e_steps (ex_env gn i)) /\ f_noise (final f (e_steps (ex_env gn i))) = [INR i + 1; 3]) /\
  mean_over 3 (fun i => e_time (ex_env gn i)) = 1 /\ error_over 3 (fun i => e_time (ex_env gn i)) = sqrt 2 / 3.
Proof.
  intros gn Hgn. assert (HG : plain gn 2) by (destruct Hgn as [->| ->]; [apply slfm_plain; lia|apply alvarez_plain]).
  destruct ex1_data as (X1 & X2 & X3 & X4 & X5).
  split; [intros n K Ko _ b Hb; now exists b|]. split; [constructor; auto; now apply ex1_args|]. split; [exact HG|].
  split; [exact ex1_requests|]. split; [reflexivity|]. split; [reflexivity|]. split; [reflexivity|]. split.
  { intros [|[|d]] Hd; try discriminate Hd; [|destruct d; discriminate Hd]. exists 0%nat. split; [cbn; lia|]. unfold ent, mean_of, n_ent, ent. cbn. lra. }
  split; [intros i _; exact (proj1 (ex_may_run gn i HG))|]. split.
  { intros i. destruct (ex_may_run gn i HG) as (H1 & H2 & f & Hf). exists f. split; [exact Hf|]. split; [exact (proj2 (proj2 (H1 f Hf)))|]. split; [exact (H2 f Hf)|reflexivity]. }
  assert (EM : mean_over 3 (fun i => e_time (ex_env gn i)) = 1) by (unfold mean_over; cbn; field). split; [exact EM|].
  unfold error_over. rewrite EM. f_equal; [f_equal|]; cbn; ring.
Qed.

(** C97: asked with [return_lmc=False], the benchmark returns the model all the
    same: what the trackers then unpack is a pair, not three statistics. *)
Theorem C97_return_lmc_refuted :
  exists solve n_it xss yss test_xss test_yss gn lo hi m md env s lmc,
    bench_data 1 xss yss lo hi m /\
    bench_runlmc solve n_it 1 m xss yss test_xss test_yss gn lo hi md None env = Ok (Stats s) /\
    bench_runlmc solve n_it 1 m xss yss test_xss test_yss gn lo hi md (Some false) env = Ok (StatsModel s lmc).
Proof.
  destruct (C97_ex (slfm_gp 2 1) (or_introl eq_refl)) as (H1 & H2 & H3 & H4 & H5 & H6 & _ & H7 & H8 & _).
  destruct (C97_completes (fun _ b => Ok b) 1 ex1_Xs ex1_Ys ex1_Zs ex_T (slfm_gp 2 1) (GNum 0) (GNum 10) (GNum 2%nat) Exact 1 1 (ex_env (slfm_gp 2 1)) H1 ltac:(lia) H2 H3 H4 H5 (ex_intro _ _ H6) H7 ltac:(lia))
    as (g & mu & var & s & _ & Hb & _); [intros i Hi; apply H8; lia|].
  exists (fun _ b => Ok b), 1%nat, ex1_Xs, ex1_Ys, ex1_Zs, ex_T, (slfm_gp 2 1), (GNum 0), (GNum 10), (GNum 2%nat), Exact, (ex_env (slfm_gp 2 1)), s, (g 0%nat).
  split; [exact H2|]. split; [exact (Hb None)|exact (Hb (Some false))].
Qed.
Print Assumptions C97_return_lmc_refuted.
