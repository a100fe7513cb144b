(** Claims about the synthetic benchmark data (C81). *)

From Coq Require Import Reals List Arith ZArith Lia Lra Bool Permutation.
From Verif Require Import Base NDArray PSD Model_Util Proofs_Util Spec_Util Model_Linalg Spec_Linalg Proofs_Linalg Model_Kern Spec_Kern Proofs_Kern Model_FK Spec_FK Proofs_FK
  Model_Grid Spec_Grid Proofs_Grid2 Model_Lik Spec_Lik Model_Bench Model_Synth Spec_Synth Proofs_Synth.
Import ListNotations.
Open Scope R_scope.

(** For all draws, mkdata.py runs to its end (the Cholesky decomposition never
    fails), and the values it writes are standard normal draws multiplied by a
    lower triangular square root of the documented covariance plus noise of
    variance 1/10. *)
Theorem C81_sampled :
  forall rand N u0 u1 X z, a_shape X = [5; N; 2]%nat -> length (a_data X) = (5 * (N * 2))%nat ->
  length u0 = 5%nat -> length u1 = 5%nat -> length z = (5 * N)%nat ->
  exists files L, mkdata rand N u0 u1 X z = Ok files /\
    (forall a i, (a < 5)%nat -> (i < N)%nat -> mget (sf_yss files) a i = Rsum (5 * N) (fun k => L (a * N + i)%nat k * vget z k)) /\
    (forall i k, (i < 5 * N)%nat -> (k < 5 * N)%nat -> (i < k)%nat -> L i k = 0) /\ (forall i, (i < 5 * N)%nat -> 0 < L i i) /\
    (forall a b i j, (a < 5)%nat -> (b < 5)%nat -> (i < N)%nat -> (j < N)%nat ->
       Rsum (5 * N) (fun k => L (a * N + i)%nat k * L (b * N + j)%nat k)
       = synth_cov u0 u1 a (coord N X a i) b (coord N X b j) + (if Nat.eqb a b && Nat.eqb i j then 1 / 10 else 0)) /\
    (forall a i p, (a < 5)%nat -> (i < N)%nat -> (p < 2)%nat -> point 2 (sf_xss files) a i p = coord N X a i p).
Proof.
  intros rand N u0 u1 X z EX LX L0 L1 Lz. destruct (sampled rand N u0 u1 X z EX LX L0 L1 Lz) as [Xs [L (EL & EM & H1 & H2 & H3)]].
  destruct (list_of_inputs N X EX LX) as [Xs' (EL' & _ & _ & HP)]. rewrite EL in EL'. apply Ok_inj in EL'. subst Xs'.
  eexists _, L. split; [exact EM|]. cbn [sf_yss sf_xss]. split; [intros a i Ha Hi; now rewrite mget_mk by assumption|]. repeat (split; [assumption|]). exact HP.
Qed.
Print Assumptions C81_sampled.

(** The files for COGP: line [a N + i] of xss.csv is sample [i] of output [a],
    the same line of yss.csv has its value in column [a] and nothing in the
    others. *)
Theorem C81_layout :
  forall rand N u0 u1 X z files, a_shape X = [5; N; 2]%nat -> length (a_data X) = (5 * (N * 2))%nat ->
  length u0 = 5%nat -> length u1 = 5%nat -> length z = (5 * N)%nat -> mkdata rand N u0 u1 X z = Ok files ->
  length (sf_xcsv files) = (5 * N)%nat /\ length (sf_ycsv files) = (5 * N)%nat /\
  forall a i, (a < 5)%nat -> (i < N)%nat ->
    nth (a * N + i) (sf_xcsv files) [] = [coord N X a i 0; coord N X a i 1] /\
    length (nth (a * N + i) (sf_ycsv files) []) = 5%nat /\
    (forall b, (b < 5)%nat -> nth b (nth (a * N + i) (sf_ycsv files) []) None = if Nat.eqb b a then Some (mget (sf_yss files) a i) else None).
Proof.
  intros rand N u0 u1 X z files EX LX L0 L1 Lz E. destruct (sampled rand N u0 u1 X z EX LX L0 L1 Lz) as [Xs [L (EL & EM & _)]].
  rewrite EM in E. apply Ok_inj in E. subst files. cbn [sf_xcsv sf_ycsv sf_yss]. set (Ys := mk 5 N _).
  assert (LY : length Ys = 5%nat) by apply tab_length. assert (LYa : forall a, (a < 5)%nat -> length (nth a Ys []) = N).
  { intros a Ha. unfold Ys, mk. rewrite nth_tab by exact Ha. apply tab_length. }
  destruct (cogp_ok 5 N Ys LY LYa) as [C1 C2]. split; [apply tab_length|]. split; [exact C1|]. intros a i Ha Hi. destruct (C2 a i Ha Hi) as [C3 C4]. split; [|split; [exact C3|exact C4]].
  unfold mk. rewrite nth_tab by nia. unfold tab. cbn [seq map]. unfold coord. f_equal; [f_equal; lia|f_equal; f_equal; lia].
Qed.
Print Assumptions C81_layout.

(** The benchmark holds out the samples of the last output whose coordinates are
    all at least 1/2, keeps all others in their order with their values, and
    scores the last output only. *)
Theorem C81_split :
  forall xs ys x y, length xs = 4%nat -> length ys = 4%nat -> length x = length y ->
  exists xtr ytr xte yte p, synth (xs ++ [x]) (ys ++ [y]) = Ok (xs ++ [xtr], ys ++ [ytr], repeat [] 4 ++ [xte], repeat [] 4 ++ [yte]) /\
    (forall r : vec, p r = true <-> forall c, In c r -> 1 / 2 <= c) /\
    length xte = length yte /\ length xtr = length ytr /\
    combine xte yte = filter (fun s => p (fst s)) (combine x y) /\
    combine xtr ytr = filter (fun s => negb (p (fst s))) (combine x y) /\
    (forall ps p4, length ps = 4%nat -> (0 < length yte)%nat -> smse (repeat [] 4 ++ [yte]) (ps ++ [p4]) (ys ++ [ytr]) = smse [yte] [p4] [ytr]).
Proof.
  intros xs ys x y Lx Ly Lxy. unfold synth. rewrite !rev_app_distr. cbn [rev app]. rewrite map_length, <- Lxy, Nat.eqb_refl.
  assert (SL : forall A (l : list A) a b, set_last (l ++ [a]) b = l ++ [b]) by (intros; unfold set_last; now rewrite removelast_last).
  rewrite !SL. eexists _, _, _, _, (forallb upper). split; [reflexivity|].
  destruct (sel_combine (forallb upper) x y Lxy) as [H1 H2]. rewrite map_map. destruct (sel_combine (fun r => negb (forallb upper r)) x y Lxy) as [H3 H4].
  split; [|split; [exact H2|split; [exact H4|split; [exact H1|split; [exact H3|]]]]].
  - intros r. rewrite forallb_forall. split; intros H c Hc; specialize (H c Hc); unfold upper in *; destruct (Rle_dec (1 / 2) c); try reflexivity; try discriminate H; try assumption; contradiction.
  - intros ps p4 Lp. unfold sel_vec. set (yte := map snd _). set (ytr := map snd _). intros Hn.
    destruct ps as [|p0 [|p1 [|p2 [|p3 [|]]]]]; try discriminate Lp. destruct ys as [|y0 [|y1 [|y2 [|y3 [|]]]]]; try discriminate Ly.
    unfold smse, filter_nonempty_cols. cbn [repeat app length seq filter nth]. destruct (Nat.ltb_spec 0 (length yte)); [|lia]. reflexivity.
Qed.
Print Assumptions C81_split.

(** The data come from the family of models fitted to them: the kernels of
    [synth_gen] can be given parameters under which the covariance of the
    observations is that of the data. *)
Theorem C81_family :
  forall rand u0 u1 f0 f, length u0 = 5%nat -> length u1 = 5%nat ->
  (let '(lmc, ranks, slfm, indep) := synth_gen in fk_init rand (Some 5%nat) (Some lmc) (Some ranks) (Some slfm) (Some indep) None = Ok f0) ->
  set_input_dim f0 2 = Ok f ->
  exists ks vecs diags noise, update_ok f ks vecs diags noise /\
    forall N X Xs, a_shape X = [5; N; 2]%nat -> length (a_data X) = (5 * (N * 2))%nat -> list_of X = Ok Xs ->
    forall a b i j, (a < 5)%nat -> (b < 5)%nat -> (i < N)%nat -> (j < N)%nat ->
      K_obs (set_values f ks vecs diags noise) 2 Xs (repeat N 5) (a * N + i) (b * N + j)
      = synth_cov u0 u1 a (coord N X a i) b (coord N X b j) + (if Nat.eqb a b && Nat.eqb i j then 1 / 10 else 0).
Proof.
  intros rand u0 u1 f0 f L0 L1 E0 E1. cbn [synth_gen] in E0. rewrite init_raw in E0. apply Ok_inj in E0. subst f0. rewrite raw_dim in E1. apply Ok_inj in E1. subst f.
  eexists _, _, _, _. split; [exact (proj2 (update_raw 5 (1 / 2) 2 1 1 1 (rand 0%nat) (rand 1%nat) u0 u1 L0 L1))|].
  intros N X Xs EX LX EL a b i j Ha Hb Hi Hj. destruct (list_of_inputs N X EX LX) as [Xs' (EL' & _ & _ & HP)]. rewrite EL in EL'. apply Ok_inj in EL'. subst Xs'.
  change (set_values _ _ _ _ _) with (fk_dim 5 (1 / 2) 2 [u0] [u1]).
  unfold K_obs, obs. destruct (owner_repeat N a i Ha Hi) as [E1 E2]. destruct (owner_repeat N b j Hb Hj) as [E3 E4]. rewrite E1, E2, E3, E4. f_equal.
  - rewrite synth_lmc by assumption. unfold synth_cov, sqdist. rewrite !HP by lia. reflexivity.
  - assert (V : vget (f_noise (fk_dim 5 (1 / 2) 2 [u0] [u1])) a = 1 / 10) by (cbn [fk_dim f_noise]; unfold vget; now apply nth_repeat_lt). rewrite V.
    destruct (Nat.eqb_spec (a * N + i) (b * N + j)) as [E|E]; destruct (Nat.eqb_spec a b) as [Eab|Eab]; destruct (Nat.eqb_spec i j) as [Eij|Eij]; cbn [andb]; try reflexivity; exfalso; nia.
Qed.
Print Assumptions C81_family.

(** One sample per output, at different places; three of the last output, of
    which one is held out. *)
Definition ex_X : ndarr := mk_arr [5; 1; 2]%nat [0; 0; 1; 0; 0; 1; 1; 1; 1 / 2; 1 / 2].
Example C81_ex : exists files, mkdata (fun _ _ _ => 0) 1 [1; 0; 0; 0; 1] [0; 1; 1; 0; 0] ex_X [1; -1; 2; 0; 1] = Ok files /\
  synth_cov [1; 0; 0; 0; 1] [0; 1; 1; 0; 0] 0 (coord 1 ex_X 0 0) 4 (coord 1 ex_X 4 0) = exp (- (5 / 4)).
Proof.
  destruct (C81_sampled (fun _ _ _ => 0) 1 [1; 0; 0; 0; 1] [0; 1; 1; 0; 0] ex_X [1; -1; 2; 0; 1] eq_refl eq_refl eq_refl eq_refl eq_refl) as [files [L [E _]]].
  exists files. split; [exact E|]. unfold synth_cov, sqdist, coord, ex_X, vget. cbn [a_data nth Nat.mul Nat.add Nat.eqb].
  rewrite !Rmult_0_l, Rmult_1_l, Rmult_1_l, Rplus_0_r, Rplus_0_r. f_equal. field.
Qed.
Example C81_split_ex : exists xtr ytr xte yte,
  synth (repeat [[0; 0]] 4 ++ [[[0; 1]; [1; 1]; [1; 0]]]) (repeat [5] 4 ++ [[1; 2; 3]]) = Ok (repeat [[0; 0]] 4 ++ [xtr], repeat [5] 4 ++ [ytr], repeat [] 4 ++ [xte], repeat [] 4 ++ [yte]) /\
  xtr = [[0; 1]; [1; 0]] /\ ytr = [1; 3] /\ xte = [[1; 1]] /\ yte = [2].
Proof.
  eexists _, _, _, _. split; [reflexivity|]. cbn [map forallb].
  assert (U1 : upper 1 = true) by (unfold upper; destruct (Rle_dec (1 / 2) 1); [reflexivity|lra]).
  assert (U0 : upper 0 = false) by (unfold upper; destruct (Rle_dec (1 / 2) 0); [lra|reflexivity]). rewrite U0, U1. repeat split; reflexivity.
Qed.
Example C81_family_ex : exists f0 f, (let '(lmc, ranks, slfm, indep) := synth_gen in fk_init (fun _ _ _ => 0) (Some 5%nat) (Some lmc) (Some ranks) (Some slfm) (Some indep) None = Ok f0) /\
  set_input_dim f0 2 = Ok f.
Proof. eexists _, _. split; [apply init_raw|apply raw_dim]. Qed.
