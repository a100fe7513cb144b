(** Claims about the testing utilities (C68). *)

From Coq Require Import String Reals List Arith Lia Lra Sorting.Permutation.
From Coquelicot Require Import Coquelicot.
From Verif Require Import Base NDArray PSD Det Model_Fourier Model_Util Model_Linalg Model_Kern Proofs_Linalg Proofs_Det Spec_Kern Proofs_Kern Properties_Kern Spec_Lik Proofs_Lik2 Proofs_State5.
From Verif Require Import Model_Testing Spec_Testing Proofs_Testing.
Import ListNotations.
Open Scope R_scope.

(** [rand_pd(n)], for whatever numbers are drawn: a symmetric matrix with
    non-negative entries whose quadratic form is at least that of the identity,
    so positive definite with every eigenvalue at least 1.  Missing: the
    docstring promises positive entries. *)
Theorem C68_rand_pd_partial :
  forall n A, (forall i j, (i < n)%nat -> (j < n)%nat -> drawn (mget A i j)) ->
  let M := mget (rand_pd n A) in
  length (rand_pd n A) = n /\ sym n M /\ (forall i j, (i < n)%nat -> (j < n)%nat -> 0 <= M i j) /\
  (forall x, nrm2 n x <= qf n M x) /\ pos_definite n M /\ (forall mu v, eigpair n M mu v -> 1 <= mu).
Proof.
  intros n A HA M. assert (HA' : forall i j, (i < n)%nat -> (j < n)%nat -> 0 <= mget A i j) by (intros i j Hi Hj; apply (HA i j Hi Hj)).
  pose proof (rand_pd_dominant n A HA') as D. split; [unfold rand_pd; apply tab_length|].
  split; [apply rand_pd_sym|]. split.
  { intros i j Hi Hj. unfold M. rewrite rand_pd_entry by assumption. pose proof (HA' i j Hi Hj). pose proof (HA' j i Hj Hi).
    destruct (Nat.eqb i j); [|lra]. assert (0 <= Rsum n (fun k => Rabs ((mget A i k + mget A k i) / 2))) by (apply Rsum_nonneg; intros; apply Rabs_pos). lra. }
  split; [exact D|]. split.
  - intros x [i [Hi Ni]]. eapply Rlt_le_trans; [apply (nrm2_pos n x i Hi Ni)|apply (D x)].
  - intros mu v Hv. specialize (D v). fold M in D. rewrite (eig_qf _ _ _ _ Hv) in D. destruct Hv as [[i [Hi Ni]] _]. pose proof (nrm2_pos n v i Hi Ni).
    apply Rmult_le_reg_r with (nrm2 n v); lra.
Qed.
Print Assumptions C68_rand_pd_partial.

(** numpy may draw 0, and then the matrix has an entry that is not positive. *)
Theorem C68_rand_pd_refuted :
  exists n A, (forall i j, (i < n)%nat -> (j < n)%nat -> drawn (mget A i j)) /\
  exists i j, (i < n)%nat /\ (j < n)%nat /\ ~ 0 < mget (rand_pd n A) i j.
Proof.
  exists 2%nat, [[0; 0]; [0; 0]]. split.
  - intros i j Hi Hj. unfold drawn. destruct i as [|[|i]], j as [|[|j]]; try lia; cbn; lra.
  - exists 0%nat, 1%nat. split; [lia|]. split; [lia|]. rewrite rand_pd_entry by lia. cbn. lra.
Qed.
Print Assumptions C68_rand_pd_refuted.

Example rand_pd_example : let A := [[1/2; 1/4]; [3/4; 0]] in
  (forall i j, (i < 2)%nat -> (j < 2)%nat -> drawn (mget A i j)) /\ rand_pd 2 A = [[5/2; 1/2]; [1/2; 3/2]].
Proof.
  split.
  - intros i j Hi Hj. unfold drawn. destruct i as [|[|i]], j as [|[|j]]; try lia; cbn; lra.
  - unfold rand_pd, mk, tab. cbn. rewrite !Rabs_right by lra. repeat (f_equal; try lra).
Qed.

(** [exp_decr_toep(n)]: the first row starts with 1, stays positive, decreases
    by the same factor from each entry to the next, and the Toeplitz matrix is
    positive semi-definite.  Missing: the docstring promises a factor of at
    least e. *)
Theorem C68_exp_partial :
  forall u n, drawn u -> let top := exp_decr_toep u n in
  length top = n /\ psd n (toep top) /\
  (forall i, (i < n)%nat -> 0 < vget top i <= 1) /\
  forall i, (S i < n)%nat -> vget top i = exp u * vget top (S i).
Proof.
  intros u n [U1 U2] top. split; [apply tab_length|]. split; [|split].
  - intros x. replace (qf n (toep top) x) with (qf n (fun i j => (exp (- u)) ^ (max i j - min i j)) x).
    + apply geo_psd. split; [apply Rlt_le, exp_pos|]. rewrite <- exp_0. destruct U1 as [U1|<-]; [apply Rlt_le, exp_increasing; lra|right; f_equal; ring].
    + unfold qf, bil. apply Rsum_ext. intros i Hi. apply Rsum_ext. intros j Hj. unfold top. now rewrite exp_toep.
  - intros i Hi. unfold top, exp_decr_toep. rewrite vget_tab by exact Hi. split; [apply exp_pos|]. rewrite <- exp_0.
    pose proof (Rmult_le_pos _ _ U1 (pos_INR i)) as P. destruct (Rle_lt_or_eq_dec _ _ P) as [P'|P']; [apply Rlt_le, exp_increasing; lra|right; f_equal; lra].
  - intros i Hi. unfold top, exp_decr_toep. rewrite !vget_tab by lia. rewrite <- exp_plus. f_equal. rewrite S_INR. ring.
Qed.
Print Assumptions C68_exp_partial.

(** Whatever is drawn, the factor is less than e. *)
Theorem C68_exp_rate :
  forall u n i, drawn u -> (S i < n)%nat -> vget (exp_decr_toep u n) i < exp 1 * vget (exp_decr_toep u n) (S i).
Proof.
  intros u n i [U1 U2] Hi. unfold exp_decr_toep. rewrite !vget_tab by lia. rewrite <- exp_plus. apply exp_increasing. rewrite S_INR. lra.
Qed.
Print Assumptions C68_exp_rate.

Theorem C68_exp_refuted :
  exists u n i, drawn u /\ (S i < n)%nat /\ ~ exp 1 * vget (exp_decr_toep u n) (S i) <= vget (exp_decr_toep u n) i.
Proof.
  exists (1/2), 3%nat, 0%nat. assert (D : drawn (1/2)) by (unfold drawn; lra). split; [exact D|]. split; [lia|].
  pose proof (C68_exp_rate (1/2) 3 0 D ltac:(lia)). lra.
Qed.
Print Assumptions C68_exp_refuted.

Example exp_example : drawn (1/2) /\ exp_decr_toep (1/2) 3 = [1; exp (-(1/2)); exp (-1)].
Proof.
  split; [unfold drawn; lra|]. unfold exp_decr_toep, tab. cbn [seq map INR]. rewrite Rmult_0_r, exp_0. repeat (f_equal; try lra).
Qed.

(** The loops of [random_toep] and [poor_cond_toep] end, whatever was drawn:
    with enough fuel they return the first row of a positive semi-definite
    Toeplitz matrix, whose other entries are the ones drawn, and whose first
    entry was raised the least number of times that makes it so. *)
Theorem C68_random_toep :
  forall eig_min us, us <> [] -> (forall u, In u us -> drawn u) ->
  (forall top, length top = length us -> min_eig (length us) (toep top) (eig_min (length us) (la_toeplitz top))) ->
  exists t rest k, Permutation us (t :: rest) /\ (forall i j, (i <= j)%nat -> (j < length us)%nat -> vget (t :: rest) j <= vget (t :: rest) i) /\
  psd (length us) (toep (t + INR k :: rest)) /\
  (forall k0, (k0 < k)%nat -> ~ psd (length us) (toep (t + INR k0 :: rest))) /\
  (exists f0, forall fuel, (f0 <= fuel)%nat -> random_toep eig_min fuel us = Some (Ok (t + INR k :: rest))).
Proof.
  intros eig us Hus Hdr Heig.
  assert (Habs : map Rabs us = us). { rewrite <- (map_id us) at 2. apply map_ext_in. intros u Hu. apply Rabs_right. destruct (Hdr u Hu). lra. }
  pose proof (sort_perm us) as P. pose proof (sort_sorted us) as D. pose proof (Permutation_length P) as L.
  unfold random_toep. rewrite Habs. destruct (sort_desc us) as [|t rest]; [destruct us; [congruence|discriminate L]|].
  destruct (bump_terminates eig (length us) ltac:(destruct us; [congruence|cbn; lia]) Heig (fun t => t + 1) t rest ltac:(congruence) (plus1_grows t)) as [k [K1 [K2 K3]]].
  unfold iter_top in *. rewrite iter_plus1 in *. exists t, rest, k. split; [exact P|]. split; [rewrite L; exact D|]. split; [exact K1|]. split.
  - intros k0 Hk. rewrite <- iter_plus1. now apply K2.
  - exists k. intros fuel Hf. rewrite <- iter_plus1. rewrite K3 by exact Hf. now rewrite iter_plus1.
Qed.
Print Assumptions C68_random_toep.

Theorem C68_poor_cond_toep :
  forall eig_min u n, (0 < n)%nat -> drawn u ->
  (forall top, length top = n -> min_eig n (toep top) (eig_min n (la_toeplitz top))) ->
  let row k := tab n (fun i => if Nat.eqb i 0 then INR (n - 1) * (u + 1 / 1000) * 2 ^ k else INR (n - 1 - i) * (u + 1 / 1000)) in
  exists k, psd n (toep (row k)) /\ (forall k0, (k0 < k)%nat -> ~ psd n (toep (row k0))) /\
  (exists f0, forall fuel, (f0 <= fuel)%nat -> poor_cond_toep eig_min fuel u n = Some (Ok (row k))).
Proof.
  intros eig u n Hn [U1 U2] Heig row. unfold poor_cond_toep.
  destruct n as [|m]; [lia|].
  set (rest := map (fun i => INR (m - i) * (u + 1 / 1000)) (seq 1 m)). set (t := INR m * (u + 1 / 1000)).
  assert (Ht : tab (S m) (fun i => INR (S m - 1 - i) * (u + 1 / 1000)) = t :: rest).
  { unfold tab. cbn [seq map]. rewrite !Nat.sub_succ, !Nat.sub_0_r. reflexivity. }
  assert (Hr : forall k, row k = t * 2 ^ k :: rest).
  { intros k. unfold row, tab. cbn [seq map Nat.eqb]. rewrite !Nat.sub_succ, !Nat.sub_0_r. f_equal. unfold rest. apply map_ext_in. intros i Hi. apply in_seq in Hi.
    destruct (Nat.eqb_spec i 0); [lia|]. reflexivity. }
  assert (Lr : length (t :: rest) = S m) by (unfold rest; cbn; now rewrite map_length, seq_length).
  destruct m as [|m].
  - exists 0%nat. assert (E0 : t = 0) by (unfold t; cbn; ring). rewrite Hr. rewrite E0, Rmult_0_l. split.
    { intros x. unfold qf, bil. cbn. unfold toep. cbn. lra. }
    split; [lia|]. exists 0%nat. intros fuel _. rewrite Ht, E0. subst rest. cbn [seq map]. destruct fuel; cbn [bump_until smallest_eig length vget nth]; unfold smallest_eig; cbn [length vget nth]; destruct (Rlt_dec 0 0); try lra; reflexivity.
  - assert (Tp : 0 < t). { unfold t. apply Rmult_lt_0_compat; [apply lt_0_INR; lia|lra]. }
    destruct (bump_terminates eig (S (S m)) Hn Heig (fun t => t * 2) t rest Lr (fun c => times2_grows t c Tp)) as [k [K1 [K2 K3]]].
    unfold iter_top in *. rewrite iter_times2 in *. exists k. rewrite Hr. split; [exact K1|]. split.
    + intros k0 Hk. rewrite Hr, <- iter_times2. now apply K2.
    + exists k. intros fuel Hf. rewrite Ht, K3 by exact Hf. reflexivity.
Qed.
Print Assumptions C68_poor_cond_toep.

(** An oracle as in the two theorems exists (here for [n = 2]), and the loop of
    [random_toep] is entered. *)
Definition eig2 (n : nat) (M : mx) : R := mget M 0 0 - Rabs (mget M 0 1).
Example eig2_ok : forall top, length top = 2%nat -> min_eig 2 (toep top) (eig2 2 (la_toeplitz top)).
Proof.
  intros [|a [|b [|? ?]]] L; try discriminate L. unfold eig2. rewrite !toeplitz_entry by (cbn; lia). unfold toep. cbn [Nat.max Nat.min Nat.sub vget nth]. split.
  - intros x. unfold nrm2, qf, bil. cbn. pose proof (Rle_0_sqr (x 0%nat + x 1%nat)) as Q1. pose proof (Rle_0_sqr (x 0%nat - x 1%nat)) as Q2. unfold Rsqr in *.
    unfold Rabs. destruct (Rcase_abs b) as [B|B]; [pose proof (Rmult_le_pos (- b) _ ltac:(lra) Q2)|pose proof (Rmult_le_pos b _ ltac:(lra) Q1)]; lra.
  - exists (fun i => match i with 0%nat => 1 | _ => if Rle_dec 0 b then -1 else 1 end). split; [exists 0%nat; split; [lia|lra]|].
    intros i Hi. destruct i as [|[|i]]; try lia; cbn; unfold Rabs; destruct (Rcase_abs b), (Rle_dec 0 b); lra.
Qed.

Example poor_cond_example : (forall top, length top = 2%nat -> min_eig 2 (toep top) (eig2 2 (la_toeplitz top))) /\
  drawn (1/2) /\ drawn 0 /\ poor_cond_toep eig2 5 (1/2) 2 = Some (Ok [501/1000; 0]).
Proof.
  split; [apply eig2_ok|]. split; [unfold drawn; lra|]. split; [unfold drawn; lra|].
  unfold poor_cond_toep, tab. cbn [seq map]. cbn [bump_until]. unfold smallest_eig. cbn [length]. unfold eig2. rewrite !toeplitz_entry by (cbn; lia). unfold toep. cbn [Nat.max Nat.min Nat.sub vget nth INR].
  rewrite Rmult_0_l, Rabs_R0. destruct (Rlt_dec _ 0); [lra|]. repeat (f_equal; try lra).
Qed.

(** [BasicModel.parameters_changed]: the gradient given to the kernel is, for
    each of its parameters, the derivative of the log density of the
    observations under the kernel matrix; [log_likelihood] never fails. *)
Theorem C68_basic_gradient_partial :
  forall solve_toeplitz k dists n Y,
  positive k -> no_tiny_period k -> a_shape dists = [n] -> length (a_data dists) = n -> length Y = n ->
  let K s j := toep (map (k_doc (with_param k j s)) (a_data dists)) in
  pos_definite n (toep (map (k_doc k) (a_data dists))) ->
  solves_exactly n (toep (map (k_doc k) (a_data dists))) (solve_toeplitz (map (k_doc k) (a_data dists))) ->
  (exists z, solves n (toep (map (k_doc k) (a_data dists))) z (vget Y) /\ basic_log_likelihood solve_toeplitz k dists Y =
     Ok (- (1 / 2) * Rsum n (fun i => vget Y i * z i)
         - 1 / 2 * ln (det n (fun i j => toep (map (k_doc k) (a_data dists)) i j + (if Nat.eqb i j then 1 / 10 ^ 10 else 0))))) /\
  exists k', basic_parameters_changed solve_toeplitz k dists Y = Ok k' /\ same_class k k' /\
  forall j, (j < length (params k))%nat ->
    is_gradient n (fun s => K s j) (vget Y) (nth j (params k) 0) (nth j (params k') 0).
Proof.
  intros solve k dists n Y Hp Ht Hs Hl HY K Hpd Hso. split; [eapply basic_lik; eassumption|].
  destruct (basic_changed solve k dists n Y Hp Ht Hs Hl HY Hpd Hso) as [k' [a [X [E1 [E2 [Sa [HX E3]]]]]]].
  exists k'. split; [exact E1|]. split; [exact E2|]. intros j Hj. rewrite E3, nth_tab by exact Hj.
  assert (HK : K (nth j (params k) 0) j = toep (map (k_doc k) (a_data dists))) by (unfold K; now rewrite with_param_same).
  apply (gradient_gen n (fun s => K s j) (nth j (params k) 0) _ X a).
  - intros s. apply toep_sym.
  - rewrite HK. apply Properties_Lik.pos_definite_pivots; [apply toep_sym|exact Hpd].
  - now apply (top_derive k dists n Y).
  - apply toep_sym.
  - now rewrite HK.
  - now rewrite HK.
Qed.
Print Assumptions C68_basic_gradient_partial.

(** One observation: [la.solve_toeplitz] is a division. *)
Definition solve1 (c b : vec) : result vec := Ok [vget b 0 / vget c 0].
Definition kern1 := Scaled (RBF 1) 2.
Definition dists1 := mk_arr [1%nat] [0].
Lemma kern1_doc s : map (k_doc (with_param kern1 1 s)) (a_data dists1) = [s].
Proof. cbn. f_equal. rewrite Rmult_0_l, Rmult_0_r. unfold Rdiv. rewrite Rmult_0_l, exp_0. ring. Qed.

Lemma one_pd s : 0 < s -> pos_definite 1 (toep [s]).
Proof.
  intros Hs x [i [Hi Ni]]. assert (i = 0)%nat by lia. subst i. cbn. unfold toep. cbn. pose proof (Rsqr_pos_lt _ Ni) as P. unfold Rsqr in P.
  pose proof (Rmult_lt_0_compat _ _ Hs P). lra.
Qed.
Lemma solve1_ok s : 0 < s -> solves_exactly 1 (toep [s]) (solve1 [s]).
Proof.
  intros Hs b Lb. exists [vget b 0 / s]. split; [reflexivity|]. split; [reflexivity|]. intros i Hi. assert (i = 0)%nat by lia. subst i. cbn. unfold toep. cbn. field. lra.
Qed.

(** The gradient is not the derivative of what [log_likelihood] returns: only
    the determinant there has 1e-10 added to the diagonal. *)
Theorem C68_basic_gradient_refuted :
  exists solve_toeplitz k dists n Y j,
  positive k /\ no_tiny_period k /\ a_shape dists = [n] /\ length (a_data dists) = n /\ length Y = n /\ (j < length (params k))%nat /\
  pos_definite n (toep (map (k_doc k) (a_data dists))) /\
  (forall s, 0 < s -> solves_exactly n (toep (map (k_doc (with_param k j s)) (a_data dists))) (solve_toeplitz (map (k_doc (with_param k j s)) (a_data dists)))) /\
  exists L dL k', basic_parameters_changed solve_toeplitz k dists Y = Ok k' /\
  locally (nth j (params k) 0) (fun s => basic_log_likelihood solve_toeplitz (with_param k j s) dists Y = Ok (L s)) /\
  is_derive L (nth j (params k) 0) dL /\ nth j (params k') 0 <> dL.
Proof.
  exists solve1, kern1, dists1, 1%nat, [1], 1%nat.
  assert (Hk : with_param kern1 1 2 = kern1) by reflexivity.
  assert (Hp : forall s, 0 < s -> positive (with_param kern1 1 s)) by (intros s Hs v [<-|[<-|[]]]; lra).
  split; [apply (Hp 2); lra|]. split; [exact I|]. split; [reflexivity|]. split; [reflexivity|]. split; [reflexivity|]. split; [cbn; lia|].
  split; [rewrite <- Hk, kern1_doc; apply one_pd; lra|]. split; [intros s Hs; rewrite kern1_doc; now apply solve1_ok|].
  destruct (C68_basic_gradient_partial solve1 kern1 dists1 1 [1]) as [_ [k' [E1 [E2 G]]]]; try reflexivity.
  { apply (Hp 2); lra. } { rewrite <- Hk, kern1_doc; apply one_pd; lra. } { rewrite <- Hk, kern1_doc. apply solve1_ok; lra. }
  exists (fun s => - (1 / 2) * (1 / s) - 1 / 2 * ln (s + 1 / 10 ^ 10)), (1 / 2 * (1 / (2 * 2)) - 1 / 2 * (1 / (2 + 1 / 10 ^ 10))), k'.
  split; [exact E1|]. assert (P10 : 0 < 1 / 10 ^ 10) by (apply Rdiv_lt_0_compat; [lra|apply pow_lt; lra]). cbn [kern1 params nth app].
  assert (Loc : locally 2 (fun s => 0 < s)) by (apply (open_gt 0); lra).
  split; [|split].
  - apply (filter_imp _ _ (fun s Hs => Hs)) in Loc. revert Loc. apply filter_imp. intros s Hs.
    unfold basic_log_likelihood. rewrite from_dist_arr by (try apply Hp; try exact I; try exact Hs; discriminate). cbn [bind finite a_data]. change [0] with (a_data dists1). rewrite kern1_doc.
    unfold solve1. cbn [bind vget nth length]. cbv zeta. 
    match goal with |- context [det 1 ?F] => assert (HD : det 1 F = s + 1 / 10 ^ 10) end.
    { cbn [det Rsum pow]. rewrite toeplitz_entry by (cbn; lia). unfold toep. cbn [Nat.max Nat.min Nat.sub vget nth Nat.eqb]. ring. }
    rewrite HD. destruct (Rlt_dec 0 (s + 1 / 10 ^ 10)) as [|N]; [|exfalso; apply N; lra]. f_equal. unfold np_vdot. cbn. ring.
  - revert P10. generalize (1 / 10 ^ 10). intros e He. auto_derive; [split; [lra|split; [lra|exact I]]|]. field. lra.
  - specialize (G 1%nat ltac:(cbn; lia)). cbn [kern1 params nth app] in G. destruct G as [L [HL DL]].
    assert (D2 : is_derive L 2 (1 / 2 * (1 / (2 * 2)) - 1 / 2 * (1 / 2))).
    { apply (is_derive_ext_loc (fun s => - (1 / 2) * (ln s + 1 / s + 1 * ln (2 * PI)))).
      - apply (filter_imp (fun s => 0 < s /\ log_density 1 (toep (map (k_doc (with_param kern1 1 s)) (a_data dists1))) (vget [1]) (L s))); [|apply filter_and; [exact Loc|exact HL]].
        intros s [Hs Hd]. rewrite kern1_doc in Hd. destruct Hd as [Hd [b [Hb ->]]]. specialize (Hb 0%nat ltac:(lia)). cbn in Hb. unfold toep in *. cbn in *.
        assert (b 0%nat = 1 / s) by (apply Rmult_eq_reg_l with s; [|lra]; replace (s * (1 / s)) with 1 by (field; lra); lra). rewrite H. rewrite ?Rmult_1_r. f_equal. f_equal. f_equal; [f_equal; ring|ring].
      - auto_derive; [repeat split; lra|]. field. }
    rewrite <- (is_derive_unique _ _ _ DL), (is_derive_unique _ _ _ D2). revert P10. generalize (1 / 10 ^ 10). intros e He C.
    assert (/ (2 + e) < / 2) by (apply Rinv_lt_contravar; lra). lra.
Qed.
Print Assumptions C68_basic_gradient_refuted.

(** [error_context(s)] adds a line to the message of an [assert] that has one
    and lets everything else through. *)
Theorem C68_error_context_partial :
  forall s body,
  (body = Done <-> error_context s body = Done) /\
  (forall e args, e <> AssertionError -> body = Raises e args -> error_context s body = body) /\
  (forall msg rest, body = Raises AssertionError (msg :: rest) ->
     error_context s body = Raises AssertionError ((msg ++ String (Ascii.ascii_of_nat 10) EmptyString ++ s)%string :: rest)).
Proof.
  intros s body. split; [|split].
  - destruct body as [|e args]; [split; reflexivity|]. split; [discriminate|]. destruct e, args; discriminate.
  - intros e args He ->. destruct e; try reflexivity. congruence.
  - intros msg rest ->. reflexivity.
Qed.
Print Assumptions C68_error_context_partial.

(** An [assert] without a message turns into an IndexError. *)
Theorem C68_error_context_refuted :
  exists s body, (exists args, body = Raises AssertionError args) /\ ~ exists args, error_context s body = Raises AssertionError args.
Proof. exists EmptyString, (Raises AssertionError []). split; [now exists []|]. intros [args H]. discriminate H. Qed.
Print Assumptions C68_error_context_refuted.

Example basic_example : positive kern1 /\ no_tiny_period kern1 /\ a_shape dists1 = [1%nat] /\
  pos_definite 1 (toep (map (k_doc kern1) (a_data dists1))) /\
  solves_exactly 1 (toep (map (k_doc kern1) (a_data dists1))) (solve1 (map (k_doc kern1) (a_data dists1))).
Proof.
  split; [intros v [<-|[<-|[]]]; lra|]. split; [exact I|]. split; [reflexivity|]. assert (H : map (k_doc kern1) (a_data dists1) = [2]) by apply (kern1_doc 2). rewrite H. split; [apply one_pd; lra|apply solve1_ok; lra].
Qed.
