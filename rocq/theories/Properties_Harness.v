(** Claims about the rest of the testing utilities (C90). *)

From Coq Require Import Reals List Arith ZArith Lia Lra Bool.
From Coquelicot Require Import Coquelicot.
From Verif Require Import Base NDArray PSD Model_Util Model_Fourier Model_Linalg Spec_Linalg Proofs_Linalg Model_Kern Model_FK Model_Grid Proofs_Grid Proofs_Grid2 Model_Regex Model_Bench Model_BenchPy.
From Verif Require Import Model_Testing Spec_Testing Proofs_Testing Properties_Testing Spec_Acc Proofs_Acc Proofs_MinEig Model_Harness.
Import ListNotations.
Open Scope R_scope.

(** ** run_main *)

(** What a generator of first rows returned. *)
Inductive generated (eig_min : nat -> mx -> R) (n : nat) : vec -> Prop :=
| gen_random fuel us top : length us = n -> random_toep eig_min fuel us = Some (Ok top) -> generated eig_min n top
| gen_poor fuel u top : drawn u -> poor_cond_toep eig_min fuel u n = Some (Ok top) -> generated eig_min n top
| gen_exp u : drawn u -> generated eig_min n (exp_decr_toep u n).

Lemma bump_result eig_min bump n : (0 < n)%nat ->
  (forall top, length top = n -> min_eig n (toep top) (eig_min n (la_toeplitz top))) ->
  forall fuel top top', length top = n -> bump_until eig_min fuel bump top = Some (Ok top') -> length top' = n /\ psd n (toep top').
Proof.
  intros Hn Heig. induction fuel as [|fuel IH]; intros top top' L E; cbn [bump_until] in E;
    destruct (smallest_ok eig_min n Hn Heig top L) as [lam [E1 M]]; rewrite E1 in E; destruct (Rlt_dec lam 0) as [C|C]; try discriminate.
  - injection E as <-. split; [exact L|]. apply (min_eig_psd n _ _ M). lra.
  - apply IH in E; [exact E|]. destruct top; exact L.
  - injection E as <-. split; [exact L|]. apply (min_eig_psd n _ _ M). lra.
Qed.

Lemma generated_ok eig_min n top : (0 < n)%nat ->
  (forall top, length top = n -> min_eig n (toep top) (eig_min n (la_toeplitz top))) ->
  generated eig_min n top -> length top = n /\ psd n (toep top).
Proof.
  intros Hn Heig [fuel us t L E|fuel u t D E|u D].
  - unfold random_toep in E. apply (bump_result _ _ n Hn Heig) in E; [exact E|].
    pose proof (Permutation.Permutation_length (sort_perm (map Rabs us))) as P. rewrite map_length in P. congruence.
  - unfold poor_cond_toep in E. apply (bump_result _ _ n Hn Heig) in E; [exact E|]. apply tab_length.
  - destruct (C68_exp_partial u n D) as (A & B & _). split; assumption.
Qed.

Lemma toep_same top i j : toep top i j = toep_entry top i j.
Proof. unfold toep, toep_entry, absdiff. f_equal. destruct (Nat.leb_spec j i); lia. Qed.

Lemma vadd_tab n f g : vadd (tab n f) (tab n g) = tab n (fun i => f i + g i).
Proof. unfold vadd. rewrite combine_tab. unfold tab. rewrite map_map. reflexivity. Qed.

(** The entries of the system of one case, without the noise. *)
Definition case_entry (d n : nat) (ps : list (mx * vec)) (i j : nat) : R :=
  lsum (map (fun p => mget (rand_pd d (fst p)) (i / n) (j / n) * toep (snd p) (i mod n) (j mod n)) ps).

(** Whatever is drawn, the system that the benchmark is given in each case is a
    symmetric matrix K plus [eps] times the identity, for products with vectors
    and with matrices; K, the sum of Kronecker products, is positive
    semi-definite, so every eigenvalue of the system is at least [eps].
    Missing: the dense form of the same object is K without the noise. *)
Theorem C90_systems_partial :
  forall eig_min n d eps ps, (8 < n)%nat -> (0 < d)%nat -> ps <> [] -> 0 <= eps ->
    (forall top, length top = n -> min_eig n (toep top) (eig_min n (la_toeplitz top))) ->
    (forall A top, In (A, top) ps -> (forall i j, (i < d)%nat -> (j < d)%nat -> drawn (mget A i j)) /\ generated eig_min n top) ->
    let N := (d * n)%nat in
    let K := case_entry d n ps in
    let S i j := K i j + (if Nat.eqb i j then eps else 0) in
    exists m, case_matrix d n (map (fun p => rand_pd d (fst p)) ps) (map snd ps) = Ok m /\
      let o := case_object eps m m in
      shape o = (N, N) /\
      (forall x, length x = N -> matvec o x = tab N (fun i => Rsum N (fun j => S i j * vget x j))) /\
      (forall X k, is_mx N k X -> matmat o X = mk N k (fun i l => Rsum N (fun j => S i j * mget X j l))) /\
      as_numpy o = mk N N K /\
      sym N K /\ psd N K /\ sym N S /\ (forall x, eps * nrm2 N x <= qf N S x) /\ (forall mu v, eigpair N S mu v -> eps <= mu).
Proof.
  intros eig_min n d eps ps Hn Hd Hps He Heig Hp N K Sy. assert (Hn0 : (0 < n)%nat) by lia.
  set (G := fun p : mx * vec => d_kron (mk_den d d (fun i j => mget (rand_pd d (fst p)) i j)) (mk_den n n (toep_entry (snd p)))).
  assert (EX : exists Ks, map_result (fun p => let! A := np_mat d d (fst p) in let! T := toeplitz (np1 (snd p)) in kronecker A T)
      (combine (map (fun p => rand_pd d (fst p)) ps) (map snd ps)) = Ok Ks /\ Forall2 (fun p K => represents K (G p)) ps Ks).
  { replace (combine (map (fun p => rand_pd d (fst p)) ps) (map snd ps)) with (map (fun p => (rand_pd d (fst p), snd p)) ps)
      by (clear; induction ps as [|p ps IH]; [reflexivity|]; cbn [map combine]; now rewrite IH).
    rewrite map_result_map. apply map_result_ex. intros [A top] HI. cbn [fst snd].
    destruct (Hp A top HI) as [HA HG]. destruct (generated_ok eig_min n top Hn0 Heig HG) as [LT PT].
    destruct (np_mat_ok d d (fun i j => mget (mk d d (fun i j => (mget A i j + mget A j i) / 2)) i j + (if Nat.eqb i j then Rsum d (fun k => Rabs (mget (mk d d (fun i j => (mget A i j + mget A j i) / 2)) i k)) + 1 else 0)) Hd Hd) as [M [E1 R1]].
    change (mk d d _) with (rand_pd d A) in E1 at 1. rewrite E1. cbn [bind].
    assert (ET : exists T, toeplitz (np1 top) = Ok T).
    { unfold toeplitz, np1. cbn [np_len a_shape is_1d length Nat.eqb negb bind a_data]. unfold np_len, is_1d, np_size. cbn [a_shape length Nat.eqb negb bind]. destruct top as [|t0 top]; [cbn in LT; lia|].
      cbn. eauto. }
    destruct ET as [T ET]. rewrite ET. cbn [bind]. pose proof (toeplitz_rep (np1 top) T ltac:(cbn; lia) ET) as R2. cbn [np1 a_data] in R2. rewrite LT in R2.
    destruct (kronecker_ok M T _ _ R1 R2) as [o [E3 R3]]. exists o. split; [exact E3|].
    eapply represents_ext; [exact R3|]. split; [reflexivity|]. split; [reflexivity|]. cbn [G d_kron d_r d_c d_f fst snd]. intros i j Hi Hj.
    f_equal. unfold rand_pd. rewrite !mget_mk by (apply Nat.div_lt_upper_bound; lia). reflexivity. }
  destruct EX as [Ks [EK FK]].
  assert (FR : Forall2 represents Ks (map G ps)).
  { clear -FK. induction FK; [constructor|]. cbn [map]. constructor; assumption. }
  destruct (sum_matrix_ok Ks (map G ps) N N FR) as [m [EM RM]].
  { intros C. apply map_eq_nil in C. contradiction. }
  { intros g Hg. apply in_map_iff in Hg as [p [<- _]]. split; reflexivity. }
  assert (RM' : represents m (mk_den N N K)).
  { eapply represents_ext; [exact RM|]. destruct ps as [|p0 ps']; [congruence|].
    change (d_sum (map G (p0 :: ps'))) with (mk_den N N (fun i j => lsum (map (fun g => d_f g i j) (map G (p0 :: ps'))))). split; [reflexivity|]. split; [reflexivity|]. cbn [d_r d_c d_f]. intros i j Hi Hj.
    unfold K, case_entry. rewrite map_map. apply lsum_map_ext. intros p _. cbn [G d_kron d_f d_r d_c]. now rewrite toep_same. }
  exists m. split; [unfold case_matrix; rewrite EK; exact EM|]. intros o.
  assert (KS : sym N K).
  { intros i j Hi Hj. unfold K, case_entry. apply lsum_map_ext. intros [A top] HI. cbn [fst snd]. f_equal.
    - apply rand_pd_sym; apply Nat.div_lt_upper_bound; lia.
    - unfold toep. f_equal. lia. }
  assert (KP : psd N K).
  { intros x. unfold K, case_entry. assert (HQ : forall A top, In (A, top) ps -> psd N (fun i j => mget (rand_pd d A) (i / n) (j / n) * toep top (i mod n) (j mod n))).
    { intros A top HI. destruct (Hp A top HI) as [HA HG]. destruct (generated_ok eig_min n top Hn0 Heig HG) as [LT PT].
      destruct (C68_rand_pd_partial d A HA) as (_ & S1 & _ & D1 & _). apply (psd_kron d n (mget (rand_pd d A)) (toep top)); [exact S1| |exact PT].
      intros y. eapply Rle_trans; [apply (nrm2_nonneg d y)|apply D1]. }
    clear -HQ. revert x. change (psd N (fun i j => lsum (map (fun p => mget (rand_pd d (fst p)) (i / n) (j / n) * toep (snd p) (i mod n) (j mod n)) ps))).
    induction ps as [|[A top] ps IH].
    - apply psd_zero.
    - eapply psd_ext; [|apply psd_plus; [apply (HQ A top); now left|apply IH; intros; apply HQ; now right]]. intros i j _ _. reflexivity. }
  assert (MV : forall x, length x = N -> matvec o x = tab N (fun i => Rsum N (fun j => Sy i j * vget x j))).
  { intros x Hx. unfold o. cbn [case_object matvec]. rewrite (rep_mv _ _ RM' x Hx). unfold d_apply, mat_apply. cbn [d_r d_c d_f].
    replace (map (Rmult eps) x) with (tab N (fun i => eps * vget x i)).
    - rewrite vadd_tab. apply tab_ext. intros i Hi. unfold Sy. rewrite (Rsum_ext N (fun j => (K i j + (if Nat.eqb i j then eps else 0)) * vget x j) (fun j => K i j * vget x j + (if Nat.eqb i j then eps * vget x j else 0))).
      + rewrite Rsum_plus. f_equal. symmetry. etransitivity; [|apply (Rsum_delta N i (fun j => eps * vget x j) Hi)]. apply Rsum_ext. intros j Hj. rewrite (Nat.eqb_sym i j). reflexivity.
      + intros j Hj. destruct (Nat.eqb i j); ring.
    - apply nth_ext with (d := 0) (d' := eps * 0); [now rewrite tab_length, map_length|]. intros i Hi. rewrite tab_length in Hi. rewrite nth_tab by exact Hi. rewrite (map_nth (Rmult eps)). reflexivity. }
  split; [exact (rep_shape _ _ RM')|]. split; [exact MV|]. split; [|split; [exact (rep_np _ _ RM')|]].
  - intros X k HX. unfold o. cbn [case_object matmat]. rewrite (rep_shape _ _ RM'). cbn [fst d_r].
    apply (default_matmat_ok (mk_den N N Sy)); [cbn [d_c]; unfold N; nia|exact MV|exact HX].
  - split; [exact KS|]. split; [exact KP|].
    assert (QF : forall x, qf N Sy x = qf N K x + eps * nrm2 N x).
    { intros x. rewrite <- qf_id. unfold qf. rewrite <- bil_scal, <- bil_plus. apply bil_ext; [|reflexivity|reflexivity]. intros i j _ _. unfold Sy, id_f. destruct (Nat.eqb i j); ring. }
    split; [|split].
    + intros i j Hi Hj. unfold Sy. rewrite (KS i j Hi Hj), (Nat.eqb_sym i j). reflexivity.
    + intros x. rewrite QF. specialize (KP x). lra.
    + intros mu v Hv. pose proof (eig_qf _ _ _ _ Hv) as E. rewrite QF in E. specialize (KP v). destruct Hv as [[i [Hi Ni]] _]. pose proof (nrm2_pos N v i Hi Ni). apply Rmult_le_reg_r with (nrm2 N v); lra.
Qed.
Print Assumptions C90_systems_partial.

(** The function that [smallest_eig] calls exists: every Toeplitz matrix has a
    smallest eigenvalue, so the hypothesis here and in C68 can be met for every
    size. *)
Definition toep_eig (n : nat) (M : mx) : R := least_eig n (mget M).
Theorem C68_oracle_exists :
  exists eig_min, forall n top, (0 < n)%nat -> length top = n -> min_eig n (toep top) (eig_min n (la_toeplitz top)).
Proof.
  exists toep_eig. intros n top Hn L. unfold toep_eig.
  assert (EQ : forall i j, (i < n)%nat -> (j < n)%nat -> mget (la_toeplitz top) i j = toep top i j) by (intros i j Hi Hj; apply toeplitz_entry; lia).
  destruct (least_eig_ok n (mget (la_toeplitz top)) Hn) as [A [v [V1 V2]]].
  { intros i j Hi Hj. rewrite !EQ by assumption. unfold toep. f_equal. lia. }
  split.
  - intros x. rewrite <- (qf_ext n (mget (la_toeplitz top)) (toep top) x x EQ (fun _ _ => eq_refl)). apply A.
  - exists v. split; [exact V1|]. intros i Hi. rewrite <- V2 by exact Hi. apply Rsum_ext. intros j Hj. now rewrite EQ.
Qed.
Print Assumptions C68_oracle_exists.

(** One system of the benchmark: [n = 9], [d = 1], one summand. *)
Definition ex_ps (u : R) : list (mx * vec) := [([[0]], exp_decr_toep u 9)].
Lemma ex_ps_ok eig_min u : drawn u -> forall A top, In (A, top) (ex_ps u) -> (forall i j, (i < 1)%nat -> (j < 1)%nat -> drawn (mget A i j)) /\ generated eig_min 9 top.
Proof.
  intros Hu A top [E|[]]. injection E as <- <-. split; [|now constructor]. intros i j Hi Hj. assert (i = 0)%nat by lia. assert (j = 0)%nat by lia. subst. cbn. unfold drawn. lra.
Qed.
Lemma ex_ps_entry u i j : case_entry 1 9 (ex_ps u) i j = mget (rand_pd 1 [[0]]) (i / 9) (j / 9) * toep (exp_decr_toep u 9) (i mod 9) (j mod 9).
Proof. unfold case_entry, ex_ps. cbn [map lsum fold_right fst snd]. unfold lsum. cbn [fold_right]. ring. Qed.

Example C90_systems_ex : exists eig_min, (forall top, length top = 9%nat -> min_eig 9 (toep top) (eig_min 9%nat (la_toeplitz top))) /\
  (forall A top, In (A, top) (ex_ps (1/2)) -> (forall i j, (i < 1)%nat -> (j < 1)%nat -> drawn (mget A i j)) /\ generated eig_min 9 top) /\
  (exists us fuel top, length us = 9%nat /\ random_toep eig_min fuel us = Some (Ok top)).
Proof.
  destruct C68_oracle_exists as [eig H]. exists eig. split; [intros top L; apply H; [lia|exact L]|]. split; [apply ex_ps_ok; unfold drawn; lra|].
  destruct (C68_random_toep eig (repeat (1/2) 9)) as [t [rest [k (_ & _ & _ & _ & [f0 F])]]].
  - discriminate.
  - intros u Hu. apply repeat_spec in Hu. subst u. unfold drawn. lra.
  - intros top L. apply H; [cbn; lia|exact L].
  - exists (repeat (1/2) 9), f0, (t + INR k :: rest). split; [reflexivity|]. apply F. lia.
Qed.

(** With noise, the dense form of the object is not the matrix that it
    multiplies by. *)
Theorem C90_dense_refuted :
  exists eps d n ps m x, 0 < eps /\ case_matrix d n (map (fun p => rand_pd d (fst p)) ps) (map snd ps) = Ok m /\
    length x = (d * n)%nat /\ matvec (case_object eps m m) x <> np_dot1 (as_numpy (case_object eps m m)) x.
Proof.
  destruct C68_oracle_exists as [eig H]. assert (D : drawn (1/2)) by (unfold drawn; lra).
  destruct (C90_systems_partial eig 9 1 1 (ex_ps (1/2)) ltac:(lia) ltac:(lia) ltac:(discriminate) ltac:(lra) (fun top L => H 9%nat top ltac:(lia) L) (ex_ps_ok eig _ D)) as [m (E & S1 & MV & _ & NP & _)].
  exists 1, 1%nat, 9%nat, (ex_ps (1/2)), m, (tab 9 (unitv 0)). split; [lra|]. split; [exact E|]. split; [reflexivity|].
  rewrite MV by reflexivity. rewrite NP. cbn [Nat.mul Nat.add]. rewrite np_dot1_mk. intros C.
  apply (f_equal (fun v => vget v 0)) in C. unfold mat_apply in C. rewrite !vget_tab in C by lia.
  rewrite (Rsum_ext 9 _ (fun j => (case_entry 1 9 (ex_ps (1/2)) 0 j + (if Nat.eqb 0 j then 1 else 0)) * unitv 0 j)) in C by (intros j Hj; now rewrite vget_tab).
  rewrite (Rsum_ext 9 (fun j => case_entry 1 9 (ex_ps (1/2)) 0 j * vget (tab 9 (unitv 0)) j) (fun j => case_entry 1 9 (ex_ps (1/2)) 0 j * unitv 0 j)) in C by (intros j Hj; now rewrite vget_tab).
  rewrite !sum_unit in C by lia. cbn [Nat.eqb] in C. lra.
Qed.
Print Assumptions C90_dense_refuted.

(** An object kept from one case multiplies by the matrix of a later one. *)
Theorem C90_kept_refuted :
  exists eps d n ps ps' m m' x, case_matrix d n (map (fun p => rand_pd d (fst p)) ps) (map snd ps) = Ok m /\
    case_matrix d n (map (fun p => rand_pd d (fst p)) ps') (map snd ps') = Ok m' /\ length x = (d * n)%nat /\
    matvec (case_object eps m' m) x <> matvec (case_object eps m m) x.
Proof.
  destruct C68_oracle_exists as [eig H]. assert (D : drawn (1/2)) by (unfold drawn; lra). assert (D' : drawn (1/4)) by (unfold drawn; lra).
  destruct (C90_systems_partial eig 9 1 1 (ex_ps (1/2)) ltac:(lia) ltac:(lia) ltac:(discriminate) ltac:(lra) (fun top L => H 9%nat top ltac:(lia) L) (ex_ps_ok eig _ D)) as [m (E & _ & MV & _)].
  destruct (C90_systems_partial eig 9 1 1 (ex_ps (1/4)) ltac:(lia) ltac:(lia) ltac:(discriminate) ltac:(lra) (fun top L => H 9%nat top ltac:(lia) L) (ex_ps_ok eig _ D')) as [m' (E' & _ & MV' & _)].
  exists 1, 1%nat, 9%nat, (ex_ps (1/2)), (ex_ps (1/4)), m, m', (tab 9 (unitv 0)). split; [exact E|]. split; [exact E'|]. split; [reflexivity|].
  change (matvec (case_object 1 m' m)) with (matvec (case_object 1 m' m')). rewrite MV, MV' by reflexivity. intros C.
  apply (f_equal (fun v => vget v 1)) in C. cbn [Nat.mul Nat.add] in C. rewrite !vget_tab in C by lia.
  rewrite (Rsum_ext 9 _ (fun j => (case_entry 1 9 (ex_ps (1/4)) 1 j + (if Nat.eqb 1 j then 1 else 0)) * unitv 0 j)) in C by (intros j Hj; now rewrite vget_tab).
  rewrite (Rsum_ext 9 (fun j => (case_entry 1 9 (ex_ps (1/2)) 1 j + (if Nat.eqb 1 j then 1 else 0)) * vget (tab 9 (unitv 0)) j) (fun j => (case_entry 1 9 (ex_ps (1/2)) 1 j + (if Nat.eqb 1 j then 1 else 0)) * unitv 0 j)) in C by (intros j Hj; now rewrite vget_tab).
  rewrite !sum_unit in C by lia. cbn [Nat.eqb] in C. rewrite !ex_ps_entry in C.
  change (1 / 9)%nat with 0%nat in C. change (0 / 9)%nat with 0%nat in C. change (1 mod 9)%nat with 1%nat in C. change (0 mod 9)%nat with 0%nat in C.
  assert (A1 : mget (rand_pd 1 [[0]]) 0 0 = 1).
  { rewrite rand_pd_entry by lia. unfold mget. cbn. replace ((0 + 0) / 2) with 0 by field. rewrite Rabs_R0. ring. }
  rewrite A1 in C. unfold toep in C. cbn [Nat.max Nat.min Nat.sub] in C. unfold exp_decr_toep in C. rewrite !vget_tab in C by lia.
  change (INR 1) with 1 in C. assert (E1 : exp (- (1 / 2) * 1) < exp (- (1 / 4) * 1)) by (apply exp_increasing; lra). lra.
Qed.
Print Assumptions C90_kept_refuted.

(** The arguments: five or six are needed; then [n > 8], [d > 0], [q > 0],
    [eps >= 0] and a seed of 32 bits are accepted, 1234 by default, and nothing
    else is. *)
Theorem C90_arguments :
  forall to_int to_float argv,
    (run_main_args to_int to_float argv = Ok None <-> length argv <> 5%nat /\ length argv <> 6%nat) /\
    forall c, run_main_args to_int to_float argv = Ok (Some c) <->
      (length argv = 5%nat \/ length argv = 6%nat) /\
      to_int (nth 1 argv []) = Some (s_n c) /\ to_int (nth 2 argv []) = Some (s_d c) /\ to_int (nth 3 argv []) = Some (s_q c) /\ to_float (nth 4 argv []) = Some (s_eps c) /\
      (if Nat.eqb (length argv) 6 then to_int (nth 5 argv []) = Some (s_seed c) else s_seed c = 1234%Z) /\
      (8 < s_n c /\ 0 < s_d c /\ 0 < s_q c)%Z /\ 0 <= s_eps c /\ (0 <= s_seed c < 2 ^ 32)%Z.
Proof.
  intros to_int to_float argv. unfold run_main_args.
  destruct (Nat.eqb_spec (length argv) 5) as [L5|L5]; destruct (Nat.eqb_spec (length argv) 6) as [L6|L6]; try lia; cbn [orb negb].
  3: { split; [split; [auto|reflexivity]|]. intros c. split; [discriminate|intros [[C|C] _]; contradiction]. }
  all: assert (E5 : (5 <? length argv)%nat = Nat.eqb (length argv) 6) by (destruct (Nat.eqb_spec (length argv) 6), (Nat.ltb_spec 5 (length argv)); try reflexivity; lia).
  all: rewrite E5.
  all: destruct (to_int (nth 1 argv [])) as [n|]; cbn [conv bind]; [|split; [split; [discriminate|lia]|intros c; split; [discriminate|intros (_ & C & _); discriminate]]].
  all: destruct (to_int (nth 2 argv [])) as [d|]; cbn [conv bind]; [|split; [split; [discriminate|lia]|intros c; split; [discriminate|intros (_ & _ & C & _); discriminate]]].
  all: destruct (to_int (nth 3 argv [])) as [q|]; cbn [conv bind]; [|split; [split; [discriminate|lia]|intros c; split; [discriminate|intros (_ & _ & _ & C & _); discriminate]]].
  all: destruct (to_float (nth 4 argv [])) as [eps|]; cbn [conv bind]; [|split; [split; [discriminate|lia]|intros c; split; [discriminate|intros (_ & _ & _ & _ & C & _); discriminate]]].
  all: destruct (Nat.eqb_spec (length argv) 6) as [M6|M6]; try lia.
  1: set (seed := 1234%Z).
  2: destruct (to_int (nth 5 argv [])) as [seed|]; cbn [conv]; [|cbn [bind]; split; [split; [discriminate|lia]|intros c; split; [discriminate|intros (_ & _ & _ & _ & _ & C & _); discriminate]]].
  all: cbn [bind]; unfold assert_that.
  all: destruct (Z.ltb_spec 8 n); cbn [bind]; [|split; [split; [discriminate|lia]|intros c; split; [discriminate|]]; intros (_ & E1 & _ & _ & _ & _ & (C & _) & _); injection E1 as ->; lia].
  all: destruct (Z.ltb_spec 0 d); cbn [bind]; [|split; [split; [discriminate|lia]|intros c; split; [discriminate|]]; intros (_ & _ & E1 & _ & _ & _ & (_ & C & _) & _); injection E1 as ->; lia].
  all: destruct (Z.ltb_spec 0 q); cbn [bind]; [|split; [split; [discriminate|lia]|intros c; split; [discriminate|]]; intros (_ & _ & _ & E1 & _ & _ & (_ & _ & C) & _); injection E1 as ->; lia].
  all: destruct (Rle_dec 0 eps); cbn [bind]; [|split; [split; [discriminate|lia]|intros c; split; [discriminate|]]; intros (_ & _ & _ & _ & E1 & _ & _ & C & _); injection E1 as ->; lra].
  all: destruct ((0 <=? seed)%Z && (seed <? 2 ^ 32)%Z)%bool eqn:Sd.
  all: split; [split; [discriminate|lia]|]; intros c.
  all: try (apply andb_prop in Sd as [S1 S2]; apply Z.leb_le in S1; apply Z.ltb_lt in S2; split;
    [intros E; apply Ok_inj in E; injection E as <-; cbn [s_n s_d s_q s_eps s_seed]; repeat split; first [assumption|reflexivity|tauto|lia]
    |intros (_ & E1 & E2 & E3 & E4 & E6 & _); injection E1 as ->; injection E2 as ->; injection E3 as ->; injection E4 as ->; destruct c as [cn cd cq ce cs]; cbn [s_n s_d s_q s_eps s_seed] in *]).
  1: { now rewrite E6. }
  2: { injection E6 as ->. reflexivity. }
  all: split; [discriminate|]; intros (_ & _ & _ & _ & _ & E6 & _ & _ & C).
  1: { discriminate Sd. }
  1: { injection E6 as ->. apply andb_false_iff in Sd as [S1|S1]; [apply Z.leb_gt in S1|apply Z.ltb_ge in S1]; lia. }
Qed.
Print Assumptions C90_arguments.

Example C90_arguments_ex : run_main_args (fun s => Some (Z.of_nat (length s))) (fun _ => Some 1) [[]; repeat Ascii.zero 9; repeat Ascii.zero 2; repeat Ascii.zero 3; []] = Ok (Some (mk_sys 9 2 3 1 1234)).
Proof. cbn. destruct (Rle_dec 0 1); [reflexivity|lra]. Qed.

(** ** Other helpers *)

(** The printed seed is one that numpy accepts, and setting SEED to it makes a
    later run, at any time, use it again. *)
Theorem C90_seed :
  forall env clock, (0 <= setup_seed env clock < 2 ^ 32)%Z /\ forall clock', setup_seed (Some (setup_seed env clock)) clock' = setup_seed env clock.
Proof.
  intros env clock. unfold setup_seed. split; [apply Z.mod_pos_bound; reflexivity|]. intros _. apply Z.mod_mod. discriminate.
Qed.
Print Assumptions C90_seed.
Example C90_seed_ex : setup_seed None (2 ^ 32 + 7) = 7%Z.
Proof. reflexivity. Qed.

(** A function that works entry by entry on columns, vectorised, is applied to
    the rows of a matrix with at least one column. *)
Theorem C90_vectorize :
  forall (g : list R -> R) N k args, (0 < k)%nat ->
    vectorize_inputs (fun cols => tab N (fun i => g (map (fun c => mget c i 0) cols))) N k args = Ok (tab N (fun i => g (tab k (fun j => mget args i j)))).
Proof.
  intros g N k args Hk. unfold vectorize_inputs. destruct (Nat.eqb_spec k 0); [lia|]. f_equal. apply tab_ext. intros i Hi. f_equal. rewrite map_map. apply map_ext. intros j. now rewrite mget_mk by lia.
Qed.
Print Assumptions C90_vectorize.
Example C90_vectorize_ex : vectorize_inputs (fun cols => tab 2 (fun i => fold_right Rplus 0 (map (fun c => mget c i 0) cols))) 2 2 [[1; 2]; [3; 4]] = Ok [3; 7].
Proof. rewrite (C90_vectorize (fold_right Rplus 0)) by lia. unfold tab, mget. cbn. repeat f_equal; ring. Qed.

(** [check_np_lists] passes exactly when there are as many arrays, of the same
    lengths, with entries of the first within [atol + rtol |b|] of those of the
    second; otherwise it raises AssertionError. *)
Definition close_to (atol rtol : R) (a b : list vec) : Prop :=
  length a = length b /\ forall i, (i < length a)%nat -> length (nth i a []) = length (nth i b []) /\
    forall j, (j < length (nth i a []))%nat -> Rabs (vget (nth i a []) j - vget (nth i b []) j) <= atol + rtol * Rabs (vget (nth i b []) j).

Lemma allclose_ok atol rtol a b : assert_allclose atol rtol a b = Ok tt <-> length a = length b /\ forall j, (j < length a)%nat -> Rabs (vget a j - vget b j) <= atol + rtol * Rabs (vget b j).
Proof.
  unfold assert_allclose. destruct (Nat.eqb_spec (length a) (length b)) as [L|L]; [|split; [discriminate|intros [C _]; contradiction]].
  unfold assert_that. destruct (forallb _ _) eqn:F.
  - split; [|reflexivity]. intros _. split; [exact L|]. rewrite forallb_forall in F. intros j Hj.
    assert (HI : In (vget a j, vget b j) (combine a b)).
    { unfold vget. rewrite <- combine_nth by exact L. apply nth_In. rewrite combine_length. lia. }
    specialize (F _ HI). cbn [fst snd] in F. destruct (Rle_dec _ _); [assumption|discriminate].
  - split; [discriminate|]. intros [_ H]. exfalso. assert (T : forallb (fun p => if Rle_dec (Rabs (fst p - snd p)) (atol + rtol * Rabs (snd p)) then true else false) (combine a b) = true); [|congruence].
    apply forallb_forall. intros p Hp. destruct (In_nth _ _ (0, 0) Hp) as [j [Hj E]]. rewrite combine_length in Hj. rewrite combine_nth in E by exact L. subst p. cbn [fst snd].
    destruct (Rle_dec _ _) as [|C]; [reflexivity|]. exfalso. apply C. apply (H j). lia.
Qed.
Lemma allclose_err atol rtol a b e : assert_allclose atol rtol a b = Err e -> e = AssertionError.
Proof. unfold assert_allclose, assert_that. destruct (Nat.eqb _ _); [destruct (forallb _ _)|]; congruence. Qed.

Lemma fold_checks atol rtol l : forall e, fold_left (fun acc p => let! _ := acc in assert_allclose atol rtol (fst p) (snd p)) l (@Err unit e) = Err e.
Proof. induction l as [|p l IH]; intros e; [reflexivity|apply IH]. Qed.

Theorem C90_check_lists_partial :
  forall atol rtol a b,
    (check_np_lists atol rtol a b = Ok tt <-> close_to atol rtol a b) /\ (~ close_to atol rtol a b -> check_np_lists atol rtol a b = Err AssertionError).
Proof.
  intros atol rtol a b. unfold check_np_lists.
  assert (G : forall a b, length a = length b ->
    let r := fold_left (fun acc p => let! _ := acc in assert_allclose atol rtol (fst p) (snd p)) (combine a b) (Ok tt) in
    (r = Ok tt <-> close_to atol rtol a b) /\ (r = Ok tt \/ r = Err AssertionError)).
  { clear a b. intros a. induction a as [|x a IH]; intros [|y b] L; try discriminate L.
    - cbn. split; [|now left]. split; [|reflexivity]. intros _. split; [reflexivity|]. cbn. lia.
    - cbn [combine fold_left bind fst snd]. destruct (assert_allclose atol rtol x y) as [[]|e] eqn:E.
      + apply allclose_ok in E. destruct (IH b ltac:(cbn in L; lia)) as [I1 I2]. cbn zeta in *. split; [|exact I2]. rewrite I1. split.
        * intros [_ H]. split; [exact L|]. intros [|i] Hi; [exact E|apply H; cbn in Hi; lia].
        * intros [_ H]. split; [cbn in L; lia|]. intros i Hi. apply (H (S i)). cbn. lia.
      + cbn zeta. rewrite fold_checks. pose proof (allclose_err _ _ _ _ _ E) as ->. split; [|now right]. split; [discriminate|]. intros [_ H]. exfalso.
        assert (C : assert_allclose atol rtol x y = Ok tt) by (apply allclose_ok; apply (H 0%nat); cbn; lia). congruence. }
  unfold assert_that. destruct (Nat.eqb_spec (length a) (length b)) as [L|L]; cbn [bind].
  - destruct (G a b L) as [G1 G2]. cbn zeta in *. split; [exact G1|]. intros N. destruct G2 as [G2|G2]; [exfalso; apply N, G1, G2|exact G2].
  - split; [|reflexivity]. split; [discriminate|]. intros [C _]. contradiction.
Qed.
Print Assumptions C90_check_lists_partial.

(** It is not symmetric: which list comes first matters. *)
Theorem C90_check_lists_refuted :
  exists a b, let t := 1 / 10 ^ 7 in check_np_lists t t a b = Ok tt /\ check_np_lists t t b a = Err AssertionError.
Proof.
  exists [[1 - 2 / 10 ^ 7]], [[1]]. intros t. assert (Ht : t = 1 / 10 ^ 7) by reflexivity. split.
  - apply C90_check_lists_partial. split; [reflexivity|]. intros [|i] Hi; [|cbn in Hi; lia]. split; [reflexivity|]. intros [|j] Hj; [|cbn in Hj; lia]. unfold vget. cbn [nth].
    rewrite Rabs_R1, Rabs_left by lra. lra.
  - apply C90_check_lists_partial. intros [_ H]. destruct (H 0%nat ltac:(cbn; lia)) as [_ H']. specialize (H' 0%nat ltac:(cbn; lia)). unfold vget in H'. cbn [nth] in H'.
    rewrite (Rabs_right (1 - (1 - 2 / 10 ^ 7))), (Rabs_right (1 - 2 / 10 ^ 7)) in H' by lra. lra.
Qed.
Print Assumptions C90_check_lists_refuted.

Example C90_check_ex : close_to (1 / 10 ^ 7) (1 / 10 ^ 7) [[1; 2]; []] [[1; 2]; []].
Proof.
  split; [reflexivity|]. intros [|[|i]] Hi; cbn [nth]; (split; [reflexivity|]); intros j Hj; [|cbn in Hj; lia|cbn in Hi; lia].
  assert (P : forall y, 0 <= 1 / 10 ^ 7 + 1 / 10 ^ 7 * Rabs y) by (intros y; pose proof (Rabs_pos y); nra). rewrite Rminus_diag_eq, Rabs_R0 by reflexivity. apply P.
Qed.

(** ** SingleGradOptimizer *)

(** [grad] gives the partial derivatives of [f], and does not change faster
    than [L] times the distance. *)
Definition shifted (n : nat) (x d : vec) (t : R) : vec := tab n (fun i => vget x i + t * vget d i).
Definition has_gradient (n : nat) (f : vec -> R) (grad : vec -> vec) : Prop :=
  forall x d t, length x = n -> is_derive (fun t => f (shifted n x d t)) t (Rsum n (fun i => vget (grad (shifted n x d t)) i * vget d i)).
Definition lipschitz (n : nat) (L : R) (grad : vec -> vec) : Prop :=
  forall x y, length x = n -> length y = n -> norm2 n (fun i => vget (grad y) i - vget (grad x) i) <= L * norm2 n (fun i => vget y i - vget x i).

(** The optimiser is given the gradient of the negative objective.  It records
    the gradient of the objective, and if [L] bounds how fast that changes, its
    step raises the objective by at least the squared length of the gradient
    over [2 L]. *)
Theorem C90_step_partial :
  forall n f grad L x, 0 < L -> length x = n -> (forall y, length y = n -> length (grad y) = n) -> has_gradient n f grad -> lipschitz n L grad ->
    let '(observed, x_opt) := single_grad_opt L (fun y => map Ropp (grad y)) x in
    observed = grad x /\ length x_opt = n /\ f x + Rsum n (fun i => vget (grad x) i ^ 2) / (2 * L) <= f x_opt.
Proof.
  intros n f grad L x HL Lx Lg HG HLip. unfold single_grad_opt. rewrite map_map.
  assert (OB : map (fun y => - - y) (grad x) = grad x) by (rewrite <- (map_id (grad x)) at 2; apply map_ext; intros; ring). rewrite OB. split; [reflexivity|].
  set (g := grad x). assert (Lgx : length g = n) by now apply Lg.
  set (d := map (fun y => y / L) g).
  assert (Vd : forall i, (i < n)%nat -> vget d i = vget g i / L).
  { intros i Hi. unfold vget, d. rewrite (nth_indep _ 0 (0 / L)) by (rewrite map_length; lia). apply (map_nth (fun y => y / L)). }
  assert (XO : vadd x d = shifted n x d 1).
  { unfold shifted. rewrite (vec_as_tab x) at 1. rewrite Lx. assert (Ld : length d = n) by (unfold d; now rewrite map_length). rewrite (vec_as_tab d) at 1. rewrite Ld, vadd_tab. apply tab_ext. intros. ring. }
  split; [rewrite XO; unfold shifted; apply tab_length|]. rewrite XO.
  assert (X0 : shifted n x d 0 = x).
  { unfold shifted. etransitivity; [|symmetry; apply (vec_as_tab x)]. rewrite Lx. apply tab_ext. intros. ring. }
  set (N := Rsum n (fun i => vget g i ^ 2)).
  assert (N0 : 0 <= N) by apply sq_nonneg.
  set (psi := fun t => f (shifted n x d t) - t * (N / L) + t * t * (N / (2 * L))).
  set (psi' := fun t => Rsum n (fun i => vget (grad (shifted n x d t)) i * vget d i) - N / L + t * (N / L)).
  assert (DP : forall t, is_derive psi t (psi' t)).
  { intros t. unfold psi, psi'. apply (is_derive_plus (fun t => f (shifted n x d t) - t * (N / L)) (fun t => t * t * (N / (2 * L)))).
    - apply (is_derive_minus (fun t => f (shifted n x d t)) (fun t => t * (N / L))); [apply HG; exact Lx|]. auto_derive; [exact I|ring].
    - auto_derive; [exact I|]. field. lra. }
  destruct (MVT_gen psi 0 1 psi') as [c [Hc EM]].
  { intros t _. apply DP. }
  { intros t _. apply continuity_pt_filterlim, (ex_derive_continuous psi). eexists. apply DP. }
  rewrite Rmin_left, Rmax_right in Hc by lra.
  assert (PC : 0 <= psi' c).
  { unfold psi'. set (y := shifted n x d c).
    assert (Ly : length y = n) by (unfold y, shifted; apply tab_length).
    assert (E1 : Rsum n (fun i => vget (grad y) i * vget d i) = N / L + Rsum n (fun i => (vget (grad y) i - vget g i) * vget d i)).
    { unfold N, Rdiv. rewrite Rmult_comm, <- Rsum_scal_l, <- Rsum_plus. apply Rsum_ext. intros i Hi. rewrite Vd by exact Hi. field. lra. }
    rewrite E1. pose proof (cauchy n (fun i => vget (grad y) i - vget g i) (vget d)) as CS. cbn beta in CS.
    pose proof (HLip x y Lx Ly) as LP. fold g in LP.
    assert (E2 : norm2 n (fun i => vget y i - vget x i) = Rabs c * norm2 n (vget d)).
    { rewrite <- norm2_scal. apply norm2_ext. intros i Hi. unfold y, shifted. rewrite vget_tab by exact Hi. ring. }
    rewrite E2, Rabs_right in LP by lra.
    assert (E3 : norm2 n (vget d) * norm2 n (vget d) = N / (L * L)).
    { rewrite norm2_sq. unfold N, Rdiv. rewrite Rmult_comm, <- Rsum_scal_l. apply Rsum_ext. intros i Hi. rewrite Vd by exact Hi. field. lra. }
    assert (B : Rabs (Rsum n (fun i => (vget (grad y) i - vget g i) * vget d i)) <= c * (N / L)).
    { eapply Rle_trans; [exact CS|]. apply Rle_trans with (L * (c * norm2 n (vget d)) * norm2 n (vget d)).
      - apply Rmult_le_compat_r; [apply norm2_nonneg|exact LP].
      - right. replace (L * (c * norm2 n (vget d)) * norm2 n (vget d)) with (L * c * (norm2 n (vget d) * norm2 n (vget d))) by ring. rewrite E3. field. lra. }
    pose proof (Rle_abs (- Rsum n (fun i => (vget (grad y) i - vget g i) * vget d i))) as A. rewrite Rabs_Ropp in A. lra. }
  unfold psi in EM. rewrite X0 in EM. assert (EL : N / L = 2 * (N / (2 * L))) by (field; lra). fold N.
  change (f x + N / (2 * L) <= f (shifted n x d 1)). nra.
Qed.
Print Assumptions C90_step_partial.

(** For an objective whose gradient changes faster than [L], the step can lower
    it: the default [L = 1] on [- 3/2 x^2]. *)
Theorem C90_step_refuted :
  exists f grad x, has_gradient 1 f grad /\ lipschitz 1 3 grad /\ length x = 1%nat /\ f (snd (single_grad_opt 1 (fun y => map Ropp (grad y)) x)) < f x.
Proof.
  exists (fun v => - (3 / 2) * vget v 0 ^ 2), (fun v => [- 3 * vget v 0]), [1]. split; [|split; [|split; [reflexivity|]]].
  - intros x d t Hx. cbn [Rsum]. unfold shifted, tab, vget. cbn [seq map nth]. auto_derive; [exact I|]. cbn. field.
  - intros x y _ _. right. transitivity (Rabs 3 * norm2 1 (fun i => vget y i - vget x i)); [|rewrite Rabs_right by lra; reflexivity]. rewrite <- norm2_scal. unfold norm2. f_equal. cbn [Rsum]. unfold vget. cbn [nth]. ring.
  - unfold single_grad_opt, vget, vadd. cbn. lra.
Qed.
Print Assumptions C90_step_refuted.

Example C90_step_ex : let f v := - (3 / 2) * vget v 0 ^ 2 in let grad v := [- 3 * vget v 0] in
  has_gradient 1 f grad /\ lipschitz 1 3 grad /\ snd (single_grad_opt 3 (fun y => map Ropp (grad y)) [1]) = [0].
Proof.
  intros f grad. split; [|split].
  - intros x d t Hx. cbn [Rsum]. unfold f, grad, shifted, tab, vget. cbn [seq map nth]. auto_derive; [exact I|]. cbn. field.
  - intros x y _ _. right. transitivity (Rabs 3 * norm2 1 (fun i => vget y i - vget x i)); [|rewrite Rabs_right by lra; reflexivity]. rewrite <- norm2_scal. unfold norm2, grad. f_equal. cbn [Rsum]. unfold vget. cbn [nth]. ring.
  - unfold single_grad_opt, vget, vadd. cbn. f_equal. field.
Qed.
