(** Proofs about the testing utilities. *)

From Coq Require Import String Reals List Arith Lia Lra Sorting.Permutation.
From Coquelicot Require Import Coquelicot.
From Verif Require Import Base NDArray PSD Det Model_Fourier Model_Util Model_Linalg Model_Kern Proofs_Linalg Proofs_Det Spec_Kern Proofs_Kern Spec_Lik Proofs_FK Proofs_Grid Proofs_Lik2 Properties_Lik Proofs_State5.
From Verif Require Import Model_Testing Spec_Testing.
Import ListNotations.
Open Scope R_scope.

Lemma toeplitz_entry top i j : (i < length top)%nat -> (j < length top)%nat -> mget (la_toeplitz top) i j = toep top i j.
Proof.
  intros Hi Hj. unfold la_toeplitz. rewrite mget_mk by easy. unfold toep. f_equal. destruct (Nat.leb_spec j i); lia.
Qed.
Lemma toep_sym n top : sym n (toep top).
Proof. intros i j _ _. unfold toep. f_equal. lia. Qed.

(** ** rand_pd *)

Lemma Rsum_sym2 n (G : nat -> nat -> R) : Rsum n (fun i => Rsum n (fun j => G i j)) = Rsum n (fun i => Rsum n (fun j => G j i)).
Proof. apply Rsum_swap. Qed.

Lemma dominant n F m : sym n F -> (forall i, (i < n)%nat -> Rsum n (fun j => if Nat.eqb i j then 0 else Rabs (F i j)) + m <= F i i) ->
  forall x, m * nrm2 n x <= qf n F x.
Proof.
  intros S H x. unfold qf, bil, nrm2.
  assert (A : Rsum n (fun i => F i i * (x i * x i)) + Rsum n (fun i => Rsum n (fun j => if Nat.eqb i j then 0 else x i * F i j * x j)) =
              Rsum n (fun i => Rsum n (fun j => x i * F i j * x j))).
  { rewrite <- Rsum_plus. apply Rsum_ext. intros i Hi. rewrite <- (Rsum_delta n i (fun j => F i j * (x i * x j))) at 1 by easy.
    rewrite <- Rsum_plus. apply Rsum_ext. intros j Hj. rewrite (Nat.eqb_sym j i). destruct (Nat.eqb i j); ring. }
  rewrite <- A.
  assert (B : - Rsum n (fun i => x i * x i * Rsum n (fun j => if Nat.eqb i j then 0 else Rabs (F i j))) <=
              Rsum n (fun i => Rsum n (fun j => if Nat.eqb i j then 0 else x i * F i j * x j))).
  { set (G := fun i j => if Nat.eqb i j then 0 else Rabs (F i j) * (x i * x i) / 2).
    assert (E1 : Rsum n (fun i => x i * x i * Rsum n (fun j => if Nat.eqb i j then 0 else Rabs (F i j))) = Rsum n (fun i => Rsum n (fun j => G i j + G j i))).
    { rewrite (Rsum_ext n (fun i => Rsum n (fun j => G i j + G j i)) (fun i => Rsum n (fun j => G i j) + Rsum n (fun j => G j i))) by (intros; apply Rsum_plus).
      rewrite Rsum_plus, <- (Rsum_sym2 n G), <- Rsum_plus. apply Rsum_ext. intros i Hi. rewrite <- Rsum_plus, <- Rsum_scal_l. apply Rsum_ext. intros j Hj.
      unfold G. destruct (Nat.eqb i j); field. }
    rewrite E1. assert (Hle : 0 <= Rsum n (fun i => Rsum n (fun j => (if Nat.eqb i j then 0 else x i * F i j * x j) + (G i j + G j i)))).
    { apply Rsum_nonneg. intros i Hi. apply Rsum_nonneg. intros j Hj. unfold G. rewrite (Nat.eqb_sym j i). destruct (Nat.eqb i j); [lra|].
      rewrite (S j i) by easy. pose proof (Rabs_pos (F i j)) as P. pose proof (Rle_abs (- (F i j))) as P1. rewrite Rabs_Ropp in P1. pose proof (Rle_abs (F i j)) as P2.
      set (a := Rabs (F i j)) in *. set (f := F i j) in *. pose proof (Rle_0_sqr (x i - x j)) as Q1. pose proof (Rle_0_sqr (x i + x j)) as Q2. unfold Rsqr in *.
      pose proof (Rmult_le_pos (a - f) _ ltac:(lra) Q1). pose proof (Rmult_le_pos (a + f) _ ltac:(lra) Q2). lra. }
    rewrite (Rsum_ext n _ (fun i => Rsum n (fun j => if Nat.eqb i j then 0 else x i * F i j * x j) + Rsum n (fun j => G i j + G j i))) in Hle by (intros; apply Rsum_plus).
    rewrite Rsum_plus in Hle. lra. }
  assert (C : m * Rsum n (fun i => x i * x i) + Rsum n (fun i => x i * x i * Rsum n (fun j => if Nat.eqb i j then 0 else Rabs (F i j))) <= Rsum n (fun i => F i i * (x i * x i))).
  { rewrite <- Rsum_scal_l, <- Rsum_plus. apply Rsum_le. intros i Hi. specialize (H i Hi). pose proof (Rle_0_sqr (x i)) as Q. unfold Rsqr in Q.
    pose proof (Rmult_le_compat_r _ _ _ Q H). lra. }
  lra.
Qed.

Lemma rand_pd_entry n A i j : (i < n)%nat -> (j < n)%nat -> mget (rand_pd n A) i j =
  (mget A i j + mget A j i) / 2 + (if Nat.eqb i j then Rsum n (fun k => Rabs ((mget A i k + mget A k i) / 2)) + 1 else 0).
Proof.
  intros Hi Hj. unfold rand_pd. cbv zeta. rewrite mget_mk, mget_mk by easy. destruct (Nat.eqb i j); [|reflexivity]. do 2 f_equal. apply Rsum_ext. intros k Hk. now rewrite mget_mk.
Qed.
Lemma rand_pd_sym n A : sym n (mget (rand_pd n A)).
Proof.
  intros i j Hi Hj. rewrite !rand_pd_entry by easy. rewrite (Nat.eqb_sym j i). destruct (Nat.eqb_spec i j) as [->|_]; [reflexivity|]. field.
Qed.
Lemma rand_pd_dominant n A : (forall i j, (i < n)%nat -> (j < n)%nat -> 0 <= mget A i j) -> forall x, nrm2 n x <= qf n (mget (rand_pd n A)) x.
Proof.
  intros HA x. rewrite <- (Rmult_1_l (nrm2 n x)). apply dominant; [apply rand_pd_sym|]. intros i Hi. rewrite rand_pd_entry, Nat.eqb_refl by easy.
  assert (0 <= (mget A i i + mget A i i) / 2) by (specialize (HA i i Hi Hi); lra).
  assert (Rsum n (fun j => if Nat.eqb i j then 0 else Rabs (mget (rand_pd n A) i j)) <= Rsum n (fun k => Rabs ((mget A i k + mget A k i) / 2))); [|lra].
  apply Rsum_le. intros j Hj. destruct (Nat.eqb i j) eqn:E; [apply Rabs_pos|]. rewrite rand_pd_entry, E by easy. rewrite Rplus_0_r. lra.
Qed.

(** ** exp_decr_toep *)

Lemma geo_qf r : 0 <= r <= 1 -> forall n x, Rsqr (Rsum n (fun i => r ^ i * x i)) <= qf n (fun i j => r ^ (max i j - min i j)) x.
Proof.
  intros Hr. induction n as [|n IH]; intros x; [unfold qf, bil, Rsqr; cbn; lra|].
  specialize (IH (fun i => x (S i))).
  assert (E : qf (S n) (fun i j => r ^ (max i j - min i j)) x =
    x 0%nat * x 0%nat + 2 * (x 0%nat * r * Rsum n (fun i => r ^ i * x (S i))) + qf n (fun i j => r ^ (max i j - min i j)) (fun i => x (S i))).
  { unfold qf, bil. rewrite (Rsum_S_l n (fun i => Rsum (S n) (fun j => x i * r ^ (max i j - min i j) * x j))).
    rewrite (Rsum_S_l n (fun j => x 0%nat * r ^ (max 0 j - min 0 j) * x j)).
    rewrite (Rsum_ext n (fun i => Rsum (S n) (fun j => x (S i) * r ^ (max (S i) j - min (S i) j) * x j))
      (fun i => x 0%nat * r * (r ^ i * x (S i)) + Rsum n (fun j => x (S i) * r ^ (max i j - min i j) * x (S j)))).
    2:{ intros i Hi. rewrite (Rsum_S_l n (fun j => x (S i) * r ^ (max (S i) j - min (S i) j) * x j)). f_equal.
        replace (max (S i) 0 - min (S i) 0)%nat with (S i) by lia. rewrite <- tech_pow_Rmult. ring. }
    rewrite Rsum_plus. rewrite (Rsum_ext n (fun j => x 0%nat * r ^ (max 0 (S j) - min 0 (S j)) * x (S j)) (fun i => x 0%nat * r * (r ^ i * x (S i)))).
    2:{ intros j Hj. replace (max 0 (S j) - min 0 (S j))%nat with (S j) by lia. rewrite <- tech_pow_Rmult. ring. }
    rewrite Rsum_scal_l. replace (max 0 0 - min 0 0)%nat with 0%nat by lia. rewrite pow_O. ring. }
  rewrite E. rewrite (Rsum_S_l n (fun i => r ^ i * x i)). rewrite pow_O.
  rewrite (Rsum_ext n (fun i => r ^ S i * x (S i)) (fun i => r * (r ^ i * x (S i)))) by (intros; rewrite <- tech_pow_Rmult; ring). rewrite Rsum_scal_l.
  cbv beta in IH. set (T := Rsum n (fun i => r ^ i * x (S i))) in *. unfold Rsqr in *.
  assert (r * r * (T * T) <= T * T). { pose proof (Rle_0_sqr T) as Q. unfold Rsqr in Q. assert (r * r <= 1) by nra. nra. }
  lra.
Qed.

Lemma geo_psd r n : 0 <= r <= 1 -> psd n (fun i j => r ^ (max i j - min i j)).
Proof. intros Hr x. eapply Rle_trans; [apply Rle_0_sqr|apply (geo_qf r Hr n x)]. Qed.

Lemma exp_toep u n i j : (i < n)%nat -> (j < n)%nat -> toep (exp_decr_toep u n) i j = (exp (- u)) ^ (max i j - min i j).
Proof.
  intros Hi Hj. unfold toep, exp_decr_toep. rewrite vget_tab by lia.
  set (d := (max i j - min i j)%nat). clearbody d. clear. induction d as [|d IH]; [cbn; rewrite Rmult_0_r; apply exp_0|].
  rewrite S_INR, Rmult_plus_distr_l, Rmult_1_r, exp_plus, IH. cbn. ring.
Qed.

(** ** The loops *)

Lemma iter_succ_r {A} k (f : A -> A) t : Nat.iter (S k) f t = Nat.iter k f (f t).
Proof. induction k as [|k IH]; [reflexivity|]. cbn [Nat.iter nat_rect] in *. unfold Nat.iter in *. cbn in *. now rewrite IH. Qed.

Section Loop.
  Variable eig_min : nat -> mx -> R.
  Variable n : nat.
  Hypothesis Hn : (0 < n)%nat.
  Hypothesis Heig : forall top, length top = n -> min_eig n (toep top) (eig_min n (la_toeplitz top)).

  Lemma smallest_ok top : length top = n -> exists lam, smallest_eig eig_min top = Ok lam /\ min_eig n (toep top) lam.
  Proof.
    intros L. unfold smallest_eig. destruct top as [|t [|t' top]]; cbn [length].
    - cbn in L. lia.
    - exists t. split; [reflexivity|]. rewrite <- L. cbn [length]. split.
      + intros x. unfold nrm2, qf, bil. cbn. unfold toep. cbn. lra.
      + exists (fun _ => 1). split; [exists 0%nat; split; [lia|lra]|]. intros i Hi. assert (i = 0)%nat by lia. subst i. cbn. unfold toep. cbn. lra.
    - exists (eig_min n (la_toeplitz (t :: t' :: top))). split; [rewrite <- L; reflexivity|]. now apply Heig.
  Qed.

  Lemma min_eig_psd F lam : min_eig n F lam -> (psd n F <-> 0 <= lam).
  Proof.
    intros [H [v Hv]]. split.
    - intros P. specialize (P v). rewrite (eig_qf _ _ _ _ Hv) in P. destruct Hv as [[i [Hi Ni]] _]. pose proof (nrm2_pos n v i Hi Ni). apply Rmult_le_reg_r with (nrm2 n v); lra.
    - intros L x. apply Rle_trans with (lam * nrm2 n x); [|apply H]. apply Rmult_le_pos; [exact L|apply nrm2_nonneg].
  Qed.

  Variable bump : R -> R.
  Definition iter_top (k : nat) (t : R) (rest : vec) : vec := Nat.iter k bump t :: rest.

  Lemma bump_exact t rest : length (t :: rest) = n -> forall k t0, t = t0 -> psd n (toep (iter_top k t rest)) ->
    exists k', (k' <= k)%nat /\ psd n (toep (iter_top k' t rest)) /\ (forall k0, (k0 < k')%nat -> ~ psd n (toep (iter_top k0 t rest))) /\
      forall fuel, (k' <= fuel)%nat -> bump_until eig_min fuel bump (t :: rest) = Some (Ok (iter_top k' t rest)).
  Proof.
    intros L k. revert t L. induction k as [|k IH]; intros t L t0 _ P.
    - exists 0%nat. split; [lia|]. split; [exact P|]. split; [lia|]. intros fuel _.
      destruct (smallest_ok (t :: rest) L) as [lam [E M]]. apply (min_eig_psd _ _ M) in P.
      destruct fuel; cbn [bump_until]; rewrite E; destruct (Rlt_dec lam 0); try lra; reflexivity.
    - destruct (smallest_ok (t :: rest) L) as [lam [E M]]. destruct (Rlt_dec lam 0) as [Hl|Hl].
      + destruct (IH (bump t)) with (t0 := bump t) as [k' [K1 [K2 [K3 K4]]]]; [exact L|reflexivity| |].
        { unfold iter_top in *. rewrite <- iter_succ_r. exact P. }
        exists (S k'). split; [lia|]. split; [unfold iter_top in *; rewrite iter_succ_r; exact K2|]. split.
        * intros [|k0] Hk.
          -- intros Q. apply (min_eig_psd _ _ M) in Q. lra.
          -- unfold iter_top in *. rewrite iter_succ_r. apply K3. lia.
        * intros [|fuel] Hf; [lia|]. cbn [bump_until]. rewrite E. destruct (Rlt_dec lam 0); [|lra]. rewrite K4 by lia. unfold iter_top. now rewrite iter_succ_r.
      + exists 0%nat. split; [lia|]. split; [apply (min_eig_psd _ _ M); lra|]. split; [lia|]. intros fuel _.
        destruct fuel; cbn [bump_until]; rewrite E; destruct (Rlt_dec lam 0); try lra; reflexivity.
  Qed.

  Lemma big_enough rest : length rest = (n - 1)%nat -> exists c, forall t, c <= t -> psd n (toep (t :: rest)).
  Proof.
    intros L. destruct (big_shift n (fun i j => if Nat.eqb i j then 0 else - toep (0 :: rest) i j)) as [c [Hc H]]. exists c. intros t Ht.
    specialize (H t Ht). intros x.
    assert (E : qf n (toep (t :: rest)) x = Rsum n (fun i => Rsum n (fun j => x i * ((if Nat.eqb i j then t else 0) - (if Nat.eqb i j then 0 else - toep (0 :: rest) i j)) * x j))).
    { unfold qf, bil. apply Rsum_ext. intros i Hi. apply Rsum_ext. intros j Hj. f_equal. f_equal. destruct (Nat.eqb_spec i j) as [->|N].
      - unfold toep. rewrite Nat.max_id, Nat.min_id, Nat.sub_diag. cbn. ring.
      - unfold toep. destruct (max i j - min i j)%nat eqn:D; [lia|]. cbn. ring. }
    rewrite E. destruct (existsb (fun i => if Req_EM_T (x i) 0 then false else true) (seq 0 n)) eqn:X.
    - apply Rlt_le, H. apply existsb_exists in X. destruct X as [i [Hi X]]. apply in_seq in Hi. exists i. split; [lia|]. now destruct (Req_EM_T (x i) 0).
    - rewrite Rsum_zero; [lra|]. intros i Hi. rewrite Rsum_zero; [reflexivity|]. intros j Hj. assert (x i = 0).
      { destruct (Req_EM_T (x i) 0) as [|N]; [assumption|]. exfalso. assert (existsb (fun i => if Req_EM_T (x i) 0 then false else true) (seq 0 n) = true); [|congruence].
        apply existsb_exists. exists i. split; [apply in_seq; lia|]. now destruct (Req_EM_T (x i) 0). }
      rewrite H0. ring.
  Qed.

  Lemma bump_terminates t rest : length (t :: rest) = n -> (forall c, exists k, c <= Nat.iter k bump t) ->
    exists k, psd n (toep (iter_top k t rest)) /\ (forall k0, (k0 < k)%nat -> ~ psd n (toep (iter_top k0 t rest))) /\
      forall fuel, (k <= fuel)%nat -> bump_until eig_min fuel bump (t :: rest) = Some (Ok (iter_top k t rest)).
  Proof.
    intros L G. destruct (big_enough rest) as [c Hc]; [cbn in L; lia|]. destruct (G c) as [k Hk].
    destruct (bump_exact t rest L k t eq_refl (Hc _ Hk)) as [k' [_ H]]. exists k'. exact H.
  Qed.
End Loop.

Lemma INR_unbounded x : exists k, x <= INR k.
Proof. destruct (nfloor_ex (Rmax x 0) (Rmax_r x 0)) as [k [_ H]]. exists (S k). rewrite S_INR. pose proof (Rmax_l x 0). lra. Qed.
Lemma iter_plus1 k t : Nat.iter k (fun t => t + 1) t = t + INR k.
Proof. induction k as [|k IH]; [cbn; ring|]. rewrite S_INR. cbn [Nat.iter nat_rect]. unfold Nat.iter in IH. rewrite IH. ring. Qed.
Lemma iter_times2 k t : Nat.iter k (fun t => t * 2) t = t * 2 ^ k.
Proof. induction k as [|k IH]; [cbn; ring|]. cbn [Nat.iter nat_rect pow]. unfold Nat.iter in IH. rewrite IH. ring. Qed.
Lemma plus1_grows t c : exists k, c <= Nat.iter k (fun t => t + 1) t.
Proof. destruct (INR_unbounded (c - t)) as [k Hk]. exists k. rewrite iter_plus1. lra. Qed.
Lemma times2_grows t c : 0 < t -> exists k, c <= Nat.iter k (fun t => t * 2) t.
Proof.
  intros Ht. destruct (INR_unbounded (c / t)) as [k Hk]. exists k. rewrite iter_times2. assert (INR k <= 2 ^ k).
  { clear. induction k as [|k IH]; [cbn; lra|]. rewrite S_INR. cbn [pow]. assert (1 <= 2 ^ k) by (apply pow_R1_Rle; lra). lra. }
  apply Rle_trans with (t * (c / t)); [right; field; lra|]. apply Rmult_le_compat_l; lra.
Qed.

Definition desc (l : vec) : Prop := forall i j, (i <= j)%nat -> (j < length l)%nat -> vget l j <= vget l i.
Lemma insert_perm x l : Permutation (x :: l) (insert_desc x l).
Proof. induction l as [|y l IH]; cbn [insert_desc]; [apply Permutation_refl|]. destruct (Rle_dec y x); [apply Permutation_refl|]. eapply perm_trans; [apply perm_swap|]. now constructor. Qed.
Lemma sort_perm l : Permutation l (sort_desc l).
Proof. induction l as [|x l IH]; [constructor|]. cbn [sort_desc fold_right]. eapply perm_trans; [|apply insert_perm]. now constructor. Qed.

Lemma desc_cons x l : desc (x :: l) <-> (forall y, In y l -> y <= x) /\ desc l.
Proof.
  split.
  - intros H. split.
    + intros y Hy. destruct (In_nth l y 0 Hy) as [i [Hi E]]. specialize (H 0%nat (S i) ltac:(lia) ltac:(cbn; lia)). cbn in H. rewrite E in H. exact H.
    + intros i j Hij Hj. exact (H (S i) (S j) ltac:(lia) ltac:(cbn; lia)).
  - intros [H1 H2] [|i] [|j] Hij Hj; try lia; cbn [vget nth] in *; [lra| |apply (H2 i j); cbn in Hj; lia]. apply H1. apply nth_In. cbn in Hj. lia.
Qed.
Lemma insert_sorted x l : desc l -> desc (insert_desc x l).
Proof.
  induction l as [|y l IH]; intros H; cbn [insert_desc].
  - apply desc_cons. split; [easy|exact H].
  - destruct (Rle_dec y x) as [L|L].
    + apply desc_cons. split; [|exact H]. apply desc_cons in H. destruct H as [H _]. intros z [<-|Hz]; [exact L|]. specialize (H z Hz). lra.
    + apply desc_cons in H. destruct H as [H1 H2]. apply desc_cons. split; [|now apply IH]. intros z Hz.
      apply (Permutation_in _ (Permutation_sym (insert_perm x l))) in Hz. destruct Hz as [<-|Hz]; [lra|now apply H1].
Qed.
Lemma sort_sorted l : desc (sort_desc l).
Proof. induction l as [|x l IH]; [intros i j _ H; cbn in H; lia|]. now apply insert_sorted. Qed.

(** ** BasicModel *)

Lemma vget_map (f : R -> R) l i : (i < length l)%nat -> vget (map f l) i = f (vget l i).
Proof. intros H. unfold vget. rewrite (nth_indep _ 0 (f 0)) by (rewrite map_length; exact H). apply map_nth. Qed.


Section BasicProofs.
  Variable solve_toeplitz : vec -> vec -> result vec.
  Variable k : kern.
  Variable dists : ndarr.
  Variable n : nat.
  Variable Y : vec.
  Hypothesis Hpos : positive k.
  Hypothesis Hper : no_tiny_period k.
  Hypothesis Hsh : a_shape dists = [n].
  Hypothesis Hlen : length (a_data dists) = n.
  Hypothesis HY : length Y = n.
  Let top := map (k_doc k) (a_data dists).
  Hypothesis Hpd : pos_definite n (toep top).
  Hypothesis Hsolve : solves_exactly n (toep top) (solve_toeplitz top).

  Lemma top_length : length top = n.
  Proof. unfold top. now rewrite map_length. Qed.

  Lemma shape_ne : a_shape dists <> [].
  Proof. rewrite Hsh. discriminate. Qed.

  Lemma basic_K : (let! v := from_dist k (Arr dists) in finite v) = Ok top.
  Proof. rewrite from_dist_arr by (try assumption; apply shape_ne). reflexivity. Qed.

  Definition grad_row (j : nat) : vec := map (fun d => nth j (k_grad k d) 0) (a_data dists).
  Lemma grad_row_length j : length (grad_row j) = n.
  Proof. unfold grad_row. now rewrite map_length. Qed.

  Lemma top_derive j : (j < length (params k))%nat ->
    mderive n (fun s => toep (map (k_doc (with_param k j s)) (a_data dists))) (nth j (params k) 0) (toep (grad_row j)).
  Proof.
    intros Hj i i' Hi Hi'. unfold toep. set (d := (max i i' - min i i')%nat). assert (d < n)%nat by (unfold d; lia).
    apply (is_derive_ext (fun s => k_doc (with_param k j s) (vget (a_data dists) d))).
    { intros s. now rewrite vget_map by lia. }
    unfold grad_row. rewrite (vget_map (fun d => nth j (k_grad k d) 0)) by lia.
    apply k_grad_derive; assumption.
  Qed.

  Lemma basic_changed : exists k' a X, basic_parameters_changed solve_toeplitz k dists Y = Ok k' /\ same_class k k' /\
    solves n (toep top) a (vget Y) /\ is_inv n (toep top) X /\
    params k' = tab (length (params k)) (fun j => 1 / 2 *
      (Rsum n (fun i => Rsum n (fun l => a i * toep (grad_row j) i l * a l)) - Rsum n (fun i => Rsum n (fun l => X i l * toep (grad_row j) i l)))).
  Proof.
    destruct (Hsolve Y HY) as [a [Ea [La Sa]]].
    assert (HP : pivots n (toep top)) by (apply pos_definite_pivots; [apply toep_sym|exact Hpd]).
    destruct (inv_ex n (toep top) HP) as [X HX].
    set (gv := fun j => 1 / 2 *
      (Rsum n (fun i => Rsum n (fun l => vget a i * toep (grad_row j) i l * vget a l)) - Rsum n (fun i => Rsum n (fun l => X i l * toep (grad_row j) i l)))).
    destruct (update_gradient_ok k (tab (length (params k)) gv)) as [k' [E1 [E2 E3]]]; [apply tab_length|].
    exists k', (vget a), X. split; [|auto].
    unfold basic_parameters_changed. rewrite from_dist_arr by (try assumption; apply shape_ne). cbn [bind finite a_data]. fold top. rewrite Ea. cbn [bind].
    rewrite kernel_gradient_arr by (try assumption; apply shape_ne). cbn [bind].
    match goal with |- (let! _ := ?m in _) = _ => assert (M : m = Ok (tab (length (params k)) gv)) end; [|rewrite M; exact E1].
    unfold tab at 2. rewrite map_result_map. apply map_result_tab. intros j Hj. cbn [finite bind a_data]. fold (grad_row j). cbv zeta. rewrite grad_row_length.
    destruct (map_result_ex (fun l => solve_toeplitz top (tab n (fun i => mget (la_toeplitz (grad_row j)) i l)))
      (fun l x => solves n (toep top) (vget x) (fun i => toep (grad_row j) i l)) (seq 0 n)) as [cols [Ec Hc]].
    { intros l Hl. apply in_seq in Hl. destruct (Hsolve (tab n (fun i => mget (la_toeplitz (grad_row j)) i l))) as [x [Ex [_ Sx]]]; [apply tab_length|].
      exists x. split; [exact Ex|]. intros i Hi. rewrite Sx by exact Hi. rewrite vget_tab by exact Hi. apply toeplitz_entry; rewrite grad_row_length; lia. }
    rewrite Ec. cbn [bind]. f_equal. unfold gv. f_equal. rewrite <- Rsum_minus. apply Rsum_ext. intros i Hi. f_equal.
    - rewrite mget_mk by exact Hi. rewrite <- Rsum_scal_l. apply Rsum_ext. intros l Hl. rewrite toeplitz_entry by (rewrite grad_row_length; lia). ring.
    - assert (Hci : solves n (toep top) (vget (nth i cols [])) (fun l => toep (grad_row j) l i)).
      { assert (Hf : forall l (cs : list vec), Forall2 (fun l x => solves n (toep top) (vget x) (fun i => toep (grad_row j) i l)) l cs ->
          forall p, (p < length l)%nat -> solves n (toep top) (vget (nth p cs [])) (fun i => toep (grad_row j) i (nth p l 0%nat))).
        { induction 1 as [|l0 x0 l cs H0 _ IH]; intros p Hp; [cbn in Hp; lia|]. destruct p as [|p]; [exact H0|]. cbn [nth]. apply IH. cbn in Hp. lia. }
        specialize (Hf _ _ Hc i). rewrite seq_length, seq_nth in Hf by exact Hi. exact (Hf Hi). }
      rewrite (solves_unique n _ _ _ _ HP Hci (solves_inv n _ X _ (toep_sym n top) HX) i Hi).
      apply Rsum_ext. intros l Hl. f_equal. exact (toep_sym n (grad_row j) l i Hl Hi).
  Qed.

  Lemma basic_lik : exists z, solves n (toep top) z (vget Y) /\ basic_log_likelihood solve_toeplitz k dists Y =
    Ok (- (1 / 2) * Rsum n (fun i => vget Y i * z i) - 1 / 2 * ln (det n (fun i j => toep top i j + (if Nat.eqb i j then 1 / 10 ^ 10 else 0)))).
  Proof.
    destruct (Hsolve Y HY) as [a [Ea [La Sa]]].
    unfold basic_log_likelihood. rewrite from_dist_arr by (try assumption; apply shape_ne). cbn [bind finite a_data]. fold top. rewrite Ea. cbn [bind]. cbv zeta. rewrite top_length.
    match goal with |- context [Rlt_dec 0 ?d] => destruct (Rlt_dec 0 d) as [|N] end.
    { exists (vget a). split; [exact Sa|]. unfold np_vdot. rewrite HY. do 4 f_equal. apply det_ext. intros i j Hi Hj.
      rewrite toeplitz_entry by (rewrite top_length; assumption). destruct (Nat.eqb i j); ring. }
    exfalso. apply N. clear N.
    apply det_pos. apply pos_definite_pivots.
    - intros i j Hi Hj. rewrite !toeplitz_entry by (rewrite top_length; assumption). rewrite (toep_sym n top i j), (Nat.eqb_sym i j) by assumption. reflexivity.
    - intros x Hx. eapply Rlt_le_trans; [apply (Hpd x Hx)|].
      rewrite <- (Rplus_0_r (Rsum n _)) at 1.
      replace (Rsum n (fun i => Rsum n (fun j => x i * (mget (la_toeplitz top) i j + 1 / 10 ^ 10 * (if Nat.eqb i j then 1 else 0)) * x j)))
        with (Rsum n (fun i => Rsum n (fun j => x i * toep top i j * x j)) + Rsum n (fun i => 1 / 10 ^ 10 * (x i * x i))).
      + apply Rplus_le_compat_l. apply Rsum_nonneg. intros i Hi. apply Rmult_le_pos; [|apply Rle_0_sqr]. apply Rlt_le, Rdiv_lt_0_compat; [lra|apply pow_lt; lra].
      + rewrite <- Rsum_plus. apply Rsum_ext. intros i Hi. rewrite <- (Rsum_delta n i (fun j => 1 / 10 ^ 10 * (x i * x j))) at 1 by easy.
        rewrite <- Rsum_plus. apply Rsum_ext. intros j Hj. rewrite toeplitz_entry by (rewrite top_length; assumption). rewrite (Nat.eqb_sym j i). destruct (Nat.eqb i j); ring.
  Qed.
End BasicProofs.
