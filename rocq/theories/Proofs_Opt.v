(** Proofs about the optimiser loop and the iterative solver. *)

From Coq Require Import Reals List Arith ZArith Lia Lra Bool.
From Verif Require Import Base NDArray PSD Model_Util Proofs_Util Model_Linalg Spec_Linalg Proofs_Linalg Model_Interp Model_Kern Model_FK Model_Grid Model_Lik Model_GP Model_State Model_Opt Spec_Opt.
Import ListNotations.
Open Scope R_scope.

Lemma Rmax_or a b : Rmax a b = a \/ Rmax a b = b.
Proof. unfold Rmax. destruct (Rle_dec a b); auto. Qed.
Lemma fold_max (l : list R) a : let m := fold_left (fun m y => Rmax m (Rabs y)) l a in
  a <= m /\ (forall x, In x l -> Rabs x <= m) /\ (m = a \/ exists x, In x l /\ Rabs x = m).
Proof.
  revert a. induction l as [|x l IH]; intros a; cbn [fold_left].
  - repeat split; [apply Rle_refl|intros x []|now left].
  - destruct (IH (Rmax a (Rabs x))) as (H1 & H2 & H3). pose proof (Rmax_l a (Rabs x)). pose proof (Rmax_r a (Rabs x)). split; [lra|]. split.
    + intros y [<-|Hy]; [lra|now apply H2].
    + destruct H3 as [H3|[y [Hy E]]]; [|right; exists y; split; [now right|exact E]]. rewrite H3.
      destruct (Rmax_or a (Rabs x)) as [E|E]; [now left|right; exists x; split; [now left|congruence]].
Qed.
Lemma inf_norm_spec v : v <> [] -> exists m, inf_norm v = Ok m /\ is_max_abs v m.
Proof.
  destruct v as [|x l]; [congruence|]. intros _. eexists. split; [reflexivity|]. destruct (fold_max l (Rabs x)) as (H1 & H2 & H3). split.
  - intros y [<-|Hy]; [exact H1|now apply H2].
  - destruct H3 as [H3|[y [Hy E]]]; [exists x; split; [now left|congruence]|exists y; split; [now right|exact E]].
Qed.
Lemma max_abs_unique v m m' : is_max_abs v m -> is_max_abs v m' -> m = m'.
Proof. intros [A [x [Hx Ex]]] [B [y [Hy Ey]]]. specialize (A y Hy). specialize (B x Hx). lra. Qed.
Lemma max_abs_nonneg v m : is_max_abs v m -> 0 <= m.
Proof. intros [_ [x [_ <-]]]. apply Rabs_pos. Qed.

Lemma peak_unique norm i m m' : is_peak norm i m -> is_peak norm i m' -> m = m'.
Proof. intros [A [x [Hx Ex]]] [B [y [Hy Ey]]]. specialize (A y Hy). specialize (B x Hx). lra. Qed.
Lemma peak_step norm i m : is_peak norm i m \/ i = 0%nat /\ m = 0 -> 0 <= norm (S i) -> is_peak norm (S i) (Rmax (norm (S i)) m).
Proof.
  intros H H0. pose proof (Rmax_l (norm (S i)) m). pose proof (Rmax_r (norm (S i)) m). destruct H as [[A [x [Hx Ex]]]|[-> ->]].
  - split.
    + intros j Hj. destruct (Nat.eq_dec j (S i)) as [->|N]; [exact H1 || lra|]. specialize (A j ltac:(lia)). lra.
    + destruct (Rmax_or (norm (S i)) m) as [E|E]; [exists (S i); split; [lia|congruence]|exists x; split; [lia|congruence]].
  - split.
    + intros j Hj. assert (j = 1%nat) as -> by lia. lra.
    + exists 1%nat. split; [lia|]. symmetry. now apply Rmax_left.
Qed.
Lemma drops_fun r norm i n n' : drops r norm i n -> drops r norm i n' -> n = n'.
Proof.
  revert n n'. induction i as [|i IH]; intros n n' H H'; inversion H; inversion H'; subst; try tauto; auto using f_equal.
Qed.

Section Ada.
  Variables (s : ada) (grad : nat -> vec) (norm : nat -> R).
  Hypothesis Hg : forall i, (1 <= i)%nat -> is_max_abs (grad i) (norm i).

  Lemma norm_ok i : (1 <= i)%nat -> inf_norm (grad i) = Ok (norm i) /\ 0 <= norm i.
  Proof.
    intros Hi. pose proof (Hg i Hi) as H. split; [|exact (max_abs_nonneg _ _ H)].
    destruct (inf_norm_spec (grad i)) as [m [E Hm]]; [destruct H as [_ [x [Hx _]]]; now destruct (grad i)|].
    rewrite E. f_equal. exact (max_abs_unique _ _ _ Hm H).
  Qed.

  Lemma loop_trace k : forall i m n d, (forall j, (i < j < k + i)%nat -> ~ stop s norm j) -> (0 < k)%nat -> stop s norm (k + i) ->
    is_peak norm i m \/ i = 0%nat /\ m = 0 -> drops (min_grad_ratio s) norm i n -> d = (permitted_drops s - Z.of_nat n)%Z ->
    (forall fuel, (k <= fuel)%nat -> ada_loop s grad fuel (S i) m d = Some (concat (map (fun i => [Iterate i; Callback]) (seq (S i) k)), Ok tt)) /\
    (forall fuel, (fuel < k)%nat -> ada_loop s grad fuel (S i) m d = None).
  Proof.
    induction k as [|k IH]; intros i m n d Hno Hk Hst Hm Hd ->; [lia|].
    destruct (norm_ok (S i)) as [En H0]; [lia|]. pose proof (peak_step norm i m Hm H0) as Hp.
    set (m' := Rmax (norm (S i)) m) in *.
    assert (HD : exists n', drops (min_grad_ratio s) norm (S i) n' /\
       (if Rlt_dec (norm (S i)) (min_grad_ratio s * m') then (permitted_drops s - Z.of_nat n - 1)%Z else (permitted_drops s - Z.of_nat n)%Z) = (permitted_drops s - Z.of_nat n')%Z).
    { destruct (Rlt_dec (norm (S i)) (min_grad_ratio s * m')) as [L|L].
      - exists (S n). split; [apply drops_yes; [exists m'; auto|exact Hd]|lia].
      - exists n. split; [apply drops_no; [|exact Hd]|reflexivity]. intros [m2 [Hm2 L2]]. rewrite (peak_unique _ _ _ _ Hm2 Hp) in L2. lra. }
    destruct HD as [n' [Hd' Ed]].
    assert (HS : stop s norm (S i) <-> ((max_it s <=? Z.of_nat (S i)) || (permitted_drops s - Z.of_nat n' <=? 0))%Z%bool = true).
    { rewrite orb_true_iff, !Z.leb_le. unfold stop. split; (intros [H|H]; [now left|right]).
      - destruct H as [n2 [H2 L2]]. rewrite (drops_fun _ _ _ _ _ H2 Hd') in L2. lia.
      - exists n'. split; [exact Hd'|lia]. }
    destruct (Nat.eq_dec k 0) as [->|Nk].
    - split; [|intros fuel Hf; assert (fuel = 0%nat) as -> by lia; reflexivity]. intros [|fuel] Hf; [lia|]. cbn [ada_loop]. rewrite En. fold m'. cbv zeta. rewrite Ed, (proj1 HS) by exact Hst. reflexivity.
    - assert (NS : ((max_it s <=? Z.of_nat (S i)) || (permitted_drops s - Z.of_nat n' <=? 0))%Z%bool = false).
      { apply not_true_is_false. rewrite <- HS. apply Hno. lia. }
      destruct (IH (S i) m' n' (permitted_drops s - Z.of_nat n')%Z) as [I1 I2]; auto; [intros j Hj; apply Hno; lia|lia|replace (k + S i)%nat with (S k + i)%nat by lia; exact Hst|].
      split; intros [|fuel] Hf; try lia; try reflexivity; cbn [ada_loop]; rewrite En; fold m'; cbv zeta; rewrite Ed, NS.
      + rewrite I1 by lia. reflexivity.
      + rewrite I2 by lia. reflexivity.
  Qed.

  Lemma drops_ex i : exists n, drops (min_grad_ratio s) norm i n.
  Proof.
    assert (P : forall i, exists m, is_peak norm (S i) m).
    { induction i0 as [|j [m Hm]]; [exists (norm 1%nat); split; [intros j Hj; assert (j = 1%nat) as -> by lia; lra|exists 1%nat; split; [lia|reflexivity]]|].
      eexists. apply peak_step; [left; exact Hm|]. apply norm_ok. lia. }
    induction i as [|i [n IH]]; [exists 0%nat; constructor|]. destruct (P i) as [m Hm].
    destruct (Rlt_dec (norm (S i)) (min_grad_ratio s * m)) as [L|L].
    - exists (S n). apply drops_yes; [exists m; auto|exact IH].
    - exists n. apply drops_no; [|exact IH]. intros [m2 [Hm2 L2]]. rewrite (peak_unique _ _ _ _ Hm2 Hm) in L2. lra.
  Qed.
  Lemma stop_dec i : stop s norm i \/ ~ stop s norm i.
  Proof.
    destruct (Z_le_dec (max_it s) (Z.of_nat i)) as [L|L]; [left; now left|]. destruct (drops_ex i) as [n Hn].
    destruct (Z_le_dec (permitted_drops s) (Z.of_nat n)) as [L2|L2]; [left; right; eauto|]. right. intros [H|[n' [H' L']]]; [tauto|].
    rewrite (drops_fun _ _ _ _ _ H' Hn) in L'. tauto.
  Qed.
  Lemma stop_below N : (exists j, (1 <= j < N)%nat /\ stop s norm j) \/ forall j, (1 <= j < N)%nat -> ~ stop s norm j.
  Proof.
    induction N as [|N [[j [Hj Hs]]|H]]; [right; intros j Hj; lia|left; exists j; split; [lia|exact Hs]|].
    destruct (stop_dec N) as [HS|HS].
    - destruct N as [|N]; [right; intros j Hj; lia|]. left. exists (S N). split; [lia|exact HS].
    - right. intros j Hj. destruct (Nat.eq_dec j N) as [->|Ne]; [exact HS|apply H; lia].
  Qed.
  Lemma first_stop N : (1 <= N)%nat -> stop s norm N -> exists k, (1 <= k <= N)%nat /\ stop s norm k /\ forall j, (1 <= j < k)%nat -> ~ stop s norm j.
  Proof.
    induction N as [N IH] using lt_wf_ind. intros HN HS.
    destruct (stop_below N) as [[j [Hj Hs]]|H].
    - destruct (IH j) as [k [Hk H]]; [lia|lia|exact Hs|]. exists k. split; [lia|exact H].
    - exists N. split; [lia|]. split; [exact HS|exact H].
  Qed.
End Ada.

(** ** Iterative.solve *)

Lemma norm2_vsub n (u v : vec) : length u = n -> length v = n -> norm2 (vsub u v) = sqrt (Rsum n (fun i => (vget u i - vget v i) ^ 2)).
Proof.
  intros Hu Hv. unfold norm2, vsub. f_equal. rewrite map_map, lsum_Rsum, map_length, combine_length, Hu, Hv, Nat.min_id.
  apply Rsum_ext. intros i Hi. unfold vget.
  rewrite (nth_indep _ _ ((fun p => (fst p - snd p) * (fst p - snd p)) (0, 0))) by (rewrite map_length, combine_length; lia).
  rewrite (map_nth (fun p : R * R => (fst p - snd p) * (fst p - snd p))), combine_nth by (rewrite Hu, Hv; reflexivity). cbn [fst snd]. ring.
Qed.

Section Solve.
  Variables (n : nat) (F : nat -> nat -> R) (K : Mat).
  Hypothesis HK : represents K (mk_den n n F).
  Let op := fst (as_linear_operator (mk_obj K None)).

  Lemma residual_gap y x : length y = n -> length x = n -> residual op y x = Ok (gap n F y x).
  Proof.
    intros Hy Hx. unfold residual, op. cbn [as_linear_operator o_op o_mat fst lo_matvec].
    rewrite (rep_mv _ _ HK) by exact Hx. unfold d_apply, mat_apply. cbn [d_r d_c d_f].
    rewrite tab_length, Hy, Nat.eqb_refl. f_equal. rewrite (norm2_vsub n) by (auto; apply tab_length). unfold gap. f_equal.
    apply Rsum_ext. intros i Hi. rewrite vget_tab by exact Hi. reflexivity.
  Qed.
  Lemma callbacks_spec y tol : length y = n -> forall xs ctr, Forall (fun x => length x = n) xs ->
    (callbacks op y tol ctr xs = Ok ((ctr + length xs)%nat, None) /\
     forall c x, nth_error xs c = Some x -> (ctr + c + 1) mod 100 = 0%nat -> tol <= gap n F y x) \/
    (exists c x, callbacks op y tol ctr xs = Ok ((ctr + c + 1)%nat, Some x) /\ nth_error xs c = Some x /\ (ctr + c + 1) mod 100 = 0%nat /\ gap n F y x < tol /\
     forall c' x', (c' < c)%nat -> nth_error xs c' = Some x' -> (ctr + c' + 1) mod 100 = 0%nat -> tol <= gap n F y x').
  Proof.
    intros Hy. induction xs as [|x xs IH]; intros ctr H.
    - left. split; [cbn [callbacks length]; now rewrite Nat.add_0_r|]. intros [|c] x E; discriminate E.
    - pose proof (Forall_inv H) as Hx. pose proof (Forall_inv_tail H) as Hxs. cbv beta in Hx. specialize (IH (S ctr) Hxs).
      assert (Hgo : (S ctr mod 100 = 0%nat -> tol <= gap n F y x) -> 
        callbacks op y tol ctr (x :: xs) = callbacks op y tol (S ctr) xs /\
        forall c' x', nth_error (x :: xs) c' = Some x' -> (ctr + c' + 1) mod 100 = 0%nat -> tol <= gap n F y x' \/ (exists c, c' = S c /\ nth_error xs c = Some x')).
      { intros G. split.
        - cbn [callbacks]. destruct (Nat.eqb_spec (S ctr mod 100) 0) as [E|E]; [|reflexivity].
          rewrite residual_gap by auto. cbn [bind]. destruct (Rlt_dec (gap n F y x) tol) as [L|L]; [specialize (G E); lra|reflexivity].
        - intros [|c'] x' E1 E2; [|right; now exists c']. injection E1 as <-. left. apply G. now replace (S ctr) with (ctr + 0 + 1)%nat by lia. }
      destruct (Nat.eq_dec (S ctr mod 100) 0) as [E|E]; [destruct (Rlt_dec (gap n F y x) tol) as [L|L]|].
      + right. exists 0%nat, x. cbn [callbacks]. rewrite E. cbn [Nat.eqb]. rewrite residual_gap by auto. cbn [bind].
        destruct (Rlt_dec (gap n F y x) tol) as [_|]; [|tauto]. replace (ctr + 0 + 1)%nat with (S ctr) by lia. repeat split; auto. intros; lia.
      + destruct (Hgo ltac:(intros; lra)) as [E1 E2]. rewrite E1. destruct IH as [[I1 I2]|(c & x0 & I1 & I2 & I3 & I4 & I5)].
        * left. rewrite I1. split; [do 2 f_equal; cbn [length]; lia|]. intros c x' Ec Em. destruct (E2 c x' Ec Em) as [?|[c1 [-> Ec1]]]; [assumption|].
          apply (I2 c1 x' Ec1). now replace (S ctr + c1 + 1)%nat with (ctr + S c1 + 1)%nat by lia.
        * right. exists (S c), x0. rewrite I1. replace (ctr + S c + 1)%nat with (S ctr + c + 1)%nat by lia. repeat split; auto.
          intros c' x' Lc Ec Em. destruct (E2 c' x' Ec Em) as [?|[c1 [-> Ec1]]]; [assumption|].
          apply (I5 c1 x'); [lia|exact Ec1|]. now replace (S ctr + c1 + 1)%nat with (ctr + S c1 + 1)%nat by lia.
      + destruct (Hgo ltac:(intros; lia)) as [E1 E2]. rewrite E1. destruct IH as [[I1 I2]|(c & x0 & I1 & I2 & I3 & I4 & I5)].
        * left. rewrite I1. split; [do 2 f_equal; cbn [length]; lia|]. intros c x' Ec Em. destruct (E2 c x' Ec Em) as [?|[c1 [-> Ec1]]]; [assumption|].
          apply (I2 c1 x' Ec1). now replace (S ctr + c1 + 1)%nat with (ctr + S c1 + 1)%nat by lia.
        * right. exists (S c), x0. rewrite I1. replace (ctr + S c + 1)%nat with (S ctr + c + 1)%nat by lia. repeat split; auto.
          intros c' x' Lc Ec Em. destruct (E2 c' x' Ec Em) as [?|[c1 [-> Ec1]]]; [assumption|].
          apply (I5 c1 x'); [lia|exact Ec1|]. now replace (S ctr + c1 + 1)%nat with (ctr + S c1 + 1)%nat by lia.
  Qed.

  Variables (method : bool -> linop -> vec -> R -> nat -> krylov) (y : vec) (minres : bool) (tol : R).
  Hypothesis Hy : length y = n.
  Let t := method minres op y (Rmin (/ 10 ^ 10) tol) n.
  Hypothesis Ht : sized n t.

  Lemma mult100 c : c mod 100 = 0%nat <-> exists q, c = (100 * q)%nat.
  Proof.
    split; [intros E; exists (c / 100)%nat; pose proof (Nat.div_mod c 100 ltac:(lia)); lia|]. intros [q ->]. rewrite Nat.mul_comm. apply Nat.mod_mul. lia.
  Qed.

  Lemma solve_spec :
    (iterative_solve method K y minres tol =
       (let! (x, succ) := k_result t in
        Ok (mk_solved x (length (k_iterates t)) (gap n F y x) (orb (if Rlt_dec tol (gap n F y x) then true else false) (negb (Z.eqb succ 0))))) /\
     forall c x, ~ interrupts n F y tol t c x) \/
    (exists c x, iterative_solve method K y minres tol = Ok (mk_solved x c (gap n F y x) false) /\ interrupts n F y tol t c x /\
     forall c' x', (c' < c)%nat -> ~ interrupts n F y tol t c' x').
  Proof.
    destruct Ht as [H1 H2]. unfold iterative_solve. cbv zeta. rewrite (rep_shape _ _ HK). cbn [fst d_r].
    change (fst (as_linear_operator (mk_obj K None))) with op. change (method minres op y (Rmin (/ 10 ^ 10) tol) n) with t.
    destruct (callbacks_spec y tol Hy (k_iterates t) 0 H1) as [[E N]|(c & x & E & Ex & Em & Eg & N)]; rewrite E; cbn [bind].
    - left. split.
      + destruct (k_result t) as [[x succ]|e] eqn:Er; [|reflexivity]. cbn [bind]. rewrite residual_gap by (auto; exact (H2 _ _ eq_refl)). reflexivity.
      + intros c x (A & B & C & D). apply mult100 in C. specialize (N (c - 1)%nat x A). replace (0 + (c - 1) + 1)%nat with c in N by lia. specialize (N C). lra.
    - right. assert (Hx : length x = n) by (rewrite Forall_forall in H1; apply H1; exact (nth_error_In _ _ Ex)).
      exists (c + 1)%nat, x. rewrite residual_gap by auto. cbn [bind]. replace (0 + c + 1)%nat with (c + 1)%nat in * by lia. split; [|split].
      + destruct (Rlt_dec tol (gap n F y x)); [lra|]. reflexivity.
      + split; [now replace (c + 1 - 1)%nat with c by lia|]. split; [lia|]. split; [now apply mult100|exact Eg].
      + intros c' x' L (A & B & C & D). apply mult100 in C. specialize (N (c' - 1)%nat x' ltac:(lia) A). replace (0 + (c' - 1) + 1)%nat with c' in N by lia. specialize (N C). lra.
  Qed.
End Solve.

(** Residual and error. *)
Lemma coercive_error n F y x z s : 0 < s ->
  (forall v, length v = n -> s * Rsum n (fun i => vget v i ^ 2) <= Rsum n (fun i => Rsum n (fun j => vget v i * F i j * vget v j))) ->
  (forall i, (i < n)%nat -> Rsum n (fun j => F i j * vget z j) = vget y i) ->
  s * dist2 n x z <= gap n F y x.
Proof.
  intros Hs HF Hz. set (e := fun i => vget x i - vget z i). set (r := fun i => vget y i - Rsum n (fun j => F i j * vget x j)).
  assert (He : Rsum n (fun i => Rsum n (fun j => e i * F i j * e j)) = - Rsum n (fun i => e i * r i)).
  { rewrite <- Rsum_opp. apply Rsum_ext. intros i Hi. unfold r. rewrite <- (Hz i Hi), <- Rsum_minus.
    transitivity (e i * Rsum n (fun j => F i j * e j)); [rewrite <- Rsum_scal_l; apply Rsum_ext; intros; ring|].
    rewrite Ropp_mult_distr_r. f_equal. rewrite <- Rsum_opp. apply Rsum_ext. intros. unfold e. ring. }
  assert (H1 : s * Rsum n (fun i => e i ^ 2) <= - Rsum n (fun i => e i * r i)).
  { rewrite <- He. specialize (HF (tab n e) (tab_length _ _)).
    rewrite (Rsum_ext n _ (fun i => e i ^ 2)) in HF by (intros i Hi; now rewrite vget_tab).
    rewrite (Rsum_ext n (fun i => Rsum n _) (fun i => Rsum n (fun j => e i * F i j * e j))) in HF; [exact HF|].
    intros i Hi. apply Rsum_ext. intros j Hj. now rewrite !vget_tab. }
  assert (H2 : forall a, 0 <= a * a * Rsum n (fun i => e i ^ 2) + 2 * a * Rsum n (fun i => e i * r i) + Rsum n (fun i => r i ^ 2)).
  { intros a. rewrite <- (Rsum_scal_l n (a * a)), <- (Rsum_scal_l n (2 * a)), <- !Rsum_plus. apply Rsum_nonneg. intros i Hi.
    replace (a * a * e i ^ 2 + 2 * a * (e i * r i) + r i ^ 2) with (Rsqr (a * e i + r i)) by (unfold Rsqr; ring). apply Rle_0_sqr. }
  assert (P : 0 <= Rsum n (fun i => e i ^ 2)) by (apply Rsum_nonneg; intros; apply pow2_ge_0).
  unfold dist2, gap. fold r. replace (s * sqrt (Rsum n (fun i => (vget x i - vget z i) ^ 2))) with (sqrt (s * s * Rsum n (fun i => e i ^ 2))).
  - apply sqrt_le_1_alt. change (Rsum n (fun i => (vget y i - Rsum n (fun j => F i j * vget x j)) ^ 2)) with (Rsum n (fun i => r i ^ 2)).
    specialize (H2 s). set (A := Rsum n (fun i => e i ^ 2)) in *. set (B := Rsum n (fun i => e i * r i)) in *.
    assert (s * (s * A) <= s * - B) by (apply Rmult_le_compat_l; lra). lra.
  - rewrite sqrt_mult by (try apply Rle_0_sqr; auto; apply Rmult_le_pos; lra). rewrite sqrt_square by lra. reflexivity.
Qed.
