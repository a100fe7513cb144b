(** Properties of the optimiser loop and of the iterative solver. *)

From Coq Require Import Reals List Arith ZArith Lia Lra Bool.
From Verif Require Import Base NDArray PSD Model_Util Proofs_Util Model_Linalg Spec_Linalg Proofs_Linalg Model_Interp Model_Kern Model_FK Model_Grid Model_Lik Model_GP Model_State Model_Opt Spec_Opt Proofs_Opt.
Import ListNotations.
Open Scope R_scope.

(** ** C41: when AdaDelta stops *)

(** Whatever the gradients and the settings, the loop ends after the first
    iteration at which it is to stop; each iteration is followed by exactly
    one call of the callback.  With [max_it] at least 1 that is after at most
    [max_it] iterations.  Missing: settings with [max_it] below 1, see
    [C41_cap_refuted]. *)
Theorem C41_stops_partial :
  forall s grad norm, (forall i, (1 <= i)%nat -> is_max_abs (grad i) (norm i)) ->
    exists k, (1 <= k)%nat /\ stop s norm k /\ (forall j, (1 <= j < k)%nat -> ~ stop s norm j) /\
      ((1 <= max_it s)%Z -> (Z.of_nat k <= max_it s)%Z) /\
      ((max_it s <= 1)%Z -> k = 1%nat) /\
      (forall fuel, (k <= fuel)%nat -> ada_opt s grad fuel = Some (ada_trace k, Ok tt)) /\
      (forall fuel, (fuel < k)%nat -> ada_opt s grad fuel = None).
Proof.
  intros s grad norm Hg. set (N := Nat.max 1 (Z.to_nat (max_it s))).
  destruct (first_stop s grad norm Hg N) as [k (Hk & Hs & Hn)]; [lia|left; lia|].
  exists k. destruct (loop_trace s grad norm Hg k 0 0 0 (permitted_drops s)) as [L1 L2]; [intros j Hj; apply Hn; lia|lia|now rewrite Nat.add_0_r|now right|constructor|lia|].
  split; [lia|]. split; [exact Hs|]. split; [exact Hn|]. split; [lia|]. split; [lia|]. split; [exact L1|exact L2].
Qed.
Print Assumptions C41_stops_partial.

(** A gradient with no entries raises, before the callback. *)
Theorem C41_empty :
  forall s grad fuel, (1 <= fuel)%nat -> grad 1%nat = [] -> ada_opt s grad fuel = Some ([Iterate 1], Err ValueError).
Proof. intros s grad [|fuel] Hf E; [lia|]. unfold ada_opt. cbn [ada_loop]. now rewrite E. Qed.
Print Assumptions C41_empty.

(** With [max_it] 0 one iteration is performed. *)
Theorem C41_cap_refuted :
  exists s grad, max_it s = 0%Z /\ (forall i, grad i <> []) /\ ada_opt s grad 1 = Some ([Iterate 1; Callback], Ok tt).
Proof.
  exists (mk_ada 0 (1 / 10) 5), (fun _ => [1]). split; [reflexivity|]. split; [discriminate|].
  unfold ada_opt. cbn [ada_loop inf_norm fold_left]. reflexivity.
Qed.
Print Assumptions C41_cap_refuted.

Definition ex_grad (i : nat) : vec := match i with 1%nat => [10; -3] | 2%nat => [1/2; 0] | 3%nat => [2; -5] | _ => [1/4; -1/3] end.
Definition ex_norm (i : nat) : R := match i with 1%nat => 10 | 2%nat => 1/2 | 3%nat => 5 | _ => 1/3 end.
Lemma ex_norm_ok i : (1 <= i)%nat -> is_max_abs (ex_grad i) (ex_norm i).
Proof.
  intros Hi. destruct i as [|[|[|[|i]]]]; [lia| | | |]; cbn [ex_grad ex_norm]; split;
    try (intros x [<-|[<-|[]]]; unfold Rabs; destruct (Rcase_abs _); lra).
  - exists 10. split; [now left|]. apply Rabs_right. lra.
  - exists (1/2). split; [now left|]. apply Rabs_right. lra.
  - exists (-5). split; [right; now left|]. rewrite Rabs_left; lra.
  - exists (-1/3). split; [right; now left|]. rewrite Rabs_left; lra.
Qed.
(** Iterations 2 and 4 are drops: two permitted drops end the loop at 4. *)
Example C41_ex :
  (forall i, (1 <= i)%nat -> is_max_abs (ex_grad i) (ex_norm i)) /\
  ada_opt (mk_ada 100 (1 / 10) 2) ex_grad 50 = Some ([Iterate 1; Callback; Iterate 2; Callback; Iterate 3; Callback; Iterate 4; Callback], Ok tt) /\
  ada_opt (mk_ada 3 (1 / 10) 2) ex_grad 50 = Some ([Iterate 1; Callback; Iterate 2; Callback; Iterate 3; Callback], Ok tt).
Proof.
  split; [exact ex_norm_ok|].
  assert (N : forall i, (1 <= i)%nat -> inf_norm (ex_grad i) = Ok (ex_norm i)) by (intros i Hi; apply (norm_ok ex_grad ex_norm ex_norm_ok i Hi)).
  assert (Go : forall s fuel i m d d' m', (1 <= i)%nat -> Rmax (ex_norm i) m = m' -> (if Rlt_dec (ex_norm i) (min_grad_ratio s * m') then (d - 1)%Z else d) = d' ->
    ada_loop s ex_grad (S fuel) i m d = if ((max_it s <=? Z.of_nat i) || (d' <=? 0))%Z%bool then Some ([Iterate i; Callback], Ok tt)
      else option_map (fun o => (Iterate i :: Callback :: fst o, snd o)) (ada_loop s ex_grad fuel (S i) m' d')).
  { intros s fuel i m d d' m' Hi Em Ed. cbn [ada_loop]. rewrite N by exact Hi. cbv zeta. now rewrite Em, Ed. }
  assert (L1 : forall z : Z, (if Rlt_dec (ex_norm 1) (1/10 * 10) then (z - 1)%Z else z) = z) by (clear; intros; cbn [ex_norm]; destruct (Rlt_dec _ _); [lra|reflexivity]).
  assert (L2 : forall z : Z, (if Rlt_dec (ex_norm 2) (1/10 * 10) then (z - 1)%Z else z) = (z - 1)%Z) by (clear; intros; cbn [ex_norm]; destruct (Rlt_dec _ _); [reflexivity|lra]).
  assert (L3 : forall z : Z, (if Rlt_dec (ex_norm 3) (1/10 * 10) then (z - 1)%Z else z) = z) by (clear; intros; cbn [ex_norm]; destruct (Rlt_dec _ _); [lra|reflexivity]).
  assert (L4 : forall z : Z, (if Rlt_dec (ex_norm 4) (1/10 * 10) then (z - 1)%Z else z) = (z - 1)%Z) by (clear; intros; cbn [ex_norm]; destruct (Rlt_dec _ _); [reflexivity|lra]).
  assert (M1 : Rmax (ex_norm 1) 0 = 10) by (apply Rmax_left; cbn [ex_norm]; lra).
  assert (M2 : Rmax (ex_norm 2) 10 = 10) by (apply Rmax_right; cbn [ex_norm]; lra).
  assert (M3 : Rmax (ex_norm 3) 10 = 10) by (apply Rmax_right; cbn [ex_norm]; lra).
  assert (M4 : Rmax (ex_norm 4) 10 = 10) by (apply Rmax_right; cbn [ex_norm]; lra).
  clear N. unfold ada_opt. cbn [permitted_drops]. split.
  - rewrite (Go (mk_ada 100 (1 / 10) 2) 49%nat 1%nat 0 2%Z 2%Z 10 ltac:(lia) M1 (L1 _)),
      (Go (mk_ada 100 (1 / 10) 2) 48%nat 2%nat 10 2%Z 1%Z 10 ltac:(lia) M2 (L2 _)),
      (Go (mk_ada 100 (1 / 10) 2) 47%nat 3%nat 10 1%Z 1%Z 10 ltac:(lia) M3 (L3 _)),
      (Go (mk_ada 100 (1 / 10) 2) 46%nat 4%nat 10 1%Z 0%Z 10 ltac:(lia) M4 (L4 _)).
    generalize (ada_loop (mk_ada 100 (1 / 10) 2) ex_grad 46 5 10). clear. intros f. reflexivity.
  - rewrite (Go (mk_ada 3 (1 / 10) 2) 49%nat 1%nat 0 2%Z 2%Z 10 ltac:(lia) M1 (L1 _)),
      (Go (mk_ada 3 (1 / 10) 2) 48%nat 2%nat 10 2%Z 1%Z 10 ltac:(lia) M2 (L2 _)),
      (Go (mk_ada 3 (1 / 10) 2) 47%nat 3%nat 10 1%Z 1%Z 10 ltac:(lia) M3 (L3 _)).
    generalize (ada_loop (mk_ada 3 (1 / 10) 2) ex_grad 47 4 10). clear. intros f. reflexivity.
Qed.

(** ** C42: Iterative.solve *)

(** The oracle [method] is given an operator that multiplies by the matrix;
    [t] is all it does.  Either the first interrupting iterate is returned, or
    there is none and the solver's answer is; the error is the distance of the
    right-hand side, the count is the number of iterates seen, and without a
    log the error is within the tolerance. *)
Theorem C42_reports :
  forall method K n F y minres tol,
    represents K (mk_den n n F) -> length y = n ->
    (forall op, acts n F op -> sized n (method minres op y (Rmin (/ 10 ^ 10) tol) n)) ->
    exists op, acts n F op /\ let t := method minres op y (Rmin (/ 10 ^ 10) tol) n in
      ((exists c x, interrupts n F y tol t c x) \/ (exists x succ, k_result t = Ok (x, succ)) -> exists s, iterative_solve method K y minres tol = Ok s) /\
      forall s, iterative_solve method K y minres tol = Ok s ->
        so_error s = gap n F y (so_x s) /\
        (so_logged s = false -> gap n F y (so_x s) <= tol) /\
        (interrupts n F y tol t (so_ctr s) (so_x s) /\ so_logged s = false /\ (forall c x, (c < so_ctr s)%nat -> ~ interrupts n F y tol t c x) \/
         (forall c x, ~ interrupts n F y tol t c x) /\ so_ctr s = length (k_iterates t) /\
         exists succ, k_result t = Ok (so_x s, succ) /\ (so_logged s = true <-> tol < gap n F y (so_x s) \/ succ <> 0%Z)) /\
        ((length (k_iterates t) <= n)%nat -> (so_ctr s <= n)%nat).
Proof.
  intros method K n F y minres tol HK Hy Hm. set (op := fst (as_linear_operator (mk_obj K None))).
  assert (A : acts n F op).
  { unfold op. split; [exact (rep_shape _ _ HK)|]. intros x Hx. cbn [as_linear_operator o_op o_mat fst lo_matvec]. rewrite (rep_mv _ _ HK) by exact Hx.
    unfold d_apply, mat_apply. cbn [d_r d_c d_f]. split; [apply tab_length|]. intros i Hi. now rewrite vget_tab. }
  exists op. split; [exact A|]. pose proof (solve_spec n F K HK method y minres tol Hy (Hm op A)) as HS.
  fold op in HS. set (t := method minres op y (Rmin (/ 10 ^ 10) tol) n) in *. cbv zeta.
  destruct HS as [[E N]|(c & x & E & I & N)]; rewrite E.
  - split; [intros [[c [x I]]|[x [succ Er]]]; [destruct (N c x I)|rewrite Er; eexists; reflexivity]|].
    intros s Es. destruct (k_result t) as [[x succ]|e] eqn:Er; [|discriminate Es]. cbn [bind] in Es. injection Es as <-. cbn [so_error so_x so_logged so_ctr].
    set (g := gap n F y x). split; [reflexivity|]. split; [|split].
    + destruct (Rlt_dec tol g); [discriminate|]. intros _. lra.
    + right. split; [exact N|]. split; [reflexivity|]. exists succ. split; [reflexivity|].
      rewrite orb_true_iff, negb_true_iff, Z.eqb_neq. destruct (Rlt_dec tol g) as [L|L]; intuition congruence.
    + auto.
  - split; [intros _; eexists; reflexivity|]. intros s Es. injection Es as <-. cbn [so_error so_x so_logged so_ctr].
    split; [reflexivity|]. split; [intros _; destruct I as (_ & _ & _ & L); lra|]. split; [left; auto|].
    intros L. destruct I as (I1 & I2 & _). assert (c - 1 < length (k_iterates t))%nat by (apply nth_error_Some; congruence). lia.
Qed.
Print Assumptions C42_reports.

(** With a matrix bounded below by [s], the answer is within error / [s] of
    the solution. *)
Theorem C42_distance :
  forall method K n F y minres tol r s z,
    represents K (mk_den n n F) -> length y = n ->
    (forall op, acts n F op -> sized n (method minres op y (Rmin (/ 10 ^ 10) tol) n)) ->
    0 < s -> (forall v, length v = n -> s * Rsum n (fun i => vget v i ^ 2) <= Rsum n (fun i => Rsum n (fun j => vget v i * F i j * vget v j))) ->
    (forall i, (i < n)%nat -> Rsum n (fun j => F i j * vget z j) = vget y i) ->
    iterative_solve method K y minres tol = Ok r ->
    dist2 n (so_x r) z <= so_error r / s /\ (so_logged r = false -> dist2 n (so_x r) z <= tol / s).
Proof.
  intros method K n F y minres tol r s z HK Hy Hm Hs HF Hz Hr.
  destruct (C42_reports method K n F y minres tol HK Hy Hm) as (op & _ & _ & H). destruct (H r Hr) as (E & L & _).
  pose proof (coercive_error n F y (so_x r) z s Hs HF Hz) as D. rewrite <- E in D.
  assert (G : dist2 n (so_x r) z <= so_error r / s) by (apply Rmult_le_reg_l with s; [exact Hs|]; replace (s * (so_error r / s)) with (so_error r) by (field; lra); exact D).
  split; [exact G|]. intros El. apply Rle_trans with (1 := G). apply Rmult_le_compat_r; [left; now apply Rinv_0_lt_compat|]. rewrite E. now apply L.
Qed.
Print Assumptions C42_distance.

(** The system 2 x = 4: a solver that reaches 2 at the hundredth iterate but
    would go on, and one that gives up at once. *)
Definition ex_late (minres : bool) (op : linop) (y : vec) (tol : R) (n : nat) : krylov := mk_krylov (repeat [7] 99 ++ [[2]; [3]]) (Ok ([5], 0%Z)).
Definition ex_lazy (minres : bool) (op : linop) (y : vec) (tol : R) (n : nat) : krylov := mk_krylov [] (Ok ([1], 0%Z)).
Example C42_ex :
  exists K, diag (mk_arr [1%nat] [2]) = Ok K /\ represents K (mk_den 1 1 (fun _ _ => 2)) /\
    (forall op, sized 1 (ex_late true op [4] (Rmin (/ 10 ^ 10) (1 / 10000)) 1)) /\
    iterative_solve ex_late K [4] true (1 / 10000) = Ok (mk_solved [2] 100 0 false) /\
    (exists e, iterative_solve ex_lazy K [4] true (1 / 10000) = Ok (mk_solved [1] 0 e true) /\ e = 2).
Proof.
  destruct (diag (mk_arr [1%nat] [2])) as [K|] eqn:EK; [|discriminate EK]. exists K. split; [reflexivity|].
  assert (HK : represents K (mk_den 1 1 (fun _ _ => 2))).
  { apply (represents_ext K (d_diag [2])); [apply (diag_rep (mk_arr [1%nat] [2])); [reflexivity|exact EK]|].
    repeat split; cbn; auto. intros [|i] [|j] Hi Hj; cbn; try lia. reflexivity. }
  split; [exact HK|].
  assert (S1 : forall op, sized 1 (ex_late true op [4] (Rmin (/ 10 ^ 10) (1 / 10000)) 1)).
  { intros op. split; [|intros x succ E; injection E as <- _; reflexivity]. cbn [ex_late k_iterates]. apply Forall_app. split; [|repeat constructor].
    rewrite Forall_forall. intros x Hx. apply repeat_spec in Hx. now subst. }
  assert (S2 : forall op, sized 1 (ex_lazy true op [4] (Rmin (/ 10 ^ 10) (1 / 10000)) 1)).
  { intros op. split; [constructor|intros x succ E; injection E as <- _; reflexivity]. }
  assert (G2 : gap 1 (fun _ _ => 2) [4] [2] = 0).
  { unfold gap. replace (Rsum 1 _) with 0 by (cbv -[Rmult Rplus IZR Ropp]; lra). apply sqrt_0. }
  assert (G1 : gap 1 (fun _ _ => 2) [4] [1] = 2).
  { unfold gap. replace (Rsum 1 _) with (2 * 2) by (cbv -[Rmult Rplus IZR Ropp]; lra). apply sqrt_square. lra. }
  split; [exact S1|]. split.
  - pose proof (solve_spec 1 _ K HK ex_late [4] true (1/10000) eq_refl (S1 _)) as H.
    assert (I : forall op, interrupts 1 (fun _ _ => 2) [4] (1/10000) (ex_late true op [4] (Rmin (/ 10 ^ 10) (1 / 10000)) 1) 100 [2]).
    { intros op. repeat split; [lia|now exists 1%nat|]. rewrite G2. lra. }
    destruct H as [[_ N]|(c & x & E & Ic & N)]; [destruct (N _ _ (I _))|].
    assert (c = 100%nat) as ->.
    { destruct Ic as (A & B & [q ->] & _). destruct (Nat.lt_ge_cases 100 (100 * q)) as [L|L]; [destruct (N 100%nat [2] L (I _))|].
      destruct q as [|q]; lia. }
    rewrite E. destruct Ic as (A & _). cbn in A. injection A as <-. now rewrite G2.
  - pose proof (solve_spec 1 _ K HK ex_lazy [4] true (1/10000) eq_refl (S2 _)) as H.
    destruct H as [[E _]|(c & x & _ & (A & _) & _)]; [|cbn in A; destruct (c - 1)%nat; discriminate A].
    exists 2. split; [|reflexivity]. rewrite E. cbn [ex_lazy k_result bind k_iterates length]. rewrite G1.
    destruct (Rlt_dec (1/10000) 2); [reflexivity|lra].
Qed.
