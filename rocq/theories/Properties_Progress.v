(** Claims about progress lines and the plotted cut-off (C88) and about worker
    processes (C89). *)

From Coq Require Import Reals List Arith ZArith Lia Lra Bool Sorted.
From Verif Require Import Base NDArray PSD Model_Util Proofs_Util Model_Linalg Spec_Linalg Proofs_Linalg Model_Interp Model_Kern Model_FK Model_Grid Model_Lik Model_GP Model_State Model_Bench Model_Opt Spec_Opt Proofs_Opt Properties_Opt Model_Progress.
Import ListNotations.
Open Scope R_scope.

(** ** Progress lines *)

Lemma printed_trace m v k : forall s, printed m v (concat (map (fun i => [Iterate i; Callback]) (seq s k))) = filter (print_update m v) (seq s k).
Proof.
  induction k as [|k IH]; intros s; [reflexivity|]. cbn [seq map concat app printed filter]. rewrite IH. now destruct (print_update m v s).
Qed.

Lemma div_step k d : (0 < d)%Z -> ((k + 1) / d = k / d + (if (k + 1) mod d =? 0 then 1 else 0))%Z.
Proof.
  intros Hd. pose proof (Z.div_mod k d ltac:(lia)) as E. pose proof (Z.mod_pos_bound k d Hd) as B.
  set (q := (k / d)%Z) in *. set (r := (k mod d)%Z) in *.
  destruct (Z.eq_dec (r + 1) d) as [Er|Er].
  - assert (E1 : (k + 1 = d * (q + 1) + 0)%Z) by nia. rewrite <- (Z.div_unique (k + 1) d (q + 1) 0) by lia.
    rewrite <- (Z.mod_unique (k + 1) d (q + 1) 0) by lia. reflexivity.
  - assert (E1 : (k + 1 = d * q + (r + 1))%Z) by lia. rewrite <- (Z.div_unique (k + 1) d q (r + 1)) by lia.
    rewrite <- (Z.mod_unique (k + 1) d q (r + 1)) by lia. destruct (Z.eqb_spec (r + 1) 0); lia.
Qed.

Lemma count_multiples d k : (0 < d)%Z -> Z.of_nat (length (filter (fun i => (Z.of_nat i mod d =? 0)%Z) (seq 1 k))) = (Z.of_nat k / d)%Z.
Proof.
  intros Hd. induction k as [|k IH]; [now rewrite Z.div_0_l by lia|].
  rewrite seq_S, filter_app, app_length, Nat2Z.inj_add, IH, Nat2Z.inj_succ. unfold Z.succ. rewrite div_step by exact Hd. f_equal.
  cbn [filter]. replace (Z.of_nat (1 + k)) with (Z.of_nat k + 1)%Z by lia. now destruct (_ =? 0)%Z.
Qed.

Lemma filter_sorted (p : nat -> bool) k : forall s, StronglySorted lt (filter p (seq s k)).
Proof.
  induction k as [|k IH]; intros s; [constructor|]. cbn [seq filter]. destruct (p s); [|apply IH]. constructor; [apply IH|].
  apply Forall_forall. intros x Hx. apply filter_In in Hx as [Hx _]. apply in_seq in Hx. lia.
Qed.

(** After a run of [k] iterations the printed ones are, in order, the multiples
    of [max(max_it // verbosity, 1)] up to [k].  A run to the end prints at
    least [verbosity] lines and fewer than twice as many, and every iteration
    if [verbosity] is at least [max_it]; it prints exactly [verbosity] lines if
    and only if the remainder of [max_it] by [verbosity] is less than the
    quotient. *)
Theorem C88_lines_partial :
  forall s v grad norm fuel es, (forall i, (1 <= i)%nat -> is_max_abs (grad i) (norm i)) -> (0 < v)%Z -> (1 <= max_it s)%Z ->
    ada_opt s grad fuel = Some (es, Ok tt) ->
    exists k, es = ada_trace k /\ (1 <= Z.of_nat k <= max_it s)%Z /\
      let d := Z.max 1 (max_it s / v) in
      let ls := printed (max_it s) v es in
      StronglySorted lt ls /\ (forall i, In i ls <-> (1 <= i <= k)%nat /\ (d | Z.of_nat i)%Z) /\
      Z.of_nat (length ls) = (Z.of_nat k / d)%Z /\
      (Z.of_nat k = max_it s -> (v <= max_it s)%Z ->
         (v <= Z.of_nat (length ls) < 2 * v)%Z /\ (Z.of_nat (length ls) = v <-> max_it s mod v < max_it s / v)%Z) /\
      ((max_it s <= v)%Z -> length ls = k).
Proof.
  intros s v grad norm fuel es Hg Hv Hm E.
  destruct (C41_stops_partial s grad norm Hg) as [k (K1 & _ & _ & K2 & _ & K3 & K4)]. specialize (K2 Hm).
  destruct (le_lt_dec k fuel) as [L|L]; [|rewrite (K4 fuel L) in E; discriminate]. rewrite (K3 fuel L) in E. injection E as <-.
  exists k. split; [reflexivity|]. split; [lia|]. intros d ls.
  assert (Hd : (0 < d)%Z) by (unfold d; lia).
  assert (EL : ls = filter (fun i => (Z.of_nat i mod d =? 0)%Z) (seq 1 k)).
  { unfold ls, ada_trace. rewrite printed_trace. apply filter_ext. intros i. unfold print_update. destruct (Z.eqb_spec v 0); [lia|]. cbn [negb andb].
    unfold d. now rewrite Z.max_comm. }
  assert (CL : Z.of_nat (length ls) = (Z.of_nat k / d)%Z) by (rewrite EL; now apply count_multiples).
  split; [rewrite EL; apply filter_sorted|]. split; [|split; [exact CL|split]].
  - intros i. rewrite EL, filter_In, in_seq, Z.eqb_eq. rewrite <- Z.mod_divide by lia. split; intros [A B]; (split; [lia|exact B]).
  - intros Ek Vm. rewrite CL, Ek.
    pose proof (Z.div_mod (max_it s) v ltac:(lia)) as DM. pose proof (Z.mod_pos_bound (max_it s) v Hv) as MB.
    assert (Q1 : (1 <= max_it s / v)%Z) by (apply Z.div_le_lower_bound; lia).
    assert (Ed : d = (max_it s / v)%Z) by (unfold d; lia).
    set (q := (max_it s / v)%Z) in *. set (b := (max_it s mod v)%Z) in *.
    assert (EQ : (max_it s / d = v + b / q)%Z).
    { rewrite Ed. rewrite DM. rewrite (Z.mul_comm v q), (Z.mul_comm q v), Z.div_add_l by lia. reflexivity. }
    rewrite EQ. assert (B0 : (0 <= b / q)%Z) by (apply Z.div_pos; lia).
    assert (B1 : (b / q <= b)%Z) by (apply Z.div_le_upper_bound; nia).
    split; [lia|]. split.
    + intros H. assert (H0 : (b / q = 0)%Z) by lia. apply Z.div_small_iff in H0; lia.
    + intros H. rewrite Z.div_small by lia. lia.
  - intros Vm. assert (d = 1%Z) as Ed.
    { unfold d. destruct (Z.eq_dec (max_it s) v) as [->|N]; [rewrite Z.div_same by lia; reflexivity|]. rewrite Z.div_small by lia. reflexivity. }
    rewrite Ed, Z.div_1_r in CL. lia.
Qed.
Print Assumptions C88_lines_partial.

(** No verbosity: nothing is printed. *)
Theorem C88_silent : forall m es, printed m 0 es = [].
Proof.
  intros m. fix IH 1. intros [|[i|] es]; [reflexivity| |reflexivity]. destruct es as [|[j|] es]; [reflexivity|reflexivity|]. cbn [printed]. rewrite (IH es). reflexivity.
Qed.
Print Assumptions C88_silent.

(** Five iterations with verbosity 3 print five lines. *)
Theorem C88_lines_refuted :
  exists s v grad fuel es, max_it s = 5%Z /\ v = 3%Z /\ ada_opt s grad fuel = Some (es, Ok tt) /\ length (printed (max_it s) v es) = 5%nat.
Proof.
  exists (mk_ada 5 0 5), 3%Z, (fun _ => [1]), 5%nat, (ada_trace 5).
  assert (Hg : forall i, (1 <= i)%nat -> is_max_abs [1] ((fun _ => 1) i)).
  { intros i _. split; [intros x [<-|[]]; rewrite Rabs_R1; lra|]. exists 1. split; [now left|apply Rabs_R1]. }
  split; [reflexivity|]. split; [reflexivity|].
  destruct (C41_stops_partial (mk_ada 5 0 5) (fun _ => [1]) (fun _ => 1) Hg) as [k (K1 & K2 & K3 & K4 & _ & K5 & _)]. cbn [max_it] in K4. specialize (K4 ltac:(lia)).
  assert (ND : forall i n, drops 0 (fun _ => 1) i n -> n = 0%nat).
  { intros i n H. induction H as [|i n [m [[_ [j [_ <-]]] C]] _ _|]; [reflexivity|lra|assumption]. }
  assert (k = 5%nat) as ->.
  { destruct K2 as [K2|[n [H1 H2]]]; cbn [max_it min_grad_ratio permitted_drops] in *; [lia|]. apply ND in H1. subst n. lia. }
  split; [apply K5; lia|]. reflexivity.
Qed.
Print Assumptions C88_lines_refuted.

(** ** Curves *)

Lemma accum_length op l : forall acc, length (accum op acc l) = length l.
Proof. induction l as [|x l IH]; intros acc; [reflexivity|]. cbn. f_equal. apply IH. Qed.
Lemma accumulate_length op l : length (np_accumulate op l) = length l.
Proof. destruct l as [|x l]; [reflexivity|]. cbn. f_equal. apply accum_length. Qed.

Lemma accum_sum l : forall acc i, (i < length l)%nat -> vget (accum Rplus acc l) i = acc + Rsum (S i) (vget l).
Proof.
  induction l as [|x l IH]; intros acc i Hi; [cbn in Hi; lia|]. destruct i as [|i].
  - unfold vget. cbn. ring.
  - cbn [accum]. change (vget (?y :: ?l) (S i)) with (vget l i). rewrite IH by (cbn in Hi; lia). rewrite (Rsum_S_l (S i)).
    change (vget (x :: l) 0) with x. rewrite Rplus_assoc. reflexivity.
Qed.
Lemma accumulate_sum l i : (i < length l)%nat -> vget (np_accumulate Rplus l) i = Rsum (S i) (vget l).
Proof.
  intros Hi. destruct l as [|x l]; [cbn in Hi; lia|]. destruct i as [|i].
  - unfold vget. cbn. ring.
  - cbn [np_accumulate]. change (vget (?y :: ?l) (S i)) with (vget l i). rewrite accum_sum by (cbn in Hi; lia). rewrite (Rsum_S_l (S i)). reflexivity.
Qed.

(** [m] is the largest of the first [S i] entries. *)
Definition largest_upto (l : vec) (i : nat) (m : R) : Prop :=
  (forall j, (j <= i)%nat -> vget l j <= m) /\ exists j, (j <= i)%nat /\ vget l j = m.

Lemma accum_max l : forall acc i, (i < length l)%nat ->
  acc <= vget (accum Rmax acc l) i /\ (forall j, (j <= i)%nat -> vget l j <= vget (accum Rmax acc l) i) /\
  (vget (accum Rmax acc l) i = acc \/ exists j, (j <= i)%nat /\ vget l j = vget (accum Rmax acc l) i).
Proof.
  induction l as [|x l IH]; intros acc i Hi; [cbn in Hi; lia|]. pose proof (Rmax_l acc x) as M1. pose proof (Rmax_r acc x) as M2. destruct i as [|i].
  - change (vget (accum Rmax acc (x :: l)) 0) with (Rmax acc x). split; [exact M1|]. split.
    + intros [|j] Hj; [exact M2|lia].
    + destruct (Rmax_or acc x) as [E|E]; [now left|right; exists 0%nat; split; [lia|now rewrite E]].
  - cbn [accum]. change (vget (?y :: ?l) (S i)) with (vget l i). destruct (IH (Rmax acc x) i) as (A & B & C); [cbn in Hi; lia|]. split; [lra|]. split.
    + intros [|j] Hj; [change (vget (x :: l) 0) with x; lra|apply B; lia].
    + destruct C as [C|[j [Hj C]]].
      * destruct (Rmax_or acc x) as [E|E]; [left; congruence|right; exists 0%nat; split; [lia|]]. change (vget (x :: l) 0) with x. congruence.
      * right. exists (S j). split; [lia|exact C].
Qed.
Lemma accumulate_max l i : (i < length l)%nat -> largest_upto l i (vget (np_accumulate Rmax l) i).
Proof.
  intros Hi. destruct l as [|x l]; [cbn in Hi; lia|]. destruct i as [|i].
  - change (vget (np_accumulate Rmax (x :: l)) 0) with x. split; [intros [|j] Hj; [unfold vget; cbn; lra|lia]|exists 0%nat; split; [lia|reflexivity]].
  - cbn [np_accumulate]. unfold largest_upto. change (vget (?y :: ?k) (S i)) with (vget k i). destruct (accum_max l x i) as (A & B & C); [cbn in Hi; lia|]. split.
    + intros [|j] Hj; [exact A|apply B; lia].
    + destruct C as [C|[j [Hj C]]]; [exists 0%nat; split; [lia|now rewrite C]|exists (S j); split; [lia|exact C]].
Qed.

Lemma vget_skipn (l : vec) n i : vget (skipn n l) i = vget l (n + i).
Proof. unfold vget. revert l. induction n as [|n IH]; intros [|x l]; cbn [skipn plus nth]; [reflexivity|reflexivity|destruct i; reflexivity|apply IH]. Qed.
Lemma vget_firstn (l : vec) n i : (i < n)%nat -> vget (firstn n l) i = vget l i.
Proof. unfold vget. revert l i. induction n as [|n IH]; intros [|x l] [|i] Hi; cbn [firstn nth]; try lia; try reflexivity. apply IH. lia. Qed.

(** A window of [1 <= n] entries that fits: entry [i] is the average of the last
    [n] entries up to [i], of all [i + 1] if there are fewer.  A longer window
    raises. *)
Theorem C88_moving_average :
  forall a n, (1 <= n)%nat ->
    ((n <= length a)%nat -> exists s, moving_average a n = Ok s /\ length s = length a /\
       forall i, (i < length a)%nat -> let w := Nat.min (S i) n in vget s i = Rsum w (fun j => vget a (S i - w + j)) / INR w) /\
    ((length a < n)%nat -> a <> [] -> moving_average a n = Err ValueError).
Proof.
  intros a n Hn. pose proof (accumulate_length Rplus a) as LS. set (sums := np_accumulate Rplus a) in *. split.
  - intros L.
    assert (Lt : length (skipn n sums) = (length a - n)%nat) by (rewrite skipn_length, LS; reflexivity).
    assert (Lb : length (firstn (length sums - n) sums) = (length a - n)%nat) by (rewrite firstn_length, LS; lia).
    assert (Lh : length (firstn n sums) = n) by (rewrite firstn_length, LS; lia).
    unfold moving_average. fold sums. destruct (Nat.eqb_spec n 0); [lia|]. unfold np_sub. rewrite Lt, Lb, Nat.eqb_refl. cbn [bind]. rewrite tab_length, Nat.eqb_refl. cbn [bind].
    rewrite Lh, Nat.eqb_refl. eexists. split; [reflexivity|]. split; [rewrite app_length, map_length, !tab_length; lia|].
    intros i Hi. set (w := Nat.min (S i) n). unfold vget at 1. destruct (le_lt_dec n i) as [H|H].
    + rewrite app_nth2 by (rewrite tab_length; exact H). rewrite tab_length. unfold tab at 1. rewrite map_map. change (map ?f (seq 0 (length a - n))) with (tab (length a - n) f).
      rewrite nth_tab by lia. rewrite vget_skipn, vget_firstn by (rewrite LS; lia). replace (n + (i - n))%nat with i by lia.
      unfold sums. rewrite !accumulate_sum by lia. unfold w. rewrite Nat.min_r by lia. f_equal.
      replace (S i) with (S (i - n) + n)%nat at 1 by lia. rewrite Rsum_split. rewrite Rplus_comm. unfold Rminus. rewrite Rplus_assoc, Rplus_opp_r, Rplus_0_r.
      apply Rsum_ext. intros j Hj. f_equal. lia.
    + rewrite app_nth1 by (rewrite tab_length; exact H). rewrite nth_tab by exact H. rewrite vget_firstn by exact H. unfold sums. rewrite accumulate_sum by exact Hi.
      unfold w. rewrite Nat.min_l by lia. f_equal. apply Rsum_ext. intros j Hj. f_equal. lia.
  - intros L NE. unfold moving_average. fold sums. destruct (Nat.eqb_spec n 0); [lia|].
    rewrite (skipn_all2 sums) by lia. replace (length sums - n)%nat with 0%nat by lia. cbn [firstn]. unfold np_sub at 1. cbn [length Nat.eqb tab seq map bind].
    rewrite firstn_all2 by lia. rewrite LS. destruct (Nat.eqb_spec (length a) n); [lia|]. destruct (Nat.eqb_spec n 1); [|reflexivity].
    destruct a; [congruence|cbn in L; lia].
Qed.
Print Assumptions C88_moving_average.

(** The rolled maximum is the largest moving average so far. *)
Theorem C88_rolled_max :
  forall a n, (1 <= n <= length a)%nat -> exists s m, moving_average a n = Ok s /\ div_rolled_max a n = Ok m /\ length m = length a /\
    forall i, (i < length a)%nat -> largest_upto s i (vget m i).
Proof.
  intros a n Hn. destruct (proj1 (C88_moving_average a n (proj1 Hn)) (proj2 Hn)) as [s (E & L & _)]. exists s, (np_accumulate Rmax s).
  split; [exact E|]. unfold div_rolled_max. rewrite E. split; [reflexivity|]. split; [rewrite accumulate_length; exact L|].
  intros i Hi. apply accumulate_max. lia.
Qed.
Print Assumptions C88_rolled_max.

(** A norm is below the drawn line exactly when AdaDelta with
    [min_grad_ratio=0.2] counts it as a drop. *)
Theorem C88_cutoff_partial :
  forall norm k, (1 <= k)%nat -> exists l, cutoff_line (map norm (seq 1 k)) = Ok l /\ length l = k /\
    forall i, (1 <= i <= k)%nat -> (norm i < vget l (i - 1) <-> drop (2 / 10) norm i).
Proof.
  intros norm k Hk. set (a := map norm (seq 1 k)). assert (La : length a = k) by (unfold a; now rewrite map_length, seq_length).
  destruct (C88_rolled_max a 1) as [s [m (E1 & E2 & L & H)]]; [lia|].
  destruct (proj1 (C88_moving_average a 1 (le_n 1)) ltac:(lia)) as [s' (E1' & Ls & Hs)]. rewrite E1 in E1'. apply Ok_inj in E1'. subst s'.
  assert (Es : forall i, (i < k)%nat -> vget s i = norm (S i)).
  { intros i Hi. rewrite Hs by lia. cbv zeta. replace (Nat.min (S i) 1) with 1%nat by lia. cbn [Rsum INR]. replace (S i - 1 + 0)%nat with i by lia.
    unfold vget, a. rewrite (nth_indep _ 0 (norm 0%nat)) by (rewrite map_length, seq_length; exact Hi). rewrite map_nth, seq_nth by exact Hi. cbn [plus]. field. }
  unfold cutoff_line. rewrite E2. cbn [bind]. eexists. split; [reflexivity|]. split; [rewrite map_length; lia|].
  intros i Hi. assert (EV : vget (map (fun x => 2 / 10 * x) m) (i - 1) = 2 / 10 * vget m (i - 1)).
  { unfold vget. rewrite (nth_indep _ 0 (2 / 10 * 0)) by (rewrite map_length; lia). apply (map_nth (fun x => 2 / 10 * x)). }
  rewrite EV. assert (PK : is_peak norm i (vget m (i - 1))).
  { destruct (H (i - 1)%nat ltac:(lia)) as [A [j [Hj B]]]. split.
    - intros j' Hj'. specialize (A (j' - 1)%nat ltac:(lia)). rewrite Es in A by lia. now replace (S (j' - 1)) with j' in A by lia.
    - exists (S j). split; [lia|]. rewrite <- Es by lia. exact B. }
  split.
  - intros C. exists (vget m (i - 1)). split; [exact PK|exact C].
  - intros [m' [P C]]. now rewrite <- (peak_unique _ _ _ _ P PK).
Qed.
Print Assumptions C88_cutoff_partial.

(** With the default ratio of 0.1 a norm below the line need not be a drop. *)
Theorem C88_cutoff_refuted :
  exists norm k i l, cutoff_line (map norm (seq 1 k)) = Ok l /\ (1 <= i <= k)%nat /\ (forall i, 0 <= norm i) /\
    norm i < vget l (i - 1) /\ ~ drop (min_grad_ratio ada_default) norm i.
Proof.
  set (norm := fun i : nat => match i with 2%nat => 3 / 2 | _ => 10 end).
  destruct (C88_cutoff_partial norm 2 ltac:(lia)) as [l (E & L & H)]. exists norm, 2%nat, 2%nat, l. split; [exact E|]. split; [lia|].
  assert (PK : is_peak norm 2 10).
  { split; [intros [|[|[|j]]] Hj; cbn; try lra; lia|exists 1%nat; split; [lia|reflexivity]]. }
  split; [intros [|[|[|i]]]; cbn; lra|]. split.
  - apply H; [lia|]. exists 10. split; [exact PK|]. cbn. lra.
  - intros [m [P C]]. rewrite (peak_unique _ _ _ _ P PK) in C. cbn in C. lra.
Qed.
Print Assumptions C88_cutoff_refuted.

Example C88_ex :
  (forall i, (1 <= i)%nat -> is_max_abs (ex_grad i) (ex_norm i)) /\
  (exists es, ada_opt (mk_ada 3 (1 / 10) 2) ex_grad 50 = Some (es, Ok tt) /\ printed 3 2 es = [1; 2; 3]%nat) /\
  moving_average [1; 3; 5; 1] 2 = Ok [1; 2; 4; 3].
Proof.
  split; [exact ex_norm_ok|]. split.
  - eexists. split; [exact (proj2 (proj2 C41_ex))|]. reflexivity.
  - destruct (proj1 (C88_moving_average [1; 3; 5; 1] 2 ltac:(lia)) ltac:(cbn; lia)) as [s (E & L & H)]. rewrite E. f_equal.
    destruct s as [|s0 [|s1 [|s2 [|s3 [|s4 s]]]]]; try discriminate L.
    pose proof (H 0%nat ltac:(cbn; lia)) as H0. pose proof (H 1%nat ltac:(cbn; lia)) as H1. pose proof (H 2%nat ltac:(cbn; lia)) as H2. pose proof (H 3%nat ltac:(cbn; lia)) as H3.
    unfold vget in *. cbn in H0, H1, H2, H3. repeat f_equal; lra.
Qed.

(** ** C89: worker processes *)

(** The number of processes asked for: the argument, by default the number of
    processors. *)
Definition asked (cpus : Z) (max_procs : option Z) : Z := match max_procs with None => cpus | Some p => p end.

(** A model runs serially exactly for one process or fewer than 300
    observations; otherwise it starts as many workers as asked for, and raises
    if that is not positive.  Whenever worker processes are started while
    OMP_NUM_THREADS is unset, it warns; it never warns when the variable is
    set.  Missing: it also warns when no workers are started. *)
Theorem C89_workers_partial :
  forall omp cpus max_procs ny, (1 <= cpus)%Z ->
    let p := asked cpus max_procs in
    let '(warns, r) := generate_pool omp cpus max_procs ny in
    (r = Ok None <-> p = 1%Z \/ (ny < 300)%nat) /\
    (forall w, r = Ok (Some w) <-> (w = p /\ 1 < p)%Z /\ (300 <= ny)%nat) /\
    (forall e, r = Err e <-> e = ValueError /\ (p < 1)%Z /\ (300 <= ny)%nat) /\
    (omp = false -> forall w, r = Ok (Some w) -> warns = true) /\
    (omp = true -> warns = false) /\
    (max_procs <> Some 0%Z -> omp = false -> (300 <= ny)%nat -> (warns = true <-> exists w, r = Ok (Some w))).
Proof.
  intros omp cpus max_procs ny Hc p. unfold generate_pool. fold (asked cpus max_procs). fold p.
  assert (EW : max_procs <> Some 0%Z -> check_omp omp cpus max_procs = (negb omp && (1 <? p)%Z)%bool).
  { intros H. unfold check_omp, p, asked. destruct max_procs as [m|]; [|reflexivity]. destruct (Z.eqb_spec m 0); [congruence|reflexivity]. }
  assert (P0 : max_procs = Some 0%Z -> p = 0%Z) by (intros ->; reflexivity).
  destruct (Z.eqb_spec p 1) as [E1|E1]; destruct (Nat.ltb_spec ny 300) as [L|L]; cbn [orb].
  1-3: (split; [split; auto|]); (split; [intros w; split; [discriminate|lia]|]); (split; [intros e; split; [discriminate|lia]|]); (split; [discriminate|]);
    (split; [intros ->; reflexivity|]); intros H Ho Hn; try lia; rewrite (EW H), Ho; cbn [negb andb]; (split; [intros C; apply Z.ltb_lt in C; lia|intros [w C]; discriminate]).
  destruct (Z.ltb_spec p 1) as [Lp|Lp].
  - split; [split; [discriminate|lia]|]. split; [intros w; split; [discriminate|lia]|]. split; [intros e; split; [intros C; injection C as <-; auto|intros (-> & _); reflexivity]|].
    split; [discriminate|]. split; [intros ->; reflexivity|]. intros H Ho Hn. rewrite (EW H), Ho. cbn [negb andb]. split; [intros C; apply Z.ltb_lt in C; lia|intros [w C]; discriminate].
  - split; [split; [discriminate|lia]|]. split; [intros w; split; [intros C; apply Ok_inj in C; injection C as <-; lia|intros ((-> & _) & _); reflexivity]|].
    split; [intros e; split; [discriminate|lia]|].
    assert (H : max_procs <> Some 0%Z) by (intros C; specialize (P0 C); lia).
    split; [intros -> w _; rewrite (EW H); cbn [negb andb]; apply Z.ltb_lt; lia|]. split; [intros ->; reflexivity|].
    intros _ -> _. rewrite (EW H). cbn [negb andb]. split; [intros _; eauto|intros _; apply Z.ltb_lt; lia].
Qed.
Print Assumptions C89_workers_partial.

(** With four processors, 299 observations run serially but warn about
    parallelism; zero processes warn about the default number. *)
Theorem C89_warning_refuted :
  (exists cpus ny, (1 < cpus)%Z /\ generate_pool false cpus None ny = (true, Ok None)) /\
  (exists cpus ny, (1 < cpus)%Z /\ generate_pool false cpus (Some 0%Z) ny = (true, Err ValueError)).
Proof. split; [exists 4%Z, 299%nat|exists 4%Z, 300%nat]; (split; [reflexivity|reflexivity]). Qed.
Print Assumptions C89_warning_refuted.

Example C89_ex : generate_pool false 4 None 300 = (true, Ok (Some 4%Z)) /\ generate_pool true 4 (Some 2%Z) 1000 = (false, Ok (Some 2%Z)) /\ generate_pool false 4 (Some 1%Z) 1000 = (false, Ok None).
Proof. repeat split. Qed.
