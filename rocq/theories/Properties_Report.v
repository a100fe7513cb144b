(** Claims about the report of the optimisation benchmark (C87). *)

From Coq Require Import Reals List Arith Bool Lia Lra.
From Verif Require Import Base Model_Linalg Model_Util Model_Kern Model_FK Model_Lik Model_Bench Model_BenchPy Proofs_Linalg Properties_BenchPy Properties_Table Model_Report Spec_Report Proofs_Report.
Import ListNotations.
Open Scope R_scope.

(** For gradients of kernels of equal rank the report is printed: the total is
    the number of partial derivatives, the averages are over all of them, the
    ratios those of the l1 and the l2 norm of the errors to that of the exact
    gradients; the counts printed for kernel parameters, kappa and noise are
    the numbers of those parameters.  Missing: the count printed for the
    coregionalisation vectors, and models with kernels of different ranks. *)
Theorem C87_report_partial :
  forall Q D r rk np e a, (forall q, (q < Q)%nat -> rk q = r) -> grads_shape Q D rk np e -> grads_shape Q D rk np a ->
    (0 < Q)%nat -> (0 < D)%nat -> (0 < r)%nat -> (0 < n_kparams Q np)%nat ->
    let n := (n_kparams Q np + Q * r * D + Q * D + D)%nat in
    let S := over_partials Q D rk np in
    exists rp, opt_report e a = Ok rp /\ rp_total rp = n /\
      nth 0 (rp_counts rp) 0%nat = n_kparams Q np /\ nth 2 (rp_counts rp) 0%nat = (Q * D)%nat /\ nth 3 (rp_counts rp) 0%nat = D /\
      rp_err rp = Some (S (fun x y => Rabs (x - y)) e a / INR n) /\
      rp_grad rp = Some (S (fun x _ => Rabs x) e a / INR n) /\
      (0 < S (fun x _ => Rabs x) e a -> exists e1 e2, rp_ratios rp = (Some e1, Some e2) /\ 0 <= e1 /\ 0 <= e2 /\
         e1 * S (fun x _ => Rabs x) e a = S (fun x y => Rabs (x - y)) e a /\
         e2 * sqrt (S (fun x _ => x ^ 2) e a) = sqrt (S (fun x y => (x - y) ^ 2) e a)).
Proof.
  intros Q D r rk np e a Hrk He Ha HQ HD Hr HP n S.
  pose proof (flat_length Q D rk np r Hrk e He) as Le. pose proof (flat_length Q D rk np r Hrk a Ha) as La.
  assert (L : length (flat r e) = length (flat r a)) by congruence. fold n in Le, La.
  pose proof (flat_sum Q D rk np r e a Hrk He Ha) as FS. fold S in FS.
  assert (NZ : flat r e <> []) by (intros C; rewrite C in Le; cbn in Le; lia).
  assert (NZ' : diff (flat r e) (flat r a) <> []).
  { intros C. pose proof (diff_length _ _ L) as DL. rewrite C, Le in DL. cbn in DL. lia. }
  assert (NM : forall l : vec, l <> [] -> map Rabs l <> []) by (intros [|x l] H; [congruence|discriminate]).
  set (g := flat r e) in *. set (b := flat r a) in *.
  set (u := tab (length g) (fun i => vget (diff g b) i + vget g i)).
  assert (Lu : length u = length g) by apply tab_length.
  assert (Er : exists ra, vector_errors u g = Ok ra).
  { unfold vector_errors, np_sub. rewrite Lu, Nat.eqb_refl. cbn [bind]. eexists. reflexivity. }
  destruct Er as [ra Er].
  rewrite (report_flat Q D rk np r e a Hrk He Ha HQ HD Hr HP). fold g b u. rewrite Er. cbn [bind]. eexists. split; [reflexivity|].
  cbn [rp_total rp_counts rp_err rp_grad rp_ratios nth]. split; [exact Le|]. repeat (split; [reflexivity|]). split; [|split].
  - rewrite arr_mean_ok by (apply NM; exact NZ'). rewrite map_length, (diff_length g b L), Le, lsum_hsum, FS. reflexivity.
  - rewrite arr_mean_ok by (apply NM; exact NZ). rewrite map_length, Le, (lsum_left Rabs g b L), FS. reflexivity.
  - intros Hp. rewrite <- (FS (fun x _ => Rabs x)) in Hp.
    destruct (C77_errors u g Lu) as [e1 [e2 (E & P1 & P2 & R1 & R2 & _)]].
    { destruct (Exists_dec (fun y => y <> 0) g) as [H|H].
      - intros x. destruct (Req_EM_T x 0); [right; tauto|now left].
      - apply Exists_exists in H. exact H.
      - exfalso. rewrite <- (lsum_left Rabs g b L) in Hp. rewrite <- Forall_Exists_neg in H. clear - Hp H.
        assert (lsum (map Rabs g) = 0); [|lra]. induction H as [|x l Hx _ IH]; [reflexivity|]. cbn [map]. change (lsum (?y :: ?l)) with (y + lsum l). rewrite IH.
        + assert (x = 0) as -> by (destruct (Req_EM_T x 0); [assumption|tauto]). rewrite Rabs_R0. ring.
        + revert Hp. cbn [map]. change (lsum (?y :: ?l)) with (y + lsum l). assert (x = 0) as -> by (destruct (Req_EM_T x 0); [assumption|tauto]). rewrite Rabs_R0. intros; lra. }
    rewrite Er in E. apply Ok_inj in E. exists e1, e2. split; [exact E|]. split; [exact P1|]. split; [exact P2|].
    assert (DU : forall i, (i < length g)%nat -> vget u i - vget g i = vget g i - vget b i).
    { intros i Hi. unfold u. rewrite vget_tab by exact Hi. rewrite (diff_vget g b i L Hi). ring. }
    rewrite <- (FS (fun x _ => Rabs x)), <- (FS (fun x _ => x ^ 2)), <- (FS (fun x y => Rabs (x - y))), <- (FS (fun x y => (x - y) ^ 2)).
    rewrite !(hsum_vget _ g b L). split.
    + rewrite R1. apply Rsum_ext. intros i Hi. now rewrite DU.
    + rewrite R2. f_equal. apply Rsum_ext. intros i Hi. now rewrite DU.
Qed.
Print Assumptions C87_report_partial.

(** The count printed for the coregionalisation vectors is that of the vectors:
    it is the number of partial derivatives only for a single output. *)
Theorem C87_count :
  forall Q D r rk np e a rp, (forall q, (q < Q)%nat -> rk q = r) -> grads_shape Q D rk np e -> grads_shape Q D rk np a ->
    (0 < Q)%nat -> (0 < D)%nat -> (0 < r)%nat -> (0 < n_kparams Q np)%nat -> opt_report e a = Ok rp ->
    nth 1 (rp_counts rp) 0%nat = (Q * r)%nat /\ (nsum (rp_counts rp) = rp_total rp <-> D = 1%nat).
Proof.
  intros Q D r rk np e a rp Hrk He Ha HQ HD Hr HP E.
  pose proof (flat_length Q D rk np r Hrk e He) as Le.
  rewrite (report_flat Q D rk np r e a Hrk He Ha HQ HD Hr HP) in E.
  destruct (vector_errors _ _) as [ra|]; [|discriminate]. cbn [bind] in E. apply Ok_inj in E. subst rp. cbn [rp_counts rp_total nth]. split; [reflexivity|].
  rewrite Le. change (nsum [?a; ?b; ?c; ?d]) with (a + (b + (c + (d + 0))))%nat.
  pose proof (Nat.mul_pos_pos Q r HQ Hr). split; [|intros ->; lia]. intros H0. destruct D as [|[|D]]; [lia|reflexivity|nia].
Qed.
Print Assumptions C87_count.

Theorem C87_count_refuted :
  exists e a rp, grads_shape 1 2 (fun _ => 1%nat) (fun _ => 1%nat) e /\ grads_shape 1 2 (fun _ => 1%nat) (fun _ => 1%nat) a /\
    opt_report e a = Ok rp /\ nth 1 (rp_counts rp) 0%nat = 1%nat /\ rp_total rp = 7%nat /\ nsum (rp_counts rp) = 6%nat.
Proof.
  set (e := mk_grads [[[1; 2]]] [[3; 4]] [[5]] [6; 7]).
  assert (He : grads_shape 1 2 (fun _ => 1%nat) (fun _ => 1%nat) e).
  { split; cbn [e g_kernels g_vecs g_diags g_noise]; try (split; [reflexivity|]; intros [|q] Hq; [|lia]); try reflexivity.
    split; [reflexivity|]. intros row [<-|[]]. reflexivity. }
  destruct (C87_report_partial 1 2 1 (fun _ => 1%nat) (fun _ => 1%nat) e e) as [rp (E & ET & _)]; auto; try (cbn; lia).
  exists e, e, rp. split; [exact He|]. split; [exact He|]. split; [exact E|].
  destruct (C87_count 1 2 1 (fun _ => 1%nat) (fun _ => 1%nat) e e rp) as [C1 _]; auto; try (cbn; lia).
  split; [exact C1|]. split; [exact ET|].
  rewrite (report_flat 1 2 (fun _ => 1%nat) (fun _ => 1%nat) 1 e e) in E by (auto; cbn; lia).
  destruct (vector_errors _ _) as [ra|]; [|discriminate]. cbn [bind] in E. apply Ok_inj in E. subst rp. reflexivity.
Qed.
Print Assumptions C87_count_refuted.

(** Kernels of different ranks: nothing is reported. *)
Theorem C87_ranks_raise :
  forall Q D rk np e a q, grads_shape Q D rk np e -> grads_shape Q D rk np a ->
    (0 < n_kparams Q np)%nat -> (0 < nsum (map rk (seq 0 Q)))%nat -> (q < Q)%nat -> rk q <> rk 0%nat -> opt_report e a = Err ValueError.
Proof.
  intros Q D rk np e a q He Ha HP HR Hq Hne.
  destruct (gs_kernels _ _ _ _ _ He) as [K1 K2]. destruct (gs_vecs _ _ _ _ _ He) as [V1 V2].
  destruct (gs_kernels _ _ _ _ _ Ha) as [K1' K2']. destruct (gs_vecs _ _ _ _ _ Ha) as [V1' V2'].
  assert (HQ : (0 < Q)%nat) by lia.
  unfold opt_report. rewrite (check_vecs_ok Q _ _ np HQ K1 K1' K2 K2' HP). cbn [bind].
  unfold check_mxs. rewrite (count_ok Q _ _ rk V1 V1' (fun q Hq => proj1 (V2 q Hq)) (fun q Hq => proj1 (V2' q Hq)) HR). cbn [bind].
  assert (EH : hstack_mxs (g_vecs e) = Err ValueError).
  { unfold hstack_mxs. destruct (g_vecs e) as [|m l] eqn:El; [reflexivity|]. destruct (forallb _ _) eqn:F; [|reflexivity]. exfalso. apply Hne.
    rewrite forallb_forall in F. specialize (F (nth q (m :: l) [])). rewrite <- (proj1 (V2 q Hq)), <- (proj1 (V2 0%nat HQ)).
    apply Nat.eqb_eq. apply F. apply nth_In. rewrite V1. exact Hq. }
  rewrite EH. reflexivity.
Qed.
Print Assumptions C87_ranks_raise.

Theorem C87_ranks_refuted :
  exists e a, grads_shape 2 1 (fun q => S q) (fun _ => 1%nat) e /\ grads_shape 2 1 (fun q => S q) (fun _ => 1%nat) a /\ opt_report e a = Err ValueError.
Proof.
  set (e := mk_grads [[[1]]; [[1]; [2]]] [[3]; [4]] [[5]; [6]] [7]).
  assert (He : grads_shape 2 1 (fun q => S q) (fun _ => 1%nat) e).
  { split; cbn [e g_kernels g_vecs g_diags g_noise]; try (split; [reflexivity|]; intros [|[|q]] Hq; [| |lia]); try reflexivity.
    - split; [reflexivity|]. intros row [<-|[]]; reflexivity.
    - split; [reflexivity|]. intros row [<-|[<-|[]]]; reflexivity. }
  exists e, e. split; [exact He|]. split; [exact He|]. apply (C87_ranks_raise 2 1 (fun q => S q) (fun _ => 1%nat) e e 1 He He); cbn; lia.
Qed.
Print Assumptions C87_ranks_refuted.

(** Two kernels of rank 1 over two outputs: the exact gradients and others. *)
Definition rep_e : gradients := mk_grads [[[1; 2]]; [[-1; 0]]] [[3; 4]; [1; 1]] [[5]; [2; 3]] [6; 7].
Definition rep_a : gradients := mk_grads [[[1; 1]]; [[-1; 2]]] [[3; 4]; [0; 1]] [[6]; [2; 3]] [6; 9].
Example C87_ex : (forall q, (q < 2)%nat -> (fun _ => 1%nat) q = 1%nat) /\
  grads_shape 2 2 (fun _ => 1%nat) (fun q => S q) rep_e /\ grads_shape 2 2 (fun _ => 1%nat) (fun q => S q) rep_a /\
  n_kparams 2 (fun q => S q) = 3%nat /\
  over_partials 2 2 (fun _ => 1%nat) (fun q => S q) (fun x y => Rabs (x - y)) rep_e rep_a = 7 /\
  over_partials 2 2 (fun _ => 1%nat) (fun q => S q) (fun x _ => Rabs x) rep_e rep_a = 36.
Proof.
  split; [reflexivity|].
  assert (SH : forall g, g = rep_e \/ g = rep_a -> grads_shape 2 2 (fun _ => 1%nat) (fun q => S q) g).
  { intros g [-> | ->]; (split; cbn [rep_e rep_a g_kernels g_vecs g_diags g_noise]; try (split; [reflexivity|]; intros [|[|q]] Hq; [| |lia]); try reflexivity; (split; [reflexivity|]; intros row [<-|[]]; reflexivity)). }
  split; [apply SH; now left|]. split; [apply SH; now right|]. split; [reflexivity|]. unfold over_partials, rep_e, rep_a, mget, vget. cbn -[Rabs].
  split; repeat match goal with |- context [Rabs ?x] => first [rewrite (Rabs_right x) by lra | rewrite (Rabs_left x) by lra] end; ring.
Qed.
