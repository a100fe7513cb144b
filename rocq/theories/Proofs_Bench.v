(** Proofs about the scores and splits of the benchmarks. *)

From Coq Require Import Reals List Arith Lia Lra.
From Verif Require Import Base NDArray Model_Linalg Model_Util Proofs_Linalg Proofs_FK Proofs_Lik7 Model_Bench Spec_Bench.
Import ListNotations.
Open Scope R_scope.

(** ** Lists *)

Lemma take_ok {A} (l : list A) d ixs : (forall i, In i ixs -> (i < length l)%nat) -> take l ixs = Ok (map (fun i => nth i l d) ixs).
Proof.
  intros H. unfold take. apply map_result_all. intros i Hi. unfold getitem. rewrite (nth_error_nth' l d) by now apply H. reflexivity.
Qed.

Lemma filter_map_S (p : nat -> bool) l : filter p (map S l) = map S (filter (fun i => p (S i)) l).
Proof. induction l as [|x l IH]; [reflexivity|]. cbn. destruct (p (S x)); cbn; now rewrite IH. Qed.

Lemma map_filter_seq {A B C} (ga : A -> B) (gb : A -> C) db dc (p : B -> bool) l :
  map (fun i => nth i (map gb l) dc) (filter (fun i => p (nth i (map ga l) db)) (seq 0 (length l))) = map gb (filter (fun x => p (ga x)) l).
Proof.
  induction l as [|x l IH]; [reflexivity|]. cbn [length seq]. rewrite <- seq_shift. cbn [filter map nth].
  rewrite filter_map_S. cbn [nth]. destruct (p (ga x)); cbn [map nth]; rewrite map_map; cbn [nth]; now rewrite IH.
Qed.

Definition nonempty (v : vec) : bool := Nat.ltb 0 (length v).

Lemma filter_cols {A} (ga gb gc : A -> vec) l :
  filter_nonempty_cols (map ga l) (map gb l) (map gc l) =
  let l' := filter (fun x => nonempty (ga x)) l in Ok (map ga l', map gb l', map gc l').
Proof.
  unfold filter_nonempty_cols, filter_list. cbv zeta. rewrite map_length.
  assert (R : forall (g : A -> vec), take (map g l) (filter (fun i => Nat.ltb 0 (length (nth i (map ga l) []))) (seq 0 (length l))) = Ok (map g (filter (fun x => nonempty (ga x)) l))).
  { intros g. rewrite (@take_ok vec _ []).

    - f_equal. apply (map_filter_seq ga g [] [] nonempty l).
    - intros i Hi. apply filter_In in Hi. destruct Hi as [Hi _]. apply in_seq in Hi. rewrite map_length. lia. }
  rewrite !R. reflexivity.
Qed.

Lemma as_map (Y : list vec) D : length Y = D -> Y = map (fun d => nth d Y []) (seq 0 D).
Proof.
  intros <-. induction Y as [|y Y IH]; [reflexivity|]. cbn [length seq map nth]. f_equal. rewrite <- seq_shift, map_map. cbn [nth]. exact IH.
Qed.

Lemma filter_cols_nth a b c D : length a = D -> length b = D -> length c = D ->
  filter_nonempty_cols a b c = let l' := filter (tested a) (seq 0 D) in
    Ok (map (fun d => nth d a []) l', map (fun d => nth d b []) l', map (fun d => nth d c []) l').
Proof. intros La Lb Lc. rewrite (as_map a D La), (as_map b D Lb), (as_map c D Lc) at 1. apply filter_cols. Qed.

Lemma zip3_map {A B1 B2 B3} (f1 : A -> B1) (f2 : A -> B2) (f3 : A -> B3) l :
  zip3 (map f1 l) (map f2 l) (map f3 l) = map (fun x => (f1 x, f2 x, f3 x)) l.
Proof. induction l as [|x l IH]; [reflexivity|]. unfold zip3 in *. cbn. now rewrite IH. Qed.
Lemma combine_map2 {A B1 B2} (f1 : A -> B1) (f2 : A -> B2) l : combine (map f1 l) (map f2 l) = map (fun x => (f1 x, f2 x)) l.
Proof. induction l as [|x l IH]; [reflexivity|]. cbn. now rewrite IH. Qed.
Lemma map_result_map' {A B C} (f : B -> result C) (g : A -> B) l : map_result f (map g l) = map_result (fun x => f (g x)) l.
Proof. induction l as [|x l IH]; [reflexivity|]. cbn. rewrite IH. reflexivity. Qed.

(** ** Means *)

Lemma npf_mean_some l : l <> [] -> npf_mean (map Some l) = Some (lsum l / INR (length l)).
Proof.
  intros H. unfold npf_mean. destruct l as [|x l]; [congruence|]. clear H.
  assert (F : forall v : list R, fold_right (fun x acc => match x, acc with Some a, Some s => Some (a + s) | _, _ => None end) (Some 0) (map Some v) = Some (lsum v)).
  { induction v as [|y v IH]; [reflexivity|]. cbn [map fold_right]. rewrite IH. reflexivity. }
  rewrite F, map_length. reflexivity.
Qed.
Lemma arr_mean_some v : v <> [] -> arr_mean v = Some (lsum v / INR (length v)).
Proof. apply npf_mean_some. Qed.

Lemma lsum_seq n f : lsum (map f (seq 0 n)) = Rsum n f.
Proof. exact (lsum_tab n f). Qed.

Lemma length_filter_Rsum (p : nat -> bool) n : INR (length (filter p (seq 0 n))) = Rsum n (fun d => if p d then 1 else 0).
Proof.
  rewrite <- lsum_seq. induction (seq 0 n) as [|x l IH]; [reflexivity|]. cbn [filter map]. change (lsum ((if p x then 1 else 0) :: ?l)) with ((if p x then 1 else 0) + lsum l).
  destruct (p x); cbn [length]; [rewrite S_INR, IH|rewrite IH]; cbn [lsum fold_right]; unfold lsum; cbn; lra.
Qed.

Lemma mean_average n p f : (exists d, (d < n)%nat /\ p d = true) -> npf_mean (map (fun d => Some (f d)) (filter p (seq 0 n))) = Some (average n p f).
Proof.
  intros [d [Hd Hp]]. rewrite <- (map_map f Some), npf_mean_some.
  - unfold average. rewrite lsum_filter, lsum_seq, map_length, length_filter_Rsum. reflexivity.
  - intros E. apply map_eq_nil in E. assert (In d (filter p (seq 0 n))) by (apply filter_In; split; [apply in_seq; lia|exact Hp]). rewrite E in H. destruct H.
Qed.

(** ** smse *)

Lemma vec_tab (v : vec) : v = map (vget v) (seq 0 (length v)).
Proof.
  induction v as [|x v IH]; [reflexivity|]. cbn [length seq map]. f_equal. rewrite <- seq_shift, map_map. exact IH.
Qed.
Lemma lsum_sq_map (f : R -> R) v : lsum (np_square (map f v)) = Rsum (length v) (fun i => f (vget v i) ^ 2).
Proof. unfold np_square. rewrite map_map. rewrite (vec_tab v) at 1. rewrite map_map. apply lsum_seq. Qed.

Section Smse.
  Variables T P C : list vec.
  Hypothesis HP : same_shape P T.
  Hypothesis HC : length C = length T.
  Hypothesis Htr : forall d, tested T d = true -> nth d C [] <> [].
  Hypothesis Hsp : forall d, tested T d = true -> sq_spread T C d <> 0.

  Lemma smse_value : (exists d, tested T d = true) -> smse T P C = Ok (Some (average (length T) (tested T) (fun d => sq_error T P d / sq_spread T C d))).
  Proof.
    intros Hex. unfold smse. rewrite (filter_cols_nth T P C (length T)) by (try reflexivity; try apply HP; exact HC). cbv zeta. cbn [bind].
    rewrite zip3_map, map_result_map'.
    rewrite (map_result_all _ (fun d => Some (sq_error T P d / sq_spread T C d))).
    - cbn [bind]. f_equal. apply mean_average. destruct Hex as [d Hd]. exists d. split; [|exact Hd].
      unfold tested, n_ent in Hd. destruct (le_lt_dec (length T) d) as [L|L]; [rewrite nth_overflow in Hd by exact L; discriminate Hd|exact L].
    - intros d Hd. apply filter_In in Hd. destruct Hd as [_ Hd]. pose proof (Htr d Hd) as Htr'. pose proof (Hsp d Hd) as Hsp'.
      unfold tested in Hd. apply Nat.ltb_lt in Hd. destruct HP as [HP1 HP2]. specialize (HP2 d). unfold n_ent in *.
      set (t := nth d T []) in *. set (p := nth d P []) in *. set (c := nth d C []) in *.
      unfold np_sub. rewrite HP2, Nat.eqb_refl. cbn [bind].
      rewrite (arr_mean_some c) by exact Htr'.
      assert (Hn : INR (length t) <> 0) by (apply not_0_INR; lia).
      rewrite !arr_mean_some.
      2:{ unfold np_square. intros E. do 2 apply map_eq_nil in E. rewrite E in Hd. cbn in Hd. lia. }
      2:{ unfold np_square. intros E. apply map_eq_nil in E. apply (f_equal (@length R)) in E. rewrite tab_length in E. cbn in E. lia. }
      assert (E1 : lsum (np_square (tab (length t) (fun i => vget t i - vget p i))) = sq_error T P d).
      { unfold np_square, tab. rewrite map_map, lsum_seq. reflexivity. }
      assert (E2 : lsum (np_square (map (fun y => lsum c / INR (length c) - y) t)) = sq_spread T C d).
      { rewrite lsum_sq_map. unfold sq_spread, n_ent. apply Rsum_ext. intros i Hi. unfold mean_of, n_ent, ent. fold c t.
        assert (L : lsum c = Rsum (length c) (fun j => nth j c 0)) by (rewrite (vec_tab c) at 1; apply lsum_seq).
        rewrite L. change (nth i t 0) with (vget t i). ring. }
      rewrite E1, E2. unfold np_square. rewrite !map_length, tab_length. unfold npf_div.
      destruct (Req_EM_T (sq_spread T C d / INR (length t)) 0) as [Z|Z].
      + exfalso. apply Hsp'. apply (Rmult_eq_reg_r (/ INR (length t))); [|now apply Rinv_neq_0_compat]. rewrite Rmult_0_l. exact Z.
      + do 2 f_equal. field. split; [exact Hsp'|exact Hn].
  Qed.
End Smse.

(** ** nlpd *)

Lemma ln_pdf m v y : 0 < v -> - ln (normal_pdf m v y) = 1 / 2 * ((y - m) ^ 2 / v + ln (2 * PI * v)).
Proof.
  intros Hv. unfold normal_pdf. assert (0 < 2 * PI * v) by (apply Rmult_lt_0_compat; [apply Rmult_lt_0_compat; [lra|apply PI_RGT_0]|exact Hv]).
  unfold Rdiv at 1. rewrite ln_mult by (try apply exp_pos; apply Rinv_0_lt_compat, sqrt_lt_R0; assumption).
  rewrite ln_exp, ln_Rinv by (apply sqrt_lt_R0; assumption).
  assert (E : ln (sqrt (2 * PI * v)) = 1 / 2 * ln (2 * PI * v)).
  { assert (ln (2 * PI * v) = ln (sqrt (2 * PI * v)) + ln (sqrt (2 * PI * v))); [|lra]. rewrite <- ln_mult by (apply sqrt_lt_R0; assumption). rewrite sqrt_sqrt by lra. reflexivity. }
  rewrite E. field. lra.
Qed.

Lemma flatnonzero_counted V d : np_flatnonzero (nth d V []) = filter (counted V d) (seq 0 (n_ent V d)).
Proof. reflexivity. Qed.

Lemma nonempty_some V d (f : nat -> R) : nonempty (map f (filter (counted V d) (seq 0 (n_ent V d)))) = some_counted V d.
Proof.
  unfold nonempty, some_counted. rewrite map_length. induction (seq 0 (n_ent V d)) as [|x l IH]; [reflexivity|]. cbn [filter existsb]. destruct (counted V d x); [reflexivity|exact IH].
Qed.

Section Nlpd.
  Variables T P V : list vec.
  Hypothesis HP : same_shape P T.
  Hypothesis HV : same_shape V T.
  Hypothesis Hpos : forall d i, (i < n_ent V d)%nat -> 0 <= ent V d i.

  Lemma counted_tested d : some_counted V d = true -> (d < length T)%nat /\ tested T d = true.
  Proof.
    intros H. unfold some_counted in H. apply existsb_exists in H. destruct H as [i [Hi Hc]]. apply in_seq in Hi. destruct HV as [L E].
    assert (0 < n_ent V d)%nat by lia. split.
    - unfold n_ent in H. destruct (le_lt_dec (length V) d) as [Q|Q]; [rewrite nth_overflow in H by exact Q; cbn in H; lia|lia].
    - unfold tested. rewrite <- E. now apply Nat.ltb_lt.
  Qed.

  Lemma nlpd_value : (exists d, some_counted V d = true) -> nlpd T P V = Ok (Some (average (length T) (some_counted V) (surprise T P V))).
  Proof.
    intros Hex. unfold nlpd. pose proof HP as [LP EP]. pose proof HV as [LV EV]. rewrite (filter_cols_nth T P V (length T)) by (try reflexivity; assumption). cbv zeta. cbn [bind].
    set (l := filter (tested T) (seq 0 (length T))).
    set (sel := fun d => filter (counted V d) (seq 0 (n_ent V d))).
    unfold filter_by_selection. rewrite map_map.
    assert (S1 : forall Y, same_shape Y T -> map_result (fun p => take (fst p) (snd p)) (combine (map (fun d => nth d Y []) l) (map (fun d => np_flatnonzero (nth d V [])) l)) =
      Ok (map (fun d => map (ent Y d) (sel d)) l)).
    { intros Y [LY EY]. rewrite combine_map2, map_result_map'. apply map_result_all. intros d Hd. cbn [fst snd]. rewrite (take_ok _ 0); [reflexivity|].
      intros i Hi. apply filter_In in Hi. destruct Hi as [Hi _]. apply in_seq in Hi. change (length (nth d Y [])) with (n_ent Y d). rewrite EY, <- EV. unfold n_ent. lia. }
    pose proof (S1 T (conj eq_refl (fun _ => eq_refl))) as ST. pose proof (S1 P HP) as SP. pose proof (S1 V HV) as SV.
    unfold vec in *. rewrite ST. cbn [bind]. rewrite SP. cbn [bind]. rewrite SV. cbn [bind]. rewrite filter_cols. cbv zeta. cbn [bind]. rewrite zip3_map, map_result_map'.
    assert (FL : filter (fun x => nonempty (map (ent T x) (sel x))) l = filter (some_counted V) (seq 0 (length T))).
    { unfold l. rewrite filter_filter. apply filter_ext_in. intros d Hd. unfold sel. rewrite nonempty_some. destruct (some_counted V d) eqn:E; [|reflexivity].
      cbn. now apply counted_tested. }
    rewrite FL. rewrite (map_result_all _ (fun d => Some (surprise T P V d))).
    - cbn [bind]. f_equal. apply mean_average. destruct Hex as [d Hd]. exists d. split; [now apply counted_tested|exact Hd].
    - intros d Hd. apply filter_In in Hd. destruct Hd as [_ Hd]. unfold np_sub. rewrite !map_length, Nat.eqb_refl. cbn [bind]. rewrite tab_length. f_equal.
      set (n := length (sel d)).
      assert (Ht : map (fun i => match npf_div (Some (vget (tab n (fun i0 => vget (map (ent T d) (sel d)) i0 - vget (map (ent P d) (sel d)) i0)) i ^ 2)) (Some (vget (map (ent V d) (sel d)) i)),
                  np_log (2 * PI * vget (map (ent V d) (sel d)) i) with Some a, Some b => Some (a + b) | _, _ => None end) (seq 0 n) =
               map (fun j => Some (2 * - ln (normal_pdf (ent P d j) (ent V d j) (ent T d j)))) (sel d)).
      { assert (Hs : sel d = map (fun i => nth i (sel d) 0%nat) (seq 0 n)).
        { unfold n. clear. induction (sel d) as [|x s IH]; [reflexivity|]. cbn [length seq map nth]. f_equal. rewrite <- seq_shift, map_map. exact IH. }
        match goal with |- _ = map ?F (sel d) => transitivity (map F (map (fun i => nth i (sel d) 0%nat) (seq 0 n))); [|now rewrite <- Hs] end.
        rewrite map_map. apply map_ext_in. intros i Hi. apply in_seq in Hi.
        assert (G : forall Y, vget (map (ent Y d) (sel d)) i = ent Y d (nth i (sel d) 0%nat)).
        { intros Y. unfold vget. rewrite (nth_indep _ 0 (ent Y d 0%nat)) by (rewrite map_length; fold n; lia). apply map_nth. }
        rewrite vget_tab, !G by lia. set (j := nth i (sel d) 0%nat).
        assert (Hj : In j (sel d)) by (apply nth_In; fold n; lia). apply filter_In in Hj. destruct Hj as [Hj Cj]. apply in_seq in Hj.
        assert (Vp : 0 < ent V d j). { unfold counted in Cj. destruct (Req_EM_T (ent V d j) 0); [discriminate Cj|]. pose proof (Hpos d j ltac:(lia)). lra. }
        unfold npf_div, np_log. destruct (Req_EM_T (ent V d j) 0); [lra|].
        destruct (Rlt_dec 0 (2 * PI * ent V d j)) as [_|N]; [|exfalso; apply N; apply Rmult_lt_0_compat; [apply Rmult_lt_0_compat; [lra|apply PI_RGT_0]|exact Vp]].
        rewrite ln_pdf by exact Vp. f_equal. field. lra. }
      rewrite Ht. unfold sel. rewrite mean_average.
      + f_equal. unfold surprise, average. rewrite (Rsum_ext _ (fun i => if counted V d i then 2 * - ln (normal_pdf (ent P d i) (ent V d i) (ent T d i)) else 0)
          (fun i => 2 * (if counted V d i then - ln (normal_pdf (ent P d i) (ent V d i) (ent T d i)) else 0))) by (intros; destruct (counted V d i); ring).
        rewrite Rsum_scal_l. lra.
      + unfold some_counted in Hd. apply existsb_exists in Hd. destruct Hd as [i [Hi Ci]]. apply in_seq in Hi. exists i. split; [lia|exact Ci].
  Qed.
End Nlpd.
