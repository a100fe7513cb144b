(** C77: the command line, kernels and errors of benchmarks/benchlib/bench.py. *)

From Coq Require Import Reals List Arith ZArith Ascii String Bool Lia Lra.
From Coq Require Import List.
From Verif Require Import Base NDArray Model_Linalg Model_Util Model_Kern Model_Interp Model_Regex Model_Clean Model_Bench Model_BenchPy Proofs_Linalg Proofs_Loc.
Import ListNotations.
Open Scope R_scope.

(** ** The command line *)

Lemma str_in_spec s l : str_in s l = true <-> In s l.
Proof.
  unfold str_in. rewrite existsb_exists. split.
  - intros (x & H & E). apply str_eqb_eq in E. now subst.
  - intros H. exists s. split; auto. now apply str_eqb_eq.
Qed.

Definition accepted (to_int : str -> option Z) (to_float : str -> option R) (n d r q e k s t : str) (c : bench_cfg) : Prop :=
  to_int n = Some (b_n_o c) /\ to_int d = Some (b_d c) /\ to_int r = Some (b_r_q c) /\ to_int q = Some (b_q c) /\ to_float e = Some (b_eps c) /\
  to_int s = Some (b_seed c) /\ b_kern c = k /\ b_test c = t /\
  (7 < b_n_o c)%Z /\ (0 < b_d c)%Z /\ (1 <= b_r_q c <= b_d c)%Z /\ (0 < b_q c)%Z /\ 0 < b_eps c /\ (0 <= b_seed c < 2 ^ 32)%Z /\
  In k (map list_ascii_of_string ["rbf"; "periodic"; "matern"; "mix"]%string) /\ In t (map list_ascii_of_string ["inv"; "opt"]%string).

Lemma assert_bind {A} b (k : result A) a : (let! _ := assert_that b in k) = Ok a <-> b = true /\ k = Ok a.
Proof. destruct b; cbn; split; intros H; try tauto; [discriminate|destruct H; discriminate]. Qed.

Lemma conv_bind {A B} (o : option A) (k : A -> result B) b : (let! a := conv o in k a) = Ok b <-> exists a, o = Some a /\ k a = Ok b.
Proof.
  destruct o as [a|]; cbn; split.
  - intros H. eauto.
  - intros (x & E & H). injection E as ->. exact H.
  - discriminate.
  - intros (x & E & _). discriminate.
Qed.

(** With all arguments given, the benchmark runs exactly for the values the
    usage message describes.  Missing (partial): the default of the last one. *)
Theorem C77_arguments_partial to_int to_float prog n d r q e k s t c :
  main_args to_int to_float [prog; n; d; r; q; e; k; s; t] = Ok (Some c) <-> accepted to_int to_float n d r q e k s t c.
Proof.
  unfold main_args. cbn [List.length Nat.leb Nat.ltb andb negb nth].
  rewrite conv_bind. split.
  - intros (n_o & E1 & H). rewrite conv_bind in H. destruct H as (dd & E2 & H). rewrite conv_bind in H. destruct H as (rr & E3 & H).
    rewrite conv_bind in H. destruct H as (qq & E4 & H). rewrite conv_bind in H. destruct H as (ee & E5 & H). rewrite conv_bind in H. destruct H as (ss & E6 & H).
    rewrite !assert_bind in H. destruct H as (H1 & H2 & H3 & H4 & H5 & H6 & H7 & H8 & H).
    destruct ((0 <=? ss)%Z && (ss <? 2 ^ 32)%Z)%bool eqn:Q; [|discriminate]. apply Ok_inj in H. injection H as <-.
    apply andb_prop in Q as [Q1 Q2]. apply Z.leb_le in Q1. apply Z.ltb_lt in Q2.
    apply Z.ltb_lt in H1, H2, H3, H5. apply Z.leb_le in H4. destruct (Rlt_dec 0 ee); [|discriminate].
    apply str_in_spec in H7, H8. unfold accepted. cbn [b_n_o b_d b_r_q b_q b_eps b_kern b_seed b_test].
    repeat (split; [assumption || reflexivity || lia|]). assumption.
  - intros (E1 & E2 & E3 & E4 & E5 & E6 & Ek & Et & H1 & H2 & H3 & H4 & H5 & H6 & H7 & H8).
    exists (b_n_o c). split; auto. rewrite conv_bind. exists (b_d c). split; auto. rewrite conv_bind. exists (b_r_q c). split; auto.
    rewrite conv_bind. exists (b_q c). split; auto. rewrite conv_bind. exists (b_eps c). split; auto. rewrite conv_bind. exists (b_seed c). split; auto.
    rewrite !assert_bind. repeat split; try (apply Z.ltb_lt; lia); try (apply Z.leb_le; lia); try (apply str_in_spec; assumption).
    + destruct (Rlt_dec 0 (b_eps c)); [auto|lra].
    + replace ((0 <=? b_seed c)%Z && (b_seed c <? 2 ^ 32)%Z)%bool with true.
      * destruct c; cbn in *; subst. reflexivity.
      * symmetry. apply andb_true_intro. split; [apply Z.leb_le|apply Z.ltb_lt]; lia.
Qed.
Print Assumptions C77_arguments_partial.

Definition ex_int (s : str) : option Z := if str_eqb s ["8"%char] then Some 8%Z else if str_eqb s ["1"%char] then Some 1%Z else None.
Definition ex_float (s : str) : option R := Some 1.
Definition ex_cfg (t : str) := {| b_n_o := 8; b_d := 1; b_r_q := 1; b_q := 8; b_eps := 1; b_kern := list_ascii_of_string "mix"; b_seed := 1; b_test := t |}.

Example C77_arguments_ex : main_args ex_int ex_float [[]; ["8"]; ["1"]; ["1"]; ["8"]; ["1"]; list_ascii_of_string "mix"; ["1"]; list_ascii_of_string "opt"]%char
  = Ok (Some (ex_cfg (list_ascii_of_string "opt"))).
Proof.
  apply C77_arguments_partial. unfold accepted. cbn [b_n_o b_d b_r_q b_q b_eps b_kern b_seed b_test ex_cfg].
  repeat (split; [reflexivity || lia || lra || (cbn; tauto)|]). cbn. tauto.
Qed.

(** Without a test type the benchmark never runs, though the usage gives a
    default for it. *)
Theorem C77_default_refuted :
  (forall to_int to_float argv c, (List.length argv <= 8)%nat -> main_args to_int to_float argv <> Ok (Some c)) /\
  main_args ex_int ex_float [[]; ["8"]; ["1"]; ["1"]; ["8"]; ["1"]; list_ascii_of_string "mix"; ["1"]]%char = Err AssertionError.
Proof.
  split.
  - intros to_int to_float argv c L H. unfold main_args in H.
    destruct (negb _); [discriminate|]. rewrite conv_bind in H. destruct H as (n_o & E1 & H). rewrite conv_bind in H. destruct H as (dd & E2 & H).
    rewrite conv_bind in H. destruct H as (rr & E3 & H). rewrite conv_bind in H. destruct H as (qq & E4 & H). rewrite conv_bind in H. destruct H as (ee & E5 & H).
    destruct (if (7 <? List.length argv)%nat then conv (to_int (nth 7 argv [])) else Ok 1234%Z) as [ss|]; cbn [bind] in H; [|discriminate].
    rewrite !assert_bind in H. destruct H as (_ & _ & _ & _ & _ & _ & _ & H8 & _).
    replace (8 <? List.length argv)%nat with false in H8 by (symmetry; apply Nat.ltb_ge; lia). discriminate H8.
  - unfold main_args, ex_float. cbn. destruct (Rlt_dec 0 1); [reflexivity|lra].
Qed.
Print Assumptions C77_default_refuted.

(** ** The kernels *)

(** The parameter that varies. *)
Definition varying (k : kern) : R := match k with RBF g | Matern32 g => g | StdPeriodic _ T => T | _ => 0 end.
Definition is_rbf k := exists g, k = RBF g.
Definition is_periodic k := exists T, k = StdPeriodic 1 T.
Definition is_matern k := exists g, k = Matern32 g.

Lemma logspace_tab n : np_logspace 0 1 n = tab n (fun k => Rpower 10 (if Nat.eqb n 1 then 0 else INR k / INR (n - 1))).
Proof.
  unfold np_logspace, np_linspace. unfold tab. rewrite map_map. apply map_ext_in. intros k Hk. f_equal.
  destruct (Nat.eqb n 1); [reflexivity|]. unfold Rdiv. rewrite Rminus_0_r. lra.
Qed.

Lemma logspace_range n x : In x (np_logspace 0 1 n) -> 1 <= x <= 10.
Proof.
  rewrite logspace_tab. unfold tab. intros H. apply in_map_iff in H as (k & <- & Hk). apply in_seq in Hk.
  set (e := if Nat.eqb n 1 then 0 else INR k / INR (n - 1)).
  assert (E : 0 <= e <= 1).
  { unfold e. destruct (Nat.eqb n 1) eqn:Q; [lra|]. apply Nat.eqb_neq in Q.
    assert (0 < INR (n - 1)) by (apply lt_0_INR; lia). assert (INR k <= INR (n - 1)) by (apply le_INR; lia). pose proof (pos_INR k).
    split; [apply Rmult_le_pos; auto; left; now apply Rinv_0_lt_compat|].
    apply Rmult_le_reg_r with (INR (n - 1)); auto. unfold Rdiv. rewrite Rmult_assoc, Rinv_l by lra. lra. }
  split.
  - rewrite <- (Rpower_O 10) by lra. apply Rle_Rpower; lra.
  - rewrite <- (Rpower_1 10) at 2 by lra. apply Rle_Rpower; lra.
Qed.

Lemma logspace_length n : List.length (np_logspace 0 1 n) = n.
Proof. rewrite logspace_tab. apply tab_length. Qed.

Lemma triples_length g : List.length (flat_map (fun gamma => map (fun kfunc : R -> kern => kfunc gamma) kern_funcs) g) = (3 * List.length g)%nat.
Proof. induction g as [|x g IH]; cbn [flat_map List.length]; auto. rewrite app_length, IH. cbn. lia. Qed.

(** Each choice has q kernels; three are of one kind, each with its parameter
    going up from 1 to 10 (1 alone for q = 1); the mixed one goes through the
    three kinds in turn, and all parameters lie between 1 and 10. *)
Theorem C77_kernels q : (0 < q)%nat ->
  exists rbf periodic matern mix, gen_kernels q = [rbf; periodic; matern; mix] /\
  kdict q (list_ascii_of_string "rbf") = Ok rbf /\ kdict q (list_ascii_of_string "periodic") = Ok periodic /\
  kdict q (list_ascii_of_string "matern") = Ok matern /\ kdict q (list_ascii_of_string "mix") = Ok mix /\
  (forall l, In l [rbf; periodic; matern; mix] -> List.length l = q /\ forall k, In k l -> 1 <= varying k <= 10) /\
  (forall l, In l [rbf; periodic; matern] -> forall i, (i < q)%nat -> varying (nth i l KIdentity) = Rpower 10 (INR i / INR (Nat.max 1 (q - 1)))) /\
  (forall k, In k rbf -> is_rbf k) /\ (forall k, In k periodic -> is_periodic k) /\ (forall k, In k matern -> is_matern k) /\
  (forall i, (i < q)%nat -> (i < 3 * Nat.max (q / 3) 1)%nat ->
    (i mod 3 = 0%nat -> is_rbf (nth i mix KIdentity)) /\ (i mod 3 = 1%nat -> is_periodic (nth i mix KIdentity)) /\ (i mod 3 = 2%nat -> is_matern (nth i mix KIdentity))).
Proof.
  intros Hq. unfold kdict. cbv delta [gen_kernels] beta. cbv zeta. cbn [kern_funcs map app].
  set (rbf := map RBF (np_logspace 0 1 q)). set (per := map (fun period => StdPeriodic 1 period) (np_logspace 0 1 q)). set (mat := map Matern32 (np_logspace 0 1 q)).
  set (g := np_logspace 0 1 (Nat.max (q / 3) 1)).
  set (tr := flat_map (fun gamma => [RBF gamma; StdPeriodic 1 gamma; Matern32 gamma]) g).
  match goal with |- exists a b c d, [_; _; _; ?m] = _ /\ _ => set (mix := m) end.
  assert (Ltr : List.length tr = (3 * Nat.max (q / 3) 1)%nat).
  { unfold tr. change (fun gamma => [RBF gamma; StdPeriodic 1 gamma; Matern32 gamma]) with (fun gamma => map (fun kfunc : R -> kern => kfunc gamma) kern_funcs).
    rewrite triples_length. unfold g. now rewrite logspace_length. }
  assert (Vtr : forall k, In k tr -> 1 <= varying k <= 10).
  { intros k Hk. unfold tr in Hk. apply in_flat_map in Hk as (x & Hx & Hk). apply logspace_range in Hx.
    destruct Hk as [<-|[<-|[<-|[]]]]; exact Hx. }
  assert (Ntr : forall i, (i < List.length tr)%nat ->
    (i mod 3 = 0%nat -> is_rbf (nth i tr KIdentity)) /\ (i mod 3 = 1%nat -> is_periodic (nth i tr KIdentity)) /\ (i mod 3 = 2%nat -> is_matern (nth i tr KIdentity))).
  { unfold tr. clearbody g. clear. induction g as [|x g IH]; intros i Hi; [cbn in Hi; lia|].
    cbn [flat_map app] in *. destruct i as [|[|[|i]]].
    - cbn. repeat split; intros H; try discriminate. exists x; auto.
    - cbn. repeat split; intros H; try discriminate. exists x; auto.
    - cbn. repeat split; intros H; try discriminate. exists x; auto.
    - cbn [nth]. replace (S (S (S i)) mod 3)%nat with (i mod 3)%nat by (replace (S (S (S i))) with (i + 1 * 3)%nat by lia; symmetry; apply Nat.mod_add; lia).
      apply IH. cbn [List.length] in Hi. lia. }
  assert (Lmix : List.length mix = q).
  { unfold mix. destruct (q <? List.length tr)%nat eqn:Q.
    - apply Nat.ltb_lt in Q. rewrite firstn_length. lia.
    - apply Nat.ltb_ge in Q. rewrite app_length, map_length, seq_length. lia. }
  assert (Vmix : forall k, In k mix -> 1 <= varying k <= 10).
  { unfold mix. intros k. destruct (q <? List.length tr)%nat.
    - intros Hk. apply Vtr. rewrite <- (firstn_skipn q tr). apply in_or_app; auto.
    - intros Hk. apply in_app_or in Hk as [Hk|Hk]; auto. apply in_map_iff in Hk as (j & <- & _). cbn. lra. }
  assert (NR : forall (f : R -> kern) i, (forall x, varying (f x) = x) -> (i < q)%nat -> varying (nth i (map f (np_logspace 0 1 q)) KIdentity) = Rpower 10 (INR i / INR (Nat.max 1 (q - 1)))).
  { intros f i Hf Hi. rewrite (nth_indep _ KIdentity (f 0)) by (rewrite map_length, logspace_length; auto).
    rewrite map_nth, Hf, logspace_tab, nth_tab by auto. f_equal. destruct (Nat.eqb q 1) eqn:Q.
    - apply Nat.eqb_eq in Q. replace i with 0%nat by lia. unfold Rdiv. cbn [INR]. lra.
    - apply Nat.eqb_neq in Q. now rewrite Nat.max_r by lia. }
  exists rbf, per, mat, mix. split; [reflexivity|].
  split; [reflexivity|]. split; [reflexivity|]. split; [reflexivity|]. split; [reflexivity|].
  split; [|split; [|split; [|split; [|split]]]].
  - intros l [E|[E|[E|[E|[]]]]]; rewrite <- E; clear E.
    + split; [unfold rbf; rewrite map_length; apply logspace_length|]. intros k Hk. apply in_map_iff in Hk as (x & <- & Hx). now apply logspace_range in Hx.
    + split; [unfold per; rewrite map_length; apply logspace_length|]. intros k Hk. apply in_map_iff in Hk as (x & <- & Hx). now apply logspace_range in Hx.
    + split; [unfold mat; rewrite map_length; apply logspace_length|]. intros k Hk. apply in_map_iff in Hk as (x & <- & Hx). now apply logspace_range in Hx.
    + split; auto.
  - intros l [E|[E|[E|[]]]] i Hi; rewrite <- E; apply NR; auto.
  - intros k Hk. apply in_map_iff in Hk as (x & <- & _). now exists x.
  - intros k Hk. apply in_map_iff in Hk as (x & <- & _). now exists x.
  - intros k Hk. apply in_map_iff in Hk as (x & <- & _). now exists x.
  - intros i Hi Ht. rewrite <- Ltr in Ht.
    assert (E : nth i mix KIdentity = nth i tr KIdentity).
    { unfold mix. destruct (q <? List.length tr)%nat.
      - rewrite <- (firstn_skipn q tr) at 2. rewrite app_nth1; auto. rewrite firstn_length. lia.
      - rewrite app_nth1; auto. }
    rewrite E. now apply Ntr.
Qed.
Print Assumptions C77_kernels.

Example C77_kernels_ex : exists mix, kdict 4 (list_ascii_of_string "mix") = Ok mix /\ mix = [RBF (Rpower 10 0); StdPeriodic 1 (Rpower 10 0); Matern32 (Rpower 10 0); RBF 1].
Proof. eexists. split; [reflexivity|]. reflexivity. Qed.

(** ** The relative errors *)

Lemma norm1_nonneg x : 0 <= norm1 x.
Proof. induction x as [|a x IH]; cbn; [lra|]. pose proof (Rabs_pos a). fold (norm1 x). lra. Qed.
Lemma norm1_zero x : norm1 x = 0 <-> forall a, In a x -> a = 0.
Proof.
  induction x as [|a x IH]; cbn [norm1 fold_right]; [split; [intros _ a []|auto]|]. fold (norm1 x).
  pose proof (Rabs_pos a). pose proof (norm1_nonneg x). split.
  - intros H1 b [<-|Hb].
    + destruct (Req_dec a 0); auto. apply Rabs_pos_lt in H2. lra.
    + apply IH; auto. lra.
  - intros H1. rewrite (H1 a) by now left. rewrite Rabs_R0, (proj2 IH); [lra|]. intros; apply H1; now right.
Qed.
Lemma sumsq_nonneg x : 0 <= fold_right (fun a s => a ^ 2 + s) 0 x.
Proof. induction x as [|a x IH]; cbn [fold_right]; [lra|]. pose proof (pow2_ge_0 a). lra. Qed.
Lemma norm2_zero x : norm2 x = 0 <-> forall a, In a x -> a = 0.
Proof.
  unfold norm2. assert (E : sqrt (fold_right (fun a s => a ^ 2 + s) 0 x) = 0 <-> fold_right (fun a s => a ^ 2 + s) 0 x = 0).
  { split; [apply sqrt_eq_0, sumsq_nonneg|]. intros ->. apply sqrt_0. }
  rewrite E. clear E. induction x as [|a x IH]; cbn [fold_right]; [split; [intros _ a []|auto]|].
  pose proof (pow2_ge_0 a). pose proof (sumsq_nonneg x). split.
  - intros H1 b [<-|Hb].
    + assert (a ^ 2 = 0) by lra. rewrite <- Rsqr_pow2 in H2. now apply Rsqr_eq_0.
    + apply IH; auto. lra.
  - intros H1. rewrite (H1 a) by now left. rewrite (proj2 IH); [lra|]. intros; apply H1; now right.
Qed.

Lemma sub_length a b : List.length a = List.length b -> np_sub a b = Ok (tab (List.length a) (fun i => vget a i - vget b i)).
Proof. intros H. unfold np_sub. now rewrite H, Nat.eqb_refl. Qed.

(** For vectors of one length, of which the exact one is not zero, the errors are
    the norms of the difference over those of the exact vector; they are 0
    exactly if the vectors agree, and do not depend on the unit. *)
Theorem C77_errors approx exact :
  List.length approx = List.length exact -> (exists y, In y exact /\ y <> 0) ->
  exists e1 e2, vector_errors approx exact = Ok (Some e1, Some e2) /\ 0 <= e1 /\ 0 <= e2 /\
  e1 * Rsum (List.length exact) (fun i => Rabs (vget exact i)) = Rsum (List.length exact) (fun i => Rabs (vget approx i - vget exact i)) /\
  e2 * sqrt (Rsum (List.length exact) (fun i => vget exact i ^ 2)) = sqrt (Rsum (List.length exact) (fun i => (vget approx i - vget exact i) ^ 2)) /\
  (e1 = 0 <-> approx = exact) /\ (e2 = 0 <-> approx = exact) /\
  (forall c, c <> 0 -> vector_errors (map (Rmult c) approx) (map (Rmult c) exact) = Ok (Some e1, Some e2)).
Proof.
  intros L (y & Hy & Ny).
  assert (G1 : forall n (f : nat -> R), norm1 (tab n f) = Rsum n (fun i => Rabs (f i))).
  { intros n f. unfold tab. rewrite <- (lsum_tab n (fun i => Rabs (f i))). unfold tab. generalize (seq 0 n). intros s. induction s as [|a s IH]; cbn; auto. fold (norm1 (map f s)). rewrite IH. reflexivity. }
  assert (G2 : forall n (f : nat -> R), fold_right (fun a s => a ^ 2 + s) 0 (tab n f) = Rsum n (fun i => f i ^ 2)).
  { intros n f. unfold tab. rewrite <- (lsum_tab n (fun i => f i ^ 2)). unfold tab. generalize (seq 0 n). intros s. induction s as [|a s IH]; [reflexivity|]. cbn [map fold_right lsum]. rewrite IH. reflexivity. }
  assert (T : forall l : vec, l = tab (List.length l) (vget l)).
  { intros l. apply nth_ext with (d := 0) (d' := 0); [now rewrite tab_length|]. intros i Hi. now rewrite nth_tab. }
  set (df := tab (List.length exact) (fun i => vget approx i - vget exact i)).
  assert (D0 : (forall a, In a df -> a = 0) <-> approx = exact).
  { split.
    - intros H. apply nth_ext with (d := 0) (d' := 0); auto. intros i Hi. rewrite L in Hi.
      assert (In (vget approx i - vget exact i) df) by (unfold df, tab; apply in_map_iff; exists i; split; auto; apply in_seq; lia).
      specialize (H _ H0). unfold vget in H. lra.
    - intros -> a Ha. unfold df, tab in Ha. apply in_map_iff in Ha as (i & <- & _). lra. }
  assert (N1 : norm1 exact <> 0) by (intros Z; apply Ny; now apply (proj1 (norm1_zero exact) Z)).
  assert (N2 : norm2 exact <> 0) by (intros Z; apply Ny; now apply (proj1 (norm2_zero exact) Z)).
  assert (P1 : 0 < norm1 exact) by (pose proof (norm1_nonneg exact); lra).
  assert (P2 : 0 < norm2 exact) by (pose proof (sqrt_pos (fold_right (fun a s => a ^ 2 + s) 0 exact)) as Q; unfold norm2 in *; lra).
  assert (V : forall c, c <> 0 -> vector_errors (map (Rmult c) approx) (map (Rmult c) exact) = Ok (Some (norm1 df / norm1 exact), Some (norm2 df / norm2 exact))).
  { intros c Hc. unfold vector_errors. rewrite sub_length by (now rewrite !map_length). cbn [bind]. rewrite map_length, L.
    assert (S1 : forall l, norm1 (map (Rmult c) l) = Rabs c * norm1 l).
    { intros l. induction l as [|a l IH]; cbn; [lra|]. fold (norm1 l) (norm1 (map (Rmult c) l)). rewrite IH, Rabs_mult. lra. }
    assert (S2 : forall l, norm2 (map (Rmult c) l) = Rabs c * norm2 l).
    { intros l. unfold norm2. rewrite <- sqrt_Rsqr_abs, <- sqrt_mult_alt by apply Rle_0_sqr. f_equal. induction l as [|a l IH]; cbn [map fold_right]; [lra|]. rewrite IH. unfold Rsqr. ring. }
    assert (Dc : tab (List.length exact) (fun i => vget (map (Rmult c) approx) i - vget (map (Rmult c) exact) i) = map (Rmult c) df).
    { unfold df. unfold tab. rewrite map_map. apply map_ext_in. intros i Hi. apply in_seq in Hi.
      unfold vget. rewrite !(nth_indep (map (Rmult c) _) 0 (c * 0)) by (rewrite map_length; lia). rewrite !map_nth. ring. }
    rewrite Dc, !S1, !S2. unfold npf_div.
    assert (Ac : 0 < Rabs c) by now apply Rabs_pos_lt.
    destruct (Req_EM_T (Rabs c * norm1 exact) 0) as [Z|_]; [apply Rmult_integral in Z as [Z|Z]; [lra|congruence]|].
    destruct (Req_EM_T (Rabs c * norm2 exact) 0) as [Z|_]; [apply Rmult_integral in Z as [Z|Z]; [lra|congruence]|].
    f_equal. f_equal; f_equal; field; split; lra. }
  exists (norm1 df / norm1 exact), (norm2 df / norm2 exact).
  assert (V1 : vector_errors approx exact = Ok (Some (norm1 df / norm1 exact), Some (norm2 df / norm2 exact))).
  { specialize (V 1 ltac:(lra)). replace (map (Rmult 1) approx) with approx in V; [replace (map (Rmult 1) exact) with exact in V; auto|].
    - clear. induction exact as [|a l IH]; cbn; auto. rewrite Rmult_1_l. now f_equal.
    - clear. induction approx as [|a l IH]; cbn; auto. rewrite Rmult_1_l. now f_equal. }
  split; auto.
  assert (I1 : 0 < / norm1 exact) by now apply Rinv_0_lt_compat. assert (I2 : 0 < / norm2 exact) by now apply Rinv_0_lt_compat.
  split; [apply Rmult_le_pos; [apply norm1_nonneg|lra]|]. split; [apply Rmult_le_pos; [apply sqrt_pos|lra]|].
  split; [|split; [|split; [|split]]]; auto.
  - rewrite <- (G1 _ (vget exact)), <- T. rewrite <- (G1 _ (fun i => vget approx i - vget exact i)). fold df. field. lra.
  - rewrite <- (G2 _ (vget exact)), <- T. rewrite <- (G2 _ (fun i => vget approx i - vget exact i)). fold df. fold (norm2 exact) (norm2 df). field. lra.
  - rewrite <- D0, <- norm1_zero. split; intros H.
    + apply Rmult_integral in H as [H|H]; [auto|lra].
    + rewrite H. lra.
  - rewrite <- D0, <- norm2_zero. split; intros H.
    + apply Rmult_integral in H as [H|H]; [auto|lra].
    + rewrite H. lra.
Qed.
Print Assumptions C77_errors.

Example C77_errors_ex : List.length [1; 2] = List.length [1; 4] /\ (exists y, In y [1; 4] /\ y <> 0) /\ [1; 2] <> [1; 4].
Proof. split; [reflexivity|]. split; [exists 1; split; [now left|lra]|]. intros H. injection H. lra. Qed.
