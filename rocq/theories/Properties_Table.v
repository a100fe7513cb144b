(** C76: the statistics of repeated runs and the table made of them. *)

From Coq Require Import Reals List Arith Ascii String Bool Lia Lra.
From Coq Require Import List.
From Verif Require Import Base Model_Linalg Model_Util Model_Regex Model_Bench Model_Table Proofs_Linalg.
Import ListNotations.
Open Scope R_scope.

(** ** Vocabulary *)

Definition cell (show : R -> str) (x : R * R) : str := cs "$" ++ show (fst x) ++ cs "$ ($" ++ show (snd x) ++ cs "$)".
Definition bold_cell (show : R -> str) (x : R * R) : str := cs "$\textbf{" ++ show (fst x) ++ cs "}$ ($\textbf{" ++ show (snd x) ++ cs "}$)".

(** The first of those with the smallest mean. *)
Definition is_best (l : list (R * R)) (b : nat) : Prop :=
  (b < List.length l)%nat /\ (forall j, (j < List.length l)%nat -> fst (nth b l (0, 0)) <= fst (nth j l (0, 0))) /\
  (forall j, (j < b)%nat -> fst (nth b l (0, 0)) < fst (nth j l (0, 0))).

Definition row_text (show : R -> str) (metric : str) (l : list (R * R)) (b : nat) : str :=
  join (cs " & ") (metric :: tab (List.length l) (fun j => (if Nat.eqb j b then bold_cell else cell) show (nth j l (0, 0)))) ++ cs "\\" ++ [ascii_of_nat 10].

Definition column (k : nat) (l : list (list (R * R))) : list (R * R) := map (fun c => nth k c (0, 0)) l.

(** ** Proofs *)

Lemma split_dollar_app a r : ~ In "$"%char a -> split_dollar (a ++ "$"%char :: r) = a :: split_dollar r.
Proof.
  induction a as [|c a IH]; intros H.
  - cbn [app]. cbn [split_dollar]. destruct (split_dollar r) eqn:E; [|reflexivity].
    exfalso. clear - E. destruct r; cbn in E; [discriminate|]. destruct (split_dollar r); [discriminate|]. destruct (Ascii.eqb a "$"); discriminate.
  - cbn [app split_dollar]. rewrite IH by (intros X; apply H; now right).
    destruct (Ascii.eqb c "$") eqn:E; [|reflexivity]. apply Ascii.eqb_eq in E. subst. exfalso. apply H. now left.
Qed.

Lemma split_dollar_none a : ~ In "$"%char a -> split_dollar a = [a].
Proof.
  induction a as [|c a IH]; intros H; [reflexivity|]. cbn [split_dollar]. rewrite IH by (intros X; apply H; now right).
  destruct (Ascii.eqb c "$") eqn:E; [|reflexivity]. apply Ascii.eqb_eq in E. subst. exfalso. apply H. now left.
Qed.

Definition shows (show : R -> str) : Prop := forall x, show x <> [] /\ ~ In "$"%char (show x).

Lemma statprint_cell show x : statprint show x = cell show x.
Proof. reflexivity. Qed.

Lemma split_cell show x : shows show -> filter nonempty (split_dollar (cell show x)) = [show (fst x); cs " ("; show (snd x); cs ")"].
Proof.
  intros H. destruct (H (fst x)) as [N1 D1], (H (snd x)) as [N2 D2]. unfold cell.
  change (cs "$" ++ show (fst x) ++ cs "$ ($" ++ show (snd x) ++ cs "$)") with
    ([] ++ "$"%char :: (show (fst x) ++ "$"%char :: (cs " (" ++ "$"%char :: (show (snd x) ++ "$"%char :: cs ")")))).
  rewrite split_dollar_app by (intros []). rewrite split_dollar_app by auto. rewrite split_dollar_app by (cbn; intuition discriminate).
  rewrite split_dollar_app by auto. rewrite split_dollar_none by (cbn; intuition discriminate).
  cbn [filter nonempty]. destruct (show (fst x)); [congruence|]. destruct (show (snd x)); [congruence|]. reflexivity.
Qed.

Lemma best_fold l n : (n < List.length l)%nat ->
  let b := fold_left (fun best r => if Rlt_dec (fst (nth r l (0, 0))) (fst (nth best l (0, 0))) then r else best) (seq 1 n) 0%nat in
  (b <= n)%nat /\ (forall j, (j <= n)%nat -> fst (nth b l (0, 0)) <= fst (nth j l (0, 0))) /\ (forall j, (j < b)%nat -> fst (nth b l (0, 0)) < fst (nth j l (0, 0))).
Proof.
  induction n as [|n IH]; intros H.
  - cbn [seq fold_left]. split; [lia|]. split; [intros j Hj; replace j with 0%nat by lia; lra|intros; lia].
  - rewrite seq_S, fold_left_app. cbn [fold_left].
    destruct (IH ltac:(lia)) as (A & B & C). clear IH. set (b := fold_left _ (seq 1 n) 0%nat) in *. cbv zeta.
    replace (1 + n)%nat with (S n) by lia.
    destruct (Rlt_dec (fst (nth (S n) l (0, 0))) (fst (nth b l (0, 0)))) as [L|L].
    + split; [lia|]. split.
      * intros j Hj. destruct (Nat.eq_dec j (S n)); [subst; lra|]. specialize (B j ltac:(lia)). lra.
      * intros j Hj. specialize (B j ltac:(lia)). lra.
    + split; [lia|]. split; auto. intros j Hj. destruct (Nat.eq_dec j (S n)); [subst; lra|]. apply B; lia.
Qed.

Lemma best_index_ok l : l <> [] -> exists b, best_index l = Ok b /\ is_best l b.
Proof.
  intros H. unfold best_index. destruct l as [|x l]; [congruence|]. eexists. split; [reflexivity|].
  destruct (best_fold (x :: l) (List.length (x :: l) - 1)) as (A & B & C); [cbn; lia|].
  cbv zeta in *. split; [cbn [List.length] in *; lia|]. split; auto. intros j Hj. apply B. lia.
Qed.

Lemma set_nth_tab {A} n (f : nat -> A) i x : (i < n)%nat -> set_nth (tab n f) i x = tab n (fun j => if Nat.eqb j i then x else f j).
Proof.
  intros H. unfold set_nth. apply nth_ext with (d := x) (d' := x).
  - rewrite app_length. cbn [List.length]. rewrite firstn_length, skipn_length, !tab_length. lia.
  - intros j Hj. rewrite app_length in Hj. cbn [List.length] in Hj. rewrite firstn_length, skipn_length, tab_length in Hj.
    rewrite (nth_tab n (fun j => if Nat.eqb j i then x else f j) j x) by lia.
    assert (FL : List.length (firstn i (tab n f)) = i) by (rewrite firstn_length, tab_length; lia).
    destruct (lt_eq_lt_dec j i) as [[L|L]|L].
    + rewrite app_nth1 by lia. replace (Nat.eqb j i) with false by (symmetry; apply Nat.eqb_neq; lia).
      rewrite <- (nth_tab n f j x) by lia. rewrite <- (firstn_skipn i (tab n f)) at 2. rewrite app_nth1 by lia. reflexivity.
    + subst j. rewrite app_nth2, FL, Nat.sub_diag by lia. rewrite Nat.eqb_refl. reflexivity.
    + rewrite app_nth2, FL by lia. replace (Nat.eqb j i) with false by (symmetry; apply Nat.eqb_neq; lia).
      replace (j - i)%nat with (S (j - S i)) by lia. cbn [nth].
      rewrite <- (nth_tab n f j x) by lia. rewrite <- (firstn_skipn (S i) (tab n f)) at 2.
      assert (FL' : List.length (firstn (S i) (tab n f)) = S i) by (rewrite firstn_length, tab_length; lia).
      rewrite app_nth2 by lia. rewrite FL'. reflexivity.
Qed.

Lemma map_as_tab {A B} (f : A -> B) l d : map f l = tab (List.length l) (fun j => f (nth j l d)).
Proof.
  apply nth_ext with (d := f d) (d' := f d); [rewrite map_length, tab_length; auto|].
  intros j Hj. rewrite map_length in Hj. rewrite map_nth, nth_tab by auto. reflexivity.
Qed.

Lemma latex_row_ok show metric l : shows show -> l <> [] -> exists b, is_best l b /\ latex_row show metric l = Ok (row_text show metric l b).
Proof.
  intros H N. destruct (best_index_ok l N) as (b & E & B). exists b. split; auto. unfold latex_row. rewrite E. cbn [bind].
  assert (Lb : (b < List.length l)%nat) by apply B.
  rewrite (map_as_tab (statprint show) l (0, 0)). rewrite nth_tab by auto. rewrite statprint_cell, split_cell by auto.
  rewrite set_nth_tab by auto. f_equal. unfold row_text. do 3 f_equal. apply tab_ext. intros j Hj.
  destruct (Nat.eqb j b) eqn:Q; [|reflexivity]. apply Nat.eqb_eq in Q. subst j. unfold bold_cell.
  rewrite <- ?app_assoc. reflexivity.
Qed.

Lemma transpose_3 l : l <> [] -> (forall c, In c l -> List.length c = 3%nat) -> transpose_n 3 l = [column 0 l; column 1 l; column 2 l].
Proof.
  intros N H.
  assert (S3 : forall k m, (forall c, In c m -> (k < List.length c)%nat) ->
            forallb (fun c : list (R * R) => match c with [] => false | _ => true end) (map (skipn k) m) = true /\
            flat_map (fun c : list (R * R) => match c with x :: _ => [x] | [] => [] end) (map (skipn k) m) = column k m).
  { intros k m. induction m as [|c m IH]; intros Hm; [split; reflexivity|].
    assert (Hc : (k < List.length c)%nat) by (apply Hm; now left). destruct IH as [I1 I2]; [intros; apply Hm; now right|].
    cbn [map forallb flat_map column]. destruct (skipn k c) as [|x r] eqn:E.
    - apply (f_equal (@List.length _)) in E. rewrite skipn_length in E. cbn in E. lia.
    - rewrite I1, I2. split; auto. cbn [app]. unfold column. cbn [map]. f_equal.
      rewrite <- (firstn_skipn k c) at 1. rewrite app_nth2 by (rewrite firstn_length; lia).
      rewrite firstn_length, Nat.min_l, Nat.sub_diag, E by lia. reflexivity. }
  assert (T : forall k m, map (@tl _) (map (skipn k) m) = map (skipn (S k)) (m : list (list (R * R)))).
  { intros k m. rewrite map_map. apply map_ext. intros c. clear. revert k; induction c as [|x c IH]; intros [|k]; cbn; auto. apply IH. }
  cbn [transpose_n].
  assert (E0 : map (skipn 0) l = l) by (rewrite <- (map_id l) at 2; apply map_ext; reflexivity).
  rewrite <- E0.
  destruct (S3 0%nat l) as [A0 B0]; [intros c Hc; rewrite H; auto; lia|].
  destruct (S3 1%nat l) as [A1 B1]; [intros c Hc; rewrite H; auto; lia|].
  destruct (S3 2%nat l) as [A2 B2]; [intros c Hc; rewrite H; auto; lia|].
  rewrite A0, B0, !T, A1, B1, A2, B2. rewrite E0. reflexivity.
Qed.

(** ** C76 *)

(** For every metric the table has one row with, for each method, its mean and
    standard error; the first method with the smallest mean is in bold. *)
Theorem C76_table show_d show_f cols col_results :
  shows show_d -> shows show_f -> col_results <> [] -> (forall c, In c col_results -> List.length c = 3%nat) ->
  exists b0 b1 b2, is_best (column 0 col_results) b0 /\ is_best (column 1 col_results) b1 /\ is_best (column 2 col_results) b2 /\
  latex_table show_d show_f cols col_results = Ok (
    cs "\begin{tabular}{" ++ cs "l" ++ repeat "c"%char (List.length cols) ++ cs "}\toprule" ++ [ascii_of_nat 10]
    ++ cs "Metric & " ++ join (cs " & ") cols ++ cs "\\" ++ [ascii_of_nat 10] ++ cs "\midrule" ++ [ascii_of_nat 10]
    ++ row_text show_d (cs "seconds") (column 0 col_results) b0
    ++ row_text show_f (cs "SMSE") (column 1 col_results) b1
    ++ row_text show_f (cs "NLPD") (column 2 col_results) b2
    ++ [ascii_of_nat 10] ++ cs "\bottomrule" ++ [ascii_of_nat 10] ++ cs "\end{tabular}" ++ [ascii_of_nat 10]).
Proof.
  intros Hd Hf N H.
  assert (Nk : forall k, column k col_results <> []) by (intros k; unfold column; destruct col_results; [congruence|discriminate]).
  destruct (latex_row_ok show_d (cs "seconds") _ Hd (Nk 0%nat)) as (b0 & B0 & E0).
  destruct (latex_row_ok show_f (cs "SMSE") _ Hf (Nk 1%nat)) as (b1 & B1 & E1).
  destruct (latex_row_ok show_f (cs "NLPD") _ Hf (Nk 2%nat)) as (b2 & B2 & E2).
  exists b0, b1, b2. repeat (split; [assumption|]). unfold latex_table. cbv zeta.
  assert (T : match col_results with [] => [] | _ => transpose_n 3 col_results end = [column 0 col_results; column 1 col_results; column 2 col_results]).
  { rewrite <- transpose_3 by auto. destruct col_results; [congruence|reflexivity]. }
  rewrite T. cbn [combine map_result]. rewrite E0, E1, E2. cbn [bind List.concat]. f_equal.
  assert (C : List.concat (map (fun _ : str => cs "c") cols) = repeat "c"%char (List.length cols)) by (clear; induction cols; cbn in *; congruence).
  rewrite C. repeat (rewrite <- ?app_assoc). cbn [app]. reflexivity.
Qed.
Print Assumptions C76_table.

Definition ex_show (x : R) : str := cs "1.0".
Example C76_table_ex : exists t, latex_table ex_show ex_show [cs "LLGP"; cs "COGP"] [[(10, 1); (0.2, 0); (1, 0)]; [(200, 3); (0.1, 0); (1, 0)]] = Ok t.
Proof.
  destruct (C76_table ex_show ex_show [cs "LLGP"; cs "COGP"] [[(10, 1); (0.2, 0); (1, 0)]; [(200, 3); (0.1, 0); (1, 0)]]) as (b0 & b1 & b2 & _ & _ & _ & E).
  - intros x. split; [discriminate|]. cbn. intuition discriminate.
  - intros x. split; [discriminate|]. cbn. intuition discriminate.
  - discriminate.
  - intros c [<-|[<-|[]]]; reflexivity.
  - eauto.
Qed.

Lemma sum_some (x : vec) : fold_right (fun a acc => match a, acc with Some a, Some s => Some (a + s) | _, _ => None end) (Some 0) (map Some x) = Some (lsum x).
Proof. induction x as [|a x IH]; cbn; auto. rewrite IH. reflexivity. Qed.

Lemma arr_mean_ok (x : vec) : x <> [] -> arr_mean x = Some (lsum x / INR (List.length x)).
Proof.
  intros H. unfold arr_mean, npf_mean. rewrite sum_some. destruct x; [congruence|]. cbn [map List.length]. rewrite map_length. reflexivity.
Qed.

(** The statistics of a metric over the runs are its mean and the root of the
    mean squared deviation over the root of the number of runs. *)
Theorem C76_stats (x : vec) : x <> [] ->
  let n := INR (List.length x) in
  let m := lsum x / n in
  run_stats x = (Some m, Some (sqrt (lsum (map (fun y => (y - m) ^ 2) x)) / n)).
Proof.
  intros H n m. unfold run_stats, np_std. rewrite arr_mean_ok by auto. fold n. fold m.
  assert (H' : np_square (map (fun y => y - m) x) <> []) by (destruct x; [congruence|discriminate]).
  rewrite arr_mean_ok by auto. unfold np_square. rewrite map_map, map_length. fold n.
  assert (Pn : 0 < n) by (apply lt_0_INR; destruct x; [congruence|cbn; lia]).
  unfold npf_div. fold n. destruct (Req_EM_T (sqrt n) 0) as [Z|Z]; [exfalso; apply sqrt_lt_R0 in Pn; lra|].
  f_equal. f_equal.
  set (q := lsum (map (fun x0 => (x0 - m) ^ 2) x)).
  rewrite sqrt_div_alt by auto. unfold Rdiv. rewrite Rmult_assoc, <- Rinv_mult. rewrite sqrt_sqrt by lra. reflexivity.
Qed.
Print Assumptions C76_stats.

Example C76_stats_ex : run_stats [1; 3] = (Some 2, Some (sqrt 2 / 2)).
Proof.
  rewrite C76_stats by discriminate. cbn [lsum fold_right List.length INR map].
  replace ((1 + (3 + 0)) / (1 + 1)) with 2 by field. f_equal. f_equal. f_equal. f_equal. lra.
Qed.

(** This is less than the standard error of the mean, which COGP's statistics
    in the same table are. *)
Theorem C76_stderr_below (x : vec) m : (2 <= List.length x)%nat -> m = lsum x / INR (List.length x) -> (exists y, In y x /\ y <> m) ->
  exists se, snd (run_stats x) = Some se /\ se < sqrt (lsum (map (fun y => (y - m) ^ 2) x) / INR (List.length x - 1)) / sqrt (INR (List.length x)).
Proof.
  intros L -> (y & Hy & Ny). rewrite C76_stats by (destruct x; [cbn in L; lia|discriminate]). cbn [snd]. eexists. split; [reflexivity|].
  set (n := INR (List.length x)) in *. set (q := lsum _).
  assert (Pn : 2 <= n) by (change 2 with (INR 2); now apply le_INR).
  assert (En : INR (List.length x - 1) = n - 1) by (rewrite minus_INR by lia; reflexivity). rewrite En.
  assert (Q : 0 < q).
  { unfold q. clear - Hy Ny. revert Ny. generalize (lsum x / n). intros m Ny.
    assert (P : forall l, 0 <= lsum (map (fun y0 => (y0 - m) ^ 2) l)).
    { intros l. induction l as [|a l IH]; cbn [map lsum fold_right]; [lra|]. fold (lsum (map (fun y0 => (y0 - m) ^ 2) l)). pose proof (pow2_ge_0 (a - m)). lra. }
    induction x as [|a x IH]; [destruct Hy|]. cbn [map lsum fold_right]. change (fold_right Rplus 0 (map (fun y0 => (y0 - m) ^ 2) x)) with (lsum (map (fun y0 => (y0 - m) ^ 2) x)).
    destruct Hy as [->|Hy].
    - specialize (P x). assert (0 < (y - m) ^ 2) by (rewrite <- Rsqr_pow2; apply Rsqr_pos_lt; lra). lra.
    - specialize (IH Hy). pose proof (pow2_ge_0 (a - m)). lra. }
  replace (sqrt q / n) with (sqrt (q / n) / sqrt n).
  2: { rewrite sqrt_div_alt by lra. unfold Rdiv. rewrite Rmult_assoc, <- Rinv_mult. rewrite sqrt_sqrt by lra. reflexivity. }
  apply Rmult_lt_compat_r; [apply Rinv_0_lt_compat, sqrt_lt_R0; lra|].
  apply sqrt_lt_1_alt. split.
  - apply Rmult_le_pos; [lra|]. left. apply Rinv_0_lt_compat. lra.
  - apply Rmult_lt_compat_l; auto. apply Rinv_lt_contravar; [apply Rmult_lt_0_compat|]; lra.
Qed.
Print Assumptions C76_stderr_below.

Example C76_stderr_ex : exists m, (2 <= List.length [1; 3])%nat /\ m = lsum [1; 3] / INR (List.length [1; 3]) /\ (exists y, In y [1; 3] /\ y <> m).
Proof. eexists. split; [cbn; lia|]. split; [reflexivity|]. exists 1. split; [now left|]. cbn. lra. Qed.
