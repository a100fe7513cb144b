(** C75: the results of the COGP program are read from what it prints. *)

From Coq Require Import Reals List Arith ZArith Ascii String Bool Lia Lra.
From Coq Require Import List.
From Verif Require Import Base Model_Linalg Model_Util Model_Regex Model_Clean Model_Cogp Spec_Clean Spec_Cogp Proofs_Linalg Proofs_Regex Proofs_Clean Proofs_Loc Proofs_Cogp.
Import ListNotations.
Open Scope R_scope.

Definition times_label := list_ascii_of_string "mean/stderr times".
Definition smses_label := list_ascii_of_string "mean/stderr smses".
Definition nlpds_label := list_ascii_of_string "mean/stderr nlpds".

(** The text before the next label: the printed part of a block and what follows it. *)
Definition block_head (label : list ascii) (b : block) (mid : list ascii) : list ascii :=
  label ++ bl_gap b ++ shown (bl_mean b) ++ bl_ws b ++ shown (bl_se b) ++ mid.

Lemma labels_no_digits : no_digits times_label /\ no_digits smses_label /\ no_digits nlpds_label.
Proof. repeat split; apply all_no_digits; reflexivity. Qed.

Lemma block_split label b mid t : bl_rest b = mid ++ t -> block_text label b = block_head label b mid ++ t.
Proof. intros H. unfold block_text, block_head. rewrite H, <- !app_assoc. reflexivity. Qed.

(** If the program printed the three results in their order, each after the
    first occurrence of its label, the numbers read are those printed.  Missing
    (partial): the sign of the mean, which may stand in the gap before it. *)
Theorem C75_stats_partial pre b1 mid1 b2 mid2 b3 :
  block_ok b1 -> block_ok b2 -> block_ok b3 ->
  bl_rest b1 = mid1 ++ block_text smses_label b2 -> bl_rest b2 = mid2 ++ block_text nlpds_label b3 ->
  (exists r, block_text times_label b1 = times_label ++ r /\ first_at pre times_label r) ->
  (exists r, block_text smses_label b2 = smses_label ++ r /\ first_at (block_head times_label b1 mid1) smses_label r) ->
  (exists r, block_text nlpds_label b3 = nlpds_label ++ r /\ first_at (block_head smses_label b2 mid2) nlpds_label r) ->
  read_stats (pre ++ block_text times_label b1) =
    Ok [(denoted (bl_mean b1), denoted (bl_se b1)); (denoted (bl_mean b2), denoted (bl_se b2)); (denoted (bl_mean b3), denoted (bl_se b3))].
Proof.
  intros B1 B2 B3 R1 R2 (r1 & E1 & F1) (r2 & E2 & F2) (r3 & E3 & F3). destruct labels_no_digits as (N1 & N2 & N3).
  unfold read_stats. cbv zeta. fold times_label smses_label nlpds_label.
  assert (S1 : from_label times_label (pre ++ block_text times_label b1) = block_text times_label b1) by (rewrite E1; now apply from_label_at).
  rewrite S1, read_block by auto. cbn [bind].
  assert (S2 : from_label smses_label (block_text times_label b1) = block_text smses_label b2).
  { rewrite (block_split times_label b1 mid1 _ R1), E2. now apply from_label_at. }
  rewrite S2, read_block by auto. cbn [bind].
  assert (S3 : from_label nlpds_label (block_text smses_label b2) = block_text nlpds_label b3).
  { rewrite (block_split smses_label b2 mid2 _ R2), E3. now apply from_label_at. }
  rewrite S3, read_block by auto. reflexivity.
Qed.
Print Assumptions C75_stats_partial.

(** An output: 12.5 and 0.25 seconds, 0.3 and 1e-2, and a mean NLPD of -0.5
    with standard error 0.125. *)
Definition nl := list_ascii_of_string (String (ascii_of_nat 10) " ").
Definition ex_b3 := {| bl_gap := nl ++ ["-"%char]; bl_mean := {| pr_whole := [0]; pr_frac := Some [5]; pr_exp := None |};
  bl_ws := nl; bl_se := {| pr_whole := [0]; pr_frac := Some [1; 2; 5]; pr_exp := None |}; bl_rest := nl |}%nat.
Definition ex_b2 := {| bl_gap := nl; bl_mean := {| pr_whole := [0]; pr_frac := Some [3]; pr_exp := None |};
  bl_ws := nl; bl_se := {| pr_whole := [1]; pr_frac := None; pr_exp := Some (true, [0; 2]) |}; bl_rest := nl ++ block_text nlpds_label ex_b3 |}%nat.
Definition ex_b1 := {| bl_gap := nl; bl_mean := {| pr_whole := [1; 2]; pr_frac := Some [5]; pr_exp := None |};
  bl_ws := nl; bl_se := {| pr_whole := [0]; pr_frac := Some [2; 5]; pr_exp := None |}; bl_rest := nl ++ block_text smses_label ex_b2 |}%nat.
Definition ex_out := list_ascii_of_string "optimizing" ++ block_text times_label ex_b1.

Ltac dig := intros ?d ?H; cbn in H; intuition lia.

Lemma nl_blanks : blanks nl.
Proof. split; [discriminate|]. intros c H. cbn in H. cbn. intuition congruence. Qed.
Lemma nl_separate t : separate (nl ++ t).
Proof. right. do 2 eexists. split; [reflexivity|]. cbn. tauto. Qed.

Lemma ex_blocks : block_ok ex_b1 /\ block_ok ex_b2 /\ block_ok ex_b3.
Proof.
  repeat split; try apply nl_blanks; try apply nl_separate; try (apply all_no_digits; reflexivity); try discriminate; try dig; cbn;
    try (intros fs H; injection H as <-; dig); try (intros b es H; discriminate || (injection H as <- <-; split; [discriminate|dig])).
  - injection H as <- <-. discriminate.
  - injection H as <- <-. dig.
Qed.

Lemma ex_firsts :
  (exists r, block_text times_label ex_b1 = times_label ++ r /\ first_at (list_ascii_of_string "optimizing") times_label r) /\
  (exists r, block_text smses_label ex_b2 = smses_label ++ r /\ first_at (block_head times_label ex_b1 nl) smses_label r) /\
  (exists r, block_text nlpds_label ex_b3 = nlpds_label ++ r /\ first_at (block_head smses_label ex_b2 nl) nlpds_label r).
Proof. split; [|split]; (eexists; split; [reflexivity|]; apply find_first_back; vm_compute; reflexivity). Qed.

Example C75_ex : exists a b c d e f, read_stats ex_out = Ok [(a, b); (c, d); (e, f)] /\ a = 12.5 /\ e = 0.5.
Proof.
  destruct ex_blocks as (B1 & B2 & B3), ex_firsts as (F1 & F2 & F3).
  pose proof (C75_stats_partial (list_ascii_of_string "optimizing") ex_b1 nl ex_b2 nl ex_b3 B1 B2 B3 eq_refl eq_refl F1 F2 F3) as H.
  do 6 eexists. split; [exact H|]. unfold denoted, number. cbn. lra.
Qed.

(** No mean is ever read as a negative number: the sign of a negative mean, which
    the negative log predictive density can well have, is lost. *)
Theorem C75_sign_refuted :
  (forall mout stats, read_stats mout = Ok stats -> forall m se, In (m, se) stats -> 0 <= m) /\
  (exists pre gap p w q rest, no_digits gap /\ printable p /\ printable q /\
    (exists t s n, read_stats (pre ++ nlpds_label ++ gap ++ ["-"%char] ++ shown p ++ w ++ shown q ++ rest) = Ok [t; s; n] /\ fst n <> - denoted p)).
Proof.
  split; [exact read_stats_nonneg|].
  exists (list_ascii_of_string "optimizing" ++ block_head times_label ex_b1 nl ++ block_head smses_label ex_b2 nl), nl, (bl_mean ex_b3), nl, (bl_se ex_b3), nl.
  destruct ex_blocks as (B1 & B2 & B3). pose proof B3 as (_ & P & _ & Q & _).
  split; [apply all_no_digits; reflexivity|]. split; auto. split; auto.
  destruct ex_firsts as (F1 & F2 & F3).
  pose proof (C75_stats_partial (list_ascii_of_string "optimizing") ex_b1 nl ex_b2 nl ex_b3 B1 B2 B3 eq_refl eq_refl F1 F2 F3) as H.
  do 3 eexists. split.
  - etransitivity; [|exact H]. f_equal.
  - cbn [fst]. unfold denoted, number. cbn. lra.
Qed.
Print Assumptions C75_sign_refuted.

(** If a label was not printed, nothing is made up: reading raises. *)
Theorem C75_missing mout : ~ occurs times_label mout \/ ~ occurs smses_label mout \/ ~ occurs nlpds_label mout -> read_stats mout = Err ValueError.
Proof.
  unfold read_stats. cbv zeta. fold times_label smses_label nlpds_label.
  set (e1 := from_label times_label mout). set (e2 := from_label smses_label e1). set (e3 := from_label nlpds_label e2).
  intros H. destruct (read_stat e1) as [a|x] eqn:A; cbn [bind]; [|now rewrite (read_stat_err _ _ A)].
  destruct (read_stat e2) as [b|x] eqn:B; cbn [bind]; [|now rewrite (read_stat_err _ _ B)].
  destruct (read_stat e3) as [c|x] eqn:C; cbn [bind]; [|now rewrite (read_stat_err _ _ C)].
  exfalso. destruct H as [H|[H|H]].
  - rewrite read_short in A; [discriminate|]. now apply from_missing.
  - rewrite read_short in B; [discriminate|]. apply from_missing. intros O. apply H. eapply occurs_from; eauto.
  - rewrite read_short in C; [discriminate|]. apply from_missing. intros O. apply H. eapply occurs_from, occurs_from; eauto.
Qed.
Print Assumptions C75_missing.

Example C75_missing_ex : read_stats (list_ascii_of_string "license error 7") = Err ValueError.
Proof. reflexivity. Qed.

(** A sign before the standard error is read with it. *)
Lemma float_signed p (neg : bool) : printable p -> py_float ((if neg then "-" else "+")%char :: shown p) = Ok (if neg then - denoted p else denoted p).
Proof.
  intros P. pose proof (py_float_shown p P) as E. destruct (shown_hd p [] P) as (c & r & Ec & D). rewrite app_nil_r in Ec. rewrite Ec in *.
  assert (SG : sign_of ((if neg then "-" else "+")%char :: c :: r) = (if neg then -1 else 1, c :: r)) by (destruct neg; reflexivity).
  unfold py_float in *. rewrite SG. rewrite sign_of_digit in E by exact D.
  destruct (skipn (span is_digit (c :: r)) (c :: r)) as [|c' r'].
  - destruct (0 <? _)%nat; [|discriminate]. apply Ok_inj in E. rewrite <- E. f_equal. destruct neg; ring.
  - destruct (is_dot c').
    + destruct (0 <? _)%nat; [|discriminate]. destruct (exponent_of _) as [e|]; cbn [bind] in *; [|discriminate]. apply Ok_inj in E. rewrite <- E. f_equal. destruct neg; ring.
    + destruct (0 <? _)%nat; [|discriminate]. destruct (exponent_of _) as [e|]; cbn [bind] in *; [|discriminate]. apply Ok_inj in E. rewrite <- E. f_equal. destruct neg; ring.
Qed.

Theorem C75_signed_error gap p w (neg : bool) q rest :
  no_digits gap -> printable p -> blanks w -> printable q -> separate rest ->
  read_stat (gap ++ shown p ++ w ++ ((if neg then "-" else "+")%char :: shown q) ++ rest) = Ok (denoted p, if neg then - denoted q else denoted q).
Proof.
  intros G M (W1 & W2) Se R. unfold read_stat.
  assert (Ws : forallb is_space w = true) by (apply forallb_forall; intros c Hc; now apply blank_class, W2).
  assert (Wf : hd_in float_char (w ++ ((if neg then "-" else "+")%char :: shown q) ++ rest)).
  { destruct w as [|c w]; [congruence|]. cbn. apply blank_class, W2. now left. }
  rewrite stat_exact; auto.
  - rewrite py_float_shown, float_signed by auto. reflexivity.
  - now apply no_digits_all.
  - destruct (shown_hd p (w ++ ((if neg then "-" else "+")%char :: shown q) ++ rest) M) as (c & r & -> & D). now apply d_nd.
  - now apply shown_float.
  - destruct neg; reflexivity.
  - cbn [forallb]. rewrite shown_float by auto. destruct neg; reflexivity.
  - destruct R as [->|(c & r & -> & Hc)]; [exact I|]. cbn. now apply blank_class.
Qed.
Print Assumptions C75_signed_error.

Example C75_signed_ex : read_stat (list_ascii_of_string "mean 3 -2") = Ok (3, -2).
Proof.
  pose proof (C75_signed_error (list_ascii_of_string "mean ") {| pr_whole := [3]%nat; pr_frac := None; pr_exp := None |} [" "%char] true {| pr_whole := [2]%nat; pr_frac := None; pr_exp := None |} []) as Rd.
  etransitivity; [apply Rd|].
  - apply all_no_digits; reflexivity.
  - split; [discriminate|]. split; [dig|]. split; discriminate.
  - split; [discriminate|]. intros c [<-|[]]. cbn. tauto.
  - split; [discriminate|]. split; [dig|]. split; discriminate.
  - now left.
  - unfold denoted, number. cbn. f_equal. f_equal; lra.
Qed.
