(** Reading the results of COGP. *)

From Coq Require Import Reals List Arith ZArith Ascii String Bool Lia Lra.
From Coq Require Import List.
From Verif Require Import Base Model_Linalg Model_Util Model_Regex Model_Clean Model_Cogp Spec_Clean Spec_Cogp Proofs_Linalg Proofs_Regex Proofs_Clean Proofs_Loc.
Import ListNotations.
Open Scope R_scope.

(** ** Finding *)

Lemma starts_with_spec sub s : starts_with sub s = true <-> exists b, s = sub ++ b.
Proof.
  revert s; induction sub as [|a sub IH]; intros s; cbn [starts_with].
  - split; auto. intros _. exists s. reflexivity.
  - destruct s as [|c s]; [split; [discriminate|intros [b H]; discriminate]|].
    destruct (Ascii.eqb a c) eqn:E; cbn [andb].
    + apply Ascii.eqb_eq in E. subst c. rewrite IH. split; intros [b H]; exists b; cbn in *; congruence.
    + apply Ascii.eqb_neq in E. split; [discriminate|]. intros [b H]. cbn in H. congruence.
Qed.

Lemma find_first pre label rest : first_at pre label rest -> find_str label (pre ++ label ++ rest) = Some (List.length pre).
Proof.
  induction pre as [|c pre IH]; intros H.
  - cbn [app List.length].
    assert (Q : starts_with label (label ++ rest) = true) by (apply starts_with_spec; eauto).
    destruct (label ++ rest); cbn [find_str]; rewrite Q; reflexivity.
  - cbn [app find_str].
    assert (Q : starts_with label (c :: pre ++ label ++ rest) = false).
    { destruct (starts_with label (c :: pre ++ label ++ rest)) eqn:E; auto. apply starts_with_spec in E as [b Hb].
      specialize (H [] b). cbn [app List.length] in H. specialize (H Hb). lia. }
    rewrite Q, IH; auto.
    intros a b E. specialize (H (c :: a) b). cbn [app List.length] in H. rewrite E in H. specialize (H eq_refl). lia.
Qed.

Lemma find_none label s : ~ occurs label s -> find_str label s = None.
Proof.
  induction s as [|c s IH]; intros H; cbn [find_str].
  - destruct (starts_with label []) eqn:E; auto. apply starts_with_spec in E as [b Hb]. exfalso; apply H. exists [], b. exact Hb.
  - destruct (starts_with label (c :: s)) eqn:E.
    + apply starts_with_spec in E as [b Hb]. exfalso; apply H. exists [], b. exact Hb.
    + rewrite IH; auto. intros (a & b & ->). apply H. exists (c :: a), b. reflexivity.
Qed.

Lemma from_label_at pre label rest : first_at pre label rest -> from_label label (pre ++ label ++ rest) = label ++ rest.
Proof. intros H. unfold from_label. rewrite find_first by auto. apply skipn_app_len. Qed.

(** ** The pattern always takes the longest runs *)

Lemma star_step p cap rest a t gs : forallb p a = true -> hd_in p t -> re_match rest t = Some gs ->
  re_match (star p cap :: rest) (a ++ t) = Some (if cap then a :: gs else gs).
Proof.
  intros A T M. unfold star.
  pose proof (rep_back 0 p cap rest a [] t gs) as B. cbn [app List.length] in B. rewrite app_nil_r in B.
  rewrite B; auto; [lia|]. intros i Hi; lia.
Qed.

Lemma hd_split p (t : str) : exists a b, t = a ++ b /\ forallb p a = true /\ hd_in p b.
Proof.
  induction t as [|c t (a & b & -> & H1 & H2)].
  - exists [], []. repeat split.
  - destruct (p c) eqn:E.
    + exists (c :: a), b. cbn. rewrite E. auto.
    + exists [], (c :: a ++ b). cbn. auto.
Qed.

Lemma stat_split s : exists j a w b r, s = j ++ a ++ w ++ b ++ r /\ re_match stat_pattern s = Some [a; b] /\
  forallb not_digit j = true /\ hd_in not_digit (a ++ w ++ b ++ r) /\ forallb float_char a = true /\ hd_in float_char (w ++ b ++ r) /\
  forallb is_space w = true /\ forallb float_char b = true.
Proof.
  destruct (hd_split not_digit s) as (j & s1 & -> & J1 & J2). destruct (hd_split float_char s1) as (a & s2 & -> & A1 & A2).
  destruct (hd_split is_space s2) as (w & s3 & -> & W1 & W2). destruct (hd_split float_char s3) as (b & r & -> & B1 & B2).
  exists j, a, w, b, r. split; [reflexivity|]. split; [|repeat split; auto].
  unfold stat_pattern.
  apply (star_step not_digit false [star float_char true; star is_space false; star float_char true] j (a ++ w ++ b ++ r) [a; b]); auto.
  apply (star_step float_char true [star is_space false; star float_char true] a (w ++ b ++ r) [b]); auto.
  apply (star_step is_space false [star float_char true] w (b ++ r) [b]); auto.
  apply (star_step float_char true [] b r []); auto.
Qed.

Lemma stat_exact j a w b r : forallb not_digit j = true -> hd_in not_digit (a ++ w ++ b ++ r) -> forallb float_char a = true -> hd_in float_char (w ++ b ++ r) ->
  forallb is_space w = true -> hd_in is_space (b ++ r) -> forallb float_char b = true -> hd_in float_char r ->
  re_match stat_pattern (j ++ a ++ w ++ b ++ r) = Some [a; b].
Proof.
  intros J1 J2 A1 A2 W1 W2 B1 B2. unfold stat_pattern.
  apply (star_step not_digit false [star float_char true; star is_space false; star float_char true] j (a ++ w ++ b ++ r) [a; b]); auto.
  apply (star_step float_char true [star is_space false; star float_char true] a (w ++ b ++ r) [b]); auto.
  apply (star_step is_space false [star float_char true] w (b ++ r) [b]); auto.
  apply (star_step float_char true [] b r []); auto.
Qed.

(** ** float *)

Lemma py_float_nil : py_float [] = Err ValueError.
Proof. reflexivity. Qed.

Lemma sign_of_digit c r : is_digit c = true -> sign_of (c :: r) = (1, c :: r).
Proof.
  intros H. cbn [sign_of]. destruct (Ascii.eqb c "-") eqn:E; [apply Ascii.eqb_eq in E; subst; discriminate|].
  destruct (Ascii.eqb c "+") eqn:E'; [apply Ascii.eqb_eq in E'; subst; discriminate|]. reflexivity.
Qed.

Lemma exponent_pos s e : exponent_of s = Ok e -> 0 < e.
Proof.
  unfold exponent_of. destruct s as [|c r]; [intros H; apply Ok_inj in H; subst; lra|].
  destruct (Ascii.eqb c "e"); [|discriminate]. destruct (_ && _)%bool; [|discriminate].
  assert (P : forall n, 0 < 10 ^ n) by (intros; apply pow_lt; lra).
  destruct (match r with c0 :: _ => Ascii.eqb c0 "-" | [] => false end); intros H; apply Ok_inj in H; subst; auto. apply Rinv_0_lt_compat; auto.
Qed.

Lemma py_float_nonneg c r v : is_digit c = true -> py_float (c :: r) = Ok v -> 0 <= v.
Proof.
  intros D. unfold py_float. rewrite sign_of_digit by auto.
  set (s := c :: r). set (k := span is_digit s).
  assert (F : forall n, 0 <= digits_float (firstn n s)) by (intros; apply digits_float_nonneg).
  destruct (skipn k s) as [|c' r'].
  - destruct (0 <? _)%nat; [|discriminate]. intros H. apply Ok_inj in H. subst v. specialize (F k). lra.
  - destruct (is_dot c').
    + destruct (0 <? _)%nat; [|discriminate]. destruct (exponent_of _) as [e|] eqn:E; cbn [bind]; [|discriminate].
      intros H. apply Ok_inj in H. subst v. apply exponent_pos in E. rewrite Rmult_1_l.
      apply Rmult_le_pos; [|lra]. apply Rplus_le_le_0_compat; auto.
      apply Rmult_le_pos; [apply digits_float_nonneg|]. left. apply Rinv_0_lt_compat, pow_lt. lra.
    + destruct (0 <? _)%nat; [|discriminate]. destruct (exponent_of _) as [e|] eqn:E; cbn [bind]; [|discriminate].
      intros H. apply Ok_inj in H. subst v. apply exponent_pos in E. rewrite Rmult_1_l. apply Rmult_le_pos; auto; lra.
Qed.

Lemma digits_nat_number ds : digits ds -> INR (digits_nat (numeral ds)) = number ds.
Proof.
  intros H. unfold digits_nat.
  enough (G : forall acc, INR (fold_left (fun acc c => 10 * acc + (nat_of_ascii c - 48))%nat (numeral ds) acc) = INR acc * 10 ^ List.length ds + number ds).
  { rewrite G. cbn [INR]. lra. }
  induction ds as [|d ds IH]; intros acc.
  - unfold number. cbn. lra.
  - apply digits_cons in H as [H1 H2]. cbn [numeral map fold_left]. fold (numeral ds). rewrite IH by auto.
    rewrite nat_ascii_embedding by lia. rewrite number_cons. replace (48 + d - 48)%nat with d by lia.
    rewrite plus_INR, mult_INR. replace (INR 10) with 10 by (cbn; lra). cbn [List.length pow]. lra.
Qed.

Lemma pow_number ds : digits ds -> 10 ^ digits_nat (numeral ds) = Rpower 10 (number ds).
Proof. intros H. rewrite <- digits_nat_number by auto. rewrite Rpower_pow by lra. reflexivity. Qed.

Definition exp_text (e : option (bool * list nat)) : str :=
  match e with Some (neg, es) => "e"%char :: (if neg then "-" else "+")%char :: numeral es | None => [] end.
Definition exp_val (e : option (bool * list nat)) : R :=
  match e with Some (neg, es) => if neg then / Rpower 10 (number es) else Rpower 10 (number es) | None => 1 end.

Lemma exponent_ok e : (forall b es, e = Some (b, es) -> es <> [] /\ digits es) -> exponent_of (exp_text e) = Ok (exp_val e).
Proof.
  intros H. destruct e as [[neg es]|]; [|reflexivity]. destruct (H neg es eq_refl) as [N D].
  pose proof (numeral_digits es D) as F.
  assert (L : (0 <? List.length (numeral es))%nat = true) by (rewrite numeral_length; apply Nat.ltb_lt; destruct es; [congruence|cbn; lia]).
  unfold exp_text, exp_val. destruct neg.
  - change (exponent_of ("e" :: "-" :: numeral es)%char) with
      (if (forallb is_digit (numeral es) && (0 <? List.length (numeral es))%nat)%bool then Ok (/ 10 ^ digits_nat (numeral es)) else Err ValueError).
    rewrite F, L. cbn [andb]. now rewrite pow_number.
  - change (exponent_of ("e" :: "+" :: numeral es)%char) with
      (if (forallb is_digit (numeral es) && (0 <? List.length (numeral es))%nat)%bool then Ok (10 ^ digits_nat (numeral es)) else Err ValueError).
    rewrite F, L. cbn [andb]. now rewrite pow_number.
Qed.

Lemma exp_text_hd e : hd_in is_digit (exp_text e).
Proof. destruct e as [[neg es]|]; cbn; auto. Qed.

Lemma py_float_shown p : printable p -> py_float (shown p) = Ok (denoted p).
Proof.
  intros (W1 & W2 & Fr & Ex). unfold shown, denoted.
  change (match pr_exp p with Some (neg, es) => "e"%char :: (if neg then "-" else "+")%char :: numeral es | None => [] end) with (exp_text (pr_exp p)).
  change (match pr_exp p with Some (neg, es) => if neg then / Rpower 10 (number es) else Rpower 10 (number es) | None => 1 end) with (exp_val (pr_exp p)).
  pose proof (exponent_ok _ Ex) as EE. pose proof (exp_text_hd (pr_exp p)) as EH.
  assert (L : (0 <? List.length (numeral (pr_whole p)))%nat = true) by (rewrite numeral_length; apply Nat.ltb_lt; destruct (pr_whole p); [congruence|cbn; lia]).
  assert (SG : forall t, sign_of (numeral (pr_whole p) ++ t) = (1, numeral (pr_whole p) ++ t)).
  { intros t. destruct (numeral_hd (pr_whole p) t W1 W2) as (c & r & -> & D). now apply sign_of_digit. }
  unfold py_float. rewrite SG.
  pose proof (numeral_digits _ W2) as ND.
  destruct (pr_frac p) as [fs|] eqn:Q.
  - specialize (Fr fs eq_refl). pose proof (numeral_digits _ Fr) as NF. cbn [app].
    rewrite (span_app is_digit (numeral (pr_whole p)) ("."%char :: numeral fs ++ exp_text (pr_exp p))) by (auto; reflexivity).
    rewrite skipn_app_len, firstn_app_len. change (is_dot ".") with true. cbv iota.
    rewrite (span_app is_digit (numeral fs) (exp_text (pr_exp p))) by auto. rewrite skipn_app_len, firstn_app_len.
    apply Nat.ltb_lt in L. assert (L' : (0 <? List.length (numeral (pr_whole p)) + List.length (numeral fs))%nat = true) by (apply Nat.ltb_lt; lia).
    rewrite L', EE. cbn [bind]. rewrite !digits_float_number, numeral_length by auto. f_equal. lra.
  - cbn [app]. rewrite (span_app is_digit (numeral (pr_whole p)) (exp_text (pr_exp p))) by auto.
    rewrite skipn_app_len, firstn_app_len.
    destruct (pr_exp p) as [[neg es]|]; cbn [exp_text] in *.
    + change (is_dot "e") with false. cbv iota. rewrite L, EE. cbn [bind]. rewrite digits_float_number by auto. f_equal. lra.
    + rewrite L. cbn [exp_val]. rewrite digits_float_number by auto. f_equal. lra.
Qed.

Lemma float_digit c : is_digit c = true -> float_char c = true.
Proof. intros H. unfold float_char. rewrite H. apply orb_true_r. Qed.

Lemma numeral_float ds : digits ds -> forallb float_char (numeral ds) = true.
Proof. intros H. pose proof (numeral_digits ds H) as F. rewrite forallb_forall in *. intros c Hc. apply float_digit; auto. Qed.

Lemma shown_float p : printable p -> forallb float_char (shown p) = true.
Proof.
  intros (W1 & W2 & Fr & Ex). unfold shown. rewrite !forallb_app, numeral_float by auto. cbn [andb].
  apply andb_true_intro; split.
  - destruct (pr_frac p) as [fs|]; auto. cbn [forallb]. rewrite numeral_float; auto.
  - destruct (pr_exp p) as [[neg es]|]; auto. cbn [forallb]. rewrite numeral_float; [|now apply (Ex neg)]. destruct neg; reflexivity.
Qed.

Lemma shown_hd p t : printable p -> exists c r, shown p ++ t = c :: r /\ is_digit c = true.
Proof.
  intros (W1 & W2 & _). unfold shown. rewrite <- app_assoc. apply numeral_hd; auto.
Qed.

Lemma blank_class c : In c (map ascii_of_nat [9; 10; 13; 32]%nat) -> is_space c = true /\ float_char c = false /\ is_digit c = false.
Proof. intros H. cbn in H. repeat (destruct H as [<-|H]; [repeat split; reflexivity|]). destruct H. Qed.

Lemma digit_space c : is_digit c = true -> is_space c = false.
Proof. rewrite is_digit_in. intros H. cbn in H. repeat (destruct H as [<-|H]; [reflexivity|]). destruct H. Qed.

Lemma read_block label b : no_digits label -> block_ok b -> read_stat (block_text label b) = Ok (denoted (bl_mean b), denoted (bl_se b)).
Proof.
  intros NL (G & M & (W1 & W2) & Se & R). unfold read_stat, block_text. rewrite (app_assoc label).
  assert (Ws : forallb is_space (bl_ws b) = true) by (apply forallb_forall; intros c Hc; now apply blank_class, W2).
  assert (Wf : hd_in float_char (bl_ws b ++ shown (bl_se b) ++ bl_rest b)).
  { destruct (bl_ws b) as [|c w]; [congruence|]. cbn. apply blank_class, W2. now left. }
  rewrite stat_exact; auto.
  - rewrite !py_float_shown by auto. reflexivity.
  - apply no_digits_all. now apply no_digits_app.
  - destruct (shown_hd (bl_mean b) (bl_ws b ++ shown (bl_se b) ++ bl_rest b) M) as (c & r & -> & D). now apply d_nd.
  - now apply shown_float.
  - destruct (shown_hd (bl_se b) (bl_rest b) Se) as (c & r & -> & D). now apply digit_space.
  - now apply shown_float.
  - destruct R as [->|(c & r & -> & Hc)]; [exact I|]. cbn. now apply blank_class.
Qed.

(** ** Never negative, never made up *)

Lemma read_stat_nonneg s m se : read_stat s = Ok (m, se) -> 0 <= m.
Proof.
  unfold read_stat. destruct (stat_split s) as (j & a & w & b & r & _ & E & _ & H2 & _ & H4 & _). rewrite E.
  destruct (py_float a) as [v|] eqn:A; cbn [bind]; [|discriminate]. destruct (py_float b) as [v'|]; cbn [bind]; [|discriminate].
  intros H. apply Ok_inj in H. injection H as <- <-.
  destruct a as [|c a]; [discriminate|]. cbn in H2. apply (py_float_nonneg c a); auto. unfold not_digit in H2. now apply negb_false_iff.
Qed.

Lemma read_stat_err s e : read_stat s = Err e -> e = ValueError.
Proof.
  unfold read_stat. destruct (stat_split s) as (j & a & w & b & r & _ & E & _). rewrite E.
  assert (PF : forall x e, py_float x = Err e -> e = ValueError).
  { clear. intros x e. unfold py_float. destruct (sign_of x) as [sg y].
    assert (EX : forall z e, exponent_of z = Err e -> e = ValueError).
    { clear. intros z e. unfold exponent_of. destruct z as [|c r]; [discriminate|]. destruct (Ascii.eqb c "e"); [destruct (_ && _)%bool|]; congruence. }
    destruct (skipn _ y) as [|c r]; [destruct (0 <? _)%nat; congruence|].
    destruct (is_dot c).
    - destruct (0 <? _)%nat; [|congruence]. destruct (exponent_of _) eqn:Q; cbn [bind]; [discriminate|]. intros H. injection H as <-. eauto.
    - destruct (0 <? _)%nat; [|congruence]. destruct (exponent_of _) eqn:Q; cbn [bind]; [discriminate|]. intros H. injection H as <-. eauto. }
  destruct (py_float a) eqn:A; cbn [bind].
  - destruct (py_float b) eqn:B; cbn [bind]; [discriminate|]. intros H. injection H as <-. eauto.
  - intros H. injection H as <-. eauto.
Qed.

Lemma read_short s : (List.length s <= 1)%nat -> read_stat s = Err ValueError.
Proof.
  intros L. unfold read_stat. destruct (stat_split s) as (j & a & w & b & r & Es & E & _). rewrite E.
  rewrite Es, !app_length in L. destruct (py_float a) eqn:A; cbn [bind].
  - destruct a as [|c a]; [discriminate|]. destruct b as [|c' b]; [reflexivity|]. cbn in L. lia.
  - f_equal. destruct a; [now injection A|]. apply (read_stat_err s). unfold read_stat. rewrite E, A. reflexivity.
Qed.

Lemma from_missing label s : ~ occurs label s -> (List.length (from_label label s) <= 1)%nat.
Proof. intros H. unfold from_label. rewrite find_none by auto. rewrite skipn_length. lia. Qed.

Lemma occurs_from l1 l2 s : occurs l2 (from_label l1 s) -> occurs l2 s.
Proof.
  intros (a & b & H). unfold from_label in H. exists (firstn (match find_str l1 s with Some k => k | None => List.length s - 1 end) s ++ a), b.
  rewrite <- app_assoc, <- H. destruct (find_str l1 s); now rewrite firstn_skipn.
Qed.

Lemma find_first_back pre label rest : find_str label (pre ++ label ++ rest) = Some (List.length pre) -> first_at pre label rest.
Proof.
  intros H a b E. rewrite E in H. clear E. revert H. generalize (List.length pre). clear pre rest.
  induction a as [|c a IH]; intros n H.
  - cbn [app] in H. assert (Q : starts_with label (label ++ b) = true) by (apply starts_with_spec; eauto).
    destruct (label ++ b); cbn [find_str] in H; rewrite Q in H; injection H as <-; lia.
  - cbn [app find_str] in H. destruct (starts_with label (c :: a ++ label ++ b)); [injection H as <-; lia|].
    destruct (find_str label (a ++ label ++ b)) as [k|] eqn:F; cbn [option_map] in H; [|discriminate]. injection H as <-.
    cbn [List.length]. specialize (IH k eq_refl). lia.
Qed.

Lemma read_stats_nonneg mout stats : read_stats mout = Ok stats -> forall m se, In (m, se) stats -> 0 <= m.
Proof.
  unfold read_stats. cbv zeta. set (e1 := from_label _ mout). set (e2 := from_label _ e1). set (e3 := from_label _ e2).
  destruct (read_stat e1) as [[a a']|] eqn:A; cbn [bind]; [|discriminate].
  destruct (read_stat e2) as [[b b']|] eqn:B; cbn [bind]; [|discriminate].
  destruct (read_stat e3) as [[c c']|] eqn:C; cbn [bind]; [|discriminate].
  intros H. apply Ok_inj in H. subst stats. intros m se [E|[E|[E|[]]]]; injection E as <- <-; eapply read_stat_nonneg; eauto.
Qed.
