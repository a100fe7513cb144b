(** The matcher finds a match exactly if there is one; steps for given strings. *)

From Coq Require Import List Arith Ascii Bool Lia.
From Verif Require Import Model_Regex.
Import ListNotations.

Definition fits (it : item) (a : str) : Prop :=
  it_lo it <= length a /\ (forall h, it_hi it = Some h -> length a <= h) /\ forallb (it_cls it) a = true.

Inductive matches : list item -> str -> list str -> Prop :=
| m_nil s : matches [] s []
| m_cons it rest a t gs : fits it a -> matches rest t gs ->
    matches (it :: rest) (a ++ t) (if it_cap it then a :: gs else gs).

Lemma try_down_some {A} (f : nat -> option A) k a : try_down f k = Some a -> exists j, j <= k /\ f j = Some a /\ forall i, j < i <= k -> f i = None.
Proof.
  induction k as [|k IH]; cbn [try_down]; destruct (f _) eqn:E; intros H; try discriminate.
  - exists 0. split; [lia|]. split; [congruence|]. intros i Hi; lia.
  - exists (S k). split; [lia|]. split; [congruence|]. intros i Hi; lia.
  - destruct (IH H) as (j & J1 & J2 & J3). exists j. split; [lia|]. split; auto.
    intros i Hi. destruct (Nat.eq_dec i (S k)); [subst; auto|]. apply J3; lia.
Qed.

Lemma try_down_none {A} (f : nat -> option A) k : try_down f k = None <-> forall j, j <= k -> f j = None.
Proof.
  induction k as [|k IH]; cbn [try_down].
  - destruct (f 0) eqn:E; split; intros H; try discriminate; auto.
    + rewrite <- E. apply H; lia.
    + intros j Hj. replace j with 0 by lia; auto.
  - destruct (f (S k)) eqn:E; split; intros H; try discriminate.
    + rewrite <- E. apply H; lia.
    + intros j Hj. destruct (Nat.eq_dec j (S k)); [subst; auto|]. apply IH; auto; lia.
    + apply IH. intros; apply H; lia.
Qed.

Lemma try_down_at {A} (f : nat -> option A) k j : j <= k -> (forall i, j < i <= k -> f i = None) -> (forall i, i < j -> f i = None) -> try_down f k = f j.
Proof.
  intros H H1 H2. destruct (try_down f k) as [a|] eqn:E.
  - destruct (try_down_some _ _ _ E) as (j' & J1 & J2 & J3).
    destruct (lt_eq_lt_dec j j') as [[L|L]|L]; [|subst; auto|].
    + rewrite H1 in J2 by lia; discriminate.
    + rewrite H2 in J2 by lia; discriminate.
  - symmetry. apply (proj1 (try_down_none f k) E); auto.
Qed.

Lemma try_down_first {A} (f : nat -> option A) k j a : j <= k -> (forall i, j < i <= k -> f i = None) -> f j = Some a -> try_down f k = Some a.
Proof.
  intros H H1 H2. destruct (try_down f k) as [b|] eqn:E.
  - destruct (try_down_some _ _ _ E) as (j' & J1 & J2 & J3).
    destruct (lt_eq_lt_dec j j') as [[L|L]|L]; [|subst; congruence|].
    + rewrite H1 in J2 by lia; discriminate.
    + rewrite J3 in H2 by lia; discriminate.
  - rewrite (proj1 (try_down_none f k) E) in H2 by auto; discriminate.
Qed.

Lemma span_firstn p s k : k <= span p s -> forallb p (firstn k s) = true.
Proof.
  revert k; induction s as [|c s IH]; intros k H; destruct k; cbn [firstn]; auto.
  cbn [span] in H. destruct (p c) eqn:E; [|lia]. cbn [forallb]. rewrite E. cbn. apply IH; lia.
Qed.

Lemma span_le p s : span p s <= length s.
Proof. induction s as [|c s IH]; cbn [span length]; [lia|]. destruct (p c); lia. Qed.

Lemma span_ge p a t : forallb p a = true -> length a <= span p (a ++ t).
Proof.
  induction a as [|c a IH]; cbn [forallb length app span]; intros H; [lia|].
  apply andb_prop in H as [H1 H2]. rewrite H1. specialize (IH H2). lia.
Qed.

Lemma span_app p a t : forallb p a = true -> match t with c :: _ => p c = false | [] => True end -> span p (a ++ t) = length a.
Proof.
  induction a as [|c a IH]; cbn [forallb length app span]; intros H Ht.
  - destruct t as [|c t]; cbn [span]; auto. rewrite Ht; auto.
  - apply andb_prop in H as [H1 H2]. rewrite H1, IH; auto.
Qed.

Lemma re_match_sound pat s gs : re_match pat s = Some gs -> matches pat s gs.
Proof.
  revert s gs; induction pat as [|it rest IH]; intros s gs H; cbn [re_match] in H.
  - injection H as <-. constructor.
  - apply try_down_some in H as (k & K1 & K2 & _).
    destruct (k <? it_lo it) eqn:L; [discriminate|]. apply Nat.ltb_ge in L.
    destruct (re_match rest (skipn k s)) as [g|] eqn:E; [|discriminate]. injection K2 as <-.
    rewrite <- (firstn_skipn k s) at 1.
    pose proof (span_le (it_cls it) s) as SL.
    assert (K1' : k <= span (it_cls it) s) by (destruct (it_hi it); lia).
    assert (FL : length (firstn k s) = k) by (apply firstn_length_le; lia).
    apply m_cons; [|apply IH; auto].
    repeat split; rewrite ?FL; auto.
    + intros h Hh. rewrite Hh in K1. lia.
    + apply span_firstn; auto.
Qed.

Lemma re_match_complete pat s gs : matches pat s gs -> exists gs', re_match pat s = Some gs'.
Proof.
  induction 1 as [s|it rest a t gs [F1 [F2 F3]] M [gs' IH]]; [exists []; auto|].
  cbn [re_match].
  match goal with |- exists _, try_down ?f ?k = _ => destruct (try_down f k) as [g|] eqn:E; [exists g; auto|];
    pose proof (proj1 (try_down_none f k) E (length a)) as H end.
  cbv beta in H.
  assert (L : (length a <? it_lo it) = false) by (apply Nat.ltb_ge; auto).
  rewrite L, skipn_app, skipn_all, Nat.sub_diag in H. cbn [app skipn] in H. rewrite IH in H.
  pose proof (span_ge (it_cls it) a t F3) as G. exfalso.
  assert (B : length a <= match it_hi it with Some h => Nat.min h (span (it_cls it) (a ++ t)) | None => span (it_cls it) (a ++ t) end).
  { destruct (it_hi it) as [h|]; auto. specialize (F2 h eq_refl). lia. }
  specialize (H B). destruct (it_cap it); discriminate.
Qed.

Lemma re_match_none pat s : re_match pat s = None <-> forall gs, ~ matches pat s gs.
Proof.
  split.
  - intros H gs M. destruct (re_match_complete _ _ _ M) as [g G]. congruence.
  - intros H. destruct (re_match pat s) eqn:E; auto. apply re_match_sound in E. now apply H in E.
Qed.

(** ** Steps *)

Definition addg (it : item) (a : str) (r : option (list str)) : option (list str) :=
  match r with Some gs => Some (if it_cap it then a :: gs else gs) | None => None end.

Lemma firstn_app_len {A} (a t : list A) : firstn (length a) (a ++ t) = a.
Proof. rewrite firstn_app, Nat.sub_diag, firstn_all. cbn. apply app_nil_r. Qed.
Lemma skipn_app_len {A} (a t : list A) : skipn (length a) (a ++ t) = t.
Proof. rewrite skipn_app, skipn_all, Nat.sub_diag. reflexivity. Qed.

Lemma once_step p cap rest c t : p c = true -> re_match (once p cap :: rest) (c :: t) = addg (once p cap) [c] (re_match rest t).
Proof.
  intros H. cbn [re_match once it_hi it_cls it_lo it_cap span]. rewrite H. cbn [Nat.min try_down skipn firstn Nat.ltb Nat.leb].
  unfold addg. cbn [it_cap]. destruct (re_match rest t); auto.
Qed.

Lemma once_fail p cap rest t : match t with c :: _ => p c = false | [] => True end -> re_match (once p cap :: rest) t = None.
Proof.
  intros H. cbn [re_match once it_hi it_cls it_lo it_cap]. replace (span p t) with 0; [reflexivity|].
  destruct t; cbn [span]; [|rewrite H]; auto.
Qed.

Lemma plus_fail p cap rest t : match t with c :: _ => p c = false | [] => True end -> re_match (plus p cap :: rest) t = None.
Proof.
  intros H. cbn [re_match plus it_hi it_cls it_lo it_cap]. replace (span p t) with 0; [reflexivity|].
  destruct t; cbn [span]; [|rewrite H]; auto.
Qed.

(** A repetition followed by something that cannot start within it. *)
Lemma rep_step lo p cap rest a t :
  forallb p a = true -> lo <= length a -> match t with c :: _ => p c = false | [] => True end ->
  (forall c b, p c = true -> re_match rest (c :: b) = None) ->
  let it := {| it_lo := lo; it_hi := None; it_cls := p; it_cap := cap |} in
  re_match (it :: rest) (a ++ t) = addg it a (re_match rest t).
Proof.
  intros H L T N it. cbn [re_match it it_hi it_cls it_lo it_cap].
  rewrite (span_app p a t H T).
  rewrite (try_down_at _ (length a) (length a)); [|lia|intros; lia|].
  - assert (E : (length a <? lo) = false) by (apply Nat.ltb_ge; auto). rewrite E, skipn_app_len, firstn_app_len. reflexivity.
  - intros i Hi. destruct (i <? lo); auto.
    assert (exists c b, skipn i (a ++ t) = c :: b /\ p c = true) as (c & b & E & Pc).
    { clear - H Hi. revert i Hi; induction a as [|x a IH]; intros i Hi; cbn [length] in Hi; [lia|].
      cbn [forallb] in H. apply andb_prop in H as [H1 H2].
      destruct i; cbn [skipn app]; [eauto|]. apply IH; auto; lia. }
    rewrite E, N; auto.
Qed.

Definition plus_step := rep_step 1.

(** A repetition with the first match found by giving back characters. *)
Lemma rep_back lo p cap rest a b t gs :
  forallb p (a ++ b) = true -> lo <= length a -> match t with c :: _ => p c = false | [] => True end ->
  (forall i, 0 < i <= length b -> re_match rest (skipn i (b ++ t)) = None) ->
  re_match rest (b ++ t) = Some gs ->
  let it := {| it_lo := lo; it_hi := None; it_cls := p; it_cap := cap |} in
  re_match (it :: rest) (a ++ b ++ t) = addg it a (Some gs).
Proof.
  intros H L T N M it. cbn [re_match it it_hi it_cls it_lo it_cap].
  rewrite app_assoc, (span_app p (a ++ b) t H T), app_length, <- app_assoc.
  apply (try_down_first _ _ (length a)); [lia| |].
  - intros i Hi. destruct (i <? lo); auto.
    replace (skipn i (a ++ b ++ t)) with (skipn (i - length a) (b ++ t)).
    + rewrite N; auto; lia.
    + rewrite (skipn_app i a), (skipn_all2 a) by lia. reflexivity.
  - assert (E : (length a <? lo) = false) by (apply Nat.ltb_ge; auto). rewrite E, skipn_app_len, firstn_app_len, M. reflexivity.
Qed.

(** No match wherever the repetition stops. *)
Lemma rep_fail lo p cap rest a t :
  forallb p a = true -> match t with c :: _ => p c = false | [] => True end ->
  (forall i, i <= length a -> re_match rest (skipn i (a ++ t)) = None) ->
  re_match ({| it_lo := lo; it_hi := None; it_cls := p; it_cap := cap |} :: rest) (a ++ t) = None.
Proof.
  intros H T N. cbn [re_match it_hi it_cls it_lo it_cap]. rewrite (span_app p a t H T).
  apply try_down_none. intros j Hj. rewrite N by auto. destruct (j <? lo); auto.
Qed.

(** Without the first two hypotheses: no match at any position. *)
Lemma rep_fail_all it rest s : (forall i, re_match rest (skipn i s) = None) -> re_match (it :: rest) s = None.
Proof.
  intros N. cbn [re_match]. apply try_down_none. intros j _. rewrite N. destruct (j <? it_lo it); auto.
Qed.
