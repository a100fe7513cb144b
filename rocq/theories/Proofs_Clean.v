(** Numbers, joins and locations of clean.py. *)

From Coq Require Import Reals List Arith ZArith Ascii String Bool Lia Lra.
From Coq Require Import List.
From Verif Require Import Base Model_Linalg Model_Util Model_Regex Model_Clean Spec_Clean Proofs_Regex.
From Verif Require Import Proofs_Linalg.
Import ListNotations.
Open Scope R_scope.

Notation length := List.length.

(** ** Characters *)

Lemma is_digit_spec c : is_digit c = existsb (Ascii.eqb c) digit_chars.
Proof. destruct c as [[] [] [] [] [] [] [] []]; reflexivity. Qed.

Lemma existsb_in c l : existsb (Ascii.eqb c) l = true <-> In c l.
Proof.
  rewrite existsb_exists. split.
  - intros (x & H & E). apply Ascii.eqb_eq in E. now subst.
  - intros H. exists c. split; auto. apply Ascii.eqb_refl.
Qed.

Lemma is_digit_in c : is_digit c = true <-> In c digit_chars.
Proof. rewrite is_digit_spec. apply existsb_in. Qed.

Lemma is_digit_not c : is_digit c = false <-> ~ In c digit_chars.
Proof. rewrite <- is_digit_in. destruct (is_digit c); split; congruence. Qed.

Lemma digit_char d : (d < 10)%nat -> is_digit (ascii_of_nat (48 + d)) = true /\ digit_val (ascii_of_nat (48 + d)) = INR d.
Proof.
  intros H. unfold is_digit, digit_val. rewrite nat_ascii_embedding by lia. split.
  - apply andb_true_intro; split; apply Nat.leb_le; lia.
  - f_equal. lia.
Qed.

Lemma numeral_digits ds : digits ds -> forallb is_digit (numeral ds) = true.
Proof.
  intros H. apply forallb_forall. intros c Hc. apply in_map_iff in Hc as (d & <- & Hd). apply digit_char; auto.
Qed.

Lemma digits_cons d ds : digits (d :: ds) -> (d < 10)%nat /\ digits ds.
Proof. intros H. split; [apply H; now left|intros x Hx; apply H; now right]. Qed.

Lemma number_cons d ds : number (d :: ds) = INR d * 10 ^ List.length ds + number ds.
Proof.
  unfold number. cbn [List.length]. rewrite Rsum_S_l. cbn [nth]. f_equal.
  - f_equal. f_equal. lia.
  - apply Rsum_ext. intros i Hi. cbn [nth]. f_equal. f_equal. lia.
Qed.

Lemma numeral_length ds : List.length (numeral ds) = List.length ds.
Proof. apply map_length. Qed.

Lemma digits_float_number ds : digits ds -> digits_float (numeral ds) = number ds.
Proof.
  unfold digits_float. intros H.
  enough (G : forall acc, fold_left (fun acc c => 10 * acc + digit_val c) (numeral ds) acc = acc * 10 ^ List.length ds + number ds).
  { rewrite G. lra. }
  induction ds as [|d ds IH]; intros acc.
  - unfold number. cbn. lra.
  - apply digits_cons in H as [H1 H2]. cbn [numeral map fold_left]. fold (numeral ds). rewrite IH by auto.
    rewrite (proj2 (digit_char d H1)), number_cons. cbn [List.length pow]. lra.
Qed.

Lemma digits_float_nonneg s : 0 <= digits_float s.
Proof.
  unfold digits_float. enough (G : forall acc, 0 <= acc -> 0 <= fold_left (fun acc c => 10 * acc + digit_val c) s acc) by (apply G; lra).
  induction s as [|c s IH]; intros acc H; cbn [fold_left]; auto. apply IH.
  unfold digit_val. pose proof (pos_INR (nat_of_ascii c - 48)). lra.
Qed.

Lemma number_nonneg ds : 0 <= number ds.
Proof. unfold number. apply Rsum_nonneg. intros i Hi. apply Rmult_le_pos; [apply pos_INR|apply pow_le; lra]. Qed.

(** ** Cells *)

Lemma strip_app a b : strip_cell (a ++ b) = strip_cell a ++ strip_cell b.
Proof. apply filter_app. Qed.

Lemma strip_plain t : plain t -> strip_cell t = [].
Proof.
  unfold strip_cell. induction t as [|c t IH]; intros H; auto. cbn [filter].
  assert (Hc : ~ In c ("."%char :: digit_chars)) by (apply H; now left).
  assert (D : is_digit c = false) by (apply is_digit_not; intros X; apply Hc; now right).
  assert (P : is_dot c = false).
  { unfold is_dot. destruct (Ascii.eqb c ".") eqn:E; auto. apply Ascii.eqb_eq in E. exfalso; apply Hc; now left. }
  rewrite D, P. cbn. apply IH. intros x Hx. apply H; now right.
Qed.

Lemma strip_digits s : forallb is_digit s = true -> strip_cell s = s.
Proof.
  unfold strip_cell. induction s as [|c s IH]; intros H; auto. cbn [filter forallb] in *.
  apply andb_prop in H as [H1 H2]. rewrite H1. cbn. f_equal; auto.
Qed.

Lemma to_numeric_whole s : forallb is_digit s = true -> s <> [] -> to_numeric s = Ok (Some (digits_float s)).
Proof.
  intros H N. unfold to_numeric. destruct s as [|c s]; [congruence|]. set (t := c :: s) in *.
  assert (E : span is_digit t = List.length t).
  { rewrite <- (app_nil_r t) at 1. apply span_app; auto. }
  rewrite E, skipn_all, firstn_all. reflexivity.
Qed.

Lemma to_numeric_frac a b : forallb is_digit a = true -> forallb is_digit b = true -> (a <> [] \/ b <> []) ->
  to_numeric (a ++ "."%char :: b) = Ok (Some (digits_float a + digits_float b / 10 ^ List.length b)).
Proof.
  intros Ha Hb N. unfold to_numeric.
  assert (E : span is_digit (a ++ "."%char :: b) = List.length a) by (apply span_app; auto).
  destruct (a ++ "."%char :: b) as [|c s] eqn:Es; [destruct a; discriminate|]. rewrite <- Es in *.
  rewrite E, skipn_app_len, firstn_app_len, Hb.
  assert (L : (0 <? List.length a + List.length b)%nat = true).
  { apply Nat.ltb_lt. destruct a, b; cbn [List.length]; try lia. destruct N; congruence. }
  rewrite L. reflexivity.
Qed.

Lemma clean_nonneg s v : clean_cell s = Ok (Some v) -> 0 <= v.
Proof.
  unfold clean_cell, to_numeric. destruct (strip_cell s) as [|c t]; [discriminate|].
  set (u := c :: t). destruct (skipn (span is_digit u) u) as [|x frac].
  - intros H. injection H as <-. apply digits_float_nonneg.
  - destruct (forallb is_digit frac && _)%bool; [|discriminate]. intros H. injection H as <-.
    pose proof (digits_float_nonneg (firstn (span is_digit u) u)). pose proof (digits_float_nonneg frac).
    assert (0 < 10 ^ List.length frac) by (apply pow_lt; lra).
    assert (0 <= digits_float frac / 10 ^ List.length frac) by (apply Rmult_le_pos; auto; left; apply Rinv_0_lt_compat; auto).
    apply Rplus_le_le_0_compat; auto using digits_float_nonneg.
Qed.

Definition dd (c : ascii) := (is_digit c || is_dot c)%bool.

Lemma strip_dd s : forallb dd (strip_cell s) = true.
Proof. apply forallb_forall. intros c H. apply filter_In in H as [_ H]. exact H. Qed.

Lemma points_strip s : points (strip_cell s) = points s.
Proof.
  unfold points, strip_cell. induction s as [|c s IH]; auto. cbn [filter].
  destruct (is_digit c || is_dot c)%bool eqn:E; cbn [count_occ].
  - destruct (ascii_dec c "."); rewrite IH; auto.
  - destruct (ascii_dec c "."); auto. subst. cbn in E. discriminate.
Qed.

Lemma points_digits s : forallb dd s = true -> (points s = 0)%nat <-> forallb is_digit s = true.
Proof.
  unfold points. induction s as [|c s IH]; intros H; [tauto|]. cbn [forallb count_occ] in *.
  apply andb_prop in H as [H1 H2]. destruct (ascii_dec c ".") as [->|N].
  - cbn. split; [lia|discriminate].
  - unfold dd in H1. replace (is_dot c) with false in H1 by (symmetry; unfold is_dot; apply Ascii.eqb_neq; auto).
    rewrite orb_false_r in H1. rewrite H1. cbn. apply IH; auto.
Qed.

Lemma points_app a b : points (a ++ b) = (points a + points b)%nat.
Proof. apply count_occ_app. Qed.

Lemma no_digits_strip s : no_digits s -> forall c, In c (strip_cell s) -> c = "."%char.
Proof.
  intros H c Hc. apply filter_In in Hc as [H1 H2]. specialize (H c H1). apply is_digit_not in H. rewrite H in H2. cbn in H2.
  unfold is_dot in H2. now apply Ascii.eqb_eq in H2.
Qed.

(** Which cells raise. *)
Lemma clean_err s : clean_cell s = Err ValueError <-> (2 <= points s)%nat \/ (points s = 1%nat /\ no_digits s).
Proof.
  unfold clean_cell. rewrite <- points_strip.
  assert (ND : no_digits s <-> forall c, In c (strip_cell s) -> c = "."%char).
  { split; [apply no_digits_strip|]. intros H c Hc D. apply is_digit_in in D.
    assert (E : c = "."%char) by (apply H; apply filter_In; split; auto; now rewrite D). subst. discriminate D. }
  rewrite ND. pose proof (strip_dd s) as DD. revert DD. generalize (strip_cell s). clear ND s. intros s DD.
  unfold to_numeric. destruct s as [|c0 s0]; [cbn; split; [discriminate|intros [?|[? _]]; lia]|].
  set (s := c0 :: s0) in *. assert (Ns : s <> []) by (subst s; discriminate). clearbody s. clear c0 s0.
  set (k := span is_digit s). pose proof (span_le is_digit s) as SL. fold k in SL.
  assert (Hf : forallb is_digit (firstn k s) = true) by (apply span_firstn; auto).
  assert (Es : s = firstn k s ++ skipn k s) by (symmetry; apply firstn_skipn).
  assert (DDf : forallb dd (firstn k s) = true /\ forallb dd (skipn k s) = true).
  { rewrite Es, forallb_app in DD. apply andb_prop in DD. exact DD. }
  assert (P0 : (points (firstn k s) = 0)%nat) by (apply points_digits; tauto).
  assert (Hd : match skipn k s with c :: _ => c = "."%char | [] => True end).
  { destruct (skipn k s) as [|c r] eqn:E; auto.
    assert (NC : is_digit c = false).
    { destruct (is_digit c) eqn:D; auto. exfalso.
      assert (G : (List.length (firstn k s ++ [c]) <= span is_digit (firstn k s ++ [c] ++ r))%nat).
      { rewrite (app_assoc _ [c]). apply span_ge. rewrite forallb_app, Hf. cbn. now rewrite D. }
      cbn [app] in G. rewrite <- Es in G. fold k in G.
      rewrite app_length, firstn_length_le in G by auto. cbn in G. lia. }
    destruct DDf as [_ D2]. cbn [forallb] in D2. apply andb_prop in D2 as [D2 _]. unfold dd in D2. rewrite NC in D2. cbn in D2.
    now apply Ascii.eqb_eq in D2. }
  destruct (skipn k s) as [|c frac] eqn:E.
  - rewrite Es, points_app, P0. change (points []) with 0%nat. split; [discriminate|]. intros [?|[? _]]; lia.
  - subst c. assert (Ps : points s = S (points frac)).
    { rewrite Es, points_app, P0. unfold points. cbn [count_occ]. destruct (ascii_dec "." "."); [auto|congruence]. }
    rewrite Ps. destruct DDf as [_ D2]. cbn [forallb] in D2. apply andb_prop in D2 as [_ D2].
    destruct (forallb is_digit frac) eqn:F.
    + assert (Pf : points frac = 0%nat) by (apply points_digits; auto). rewrite Pf.
      destruct (0 <? List.length (firstn k s) + List.length frac)%nat eqn:L; cbn [andb].
      * split; [discriminate|]. intros [?|[_ A]]; [lia|]. exfalso. apply Nat.ltb_lt in L.
        destruct (firstn k s) as [|x w] eqn:W.
        -- destruct frac as [|y fr]; [cbn in L; lia|]. cbn [forallb] in F. apply andb_prop in F as [F1 _].
           rewrite (A y) in F1; [discriminate|]. rewrite Es. right; now left.
        -- cbn [forallb] in Hf. apply andb_prop in Hf as [F1 _]. rewrite (A x) in F1; [discriminate|]. rewrite Es. now left.
      * split; auto. intros _. right. split; auto. intros c Hc. apply Nat.ltb_ge in L.
        destruct (firstn k s) as [|x w]; [|cbn in L; lia]. destruct frac as [|y fr]; [|cbn in L; lia].
        rewrite Es in Hc. destruct Hc as [<-|[]]. reflexivity.
    + cbn [andb]. split; auto. intros _. left.
      assert (points frac <> 0%nat) by (intros X; apply points_digits in X; auto; congruence). lia.
Qed.

(** ** The join *)

Lemma map_result_flat_ok {A B} (f : A -> result B) l ys : map_result f l = Ok ys -> Forall2 (fun x y => f x = Ok y) l ys.
Proof.
  revert ys; induction l as [|a l IH]; intros ys H; cbn [map_result] in H.
  - apply Ok_inj in H; subst; constructor.
  - destruct (f a) eqn:E; cbn [bind] in H; [|discriminate]. destruct (map_result f l) eqn:E2; cbn [bind] in H; [|discriminate].
    apply Ok_inj in H; subst. constructor; auto.
Qed.

Lemma opt_all_spec {A} (l : list (option A)) r : opt_all l = Some r <-> l = map Some r.
Proof.
  revert r; induction l as [|x l IH]; intros r; cbn [opt_all fold_right].
  - split; intros H; [injection H as <-; auto|destruct r; [auto|discriminate]].
  - fold (opt_all l). destruct x as [a|].
    + destruct (opt_all l) as [q|] eqn:E.
      * split; intros H.
        -- injection H as <-. cbn. f_equal. now apply IH.
        -- destruct r as [|b r]; [discriminate|]. cbn in H. injection H as -> H. apply IH in H. injection H as ->. auto.
      * split; [discriminate|]. intros H. destruct r as [|b r]; [discriminate|]. cbn in H. injection H as -> H. apply IH in H. discriminate.
    + split; [discriminate|]. intros H. destruct r; discriminate.
Qed.

Definition joined_row (p : crow * srow) (r : Z * list R * str) : Prop :=
  c_wban (fst p) = Some (fst (fst r)) /\ s_wban (snd p) = Some (fst (fst r)) /\ s_loc (snd p) = Some (snd r) /\
  Forall2 (fun cell v => clean_cell cell = Ok (Some v)) (c_cells (fst p)) (snd (fst r)).

Lemma selects_app {A B} (P : A -> B -> Prop) l1 l2 r1 r2 : selects P l1 r1 -> selects P l2 r2 -> selects P (l1 ++ l2) (r1 ++ r2).
Proof. induction 1; intros H2; cbn [app]; auto; constructor; auto. Qed.

Lemma cells_forall2 cells vs ws : Forall2 (fun x y => clean_cell x = Ok y) cells vs -> Forall2 (fun x v => clean_cell x = Ok (Some v)) cells ws -> vs = map Some ws.
Proof.
  intros H; revert ws; induction H as [|x y l l' Hxy H IH]; intros ws H2; inversion H2; subst; auto.
  cbn. f_equal; auto. congruence.
Qed.

Lemma forall2_cells cells ws : Forall2 (fun x y => clean_cell x = Ok y) cells (map Some ws) -> Forall2 (fun x v => clean_cell x = Ok (Some v)) cells ws.
Proof. revert ws; induction cells as [|x l IH]; intros [|w ws] H; inversion H; subst; constructor; auto. Qed.

Lemma join_one c vs st : Forall2 (fun x y => clean_cell x = Ok y) (c_cells c) vs ->
  selects joined_row (map (fun s => (c, s)) st)
    (drop_missing (map (fun s => (c_wban c, vs, s_loc s)) (filter (fun s => same_key (c_wban c) (s_wban s)) (filter full_station st)))).
Proof.
  intros Hc. induction st as [|s st IH]; [constructor|]. cbn [map].
  assert (SK : (forall r, ~ joined_row (c, s) r) -> forall rest, selects joined_row (map (fun s => (c, s)) st) rest -> selects joined_row ((c, s) :: map (fun s => (c, s)) st) rest).
  { intros. apply sel_skip; auto. }
  cbn [filter]. destruct (full_station s) eqn:F.
  2: { apply SK; auto. intros [[w ws] loc] (_ & A & B & _). cbn in A, B. unfold full_station in F. rewrite A, B in F. discriminate. }
  cbn [filter]. destruct (same_key (c_wban c) (s_wban s)) eqn:K.
  2: { apply SK; auto. intros [[w ws] loc] (A & B & _ & _). cbn in A, B. rewrite A, B in K. cbn in K. apply Z.eqb_neq in K. congruence. }
  cbn [map]. unfold full_station in F. destruct (s_wban s) as [w'|] eqn:W; [|discriminate]. destruct (s_loc s) as [loc|] eqn:L; [|discriminate].
  destruct (c_wban c) as [w|] eqn:Cw; [|discriminate]. cbn in K. apply Z.eqb_eq in K. subst w'.
  unfold drop_missing at 1. cbn [flat_map]. fold (drop_missing).
  match goal with |- selects _ _ (_ ++ ?x) => change x with (drop_missing (map (fun s => (Some w, vs, s_loc s)) (filter (fun s => same_key (Some w) (s_wban s)) (filter full_station st)))) end.
  destruct (opt_all vs) as [ws|] eqn:O.
  - apply opt_all_spec in O. subst vs. cbn [app]. apply sel_take; auto.
    repeat split; cbn; auto. now apply forall2_cells.
  - cbn [app]. apply SK; auto. intros [[x ws] y] (_ & _ & _ & A). cbn in A.
    pose proof (cells_forall2 _ _ _ Hc A) as E. apply opt_all_spec in E. congruence.
Qed.

Lemma map_result_app {A B} (f : A -> result B) l1 l2 : map_result f (l1 ++ l2) =
  (let! a := map_result f l1 in let! b := map_result f l2 in Ok (a ++ b)).
Proof.
  induction l1 as [|x l1 IH]; cbn [app map_result].
  - cbn [bind]. destruct (map_result f l2); auto.
  - rewrite IH. destruct (f x); cbn [bind]; auto. destruct (map_result f l1); cbn [bind]; auto. destruct (map_result f l2); auto.
Qed.

Definition clean_row (p : crow * option str) : result (option Z * list (option R) * option str) :=
  let '(c, loc) := p in let! vs := map_result clean_cell (c_cells c) in Ok (c_wban c, vs, loc).

Lemma clean_rows_same c vs (f : srow -> option str) l : map_result clean_cell (c_cells c) = Ok vs ->
  map_result clean_row (map (fun s => (c, f s)) l) = Ok (map (fun s => (c_wban c, vs, f s)) l).
Proof.
  intros H. induction l as [|s l IH]; auto. cbn [map map_result]. unfold clean_row at 1. rewrite H. cbn [bind]. now rewrite IH.
Qed.

Lemma drop_app a b : drop_missing (a ++ b) = drop_missing a ++ drop_missing b.
Proof. apply flat_map_app. Qed.

Lemma merge_cons c climate st : exists part, merge_left (c :: climate) st = part ++ merge_left climate st /\ part <> [] /\
  ((exists s0 ms, filter (fun s => same_key (c_wban c) (s_wban s)) st = s0 :: ms /\ part = map (fun s => (c, s_loc s)) (s0 :: ms)) \/
   (filter (fun s => same_key (c_wban c) (s_wban s)) st = [] /\ part = [(c, None)])).
Proof.
  unfold merge_left. cbn [flat_map]. destruct (filter _ st) as [|s0 ms] eqn:E; (eexists; split; [reflexivity|]; split; [discriminate|]).
  - right; auto.
  - left. exists s0, ms. auto.
Qed.

Lemma table_rows climate stations rows : clean_table climate stations = Ok rows -> selects joined_row (list_prod climate stations) rows.
Proof.
  unfold clean_table, clean_numerics. change (fun '(c, loc) => let! vs := map_result clean_cell (c_cells c) in Ok (c_wban c, vs, loc)) with clean_row.
  revert rows; induction climate as [|c climate IH]; intros rows H.
  - cbn in H. apply Ok_inj in H. subst. constructor.
  - destruct (merge_cons c climate (filter full_station stations)) as (part & M1 & M2 & M3).
    rewrite M1, map_result_app in H. destruct (map_result clean_row part) as [ra|] eqn:EA; cbn [bind] in H; [|discriminate].
    destruct (map_result clean_row (merge_left climate (filter full_station stations))) as [rb|] eqn:EB; cbn [bind] in H; [|discriminate].
    apply Ok_inj in H. subst rows. rewrite drop_app. cbn [list_prod]. apply selects_app.
    2: { apply IH. reflexivity. }
    assert (V : exists vs, map_result clean_cell (c_cells c) = Ok vs).
    { destruct M3 as [(s0 & ms & _ & ->)|(_ & ->)]; cbn [map map_result] in EA; unfold clean_row at 1 in EA;
        destruct (map_result clean_cell (c_cells c)) as [vs|]; try discriminate; eauto. }
    destruct V as [vs V]. pose proof (join_one c vs stations (map_result_flat_ok _ _ _ V)) as J.
    destruct M3 as [(s0 & ms & Q & ->)|(Q & ->)].
    + rewrite Q in J. rewrite (clean_rows_same c vs s_loc _ V) in EA. apply Ok_inj in EA. subst ra. exact J.
    + rewrite Q in J. cbn [map_result] in EA. unfold clean_row in EA. rewrite V in EA. cbn [bind] in EA. apply Ok_inj in EA. subst ra.
      cbn [drop_missing flat_map map] in J. unfold drop_missing. cbn [flat_map]. destruct (c_wban c), (opt_all vs); exact J.
Qed.

Lemma map_result_err_in {A B} (f : A -> result B) l : (forall x e, In x l -> f x = Err e -> e = ValueError) ->
  map_result f l = Err ValueError <-> exists x, In x l /\ f x = Err ValueError.
Proof.
  induction l as [|a l IH]; intros HE; cbn [map_result].
  - split; [discriminate|]. intros (x & [] & _).
  - assert (IH' := IH (fun x e H => HE x e (or_intror H))). destruct (f a) as [b|e] eqn:E; cbn [bind].
    + destruct (map_result f l) as [r|e] eqn:E2; cbn [bind].
      * split; [discriminate|]. intros (x & [<-|H] & Hx); [congruence|]. pose proof (proj2 IH' (ex_intro _ x (conj H Hx))). discriminate.
      * split.
        -- intros H. injection H as ->. destruct (proj1 IH' eq_refl) as (x & H1 & H2). exists x. split; [now right|auto].
        -- intros (x & [<-|H] & Hx); [congruence|]. pose proof (proj2 IH' (ex_intro _ x (conj H Hx))) as Q. congruence.
    + pose proof (HE a e (or_introl eq_refl) E). subst e. split; auto. intros _. exists a. split; [now left|auto].
Qed.

Lemma clean_cell_err s e : clean_cell s = Err e -> e = ValueError.
Proof.
  unfold clean_cell, to_numeric. destruct (strip_cell s); [discriminate|]. destruct (skipn _ _); [discriminate|].
  destruct (_ && _)%bool; [discriminate|]. intros H; now injection H.
Qed.

Lemma map_clean_err l e : map_result clean_cell l = Err e -> e = ValueError.
Proof.
  induction l as [|a l IH]; cbn [map_result]; [discriminate|]. destruct (clean_cell a) eqn:E; cbn [bind].
  - destruct (map_result clean_cell l); cbn [bind]; [discriminate|]. exact IH.
  - intros H. injection H as <-. eapply clean_cell_err; eauto.
Qed.

Lemma merge_in climate st c : In c climate <-> exists l, In (c, l) (merge_left climate st).
Proof.
  induction climate as [|a climate IH].
  - split; [intros []|intros (l & [])].
  - destruct (merge_cons a climate st) as (part & M1 & M2 & M3). rewrite M1.
    assert (P : forall x l, In (x, l) part -> x = a).
    { intros x l Hx. destruct M3 as [(s0 & ms & _ & ->)|(_ & ->)].
      - apply in_map_iff in Hx as (s & Hs & _). congruence.
      - destruct Hx as [Hx|[]]. congruence. }
    assert (P2 : exists l, In (a, l) part).
    { destruct part as [|[x l] p]; [congruence|]. rewrite (P x l) by now left. exists l. now left. }
    split.
    + intros [<-|H].
      * destruct P2 as [l Hl]. exists l. apply in_or_app; auto.
      * apply IH in H as [l Hl]. exists l. apply in_or_app; auto.
    + intros [l Hl]. apply in_app_or in Hl as [Hl|Hl].
      * left. symmetry. eapply P; eauto.
      * right. apply IH. eauto.
Qed.

Lemma table_err climate stations : clean_table climate stations = Err ValueError <->
  exists c cell, In c climate /\ In cell (c_cells c) /\ clean_cell cell = Err ValueError.
Proof.
  unfold clean_table, clean_numerics. change (fun '(c, loc) => let! vs := map_result clean_cell (c_cells c) in Ok (c_wban c, vs, loc)) with clean_row.
  set (l := merge_left climate _).
  assert (E : (let! rows := map_result clean_row l in Ok (drop_missing rows)) = Err ValueError <-> map_result clean_row l = Err ValueError).
  { destruct (map_result clean_row l) as [r|e]; cbn [bind]; split; try discriminate; auto; congruence. }
  rewrite E, map_result_err_in.
  - split.
    + intros ([c loc] & H1 & H2). unfold clean_row in H2. destruct (map_result clean_cell (c_cells c)) as [v|e] eqn:V; cbn [bind] in H2; [discriminate|].
      injection H2 as ->. apply map_result_err_in in V; [|intros; eapply clean_cell_err; eauto].
      destruct V as (cell & V1 & V2). exists c, cell. split; auto. apply (merge_in _ (filter full_station stations)). exists loc. exact H1.
    + intros (c & cell & H1 & H2 & H3). apply (merge_in _ (filter full_station stations)) in H1 as [loc H1].
      exists (c, loc). split; auto. unfold clean_row.
      assert (V : map_result clean_cell (c_cells c) = Err ValueError) by (apply map_result_err_in; [intros; eapply clean_cell_err; eauto|eauto]).
      rewrite V. reflexivity.
  - intros [c loc] e _ H. unfold clean_row in H. destruct (map_result clean_cell (c_cells c)) as [v|e'] eqn:V; cbn [bind] in H; [discriminate|].
    injection H as <-. eapply map_clean_err; eauto.
Qed.
