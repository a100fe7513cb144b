(** Reading of locations in clean.py. *)

From Coq Require Import Reals List Arith ZArith Ascii String Bool Lia Lra.
From Coq Require Import List.
From Verif Require Import Base Model_Linalg Model_Util Model_Regex Model_Clean Spec_Clean Proofs_Regex Proofs_Clean.
Import ListNotations.
Open Scope R_scope.

Definition hd_in (p : ascii -> bool) (t : str) : Prop := match t with c :: _ => p c = false | [] => True end.

Lemma no_digits_all t : no_digits t -> forallb not_digit t = true.
Proof. intros H. apply forallb_forall. intros c Hc. unfold not_digit. rewrite (proj2 (is_digit_not c)); auto. Qed.

Lemma all_no_digits t : forallb not_digit t = true -> no_digits t.
Proof. intros H c Hc. rewrite forallb_forall in H. apply is_digit_not. specialize (H c Hc). unfold not_digit in H. now apply negb_true_iff. Qed.

Lemma numeral_hd ds t : ds <> [] -> digits ds -> exists c r, numeral ds ++ t = c :: r /\ is_digit c = true.
Proof.
  destruct ds as [|d ds]; [congruence|]. intros _ H. apply digits_cons in H as [H _].
  exists (ascii_of_nat (48 + d)), (numeral ds ++ t). split; [reflexivity|]. apply digit_char; auto.
Qed.

Lemma numeral_hd_nd ds t : ds <> [] -> digits ds -> hd_in not_digit (numeral ds ++ t).
Proof. intros H1 H2. destruct (numeral_hd ds t H1 H2) as (c & r & -> & E). cbn. unfold not_digit. now rewrite E. Qed.

Lemma digit_not_word c : is_digit c = true -> not_word c = false.
Proof. unfold not_word, is_word. intros ->. reflexivity. Qed.

Lemma numeral_hd_nw ds t : ds <> [] -> digits ds -> hd_in not_word (numeral ds ++ t).
Proof. intros H1 H2. destruct (numeral_hd ds t H1 H2) as (c & r & -> & E). cbn. now apply digit_not_word. Qed.

Lemma nd_hd u t : u <> [] -> no_digits u -> hd_in is_digit (u ++ t).
Proof. destruct u as [|c u]; [congruence|]. intros _ H. cbn. apply is_digit_not, H. now left. Qed.

Lemma N_S_in c : N_S c = true <-> c = "N"%char \/ c = "S"%char.
Proof. unfold N_S, one_of. rewrite existsb_in. cbn. intuition congruence. Qed.
Lemma E_W_in c : E_W c = true <-> c = "E"%char \/ c = "W"%char.
Proof. unfold E_W, one_of. rewrite existsb_in. cbn. intuition congruence. Qed.

Lemma N_S_digit c : is_digit c = true -> N_S c = false.
Proof. intros H. destruct (N_S c) eqn:E; auto. apply N_S_in in E as [->| ->]; discriminate. Qed.
Lemma E_W_digit c : is_digit c = true -> E_W c = false.
Proof. intros H. destruct (E_W c) eqn:E; auto. apply E_W_in in E as [->| ->]; discriminate. Qed.

Lemma north_ns h g : north h g -> N_S h = true /\ is_digit h = false.
Proof. intros [[-> _]|[-> _]]; auto. Qed.
Lemma east_ew h g : east h g -> E_W h = true /\ is_digit h = false.
Proof. intros [[-> _]|[-> _]]; auto. Qed.

Lemma north_sign h g : north h g -> (if str_eqb [h] ["N"%char] then 1 else -1) = g.
Proof. intros [[-> ->]|[-> ->]]; reflexivity. Qed.
Lemma east_sign h g : east h g -> (if str_eqb [h] ["E"%char] then 1 else -1) = g.
Proof. intros [[-> ->]|[-> ->]]; reflexivity. Qed.

Lemma blank_classes w c : blank w -> In c w -> not_word c = true /\ is_digit c = false /\ N_S c = false.
Proof.
  intros [_ H] Hc. specialize (H c Hc). revert H. generalize c. clear.
  intros c H. cbn in H. repeat (destruct H as [<-|H]; [repeat split; reflexivity|]). destruct H.
Qed.

Lemma blank_not_word w : blank w -> forallb not_word w = true.
Proof. intros H. apply forallb_forall. intros c Hc. now apply (blank_classes w). Qed.
Lemma blank_no_digits w : blank w -> no_digits w.
Proof. intros H c Hc. apply is_digit_not. now apply (blank_classes w). Qed.

(** What comes next cannot start with the class. *)
Lemma next_once p q cap rest : (forall c, p c = true -> q c = false) -> forall c b, p c = true -> re_match (once q cap :: rest) (c :: b) = None.
Proof. intros H c b Hc. apply once_fail. auto. Qed.
Lemma next_plus p q cap rest : (forall c, p c = true -> q c = false) -> forall c b, p c = true -> re_match (plus q cap :: rest) (c :: b) = None.
Proof. intros H c b Hc. apply plus_fail. auto. Qed.
Lemma next_star p q r cap cap' rest : (forall c, p c = true -> q c = false) -> (forall c, p c = true -> r c = false) ->
  forall c b, p c = true -> re_match (star q cap :: once r cap' :: rest) (c :: b) = None.
Proof.
  intros H1 H2 c b Hc. change (c :: b) with (@nil ascii ++ c :: b). apply rep_fail; [reflexivity|apply H1, Hc|].
  intros i Hi. cbn in Hi. replace i with 0%nat by lia. cbn [app skipn]. apply once_fail. apply H2, Hc.
Qed.

Lemma d_nd c : is_digit c = true -> not_digit c = false.
Proof. unfold not_digit. intros ->; auto. Qed.
Lemma nd_d c : not_digit c = true -> is_digit c = false.
Proof. unfold not_digit. apply negb_true_iff. Qed.
Lemma nw_d c : not_word c = true -> is_digit c = false.
Proof. destruct (is_digit c) eqn:E; auto. intros H. rewrite digit_not_word in H by auto. discriminate. Qed.

Lemma skipn_suffix_in {A} i (l : list A) c r : skipn i l = c :: r -> In c l.
Proof. revert i; induction l as [|x l IH]; intros [|i] H; try discriminate; cbn in H; [left; congruence|right; eauto]. Qed.

(** A text without digits splits off the end of a longer one. *)
Lemma split_run (t : str) : exists a b, t = a ++ b /\ forallb not_digit a = true /\ hd_in not_digit b.
Proof.
  induction t as [|c t (a & b & -> & H1 & H2)].
  - exists [], []. repeat split.
  - destruct (not_digit c) eqn:E.
    + exists (c :: a), b. cbn. rewrite E. auto.
    + exists [], (c :: a ++ b). cbn. auto.
Qed.

(** [\D*(E|W)], [\D+(E|W)] at the end *)
Lemma end_step lo v h g tail : (lo <= List.length v)%nat -> no_digits v -> east h g -> no_east_west tail ->
  re_match [{| it_lo := lo; it_hi := None; it_cls := not_digit; it_cap := false |}; once E_W true] (v ++ h :: tail) = Some [[h]].
Proof.
  intros L V H [T1 T2]. destruct (split_run tail) as (a & b & -> & A & B).
  change (v ++ h :: a ++ b) with (v ++ (h :: a) ++ b).
  destruct (east_ew h g H) as [E1 E2].
  rewrite (rep_back lo not_digit false [once E_W true] v (h :: a) b [[h]]); auto.
  - rewrite forallb_app, no_digits_all by auto. cbn [forallb]. rewrite A. unfold not_digit at 1. rewrite E2. reflexivity.
  - intros i Hi. apply once_fail. destruct i as [|i]; [lia|]. cbn [app skipn].
    destruct (skipn i (a ++ b)) as [|c r] eqn:Sk; auto. apply skipn_suffix_in in Sk.
    destruct (E_W c) eqn:Q; auto. apply E_W_in in Q as [->| ->]; tauto.
  - cbn [app]. rewrite once_step by auto. reflexivity.
Qed.

(** [\D*(N|S)\W+] and what follows *)
Lemma mid_step lo v h g w t rest gs : (lo <= List.length v)%nat -> no_digits v -> north h g -> blank w -> (exists c r, t = c :: r /\ is_digit c = true) ->
  (forall c b, not_word c = true -> re_match rest (c :: b) = None) ->
  re_match rest t = Some gs ->
  re_match ({| it_lo := lo; it_hi := None; it_cls := not_digit; it_cap := false |} :: once N_S true :: plus not_word false :: rest) (v ++ h :: w ++ t) = Some ([h] :: gs).
Proof.
  intros L V H W (c0 & r0 & T & D0) Nx M. destruct (north_ns h g H) as [E1 E2].
  change (v ++ h :: w ++ t) with (v ++ (h :: w) ++ t).
  rewrite (rep_back lo not_digit false (once N_S true :: plus not_word false :: rest) v (h :: w) t ([h] :: gs)); auto.
  - rewrite forallb_app, no_digits_all by auto. cbn [forallb]. rewrite no_digits_all by (now apply blank_no_digits). unfold not_digit. rewrite E2. reflexivity.
  - subst t. now apply d_nd.
  - intros i Hi. apply once_fail. destruct i as [|i]; [lia|]. cbn [app skipn List.length] in *.
    destruct (skipn i (w ++ t)) as [|c r] eqn:Sk; auto.
    destruct (Nat.lt_ge_cases i (List.length w)) as [Li|Li].
    + assert (In c w).
      { rewrite skipn_app in Sk. destruct (skipn i w) as [|c' r'] eqn:Sw.
        - apply (f_equal (@List.length ascii)) in Sw. rewrite skipn_length in Sw. cbn in Sw. lia.
        - cbn in Sk. injection Sk as -> _. eapply skipn_suffix_in; eauto. }
      now apply (blank_classes w).
    + assert (i = List.length w) by lia. subst i. rewrite skipn_app_len in Sk. rewrite T in Sk. injection Sk as -> _. now apply N_S_digit.
  - cbn [app]. rewrite once_step by auto. unfold plus.
    rewrite rep_step; auto.
    + rewrite M. reflexivity.
    + now apply blank_not_word.
    + destruct W as [W _]. destruct w; [congruence|cbn; lia].
    + subst t. now apply digit_not_word.
Qed.

Lemma num_step cap ds t rest : ds <> [] -> digits ds -> hd_in is_digit t -> (forall c b, is_digit c = true -> re_match rest (c :: b) = None) ->
  re_match (plus is_digit cap :: rest) (numeral ds ++ t) = addg (plus is_digit cap) (numeral ds) (re_match rest t).
Proof.
  intros H1 H2 T N. unfold plus. rewrite rep_step; auto.
  - now apply numeral_digits.
  - rewrite numeral_length. destruct ds; [congruence|cbn; lia].
Qed.

Lemma sep_step u t rest : u <> [] -> no_digits u -> hd_in not_digit t -> (forall c b, not_digit c = true -> re_match rest (c :: b) = None) ->
  re_match (plus not_digit false :: rest) (u ++ t) = re_match rest t.
Proof.
  intros H1 H2 T N. unfold plus. rewrite rep_step; auto.
  - unfold addg. cbn. destruct (re_match rest t); auto.
  - now apply no_digits_all.
  - destruct u; [congruence|cbn; lia].
Qed.

Lemma char_step c t rest : ~ In c digit_chars -> re_match (once not_digit false :: rest) (c :: t) = re_match rest t.
Proof.
  intros H. rewrite once_step.
  - unfold addg. cbn. destruct (re_match rest t); auto.
  - unfold not_digit. rewrite (proj2 (is_digit_not c)); auto.
Qed.

Lemma vh_hd v h t : no_digits v -> is_digit h = false -> hd_in is_digit (v ++ h :: t).
Proof. intros V H. destruct v as [|c v]; cbn; auto. apply is_digit_not, V. now left. Qed.

(** Degrees, minutes, seconds of the longitude *)
Lemma lon_dms d m s c1 c2 v h g tail : numerals [d; m; s] -> no_digits [c1; c2] -> no_digits v -> east h g -> no_east_west tail ->
  re_match [plus is_digit true; once not_digit false; plus is_digit true; once not_digit false; plus is_digit true; star not_digit false; once E_W true]
    (numeral d ++ c1 :: numeral m ++ c2 :: numeral s ++ v ++ h :: tail) = Some [numeral d; numeral m; numeral s; [h]].
Proof.
  intros N C V H T.
  destruct (N d) as [D1 D2]; [cbn; tauto|]. destruct (N m) as [M1 M2]; [cbn; tauto|]. destruct (N s) as [S1 S2]; [cbn; tauto|].
  assert (C1 : ~ In c1 digit_chars) by (apply C; cbn; tauto). assert (C2 : ~ In c2 digit_chars) by (apply C; cbn; tauto).
  rewrite num_step; auto; [|cbn; now apply is_digit_not|apply next_once, d_nd]. rewrite char_step by auto.
  rewrite num_step; auto; [|cbn; now apply is_digit_not|apply next_once, d_nd]. rewrite char_step by auto.
  destruct (east_ew h g H) as [E1 E2].
  rewrite num_step; auto; [|now apply vh_hd|apply next_star; [apply d_nd|apply E_W_digit]].
  unfold star. rewrite (end_step 0 v h g tail); auto; lia.
Qed.

Lemma lon_dm d m u v h g tail : numerals [d; m] -> no_digits u -> u <> [] -> no_digits v -> v <> [] -> east h g -> no_east_west tail ->
  re_match [plus is_digit true; plus not_digit false; plus is_digit true; plus not_digit false; once E_W true]
    (numeral d ++ u ++ numeral m ++ v ++ h :: tail) = Some [numeral d; numeral m; [h]].
Proof.
  intros N U U' V V' H T.
  destruct (N d) as [D1 D2]; [cbn; tauto|]. destruct (N m) as [M1 M2]; [cbn; tauto|].
  destruct (east_ew h g H) as [E1 E2].
  rewrite num_step; auto; [|now apply nd_hd|apply next_plus, d_nd].
  rewrite sep_step; auto; [|now apply numeral_hd_nd|apply next_plus, nd_d].
  rewrite num_step; auto; [|now apply vh_hd|apply next_plus, d_nd].
  unfold plus. rewrite (end_step 1 v h g tail); auto. destruct v; [congruence|cbn; lia].
Qed.

Section Dms.
Variables (d m s d' m' s' : list nat) (c c1 c2 h h' : ascii) (u v w v' tail : list ascii) (g g' : R).
Hypothesis HN : numerals [d; m; s; d'; m'; s'].
Hypothesis HC : no_digits [c; c1; c2].
Hypothesis HU : no_digits u.
Hypothesis HU' : u <> [].
Hypothesis HV : no_digits v.
Hypothesis HV' : no_digits v'.
Hypothesis Hh : north h g.
Hypothesis Hh' : east h' g'.
Hypothesis HW : blank w.
Hypothesis HT : no_east_west tail.

Lemma p1_dms : re_match p1 (numeral d ++ c :: numeral m ++ u ++ numeral s ++ v ++ h :: w ++ numeral d' ++ c1 :: numeral m' ++ c2 :: numeral s' ++ v' ++ h' :: tail)
  = Some [numeral d; numeral m; numeral s; [h]; numeral d'; numeral m'; numeral s'; [h']].
Proof.
  destruct (HN d) as [D1 D2]; [cbn; tauto|]. destruct (HN m) as [M1 M2]; [cbn; tauto|]. destruct (HN s) as [S1 S2]; [cbn; tauto|].
  destruct (HN d') as [D1' D2']; [cbn; tauto|].
  assert (C0 : ~ In c digit_chars) by (apply HC; cbn; tauto).
  destruct (north_ns h g Hh) as [E1 E2].
  unfold p1.
  rewrite num_step; auto; [|cbn; now apply is_digit_not|apply next_once, d_nd]. rewrite char_step by auto.
  rewrite num_step; auto; [|now apply nd_hd|apply next_plus, d_nd].
  rewrite sep_step; auto; [|now apply numeral_hd_nd|apply next_plus, nd_d].
  rewrite num_step; auto; [|now apply vh_hd|apply next_star; [apply d_nd|apply N_S_digit]].
  unfold star at 1.
  rewrite (mid_step 0 v h g w _ _ [numeral d'; numeral m'; numeral s'; [h']]); auto.
  - lia.
  - destruct (numeral_hd d' (c1 :: numeral m' ++ c2 :: numeral s' ++ v' ++ h' :: tail) D1' D2') as (x & r & A & B). eauto.
  - apply next_plus, nw_d.
  - apply (lon_dms d' m' s' c1 c2 v' h' g' tail); auto.
    + intros ds Hds. apply HN. cbn in *. tauto.
    + intros x Hx. apply HC. cbn in *. tauto.
Qed.

Lemma parse_dms : parse_loc (numeral d ++ c :: numeral m ++ u ++ numeral s ++ v ++ h :: w ++ numeral d' ++ c1 :: numeral m' ++ c2 :: numeral s' ++ v' ++ h' :: tail)
  = Some (g * angle d m s, g' * angle d' m' s').
Proof.
  unfold parse_loc. rewrite p1_dms. cbv zeta. rewrite (north_sign h g Hh), (east_sign h' g' Hh').
  rewrite !digits_float_number by (apply HN; cbn; tauto). unfold angle. f_equal. f_equal; field.
Qed.
End Dms.

Section Dm.
Variables (d m d' m' : list nat) (h h' : ascii) (u v w u' v' tail : list ascii) (g g' : R).
Hypothesis HN : numerals [d; m; d'; m'].
Hypothesis HU : no_digits u.
Hypothesis HU' : u <> [].
Hypothesis HV : no_digits v.
Hypothesis HV' : v <> [].
Hypothesis HX : no_digits u'.
Hypothesis HX' : u' <> [].
Hypothesis HY : no_digits v'.
Hypothesis HY' : v' <> [].
Hypothesis Hns : no_north_south u'.
Hypothesis Hh : north h g.
Hypothesis Hh' : east h' g'.
Hypothesis HW : blank w.
Hypothesis HT : no_east_west tail.

Lemma p2_dm : re_match p2 (numeral d ++ u ++ numeral m ++ v ++ h :: w ++ numeral d' ++ u' ++ numeral m' ++ v' ++ h' :: tail)
  = Some [numeral d; numeral m; [h]; numeral d'; numeral m'; [h']].
Proof.
  destruct (HN d) as [D1 D2]; [cbn; tauto|]. destruct (HN m) as [M1 M2]; [cbn; tauto|].
  destruct (HN d') as [D1' D2']; [cbn; tauto|].
  unfold p2.
  rewrite num_step; auto; [|now apply nd_hd|apply next_plus, d_nd].
  rewrite sep_step; auto; [|now apply numeral_hd_nd|apply next_plus, nd_d].
  destruct (north_ns h g Hh) as [E1 E2].
  rewrite num_step; auto; [|now apply vh_hd|apply next_plus, d_nd].
  unfold plus at 1.
  rewrite (mid_step 1 v h g w _ _ [numeral d'; numeral m'; [h']]); auto.
  - destruct v; [congruence|cbn; lia].
  - destruct (numeral_hd d' (u' ++ numeral m' ++ v' ++ h' :: tail) D1' D2') as (x & r & A & B). eauto.
  - apply next_plus, nw_d.
  - apply (lon_dm d' m' u' v' h' g' tail); auto.
    intros ds Hds. apply HN. cbn in *. tauto.
Qed.

Lemma p1_dm : re_match p1 (numeral d ++ u ++ numeral m ++ v ++ h :: w ++ numeral d' ++ u' ++ numeral m' ++ v' ++ h' :: tail) = None.
Proof.
  destruct (HN d) as [D1 D2]; [cbn; tauto|]. destruct (HN m) as [M1 M2]; [cbn; tauto|].
  destruct (HN d') as [D1' D2']; [cbn; tauto|]. destruct (HN m') as [M1' M2']; [cbn; tauto|].
  unfold p1.
  rewrite num_step; auto; [|now apply nd_hd|apply next_once, d_nd].
  destruct u as [|c u1]; [congruence|]. cbn [app].
  rewrite char_step by (apply HU; now left).
  destruct u1 as [|c' u2].
  2: { cbn [app]. rewrite plus_fail; auto. cbn. apply is_digit_not, HU. right; now left. }
  cbn [app].
  destruct (north_ns h g Hh) as [E1 E2].
  rewrite num_step; auto; [|now apply vh_hd|apply next_plus, d_nd].
  assert (R : v ++ h :: w ++ numeral d' ++ u' ++ numeral m' ++ v' ++ h' :: tail = (v ++ h :: w) ++ numeral d' ++ u' ++ numeral m' ++ v' ++ h' :: tail).
  { rewrite <- app_assoc. reflexivity. }
  rewrite R. rewrite sep_step; auto.
  - match goal with |- context [re_match ?P ?t] => assert (F : re_match P t = None); [|rewrite F; reflexivity] end.
    unfold plus at 1. apply rep_fail.
    + now apply numeral_digits.
    + apply nd_hd; auto.
    + intros i Hi. destruct (Nat.eq_dec i (List.length (numeral d'))) as [->|Ni].
      * rewrite skipn_app_len. unfold star at 1. apply rep_fail.
        -- now apply no_digits_all.
        -- now apply numeral_hd_nd.
        -- intros j Hj. apply once_fail. destruct (Nat.eq_dec j (List.length u')) as [->|Nj].
           ++ rewrite skipn_app_len. destruct (numeral_hd m' (v' ++ h' :: tail) M1' M2') as (x & r & -> & B). now apply N_S_digit.
           ++ rewrite skipn_app. destruct (skipn j u') as [|x r] eqn:Sk.
              ** apply (f_equal (@List.length ascii)) in Sk. rewrite skipn_length in Sk. cbn in Sk. lia.
              ** cbn. apply skipn_suffix_in in Sk. destruct (N_S x) eqn:Q; auto. destruct Hns. apply N_S_in in Q as [->| ->]; tauto.
      * rewrite skipn_app. destruct (skipn i (numeral d')) as [|x r] eqn:Sk.
        -- apply (f_equal (@List.length ascii)) in Sk. rewrite skipn_length in Sk. cbn in Sk. lia.
        -- cbn [app]. apply next_star with (p := is_digit); [apply d_nd|apply N_S_digit|].
           apply skipn_suffix_in in Sk. pose proof (numeral_digits d' D2') as F. rewrite forallb_forall in F. auto.
  - destruct v; discriminate.
  - intros x Hx. apply in_app_or in Hx as [Hx|[<-|Hx]]; [auto|now apply is_digit_not|now apply (blank_no_digits w)].
  - now apply numeral_hd_nd.
  - apply next_plus, nd_d.
Qed.

Lemma parse_dm : parse_loc (numeral d ++ u ++ numeral m ++ v ++ h :: w ++ numeral d' ++ u' ++ numeral m' ++ v' ++ h' :: tail)
  = Some (g * angle d m [], g' * angle d' m' []).
Proof.
  unfold parse_loc. rewrite p1_dm, p2_dm. cbv zeta. rewrite (north_sign h g Hh), (east_sign h' g' Hh').
  rewrite !digits_float_number by (apply HN; cbn; tauto). unfold angle. replace (number []) with 0 by reflexivity. f_equal. f_equal; field.
Qed.
End Dm.

(** ** What is read is there *)

Lemma digit_chars_numeral a : forallb is_digit a = true -> exists ds, digits ds /\ a = numeral ds.
Proof.
  induction a as [|c a IH]; intros H; [exists []; split; [intros ? []|reflexivity]|].
  cbn in H. apply andb_prop in H as [H1 H2]. destruct (IH H2) as (ds & D & ->).
  exists ((nat_of_ascii c - 48)%nat :: ds). unfold is_digit in H1. apply andb_prop in H1 as [A B]. apply Nat.leb_le in A, B. split.
  - intros x [<-|Hx]; [lia|auto].
  - cbn [numeral map]. f_equal. replace (48 + (nat_of_ascii c - 48))%nat with (nat_of_ascii c) by lia. symmetry. apply ascii_nat_embedding.
Qed.

Lemma m_inv it rest s gs : matches (it :: rest) s gs -> exists a t gs', s = a ++ t /\ fits it a /\ matches rest t gs' /\ gs = (if it_cap it then a :: gs' else gs').
Proof. intros H. inversion H; subst. eauto 8. Qed.

Lemma m_num rest s gs : matches (plus is_digit true :: rest) s gs -> exists ds t gs', ds <> [] /\ digits ds /\ s = numeral ds ++ t /\ matches rest t gs' /\ gs = numeral ds :: gs'.
Proof.
  intros H. apply m_inv in H as (a & t & gs' & -> & (F1 & _ & F3) & M & ->). cbn in *.
  destruct (digit_chars_numeral a F3) as (ds & D & ->). exists ds, t, gs'. repeat split; auto.
  intros ->. cbn in F1. lia.
Qed.
Lemma m_seps rest s gs : matches (plus not_digit false :: rest) s gs -> exists u t, u <> [] /\ no_digits u /\ s = u ++ t /\ matches rest t gs.
Proof.
  intros H. apply m_inv in H as (a & t & gs' & -> & (F1 & _ & F3) & M & ->). cbn in *.
  exists a, t. repeat split; auto; [destruct a; [cbn in F1; lia|discriminate]|now apply all_no_digits].
Qed.
Lemma m_star rest s gs : matches (star not_digit false :: rest) s gs -> exists u t, no_digits u /\ s = u ++ t /\ matches rest t gs.
Proof.
  intros H. apply m_inv in H as (a & t & gs' & -> & (F1 & _ & F3) & M & ->). cbn in *.
  exists a, t. repeat split; auto. now apply all_no_digits.
Qed.
Lemma m_once p cap rest s gs : matches (once p cap :: rest) s gs -> exists c t gs', p c = true /\ s = c :: t /\ matches rest t gs' /\ gs = (if cap then [c] :: gs' else gs').
Proof.
  intros H. apply m_inv in H as (a & t & gs' & -> & (F1 & F2 & F3) & M & ->). cbn in *.
  specialize (F2 1%nat eq_refl). destruct a as [|c [|c' a]]; cbn in *; try lia.
  exists c, t, gs'. rewrite andb_true_r in F3. auto.
Qed.
Lemma m_nw rest s gs : matches (plus not_word false :: rest) s gs -> exists u t, u <> [] /\ forallb not_word u = true /\ s = u ++ t /\ matches rest t gs.
Proof.
  intros H. apply m_inv in H as (a & t & gs' & -> & (F1 & _ & F3) & M & ->). cbn in *.
  exists a, t. repeat split; auto; destruct a; [cbn in F1; lia|discriminate].
Qed.

Definition north_of (h : ascii) := if str_eqb [h] ["N"%char] then 1 else -1.
Definition east_of (h : ascii) := if str_eqb [h] ["E"%char] then 1 else -1.
Lemma north_of_ok h : N_S h = true -> north h (north_of h).
Proof. intros H. apply N_S_in in H as [->| ->]; [left|right]; split; reflexivity. Qed.
Lemma east_of_ok h : E_W h = true -> east h (east_of h).
Proof. intros H. apply E_W_in in H as [->| ->]; [left|right]; split; reflexivity. Qed.

(** No letter, digit, numeral or underscore *)
Definition no_word (w : str) : Prop :=
  forall c, In c w -> let n := nat_of_ascii c in
    ~ ((48 <= n <= 57)%nat \/ (65 <= n <= 90)%nat \/ (97 <= n <= 122)%nat \/ n = 95%nat \/
       In n [170; 178; 179; 181; 185; 186; 188; 189; 190]%nat \/ ((192 <= n)%nat /\ n <> 215%nat /\ n <> 247%nat)).

Lemma is_word_spec c : let n := nat_of_ascii c in is_word c = true <->
  ((48 <= n <= 57)%nat \/ (65 <= n <= 90)%nat \/ (97 <= n <= 122)%nat \/ n = 95%nat \/
   In n [170; 178; 179; 181; 185; 186; 188; 189; 190]%nat \/ ((192 <= n)%nat /\ n <> 215%nat /\ n <> 247%nat)).
Proof.
  cbv zeta. unfold is_word, is_digit. cbv zeta. generalize (nat_of_ascii c) as n. intros n.
  rewrite !orb_true_iff, !andb_true_iff, !negb_true_iff, !Nat.leb_le, !Nat.eqb_eq, !Nat.eqb_neq, existsb_exists.
  assert (X : (exists x, In x [170; 178; 179; 181; 185; 186; 188; 189; 190]%nat /\ (n =? x)%nat = true) <-> In n [170; 178; 179; 181; 185; 186; 188; 189; 190]%nat).
  { split; [intros (x & H & E); apply Nat.eqb_eq in E; now subst|intros H; exists n; split; [exact H|apply Nat.eqb_refl]]. }
  rewrite X. tauto.
Qed.

Lemma no_word_spec w : forallb not_word w = true <-> no_word w.
Proof.
  rewrite forallb_forall. unfold no_word, not_word. split; intros H c Hc; specialize (H c Hc); cbv zeta in *.
  - intros X. apply is_word_spec in X. rewrite X in H. discriminate.
  - destruct (is_word c) eqn:E; [|reflexivity]. destruct H. now apply is_word_spec.
Qed.
Lemma no_word_of w : forallb not_word w = true -> no_word w.
Proof. apply no_word_spec. Qed.

Definition dms_reading (i : str) (lat lon : R) : Prop :=
  exists d m s d' m' s' c c1 c2 u v w v' h h' g g' tail,
    numerals [d; m; s; d'; m'; s'] /\ no_digits ([c; c1; c2] ++ u ++ v ++ v') /\ u <> [] /\ w <> [] /\ no_word w /\ north h g /\ east h' g' /\
    i = dms_text d m s c u v h ++ w ++ dms_text d' m' s' c1 [c2] v' h' ++ tail /\ lat = g * angle d m s /\ lon = g' * angle d' m' s'.
Definition dm_reading (i : str) (lat lon : R) : Prop :=
  exists d m d' m' u v w u' v' h h' g g' tail,
    numerals [d; m; d'; m'] /\ no_digits (u ++ v ++ u' ++ v') /\ u <> [] /\ v <> [] /\ u' <> [] /\ v' <> [] /\ w <> [] /\ no_word w /\ north h g /\ east h' g' /\
    i = dm_text d m u v h ++ w ++ dm_text d' m' u' v' h' ++ tail /\ lat = g * angle d m [] /\ lon = g' * angle d' m' [].

Lemma no_digits_app a b : no_digits a -> no_digits b -> no_digits (a ++ b).
Proof. intros A B c H. apply in_app_or in H as [H|H]; auto. Qed.
Lemma no_digits_cons c b : not_digit c = true -> no_digits b -> no_digits (c :: b).
Proof. intros A B x [<-|H]; auto. apply is_digit_not. now apply nd_d. Qed.
Lemma numerals_cons ds l : ds <> [] -> digits ds -> numerals l -> numerals (ds :: l).
Proof. intros A B H x [<-|Hx]; auto. Qed.
Lemma numerals_nil : numerals [].
Proof. intros x []. Qed.

Lemma p1_inv i gs : matches p1 i gs ->
  exists d m s h d' m' s' h', gs = [numeral d; numeral m; numeral s; [h]; numeral d'; numeral m'; numeral s'; [h']] /\
    digits d /\ digits m /\ digits s /\ digits d' /\ digits m' /\ digits s' /\
    dms_reading i (north_of h * angle d m s) (east_of h' * angle d' m' s').
Proof.
  intros M. unfold p1 in M.
  apply m_num in M as (d & t & g1 & D1 & D2 & -> & M & ->).
  apply m_once in M as (c & t1 & g2 & C & -> & M & ->).
  apply m_num in M as (m & t2 & g3 & M1 & M2 & -> & M & ->).
  apply m_seps in M as (u & t3 & U1 & U2 & -> & M).
  apply m_num in M as (s & t4 & g4 & S1 & S2 & -> & M & ->).
  apply m_star in M as (v & t5 & V & -> & M).
  apply m_once in M as (h & t6 & g5 & H & -> & M & ->).
  apply m_nw in M as (w & t7 & W1 & W2 & -> & M).
  apply m_num in M as (d' & t8 & g6 & D1' & D2' & -> & M & ->).
  apply m_once in M as (c1 & t9 & g7 & C1 & -> & M & ->).
  apply m_num in M as (m' & t10 & g8 & M1' & M2' & -> & M & ->).
  apply m_once in M as (c2 & t11 & g9 & C2 & -> & M & ->).
  apply m_num in M as (s' & t12 & g10 & S1' & S2' & -> & M & ->).
  apply m_star in M as (v' & t13 & V' & -> & M).
  apply m_once in M as (h' & t14 & g11 & H' & -> & M & ->).
  inversion M; subst.
  exists d, m, s, h, d', m', s', h'. repeat (split; [auto|]).
  exists d, m, s, d', m', s', c, c1, c2, u, v, w, v', h, h', (north_of h), (east_of h'), t14.
  split; [repeat apply numerals_cons; auto using numerals_nil|].
  split; [cbn [app]; repeat apply no_digits_cons; auto; repeat apply no_digits_app; auto|].
  do 5 (split; [auto using north_of_ok, east_of_ok, no_word_of|]).
  split; [|split; reflexivity].
  unfold dms_text. repeat (rewrite <- ?app_assoc; cbn [app]). reflexivity.
Qed.

Lemma p2_inv i gs : matches p2 i gs ->
  exists d m h d' m' h', gs = [numeral d; numeral m; [h]; numeral d'; numeral m'; [h']] /\
    digits d /\ digits m /\ digits d' /\ digits m' /\
    dm_reading i (north_of h * angle d m []) (east_of h' * angle d' m' []).
Proof.
  intros M. unfold p2 in M.
  apply m_num in M as (d & t & g1 & D1 & D2 & -> & M & ->).
  apply m_seps in M as (u & t1 & U1 & U2 & -> & M).
  apply m_num in M as (m & t2 & g3 & M1 & M2 & -> & M & ->).
  apply m_seps in M as (v & t3 & V1 & V2 & -> & M).
  apply m_once in M as (h & t6 & g5 & H & -> & M & ->).
  apply m_nw in M as (w & t7 & W1 & W2 & -> & M).
  apply m_num in M as (d' & t8 & g6 & D1' & D2' & -> & M & ->).
  apply m_seps in M as (u' & t9 & U1' & U2' & -> & M).
  apply m_num in M as (m' & t10 & g8 & M1' & M2' & -> & M & ->).
  apply m_seps in M as (v' & t11 & V1' & V2' & -> & M).
  apply m_once in M as (h' & t14 & g11 & H' & -> & M & ->).
  inversion M; subst.
  exists d, m, h, d', m', h'. repeat (split; [auto|]).
  exists d, m, d', m', u, v, w, u', v', h, h', (north_of h), (east_of h'), t14.
  split; [repeat apply numerals_cons; auto using numerals_nil|].
  split; [repeat apply no_digits_app; auto|].
  do 8 (split; [auto using north_of_ok, east_of_ok, no_word_of|]).
  split; [|split; reflexivity].
  unfold dm_text. repeat (rewrite <- ?app_assoc; cbn [app]). reflexivity.
Qed.

Lemma str_eqb_eq a b : str_eqb a b = true <-> a = b.
Proof. unfold str_eqb. destruct (list_eq_dec ascii_dec a b); split; congruence. Qed.

Lemma parse_some i lat lon : parse_loc i = Some (lat, lon) ->
  dms_reading i lat lon \/ dm_reading i lat lon \/
  (i = typo_entry /\ lat = angle [4; 7]%nat [2; 3]%nat [5; 6]%nat /\ lon = - angle [1; 2; 0]%nat [1; 2]%nat [2; 4]%nat).
Proof.
  unfold parse_loc. destruct (re_match p1 i) as [gs|] eqn:E1.
  - apply re_match_sound in E1. destruct (p1_inv i gs E1) as (d & m & s & h & d' & m' & s' & h' & -> & D & M & Sd & D' & M' & S' & R).
    rewrite !digits_float_number by auto. fold (north_of h). fold (east_of h'). cbv zeta. intros H. left.
    injection H as <- <-. unfold angle in R.
    match type of R with dms_reading _ ?a ?b => match goal with |- dms_reading _ ?x ?y => replace x with a by field; replace y with b by field end end. exact R.
  - destruct (re_match p2 i) as [gs|] eqn:E2.
    + apply re_match_sound in E2. destruct (p2_inv i gs E2) as (d & m & h & d' & m' & h' & -> & D & M & D' & M' & R).
      rewrite !digits_float_number by auto. fold (north_of h). fold (east_of h'). cbv zeta. intros H. right; left.
      injection H as <- <-. unfold angle in R. replace (number []) with 0 in R by reflexivity.
      match type of R with dm_reading _ ?a ?b => match goal with |- dm_reading _ ?x ?y => replace x with a by field; replace y with b by field end end. exact R.
    + destruct (str_eqb i typo_entry) eqn:E3; [|discriminate]. intros H. injection H as <- <-. right; right.
      apply str_eqb_eq in E3. split; auto. unfold angle, number. cbn. split; field.
Qed.

Lemma parse_none i : parse_loc i = None -> (forall lat lon, ~ dms_reading i lat lon) /\ (forall lat lon, ~ dm_reading i lat lon) /\ i <> typo_entry.
Proof.
  unfold parse_loc. destruct (re_match p1 i) as [gs|] eqn:E1.
  { apply re_match_sound in E1. destruct (p1_inv i gs E1) as (d & m & s & h & d' & m' & s' & h' & -> & _). discriminate. }
  destruct (re_match p2 i) as [gs|] eqn:E2.
  { apply re_match_sound in E2. destruct (p2_inv i gs E2) as (d & m & h & d' & m' & h' & -> & _). discriminate. }
  destruct (str_eqb i typo_entry) eqn:E3; [discriminate|]. intros _.
  rewrite re_match_none in E1, E2. split; [|split].
  - intros lat lon (d & m & s & d' & m' & s' & c & c1 & c2 & u & v & w & v' & h & h' & g & g' & tail & N & D & U & W & W' & H & H' & -> & _).
    apply no_word_spec in W'. eapply E1. unfold dms_text, p1. 
    assert (Fn : forall ds cap, In ds [d; m; s; d'; m'; s'] -> fits (plus is_digit cap) (numeral ds)).
    { intros ds cap Hd. destruct (N ds Hd) as [N1 N2]. split; [|split]; cbn; [rewrite numeral_length; destruct ds; [congruence|cbn; lia]|discriminate|now apply numeral_digits]. }
    assert (Dsub : forall l, (forall x, In x l -> In x ([c; c1; c2] ++ u ++ v ++ v')) -> no_digits l) by (intros l Hl x Hx; auto).
    assert (Fc : forall x, In x [c; c1; c2] -> fits (once not_digit false) [x]).
    { intros x Hx. split; [|split]; cbn; [lia|intros k Hk; injection Hk as <-; lia|]. rewrite andb_true_r. unfold not_digit. rewrite (proj2 (is_digit_not x)); auto. apply D, in_or_app; auto. }
    repeat (rewrite <- ?app_assoc).
    apply m_cons; [apply Fn; cbn; tauto|]. apply m_cons; [apply Fc; cbn; tauto|]. apply m_cons; [apply Fn; cbn; tauto|].
    apply m_cons; [split; [|split]; cbn; [destruct u; [congruence|cbn; lia]|discriminate|]; apply no_digits_all, Dsub; intros x Hx; apply in_or_app; right; apply in_or_app; auto|].
    apply m_cons; [apply Fn; cbn; tauto|].
    apply m_cons; [split; [|split]; cbn; [lia|discriminate|]; apply no_digits_all, Dsub; intros x Hx; apply in_or_app; right; apply in_or_app; right; apply in_or_app; auto|].
    apply m_cons; [split; [|split]; cbn; [lia|intros k Hk; injection Hk as <-; lia|]; rewrite andb_true_r; now apply (north_ns h g)|].
    apply m_cons; [split; [|split]; cbn; [destruct w; [congruence|cbn; lia]|discriminate|auto]|].
    apply m_cons; [apply Fn; cbn; tauto|]. apply m_cons; [apply Fc; cbn; tauto|]. apply m_cons; [apply Fn; cbn; tauto|]. apply m_cons; [apply Fc; cbn; tauto|].
    apply m_cons; [apply Fn; cbn; tauto|].
    apply m_cons; [split; [|split]; cbn; [lia|discriminate|]; apply no_digits_all, Dsub; intros x Hx; apply in_or_app; right; apply in_or_app; right; apply in_or_app; auto|].
    apply m_cons; [split; [|split]; cbn; [lia|intros k Hk; injection Hk as <-; lia|]; rewrite andb_true_r; now apply (east_ew h' g')|].
    apply m_nil.
  - intros lat lon (d & m & d' & m' & u & v & w & u' & v' & h & h' & g & g' & tail & N & D & U & V & U' & V' & W & W' & H & H' & -> & _).
    apply no_word_spec in W'. eapply E2. unfold dm_text, p2.
    assert (Fn : forall ds cap, In ds [d; m; d'; m'] -> fits (plus is_digit cap) (numeral ds)).
    { intros ds cap Hd. destruct (N ds Hd) as [N1 N2]. split; [|split]; cbn; [rewrite numeral_length; destruct ds; [congruence|cbn; lia]|discriminate|now apply numeral_digits]. }
    assert (Fs : forall l, l <> [] -> (forall x, In x l -> In x (u ++ v ++ u' ++ v')) -> fits (plus not_digit false) l).
    { intros l Nl Hl. split; [|split]; cbn; [destruct l; [congruence|cbn; lia]|discriminate|]. apply no_digits_all. intros x Hx; auto. }
    repeat (rewrite <- ?app_assoc).
    apply m_cons; [apply Fn; cbn; tauto|]. apply m_cons; [apply Fs; auto; intros; apply in_or_app; tauto|]. apply m_cons; [apply Fn; cbn; tauto|].
    apply m_cons; [apply Fs; auto; intros; rewrite !in_app_iff; tauto|].
    apply m_cons; [split; [|split]; cbn; [lia|intros k Hk; injection Hk as <-; lia|]; rewrite andb_true_r; now apply (north_ns h g)|].
    apply m_cons; [split; [|split]; cbn; [destruct w; [congruence|cbn; lia]|discriminate|auto]|].
    apply m_cons; [apply Fn; cbn; tauto|]. apply m_cons; [apply Fs; auto; intros; rewrite !in_app_iff; tauto|]. apply m_cons; [apply Fn; cbn; tauto|].
    apply m_cons; [apply Fs; auto; intros; rewrite !in_app_iff; tauto|].
    apply m_cons; [split; [|split]; cbn; [lia|intros k Hk; injection Hk as <-; lia|]; rewrite andb_true_r; now apply (east_ew h' g')|].
    apply m_nil.
  - intros ->. rewrite (proj2 (str_eqb_eq _ _) eq_refl) in E3. discriminate.
Qed.

(** ** The loop and the map *)

Lemma parse_locs_gen locs a b k : fold_left (fun '(lats, lons, badparse) i =>
    match parse_loc i with
    | Some (lat, lon) => (lats ++ [Some lat], lons ++ [Some lon], badparse)
    | None => (lats ++ [None], lons ++ [None], (badparse + 1)%nat)
    end) locs (a, b, k) =
  (a ++ map (fun i => option_map fst (parse_loc i)) locs, b ++ map (fun i => option_map snd (parse_loc i)) locs,
   (k + List.length (filter (fun i => match parse_loc i with None => true | _ => false end) locs))%nat).
Proof.
  revert a b k; induction locs as [|i locs IH]; intros a b k.
  - cbn. rewrite !app_nil_r, Nat.add_0_r. reflexivity.
  - cbn [fold_left map filter]. destruct (parse_loc i) as [[lat lon]|]; rewrite IH; cbn [option_map fst snd List.length]; rewrite <- !app_assoc; cbn [app]; [reflexivity|]. f_equal. lia.
Qed.

Lemma fold_min_some l x : exists v, fold_left py_min2 l (Some x) = Some v /\ v <= x /\ (forall y, In (Some y) l -> v <= y) /\ (v = x \/ In (Some v) l).
Proof.
  revert x; induction l as [|o l IH]; intros x.
  - exists x. cbn. repeat split; auto; try lra. intros y [].
  - cbn [fold_left]. unfold py_min2 at 2, npf_ltb. destruct o as [y|].
    + destruct (Rlt_dec y x).
      * destruct (IH y) as (v & A & B & C & D). exists v. repeat split; auto; try lra.
        -- intros z [E|Hz]; [injection E as <-; auto|auto].
        -- destruct D as [->|D]; right; [now left|now right].
      * destruct (IH x) as (v & A & B & C & D). exists v. repeat split; auto.
        -- intros z [E|Hz]; [injection E as <-; lra|auto].
        -- destruct D as [->|D]; [now left|right; now right].
    + destruct (IH x) as (v & A & B & C & D). exists v. repeat split; auto.
      -- intros z [E|Hz]; [discriminate|auto].
      -- destruct D as [->|D]; [now left|right; now right].
Qed.

Lemma fold_max_some l x : exists v, fold_left py_max2 l (Some x) = Some v /\ x <= v /\ (forall y, In (Some y) l -> y <= v) /\ (v = x \/ In (Some v) l).
Proof.
  revert x; induction l as [|o l IH]; intros x.
  - exists x. cbn. repeat split; auto; try lra. intros y [].
  - cbn [fold_left]. unfold py_max2 at 2, npf_ltb. destruct o as [y|].
    + destruct (Rlt_dec x y).
      * destruct (IH y) as (v & A & B & C & D). exists v. repeat split; auto; try lra.
        -- intros z [E|Hz]; [injection E as <-; auto|auto].
        -- destruct D as [->|D]; right; [now left|now right].
      * destruct (IH x) as (v & A & B & C & D). exists v. repeat split; auto.
        -- intros z [E|Hz]; [injection E as <-; lra|auto].
        -- destruct D as [->|D]; [now left|right; now right].
    + destruct (IH x) as (v & A & B & C & D). exists v. repeat split; auto.
      -- intros z [E|Hz]; [discriminate|auto].
      -- destruct D as [->|D]; [now left|right; now right].
Qed.

Lemma fold_min_none l : fold_left py_min2 l None = None.
Proof. induction l as [|[y|] l IH]; cbn; auto. Qed.
Lemma fold_max_none l : fold_left py_max2 l None = None.
Proof. induction l as [|[y|] l IH]; cbn; auto. Qed.

Lemma py_min2_some a b : py_min2 (Some a) (Some b) = Some (Rmin a b).
Proof. unfold py_min2, npf_ltb. destruct (Rlt_dec b a); f_equal; unfold Rmin; destruct (Rle_dec a b); lra. Qed.
Lemma py_max2_some a b : py_max2 (Some a) (Some b) = Some (Rmax a b).
Proof. unfold py_max2, npf_ltb. destruct (Rlt_dec a b); f_equal; unfold Rmax; destruct (Rle_dec a b); lra. Qed.

Lemma map_limits_some lat lon x y : exists a b c e,
  map_limits (Some lat :: x) (Some lon :: y) = Ok (Some a, Some b, Some c, Some e) /\
  (forall v, In (Some v) (Some lat :: x) -> a + 2 <= v <= b - 2) /\ (forall v, In (Some v) (Some lon :: y) -> c + 2 <= v <= e - 2) /\
  a <= 24.344974 /\ 52.735210 <= b /\ c <= -126.592164 /\ -54.079873 <= e /\
  (a = 24.344974 \/ In (Some (a + 2)) (Some lat :: x)) /\ (b = 52.735210 \/ In (Some (b - 2)) (Some lat :: x)) /\
  (c = -126.592164 \/ In (Some (c + 2)) (Some lon :: y)) /\ (e = -54.079873 \/ In (Some (e - 2)) (Some lon :: y)).
Proof.
  unfold map_limits, py_min, py_max. cbn [bind].
  destruct (fold_min_some x lat) as (v1 & -> & A1 & B1 & C1). destruct (fold_max_some x lat) as (v2 & -> & A2 & B2 & C2).
  destruct (fold_min_some y lon) as (v3 & -> & A3 & B3 & C3). destruct (fold_max_some y lon) as (v4 & -> & A4 & B4 & C4).
  cbn [npf_plus]. rewrite !py_min2_some, !py_max2_some.
  do 4 eexists. split; [reflexivity|].
  pose proof (Rmin_l (v1 + - (2)) 24.344974). pose proof (Rmin_r (v1 + - (2)) 24.344974).
  pose proof (Rmax_l (v2 + 2) 52.735210). pose proof (Rmax_r (v2 + 2) 52.735210).
  pose proof (Rmin_l (v3 + - (2)) (-126.592164)). pose proof (Rmin_r (v3 + - (2)) (-126.592164)).
  pose proof (Rmax_l (v4 + 2) (-54.079873)). pose proof (Rmax_r (v4 + 2) (-54.079873)).
  split; [|split]; [| |repeat split; try lra].
  - intros v [E|Hv]; [injection E as <-; lra|]. specialize (B1 v Hv). specialize (B2 v Hv). lra.
  - intros v [E|Hv]; [injection E as <-; lra|]. specialize (B3 v Hv). specialize (B4 v Hv). lra.
  - destruct (Rle_dec (v1 + - (2)) 24.344974) as [L|L]; [right; rewrite Rmin_left by auto|left; apply Rmin_right; lra].
    replace (v1 + - (2) + 2) with v1 by lra. destruct C1 as [->|C1]; [now left|now right].
  - destruct (Rle_dec 52.735210 (v2 + 2)) as [L|L]; [right; rewrite Rmax_left by auto|left; apply Rmax_right; lra].
    replace (v2 + 2 - 2) with v2 by lra. destruct C2 as [->|C2]; [now left|now right].
  - destruct (Rle_dec (v3 + - (2)) (-126.592164)) as [L|L]; [right; rewrite Rmin_left by auto|left; apply Rmin_right; lra].
    replace (v3 + - (2) + 2) with v3 by lra. destruct C3 as [->|C3]; [now left|now right].
  - destruct (Rle_dec (-54.079873) (v4 + 2)) as [L|L]; [right; rewrite Rmax_left by auto|left; apply Rmax_right; lra].
    replace (v4 + 2 - 2) with v4 by lra. destruct C4 as [->|C4]; [now left|now right].
Qed.
