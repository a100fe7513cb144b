(** C73, C74: what data/noaa/clean.py does to the weather data. *)

From Coq Require Import Reals List Arith ZArith Ascii String Bool Lia Lra.
From Coq Require Import List.
From Verif Require Import Base Model_Linalg Model_Util Model_Regex Model_Clean Spec_Clean Proofs_Regex Proofs_Clean Proofs_Loc.
Import ListNotations.
Open Scope R_scope.

Definition chars := list_ascii_of_string.

(** ** C73: numbers and rows *)

(** A cell with one unsigned decimal number in other text is read as that
    number, one without digits and points as missing; it raises exactly if it
    has several points, or a point and no digits; and it is never read as a
    negative number. *)
Theorem C73_cells :
  (forall t ds t', plain t -> plain t' -> digits ds -> ds <> [] -> clean_cell (t ++ numeral ds ++ t') = Ok (Some (number ds))) /\
  (forall t ds fs t', plain t -> plain t' -> digits ds -> digits fs -> ds <> [] \/ fs <> [] ->
    clean_cell (t ++ numeral ds ++ "."%char :: numeral fs ++ t') = Ok (Some (number ds + number fs / 10 ^ List.length fs))) /\
  (forall t, plain t -> clean_cell t = Ok None) /\
  (forall s, clean_cell s = Err ValueError <-> (2 <= points s)%nat \/ (points s = 1%nat /\ no_digits s)) /\
  (forall s v, clean_cell s = Ok (Some v) -> 0 <= v).
Proof.
  split; [|split; [|split; [|split]]].
  - intros t ds t' T T' D N. unfold clean_cell. rewrite !strip_app, (strip_plain t T), (strip_plain t' T'), app_nil_r. cbn [app].
    pose proof (numeral_digits ds D) as Q. rewrite strip_digits, to_numeric_whole, digits_float_number; auto.
    destruct ds; [congruence|discriminate].
  - intros t ds fs t' T T' D F N. unfold clean_cell.
    change ("."%char :: numeral fs ++ t') with (["."%char] ++ numeral fs ++ t').
    rewrite !strip_app, (strip_plain t T), (strip_plain t' T'), app_nil_r. cbn [app].
    pose proof (numeral_digits ds D) as Q1. pose proof (numeral_digits fs F) as Q2.
    rewrite (strip_digits (numeral ds)), (strip_digits (numeral fs)) by auto.
    change (strip_cell ["."%char] ++ numeral fs) with ("."%char :: numeral fs).
    rewrite to_numeric_frac; auto.
    + rewrite !digits_float_number, numeral_length by auto. reflexivity.
    + destruct N as [N|N]; [left; destruct ds|right; destruct fs]; congruence || discriminate.
  - intros t T. unfold clean_cell. rewrite strip_plain by auto. reflexivity.
  - exact clean_err.
  - exact clean_nonneg.
Qed.
Print Assumptions C73_cells.

Example C73_cells_ex : clean_cell (chars " 29.92* ") = Ok (Some 29.92) /\ clean_cell (chars "-") = Ok None /\ clean_cell (chars "1.2.3") = Err ValueError.
Proof.
  destruct C73_cells as (_ & A & B & C & _). split; [|split].
  - etransitivity; [apply (A (chars " ") [2; 9]%nat [9; 2]%nat (chars "* "))|].
    + intros c H. cbn in *. intuition congruence.
    + intros c H. cbn in *. intuition congruence.
    + intros d H. cbn in H. intuition lia.
    + intros d H. cbn in H. intuition lia.
    + left. discriminate.
    + assert (E1 : number [2; 9]%nat = 29) by (unfold number; cbn; lra). assert (E2 : number [9; 2]%nat = 92) by (unfold number; cbn; lra).
      rewrite E1, E2. f_equal. f_equal. cbn [List.length pow]. lra.
  - apply B. intros c H. cbn in *. intuition congruence.
  - apply C. left. cbn. lia.
Qed.

(** Signed numbers are not read as what they are: a sign in front of a cell
    changes nothing, so that a temperature below zero becomes one above. *)
Theorem C73_sign_refuted :
  (exists ds, digits ds /\ ds <> [] /\ clean_cell ("-"%char :: numeral ds) <> Ok (Some (- number ds))) /\
  (forall s, clean_cell ("-"%char :: s) = clean_cell s).
Proof.
  split; [|reflexivity]. exists [5]%nat. split; [intros d [<-|[]]; lia|]. split; [discriminate|].
  intros H. destruct C73_cells as (_ & _ & _ & _ & P). apply P in H. unfold number in H. cbn in H. lra.
Qed.
Print Assumptions C73_sign_refuted.

(** The rows of the result are, in order, those of the pairs of a day and a
    station with the same id, a location, and a number in each of the columns;
    one malformed cell, of whatever row, makes the whole script fail. *)
Theorem C73_table :
  (forall climate stations rows, clean_table climate stations = Ok rows ->
    selects (fun (p : crow * srow) (r : Z * list R * str) =>
      c_wban (fst p) = Some (fst (fst r)) /\ s_wban (snd p) = Some (fst (fst r)) /\ s_loc (snd p) = Some (snd r) /\
      Forall2 (fun cell v => clean_cell cell = Ok (Some v)) (c_cells (fst p)) (snd (fst r))) (list_prod climate stations) rows) /\
  (forall climate stations, clean_table climate stations = Err ValueError <->
    exists c cell, In c climate /\ In cell (c_cells c) /\ clean_cell cell = Err ValueError).
Proof. split; [exact table_rows|exact table_err]. Qed.
Print Assumptions C73_table.

Definition ex_day := {| c_wban := Some 3013%Z; c_cells := map chars ["54"; "31"; "29.92"; "7*"; "31.0"]%string |}.
Definition ex_day2 := {| c_wban := Some 3013%Z; c_cells := map chars ["-"; "31"; "29.92"; "7"; "32.0"]%string |}.
Definition ex_station := {| s_wban := Some 3013%Z; s_loc := Some (chars "38*04'N 102*41'W") |}.
Definition ex_station2 := {| s_wban := Some 94014%Z; s_loc := None |}.

Example C73_table_ex : exists row, clean_table [ex_day; ex_day2] [ex_station; ex_station2] = Ok [row].
Proof. eexists. reflexivity. Qed.

(** A day of a station does not always give one row: an id listed twice among
    the stations doubles it. *)
Theorem C73_rows_refuted :
  exists climate stations rows, List.length climate = 1%nat /\ clean_table climate stations = Ok rows /\ List.length rows = 2%nat.
Proof. exists [ex_day], [ex_station; ex_station]. eexists. split; [reflexivity|]. split; reflexivity. Qed.
Print Assumptions C73_rows_refuted.

(** ** C74: locations *)

(** Texts in degrees, minutes and seconds, and in degrees and minutes, are read
    as the signed angles they stand for. *)
Theorem C74_degrees :
  (forall d m s d' m' s' c c1 c2 u v w v' h h' g g' tail,
    numerals [d; m; s; d'; m'; s'] -> no_digits [c; c1; c2] -> no_digits u -> u <> [] -> no_digits v -> no_digits v' ->
    north h g -> east h' g' -> blank w -> no_east_west tail ->
    parse_loc (dms_text d m s c u v h ++ w ++ dms_text d' m' s' c1 [c2] v' h' ++ tail) = Some (g * angle d m s, g' * angle d' m' s')) /\
  (forall d m d' m' u v w u' v' h h' g g' tail,
    numerals [d; m; d'; m'] -> no_digits u -> u <> [] -> no_digits v -> v <> [] -> no_digits u' -> u' <> [] -> no_digits v' -> v' <> [] ->
    no_north_south u' -> north h g -> east h' g' -> blank w -> no_east_west tail ->
    parse_loc (dm_text d m u v h ++ w ++ dm_text d' m' u' v' h' ++ tail) = Some (g * angle d m [], g' * angle d' m' [])).
Proof.
  split; intros; unfold dms_text, dm_text; repeat (rewrite <- ?app_assoc; cbn [app]).
  - apply parse_dms; auto.
  - apply parse_dm; auto.
Qed.
Print Assumptions C74_degrees.

Ltac digs := intros ?ds ?H; cbn in H; repeat (destruct H as [<-|H]; [split; [discriminate|intros ?x ?Hx; cbn in Hx; intuition lia]|]); destruct H.
Ltac nod := intros ?c ?H; cbn in *; intuition congruence.

Example C74_degrees_ex :
  parse_loc (chars "38*04'12""N 102*41'18""W") = Some (38 + 4 / 60 + 12 / 3600, - (102 + 41 / 60 + 18 / 3600)) /\
  parse_loc (chars "14*20'S 170*43'W") = Some (- (14 + 20 / 60), - (170 + 43 / 60)).
Proof.
  split.
  - etransitivity; [apply (proj1 C74_degrees [3; 8]%nat [0; 4]%nat [1; 2]%nat [1; 0; 2]%nat [4; 1]%nat [1; 8]%nat "*"%char "*"%char "'"%char
      (chars "'") (chars """") (chars " ") (chars """") "N"%char "W"%char 1 (-1) [])|].
    + digs.
    + nod.
    + nod.
    + discriminate.
    + nod.
    + nod.
    + left; auto.
    + right; auto.
    + split; [discriminate|]. intros c H. cbn in *. tauto.
    + split; intros [].
    + f_equal. unfold angle, number. cbn. f_equal; field.
  - etransitivity; [apply (proj2 C74_degrees [1; 4]%nat [2; 0]%nat [1; 7; 0]%nat [4; 3]%nat
      (chars "*") (chars "'") (chars " ") (chars "*") (chars "'") "S"%char "W"%char (-1) (-1) [])|].
    + digs.
    + nod.
    + discriminate.
    + nod.
    + discriminate.
    + nod.
    + discriminate.
    + nod.
    + discriminate.
    + split; cbn; intuition congruence.
    + right; auto.
    + right; auto.
    + split; [discriminate|]. intros c H. cbn in *. tauto.
    + split; intros [].
    + f_equal. unfold angle, number. cbn. f_equal; field.
Qed.

(** What is read stands at the start of the text in one of the two forms, but
    for the one entry the script corrects; what is not read is in neither form. *)
Theorem C74_only i :
  (forall lat lon, parse_loc i = Some (lat, lon) ->
    dms_reading i lat lon \/ dm_reading i lat lon \/
    (i = typo_entry /\ lat = angle [4; 7]%nat [2; 3]%nat [5; 6]%nat /\ lon = - angle [1; 2; 0]%nat [1; 2]%nat [2; 4]%nat)) /\
  (parse_loc i = None -> (forall lat lon, ~ dms_reading i lat lon) /\ (forall lat lon, ~ dm_reading i lat lon) /\ i <> typo_entry).
Proof. split; [apply parse_some|apply parse_none]. Qed.
Print Assumptions C74_only.

(** The corrected entry is in neither form, so that the correction is reached;
    an unreadable text. *)
Example C74_only_ex :
  parse_loc typo_entry = Some (47 + 23 / 60 + 56 / 3600, -1 * (120 + 12 / 60 + 24 / 3600)) /\ re_match p1 typo_entry = None /\ re_match p2 typo_entry = None /\
  parse_loc (chars "unknown") = None.
Proof. split; [|split; [|split]]; reflexivity. Qed.

(** Minutes with decimals are taken for minutes and seconds: the angle read is
    not the one written. *)
Theorem C74_decimal_refuted :
  (forall d m f d' m' f' h h' g g', numerals [d; m; f; d'; m'; f'] -> north h g -> east h' g' ->
    parse_loc (numeral d ++ "*"%char :: numeral m ++ "."%char :: numeral f ++ "'"%char :: h :: " "%char ::
               numeral d' ++ "*"%char :: numeral m' ++ "."%char :: numeral f' ++ ["'"%char; h'])
    = Some (g * angle d m f, g' * angle d' m' f')) /\
  (exists lat lon, parse_loc (chars "38*30.5'N 102*30.5'W") = Some (lat, lon) /\ lat <> 38 + 30.5 / 60).
Proof.
  assert (P : forall d m f d' m' f' h h' g g', numerals [d; m; f; d'; m'; f'] -> north h g -> east h' g' ->
    parse_loc (numeral d ++ "*"%char :: numeral m ++ "."%char :: numeral f ++ "'"%char :: h :: " "%char ::
               numeral d' ++ "*"%char :: numeral m' ++ "."%char :: numeral f' ++ ["'"%char; h'])
    = Some (g * angle d m f, g' * angle d' m' f')).
  { intros d m f d' m' f' h h' g g' N H H'.
    apply (parse_dms d m f d' m' f' "*" "*" "." h h' (chars ".") (chars "'") (chars " ") (chars "'") [] g g'); auto.
    - nod.
    - nod.
    - discriminate.
    - nod.
    - nod.
    - split; [discriminate|]. intros c Hc. cbn in *. tauto.
    - split; intros []. }
  split; auto.
  exists (1 * angle [3; 8]%nat [3; 0]%nat [5]%nat), (-1 * angle [1; 0; 2]%nat [3; 0]%nat [5]%nat). split.
  - apply (P [3; 8]%nat [3; 0]%nat [5]%nat [1; 0; 2]%nat [3; 0]%nat [5]%nat "N"%char "W"%char 1 (-1)).
    + digs.
    + left; auto.
    + right; auto.
  - unfold angle, number. cbn. lra.
Qed.
Print Assumptions C74_decimal_refuted.

(** The lists of latitudes and longitudes go with the rows, and the number of
    bad ones is counted.  Missing for the map (partial): that its limits, which
    leave two degrees around the stations, hold all of them whatever was read;
    they do if the first location was. *)
Theorem C74_map_partial locs :
  let '(lats, lons, bad) := parse_locs locs in
  lats = map (fun i => option_map fst (parse_loc i)) locs /\ lons = map (fun i => option_map snd (parse_loc i)) locs /\
  bad = count_occ (fun a b : bool => bool_dec a b) (map (fun i => match parse_loc i with None => true | _ => false end) locs) true /\
  (forall i0 rest, locs = i0 :: rest -> parse_loc i0 <> None ->
    exists a b c e, map_limits lats lons = Ok (Some a, Some b, Some c, Some e) /\
      (forall v, In (Some v) lats -> a + 2 <= v <= b - 2) /\ (forall v, In (Some v) lons -> c + 2 <= v <= e - 2) /\
      a <= 24.344974 /\ 52.735210 <= b /\ c <= -126.592164 /\ -54.079873 <= e /\
      (a = 24.344974 \/ In (Some (a + 2)) lats) /\ (b = 52.735210 \/ In (Some (b - 2)) lats) /\
      (c = -126.592164 \/ In (Some (c + 2)) lons) /\ (e = -54.079873 \/ In (Some (e - 2)) lons)).
Proof.
  unfold parse_locs. rewrite parse_locs_gen. cbn [app Nat.add]. split; [reflexivity|]. split; [reflexivity|]. split.
  - induction locs as [|i locs IH]; auto. cbn [filter map count_occ]. destruct (parse_loc i) as [p|]; cbn [List.length]; [|rewrite IH];
      destruct (bool_dec _ true); congruence || auto.
  - intros i0 rest -> N. destruct (parse_loc i0) as [[lat lon]|] eqn:E; [|congruence]. cbn [map]. rewrite E. cbn [option_map fst snd].
    apply map_limits_some.
Qed.
Print Assumptions C74_map_partial.

Example C74_map_ex : parse_loc (chars "14*20'S 170*43'W") <> None /\ parse_loc (chars "unknown") = None.
Proof. split; [|reflexivity]. rewrite (proj2 C74_degrees_ex). discriminate. Qed.

(** If the first location was not read, the map has no limits, whatever the
    others are. *)
Theorem C74_map_refuted :
  (forall x y, map_limits (None :: x) (None :: y) = Ok (None, None, None, None)) /\
  (exists locs, let '(lats, lons, _) := parse_locs locs in
    (exists v, In (Some v) lats) /\ map_limits lats lons = Ok (None, None, None, None)).
Proof.
  assert (P : forall x y, map_limits (None :: x) (None :: y) = Ok (None, None, None, None)).
  { intros x y. unfold map_limits, py_min, py_max. cbn [bind]. rewrite !fold_min_none, !fold_max_none. reflexivity. }
  split; auto.
  exists [chars "unknown"; chars "14*20'S 170*43'W"]. unfold parse_locs. rewrite parse_locs_gen. cbn [app map].
  rewrite (proj2 C74_degrees_ex). change (parse_loc (chars "unknown")) with (@None (R * R)). cbn [option_map fst snd].
  split; [eexists; right; now left|]. apply P.
Qed.
Print Assumptions C74_map_refuted.

(** The centre of the map is half its height and half its width: not a point of
    the map. *)
Theorem C74_centre_refuted :
  exists lats lons a b c e x y, map_limits lats lons = Ok (Some a, Some b, Some c, Some e) /\ map_centre (Some a, Some b, Some c, Some e) = (Some x, Some y) /\
    ~ (a <= x <= b) /\ ~ (c <= y <= e).
Proof.
  exists [Some 40], [Some (-100)].
  assert (E : map_limits [Some 40] [Some (-100)] = Ok (Some 24.344974, Some 52.735210, Some (-126.592164), Some (-54.079873))).
  { unfold map_limits, py_min, py_max. cbn [bind fold_left npf_plus]. rewrite !py_min2_some, !py_max2_some.
    rewrite !Rmin_right, !Rmax_right by lra. reflexivity. }
  do 6 eexists. split; [exact E|]. split; [reflexivity|]. split; lra.
Qed.
Print Assumptions C74_centre_refuted.
