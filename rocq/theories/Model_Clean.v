(** Model of data/noaa/clean.py from the point where the two tables are read
    (line 53) to the limits of the map (line 146).

    A cell of the numeric columns is the string [astype('str')] gives for it.
    A station id is an integer or missing.  nan is [None]. *)

From Coq Require Import Reals List Arith ZArith Ascii String Bool.
From Coq Require Import List.
From Verif Require Import Base Model_Util Model_Regex.
Import ListNotations.
Open Scope R_scope.

(** ** Numbers *)

Definition digit_val (c : ascii) : R := INR (nat_of_ascii c - 48).

(** [float] of a string of digits *)
Definition digits_float (s : str) : R := fold_left (fun acc c => 10 * acc + digit_val c) s 0.

Definition is_dot (c : ascii) : bool := Ascii.eqb c "."%char.

(** [pd.to_numeric] of a string of digits and points: nan if empty; digits with
    at most one point, and at least one digit; otherwise ValueError. *)
Definition to_numeric (s : str) : result (option R) :=
  match s with
  | [] => Ok None
  | _ =>
      let k := span is_digit s in
      let whole := firstn k s in
      match skipn k s with
      | [] => Ok (Some (digits_float whole))
      | _ :: frac =>
          if forallb is_digit frac && (0 <? List.length whole + List.length frac)%nat
          then Ok (Some (digits_float whole + digits_float frac / 10 ^ List.length frac))
          else Err ValueError
      end
  end.

(** clean.py:64 [.str.replace(r'[^\d\.]', '')], a regular expression in the
    pandas versions of the time *)
Definition strip_cell (s : str) : str := filter (fun c => is_digit c || is_dot c) s.

(** clean.py:64-65 *)
Definition clean_cell (s : str) : result (option R) := to_numeric (strip_cell s).

(** ** Tables *)

(** One row of [climate]: 'wban' and 'temp', 'dew', 'pressure', 'wind', 'time'. *)
Record crow := { c_wban : option Z; c_cells : list str }.

(** One row of [stations]: 'wban' and 'loc'. *)
Record srow := { s_wban : option Z; s_loc : option str }.

Definition same_key (a b : option Z) : bool :=
  match a, b with Some x, Some y => Z.eqb x y | None, None => true | _, _ => false end.

(** clean.py:53 [stations.dropna()] *)
Definition full_station (s : srow) : bool := match s_wban s, s_loc s with Some _, Some _ => true | _, _ => false end.

(** clean.py:58 [climate.merge(stations, on='wban', how='left')]: each row of
    the left table, in order, with every matching row of the right one, or with
    a missing location if there is none *)
Definition merge_left (climate : list crow) (stations : list srow) : list (crow * option str) :=
  flat_map (fun c =>
    match filter (fun s => same_key (c_wban c) (s_wban s)) stations with
    | [] => [(c, None)]
    | ms => map (fun s => (c, s_loc s)) ms
    end) climate.

(** clean.py:62-65: a column at a time; the first malformed cell raises *)
Definition clean_numerics (joined : list (crow * option str)) : result (list (option Z * list (option R) * option str)) :=
  map_result (fun '(c, loc) => let! vs := map_result clean_cell (c_cells c) in Ok (c_wban c, vs, loc)) joined.

(** clean.py:67 [joined.dropna()] *)
Definition opt_all {A} (l : list (option A)) : option (list A) :=
  fold_right (fun x acc => match x, acc with Some a, Some r => Some (a :: r) | _, _ => None end) (Some []) l.
Definition drop_missing (rows : list (option Z * list (option R) * option str)) : list (Z * list R * str) :=
  flat_map (fun '(w, vs, loc) =>
    match w, opt_all vs, loc with
    | Some w, Some vs, Some loc => [(w, vs, loc)]
    | _, _, _ => []
    end) rows.

(** clean.py:53-67 *)
Definition clean_table (climate : list crow) (stations : list srow) : result (list (Z * list R * str)) :=
  let stations := filter full_station stations in
  let! rows := clean_numerics (merge_left climate stations) in
  Ok (drop_missing rows).

(** ** Locations *)

Definition N_S := one_of ["N"; "S"]%char.
Definition E_W := one_of ["E"; "W"]%char.

(** clean.py:76-77 *)
Definition p1 : list item :=
  [plus is_digit true; once not_digit false; plus is_digit true; plus not_digit false; plus is_digit true;
   star not_digit false; once N_S true; plus not_word false;
   plus is_digit true; once not_digit false; plus is_digit true; once not_digit false; plus is_digit true;
   star not_digit false; once E_W true].

(** clean.py:78 *)
Definition p2 : list item :=
  [plus is_digit true; plus not_digit false; plus is_digit true; plus not_digit false; once N_S true; plus not_word false;
   plus is_digit true; plus not_digit false; plus is_digit true; plus not_digit false; once E_W true].

Definition str_eqb (a b : str) : bool := if list_eq_dec ascii_dec a b then true else false.

(** clean.py:103 *)
Definition typo_entry : str := list_ascii_of_string "47123'56""N 120*12'24""W".

(** clean.py:82-112: latitude and longitude of one location, [None] when both are nan *)
Definition parse_loc (i : str) : option (R * R) :=
  match re_match p1 i with
  | Some [g1; g2; g3; g4; g5; g6; g7; g8] =>
      let lat := digits_float g1 + digits_float g2 / 60 + digits_float g3 / 60 / 60 in
      let lat := lat * (if str_eqb g4 ["N"%char] then 1 else -1) in
      let lon := digits_float g5 + digits_float g6 / 60 + digits_float g7 / 60 / 60 in
      let lon := lon * (if str_eqb g8 ["E"%char] then 1 else -1) in
      Some (lat, lon)
  | _ =>
  match re_match p2 i with
  | Some [g1; g2; g3; g4; g5; g6] =>
      let lat := digits_float g1 + digits_float g2 / 60 in
      let lat := lat * (if str_eqb g3 ["N"%char] then 1 else -1) in
      let lon := digits_float g4 + digits_float g5 / 60 in
      let lon := lon * (if str_eqb g6 ["E"%char] then 1 else -1) in
      Some (lat, lon)
  | _ =>
      if str_eqb i typo_entry
      then Some (47 + 23 / 60 + 56 / 3600, -1 * (120 + 12 / 60 + 24 / 3600))
      else None
  end
  end.

(** clean.py:79-112: [lats], [lons], [badparse] *)
Definition parse_locs (locs : list str) : list (option R) * list (option R) * nat :=
  fold_left (fun '(lats, lons, badparse) i =>
    match parse_loc i with
    | Some (lat, lon) => (lats ++ [Some lat], lons ++ [Some lon], badparse)
    | None => (lats ++ [None], lons ++ [None], (badparse + 1)%nat)
    end) locs ([], [], 0%nat).

(** ** Limits of the map *)

(** [a < b], false for nan *)
Definition npf_ltb (a b : option R) : bool :=
  match a, b with Some x, Some y => if Rlt_dec x y then true else false | _, _ => false end.
Definition npf_plus (a : option R) (b : R) : option R := match a with Some x => Some (x + b) | None => None end.

(** Python's [min] and [max] of two values and of a sequence *)
Definition py_min2 (a b : option R) : option R := if npf_ltb b a then b else a.
Definition py_max2 (a b : option R) : option R := if npf_ltb a b then b else a.
Definition py_min (l : list (option R)) : result (option R) :=
  match l with [] => Err ValueError | x :: r => Ok (fold_left py_min2 r x) end.
Definition py_max (l : list (option R)) : result (option R) :=
  match l with [] => Err ValueError | x :: r => Ok (fold_left py_max2 r x) end.

(** clean.py:139-146: [lat_min], [lat_max], [lon_min], [lon_max] *)
Definition map_limits (lat lon : list (option R)) : result (option R * option R * option R * option R) :=
  let margin := 2 in
  let lat_min := Some 24.344974 in let lon_min := Some (-126.592164) in
  let lat_max := Some 52.735210 in let lon_max := Some (-54.079873) in
  let! a := py_min lat in
  let lat_min := py_min2 (npf_plus a (- margin)) lat_min in
  let! a := py_max lat in
  let lat_max := py_max2 (npf_plus a margin) lat_max in
  let! a := py_min lon in
  let lon_min := py_min2 (npf_plus a (- margin)) lon_min in
  let! a := py_max lon in
  let lon_max := py_max2 (npf_plus a margin) lon_max in
  Ok (lat_min, lat_max, lon_min, lon_max).

(** clean.py:153-154: [lat_0], [lon_0] *)
Definition map_centre (lim : option R * option R * option R * option R) : option R * option R :=
  let '(lat_min, lat_max, lon_min, lon_max) := lim in
  (match lat_max, lat_min with Some a, Some b => Some ((a - b) / 2) | _, _ => None end,
   match lon_max, lon_min with Some a, Some b => Some ((a - b) / 2) | _, _ => None end).
