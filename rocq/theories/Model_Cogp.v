(** Model of how benchmarks/benchlib/standard_tester.py reads the results of the
    COGP program from what it prints, and of the table it writes.

    Strings as in [Model_Regex]; floating point numbers are reals. *)

From Coq Require Import Reals List Arith ZArith Ascii String Bool.
From Coq Require Import List.
From Verif Require Import Base Model_Util Model_Regex Model_Clean.
Import ListNotations.
Open Scope R_scope.

(** [s.startswith(sub)] *)
Fixpoint starts_with (sub s : str) : bool :=
  match sub, s with
  | [], _ => true
  | a :: sub', b :: s' => Ascii.eqb a b && starts_with sub' s'
  | _ :: _, [] => false
  end.

(** [s.find(sub)], [None] for -1 *)
Fixpoint find_str (sub s : str) : option nat :=
  if starts_with sub s then Some O
  else match s with
       | [] => None
       | _ :: s' => option_map S (find_str sub s')
       end.

(** [s[s.find(sub):]]; -1 takes the last character *)
Definition from_label (sub s : str) : str :=
  match find_str sub s with
  | Some k => skipn k s
  | None => skipn (List.length s - 1) s
  end.

Definition sign_of (s : str) : R * str :=
  match s with
  | c :: r => if Ascii.eqb c "-" then (-1, r) else if Ascii.eqb c "+" then (1, r) else (1, s)
  | [] => (1, s)
  end.

Definition digits_nat (s : str) : nat := fold_left (fun acc c => 10 * acc + (nat_of_ascii c - 48))%nat s 0%nat.

(** The exponent of [float]: nothing, or "e" and an integer *)
Definition exponent_of (s : str) : result R :=
  match s with
  | [] => Ok 1
  | c :: r =>
      if Ascii.eqb c "e" then
        let neg := match r with c :: _ => Ascii.eqb c "-" | [] => false end in
        let ds := snd (sign_of r) in
        if forallb is_digit ds && (0 <? List.length ds)%nat
        then Ok (if neg then / 10 ^ digits_nat ds else 10 ^ digits_nat ds)
        else Err ValueError
      else Err ValueError
  end.

(** [float] of a string of digits, points, signs and "e" *)
Definition py_float (s : str) : result R :=
  let '(sg, s) := sign_of s in
  let k := span is_digit s in
  let whole := firstn k s in
  let r := skipn k s in
  match r with
  | c :: r' =>
      if is_dot c then
        let j := span is_digit r' in
        let frac := firstn j r' in
        if (0 <? List.length whole + List.length frac)%nat then
          let! e := exponent_of (skipn j r') in
          Ok (sg * ((digits_float whole + digits_float frac / 10 ^ List.length frac) * e))
        else Err ValueError
      else if (0 <? List.length whole)%nat then
        let! e := exponent_of r in Ok (sg * (digits_float whole * e))
      else Err ValueError
  | [] => if (0 <? List.length whole)%nat then Ok (sg * digits_float whole) else Err ValueError
  end.

(** [[-+e\.\d]] *)
Definition float_char (c : ascii) : bool := one_of ["-"; "+"; "e"; "."]%char c || is_digit c.

(** The pattern of lines 323, 326, 329: non-digits, two groups of [float_char]
    with blanks between them, each repeated any number of times. *)
Definition stat_pattern : list item := [star not_digit false; star float_char true; star is_space false; star float_char true].

(** standard_tester.py:323-324, 326-327, 329-330: the two numbers of one result *)
Definition read_stat (ending : str) : result (R * R) :=
  match re_match stat_pattern ending with
  | Some [g0; g1] => let! m := py_float g0 in let! se := py_float g1 in Ok (m, se)
  | _ => Err AttributeError
  end.

(** standard_tester.py:322-330 [cogp_fx2007], and the same lines of
    [cogp_weather] (371-379) and [cogp_synth] (494-502) *)
Definition read_stats (mout : str) : result (list (R * R)) :=
  let ending := from_label (list_ascii_of_string "mean/stderr times") mout in
  let! t := read_stat ending in
  let ending := from_label (list_ascii_of_string "mean/stderr smses") ending in
  let! s := read_stat ending in
  let ending := from_label (list_ascii_of_string "mean/stderr nlpds") ending in
  let! n := read_stat ending in
  Ok [t; s; n].
