(** Model of the part of Python's [re] that the scripts use: a pattern is a
    sequence of characters classes, each once or repeated greedily, some of them
    captured.  [re.match] anchors the pattern at the start of the string only and
    returns the first match of a backtracking search in which longer repetitions
    are tried first.

    A string is a list of characters with codes below 256, on which the classes
    are those of Python's [str] patterns. *)

From Coq Require Import List Arith Ascii Bool.
Import ListNotations.

Definition str := list ascii.

(** [\d] *)
Definition is_digit (c : ascii) : bool := let n := nat_of_ascii c in (48 <=? n) && (n <=? 57).

(** [\w] of the first 256 characters: letters, digits, underscore, and the
    letters and numerals among the upper 128 *)
Definition is_word (c : ascii) : bool :=
  let n := nat_of_ascii c in
  is_digit c || ((65 <=? n) && (n <=? 90)) || ((97 <=? n) && (n <=? 122)) || (n =? 95)
  || existsb (Nat.eqb n) [170; 178; 179; 181; 185; 186; 188; 189; 190]
  || ((192 <=? n) && negb (n =? 215) && negb (n =? 247)).

(** [\s] *)
Definition is_space (c : ascii) : bool :=
  let n := nat_of_ascii c in ((9 <=? n) && (n <=? 13)) || ((28 <=? n) && (n <=? 32)) || (n =? 133) || (n =? 160).

Definition not_digit (c : ascii) : bool := negb (is_digit c).
Definition not_word (c : ascii) : bool := negb (is_word c).
Definition one_of (l : list ascii) (c : ascii) : bool := existsb (Ascii.eqb c) l.

(** One item: between [it_lo] and [it_hi] (no bound if [None]) characters of
    the class. *)
Record item := { it_lo : nat; it_hi : option nat; it_cls : ascii -> bool; it_cap : bool }.

Definition once p cap := {| it_lo := 1; it_hi := Some 1; it_cls := p; it_cap := cap |}.
Definition plus p cap := {| it_lo := 1; it_hi := None; it_cls := p; it_cap := cap |}.
Definition star p cap := {| it_lo := 0; it_hi := None; it_cls := p; it_cap := cap |}.

(** Length of the longest prefix in the class. *)
Fixpoint span (p : ascii -> bool) (s : str) : nat :=
  match s with
  | c :: r => if p c then S (span p r) else O
  | [] => O
  end.

(** Try [k], [k - 1], ..., 0. *)
Fixpoint try_down {A} (f : nat -> option A) (k : nat) : option A :=
  match f k with
  | Some a => Some a
  | None => match k with O => None | S k' => try_down f k' end
  end.

(** [re.match(pattern, s)]: [m.groups()] if it matches *)
Fixpoint re_match (pat : list item) (s : str) : option (list str) :=
  match pat with
  | [] => Some []
  | it :: rest =>
      let most := match it_hi it with Some h => Nat.min h (span (it_cls it) s) | None => span (it_cls it) s end in
      try_down (fun k =>
        if k <? it_lo it then None
        else match re_match rest (skipn k s) with
             | Some gs => Some (if it_cap it then firstn k s :: gs else gs)
             | None => None
             end) most
  end.
