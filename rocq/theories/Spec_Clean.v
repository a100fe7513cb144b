(** Vocabulary for the statements about data/noaa/clean.py: numerals, cells,
    joins and location texts, independent of the model's helpers. *)

From Coq Require Import Reals List Arith ZArith Ascii String.
From Coq Require Import List.
From Verif Require Import Base.
Import ListNotations.
Open Scope R_scope.

(** ** Numerals *)

Definition numeral (ds : list nat) : list ascii := map (fun d => ascii_of_nat (48 + d)) ds.
Definition digits (ds : list nat) : Prop := forall d, In d ds -> (d < 10)%nat.
(** The number written by the digits, the first being the most significant. *)
Definition number (ds : list nat) : R := Rsum (List.length ds) (fun i => INR (nth i ds 0%nat) * 10 ^ (List.length ds - 1 - i)).

Definition digit_chars : list ascii := list_ascii_of_string "0123456789".
(** Text without digits, and without digits and points. *)
Definition no_digits (t : list ascii) : Prop := forall c, In c t -> ~ In c digit_chars.
Definition plain (t : list ascii) : Prop := forall c, In c t -> ~ In c ("."%char :: digit_chars).
Definition points (t : list ascii) : nat := count_occ ascii_dec t "."%char.

(** ** Locations *)

Definition angle (d m s : list nat) : R := number d + number m / 60 + number s / 3600.
Definition north (h : ascii) (sgn : R) : Prop := (h = "N"%char /\ sgn = 1) \/ (h = "S"%char /\ sgn = -1).
Definition east (h : ascii) (sgn : R) : Prop := (h = "E"%char /\ sgn = 1) \/ (h = "W"%char /\ sgn = -1).

(** What may stand between the hemisphere and the longitude: blanks and
    punctuation of ASCII. *)
Definition blank (t : list ascii) : Prop :=
  t <> [] /\ forall c, In c t -> In c (list_ascii_of_string " !""#$%&'()*+,-./:;<=>?@[\]^`{|}~").

Definition no_east_west (t : list ascii) : Prop := ~ In "E"%char t /\ ~ In "W"%char t.
Definition no_north_south (t : list ascii) : Prop := ~ In "N"%char t /\ ~ In "S"%char t.

Definition numerals (l : list (list nat)) : Prop := forall ds, In ds l -> ds <> [] /\ digits ds.

(** Degrees, minutes and seconds, with a hemisphere. *)
Definition dms_text (d m s : list nat) (c : ascii) (u v : list ascii) (h : ascii) : list ascii :=
  numeral d ++ [c] ++ numeral m ++ u ++ numeral s ++ v ++ [h].
(** Degrees and minutes. *)
Definition dm_text (d m : list nat) (u v : list ascii) (h : ascii) : list ascii :=
  numeral d ++ u ++ numeral m ++ v ++ [h].

(** ** Joins *)

(** The second list holds, in order, what [P] relates to the elements of the
    first that it relates to anything. *)
Inductive selects {A B} (P : A -> B -> Prop) : list A -> list B -> Prop :=
| sel_nil : selects P [] []
| sel_take a b l r : P a b -> selects P l r -> selects P (a :: l) (b :: r)
| sel_skip a l r : (forall b, ~ P a b) -> selects P l r -> selects P (a :: l) r.
