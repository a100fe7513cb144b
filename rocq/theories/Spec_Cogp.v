(** Vocabulary for the statements about the results of COGP: printed numbers. *)

From Coq Require Import Reals List Arith Ascii String.
From Coq Require Import List.
From Verif Require Import Base Spec_Clean.
Import ListNotations.
Open Scope R_scope.

(** A number as it is printed without its sign: digits, a fraction, an
    exponent with its sign. *)
Record printed := { pr_whole : list nat; pr_frac : option (list nat); pr_exp : option (bool * list nat) }.

Definition printable (p : printed) : Prop :=
  pr_whole p <> [] /\ digits (pr_whole p) /\
  (forall fs, pr_frac p = Some fs -> digits fs) /\
  (forall b es, pr_exp p = Some (b, es) -> es <> [] /\ digits es).

Definition shown (p : printed) : list ascii :=
  numeral (pr_whole p)
  ++ match pr_frac p with Some fs => "."%char :: numeral fs | None => [] end
  ++ match pr_exp p with Some (neg, es) => "e"%char :: (if neg then "-" else "+")%char :: numeral es | None => [] end.

Definition denoted (p : printed) : R :=
  (number (pr_whole p) + match pr_frac p with Some fs => number fs / 10 ^ List.length fs | None => 0 end)
  * match pr_exp p with
    | Some (neg, es) => if neg then / Rpower 10 (number es) else Rpower 10 (number es)
    | None => 1
    end.

Definition blanks (t : list ascii) : Prop := t <> [] /\ forall c, In c t -> In c (map ascii_of_nat [9; 10; 13; 32]%nat).

(** What follows a number. *)
Definition separate (t : list ascii) : Prop := t = [] \/ exists c r, t = c :: r /\ In c (map ascii_of_nat [9; 10; 13; 32]%nat).

(** The first occurrence of [label] in [pre ++ label ++ rest] is the one shown. *)
Definition first_at (pre label rest : list ascii) : Prop :=
  forall a b, pre ++ label ++ rest = a ++ label ++ b -> (List.length pre <= List.length a)%nat.
Definition occurs (label t : list ascii) : Prop := exists a b, t = a ++ label ++ b.

(** One result as printed: the label, some text without digits, the mean, blanks,
    the standard error. *)
Record block := { bl_gap : list ascii; bl_mean : printed; bl_ws : list ascii; bl_se : printed; bl_rest : list ascii }.
Definition block_ok (b : block) : Prop :=
  no_digits (bl_gap b) /\ printable (bl_mean b) /\ blanks (bl_ws b) /\ printable (bl_se b) /\ separate (bl_rest b).
Definition block_text (label : list ascii) (b : block) : list ascii :=
  label ++ bl_gap b ++ shown (bl_mean b) ++ bl_ws b ++ shown (bl_se b) ++ bl_rest b.
