(** Specifications for the utility functions, stated without reference to the
    model's helper functions. *)

From Coq Require Import Reals List Arith Sorting.Permutation.
From Verif Require Import Base NDArray.
Import ListNotations.
Open Scope R_scope.

(** [segs] cuts [a] into consecutive pieces of lengths [lens]. *)
Definition splits_as {A} (a : list A) (lens : list nat) (segs : list (list A)) : Prop :=
  concat segs = a /\ map (@length A) segs = lens.

Definition weakly_decreasing (xs : list R) : Prop :=
  forall i j, (i < j)%nat -> (j < length xs)%nat -> nth j xs 0 <= nth i xs 0.

(** [i] is the largest index whose prefix lies on the right side of [x]. *)
Definition prefix_ok (x : R) (xs : list R) (inclusive : bool) (i : nat) : Prop :=
  (i <= length xs)%nat /\
  forall k, (k < i)%nat -> if inclusive then x <= nth k xs 0 else x < nth k xs 0.

Definition largest_prefix (x : R) (xs : list R) (inclusive : bool) (i : nat) : Prop :=
  prefix_ok x xs inclusive i /\
  forall i', prefix_ok x xs inclusive i' -> (i' <= i)%nat.

(** Contiguous disjoint ranges of the given lengths covering [0, total). *)
Definition contiguous_ranges (lens begins ends : list nat) : Prop :=
  length begins = length lens /\ length ends = length lens /\
  nth 0 begins O = O /\
  (forall i, (S i < length lens)%nat -> nth (S i) begins O = nth i ends O) /\
  (forall i, (i < length lens)%nat -> (nth i ends O = nth i begins O + nth i lens O)%nat) /\
  last ends O = nsum lens.

(** Cartesian product of lists, last factor fastest. *)
Fixpoint cart (arrays : list (list R)) : list (list R) :=
  match arrays with
  | [] => [[]]
  | a :: rest => flat_map (fun x => map (cons x) (cart rest)) a
  end.

(** Mean and (population) variance of a sample. *)
Definition sample_mean (Y : list R) : R := fold_right Rplus 0 Y / INR (length Y).
Definition sample_var (Y : list R) : R :=
  sample_mean (map (fun y => (y - sample_mean Y)²) Y).
