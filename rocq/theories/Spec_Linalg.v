(** Independent specifications for the structured matrices. *)

From Coq Require Import Reals List Arith.
From Verif Require Import Base NDArray.
Import ListNotations.
Open Scope R_scope.

Definition absdiff (i j : nat) : nat := if Nat.leb j i then (i - j)%nat else (j - i)%nat.

(** Entry of the symmetric Toeplitz matrix with first row [top]. *)
Definition toep_entry (top : vec) (i j : nat) : R := vget top (absdiff i j).

Fixpoint absdiffs (a b : list nat) : list nat :=
  match a, b with
  | x :: a', y :: b' => absdiff x y :: absdiffs a' b'
  | _, _ => []
  end.

(** Entry of the block-Toeplitz matrix on a grid of shape [sizes]: the value
    of [top] at the componentwise absolute offset of the two grid points. *)
Definition bttb_entry (top : vec) (sizes : list nat) (i j : nat) : R :=
  vget top (ravel_idx sizes (absdiffs (unravel sizes i) (unravel sizes j))).

(** Matrix-vector product with entries [F] ([r] rows, [c] columns). *)
Definition mat_apply (r c : nat) (F : nat -> nat -> R) (x : vec) : vec :=
  tab r (fun i => Rsum c (fun j => F i j * vget x j)).

(** ** Abstract matrices *)

Record den := mk_den { d_r : nat; d_c : nat; d_f : nat -> nat -> R }.

(** [sum_i A_i], shape of the first one. *)
Definition d_sum (l : list den) : den :=
  match l with
  | [] => mk_den 0 0 (fun _ _ => 0)
  | d :: _ => mk_den (d_r d) (d_c d) (fun i j => lsum (map (fun d' => d_f d' i j) l))
  end.

(** Kronecker product: block (a, b) is [A a b * B]. *)
Definition d_kron (A B : den) : den :=
  mk_den (d_r A * d_r B) (d_c A * d_c B)
    (fun i j => d_f A (i / d_r B)%nat (j / d_c B)%nat * d_f B (i mod d_r B)%nat (j mod d_c B)%nat).

(** Direct sum. *)
Fixpoint d_dsum (l : list den) : den :=
  match l with
  | [] => mk_den 0 0 (fun _ _ => 0)
  | A :: rest =>
      let B := d_dsum rest in
      mk_den (d_r A + d_r B) (d_c A + d_c B)
        (fun i j =>
           if Nat.ltb i (d_r A) then (if Nat.ltb j (d_c A) then d_f A i j else 0)
           else (if Nat.ltb j (d_c A) then 0 else d_f B (i - d_r A) (j - d_c A)))
  end.

(** [D x D] grid of [m x m] blocks. *)
Definition d_blocks (D m : nat) (G : nat -> nat -> den) : den :=
  mk_den (D * m) (D * m) (fun i j => d_f (G (i / m) (j / m)) (i mod m) (j mod m))%nat.

Definition d_mul (A B : den) : den :=
  mk_den (d_r A) (d_c B) (fun i j => Rsum (d_c A) (fun k => d_f A i k * d_f B k j)).

Fixpoint d_prod (l : list den) : den :=
  match l with
  | [] => mk_den 0 0 (fun _ _ => 0)
  | [A] => A
  | A :: rest => d_mul A (d_prod rest)
  end.

Definition d_T (A : den) : den := mk_den (d_c A) (d_r A) (fun i j => d_f A j i).
Definition d_id (n : nat) : den := mk_den n n (fun i j => if Nat.eqb i j then 1 else 0).
Definition d_diag (v : vec) : den :=
  mk_den (length v) (length v) (fun i j => if Nat.eqb i j then vget v i else 0).

(** Products of an abstract matrix with a vector and with a dense matrix. *)
Definition d_apply (A : den) (x : vec) : vec := mat_apply (d_r A) (d_c A) (d_f A) x.
Definition d_times (A : den) (k : nat) (X : mx) : mx :=
  mk (d_r A) k (fun i l => Rsum (d_c A) (fun j => d_f A i j * mget X j l)).
Definition d_dense (A : den) : mx := mk (d_r A) (d_c A) (d_f A).

(** Same matrix. *)
Definition d_eq (A B : den) : Prop :=
  d_r A = d_r B /\ d_c A = d_c B /\
  forall i j, (i < d_r A)%nat -> (j < d_c A)%nat -> d_f A i j = d_f B i j.

(** Standard basis vector. *)
Definition e_vec (n j : nat) : vec := tab n (fun i => if Nat.eqb i j then 1 else 0).

(** Linear map from [R^c] to [R^r]. *)
Definition linear_map (r c : nat) (f : vec -> vec) : Prop :=
  (forall x, length x = c -> length (f x) = r) /\
  (forall x y i, length x = c -> length y = c -> (i < r)%nat ->
     vget (f (tab c (fun j => vget x j + vget y j))) i = vget (f x) i + vget (f y) i) /\
  (forall a x i, length x = c -> (i < r)%nat ->
     vget (f (tab c (fun j => a * vget x j))) i = a * vget (f x) i).
