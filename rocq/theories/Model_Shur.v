(** Model of runlmc/linalg/shur.py. *)

From Coq Require Import Reals List Arith.
From Verif Require Import Base.
Import ListNotations.
Open Scope R_scope.

(** State of the loop at shur.py:21: the two rows of [G], and [C]. *)
Record shur_st := mk_shur { s_g0 : vec; s_g1 : vec; s_C : mx }.

(** shur.py:11-20, for [top] of length [n]. *)
Definition shur_init (n : nat) (top : vec) : shur_st :=
  let g0 := map (fun t => t / vget top 0) top in
  let g1 := tab n (fun j => if Nat.eqb j 0 then 0 else vget g0 j) in
  let C := mk n n (fun r c => if Nat.eqb r 0 then vget g0 c else 0) in
  let g0' := tab n (fun j => if Nat.eqb j 0 then 0 else vget g0 (j - 1)) in
  mk_shur g0' g1 C.

(** shur.py:26-31, with the [rho] of line 22. *)
Definition shur_step (n i : nat) (rho : R) (st : shur_st) : shur_st :=
  let '(mk_shur g0 g1 C) := st in
  let scale := sqrt (1 - rho) * sqrt (1 + rho) in
  let upd (g : nat -> R) (h : nat -> R) := tab n (fun j => if Nat.leb i j then h j else g j) in
  (* 27 *)
  let a0 := upd (vget g0) (fun j => 1 * vget g0 j + rho * vget g1 j) in
  let a1 := upd (vget g1) (fun j => rho * vget g0 j + 1 * vget g1 j) in
  (* 28 *)
  let b0 := upd (vget a0) (fun j => vget a0 j / scale) in
  let b1 := upd (vget a1) (fun j => vget a1 j / scale) in
  (* 29 *)
  let C' := mk n n (fun r c => if (Nat.eqb r i && Nat.leb i c)%bool then vget b0 c else mget C r c) in
  (* 30-31 *)
  let c0 := tab n (fun j => if Nat.leb (i + 1) j then vget b0 (j - 1) else vget b0 j) in
  let d0 := tab n (fun j => if Nat.eqb j i then 0 else vget c0 j) in
  mk_shur d0 b1 C'.

(** shur.py:21-25: the loop over the remaining indices.  The result is [C] and
    whether all iterations ran ([true]) or "rank def" was printed ([false]).
    A zero divisor at line 22 or 28 (where numpy would produce nan or inf) is
    reported as an error. *)
Fixpoint shur_loop (n : nat) (is : list nat) (st : shur_st) : result (mx * bool) :=
  match is with
  | [] => Ok (s_C st, true)
  | i :: is' =>
      if Req_EM_T (vget (s_g0 st) i) 0 then Err ZeroDivisionError
      else
        let rho := - vget (s_g1 st) i / vget (s_g0 st) i in
        if Rle_dec 1 (Rabs rho) then Ok (s_C st, false)
        else if Req_EM_T (sqrt (1 - rho) * sqrt (1 + rho)) 0 then Err ZeroDivisionError
        else shur_loop n is' (shur_step n i rho st)
  end.

(** shur.py:9-32. *)
Definition shur (top : vec) : result (mx * bool) :=
  match top with
  | [] => Err IndexError
  | t0 :: _ =>
      if Req_EM_T t0 0 then Err ZeroDivisionError
      else
        let n := length top in
        let! (C, complete) := shur_loop n (seq 1 (n - 1)) (shur_init n top) in
        Ok (map (map (fun c => c * sqrt t0)) C, complete)
  end.
