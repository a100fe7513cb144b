(** Model of runlmc/mean: mean_function.py, constant.py, zero.py. *)

From Coq Require Import Reals List Arith.
From Verif Require Import Base Model_Util Model_Linalg Model_Kern.
Import ListNotations.
Open Scope R_scope.

(** A mean function object: its class, [output_dim], and for [Constant] the
    current entries of the parameter [c]. *)
Inductive mean := Constant (output_dim : nat) (c : vec) | Zero (output_dim : nat).

(** mean_function.py:22-27 [MeanFunction.__init__] *)
Definition mean_init (input_dim : nat) : result unit :=
  if Nat.eqb input_dim 1 then Ok tt else Err AssertionError.

(** constant.py:27-38 [Constant.__init__] *)
Definition new_constant (input_dim output_dim : nat) (c0 : option ndarr) : result mean :=
  let! _ := mean_init input_dim in
  let c0 := match c0 with None => mk_arr [output_dim] (tab output_dim (fun _ => 0)) | Some c => c end in
  if list_eq_dec Nat.eq_dec (a_shape c0) [output_dim] then Ok (Constant output_dim (a_data c0)) else Err ValueError.

(** zero.py:16-17 [Zero.__init__] *)
Definition new_zero (input_dim output_dim : nat) : result mean :=
  let! _ := mean_init input_dim in Ok (Zero output_dim).

(** A change of the linked parameter [c] from outside (optimiser, user). *)
Definition set_c (m : mean) (c : vec) : mean := match m with Constant D _ => Constant D c | Zero D => Zero D end.

(** mean_function.py:37-45 [_validate_inputs]; the [for] loop raises at the
    first array which is not one-dimensional. *)
Fixpoint validate_ndim (Xs : list ndarr) : result unit :=
  match Xs with
  | [] => Ok tt
  | X :: Xs => if Nat.eqb (length (a_shape X)) 1 then validate_ndim Xs else Err ValueError
  end.
Definition validate_inputs (output_dim : nat) (Xs : list ndarr) : result unit :=
  if Nat.eqb (length Xs) output_dim then validate_ndim Xs else Err ValueError.

(** constant.py:40-42, zero.py:19-21: [f] *)
Definition mean_f (m : mean) (Xs : list ndarr) : result (list vec) :=
  match m with
  | Constant D c =>
    let! _ := validate_inputs D Xs in
    map_result (fun Xc => let! n := np_len (fst Xc) in Ok (map (fun x => x * snd Xc) (tab n (fun _ => 1)))) (combine Xs c)
  | Zero D =>
    let! _ := validate_inputs D Xs in
    map_result (fun X => let! n := np_len X in Ok (tab n (fun _ => 0))) Xs
  end.

(** constant.py:44-47, zero.py:23-25: [mean_gradient]; no validation *)
Definition mean_gradient (m : mean) (Xs : list ndarr) : result (list (list vec)) :=
  match m with
  | Constant _ c =>
    map_result (fun i => map_result (fun jX => let! n := np_len (snd jX) in
        Ok (if Nat.eqb i (fst jX) then tab n (fun _ => 1) else tab n (fun _ => 0))) (combine (seq 0 (length Xs)) Xs))
      (seq 0 (length c))
  | Zero _ => Ok []
  end.
