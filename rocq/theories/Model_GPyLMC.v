(** Model of runlmc/models/gpy_lmc.py. *)

From Coq Require Import Reals List Arith ZArith.
From Verif Require Import Base NDArray Model_Util Model_Linalg Model_Kern Model_FK Model_Grid Model_Lik Model_GP.
Import ListNotations.
Open Scope R_scope.

(** The rows of a 2-D array. *)
Definition rows_of (X : ndarr) : mx := match a_shape X with [n; p] => arr_rows n p (a_data X) | _ => [] end.

(** [list(map(len, Xs))] for arrays that have a length *)
Definition lens_of (Xs : list ndarr) : list nat := map (fun X => hd 0%nat (a_shape X)) Xs.

(** gpy_lmc.py:81-86, 95-98: the query.  [np.vstack] raises on an empty list
    and on arrays of different dimensions, [np.hstack] with the 2-D [meta] on
    arrays that are not 2-D; the numbers of columns agree after [_pad_dims].
    [np.repeat(np.arange(len(Xs)), lenls)] is the column [meta]. *)
Definition gpy_query (Xs : list ndarr) : result (mx * list nat) :=
  match Xs with
  | [] => Err ValueError
  | _ =>
    if forallb (fun X => Nat.eqb (length (a_shape X)) 2) Xs then
      let X := flat_map rows_of Xs in
      let meta := flat_map (fun dn => repeat (fst dn) (snd dn)) (combine (seq 0 (length Xs)) (lens_of Xs)) in
      Ok (map (fun xm => fst xm ++ [INR (snd xm)]) (combine X meta), meta)
    else Err ValueError
  end.

Section Predict.
  (** The wrapped GPy model: [gpy_model.predict(X, Y_metadata)] and
      [gpy_model.predict_quantiles(X, quantiles, Y_metadata)] *)
  Variable predict : mx -> list nat -> ndarr * ndarr.
  Variable predict_quantiles : mx -> vec -> list nat -> list ndarr.
  (** [self.input_dim] *)
  Variable P : nat.

  (** gpy_lmc.py:79-92 [predict] *)
  Definition gpylmc_predict (Xs : list ndarr) : result (list vec * list vec) :=
    let! Xs := pad_dims P Xs in
    let! (Q, meta) := gpy_query Xs in
    let '(mu, var) := predict Q meta in
    let! mu := tesselate (a_data mu) (lens_of Xs) in
    let! var := tesselate (a_data var) (lens_of Xs) in
    Ok (mu, var).

  (** [np.array] of a list of arrays *)
  Definition np_array (l : list ndarr) : result ndarr :=
    match l with
    | [] => Ok (mk_arr [0%nat] [])
    | A :: _ =>
      if forallb (fun B => if list_eq_dec Nat.eq_dec (a_shape B) (a_shape A) then true else false) l
      then Ok (mk_arr (length l :: a_shape A) (flat_map a_data l))
      else Err ValueError
    end.

  (** gpy_lmc.py:94-107 [predict_quantiles] *)
  Definition gpylmc_quantiles (Xs : list ndarr) (quantiles : vec) : result (list mx) :=
    let! Xs := pad_dims P Xs in
    let! (Q, meta) := gpy_query Xs in
    let! Qs := np_array (predict_quantiles Q quantiles meta) in
    let! last_dim := match nth_error (a_shape Qs) 2 with None => Err IndexError | Some k => Ok k end in
    if Nat.eqb last_dim 1 then
      let q := length quantiles in
      (* Qs.reshape(len(quantiles), -1) *)
      if (Nat.eqb q 0 || negb (Nat.eqb (np_size Qs mod q) 0))%bool then Err ValueError
      else
        let w := (np_size Qs / q)%nat in
        tesselate (mk w q (fun i j => vget (a_data Qs) (j * w + i))) (lens_of Xs)
    else Err AssertionError.
End Predict.

(** ** The kernel handed to GPy *)

(** One term of the sum: [ICM(input_dim, num_outputs, kernel, rank)] with
    [input_dim = 1]: the product of the kernel, on its own active column, and
    of GPy's [Coregionalize], whose active column is [input_dim]. *)
Record icm := mk_icm { icm_kern : gpy_kern; icm_active : nat; icm_col : nat; icm_rank : nat }.

(** [to_gpy] with [active_dims]: GPy's kernels of input dimension 1 take column
    0 by default and assert that there is one active column. *)
Definition to_gpy_active (k : kern * option (list nat)) : result (gpy_kern * nat) :=
  let! g := to_gpy (fst k) in
  match snd k with
  | None => Ok (g, 0%nat)
  | Some [c] => Ok (g, c)
  | Some _ => Err AssertionError
  end.

(** gpy_lmc.py:109-129 [_construct_gpy]: the terms of [K] *)
Definition construct_gpy (kernels : list (kern * option (list nat))) (ranks : list nat) : result (list icm) :=
  let! ks := map_result to_gpy_active kernels in
  let input_dim := 1%nat in
  match ks, ranks with
  | [], _ | _, [] => Err IndexError
  | k0 :: ks, r0 :: ranks => Ok (map (fun kr => mk_icm (fst (fst kr)) (snd (fst kr)) input_dim (snd kr)) ((k0, r0) :: combine ks ranks))
  end.
