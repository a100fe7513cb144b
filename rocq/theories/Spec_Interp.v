(** Vocabulary for properties C13-C20. *)

From Coq Require Import Reals List Arith ZArith.
From Verif Require Import Base NDArray Model_Linalg Model_Interp.
Import ListNotations.
Open Scope R_scope.

(** Well-formed compressed sparse rows (what scipy's [check_format] demands). *)
Record csr_wf (A : csr) : Prop := mk_csr_wf {
  wf_len : length (c_indptr A) = S (c_r A);
  wf_first : nth 0 (c_indptr A) 0%nat = 0%nat;
  wf_mono : forall i, (i < c_r A)%nat -> (nth i (c_indptr A) 0 <= nth (S i) (c_indptr A) 0)%nat;
  wf_last : nth (c_r A) (c_indptr A) 0%nat = length (c_indices A);
  wf_data : length (c_data A) = length (c_indices A);
  wf_cols : forall j, In j (c_indices A) -> (j < c_c A)%nat
}.

(** [W.dot(f(grid))] at row [i]. *)
Definition interp_value (W : csr) (i : nat) (phi : nat -> R) : R :=
  Rsum (c_c W) (fun j => csr_get W i j * phi j).

(** 1-D arrays. *)
Definition arr1 (v : vec) : ndarr := mk_arr [length v] v.

(** An increasing equispaced grid of [m] points from [a] with spacing [h]. *)
Definition equispaced (m : nat) (a h : R) : vec := tab m (fun k => a + INR k * h).

(** Keys' cubic convolution kernel (R. Keys, 1981, with a = -1/2). *)
Definition keys_cubic (s : R) : R :=
  let r := Rabs s in
  if Rle_dec r 1 then 3 / 2 * r ^ 3 - 5 / 2 * r ^ 2 + 1
  else if Rle_dec r 2 then - (1 / 2) * r ^ 3 + 5 / 2 * r ^ 2 - 4 * r + 2
  else 0.
