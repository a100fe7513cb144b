(** Properties C09, C10, C11, C12, C38, C45. *)

From Coq Require Import Reals List Arith Lia Lra Sorting.Permutation.
From Verif Require Import Base NDArray Model_Util Spec_Util Proofs_Util.
Import ListNotations.
Open Scope R_scope.

(** C09: tesselate. *)
Theorem C09_tesselate_splits :
  forall (A : Type) (a : list A) (lens : list nat),
    (lens <> [] /\ nsum lens = length a ->
       exists segs, tesselate a lens = Ok segs /\ splits_as a lens segs) /\
    (lens = [] \/ nsum lens <> length a -> tesselate a lens = Err ValueError).
Proof. intros. split; [intros []; now apply tesselate_ok|apply tesselate_err]. Qed.
Print Assumptions C09_tesselate_splits.

Theorem C09_split_unique :
  forall (A : Type) (a : list A) lens s1 s2,
    splits_as a lens s1 -> splits_as a lens s2 -> s1 = s2.
Proof. exact @splits_as_unique. Qed.
Print Assumptions C09_split_unique.

Example C09_ex : tesselate [1;2;3;4]%nat [1;0;3]%nat = Ok [[1];[];[2;3;4]]%nat.
Proof. reflexivity. Qed.
Example C09_ex_err : tesselate [1;2;3;4]%nat [1;2]%nat = Err ValueError.
Proof. reflexivity. Qed.

(** C10: search_descending. *)
Theorem C10_search_descending :
  forall x xs inclusive,
    (weakly_decreasing xs ->
       exists i, search_descending x xs inclusive = Ok i /\ largest_prefix x xs inclusive i) /\
    (~ weakly_decreasing xs -> search_descending x xs inclusive = Err ValueError).
Proof. intros. split; [apply search_descending_ok|apply search_descending_err]. Qed.
Print Assumptions C10_search_descending.

Lemma C10_ex_dec : weakly_decreasing [5;3;3;1].
Proof.
  intros i j Hij Hj. simpl in Hj.
  destruct j as [|[|[|[|j]]]]; try lia; destruct i as [|[|[|[|i]]]]; try lia; simpl; lra.
Qed.
Example C10_ex : search_descending 3 [5;3;3;1] true = Ok 3%nat /\
                 search_descending 3 [5;3;3;1] false = Ok 1%nat.
Proof.
  unfold search_descending.
  rewrite (proj2 (any_diff_pos_false _) C10_ex_dec).
  cbv -[Rlt_dec Rle_dec IZR].
  repeat match goal with
  | |- context [Rlt_dec ?a ?b] => destruct (Rlt_dec a b); try lra
  | |- context [Rle_dec ?a ?b] => destruct (Rle_dec a b); try lra
  end.
  split; reflexivity.
Qed.

(** C11: map_entries is pointwise for C-ordered layouts ... *)
Theorem C11_map_entries_c_order_partial :
  forall (A : Type) (f : A -> A) (a : ndarray A) idx,
    c_like a -> idx_in (nd_shape a) idx ->
    nd_shape (map_entries f a) = nd_shape a /\
    nd_get (map_entries f a) idx = f (nd_get a idx).
Proof. exact @map_entries_pointwise. Qed.
Print Assumptions C11_map_entries_c_order_partial.

(** ... and not for others (the full claim drops [c_like]). *)
Theorem C11_map_entries_refuted :
  exists (a : ndarray nat) (f : nat -> nat) idx,
    idx_in (nd_shape a) idx /\ nd_get (map_entries f a) idx <> f (nd_get a idx).
Proof.
  exists fortran_2x2, (fun x => x), [0;1]%nat. split; [simpl; lia|].
  exact map_entries_fortran_wrong.
Qed.
Print Assumptions C11_map_entries_refuted.

Example C11_ex_c_like : c_like (mk_nd [2;3]%nat [3;1]%nat 0 (fun k => k)).
Proof.
  split; [reflexivity|]. intros i j Hij Hj. simpl in *.
  destruct j as [|[|j]]; try lia. destruct i; simpl; lia.
Qed.

(** C12: index helpers. *)
Theorem C12_begin_end_indices :
  forall lens, lens <> [] ->
    exists begins ends, begin_end_indices lens = Ok (begins, ends) /\
      contiguous_ranges lens begins ends.
Proof. exact begin_end_ok. Qed.
Print Assumptions C12_begin_end_indices.

Example C12_ex_be : begin_end_indices [2;0;3]%nat = Ok ([0;2;2]%nat, [2;2;5]%nat).
Proof. reflexivity. Qed.

Theorem C12_chunks :
  forall (A : Type) (l : list A) n, (0 < n)%nat ->
    exists cs, chunks l n = Ok cs /\ concat cs = l /\
      (forall k, (S k < length cs)%nat -> length (nth k cs []) = n) /\
      (forall k, (k < length cs)%nat -> (0 < length (nth k cs []) <= n)%nat).
Proof. exact @chunks_ok. Qed.
Print Assumptions C12_chunks.

Example C12_ex_chunks : chunks [1;2;3;4;5]%nat 2 = Ok [[1;2];[3;4];[5]]%nat.
Proof. reflexivity. Qed.

Theorem C12_cartesian_product :
  forall arrays, arrays <> [] ->
    exists rows, cartesian_product arrays = Ok rows /\ rows = cart arrays /\
      length rows = nprod (map (@length R) arrays) /\
      (forall row, In row rows <-> Forall2 (fun x a => In x a) row arrays).
Proof.
  intros arrays H. exists (cart arrays). rewrite cartesian_product_ok by auto.
  repeat split; auto using cart_length; apply in_cart.
Qed.
Print Assumptions C12_cartesian_product.

Example C12_ex_cart : cartesian_product [[1;2];[3;4]] = Ok [[1;3];[1;4];[2;3];[2;4]].
Proof. rewrite cartesian_product_ok by discriminate. reflexivity. Qed.

Theorem C12_symm_2d_list_map :
  forall (A B : Type) (f : A -> B) (arr : nat -> nat -> A) D,
    (forall i j, (i < D)%nat -> (j < D)%nat ->
       symm_2d_list_map f arr D i j = symm_2d_list_map f arr D j i) /\
    ((forall i j, (i < D)%nat -> (j < D)%nat -> arr i j = arr j i) ->
     forall i j, (i < D)%nat -> (j < D)%nat -> symm_2d_list_map f arr D i j = Some (f (arr i j))).
Proof.
  intros. split.
  - intros i j Hi Hj. rewrite !symm_2d_spec by auto.
    rewrite Nat.min_comm, Nat.max_comm. reflexivity.
  - intros Hs i j Hi Hj. rewrite symm_2d_spec by auto.
    destruct (le_lt_dec i j).
    + rewrite Nat.min_l, Nat.max_r by lia. reflexivity.
    + rewrite Nat.min_r, Nat.max_l by lia. rewrite Hs by auto. reflexivity.
Qed.
Print Assumptions C12_symm_2d_list_map.

Example C12_ex_symm : symm_2d_list_map S (fun i j => (i + j)%nat) 3 2 1 = Some 4%nat.
Proof. reflexivity. Qed.

(** C38: normalisation. *)
Theorem C38_normalize_standardises :
  forall Y nY, Y <> [] -> np_std Y <> 0 ->
    normalize (Some (scale_by Y)) Y = Ok nY ->
    sample_mean nY = 0 /\ sample_var nY = 1.
Proof. exact normalize_standard. Qed.
Print Assumptions C38_normalize_standardises.

Theorem C38_inverse_mean_undoes_normalize :
  forall Y Z nZ, np_std Y <> 0 ->
    normalize (Some (scale_by Y)) Z = Ok nZ -> inverse_mean (scale_by Y) nZ = Z.
Proof. exact inverse_normalize. Qed.
Print Assumptions C38_inverse_mean_undoes_normalize.

Theorem C38_inverse_variance_scales :
  forall Y V i, Y <> [] -> (i < length V)%nat ->
    vget (inverse_variance (scale_by Y) V) i = sample_var Y * vget V i.
Proof.
  intros Y V i Hne Hi. unfold inverse_variance, vget.
  rewrite (nth_indep _ 0 ((fun v => v * (n_std (scale_by Y) * n_std (scale_by Y))) 0))
    by (rewrite map_length; auto).
  rewrite (map_nth (fun v => v * (n_std (scale_by Y) * n_std (scale_by Y)))). simpl.
  unfold np_std. rewrite sqrt_sqrt by now apply np_var_nonneg.
  rewrite np_var_spec. ring.
Qed.
Print Assumptions C38_inverse_variance_scales.

Example C38_ex : np_std [1;3] <> 0.
Proof.
  unfold np_std, np_var, np_mean. simpl. intros H. apply sqrt_eq_0 in H; lra.
Qed.

(** C45: pools. *)
Theorem C45_starmap_order_independent :
  forall (A B : Type) (f : A -> result B) (g : A -> B) ls pool,
    (forall x, In x ls -> f x = Ok (g x)) ->
    (forall chunksize sched, pool = Some (chunksize, sched) ->
       exists cs, chunks ls chunksize = Ok cs /\ Permutation sched (seq 0 (length cs))) ->
    inline_starmap pool f ls = Ok (map g ls).
Proof.
  intros A B f g ls [[c s]|] Hok Hp.
  - destruct (Hp c s eq_refl) as [cs [H1 H2]]. now apply (pool_starmap_ok f g ls c s cs).
  - now apply map_result_all_ok.
Qed.
Print Assumptions C45_starmap_order_independent.

Theorem C45_starmap_failure_reported :
  forall (A B : Type) (f : A -> result B) ls pool,
    (exists x e, In x ls /\ f x = Err e) ->
    (forall chunksize sched, pool = Some (chunksize, sched) ->
       exists cs, chunks ls chunksize = Ok cs /\ Permutation sched (seq 0 (length cs))) ->
    exists e, inline_starmap pool f ls = Err e.
Proof.
  intros A B f ls [[c s]|] He Hp.
  - destruct (Hp c s eq_refl) as [cs [H1 H2]]. now apply (pool_starmap_err f ls c s cs).
  - now apply map_result_err.
Qed.
Print Assumptions C45_starmap_failure_reported.

Example C45_ex :
  inline_starmap (Some (2, [1;0]))%nat (fun x => Ok (x * x)%nat) [1;2;3]%nat = Ok [1;4;9]%nat.
Proof. reflexivity. Qed.
