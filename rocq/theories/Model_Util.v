(** Model of runlmc/util/numpy_convenience.py, runlmc/util/inline_pool.py and
    runlmc/util/normalizer.py. *)

From Coq Require Import Reals List Arith Lia Lra.
From Verif Require Import Base NDArray.
Import ListNotations.
Open Scope R_scope.

(** ** numpy_convenience.py *)

(** [itertools.accumulate] / [np.add.accumulate] on lengths: running sums
    (used at numpy_convenience.py:43 and :98). *)
Fixpoint accumulate_from (acc : nat) (l : list nat) : list nat :=
  match l with
  | [] => []
  | x :: l' => (acc + x)%nat :: accumulate_from (acc + x) l'
  end.
Definition accumulate (l : list nat) : list nat := accumulate_from 0 l.

(** [np.split(a, idxs)] (numpy_convenience.py:49): cut points are
    [0] ++ idxs ++ [len(a)], consecutive cut points delimit the pieces. *)
Fixpoint np_split_from {A} (b : nat) (a : list A) (idxs : list nat) : list (list A) :=
  match idxs with
  | [] => [slice b (length a) a]
  | e :: idxs' => slice b e a :: np_split_from e a idxs'
  end.
Definition np_split {A} (a : list A) (idxs : list nat) : list (list A) :=
  np_split_from 0 a idxs.

(** numpy_convenience.py:31-49 [tesselate].  Lengths are natural numbers (a
    Python caller passes lens of sequences); a row of [nparr] is an element of
    the list. *)
Definition tesselate {A} (nparr : list A) (lenit : list nat) : result (list (list A)) :=
  let ends := accumulate lenit in
  match ends with
  | [] => Err ValueError
  | _ => if Nat.eqb (length nparr) (last ends O)
         then Ok (np_split nparr (removelast ends))
         else Err ValueError
  end.

(** [np.any(np.diff(xs) > 0)] (numpy_convenience.py:65). *)
Fixpoint any_diff_pos (xs : list R) : bool :=
  match xs with
  | x :: ((y :: _) as rest) =>
      if Rlt_dec 0 (y - x) then true else any_diff_pos rest
  | _ => false
  end.

(** numpy's [searchsorted] binary search (numpy_convenience.py:68): the loop
    [while lo < hi] with [mid = lo + (hi - lo) // 2]; side 'left' moves right
    when [a[mid] < x], side 'right' when [a[mid] <= x].  [fuel] bounds the
    number of iterations; [length a] iterations always suffice. *)
Fixpoint binsearch (fuel : nat) (go_right : R -> bool) (a : list R) (lo hi : nat) : nat :=
  match fuel with
  | O => lo
  | S fuel' =>
      if Nat.ltb lo hi then
        let mid := (lo + (hi - lo) / 2)%nat in
        if go_right (vget a mid) then binsearch fuel' go_right a (S mid) hi
        else binsearch fuel' go_right a lo mid
      else lo
  end.

Definition Rltb (a b : R) : bool := if Rlt_dec a b then true else false.
Definition Rleb (a b : R) : bool := if Rle_dec a b then true else false.

Definition np_searchsorted (a : list R) (x : R) (left : bool) : nat :=
  binsearch (length a) (fun y => if left then Rltb y x else Rleb y x) a 0 (length a).

(** numpy_convenience.py:55-69 [search_descending]. *)
Definition search_descending (x : R) (xs : list R) (inclusive : bool) : result nat :=
  if any_diff_pos xs then Err ValueError
  else
    let idx := np_searchsorted (rev xs) x inclusive in
    Ok (length xs - idx)%nat.

(** A numpy array with explicit memory layout: entry [idx] lives in cell
    [off + sum_p idx_p * stride_p] of the buffer (strides in elements, here
    non-negative). *)
Record ndarray (A : Type) := mk_nd {
  nd_shape : list nat;
  nd_strides : list nat;
  nd_off : nat;
  nd_buf : nat -> A
}.
Arguments mk_nd {A}.
Arguments nd_shape {A}.
Arguments nd_strides {A}.
Arguments nd_off {A}.
Arguments nd_buf {A}.

Fixpoint idx_dot (idx strides : list nat) : nat :=
  match idx, strides with
  | i :: idx', s :: strides' => (i * s + idx_dot idx' strides')%nat
  | _, _ => O
  end.

Definition nd_get {A} (a : ndarray A) (idx : list nat) : A :=
  nd_buf a (nd_off a + idx_dot idx (nd_strides a)).

(** [np.nditer(nparr)] visits a single operand in memory order
    (numpy_convenience.py:25, default [order='K']): axes are stably sorted by
    decreasing stride and then walked in C order.  Only positive strides are
    modelled. *)
Fixpoint insert_axis (key : nat -> nat) (x : nat) (l : list nat) : list nat :=
  match l with
  | [] => [x]
  | y :: l' => if Nat.leb (key y) (key x) then x :: l else y :: insert_axis key x l'
  end.
Fixpoint sort_axes (key : nat -> nat) (l : list nat) : list nat :=
  match l with
  | [] => []
  | x :: l' => insert_axis key x (sort_axes key l')
  end.

Fixpoint index_of (x : nat) (l : list nat) : nat :=
  match l with
  | [] => O
  | y :: l' => if Nat.eqb x y then O else S (index_of x l')
  end.

Definition nditer {A} (a : ndarray A) : list A :=
  let nd := length (nd_shape a) in
  let perm := sort_axes (fun p => nth p (nd_strides a) O) (seq 0 nd) in
  map (fun pidx => nd_get a (tab nd (fun p => nth (index_of p perm) pidx O)))
      (indices (map (fun p => nth p (nd_shape a) O) perm)).

(** C-contiguous strides of a shape. *)
Fixpoint c_strides (s : list nat) : list nat :=
  match s with
  | [] => []
  | _ :: s' => nprod s' :: c_strides s'
  end.

(** numpy_convenience.py:14-28 [map_entries]: [np.fromiter] makes a fresh 1-D
    array, [reshape] views it in C order.  [f] is assumed to return the
    array's own element type (no dtype truncation). *)
Definition map_entries {A} (f : A -> A) (a : ndarray A) : ndarray A :=
  if Nat.eqb (nprod (nd_shape a)) 0 then a
  else
    let out := map f (nditer a) in
    mk_nd (nd_shape a) (c_strides (nd_shape a)) 0 (fun k => nth k out (nd_buf a 0)).

(** numpy_convenience.py:87-94 [symm_2d_list_map]: the two loops over
    [i in range(D)], [j in range(i, D)], each writing two cells.  Cells never
    written are [None] ([np.empty]). *)
Definition upd2 {A} (out : nat -> nat -> A) (i j : nat) (v : A) : nat -> nat -> A :=
  fun a b => if (Nat.eqb a i && Nat.eqb b j)%bool then v else out a b.

Definition symm_2d_list_map {A B} (f : A -> B) (arr : nat -> nat -> A) (D : nat)
  : nat -> nat -> option B :=
  fold_left (fun out i =>
    fold_left (fun out j =>
      let out1 := upd2 out i j (Some (f (arr i j))) in
      upd2 out1 j i (out1 i j)) (seq i (D - i)) out)
    (seq 0 D) (fun _ _ => None).

(** numpy_convenience.py:97-101 [begin_end_indices]: on an empty list
    [begins[0] = 0] raises IndexError. *)
Definition begin_end_indices (lens : list nat) : result (list nat * list nat) :=
  let ends := accumulate lens in
  match ends with
  | [] => Err IndexError
  | _ => Ok (O :: removelast ends, ends)
  end.

(** numpy_convenience.py:104-108 [chunks]: [range(0, len(l), 0)] raises
    ValueError. *)
Definition chunks {A} (l : list A) (n : nat) : result (list (list A)) :=
  match n with
  | O => Err ValueError
  | _ => Ok (tab ((length l + n - 1) / n) (fun k => slice (k * n) (k * n + n) l))
  end.

(** numpy_convenience.py:111-118 [cartesian_product]: cell [(idx, i)] of the
    [lens + [narr]] array is [arrays[i][idx_i]] (line 117 broadcasts along
    axis i); [reshape(-1, narr)] lists the idx in C order.
    [np.result_type()] of nothing raises ValueError. *)
Definition cartesian_product (arrays : list (list R)) : result (list (list R)) :=
  match arrays with
  | [] => Err ValueError
  | _ =>
    let lens := map (@length R) arrays in
    Ok (tab (nprod lens) (fun k =>
          tab (length arrays) (fun i => nth (nth i (unravel lens k) O) (nth i arrays []) 0)))
  end.

(** ** inline_pool.py *)

(** inline_pool.py:19 serial evaluation: the first failing call propagates. *)
Fixpoint map_result {A B} (f : A -> result B) (ls : list A) : result (list B) :=
  match ls with
  | [] => Ok []
  | x :: ls' => let! y := f x in let! ys := map_result f ls' in Ok (y :: ys)
  end.

(** [multiprocessing.Pool.starmap] (inline_pool.py:18): tasks are cut into
    chunks; workers finish chunks in the order [sched]; each finished chunk
    stores its results at its own position; a failed chunk makes the call
    raise its error once all chunks are in (first failure reported wins).
    Worker placement and the transport of arguments are not modelled. *)
Record pool_state (B : Type) := mk_pool {
  ps_slots : nat -> option (list B);
  ps_err : option err
}.
Arguments mk_pool {B}.
Arguments ps_slots {B}.
Arguments ps_err {B}.

Definition pool_step {A B} (f : A -> result B) (cs : list (list A))
           (st : pool_state B) (i : nat) : pool_state B :=
  match map_result f (nth i cs []) with
  | Ok ys => mk_pool (fun k => if Nat.eqb k i then Some ys else ps_slots st k) (ps_err st)
  | Err e => mk_pool (ps_slots st)
                     (match ps_err st with None => Some e | Some e' => Some e' end)
  end.

Definition pool_starmap {A B} (chunksize : nat) (sched : list nat)
           (f : A -> result B) (ls : list A) : result (list B) :=
  let! cs := chunks ls chunksize in
  let st := fold_left (pool_step f cs) sched (mk_pool (fun _ => None) None) in
  match ps_err st with
  | Some e => Err e
  | None => Ok (concat (tab (length cs) (fun i =>
                 match ps_slots st i with Some ys => ys | None => [] end)))
  end.

(** inline_pool.py:16-19 [InlinePool.starmap]; [None] is "no pool". *)
Definition inline_starmap {A B} (pool : option (nat * list nat))
           (f : A -> result B) (ls : list A) : result (list B) :=
  match pool with
  | Some (chunksize, sched) => pool_starmap chunksize sched f ls
  | None => map_result f ls
  end.

(** ** normalizer.py *)

Definition np_mean (Y : vec) : R := lsum Y / INR (length Y).
Definition np_var (Y : vec) : R :=
  lsum (map (fun y => (y - np_mean Y) * (y - np_mean Y)) Y) / INR (length Y).
Definition np_std (Y : vec) : R := sqrt (np_var Y).

(** normalizer.py:13-24 [Norm] after [scale_by(Y)]; [masked_invalid] masks
    nothing because reals are always valid. *)
Record norm := mk_norm { n_mean : R; n_std : R }.
Definition scale_by (Y : vec) : norm := mk_norm (np_mean Y) (np_std Y).

(** normalizer.py:26-34 [normalize]; [None] is a [Norm] before [scale_by]. *)
Definition normalize (nm : option norm) (Y : vec) : result vec :=
  match nm with
  | None => Err AttributeError
  | Some nm => Ok (map (fun y => (y - n_mean nm) / n_std nm) Y)
  end.

(** normalizer.py:36-43. *)
Definition inverse_mean (nm : norm) (X : vec) : vec :=
  map (fun x => x * n_std nm + n_mean nm) X.
Definition inverse_variance (nm : norm) (V : vec) : vec :=
  map (fun v => v * (n_std nm * n_std nm)) V.
