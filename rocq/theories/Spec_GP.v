(** Independent specifications for the grids and the prediction of
    InterpolatedLLGP. *)

From Coq Require Import Reals List Arith ZArith.
From Verif Require Import Base NDArray Model_Util Spec_Util Model_Linalg Spec_Linalg Model_Interp Spec_Interp Model_Kern Model_FK Spec_Kern Spec_FK
  Model_Grid Spec_Grid Spec_Lik.
Import ListNotations.
Open Scope R_scope.

(** A [lo], [hi] or [m] argument covers the dimensions [ad]; its value for a
    dimension. *)
Definition arg_ok {A} (x : grid_arg A) (ad : dims) : Prop :=
  match x with
  | GNone => True
  | GNum _ => length ad = 1%nat
  | GArr l => forall d, In d ad -> (d < length l)%nat
  end.
Definition arg_at {A} (x : grid_arg A) (d : nat) : option A :=
  match x with GNone => None | GNum v => Some v | GArr l => nth_error l d end.

(** Number of grid cells asked for: by default the mean number of inputs. *)
Definition cells_for (m : grid_arg nat) (lens : list nat) (d : nat) : nat :=
  match arg_at m d with Some k => k | None => (nsum lens / length lens)%nat end.

(** Some input has [x] in dimension [d]. *)
Definition coord (P : nat) (Xs : list ndarr) (lens : list nat) (d : nat) (x : R) : Prop :=
  exists i, (i < nsum lens)%nat /\ x = obs P Xs lens i d.

(** Two different values in dimension [d], of which the lower may be [lo] and
    the upper [hi]. *)
Definition spread (P : nat) (Xs : list ndarr) (lens : list nat) (lo hi : grid_arg R) (d : nat) : Prop :=
  exists x y, x < y /\
    (coord P Xs lens d x \/ arg_at lo d = Some x) /\ (coord P Xs lens d y \/ arg_at hi d = Some y).

(** Arguments of _generate_grids that it can work with, for the dimensions [ad]. *)
Record grid_args_ok (P : nat) (Xs : list ndarr) (lens : list nat) (lo hi : grid_arg R) (m : grid_arg nat) (ad : dims) : Prop := {
  ga_dims : (length ad = 1 \/ length ad = 2)%nat;
  ga_range : forall d, In d ad -> (d < P)%nat;
  ga_lo : arg_ok lo ad;
  ga_hi : arg_ok hi ad;
  ga_m : arg_ok m ad;
  ga_pos : forall d k, In d ad -> arg_at m d = Some k -> (1 <= k)%nat;
  ga_spread : forall d, In d ad -> spread P Xs lens lo hi d
}.

(** The coordinates [ad] of a point. *)
Definition proj (ad : dims) (x : nat -> R) (p : nat) : R := x (nth p ad 0%nat).

(** [l] describes an equispaced grid in the dimensions [ad]: [k + 4] points
    for [k] cells asked for, all inputs (and [lo], [hi]) strictly between the
    second and the second to last. *)
Definition encloses (P : nat) (Xs : list ndarr) (lens : list nat) (lo hi : grid_arg R) (m : grid_arg nat) (ad : dims)
  (l : list (nat * R * R)) : Prop :=
  length l = length ad /\
  forall p, (p < length ad)%nat ->
    let d := nth p ad 0%nat in
    let t := nth p l (0%nat, 0, 0) in
    let c := cells_for m lens d in
    (1 <= c)%nat /\ fst (fst t) = (c + 4)%nat /\ 0 < snd t /\
    (forall x, coord P Xs lens d x -> snd (fst t) + snd t < x < snd (fst t) + INR (c + 2) * snd t) /\
    (forall x, arg_at lo d = Some x -> snd (fst t) + snd t < x) /\
    (forall x, arg_at hi d = Some x -> x < snd (fst t) + INR (c + 2) * snd t).

(** The distances of the points of a grid to its first one. *)
Definition dists_of (l : list (nat * R * R)) : ndarr :=
  mk_arr (map (fun t => fst (fst t)) l)
    (tab (axes_points l) (fun t => euclid (length l) (grid_pt (axes_of l) t) (grid_pt (axes_of l) 0))).

(** The grid of a set of active dimensions; its distances and interpolation
    matrix, for [K_ski] and [K_op]. *)
Definition grid_at (g : dict ad_grid) (ad : dims) : ad_grid :=
  match dict_get g ad with Ok a => a | Err _ => mk_ag [] (mk_arr [] []) (csr_zero 0 0) (csr_zero 0 0) end.
Definition G_of (g : dict ad_grid) (ad : dims) : ndarr := ag_dists (grid_at g ad).
Definition W_of (g : dict ad_grid) (ad : dims) : sparse := sparse_of_csr (ag_W (grid_at g ad)).

(** Data an InterpolatedLLGP can be built from. *)
Record data_ok (f : fkernel) (P : nat) (Xs : list ndarr) (lens : list nat) (lo hi : grid_arg R) (m : grid_arg nat) : Prop := {
  da_P : f_P f = Some P;
  da_Pp : (0 < P)%nat;
  da_D : length lens = f_D f;
  da_in : inputs P Xs lens;
  da_pos : forall n, In n lens -> (1 <= n)%nat;
  da_args : forall ad, group f ad <> [] -> grid_args_ok P Xs lens lo hi m ad
}.

(** Every input is a point of the grid, in the dimensions of each group. *)
Definition on_grid (f : fkernel) (P : nat) (Xs : list ndarr) (lens : list nat) (g : dict ad_grid) : Prop :=
  forall ad i, group f ad <> [] -> (i < nsum lens)%nat ->
    exists k, (k < length (cart (ag_axes (grid_at g ad))))%nat /\
      forall p, (p < length ad)%nat -> proj ad (obs P Xs lens i) p = grid_pt (ag_axes (grid_at g ad)) k p.
