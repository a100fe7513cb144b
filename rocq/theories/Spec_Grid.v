(** Independent specifications for the grid kernels. *)

From Coq Require Import Reals List Arith ZArith.
From Verif Require Import Base NDArray Model_Util Model_Linalg Spec_Linalg Spec_Util Spec_Interp Model_Kern Model_FK Spec_Kern Spec_FK.
Import ListNotations.
Open Scope R_scope.

(** Kernel matrix of kernel [q] on a grid with distances [dists] to its first
    point. *)
Definition K_grid (f : fkernel) (dists : ndarr) (q i j : nat) : R :=
  bttb_entry (map (k_doc (kern_of f q)) (a_data dists)) (a_shape dists) i j.

(** [sum_q B_q (x) K_q] over the kernels of a group, for a grid of [m] points. *)
Definition K_UU (f : fkernel) (dists : ndarr) (ad : dims) : den :=
  let m := nprod (a_shape dists) in
  mk_den (f_D f * m) (f_D f * m) (fun i j =>
    lsum (map (fun q => B_of f q (i / m)%nat (j / m)%nat * K_grid f dists q (i mod m)%nat (j mod m)%nat) (group f ad))).

(** Kernels whose parameters are in their documented range (and not so small a
    period that from_dist gives up, see C31). *)
Definition kernels_ok (f : fkernel) : Prop :=
  forall q, (q < f_Q f)%nat -> positive (kern_of f q) /\ no_tiny_period (kern_of f q).

(** Distances on a non-empty grid of at least one axis. *)
Definition dists_ok (d : ndarr) : Prop :=
  a_shape d <> [] /\ (0 < nprod (a_shape d))%nat /\ length (a_data d) = nprod (a_shape d).

(** A group contains an LMC or SLFM kernel; a group contains an LMC or
    independent kernel. *)
Definition has_coreg (f : fkernel) (ad : dims) : Prop := exists q, In q (group f ad) /\ (is_lmc f q \/ is_slfm f q).
Definition has_diag (f : fkernel) (ad : dims) : Prop := exists q, In q (group f ad) /\ (is_lmc f q \/ is_indep f q).

(** [W A W^T] for a sparse [W]. *)
Definition W_den (W : sparse) : den := mk_den (sp_r W) (sp_c W) (sp_get W).
Definition ski_den (W : sparse) (A : den) : den := d_mul (W_den W) (d_mul A (d_T (W_den W))).

(** [W] ([n] rows, [c] columns) and its transpose. *)
Record interp_ok (n c : nat) (W WT : sparse) : Prop := {
  io_r : sp_r W = n;
  io_c : sp_c W = c;
  io_rT : sp_r WT = c;
  io_cT : sp_c WT = n;
  io_T : forall i j, sp_get WT i j = sp_get W j i
}.

(** Number of latent processes of a group, counting an LMC kernel of rank r r
    times and independent kernels not at all. *)
Definition coreg_rank (f : fkernel) (ad : dims) : nat :=
  nsum (map (fun q => if Nat.ltb q (f_nl f + f_ns f) then length (nth q (f_vecs f) []) else 0%nat) (group f ad)).

(** The groups for which a spurious identity matrix enters. *)
Definition surplus (f : fkernel) (ad : dims) : Prop :=
  f_Q f <> 1%nat /\
  ((~ has_coreg f ad /\ (2 <= f_D f)%nat) \/
   (~ has_diag f ad /\ (coreg_rank f ad < f_D f * f_D f)%nat)).

(** The output that observation [i] belongs to, with [lens] observations per
    output, and its position among them. *)
Fixpoint owner (lens : list nat) (i : nat) : nat :=
  match lens with [] => 0 | n :: l => if Nat.ltb i n then 0 else S (owner l (i - n)) end.
Fixpoint place (lens : list nat) (i : nat) : nat :=
  match lens with [] => i | n :: l => if Nat.ltb i n then i else place l (i - n) end.

(** The noise of each observation. *)
Definition noise_den (f : fkernel) (lens : list nat) : den :=
  mk_den (nsum lens) (nsum lens) (fun i j => if Nat.eqb i j then vget (f_noise f) (owner lens i) else 0).

(** Axes of a grid, each given by its number of points, first point and
    spacing; coordinate [p] of the [i]-th point of the grid, the last axis
    varying fastest. *)
Definition axes_of (l : list (nat * R * R)) : list vec :=
  map (fun x => equispaced (fst (fst x)) (snd (fst x)) (snd x)) l.
Definition axes_points (l : list (nat * R * R)) : nat := nprod (map (fun x => fst (fst x)) l).
Definition grid_pt (axes : list vec) (i p : nat) : R := nth p (nth i (cart axes) []) 0.
