(** Independent specifications for the likelihoods. *)

From Coq Require Import Reals List Arith ZArith.
From Coquelicot Require Import Coquelicot.
From Verif Require Import Base NDArray PSD Det Model_Util Model_Linalg Spec_Linalg Model_Kern Model_FK Spec_Kern Spec_FK Spec_Grid.
Import ListNotations.
Open Scope R_scope.

(** Inputs: for each output, an array of [n] points with [P] coordinates. *)
Definition inputs (P : nat) (Xs : list ndarr) (lens : list nat) : Prop :=
  Forall2 (fun X n => a_shape X = [n; P] /\ length (a_data X) = (n * P)%nat) Xs lens.

(** Coordinate [p] of the [i]-th input of output [a]. *)
Definition point (P : nat) (Xs : list ndarr) (a i p : nat) : R :=
  vget (a_data (nth a Xs (mk_arr [] []))) (i * P + p).

(** Euclidean distance in the coordinates [ad]. *)
Definition dist_on (ad : dims) (x z : nat -> R) : R :=
  sqrt (lsum (map (fun p => (x p - z p) ^ 2) ad)).

Definition qdims (f : fkernel) (q : nat) : dims := match dims_of f q with Some ad => ad | None => [] end.

Definition dims_in_range (f : fkernel) (P : nat) : Prop :=
  forall q p, (q < f_Q f)%nat -> In p (qdims f q) -> (p < P)%nat.

(** The covariance of output [a] at [x] and output [b] at [z] under the linear
    model of coregionalization, without noise. *)
Definition lmc_cov (f : fkernel) (a : nat) (x : nat -> R) (b : nat) (z : nat -> R) : R :=
  Rsum (f_Q f) (fun q => B_of f q a b * k_doc (kern_of f q) (dist_on (qdims f q) x z)).

(** An array of shape (n, m) with entries [F]. *)
Definition dense (n m : nat) (a : ndarr) (F : nat -> nat -> R) : Prop :=
  a_shape a = [n; m] /\ length (a_data a) = (n * m)%nat /\
  forall i j, (i < n)%nat -> (j < m)%nat -> vget (a_data a) (i * m + j) = F i j.

(** Stacked observations: [i]-th input over all outputs. *)
Definition obs (P : nat) (Xs : list ndarr) (lens : list nat) (i p : nat) : R :=
  point P Xs (owner lens i) (place lens i) p.

(** The covariance of the stacked observations, with noise. *)
Definition K_obs (f : fkernel) (P : nat) (Xs : list ndarr) (lens : list nat) (i j : nat) : R :=
  lmc_cov f (owner lens i) (obs P Xs lens i) (owner lens j) (obs P Xs lens j)
  + (if Nat.eqb i j then vget (f_noise f) (owner lens i) else 0).

(** [v] is the log density at [y] of the normal distribution with mean 0 and
    covariance [K]. *)
Definition log_density (n : nat) (K : nat -> nat -> R) (y : nat -> R) (v : R) : Prop :=
  0 < det n K /\
  exists a, (forall i, (i < n)%nat -> Rsum n (fun j => K i j * a j) = y i) /\
    v = - (1 / 2) * (ln (det n K) + Rsum n (fun i => y i * a i) + INR n * ln (2 * PI)).

(** Positive definiteness. *)
Definition pos_definite (n : nat) (F : nat -> nat -> R) : Prop :=
  forall x, (exists i, (i < n)%nat /\ x i <> 0) -> 0 < Rsum n (fun i => Rsum n (fun j => x i * F i j * x j)).

(** [g] is the derivative at [t] of the log density of [y] under the
    covariance [K s]. *)
Definition is_gradient (n : nat) (K : R -> nat -> nat -> R) (y : nat -> R) (t g : R) : Prop :=
  exists L, locally t (fun s => log_density n (K s) y (L s)) /\ is_derive L t g.

(** A FunctionalKernel with one parameter changed. *)
Definition upd {A} (l : list A) (k : nat) (v : A) : list A :=
  map (fun p => if Nat.eqb (fst p) k then v else snd p) (combine (seq 0 (length l)) l).
Definition with_vec (f : fkernel) (q r d : nat) (v : R) : fkernel :=
  mk_fk (f_D f) (f_kernels f)
        (upd (f_vecs f) q (upd (nth q (f_vecs f) []) r (upd (nth r (nth q (f_vecs f) []) []) d v)))
        (f_diags f) (f_noise f) (f_nl f) (f_ns f) (f_P f) (f_active f) (f_lmc f) (f_slfm f) (f_indep f).
Definition with_diag (f : fkernel) (q d : nat) (v : R) : fkernel :=
  mk_fk (f_D f) (f_kernels f) (f_vecs f) (upd (f_diags f) q (upd (nth q (f_diags f) []) d v))
        (f_noise f) (f_nl f) (f_ns f) (f_P f) (f_active f) (f_lmc f) (f_slfm f) (f_indep f).
Definition with_kparam (f : fkernel) (q j : nat) (v : R) : fkernel :=
  mk_fk (f_D f) (upd (f_kernels f) q (with_param (kern_of f q) j v, dims_of f q)) (f_vecs f) (f_diags f)
        (f_noise f) (f_nl f) (f_ns f) (f_P f) (f_active f) (f_lmc f) (f_slfm f) (f_indep f).
Definition with_noise (f : fkernel) (d : nat) (v : R) : fkernel :=
  mk_fk (f_D f) (f_kernels f) (f_vecs f) (f_diags f) (upd (f_noise f) d v)
        (f_nl f) (f_ns f) (f_P f) (f_active f) (f_lmc f) (f_slfm f) (f_indep f).

(** ** Random signs *)

(** All arrays of [k] rows of [n] bits. *)
Fixpoint all_bits (n : nat) : list (list bool) :=
  match n with O => [[]] | S n => map (cons true) (all_bits n) ++ map (cons false) (all_bits n) end.
Fixpoint draws (k n : nat) : list (list (list bool)) :=
  match k with O => [[]] | S k => flat_map (fun r => map (cons r) (draws k n)) (all_bits n) end.

(** The mean of [g] over a list of equally likely draws. *)
Definition mean {A} (l : list A) (g : A -> R) : R := lsum (map g l) / INR (length l).

(** [solve] inverts [K]. *)
Definition solves_exactly (n : nat) (K : nat -> nat -> R) (solve : vec -> result vec) : Prop :=
  forall b, length b = n -> exists x, solve b = Ok x /\ length x = n /\
    forall i, (i < n)%nat -> Rsum n (fun j => K i j * vget x j) = vget b i.

(** ** The SKI covariance *)

(** [W (A (x) K) W^T], [A] of [D] rows and [K] of [m] rows. *)
Definition ski_entry (W : sparse) (D m : nat) (A K : nat -> nat -> R) (i j : nat) : R :=
  Rsum (D * m) (fun u => Rsum (D * m) (fun v =>
    sp_get W i u * (A (u / m)%nat (v / m)%nat * K (u mod m)%nat (v mod m)%nat) * sp_get W j v)).

(** The covariance of the observations under structured kernel interpolation:
    grid distances [G] and interpolation matrices [W] for each set of active
    dimensions. *)
Definition K_ski (f : fkernel) (G : dims -> ndarr) (W : dims -> sparse) (lens : list nat) (i j : nat) : R :=
  Rsum (f_Q f) (fun q => ski_entry (W (qdims f q)) (f_D f) (nprod (a_shape (G (qdims f q)))) (B_of f q) (K_grid f (G (qdims f q)) q) i j)
  + (if Nat.eqb i j then vget (f_noise f) (owner lens i) else 0).

(** [surplus], decided. *)
Definition surplus_b (f : fkernel) (ad : dims) : bool :=
  (negb (Nat.eqb (f_Q f) 1) &&
  ((negb (existsb (fun q => Nat.ltb q (f_nl f + f_ns f)) (group f ad)) && Nat.leb 2 (f_D f)) ||
   (negb (existsb (fun q => orb (Nat.ltb q (f_nl f)) (Nat.leb (f_nl f + f_ns f) q)) (group f ad)) &&
    Nat.ltb (coreg_rank f ad) (f_D f * f_D f))))%bool.

(** The superfluous terms, [W W^T] for each group in the case of C23_selection,
    and the covariance that gen_grid_kernel multiplies by. *)
Definition spurious (f : fkernel) (G : dims -> ndarr) (W : dims -> sparse) (i j : nat) : R :=
  lsum (map (fun ad => if surplus_b f ad
                       then Rsum (f_D f * nprod (a_shape (G ad))) (fun u => sp_get (W ad) i u * sp_get (W ad) j u)
                       else 0) (map fst (f_active f))).
Definition K_op (f : fkernel) (G : dims -> ndarr) (W : dims -> sparse) (lens : list nat) (i j : nat) : R :=
  K_ski f G W lens i j + spurious f G W i j.
