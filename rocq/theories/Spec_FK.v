(** Independent specifications for the functional kernel. *)

From Coq Require Import Reals List Arith ZArith Sorted Permutation.
From Verif Require Import Base NDArray Model_Util Model_Linalg Model_Kern Model_FK Spec_Kern.
Import ListNotations.
Open Scope R_scope.

(** Entry (a, b) of the coregionalization matrix [A^T A + diag kappa] of
    kernel [q]. *)
Definition B_of (f : fkernel) (q a b : nat) : R :=
  let A := nth q (f_vecs f) [] in
  Rsum (length A) (fun r => mget A r a * mget A r b)
  + (if Nat.eqb a b then vget (nth q (f_diags f) []) a else 0).

Definition kern_of (f : fkernel) (q : nat) : kern := fst (nth q (f_kernels f) (KIdentity, None)).
Definition dims_of (f : fkernel) (q : nat) : option dims := snd (nth q (f_kernels f) (KIdentity, None)).

Definition is_lmc (f : fkernel) (q : nat) : Prop := (q < f_nl f)%nat.
Definition is_slfm (f : fkernel) (q : nat) : Prop := (f_nl f <= q < f_nl f + f_ns f)%nat.
Definition is_indep (f : fkernel) (q : nat) : Prop := (f_nl f + f_ns f <= q < f_Q f)%nat.

(** Replacement of parameter values. *)
Definition set_values (f : fkernel) (ks : list kern) (vecs : list mx) (diags : list vec) (noise : vec) : fkernel :=
  mk_fk (f_D f) (combine ks (map snd (f_kernels f))) vecs diags noise (f_nl f) (f_ns f) (f_P f)
        (f_active f) (f_lmc f) (f_slfm f) (f_indep f).

(** A change of the parameters an optimiser may change: kernel parameters,
    coregionalization vectors of LMC and SLFM kernels, diagonals of LMC
    kernels and the noise, none of which changes shape. *)
Record update_ok (f : fkernel) (ks : list kern) (vecs : list mx) (diags : list vec) (noise : vec) : Prop := {
  u_ks : Forall2 same_class (map fst (f_kernels f)) ks;
  u_vecs : length vecs = length (f_vecs f);
  u_vec : forall q, (q < f_nl f + f_ns f)%nat ->
    is_mx (length (nth q (f_vecs f) [])) (f_D f) (nth q vecs []);
  u_vec_indep : forall q, (f_nl f + f_ns f <= q)%nat -> nth q vecs [] = nth q (f_vecs f) [];
  u_diags : length diags = length (f_diags f);
  u_diag : forall q, (q < f_nl f)%nat -> length (nth q diags []) = f_D f;
  u_diag_fixed : forall q, (f_nl f <= q)%nat -> nth q diags [] = nth q (f_diags f) [];
  u_noise : length noise = f_D f
}.

(** States of a FunctionalKernel: built, then any calls of [set_input_dim] and
    any parameter changes. *)
Inductive reach : fkernel -> Prop :=
| reach_init rand D lmc ranks slfm indep index f :
    fk_init rand D lmc ranks slfm indep index = Ok f -> reach f
| reach_dim f P f' : reach f -> set_input_dim f P = Ok f' -> reach f'
| reach_update f ks vecs diags noise :
    reach f -> update_ok f ks vecs diags noise -> reach (set_values f ks vecs diags noise).

(** The documented requirements of the constructor. *)
Definition ranks_ok (lmc : list (kern * option dims)) (ranks : list Z) : Prop :=
  length lmc = length ranks /\ forall r, In r ranks -> (0 < r)%Z.

Definition given {A} (o : option (list A)) : list A := match o with Some l => l | None => [] end.

(** Indices of the kernels with active dimensions [ad]. *)
Definition group (f : fkernel) (ad : dims) : list nat :=
  filter (fun q => match dims_of f q with Some a => if list_eq_dec Nat.eq_dec a ad then true else false
                                        | None => false end) (seq 0 (f_Q f)).

(** The output of each independent GP: as given, or by default the i-th. *)
Definition indep_index (index : option (list Z)) (ni : nat) : list Z :=
  match index with None | Some [] => map Z.of_nat (seq 0 ni) | Some l => l end.

(** The documented coregionalization matrix of kernel [q] after construction:
    [A] are the random initial values. *)
Definition B_doc (A : nat -> nat -> nat -> R) (D : nat) (ranks : list Z) (nl ns : nat) (idx : list Z) (q a b : nat) : R :=
  if Nat.ltb q nl then
    Rsum (Z.to_nat (nth q ranks 0%Z)) (fun r => A q r a * A q r b) + (if Nat.eqb a b then 1 else 0)
  else if Nat.ltb q (nl + ns) then A q 0%nat a * A q 0%nat b
  else
    let d := nth (q - (nl + ns)) idx 0%Z in
    let d := Z.to_nat (if Z.ltb d 0 then d + Z.of_nat D else d)%Z in
    (if Nat.eqb a d then 1 else 0) * (if Nat.eqb b d then 1 else 0).

(** What may happen to an object after it is in state [f]. *)
Inductive clos (f : fkernel) : fkernel -> Prop :=
| clos_refl : clos f f
| clos_dim g P g' : clos f g -> set_input_dim g P = Ok g' -> clos f g'
| clos_update g ks vecs diags noise :
    clos f g -> update_ok g ks vecs diags noise -> clos f (set_values g ks vecs diags noise).
