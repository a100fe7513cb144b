(** Independent specifications for the accuracy of approximate solves. *)

From Coq Require Import Reals List Arith.
From Verif Require Import Base NDArray Model_Util Spec_Util Model_Linalg Model_Kern Spec_Kern Model_FK Spec_FK Model_Lik Spec_Lik Spec_Opt.
Import ListNotations.
Open Scope R_scope.

(** Euclidean length of a vector. *)
Definition norm2 (n : nat) (v : nat -> R) : R := sqrt (Rsum n (fun i => v i ^ 2)).

(** Every solve succeeds and leaves a residual of at most [eps]. *)
Definition solves_within (eps : R) (n : nat) (K : nat -> nat -> R) (solve : vec -> result vec) : Prop :=
  forall b, length b = n -> exists x, solve b = Ok x /\ length x = n /\ gap n K b x <= eps.

(** [F] maps vectors of length one to vectors of length at most [M]. *)
Definition op_bound (n : nat) (F : nat -> nat -> R) (M : R) : Prop :=
  0 <= M /\ forall v, norm2 n (fun i => Rsum n (fun j => F i j * v j)) <= M * norm2 n v.

(** The scalar parameters of a FunctionalKernel: an entry of a coregionalisation
    vector or diagonal, a parameter of a kernel, a noise. *)
Inductive par := PVec (q r d : nat) | PDiag (q d : nat) | PKern (q j : nat) | PNoise (d : nat).

Definition has_par (f : fkernel) (p : par) : Prop :=
  match p with
  | PVec q r d => (q < f_Q f)%nat /\ (r < length (nth q (f_vecs f) []))%nat /\ (d < f_D f)%nat
  | PDiag q d => (q < f_Q f)%nat /\ (d < f_D f)%nat
  | PKern q j => (q < f_Q f)%nat /\ (j < length (params (kern_of f q)))%nat
  | PNoise d => (d < f_D f)%nat
  end.

Definition par_value (f : fkernel) (p : par) : R :=
  match p with
  | PVec q r d => mget (nth q (f_vecs f) []) r d
  | PDiag q d => vget (nth q (f_diags f) []) d
  | PKern q j => nth j (params (kern_of f q)) 0
  | PNoise d => vget (f_noise f) d
  end.

Definition with_par (f : fkernel) (p : par) (v : R) : fkernel :=
  match p with
  | PVec q r d => with_vec f q r d v
  | PDiag q d => with_diag f q d v
  | PKern q j => with_kparam f q j v
  | PNoise d => with_noise f d v
  end.

(** The gradient assigned to a parameter. *)
Definition slot (s : grad_slots) (p : par) : R :=
  match p with
  | PVec q r d => mget (nth q (s_vecs s) []) r d
  | PDiag q d => vget (nth q (s_diags s) []) d
  | PKern q j => nth j (params (nth q (s_kernels s) KIdentity)) 0
  | PNoise d => vget (s_noise s) d
  end.
