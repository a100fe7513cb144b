(** Independent specifications for prediction with an InterpolatedLLGP. *)

From Coq Require Import Reals List Arith ZArith.
From Verif Require Import Base NDArray Model_Util Spec_Util Model_Linalg Spec_Linalg Proofs_Linalg Model_Interp Spec_Interp Model_Kern Model_FK Spec_Kern Spec_FK
  Model_Grid Spec_Grid Model_Lik Spec_Lik Spec_GP Model_GP.
Import ListNotations.
Open Scope R_scope.

(** A kernel that is the Identity kernel, possibly scaled. *)
Fixpoint identity_based (k : kern) : bool :=
  match k with KIdentity => true | Scaled k _ => identity_based k | _ => false end.

(** The prior variance of a noisy observation of output [a]. *)
Definition prior_var (f : fkernel) (a : nat) : R :=
  vget (f_noise f) a + Rsum (f_Q f) (fun q => B_of f q a a * k_doc (kern_of f q) 0).

(** A fitted model on data it can be built from. *)
Record gp_ready (g : gp) (lo hi : grid_arg R) (m : grid_arg nat) : Prop := {
  gr_reach : reach (gp_f g);
  gr_kern : kernels_ok (gp_f g);
  gr_data : data_ok (gp_f g) (mg_P (gp_data g)) (mg_Xs (gp_data g)) (map (@length R) (mg_Ys (gp_data g))) lo hi m;
  gr_grids : generate_grids (gp_f g) (mg_Xs (gp_data g)) lo hi m = Ok (gp_grids g);
  gr_D : mg_D (gp_data g) = f_D (gp_f g);
  gr_norm : forall l, mg_norm (gp_data g) = Some l -> length l = f_D (gp_f g)
}.

(** Number of points of the grid for the dimensions [ad]. *)
Definition pts (g : gp) (ad : dims) : nat := nprod (a_shape (G_of (gp_grids g) ad)).

(** The covariance under structured kernel interpolation of output [a] at [x]
    and output [b] at [z], where [w ad x u] is the weight of grid point [u] in
    interpolating at [x]. *)
Definition ski_cov (g : gp) (w : dims -> (nat -> R) -> nat -> R) (a : nat) (x : nat -> R) (b : nat) (z : nat -> R) : R :=
  let f := gp_f g in
  Rsum (f_Q f) (fun q => B_of f q a b *
    Rsum (pts g (qdims f q)) (fun u => Rsum (pts g (qdims f q)) (fun v =>
      w (qdims f q) x u * K_grid f (G_of (gp_grids g) (qdims f q)) q u v * w (qdims f q) z v))).

(** What the superfluous identities of C23_selection add to it. *)
Definition ski_extra (g : gp) (w : dims -> (nat -> R) -> nat -> R) (a : nat) (x : nat -> R) (b : nat) (z : nat -> R) : R :=
  if Nat.eqb a b then
    lsum (map (fun ad => if surplus_b (gp_f g) ad then Rsum (pts g ad) (fun u => w ad x u * w ad z u) else 0)
              (map fst (f_active (gp_f g))))
  else 0.

(** [w] are the interpolation weights of a model: those in the interpolation
    matrices of the observations, a function of the active coordinates only,
    summing to one, exact at the grid points and, except in the outermost cells,
    those of cubic convolution. *)
Record weights (g : gp) (w : dims -> (nat -> R) -> nat -> R) : Prop := {
  we_obs : forall ad i u, group (gp_f g) ad <> [] ->
    let d := gp_data g in let lens := map (@length R) (mg_Ys d) in
    (i < nsum lens)%nat -> (u < f_D (gp_f g) * pts g ad)%nat ->
    sp_get (W_of (gp_grids g) ad) i u =
      if Nat.eqb (u / pts g ad) (owner lens i) then w ad (obs (mg_P d) (mg_Xs d) lens i) (u mod pts g ad) else 0;
  we_ext : forall ad x z u, group (gp_f g) ad <> [] -> (forall p, In p ad -> x p = z p) -> w ad x u = w ad z u;
  we_sum : forall ad x, group (gp_f g) ad <> [] -> Rsum (pts g ad) (w ad x) = 1;
  we_node : forall ad x u k, group (gp_f g) ad <> [] -> (u < pts g ad)%nat -> (k < pts g ad)%nat ->
    (forall p, (p < length ad)%nat -> x (nth p ad 0%nat) = grid_pt (ag_axes (grid_at (gp_grids g) ad)) k p) ->
    w ad x u = if Nat.eqb u k then 1 else 0;
  we_cubic : forall ad x u, group (gp_f g) ad <> [] -> (u < pts g ad)%nat ->
    let axes := ag_axes (grid_at (gp_grids g) ad) in
    (forall p, (p < length ad)%nat ->
       vget (nth p axes []) 1 <= x (nth p ad 0%nat) < vget (nth p axes []) (length (nth p axes []) - 2)) ->
    w ad x u = fold_right Rmult 1 (tab (length ad) (fun p =>
      keys_cubic ((x (nth p ad 0%nat) - grid_pt axes u p) / (vget (nth p axes []) 1 - vget (nth p axes []) 0))))
}.

(** Requested points: for each output, [n] points with [P] coordinates, as a
    2-D array or, with one coordinate, a 1-D array. *)
Definition requests (P : nat) (Zs : list ndarr) (zl : list nat) : Prop :=
  Forall2 (fun Z n => (a_shape Z = [n; P] \/ (a_shape Z = [n] /\ P = 1%nat)) /\ length (a_data Z) = (n * P)%nat) Zs zl.

(** Undoing the normalisation of output [a]. *)
Definition unnorm_mean (g : gp) (a : nat) (v : R) : R :=
  match mg_norm (gp_data g) with
  | Some l => v * n_std (nth a l (mk_norm 0 1)) + n_mean (nth a l (mk_norm 0 1))
  | None => v
  end.
Definition unnorm_var (g : gp) (a : nat) (v : R) : R :=
  match mg_norm (gp_data g) with Some l => v * n_std (nth a l (mk_norm 0 1)) ^ 2 | None => v end.

Definition no_identity (f : fkernel) : Prop := forall q, (q < f_Q f)%nat -> identity_based (kern_of f q) = false.

Definition n_obs (g : gp) : nat := nsum (map (@length R) (mg_Ys (gp_data g))).

(** The prediction mode of [g] can be used. *)
Definition mode_ready (g : gp) : Prop :=
  match gp_mode g with
  | OnTheFly => True
  | Precompute => forall q, (q < f_Q (gp_f g))%nat -> qdims (gp_f g) q = seq 0 (mg_P (gp_data g))
  | Exact => pos_definite (n_obs g)
      (K_obs (gp_f g) (mg_P (gp_data g)) (mg_Xs (gp_data g)) (map (@length R) (mg_Ys (gp_data g))))
  end.

(** The solver returns vectors of the right length. *)
Definition returns (n : nat) (solve : vec -> result vec) : Prop :=
  forall b, length b = n -> exists x, solve b = Ok x /\ length x = n.

(** [x] lies on the grids of [g], in the dimensions of each group. *)
Definition pt_on_grid (g : gp) (x : nat -> R) : Prop :=
  forall ad, group (gp_f g) ad <> [] -> exists k, (k < pts g ad)%nat /\
    forall p, (p < length ad)%nat -> x (nth p ad 0%nat) = grid_pt (ag_axes (grid_at (gp_grids g) ad)) k p.

(** ** Data *)

(** An input array of [c] points, 1-D or 2-D; its number of coordinates. *)
Definition width (X : ndarr) : nat := match a_shape X with [_; p] => p | _ => 1 end.
Definition pair_valid (X Y : ndarr) : Prop :=
  exists c, (a_shape X = [c] \/ exists p, a_shape X = [c; p]) /\ a_shape Y = [c].

(** The documented requirements on the data. *)
Definition valid_data (Xs Ys : list ndarr) : Prop :=
  Xs <> [] /\ Forall2 pair_valid Xs Ys /\
  (exists P, forall X, In X Xs -> width X = P) /\
  forall Y, In Y Ys -> a_data Y = [] \/ exists x y, In x (a_data Y) /\ In y (a_data Y) /\ x <> y.

(** ** Models with a positive definite covariance *)
Record proper (f : fkernel) : Prop := {
  pr_per : forall q, (q < f_Q f)%nat -> has_periodic (kern_of f q) = true -> length (qdims f q) = 1%nat;
  pr_diag : forall q a, (q < f_Q f)%nat -> (a < f_D f)%nat -> 0 <= vget (nth q (f_diags f) []) a;
  pr_noise : forall a, (a < f_D f)%nat -> 0 < vget (f_noise f) a
}.

(** The covariance the fitted model works with. *)
Definition K_fit (g : gp) : nat -> nat -> R :=
  K_op (gp_f g) (G_of (gp_grids g)) (W_of (gp_grids g)) (map (@length R) (mg_Ys (gp_data g))).

(** [solve] inverts every matrix that multiplies by [K]. *)
Definition exact_solver (n : nat) (K : nat -> nat -> R) (solve : Mat -> vec -> result vec) : Prop :=
  forall Ko, represents Ko (mk_den n n K) -> solves_exactly n K (solve Ko).

(** The model with other parameter values; its grids stay. *)
Definition with_params (g : gp) (f : fkernel) : gp := mk_gp (gp_data g) f (gp_grids g) (gp_mode g).

(** The observations. *)
Definition y_obs (g : gp) : nat -> R := vget (concat (mg_Ys (gp_data g))).

(** [k] is what parameters_changed computed for [g]. *)
Definition fitted (solve : Mat -> vec -> result vec) (bits : list (list bool)) (n_it : nat) (g : gp) (k : gp_kernel) : Prop :=
  exists old s, parameters_changed solve bits n_it g old = Ok (k, s).
