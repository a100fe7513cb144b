(** Vocabulary for the pictures (C98). *)

From Coq Require Import Reals List Arith String.
From Verif Require Import Base NDArray Model_Linalg Model_Util Model_Kern Model_FK Spec_FK Model_Grid Model_Lik Spec_Lik Model_GP Spec_GP Spec_Pred Model_Bench Model_Pics.
Import ListNotations.
Open Scope R_scope.

(** One point [x] for output [d] of [D], nothing for the others. *)
Definition ask (D d : nat) (x : R) : list ndarr := tab D (fun a => if Nat.eqb a d then mk_arr [1%nat] [x] else mk_arr [0%nat] []).

(** The model predicts mean [m] and variance [v] for output [d] at [x]. *)
Definition predicts (solve : Mat -> vec -> result vec) (g : gp) (k : gp_kernel) (D d : nat) (x m v : R) : Prop :=
  exists mu var, gp_predict solve g k (ask D d x) = Ok (mu, var) /\ nth d mu [] = [m] /\ nth d var [] = [v] /\ 0 <= v.

(** The panel shows, for output [d] and each of [xs] in turn, the predicted mean
    and the interval of two standard deviations around it. *)
Definition shows_model (solve : Mat -> vec -> result vec) (g : gp) (k : gp_kernel) (D d : nat) (xs : vec) (p : panel) : Prop :=
  exists m v : R -> R, (forall x, In x xs -> predicts solve g k D d x (m x) (v x)) /\
    pn_mean p = map (fun x => (x, m x)) xs /\ pn_band p = map (fun x => (x, Some (m x - 2 * sqrt (v x)), Some (m x + 2 * sqrt (v x)))) xs.

(** The same of the results of COGP, [mu] and [var], one for each of [xs]. *)
Definition shows_results (xs mu var : vec) (p : panel) : Prop :=
  pn_cogp p = combine xs mu /\
  pn_cogp_band p = tab (List.length xs) (fun i => (vget xs i,
    (if Rle_dec 0 (vget var i) then Some (vget mu i - 2 * sqrt (vget var i)) else None),
    (if Rle_dec 0 (vget var i) then Some (vget mu i + 2 * sqrt (vget var i)) else None))).

(** A fitted model in one dimension with [D] outputs, ready for precomputed
    variances. *)
Record drawable (solve : Mat -> vec -> result vec) (g : gp) (k : gp_kernel) (D : nat) : Prop := {
  dr_ready : exists lo hi m, gp_ready g lo hi m;
  dr_fit : exists bits n_it, fitted solve bits n_it g k;
  dr_solve : returns (n_obs g) (solve (al_K (gpk_lik k)));
  dr_id : no_identity (gp_f g);
  dr_P : mg_P (gp_data g) = 1%nat;
  dr_dims : forall q, (q < f_Q (gp_f g))%nat -> qdims (gp_f g) q = [0%nat];
  dr_D : f_D (gp_f g) = D
}.

(** Columns: distinct names, one entry of each list for each, those to be shown
    among them; the same of COGP's results. *)
Record columns {A B C} (test_fx cols names : list string) (xss : list A) (yss : list vec) (test_xss : list B) (test_yss : list (list C)) (cmu cvar : list vec) : Prop := {
  cl_nodup : NoDup cols;
  cl_in : forall c, In c test_fx -> In c cols;
  cl_x : List.length xss = List.length cols;
  cl_y : List.length yss = List.length cols;
  cl_tx : List.length test_xss = List.length cols;
  cl_ty : List.length test_yss = List.length cols;
  cl_names : NoDup names;
  cl_cogp : forall c, In c test_fx -> In c names;
  cl_mu : List.length cmu = List.length names;
  cl_var : List.length cvar = List.length names
}.

(** Column [d] of the data and column [e] of the results have the name [c]. *)
Definition named (cols names : list string) (c : string) (d e : nat) : Prop := nth_error cols d = Some c /\ nth_error names e = Some c.

(** Between 10 and 15, the days of the pictures of temperatures. *)
Definition in_picture (x : R) : bool := if Rlt_dec x 10 then false else if Rlt_dec 15 x then false else true.
