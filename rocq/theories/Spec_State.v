(** Independent specifications for histories of InterpolatedLLGP objects. *)

From Coq Require Import Reals List Arith ZArith.
From Verif Require Import Base NDArray Model_Util Model_Linalg Model_Interp Model_Kern Model_FK Spec_FK Spec_Grid Model_Grid Model_Lik Spec_Lik Model_GP Spec_Pred Model_State.
Import ListNotations.
Open Scope R_scope.

(** The objects built in a history, in order of construction, each with its
    current parameter values and mode of prediction. *)
Definition with_mode (g : gp) (md : mode) : gp := mk_gp (gp_data g) (gp_f g) (gp_grids g) md.
Fixpoint models (h : list event) : list gp :=
  match h with
  | [] => []
  | e :: h' =>
    match e with
    | New Xs Ys nrm lo hi m pred fk _ _ _ =>
      match gp_init Xs Ys nrm lo hi m pred fk with Ok g => models h' ++ [g] | Err _ => models h' end
    | Update i f _ => on_nth i (fun g => with_params g f) (models h')
    | Rescale i q s => on_nth i (fun g => with_params g (rescale q s (gp_f g))) (models h')
    | Switch i md => on_nth i (fun g => with_mode g md) (models h')
    | _ => models h'
    end
  end.

(** Event [e], after [h], builds object [i]. *)
Definition builds (h : list event) (e : event) (i : nat) : Prop :=
  match e with
  | New Xs Ys nrm lo hi m pred fk _ _ _ => i = length (models h) /\ exists g, gp_init Xs Ys nrm lo hi m pred fk = Ok g
  | _ => False
  end.
(** Event [e] changes linked parameters of object [i]. *)
Definition updates (e : event) (i : nat) : Prop := match e with Update j _ _ => j = i | _ => False end.

Section Histories.
  Variable solve : Mat -> vec -> result vec.
  Variable info : Mat -> vec -> R * R.
  Variable n_it : nat.
  Variable debug : bool.
  Variable ppf : R -> R.

  (** Object [i] was built and its latest construction or parameter update
      returned (did not raise). *)
  Inductive settled : list event -> nat -> Prop :=
  | settled_now h e i : builds h e i \/ updates e i -> (exists r, answer solve info n_it debug ppf h e = Ok r) -> settled (e :: h) i
  | settled_before h e i : ~ builds h e i -> ~ updates e i -> settled h i -> settled (e :: h) i.

  (** No parameter that is not linked was assigned to. *)
  Definition linked_only (h : list event) : Prop := forall i q s, ~ In (Rescale i q s) h.

  (** Object [i] exists and the number of its parameter updates (the one
      upon construction included) since the latest [optimize] on it is [n];
      none of them raised. *)
  Inductive updated : list event -> nat -> nat -> Prop :=
  | upd_new h e i : builds h e i -> (exists r, answer solve info n_it debug ppf h e = Ok r) -> updated (e :: h) i 1
  | upd_update h e i n : updates e i -> (exists r, answer solve info n_it debug ppf h e = Ok r) -> updated h i n -> updated (e :: h) i (S n)
  | upd_begin h i n : updated h i n -> updated (Begin i :: h) i 0
  | upd_other h e i n : ~ builds h e i -> ~ updates e i -> e <> Begin i -> updated h i n -> updated (e :: h) i n.
End Histories.

(** The metrics object that the attribute [metrics] of object [i] refers to. *)
Definition metrics_of (w : world) (i : nat) : option metrics :=
  match w_inst w i with Some o => option_map (w_heap w) (in_metrics o) | None => None end.

(** The model was built with metrics. *)
Fixpoint has_metrics (h : list event) (i : nat) : bool :=
  match h with
  | [] => false
  | New Xs Ys nrm lo hi m pred fk wm _ _ :: h' =>
    match gp_init Xs Ys nrm lo hi m pred fk with
    | Ok _ => if Nat.eqb i (length (models h')) then wm else has_metrics h' i
    | Err _ => has_metrics h' i
    end
  | _ :: h' => has_metrics h' i
  end.

(** Number of parameter updates of object [i] since the latest [optimize] on
    it, the one upon construction included. *)
Fixpoint updates_since (h : list event) (i : nat) : nat :=
  match h with
  | [] => 0
  | New Xs Ys nrm lo hi m pred fk _ _ _ :: h' =>
    match gp_init Xs Ys nrm lo hi m pred fk with
    | Ok _ => if Nat.eqb i (length (models h')) then 1 else updates_since h' i
    | Err _ => updates_since h' i
    end
  | Update j _ _ :: h' => if Nat.eqb i j then S (updates_since h' i) else updates_since h' i
  | Begin j :: h' => if Nat.eqb i j then 0 else updates_since h' i
  | _ :: h' => updates_since h' i
  end.

(** One gradient slot per parameter. *)
Definition slots_fit (s : grad_slots) (f : fkernel) : Prop :=
  length (s_vecs s) = f_Q f /\ length (s_diags s) = f_Q f /\ length (s_kernels s) = f_Q f.

(** Objects are built from valid data with positive noise and periodic kernels
    on single dimensions; updates keep the shapes of parameters and these
    conditions; linear systems are solved exactly. *)
Definition sound_event (solve : Mat -> vec -> result vec) (n_it : nat) (h : list event) (e : event) : Prop :=
  match e with
  | New Xs Ys nrm lo hi m pred fk _ slots bits =>
    forall g, gp_init Xs Ys nrm lo hi m pred fk = Ok g ->
      gp_ready g lo hi m /\ proper (gp_f g) /\ slots_fit slots (gp_f g) /\
      In bits (draws n_it (n_obs g)) /\ exact_solver (n_obs g) (K_fit g) solve
  | Update i f bits =>
    forall g, nth_error (models h) i = Some g ->
      (exists ks vecs diags noise, update_ok (gp_f g) ks vecs diags noise /\ f = set_values (gp_f g) ks vecs diags noise) /\
      kernels_ok f /\ proper f /\ In bits (draws n_it (n_obs g)) /\ exact_solver (n_obs g) (K_fit (with_params g f)) solve
  | _ => True
  end.
Fixpoint sound (solve : Mat -> vec -> result vec) (n_it : nat) (h : list event) : Prop :=
  match h with [] => True | e :: h' => sound_event solve n_it h' e /\ sound solve n_it h' end.

Definition series_length (m : metrics) (n : nat) : Prop :=
  length (iterations m) = n /\ length (grad_norms m) = n /\ length (grad_error m) = n /\
  length (solv_error m) = n /\ length (log_likely m) = n.
