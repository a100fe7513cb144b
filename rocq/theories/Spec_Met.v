(** Independent specifications for the contents of the metrics. *)

From Coq Require Import Reals List Arith.
From Verif Require Import Base NDArray PSD Model_Util Model_Linalg Spec_Linalg Proofs_Linalg Model_Interp Model_Kern Spec_Kern Model_FK Spec_FK Model_Grid Spec_Grid Det Model_Lik Spec_Lik Spec_GP Model_GP Spec_Pred Model_State Spec_State.
Import ListNotations.
Open Scope R_scope.

(** The largest absolute value in a list that is not empty. *)
Definition biggest (l : list R) (x : R) : Prop := (exists v, In v l /\ x = Rabs v) /\ forall v, In v l -> Rabs v <= x.

(** All gradients in one list: rank vectors, diagonals, kernels, noise. *)
Definition all_slots (s : grad_slots) : list R :=
  concat (map (@concat R) (s_vecs s)) ++ concat (s_diags s) ++ concat (map params (s_kernels s)) ++ s_noise s.
Definition all_grads (d : gradients) : list R :=
  concat (map (@concat R) (g_vecs d)) ++ concat (g_diags d) ++ concat (g_kernels d) ++ g_noise d.

(** [d] holds the gradient of the log density of the observations, one entry
    per parameter. *)
Definition exact_grads (g : gp) (d : gradients) : Prop :=
  let f := gp_f g in
  let lens := map (@length R) (mg_Ys (gp_data g)) in
  let G h v e := is_gradient (n_obs g) (fun s => K_obs (h s) (mg_P (gp_data g)) (mg_Xs (gp_data g)) lens) (y_obs g) v e in
  (length (g_vecs d) = f_Q f /\ forall q, (q < f_Q f)%nat -> is_mx (length (nth q (f_vecs f) [])) (f_D f) (nth q (g_vecs d) [])) /\
  (length (g_diags d) = f_Q f /\ forall q, (q < f_Q f)%nat -> length (nth q (g_diags d) []) = f_D f) /\
  (length (g_kernels d) = f_Q f /\ forall q, (q < f_Q f)%nat -> length (nth q (g_kernels d) []) = length (params (kern_of f q))) /\
  length (g_noise d) = f_D f /\
  (forall q r a, (q < f_Q f)%nat -> (r < length (nth q (f_vecs f) []))%nat -> (a < f_D f)%nat ->
     G (with_vec f q r a) (mget (nth q (f_vecs f) []) r a) (mget (nth q (g_vecs d) []) r a)) /\
  (forall q a, (q < f_Q f)%nat -> (a < f_D f)%nat -> G (with_diag f q a) (vget (nth q (f_diags f) []) a) (vget (nth q (g_diags d) []) a)) /\
  (forall q j, (q < f_Q f)%nat -> (j < length (params (kern_of f q)))%nat ->
     G (with_kparam f q j) (nth j (params (kern_of f q)) 0) (nth j (nth q (g_kernels d) []) 0)) /\
  (forall a, (a < f_D f)%nat -> G (with_noise f a) (vget (f_noise f) a) (vget (g_noise d) a)).

(** One entry of each series. *)
Record entry := mk_entry { e_iterations : R; e_grad_norm : R; e_grad_error : R; e_solv_error : R; e_log_likely : R }.
Definition collected (l : list entry) : metrics :=
  mk_metrics (map e_iterations l) (map e_grad_norm l) (map e_grad_error l) (map e_solv_error l) (map (fun e => Fin (e_log_likely e)) l).

(** What an update should record for parameters [gp_f g], sign draws [bits] and
    assigned gradients [s], where [info] is what a solve reports: the means over
    the solves for the observations and the probes, the largest assigned
    gradient, its largest deviation from the exact gradient relative to the
    largest exact gradient, and the log likelihood (whose quadratic term is the
    one of the fitted covariance). *)
Definition signs (bits : list (list bool)) : list vec := map (map (fun b : bool => if b then 1 else -1)) bits.
Definition recorded (info : Mat -> vec -> R * R) (g : gp) (bits : list (list bool)) (s : grad_slots) (e : entry) : Prop :=
  let n := n_obs g in
  let rhs := concat (mg_Ys (gp_data g)) :: signs bits in
  (exists K, represents K (mk_den n n (K_fit g)) /\
     e_iterations e = mean rhs (fun b => fst (info K b)) /\ e_solv_error e = mean rhs (fun b => snd (info K b))) /\
  biggest (all_slots s) (e_grad_norm e) /\
  (exists d nx nd, exact_grads g d /\ length (all_slots s) = length (all_grads d) /\ biggest (all_grads d) nx /\
     biggest (map (fun p => fst p - snd p) (combine (all_slots s) (all_grads d))) nd /\ (nx <> 0 -> e_grad_error e * nx = nd)) /\
  (exists a, (forall i, (i < n)%nat -> Rsum n (fun j => K_fit g i j * a j) = y_obs g i) /\
     e_log_likely e = - (1 / 2) * (ln (det n (K_obs (gp_f g) (mg_P (gp_data g)) (mg_Xs (gp_data g)) (map (@length R) (mg_Ys (gp_data g)))))
                                   + Rsum n (fun i => y_obs g i * a i) + INR n * ln (2 * PI))).

(** The gradients assigned to object [i]. *)
Definition slots_of (w : world) (i : nat) : option grad_slots := option_map in_slots (w_inst w i).

(** The updates of object [i] since the latest [optimize] on it, in order: the
    model with the new parameter values, and the draws. *)
Fixpoint log_since (h : list event) (i : nat) : list (gp * list (list bool)) :=
  match h with
  | [] => []
  | New Xs Ys nrm lo hi m pred fk _ _ bits :: h' =>
    match gp_init Xs Ys nrm lo hi m pred fk with
    | Ok g => if Nat.eqb i (length (models h')) then [(g, bits)] else log_since h' i
    | Err _ => log_since h' i
    end
  | Update j f bits :: h' =>
    if Nat.eqb i j then match nth_error (models h') i with Some g => log_since h' i ++ [(with_params g f, bits)] | None => log_since h' i end
    else log_since h' i
  | Begin j :: h' => if Nat.eqb i j then [] else log_since h' i
  | _ :: h' => log_since h' i
  end.
