(** Model of runlmc/parameterization/priors.py and of the prior part of
    runlmc/parameterization/model.py. *)

From Coq Require Import Reals List Arith.
From Verif Require Import Base.
Import ListNotations.
Open Scope R_scope.

(** ** Priors *)

(** priors.py:76-164, the four classes; the constant computed by each
    constructor is inlined in [lnpdf]. *)
Inductive prior :=
| Gaussian (mu var : R)
| Gamma (a b : R)
| InverseGamma (a b : R)
| HalfLaplace (b : R).

(** priors.py:79-84: the only constructor that raises *)
Definition new_gaussian (mu var : R) : result prior := if Rle_dec var 0 then Err ValueError else Ok (Gaussian mu var).

(** priors.py:117-127 [Gamma.from_EV] *)
Definition from_EV (E V : R) : prior := Gamma (E * E / V) (E / V).

Section Priors.
  (** [scipy.special.gammaln] *)
  Variable gammaln : R -> R.

  (** priors.py:84, 91-92 (Gaussian), 104, 111-112 (Gamma), 136, 143-144
      (InverseGamma), 155, 160-161 (HalfLaplace): [lnpdf] of one number *)
  Definition lnpdf (p : prior) (x : R) : R :=
    match p with
    | Gaussian mu var => - (1 / 2) * ln (2 * PI * var) - 1 / 2 * ((x - mu) * (x - mu)) / var
    | Gamma a b => - gammaln a + a * ln b + (a - 1) * ln x - b * x
    | InverseGamma a b => - gammaln a + a * ln b - (a + 1) * ln x - b / x
    | HalfLaplace b => - ln b - x / b
    end.

  (** priors.py:94-95, 114-115, 146-147, 163-164: [lnpdf_grad] of an array;
      [HalfLaplace] gives a number whatever the array, represented by an array
      of one entry. *)
  Definition lnpdf_grad (p : prior) (v : vec) : vec :=
    match p with
    | Gaussian mu var => map (fun x => - (x - mu) / var) v
    | Gamma a b => map (fun x => (a - 1) / x - b) v
    | InverseGamma a b => map (fun x => - (a + 1) / x + b / (x * x)) v
    | HalfLaplace b => [- 1 / b]
    end.

  (** ** The objective *)

  (** A constraint of paramz: a [Transformation] with its two methods that
      the model uses, or anything else ([__fixed__]). *)
  Inductive constr := Transformation (log_jacobian log_jacobian_grad : R -> R) | Fixed.

  (** The parameters of a model: [param_array], and the dictionaries
      [priors.items()] and [constraints.items()] in the order of iteration. *)
  Record params := mk_params { theta : vec; priors : list (prior * list nat); constraints : list (constr * list nat) }.

  (** [priors.size] of paramz: the number of indices *)
  Definition pio_size {A} (l : list (A * list nat)) : nat := list_sum (map (fun q => length (snd q)) l).

  (** [a[i] = x], [a[indices]], and [np.put(a, indices, v)], which repeats [v] *)
  Definition vset (a : vec) (i : nat) (x : R) : vec := tab (length a) (fun j => if Nat.eqb j i then x else vget a j).
  Definition take (a : vec) (idx : list nat) : vec := map (vget a) idx.
  Definition np_put (a : vec) (idx : list nat) (v : vec) : vec :=
    fold_left (fun a p => vset a (snd p) (vget v (fst p mod length v))) (combine (seq 0 (length idx)) idx) a.

  (** [i in s] for a set of integers *)
  Definition mem (i : nat) (s : list nat) : bool := existsb (Nat.eqb i) s.

  (** model.py:79-104 [log_prior] *)
  Definition log_prior (s : params) : R :=
    if Nat.eqb (pio_size (priors s)) 0 then 0
    else
      let log_transformed_prior := lsum (map (fun q => lsum (map (lnpdf (fst q)) (take (theta s) (snd q)))) (priors s)) in
      let indices_with_prior := flat_map snd (priors s) in
      let log_jacobian_prior := fold_left (fun acc c =>
        match fst c with
        | Transformation lj _ => acc + lsum (map (fun i => lj (vget (theta s) i)) (filter (fun i => mem i indices_with_prior) (snd c)))
        | Fixed => acc
        end) (constraints s) 0 in
      log_transformed_prior + log_jacobian_prior.

  (** model.py:106-125 [_log_prior_gradients].  The loop leaves its variable
      [indices] bound to the indices of the last prior; the set comprehension
      on lines 115-116 evaluates its first iterable, [indices], outside its own
      scope, and its second clause only repeats each [idx].  [None] is the
      number 0. *)
  Definition log_prior_gradients (s : params) : option vec :=
    if Nat.eqb (pio_size (priors s)) 0 then None
    else
      let '(grad, indices) := fold_left (fun g q => (np_put (fst g) (snd q) (lnpdf_grad (fst q) (take (theta s) (snd q))), snd q))
        (priors s) (tab (length (theta s)) (fun _ => 0), []) in
      let indices_with_prior := flat_map (fun idx => map (fun _ => idx) (priors s)) indices in
      Some (fold_left (fun grad c =>
        match fst c with
        | Transformation _ ljg =>
          fold_left (fun grad i => if mem i indices_with_prior then vset grad i (vget grad i + ljg (vget (theta s) i)) else grad) (snd c) grad
        | Fixed => grad
        end) (constraints s) grad).

  (** model.py:58-73 [log_likelihood_with_prior], [objective_function] *)
  Definition objective (log_likelihood : vec -> R) (s : params) : R := - (log_likelihood (theta s) + log_prior s).

  (** model.py:75-77 [objective_function_gradients], with [self.gradient]
      as set by [parameters_changed] *)
  Definition objective_gradients (gradient : vec) (s : params) : vec :=
    match log_prior_gradients s with
    | None => map (fun x => - (x + 0)) gradient
    | Some g => map (fun p => - (fst p + snd p)) (combine gradient g)
    end.
End Priors.

(** paramz's [Logexp], the constraint of positive parameters, on values up to
    36 ([_lim_val]): [f(x) = log(1 + exp(x))] with the methods [log_jacobian]
    and [log_jacobian_grad]. *)
Definition logexp : constr := Transformation (fun t => ln (exp t - 1) - t) (fun t => 1 / (exp t - 1)).
