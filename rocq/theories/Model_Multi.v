(** Model of priors whose own parameters are parameters of the model, as the
    notebook examples/example.ipynb sets them up ("Multilevel prior"):
    runlmc/parameterization/priors.py and model.py once more, with priors as
    objects.  A [Param] that is linked to a model is a view of the model's
    [param_array], so its value is the current one; what a constructor computes
    from it is computed once. *)

From Coq Require Import Reals List Arith.
From Verif Require Import Base Model_Prior.
Import ListNotations.
Open Scope R_scope.

(** An argument of a constructor: a number, or the scalar [Param] at a position
    of [param_array] *)
Inductive arg := Num (r : R) | Ref (i : nat).
Definition value (th : vec) (a : arg) : R := match a with Num r => r | Ref i => vget th i end.

(** The calls [Gaussian(mu, var)], [Gamma(a, b)], [InverseGamma(a, b)],
    [HalfLaplace(b)], and the attributes other than [constant] *)
Inductive form := FGaussian (mu var : arg) | FGamma (a b : arg) | FInverseGamma (a b : arg) | FHalfLaplace (b : arg).
Record mprior := mk_mprior { mp_form : form; mp_const : R }.

Section Multi.
  (** [scipy.special.gammaln] *)
  Variable gammaln : R -> R.

  (** priors.py:79-84, 101-104, 133-136, 153-155: the constructors, called when
      the parameters are [th].  [Gamma] makes its arguments floats; the others
      keep them. *)
  Definition create (th : vec) (c : form) : result mprior :=
    match c with
    | FGaussian mu var => if Rle_dec (value th var) 0 then Err ValueError else Ok (mk_mprior c (- (1 / 2) * ln (2 * PI * value th var)))
    | FGamma a b => Ok (mk_mprior (FGamma (Num (value th a)) (Num (value th b))) (- gammaln (value th a) + value th a * ln (value th b)))
    | FInverseGamma a b => Ok (mk_mprior c (- gammaln (value th a) + value th a * ln (value th b)))
    | FHalfLaplace b => Ok (mk_mprior c (- ln (value th b)))
    end.

  (** priors.py:91-92, 111-112, 143-144, 160-161 [lnpdf] of one number, when the
      parameters are [th] *)
  Definition mlnpdf (th : vec) (p : mprior) (x : R) : R :=
    match mp_form p with
    | FGaussian mu var => mp_const p - 1 / 2 * ((x - value th mu) * (x - value th mu)) / value th var
    | FGamma a b => mp_const p + (value th a - 1) * ln x - value th b * x
    | FInverseGamma a b => mp_const p - (value th a + 1) * ln x - value th b / x
    | FHalfLaplace b => mp_const p - x / value th b
    end.

  (** priors.py:94-95, 114-115, 146-147, 163-164 [lnpdf_grad] of an array *)
  Definition mlnpdf_grad (th : vec) (p : mprior) (v : vec) : vec :=
    match mp_form p with
    | FGaussian mu var => map (fun x => - (x - value th mu) / value th var) v
    | FGamma a b => map (fun x => (value th a - 1) / x - value th b) v
    | FInverseGamma a b => map (fun x => - (value th a + 1) / x + value th b / (x * x)) v
    | FHalfLaplace b => [- 1 / value th b]
    end.

  Record mparams := mk_mparams { mtheta : vec; mpriors : list (mprior * list nat); mconstraints : list (constr * list nat) }.

  (** model.py:79-104 [log_prior] *)
  Definition mlog_prior (s : mparams) : R :=
    if Nat.eqb (pio_size (mpriors s)) 0 then 0
    else
      let log_transformed_prior := lsum (map (fun q => lsum (map (mlnpdf (mtheta s) (fst q)) (take (mtheta s) (snd q)))) (mpriors s)) in
      let indices_with_prior := flat_map snd (mpriors s) in
      let log_jacobian_prior := fold_left (fun acc c =>
        match fst c with
        | Transformation lj _ => acc + lsum (map (fun i => lj (vget (mtheta s) i)) (filter (fun i => mem i indices_with_prior) (snd c)))
        | Fixed => acc
        end) (mconstraints s) 0 in
      log_transformed_prior + log_jacobian_prior.

  (** model.py:106-125 [_log_prior_gradients]; see [log_prior_gradients] *)
  Definition mlog_prior_gradients (s : mparams) : option vec :=
    if Nat.eqb (pio_size (mpriors s)) 0 then None
    else
      let '(grad, indices) := fold_left (fun g q => (np_put (fst g) (snd q) (mlnpdf_grad (mtheta s) (fst q) (take (mtheta s) (snd q))), snd q))
        (mpriors s) (tab (length (mtheta s)) (fun _ => 0), []) in
      let indices_with_prior := flat_map (fun idx => map (fun _ => idx) (mpriors s)) indices in
      Some (fold_left (fun grad c =>
        match fst c with
        | Transformation _ ljg =>
          fold_left (fun grad i => if mem i indices_with_prior then vset grad i (vget grad i + ljg (vget (mtheta s) i)) else grad) (snd c) grad
        | Fixed => grad
        end) (mconstraints s) grad).

  (** model.py:58-77 *)
  Definition mobjective (log_likelihood : vec -> R) (s : mparams) : R := - (log_likelihood (mtheta s) + mlog_prior s).
  Definition mobjective_gradients (gradient : vec) (s : mparams) : vec :=
    match mlog_prior_gradients s with
    | None => map (fun x => - (x + 0)) gradient
    | Some g => map (fun p => - (fst p + snd p)) (combine gradient g)
    end.
End Multi.
