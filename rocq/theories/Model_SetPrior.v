(** Model of runlmc/parameterization/priorizable.py and of the table
    [_CONSTRAIN_DOMAIN] of runlmc/parameterization/priors.py.

    paramz keeps, for a whole model, the values of all parameters in one array
    and two dictionaries from objects (priors, constraints) to sorted arrays of
    indices.  A leaf owns the indices [off, off + size).  Objects are
    represented by numbers; equality is identity. *)

From Coq Require Import Reals List Arith.
From Verif Require Import Base Model_Prior.
Import ListNotations.
Open Scope R_scope.

(** [paramz.core.index_operations.ParameterIndexOperations]: a dictionary in
    the order of insertion *)
Definition index_ops := list (nat * list nat).

(** [np.union1d], [np.setdiff1d] of arrays of indices *)
Definition np_union1d (a b : list nat) : list nat := filter (fun i => orb (mem i a) (mem i b)) (seq 0 (S (list_max (a ++ b)))).
Definition np_setdiff1d (a b : list nat) : list nat := filter (fun i => negb (mem i b)) a.

(** [add(prop, indices)] *)
Fixpoint io_add (d : index_ops) (k : nat) (idx : list nat) : index_ops :=
  match d with
  | [] => [(k, np_union1d [] idx)]
  | (k', old) :: d => if Nat.eqb k k' then (k', np_union1d old idx) :: d else (k', old) :: io_add d k idx
  end.

(** [remove(prop, indices)], which deletes entries that become empty *)
Fixpoint io_remove (d : index_ops) (k : nat) (idx : list nat) : index_ops :=
  match d with
  | [] => []
  | (k', old) :: d =>
    if Nat.eqb k k' then match np_setdiff1d old idx with [] => d | rest => (k', rest) :: d end else (k', old) :: io_remove d k idx
  end.

(** [_remove_from_index_operations(which, [])]: remove the indices from
    every property *)
Definition io_remove_all (d : index_ops) (idx : list nat) : index_ops := fold_left (fun d k => io_remove d k idx) (map fst d) d.

(** The argument of [properties_for]: an array of indices, or an object that
    is not a number. *)
Inductive ix_arg := IxArr (l : list nat) | IxObj.

(** [properties_for(index)]: for each index the properties it has.  On another
    object [np.vectorize] asks once whether it is among the indices of each
    property; it never is, and numpy makes an array without elements of the
    empty list. *)
Definition properties_for (d : index_ops) (x : ix_arg) : list (list nat) :=
  match x with
  | IxArr l => map (fun i => map fst (filter (fun q => mem i (snd q)) d)) l
  | IxObj => []
  end.

(** The constraints of paramz: [__fixed__] and the singletons [Logexp()],
    [NegativeLogexp()]; other numbers are other transformations. *)
Definition c_fixed : nat := 0.
Definition c_positive : nat := 1.
Definition c_negative : nat := 2.

Record pstate := mk_ps { ps_theta : vec; ps_priors : index_ops; ps_cons : index_ops }.
Record leaf := mk_leaf { lf_off : nat; lf_size : nat }.

(** [_raveled_index()] seen from the model *)
Definition raveled (l : leaf) : list nat := seq (lf_off l) (lf_size l).

(** [transform.initialize] of the two transformations: |x| and -|x| *)
Definition initialize (c : nat) (x : R) : R := if Nat.eqb c c_negative then - Rabs x else Rabs x.

(** paramz [constrain(transform)], as [constrain_positive] and
    [constrain_negative] call it: initialise the values, drop all constraints
    and add the new one *)
Definition constrain (s : pstate) (l : leaf) (c : nat) : pstate :=
  mk_ps (tab (length (ps_theta s)) (fun i => if mem i (raveled l) then initialize c (vget (ps_theta s) i) else vget (ps_theta s) i))
        (ps_priors s) (io_add (io_remove_all (ps_cons s) (raveled l)) c (raveled l)).

(** [Prior.domain] (priors.py:47, 78, 99, 131, 151): the base class has none *)
Inductive domain := DReal | DPositive | DNegative | DNone.

(** priorizable.py:69-72 [_all_constraints]; line 70 passes the method
    [self._raveled_index] without calling it *)
Definition all_constraints (s : pstate) (l : leaf) : list nat := concat (properties_for (ps_cons s) IxObj).

(** priorizable.py:74-75 [_unset_prior], 77-81 [unset_prior] *)
Definition unset_prior (s : pstate) (l : leaf) : pstate := mk_ps (ps_theta s) (io_remove_all (ps_priors s) (raveled l)) (ps_cons s).

(** priorizable.py:50-67 [set_prior], with priors.py:19-20, 42-46; the state
    stays changed when an exception leaves the method.  A constraint is never
    the string [_REAL] (priors.py:20). *)
Definition set_prior (s : pstate) (l : leaf) (dom : nat -> domain) (p : nat) : pstate * result unit :=
  let s1 := unset_prior s l in
  let s2 := mk_ps (ps_theta s1) (io_add (ps_priors s1) p (raveled l)) (ps_cons s1) in
  let finish s := if forallb (fun c => negb (Nat.eqb c c_fixed)) (all_constraints s l) then (s, Ok tt) else (s, Err AssertionError) in
  match dom p with
  | DNone => (s2, Err KeyError)
  | DReal => if forallb (fun _ => false) (all_constraints s2 l) then finish s2 else (s2, Err AssertionError)
  | DPositive => finish (constrain s2 l c_positive)
  | DNegative => finish (constrain s2 l c_negative)
  end.

(** What a user may do to the parameters of a model, in any order: set and
    remove priors, constrain, remove constraints, fix (paramz
    [constrain_fixed]) and assign values. *)
Inductive pop :=
| PSet (l : leaf) (p : nat)
| PUnset (l : leaf)
| PConstrain (l : leaf) (c : nat)
| PFree (l : leaf)
| PFix (l : leaf)
| PAssign (v : vec).

Definition pstep (dom : nat -> domain) (s : pstate) (o : pop) : pstate :=
  match o with
  | PSet l p => fst (set_prior s l dom p)
  | PUnset l => unset_prior s l
  | PConstrain l c => constrain s l c
  | PFree l => mk_ps (ps_theta s) (ps_priors s) (io_remove_all (ps_cons s) (raveled l))
  | PFix l => mk_ps (ps_theta s) (ps_priors s) (io_add (ps_cons s) c_fixed (raveled l))
  | PAssign v => mk_ps v (ps_priors s) (ps_cons s)
  end.
