(** Model of the settings of the optimiser (runlmc/models/optimization.py:18-32)
    and of the options of [optimize] (runlmc/models/multigp.py:167-196). *)

From Coq Require Import Reals List Arith ZArith Bool String.
From Verif Require Import Base NDArray Model_Opt.
Import ListNotations.
Open Scope R_scope.

(** ** Dictionaries with names as keys *)

(** Values: whole numbers, numbers, booleans, None, and others (functions,
    optimisers), of which the model knows only which one they are. *)
Inductive sval := SInt (z : Z) | SNum (x : R) | SBool (b : bool) | SNone | SObj (n : nat).
Definition settings := list (string * sval).

Fixpoint s_get (d : settings) (k : string) : option sval :=
  match d with
  | [] => None
  | (k', v) :: d' => if String.eqb k' k then Some v else s_get d' k
  end.

(** [d[k] = v]: an old key keeps its place, a new one comes last. *)
Fixpoint s_put (d : settings) (k : string) (v : sval) : settings :=
  match d with
  | [] => [(k, v)]
  | (k', v') :: d' => if String.eqb k' k then (k', v) :: d' else (k', v') :: s_put d' k v
  end.

(** [d.update(kwargs)] *)
Definition s_update (d kwargs : settings) : settings := fold_left (fun d p => s_put d (fst p) (snd p)) kwargs d.

(** ** AdaDelta *)

(** [AdaDelta.noop], optimization.py:14-16 *)
Definition noop : sval := SObj 0.

(** optimization.py:18-25 [__init__]: [self.kwargs] *)
Definition ada_defaults : settings :=
  [("step_rate", SInt 1); ("decay", SNum (9 / 10)); ("momentum", SNum (1 / 2)); ("offset", SNum (1 / 10000));
   ("max_it", SInt 100); ("verbosity", SInt 0); ("min_grad_ratio", SNum (1 / 10));
   ("permitted_drops", SInt 5); ("callback", noop)]%string.
Definition ada_init (kwargs : settings) : settings := s_update ada_defaults kwargs.

(** optimization.py:28-29 *)
Definition exclude : list string := ["verbosity"; "min_grad_ratio"; "max_it"; "permitted_drops"; "callback"]%string.

(** The names [climin.Adadelta.__init__] has beside [wrt] and [fprime], which
    are passed by position: giving these by name as well is a TypeError, too. *)
Definition climin_names : list string := ["step_rate"; "decay"; "momentum"; "offset"; "args"]%string.
Definition s_in (l : list string) (k : string) : bool := existsb (String.eqb k) l.

(** optimization.py:27-32 [_prepare_adadelta]: what climin is given by name *)
Definition prepare_adadelta (kw : settings) : result settings :=
  let ada_kwargs := filter (fun p => negb (s_in exclude (fst p))) kw in
  if forallb (fun p => s_in climin_names (fst p)) ada_kwargs then Ok ada_kwargs else Err TypeError.

(** optimization.py:62-64, for settings of the documented types; others are not
    modelled ([None]). *)
Definition read_ada (kw : settings) : option ada :=
  match s_get kw "max_it"%string, s_get kw "min_grad_ratio"%string, s_get kw "permitted_drops"%string with
  | Some (SInt n), Some (SNum r), Some (SInt p) => Some (mk_ada n r p)
  | Some (SInt n), Some (SInt r), Some (SInt p) => Some (mk_ada n (IZR r) p)
  | _, _, _ => None
  end.

(** optimization.py:59-83: [AdaDelta( **kwargs).opt(x, fp=fp)] *)
Definition ada_run (kwargs : settings) (grad : nat -> vec) (fuel : nat) : option (list ada_event * result unit) :=
  let kw := ada_init kwargs in
  match prepare_adadelta kw with
  | Err e => Some ([], Err e)
  | Ok _ => match read_ada kw with Some s => ada_opt s grad fuel | None => None end
  end.

(** ** MultiGP.optimize *)

(** multigp.py:181-192: what paramz is given *)
Definition optimize_defaults : settings :=
  [("optimizer", SNone); ("start", SNone); ("messages", SBool false); ("max_iters", SInt 1);
   ("ipython_notebook", SBool true); ("clear_after_finish", SBool false)]%string.
Definition optimize_options (kwargs : settings) : settings := s_update optimize_defaults kwargs.
