(** Independent specifications for the attribute [prediction] of a model that
    was built already. *)

From Coq Require Import Reals List Arith ZArith.
From Verif Require Import Base NDArray Model_Util Model_Linalg Model_Interp Model_Kern Model_FK Spec_FK Spec_Grid Model_Grid Model_Lik Spec_Lik Model_GP Spec_Pred Model_State Spec_State.
Import ListNotations.

(** The history in which object [i] was built with mode [md], which was not
    assigned to afterwards. *)
Fixpoint as_if (i : nat) (md : mode) (h : list event) : list event :=
  match h with
  | [] => []
  | New Xs Ys nrm lo hi m pred fk wm slots bits :: h' =>
    (match gp_init Xs Ys nrm lo hi m pred fk with
     | Ok _ => if Nat.eqb i (length (models h')) then New Xs Ys nrm lo hi m (Some md) fk wm slots bits else New Xs Ys nrm lo hi m pred fk wm slots bits
     | Err _ => New Xs Ys nrm lo hi m pred fk wm slots bits
     end) :: as_if i md h'
  | Switch j md' :: h' => if Nat.eqb i j then as_if i md h' else Switch j md' :: as_if i md h'
  | e :: h' => e :: as_if i md h'
  end.

(** Event [e] asks something about object [i]. *)
Definition question (e : event) (i : nat) : Prop :=
  match e with
  | AskK j | AskLogDet j | AskQuadratic j | AskLogLik j | AskPredict j _ _ | AskQuantiles j _ _ _ => j = i
  | _ => False
  end.
(** It is not about predictions. *)
Definition of_fit (e : event) : Prop :=
  match e with AskK _ | AskLogDet _ | AskQuadratic _ | AskLogLik _ => True | _ => False end.
