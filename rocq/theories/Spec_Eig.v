(** Vocabulary for the eigenvalue-bound properties C05 and C06. *)

From Coq Require Import Reals List Arith.
From Verif Require Import Base NDArray Model_Linalg Spec_Linalg Expr_Linalg PSD.
Import ListNotations.
Open Scope R_scope.

(** ** Which nested matrices are bounded *)

(** Both [- bound <= eigenvalue] and [eigenvalue <= bound] for every factor. *)
Fixpoint two_sided (e : expr) : Prop :=
  match e with
  | EToeplitz _ | EIdentity _ => True
  | EDiag v => forall x, In x (a_data v) -> exists y, In y (a_data v) /\ - y <= x
  | EKron a b => two_sided a /\ two_sided b
  | ESum l => all_p (map two_sided l)
  | ESymm l =>
      all_p (map (fun r => all_p (map two_sided r)) l) /\
      (forall i j, (i < length l)%nat -> (j < length l)%nat ->
         d_eq (denote (nth j (nth i l []) (ENumpy (mk_arr [] [])))) (denote (nth i (nth j l []) (ENumpy (mk_arr [] [])))))
  | _ => False
  end.

(** [eigenvalue <= bound]. *)
Fixpoint one_sided (e : expr) : Prop :=
  two_sided e \/
  match e with
  | EDiag _ => True
  | ESum l => all_p (map one_sided l)
  | EKron a b => one_sided a /\ one_sided b /\
      psd (d_r (denote a)) (d_f (denote a)) /\ psd (d_r (denote b)) (d_f (denote b))
  | _ => False
  end.
