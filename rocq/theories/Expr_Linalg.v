(** Programs that build operators out of the linalg classes, to any nesting
    depth, with the matrix each one is meant to be. *)

From Coq Require Import Reals List Arith.
From Verif Require Import Base NDArray Model_Util Model_Fourier Model_Linalg Spec_Linalg.
Import ListNotations.
Open Scope R_scope.

Inductive expr : Type :=
| EToeplitz (top : ndarr)
| EBTTB (top : ndarr) (sizes : list nat)
| EKron (a b : expr)
| ESum (l : list expr)
| EBlockDiag (l : list expr)
| EDiag (v : ndarr)
| ESymm (l : list (list expr))
| EComp (l : list expr)
| ENumpy (a : ndarr)
| EIdentity (n : nat)
| EWrap (r c : nat) (mvm : vec -> vec)
| ESKI (K : expr) (W WT : sparse).

(** Evaluation order: the first failing constructor call raises. *)
Fixpoint sequence {A} (l : list (result A)) : result (list A) :=
  match l with
  | [] => Ok []
  | r :: l' => let! x := r in let! xs := sequence l' in Ok (x :: xs)
  end.

(** The Python expression's value. *)
Fixpoint eval (e : expr) : result Mat :=
  match e with
  | EToeplitz top => toeplitz top
  | EBTTB top sizes => bttb top sizes
  | EKron a b => let! A := eval a in let! B := eval b in kronecker A B
  | ESum l => let! Ks := sequence (map eval l) in sum_matrix Ks
  | EBlockDiag l => let! Ks := sequence (map eval l) in block_diag Ks
  | EDiag v => diag v
  | ESymm l => let! rows := sequence (map (fun r => sequence (map eval r)) l) in symm_block_matrix rows
  | EComp l => let! Ks := sequence (map eval l) in composition Ks
  | ENumpy a => numpy_matrix a
  | EIdentity n => identity n
  | EWrap r c mvm => wrap (r, c) mvm
  | ESKI K W WT => let! M := eval K in ski M W WT
  end.

Definition d_none : den := mk_den 0 0 (fun _ _ => 0).

(** The matrix meant. *)
Fixpoint denote (e : expr) : den :=
  match e with
  | EToeplitz top => mk_den (length (a_data top)) (length (a_data top)) (toep_entry (a_data top))
  | EBTTB top sizes => mk_den (nprod sizes) (nprod sizes) (bttb_entry (a_data top) sizes)
  | EKron a b => d_kron (denote a) (denote b)
  | ESum l => d_sum (map denote l)
  | EBlockDiag l => d_dsum (map denote l)
  | EDiag v => d_diag (a_data v)
  | ESymm l =>
      let G := map (map denote) l in
      let cell i j := nth j (nth i G []) d_none in
      d_blocks (length G) (d_r (cell 0%nat 0%nat)) cell
  | EComp l => d_prod (map denote l)
  | ENumpy a =>
      match a_shape a with
      | [r; c] => mk_den r c (fun i j => vget (a_data a) (i * c + j))
      | _ => d_none
      end
  | EIdentity n => d_id n
  | EWrap r c mvm => mk_den r c (fun i j => vget (mvm (e_vec c j)) i)
  | ESKI K W WT =>
      let w := mk_den (sp_r W) (sp_c W) (sp_get W) in
      d_mul w (d_mul (denote K) (d_T w))
  end.

(** Adjacent shapes of a product agree. *)
Fixpoint chain (l : list den) : Prop :=
  match l with
  | A :: ((B :: _) as rest) => d_c A = d_r B /\ chain rest
  | _ => True
  end.

Definition all_p (l : list Prop) : Prop := fold_right and True l.

(** What the constructors rely on without checking. *)
Fixpoint wf (e : expr) : Prop :=
  match e with
  | EToeplitz a | EDiag a | ENumpy a | EBTTB a _ => length (a_data a) = nprod (a_shape a)
  | EKron a b => wf a /\ wf b
  | ESum l | EBlockDiag l => all_p (map wf l)
  | ESymm l =>
      all_p (map (fun r => all_p (map wf r)) l) /\
      exists m, forall r e', In r l -> In e' r -> d_r (denote e') = m /\ d_c (denote e') = m
  | EComp l => all_p (map wf l) /\ chain (map denote l)
  | EIdentity _ => True
  | EWrap r c mvm => linear_map r c mvm
  | ESKI K W WT =>
      wf K /\ sp_c W = d_r (denote K) /\ d_c (denote K) = sp_c W /\
      sp_r WT = sp_c W /\ sp_c WT = sp_r W /\
      forall i j, sp_get WT i j = sp_get W j i
  end.
