(** Independent specifications for the heat maps of the gradient benchmark. *)

From Coq Require Import Reals List Arith String.
From Verif Require Import Base Model_Heat.
Import ListNotations.
Open Scope R_scope.

(** Row [r] of [df] is one of kernel [k]. *)
Definition of_kernel (df : list row) (k : string) (r : row) : Prop := In r df /\ w_k r = k.

(** No two rows of a kernel have the same [q] and [eps]. *)
Definition single (df : list row) : Prop := NoDup (map (fun r => (w_k r, w_q r, w_eps r)) df).

(** Each kernel has a row for all its [q] with all its [eps]. *)
Definition complete (df : list row) : Prop :=
  forall k r s, of_kernel df k r -> of_kernel df k s -> exists t, of_kernel df k t /\ w_q t = w_q r /\ w_eps t = w_eps s.

(** [ks] are the kernels of [df], each once, in the order of their first rows. *)
Definition kernels_in_order (df : list row) (ks : list string) : Prop :=
  NoDup ks /\ (forall k, In k ks <-> exists r, of_kernel df k r) /\
  forall i j, (i < j < List.length ks)%nat -> exists df1 df2, df = df1 ++ df2 /\
    (exists r, of_kernel df1 (nth i ks EmptyString) r) /\ ~ (exists r, of_kernel df1 (nth j ks EmptyString) r).

Definition descending (l : list R) : Prop := forall i j, (i < j < List.length l)%nat -> nth j l 0 < nth i l 0.

Definition log10 (x : R) : R := ln x / ln 10.

(** The value drawn for a row. *)
Definition shade (negate : bool) (r : row) : R := if negate then - ln (w_v r) else ln (w_v r).

Definition cell_of (p : panel) (i j : nat) : option R := nth j (nth i (p_cells p) []) None.

(** [p] shows the rows of kernel [p_title p]. *)
Record shows (negate : bool) (df : list row) (p : panel) : Prop := {
  sh_rows : descending (p_rows p) /\ forall q, In q (p_rows p) <-> exists r, of_kernel df (p_title p) r /\ w_q r = q;
  sh_cols : descending (p_cols p) /\ forall e, In e (p_cols p) <-> exists r, of_kernel df (p_title p) r /\ log10 (w_eps r) = e;
  sh_size : List.length (p_cells p) = List.length (p_rows p) /\ forall i, (i < List.length (p_rows p))%nat -> List.length (nth i (p_cells p) []) = List.length (p_cols p);
  sh_cell : forall i j r, (i < List.length (p_rows p))%nat -> (j < List.length (p_cols p))%nat -> of_kernel df (p_title p) r ->
    w_q r = nth i (p_rows p) 0 -> log10 (w_eps r) = nth j (p_cols p) 0 -> cell_of p i j = Some (shade negate r);
  sh_gap : forall i j, (i < List.length (p_rows p))%nat -> (j < List.length (p_cols p))%nat ->
    (cell_of p i j = None <-> forall r, of_kernel df (p_title p) r -> ~ (w_q r = nth i (p_rows p) 0 /\ log10 (w_eps r) = nth j (p_cols p) 0))
}.
