(** One number as a bound or as a number of points of the grids (C57). *)

From Coq Require Import Reals List Arith Lia Lra ZArith.
From Verif Require Import Base NDArray PSD Model_Util Proofs_Util Spec_Util Model_Linalg Spec_Linalg Proofs_Linalg Model_Interp Spec_Interp
  Proofs_Autogrid Model_Kern Spec_Kern Proofs_Kern Model_FK Spec_FK Proofs_FK Model_Grid Spec_Grid Proofs_Grid Proofs_Grid2 Properties_Grid
  Model_Lik Spec_Lik Proofs_Lik Proofs_Lik2 Proofs_Lik3 Proofs_Lik4 Properties_Lik Proofs_Lik6 Proofs_Lik7 Properties_Lik2
  Spec_GP Proofs_Gen Proofs_Gen2 Properties_Gen.
Import ListNotations.
Open Scope R_scope.

(** One number for a bound or for the number of points is refused as soon as
    some kernel acts on several dimensions, whatever the data; if the lower
    bound is the number, by the assertion at interpolated_llgp.py:411. *)
Lemma map_result_in_err {A B} (F : A -> result B) x e l : In x l -> F x = Err e -> exists e', map_result F l = Err e'.
Proof.
  intros H E. induction l as [|y l IH]; [destruct H|]. cbn [map_result]. destruct H as [->|H].
  - rewrite E. now exists e.
  - destruct (F y) as [b|e1]; [|now exists e1]. cbn [bind]. destruct (IH H) as [e' ->]. now exists e'.
Qed.

Theorem C57_single_number :
  forall f Xs lo hi m ad, In ad (map fst (f_active f)) -> length ad <> 1%nat ->
  ((exists v, lo = GNum v) \/ (exists v, hi = GNum v) \/ (exists k, m = GNum k) ->
     exists e, generate_grids f Xs lo hi m = Err e) /\
  (forall v rest, lo = GNum v -> map fst (f_active f) = ad :: rest -> generate_grids f Xs lo hi m = Err AssertionError).
Proof.
  intros f Xs lo hi m ad Had Hl.
  assert (N : forall A (v : A), wrap_arg (GNum v) ad = Err AssertionError).
  { intros A v. cbn [wrap_arg]. now rewrite (proj2 (Nat.eqb_neq _ _) Hl). }
  split.
  - intros H. unfold generate_grids.
    assert (G : exists e, generate_grid Xs lo hi m ad = Err e).
    { unfold generate_grid. destruct H as [[v ->]|[[v ->]|[k ->]]].
      - rewrite N. now exists AssertionError.
      - destruct (wrap_arg lo ad) as [w|e]; [|now exists e]. cbn [bind]. rewrite N. now exists AssertionError.
      - destruct (wrap_arg lo ad) as [w|e]; [|now exists e]. cbn [bind]. destruct (wrap_arg hi ad) as [w'|e]; [|now exists e].
        cbn [bind]. rewrite N. now exists AssertionError. }
    destruct G as [e G]. apply (map_result_in_err _ ad e _ Had). now rewrite G.
  - intros v rest -> E. unfold generate_grids. rewrite E. cbn [map_result]. unfold generate_grid. rewrite N. reflexivity.
Qed.
Print Assumptions C57_single_number.

(** A number does for one dimension and not for two, where an array is needed. *)
Example single_number_example :
  generate_grid [mk_arr [1; 2]%nat [2; 3]] (GNum 0) GNone GNone [0; 1]%nat = Err AssertionError /\
  exists a, generate_grid ex_Xs (GNum 0) (GNum 10) (GNum 2%nat) [0%nat] = Ok a.
Proof.
  split; [reflexivity|].
  assert (I : inputs 1 ex_Xs [1; 1]%nat) by (constructor; [split; reflexivity|]; constructor; [split; reflexivity|]; constructor).
  destruct (generate_grid_ok 1 ex_Xs [1; 1]%nat (GNum 0) (GNum 10) (GNum 2%nat) [0%nat] I) as [l [W [E _]]];
    [discriminate|intros n [<-|[<-|[]]]; lia|exact (ex_args _ eq_refl)|]. rewrite E. eexists. reflexivity.
Qed.
