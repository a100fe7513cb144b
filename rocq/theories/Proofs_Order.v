(** Linear systems, quadratic forms and determinants of reordered and of
    enlarged matrices. *)

From Coq Require Import Reals List Arith Lia Lra Permutation.
From Verif Require Import Base PSD Det Proofs_Det Proofs_Shur Proofs_Grid Proofs_Lik7 Spec_Lik Properties_Lik.
Import ListNotations.
Open Scope R_scope.

(** ** Reindexing sums *)

Definition injects (n n' : nat) (s : nat -> nat) : Prop :=
  (forall i, (i < n)%nat -> (s i < n')%nat) /\ (forall i j, (i < n)%nat -> (j < n)%nat -> s i = s j -> i = j).

Lemma injects_perm n s : injects n n s -> Permutation (map s (seq 0 n)) (seq 0 n).
Proof.
  intros [H1 H2]. apply NoDup_Permutation_bis.
  - assert (H : forall l, NoDup l -> (forall i, In i l -> (i < n)%nat) -> NoDup (map s l)).
    { induction 1 as [|x l Hx _ IH]; intros Hl; [constructor|]. cbn. constructor.
      - intros H. apply in_map_iff in H. destruct H as [y [E Hy]]. apply Hx. apply H2 in E; [now subst|apply Hl; now right|apply Hl; now left].
      - apply IH. intros i Hi. apply Hl. now right. }
    apply H; [apply seq_NoDup|]. intros i Hi. apply in_seq in Hi. lia.
  - rewrite map_length. lia.
  - intros y Hy. apply in_map_iff in Hy. destruct Hy as [i [<- Hi]]. apply in_seq in Hi. apply in_seq. specialize (H1 i ltac:(lia)). lia.
Qed.

Lemma lsum_perm l l' : Permutation l l' -> lsum l = lsum l'.
Proof. induction 1; cbn; try (unfold lsum in *; cbn; lra). Qed.

Lemma Rsum_seq n f : Rsum n f = lsum (map f (seq 0 n)).
Proof. symmetry. apply lsum_tab. Qed.

Lemma Rsum_reindex n s f : injects n n s -> Rsum n (fun i => f (s i)) = Rsum n f.
Proof.
  intros H. rewrite !Rsum_seq. rewrite <- (map_map s f). apply lsum_perm, Permutation_map, injects_perm, H.
Qed.

(** The vector [z] on the indices [s i], 0 elsewhere. *)
Definition spread_out (n : nat) (s : nat -> nat) (z : nat -> R) (j : nat) : R := Rsum n (fun i => if Nat.eqb j (s i) then z i else 0).

Lemma spread_sum n n' s z h : injects n n' s -> Rsum n' (fun j => h j * spread_out n s z j) = Rsum n (fun i => h (s i) * z i).
Proof.
  intros [H1 _]. unfold spread_out.
  rewrite (Rsum_ext n' _ (fun j => Rsum n (fun i => if Nat.eqb j (s i) then h j * z i else 0))).
  2:{ intros j _. rewrite <- Rsum_scal_l. apply Rsum_ext. intros i _. destruct (Nat.eqb j (s i)); ring. }
  rewrite Rsum_swap. apply Rsum_ext. intros i Hi. now rewrite (Rsum_delta n' (s i) (fun j => h j * z i)) by (apply H1, Hi).
Qed.

(** ** More equations *)

Section Sub.
Variables (n n' : nat) (s : nat -> nat) (K K' : nat -> nat -> R).
Hypothesis Hs : injects n n' s.
Hypothesis HK : forall i j, (i < n)%nat -> (j < n)%nat -> K i j = K' (s i) (s j).
Hypothesis Sy : sym n' K'.
Hypothesis Ps : psd n' K'.

Lemma sub_qf z : qf n' K' (spread_out n s z) = qf n K z.
Proof.
  unfold qf, bil.
  rewrite (Rsum_ext n' _ (fun i => Rsum n (fun j => K' i (s j) * z j) * spread_out n s z i)).
  2:{ intros i _. rewrite <- (spread_sum n n' s z (fun j => K' i j) Hs), <- Rsum_scal_r. apply Rsum_ext. intros; ring. }
  rewrite (spread_sum n n' s z (fun i => Rsum n (fun j => K' i (s j) * z j)) Hs). apply Rsum_ext. intros i Hi.
  rewrite <- Rsum_scal_r. apply Rsum_ext. intros j Hj. rewrite (HK i j Hi Hj). ring.
Qed.

(** The quadratic form of the inverse on a principal submatrix is smaller. *)
Lemma sub_quad c c' z z' : (forall i, (i < n)%nat -> c i = c' (s i)) -> solves n K z c -> solves n' K' z' c' ->
  Rsum n (fun i => c i * z i) <= Rsum n' (fun i => c' i * z' i).
Proof.
  intros Hc Hz Hz'. set (x := spread_out n s z).
  assert (E1 : qf n K z = Rsum n (fun i => c i * z i)).
  { unfold qf, bil. apply Rsum_ext. intros i Hi. rewrite <- (Hz i Hi), <- Rsum_scal_r. apply Rsum_ext. intros; ring. }
  assert (E2 : qf n' K' z' = Rsum n' (fun i => c' i * z' i)).
  { unfold qf, bil. apply Rsum_ext. intros i Hi. rewrite <- (Hz' i Hi), <- Rsum_scal_r. apply Rsum_ext. intros; ring. }
  assert (E3 : bil n' K' x z' = Rsum n (fun i => c i * z i)).
  { transitivity (Rsum n' (fun i => c' i * x i)).
    - unfold bil. apply Rsum_ext. intros i Hi. rewrite <- (Hz' i Hi), <- Rsum_scal_r. apply Rsum_ext. intros; ring.
    - unfold x. rewrite (spread_sum n n' s z c' Hs). apply Rsum_ext. intros i Hi. now rewrite <- Hc. }
  pose proof (sub_qf z) as E4. fold x in E4.
  pose proof (Ps (fun i => z' i + (-1) * x i)) as H. unfold qf in *.
  rewrite bil_add_l, !bil_add_r, !bil_scal_l, !bil_scal_r in H. rewrite (bil_sym n' K' z' x Sy) in H. lra.
Qed.
End Sub.

(** ** Reordered equations *)

Section Reorder.
Variables (n : nat) (s : nat -> nat) (K K' : nat -> nat -> R).
Hypothesis Hs : injects n n s.
Hypothesis HK : forall i j, (i < n)%nat -> (j < n)%nat -> K i j = K' (s i) (s j).

Lemma reorder_solves z' c' : solves n K' z' c' -> solves n K (fun i => z' (s i)) (fun i => c' (s i)).
Proof.
  intros H i Hi. rewrite <- (H (s i)) by (apply Hs, Hi). rewrite <- (Rsum_reindex n s (fun j => K' (s i) j * z' j) Hs).
  apply Rsum_ext. intros j Hj. now rewrite HK.
Qed.

Lemma reorder_inner c c' z z' : pivots n K -> (forall i, (i < n)%nat -> c i = c' (s i)) -> solves n K z c -> solves n K' z' c' ->
  forall h h', (forall i, (i < n)%nat -> h i = h' (s i)) -> Rsum n (fun i => h i * z i) = Rsum n (fun i => h' i * z' i).
Proof.
  intros Pv Hc Hz Hz' h h' Hh. rewrite <- (Rsum_reindex n s (fun i => h' i * z' i) Hs). apply Rsum_ext. intros i Hi. rewrite Hh by exact Hi. f_equal.
  apply (solves_unique n K c z (fun j => z' (s j)) Pv Hz); [|exact Hi].
  intros j Hj. rewrite (reorder_solves z' c' Hz' j Hj). now rewrite Hc.
Qed.
End Reorder.

(** ** Determinants *)

Definition sub (F : nat -> nat -> R) (l : list nat) (i j : nat) : R := F (nth i l 0%nat) (nth j l 0%nat).
Definition elim (x : nat) (F : nat -> nat -> R) (a b : nat) : R := F a b - F a x * F x b / F x x.
Definition pdl (F : nat -> nat -> R) (l : list nat) : Prop :=
  forall c, (exists i, In i l /\ c i <> 0) -> 0 < lsum (map (fun i => lsum (map (fun j => c i * F i j * c j) l)) l).

Lemma pdl_perm F l l' : Permutation l l' -> pdl F l -> pdl F l'.
Proof.
  intros HP H c [i [Hi Hc]]. specialize (H c (ex_intro _ i (conj (Permutation_in _ (Permutation_sym HP) Hi) Hc))).
  replace (lsum (map (fun i => lsum (map (fun j => c i * F i j * c j) l')) l')) with (lsum (map (fun i => lsum (map (fun j => c i * F i j * c j) l)) l)); [exact H|].
  rewrite (lsum_perm _ _ (Permutation_map _ HP)). f_equal. apply map_ext. intros k. apply lsum_perm, Permutation_map, HP.
Qed.

Lemma lsum_two x l (f : nat -> nat -> R) :
  lsum (map (fun i => lsum (map (f i) (x :: l))) (x :: l)) =
  f x x + lsum (map (f x) l) + lsum (map (fun i => f i x) l) + lsum (map (fun i => lsum (map (f i) l)) l).
Proof. cbn [map]. unfold lsum at 1. cbn [fold_right]. fold (lsum (map (fun i => lsum (f i x :: map (f i) l)) l)).
  assert (E : lsum (map (fun i => lsum (f i x :: map (f i) l)) l) = lsum (map (fun i => f i x) l) + lsum (map (fun i => lsum (map (f i) l)) l)).
  { rewrite <- lsum_map_plus. f_equal. }
  rewrite E. unfold lsum at 1. cbn [fold_right]. fold (lsum (map (f x) l)). ring.
Qed.

Lemma pdl_head F x l : ~ In x l -> pdl F (x :: l) -> 0 < F x x.
Proof.
  intros Hx H. specialize (H (fun i => if Nat.eqb i x then 1 else 0)). cbv beta in H. rewrite lsum_two in H.
  rewrite Nat.eqb_refl in H.
  rewrite (lsum_map_zero (fun i => 1 * F x i * (if Nat.eqb i x then 1 else 0))) in H by (intros i Hi; destruct (Nat.eqb_spec i x); [now subst|ring]).
  rewrite (lsum_map_zero (fun i => (if Nat.eqb i x then 1 else 0) * F i x * 1)) in H by (intros i Hi; destruct (Nat.eqb_spec i x); [now subst|ring]).
  rewrite lsum_map_zero in H.
  - assert (0 < 1 * F x x * 1 + 0 + 0 + 0); [|lra]. apply H. exists x. split; [now left|]. rewrite Nat.eqb_refl. lra.
  - intros i Hi. apply lsum_map_zero. intros j Hj. destruct (Nat.eqb_spec i x); [now subst|ring].
Qed.

Lemma pdl_elim F x l : (forall a b, F a b = F b a) -> ~ In x l -> pdl F (x :: l) -> pdl (elim x F) l.
Proof.
  intros Hs Hx H c [i [Hi Hc]]. pose proof (pdl_head F x l Hx H) as Hp.
  set (t := lsum (map (fun j => F x j * c j) l)).
  specialize (H (fun i => if Nat.eqb i x then - t / F x x else c i)). cbv beta in H. rewrite lsum_two in H. rewrite Nat.eqb_refl in H.
  assert (Ne : forall j, In j l -> Nat.eqb j x = false) by (intros j Hj; apply Nat.eqb_neq; intros ->; contradiction).
  rewrite (lsum_map_ext (fun i => - t / F x x * F x i * (if Nat.eqb i x then - t / F x x else c i)) (fun i => (- t / F x x) * (F x i * c i))) in H
    by (intros j Hj; rewrite Ne by exact Hj; ring).
  rewrite (lsum_map_ext (fun i => (if Nat.eqb i x then - t / F x x else c i) * F i x * (- t / F x x)) (fun i => (- t / F x x) * (F x i * c i))) in H
    by (intros j Hj; rewrite Ne, (Hs j x) by exact Hj; ring).
  rewrite lsum_map_scal in H. fold t in H.
  rewrite (lsum_map_ext (fun i => lsum (map (fun j => (if Nat.eqb i x then - t / F x x else c i) * F i j * (if Nat.eqb j x then - t / F x x else c j)) l))
     (fun i => lsum (map (fun j => c i * F i j * c j) l))) in H.
  2:{ intros j Hj. apply lsum_map_ext. intros k Hk. now rewrite !Ne. }
  assert (E : lsum (map (fun i => lsum (map (fun j => c i * elim x F i j * c j) l)) l) = lsum (map (fun i => lsum (map (fun j => c i * F i j * c j) l)) l) - t * t / F x x).
  { rewrite (lsum_map_ext _ (fun i => lsum (map (fun j => c i * F i j * c j) l) + (- t / F x x) * (F x i * c i))).
    - rewrite lsum_map_plus, lsum_map_scal. fold t. field. lra.
    - intros a Ha. replace (- t / F x x * (F x a * c a)) with ((- (F x a * c a) / F x x) * t) by (field; lra). unfold t.
      rewrite <- lsum_map_scal, <- lsum_map_plus. apply lsum_map_ext. intros b Hb. unfold elim. rewrite (Hs a x). field. lra. }
  rewrite E. assert (0 < - t / F x x * F x x * (- t / F x x) + - t / F x x * t + - t / F x x * t + lsum (map (fun i => lsum (map (fun j => c i * F i j * c j) l)) l)).
  { apply H. exists i. split; [now right|]. now rewrite Ne. }
  replace (- t / F x x * F x x * (- t / F x x) + - t / F x x * t + - t / F x x * t) with (- (t * t / F x x)) in H0 by (field; lra). lra.
Qed.

Lemma elim_sym F x : (forall a b, F a b = F b a) -> forall a b, elim x F a b = elim x F b a.
Proof. intros H a b. unfold elim. rewrite (H a b), (H a x), (H x b). unfold Rdiv. ring. Qed.

Lemma det_cons F x l : F x x <> 0 -> det (S (length l)) (sub F (x :: l)) = F x x * det (length l) (sub (elim x F) l).
Proof. intros H. rewrite det_pivot by exact H. reflexivity. Qed.

Lemma det_perm l l' : Permutation l l' -> forall F, NoDup l -> (forall a b, F a b = F b a) -> pdl F l -> det (length l) (sub F l) = det (length l') (sub F l').
Proof.
  induction 1 as [|x l l' HP IH|x y l|l l1 l2 P1 IH1 P2 IH2]; intros F Nd Hs Hp; [reflexivity| | |].
  - inversion Nd as [|? ? Hx Hl]; subst. pose proof (pdl_head F x l Hx Hp) as H1. cbn [length].
    rewrite !det_cons by lra. f_equal. apply IH; [exact Hl|now apply elim_sym|now apply pdl_elim].
  - inversion Nd as [|? ? Hy Nd']; subst. inversion Nd' as [|? ? Hx Hl]; subst.
    pose proof (pdl_head F y (x :: l) Hy Hp) as H1.
    assert (Hxy : ~ In x (y :: l)) by (intros [->|H]; [apply Hy; now left|contradiction]).
    assert (Hp' : pdl F (x :: y :: l)) by (eapply pdl_perm; [apply perm_swap|exact Hp]).
    pose proof (pdl_head F x (y :: l) Hxy Hp') as H2.
    pose proof (pdl_head _ x l Hx (pdl_elim F y (x :: l) Hs Hy Hp)) as H3.
    assert (Hy' : ~ In y l) by (intros H; apply Hy; now right).
    pose proof (pdl_head _ y l Hy' (pdl_elim F x (y :: l) Hs Hxy Hp')) as H4.
    change (length (y :: x :: l)) with (S (length (x :: l))). change (length (x :: y :: l)) with (S (length (y :: l))).
    rewrite (det_cons F y (x :: l)) by lra. rewrite (det_cons F x (y :: l)) by lra. cbn [length].
    rewrite (det_cons _ x l) by lra. rewrite (det_cons _ y l) by lra.
    unfold elim in H3, H4. rewrite (Hs x y) in H3, H4.
    assert (N : F x x * F y y - F y x * F y x <> 0).
    { intros E. replace (F x x - F y x * F y x / F y y) with ((F x x * F y y - F y x * F y x) / F y y) in H3 by (field; lra). rewrite E in H3. unfold Rdiv in H3. lra. }
    rewrite (det_ext (length l) (sub (elim x (elim y F)) l) (sub (elim y (elim x F)) l)).
    + rewrite <- !Rmult_assoc. f_equal. unfold elim. rewrite (Hs x y). field. lra.
    + intros i j _ _. unfold sub, elim. rewrite (Hs x y). field. rewrite (Rmult_comm (F y y)). lra.
  - rewrite IH1 by assumption. apply IH2; [eapply Permutation_NoDup; eassumption|exact Hs|eapply pdl_perm; eassumption].
Qed.

Lemma det_reorder n s K K' : injects n n s -> (forall i j, (i < n)%nat -> (j < n)%nat -> K i j = K' (s i) (s j)) ->
  sym n K' -> pos_definite n K' -> det n K = det n K'.
Proof.
  intros Hs HK Sy Pd. set (F := fun i j => (K' i j + K' j i) / 2).
  assert (EF : forall i j, (i < n)%nat -> (j < n)%nat -> F i j = K' i j) by (intros i j Hi Hj; unfold F; rewrite (Sy j i) by assumption; lra).
  assert (P := Permutation_sym (injects_perm n s Hs)).
  assert (FP : pdl F (seq 0 n)).
  { intros c [i [Hi Hc]]. apply in_seq in Hi. rewrite <- Rsum_seq. rewrite (Rsum_ext _ _ (fun i => Rsum n (fun j => c i * K' i j * c j))).
    - apply Pd. exists i. split; [lia|exact Hc].
    - intros a Ha. rewrite <- Rsum_seq. apply Rsum_ext. intros b Hb. now rewrite EF. }
  pose proof (det_perm _ _ P F (seq_NoDup n 0) ltac:(intros; unfold F; lra) FP) as E. rewrite map_length, seq_length in E.
  rewrite (det_ext n K (sub F (map s (seq 0 n)))).
  - rewrite <- E. apply det_ext. intros i j Hi Hj. unfold sub. rewrite !seq_nth by assumption. now apply EF.
  - intros i j Hi Hj. unfold sub. rewrite (nth_indep _ 0%nat (s 0%nat)) by (rewrite map_length, seq_length; exact Hi).
    rewrite (nth_indep (map s (seq 0 n)) 0%nat (s 0%nat) (n := j)) by (rewrite map_length, seq_length; exact Hj). rewrite !map_nth, !seq_nth by assumption. cbn.
    rewrite HK by assumption. symmetry. apply EF; apply Hs; assumption.
Qed.
