(** Determinants over the reals by expansion along the first row. *)

From Coq Require Import Reals List Arith Lia Lra.
From Verif Require Import Base.
Open Scope R_scope.

(** Index of the [k]-th column once column [j] is struck out. *)
Definition skip (j k : nat) : nat := if Nat.ltb k j then k else S k.

Fixpoint det (n : nat) (F : nat -> nat -> R) : R :=
  match n with
  | O => 1
  | S m => Rsum (S m) (fun j => (-1) ^ j * F O j * det m (fun i k => F (S i) (skip j k)))
  end.

(** [F] with column [q] replaced by [u]. *)
Definition set_col (F : nat -> nat -> R) (q : nat) (u : nat -> R) (i k : nat) : R :=
  if Nat.eqb k q then u i else F i k.

Lemma skip_neq j k : skip j k <> j.
Proof. unfold skip. destruct (Nat.ltb_spec k j); lia. Qed.

Lemma skip_lt j k m : (k < m)%nat -> (skip j k < S m)%nat.
Proof. unfold skip. destruct (Nat.ltb_spec k j); lia. Qed.

Lemma skip_inv j p : p <> j -> exists p', skip j p' = p /\ forall k, skip j k = p -> k = p'.
Proof.
  intros H. exists (if Nat.ltb p j then p else (p - 1)%nat). unfold skip.
  destruct (Nat.ltb_spec p j); split.
  - destruct (Nat.ltb_spec p j); lia.
  - intros k. destruct (Nat.ltb_spec k j); lia.
  - destruct (Nat.ltb_spec (p - 1) j); lia.
  - intros k. destruct (Nat.ltb_spec k j); lia.
Qed.

Lemma det_ext n : forall F G, (forall i j, (i < n)%nat -> (j < n)%nat -> F i j = G i j) -> det n F = det n G.
Proof.
  induction n as [|m IH]; intros F G H; [reflexivity|].
  cbn [det]. apply Rsum_ext. intros j Hj. rewrite (H O j) by lia. f_equal.
  apply IH. intros i k Hi Hk. apply H; [lia|]. apply skip_lt; lia.
Qed.

Lemma det_col_lin n : forall F G H p a b, (p < n)%nat ->
  (forall i, (i < n)%nat -> F i p = a * G i p + b * H i p) ->
  (forall i k, (i < n)%nat -> (k < n)%nat -> k <> p -> F i k = G i k /\ F i k = H i k) ->
  det n F = a * det n G + b * det n H.
Proof.
  induction n as [|m IH]; intros F G H p a b Hp Hc Ho; [lia|].
  cbn [det]. rewrite <- !Rsum_scal_l, <- Rsum_plus. apply Rsum_ext. intros j Hj.
  destruct (Nat.eq_dec j p) as [->|N].
  - rewrite Hc by lia.
    rewrite (det_ext m (fun i k => G (S i) (skip p k)) (fun i k => F (S i) (skip p k))),
            (det_ext m (fun i k => H (S i) (skip p k)) (fun i k => F (S i) (skip p k))); [ring| |].
    + intros i k Hi Hk. symmetry. apply (Ho (S i) (skip p k)); [lia|apply skip_lt; lia|apply skip_neq].
    + intros i k Hi Hk. symmetry. apply (Ho (S i) (skip p k)); [lia|apply skip_lt; lia|apply skip_neq].
  - destruct (skip_inv j p) as [p' [P1 P2]]; [lia|].
    destruct (Ho O j) as [E1 E2]; try lia.
    rewrite (IH (fun i k => F (S i) (skip j k)) (fun i k => G (S i) (skip j k)) (fun i k => H (S i) (skip j k)) p' a b).
    + rewrite <- E1, <- E2. ring.
    + unfold skip in P1. destruct (Nat.ltb_spec p' j); lia.
    + intros i Hi. rewrite P1. apply Hc. lia.
    + intros i k Hi Hk Nk. apply Ho; [lia|apply skip_lt; lia|]. intros E. apply Nk. apply P2. exact E.
Qed.

Lemma Rsum_two n f p q : (p < n)%nat -> (q < n)%nat -> p <> q ->
  (forall i, (i < n)%nat -> i <> p -> i <> q -> f i = 0) -> Rsum n f = f p + f q.
Proof.
  intros Hp Hq N H.
  rewrite <- (Rsum_delta n p f Hp), <- (Rsum_delta n q f Hq), <- Rsum_plus. apply Rsum_ext. intros i Hi.
  destruct (Nat.eqb_spec i p), (Nat.eqb_spec i q); subst; try lia; try ring. rewrite H; auto. ring.
Qed.

Lemma det_adj n : forall F p, (S p < n)%nat -> (forall i, (i < n)%nat -> F i p = F i (S p)) -> det n F = 0.
Proof.
  induction n as [|m IH]; intros F p Hp He; [lia|].
  cbn [det]. rewrite (Rsum_two (S m) _ p (S p)); try lia.
  - rewrite (He O) by lia.
    rewrite (det_ext m (fun i k => F (S i) (skip (S p) k)) (fun i k => F (S i) (skip p k))).
    + cbn [pow]. ring.
    + intros i k Hi Hk. unfold skip. destruct (Nat.ltb_spec k (S p)), (Nat.ltb_spec k p); try lia; auto.
      assert (k = p) by lia. subst. apply He. lia.
  - intros j Hj N1 N2.
    rewrite (IH (fun i k => F (S i) (skip j k)) (if Nat.ltb p j then p else (p - 1)%nat)); [ring| |].
    + destruct (Nat.ltb_spec p j); lia.
    + intros i Hi. unfold skip. destruct (Nat.ltb_spec p j).
      * destruct (Nat.ltb_spec p j), (Nat.ltb_spec (S p) j); try lia. apply He. lia.
      * destruct (Nat.ltb_spec (p - 1) j), (Nat.ltb_spec (S (p - 1)) j); try lia.
        replace (S (S (p - 1))) with (S p) by lia. replace (S (p - 1)) with p by lia. apply He. lia.
Qed.

Lemma det_swap_adj n F p : (S p < n)%nat ->
  det n (fun i k => F i (if Nat.eqb k p then S p else if Nat.eqb k (S p) then p else k)) = - det n F.
Proof.
  intros Hp.
  set (M := fun (u v : nat -> R) i k => if Nat.eqb k p then u i else if Nat.eqb k (S p) then v i else F i k).
  set (u := fun i => F i p). set (v := fun i => F i (S p)). set (w := fun i => u i + v i).
  assert (L1 : forall z, det n (M w z) = det n (M u z) + det n (M v z)).
  { intros z. rewrite (det_col_lin n (M w z) (M u z) (M v z) p 1 1); [ring|lia| |].
    - intros i Hi. unfold M, w. rewrite !Nat.eqb_refl. ring.
    - intros i k Hi Hk N. unfold M. destruct (Nat.eqb_spec k p); [lia|]. auto. }
  assert (L2 : forall z, det n (M z w) = det n (M z u) + det n (M z v)).
  { intros z. rewrite (det_col_lin n (M z w) (M z u) (M z v) (S p) 1 1); [ring|lia| |].
    - intros i Hi. unfold M, w. destruct (Nat.eqb_spec (S p) p); [lia|]. rewrite !Nat.eqb_refl. ring.
    - intros i k Hi Hk N. unfold M. destruct (Nat.eqb_spec k p), (Nat.eqb_spec k (S p)); try lia; auto. }
  assert (Z : forall z, det n (M z z) = 0).
  { intros z. apply (det_adj n _ p Hp). intros i Hi. unfold M.
    destruct (Nat.eqb_spec (S p) p); [lia|]. rewrite !Nat.eqb_refl. reflexivity. }
  assert (E1 : det n (M u v) = det n F).
  { apply det_ext. intros i k Hi Hk. unfold M, u, v.
    destruct (Nat.eqb_spec k p); [subst; auto|]. destruct (Nat.eqb_spec k (S p)); subst; auto. }
  assert (E2 : det n (M v u) = det n (fun i k => F i (if Nat.eqb k p then S p else if Nat.eqb k (S p) then p else k))).
  { apply det_ext. intros i k Hi Hk. unfold M, u, v.
    destruct (Nat.eqb_spec k p); [auto|]. destruct (Nat.eqb_spec k (S p)); auto. }
  rewrite <- E1, <- E2. pose proof (Z w) as H. rewrite L1, !L2, !Z in H. lra.
Qed.

Lemma det_eq_cols d : forall n F p q, (q = S (p + d))%nat -> (q < n)%nat ->
  (forall i, (i < n)%nat -> F i p = F i q) -> det n F = 0.
Proof.
  induction d as [|d IH]; intros n F p q Hq Hn He.
  - apply (det_adj n F p); [lia|]. replace (S p) with q by lia. exact He.
  - set (r := S (p + d)).
    assert (H : det n (fun i k => F i (if Nat.eqb k r then S r else if Nat.eqb k (S r) then r else k)) = 0).
    { apply (IH n _ p r); [reflexivity|unfold r; lia|]. intros i Hi.
      rewrite Nat.eqb_refl. destruct (Nat.eqb_spec p r), (Nat.eqb_spec p (S r)); try (unfold r in *; lia).
      rewrite He by lia. f_equal. unfold r. lia. }
    rewrite det_swap_adj in H by (unfold r; lia). lra.
Qed.

(** Adding a multiple of column 0 to another column. *)
Lemma det_col_op n F q c : (0 < q)%nat -> (q < n)%nat ->
  det n (set_col F q (fun i => F i q + c * F i O)) = det n F.
Proof.
  intros Hq Hn.
  rewrite (det_col_lin n _ F (set_col F q (fun i => F i O)) q 1 c Hn).
  - rewrite (det_eq_cols (q - 1) n (set_col F q (fun i => F i O)) O q); [ring|lia|lia|].
    intros i Hi. unfold set_col. destruct (Nat.eqb_spec 0 q); [lia|]. rewrite Nat.eqb_refl. reflexivity.
  - intros i Hi. unfold set_col. rewrite Nat.eqb_refl. ring.
  - intros i k Hi Hk N. unfold set_col. destruct (Nat.eqb_spec k q); [lia|]. auto.
Qed.

Lemma det_elim n F (c : nat -> R) : forall m, (m < n)%nat ->
  det n (fun i k => if (Nat.ltb 0 k && Nat.leb k m)%bool then F i k + c k * F i O else F i k) = det n F.
Proof.
  induction m as [|m IH]; intros Hm.
  - apply det_ext. intros i k Hi Hk. destruct (Nat.ltb_spec 0 k), (Nat.leb_spec k 0); try lia; auto.
  - rewrite <- IH by lia.
    set (G := fun i k => if (Nat.ltb 0 k && Nat.leb k m)%bool then F i k + c k * F i O else F i k).
    rewrite <- (det_col_op n G (S m) (c (S m))) by lia.
    apply det_ext. intros i k Hi Hk. unfold set_col, G.
    destruct (Nat.eqb_spec k (S m)) as [->|N].
    + destruct (Nat.ltb_spec 0 (S m)), (Nat.leb_spec (S m) (S m)), (Nat.leb_spec (S m) m), (Nat.ltb_spec 0 0); try lia; auto.
    + destruct (Nat.ltb_spec 0 k), (Nat.leb_spec k (S m)), (Nat.leb_spec k m); try lia; auto.
Qed.

(** One step of elimination. *)
Definition schur1 (F : nat -> nat -> R) (i k : nat) : R := F (S i) (S k) - F (S i) O * F O (S k) / F O O.

Lemma det_pivot n F : F O O <> 0 -> det (S n) F = F O O * det n (schur1 F).
Proof.
  intros Ha. rewrite <- (det_elim (S n) F (fun k => - (F O k / F O O)) n) by lia.
  cbn [det]. rewrite Rsum_S_l, Rsum_zero.
  - cbn [pow]. destruct (Nat.ltb_spec 0 0); [lia|]. cbn [andb]. rewrite !Rmult_1_l, Rplus_0_r. f_equal.
    apply det_ext. intros i k Hi Hk. unfold skip, schur1.
    destruct (Nat.ltb_spec k 0), (Nat.ltb_spec 0 (S k)), (Nat.leb_spec (S k) n); try lia. cbn [andb]. field. exact Ha.
  - intros j Hj. destruct (Nat.ltb_spec 0 (S j)), (Nat.leb_spec (S j) n); try lia. cbn [andb].
    replace (F O (S j) + - (F O (S j) / F O O) * F O O) with 0 by (field; exact Ha). ring.
Qed.

(** The 2 x 2 case. *)
Example det_2 F : det 2 F = F O O * F 1%nat 1%nat - F O 1%nat * F 1%nat O.
Proof. cbn. ring. Qed.
