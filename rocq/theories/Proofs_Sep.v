(** Lemmas for C91: determinants of matrices without entries between two sets of indices. *)

From Coq Require Import Reals List Arith Bool Lia Lra.
From Verif Require Import Base NDArray PSD Model_Util Proofs_Util Model_Linalg Model_Interp Model_Kern Model_FK Spec_FK Model_Grid Spec_Grid Proofs_Grid Proofs_Grid2 Det Proofs_Det Model_Lik Spec_Lik Proofs_Lik Proofs_Lik2 Proofs_Lik3 Proofs_Depend.
Import ListNotations.
Open Scope R_scope.

(** The determinant of the rows and columns in [l]. *)
Definition det_on (F : nat -> nat -> R) (l : list nat) : R := det (length l) (fun i j => F (nth i l O) (nth j l O)).

Lemma det_on_ext F G l : (forall i j, In i l -> In j l -> F i j = G i j) -> det_on F l = det_on G l.
Proof. intros H. unfold det_on. apply det_ext. intros i j Hi Hj. apply H; now apply nth_In. Qed.

Lemma det_on_map F e l : det_on F (map e l) = det_on (fun i j => F (e i) (e j)) l.
Proof.
  unfold det_on. rewrite map_length. apply det_ext. intros i j Hi Hj.
  rewrite (nth_indep (map e l) O (e O)) by now rewrite map_length. rewrite (nth_indep (map e l) O (e O) (n := j)) by now rewrite map_length. now rewrite !map_nth.
Qed.

Lemma det_on_pivot F l : F O O <> 0 -> det_on F (O :: map S l) = F O O * det_on (schur1 F) l.
Proof.
  intros H. unfold det_on at 1. cbn [length]. rewrite det_pivot by exact H. cbn [nth]. f_equal. unfold det_on. rewrite map_length. apply det_ext. intros i j Hi Hj.
  unfold schur1. cbn [nth]. rewrite (nth_indep (map S l) O 1%nat) by now rewrite map_length. rewrite (nth_indep (map S l) O 1%nat (n := j)) by now rewrite map_length.
  now rewrite !(map_nth S).
Qed.

Lemma filter_shift (s : nat -> bool) l : filter s (map S l) = map S (filter (fun i => s (S i)) l).
Proof. induction l as [|x l IH]; [reflexivity|]. cbn [map filter]. destruct (s (S x)); cbn [map]; now rewrite IH. Qed.

Lemma det_blocks n : forall F (s : nat -> bool), pivots n F -> (forall i j, (i < n)%nat -> (j < n)%nat -> s i <> s j -> F i j = 0) ->
  det n F = det_on F (filter s (seq 0 n)) * det_on F (filter (fun i => negb (s i)) (seq 0 n)).
Proof.
  induction n as [|n IH]; intros F s HP HZ; [cbn; ring|]. destruct HP as [H0 HP].
  rewrite det_pivot by lra. cbn [seq]. rewrite <- seq_shift. cbn [filter]. rewrite !filter_shift.
  rewrite (IH (schur1 F) (fun i => s (S i)) HP).
  2:{ intros i j Hi Hj N. unfold schur1. rewrite (HZ (S i) (S j)) by (lia || exact N).
      destruct (Bool.bool_dec (s (S i)) (s O)) as [E|E].
      - rewrite (HZ O (S j)) by (lia || congruence). field. lra.
      - rewrite (HZ (S i) O) by (lia || exact E). field. lra. }
  assert (K : forall (t : nat -> bool), (forall i, t (S i) = true -> s (S i) <> s O) ->
    det_on (schur1 F) (filter (fun i => t (S i)) (seq 0 n)) = det_on F (map S (filter (fun i => t (S i)) (seq 0 n)))).
  { intros t Ht. rewrite det_on_map. apply det_on_ext. intros i j Hi Hj. apply filter_In in Hi. apply filter_In in Hj. destruct Hi as [Hi Ti]. apply in_seq in Hi.
    unfold schur1. rewrite (HZ (S i) O) by (lia || now apply Ht). field. lra. }
  destruct (s O) eqn:E0; cbn [negb].
  - rewrite det_on_pivot by lra. rewrite (K (fun i => negb (s i))). 2:{ intros i Hi. destruct (s (S i)); discriminate. } ring.
  - rewrite det_on_pivot by lra. rewrite (K s). 2:{ intros i Hi. rewrite Hi. discriminate. } ring.
Qed.

(** ** Observations of the outputs in a set *)

(** (output, sample) for the outputs in [S] *)
Definition places (lens : list nat) (S : nat -> bool) : list (nat * nat) :=
  flat_map (fun a => if S a then map (pair a) (seq 0 (nth a lens O)) else []) (seq 0 (length lens)).
Definition at_place (lens : list nat) (p : nat * nat) : nat := ix lens (fst p) (snd p).

Lemma in_places lens S p : In p (places lens S) -> (fst p < length lens)%nat /\ S (fst p) = true /\ (snd p < nth (fst p) lens 0)%nat.
Proof.
  intros H. apply in_flat_map in H. destruct H as [a [Ha H]]. apply in_seq in Ha. destruct (S a) eqn:E; [|destruct H].
  apply in_map_iff in H. destruct H as [l [<- Hl]]. apply in_seq in Hl. cbn [fst snd]. repeat split; [lia|exact E|lia].
Qed.

Lemma places_eq lens lens' S : length lens' = length lens -> (forall a, (a < length lens)%nat -> S a = true -> nth a lens' 0%nat = nth a lens 0%nat) ->
  places lens' S = places lens S.
Proof.
  intros E H. unfold places. rewrite E. rewrite !flat_map_concat_map. f_equal. apply map_ext_in. intros a Ha. apply in_seq in Ha.
  destruct (S a) eqn:Es; [|reflexivity]. rewrite H by (lia || exact Es). reflexivity.
Qed.

Lemma filter_places_split (s : nat -> bool) lens (S : nat -> bool) l : (forall a i, In a l -> (i < nth a lens 0)%nat -> s (ix lens a i) = S a) ->
  filter s (flat_map (fun a => map (ix lens a) (seq 0 (nth a lens O))) l)
  = map (at_place lens) (flat_map (fun a => if S a then map (pair a) (seq 0 (nth a lens O)) else []) l).
Proof.
  induction l as [|a l IH]; intros H; [reflexivity|]. cbn [flat_map]. rewrite filter_app, map_app, IH by (intros b i Hb; apply H; now right). f_equal.
  assert (G : forall r, (forall i, In i r -> (i < nth a lens 0)%nat) -> filter s (map (ix lens a) r) = map (at_place lens) (if S a then map (pair a) r else [])).
  { induction r as [|i r IHr]; intros Hr; [now destruct (S a)|]. cbn [map filter]. rewrite (H a i (or_introl eq_refl) (Hr i (or_introl eq_refl))), IHr by (intros j Hj; apply Hr; now right).
    destruct (S a); reflexivity. }
  apply G. intros i Hi. apply in_seq in Hi. lia.
Qed.

Lemma seq_stacked lens : seq 0 (nsum lens) = flat_map (fun a => map (ix lens a) (seq 0 (nth a lens O))) (seq 0 (length lens)).
Proof.
  induction lens as [|n lens IH]; [reflexivity|]. change (nsum (n :: lens)) with (n + nsum lens)%nat. rewrite seq_app. cbn [length seq flat_map nth].
  f_equal. { rewrite <- (map_id (seq 0 n)) at 1. apply map_ext. intros i. reflexivity. }
  rewrite <- seq_shift, flat_map_concat_map, map_map, <- flat_map_concat_map.
  replace (seq (0 + n) (nsum lens)) with (map (Nat.add n) (seq 0 (nsum lens))).
  2:{ assert (G : forall N b, map (Nat.add n) (seq b N) = seq (n + b) N).
      { induction N as [|N IHN]; intros b0; [reflexivity|]. cbn [seq map]. rewrite IHN. f_equal. f_equal. lia. }
      rewrite G. f_equal. lia. }
  rewrite IH, !flat_map_concat_map, concat_map, map_map. f_equal. apply map_ext. intros a. rewrite map_map. cbn [nth]. apply map_ext. intros l.
  unfold ix. cbn [firstn]. change (nsum (n :: firstn a lens)) with (n + nsum (firstn a lens))%nat. lia.
Qed.

(** [s] tells the observations of the outputs in [S]. *)
Lemma filter_stacked (s : nat -> bool) lens S : (forall a i, (a < length lens)%nat -> (i < nth a lens 0)%nat -> s (ix lens a i) = S a) ->
  filter s (seq 0 (nsum lens)) = map (at_place lens) (places lens S).
Proof. intros H. rewrite seq_stacked. apply filter_places_split. intros a i Ha. apply in_seq in Ha. apply H. lia. Qed.

(** The part of a determinant that belongs to the outputs in [S]. *)
Definition det_part (lens : list nat) (K : nat -> nat -> R) (S : nat -> bool) : R := det_on K (map (at_place lens) (places lens S)).

Lemma det_parts lens K S : pivots (nsum lens) K ->
  (forall a l b j, (a < length lens)%nat -> (b < length lens)%nat -> S a <> S b -> (l < nth a lens 0)%nat -> (j < nth b lens 0)%nat -> K (ix lens a l) (ix lens b j) = 0) ->
  det (nsum lens) K = det_part lens K S * det_part lens K (fun a => negb (S a)).
Proof.
  intros HP HZ. set (s := fun i => S (owner lens i)).
  assert (E : forall a i, (a < length lens)%nat -> (i < nth a lens 0)%nat -> s (ix lens a i) = S a).
  { intros a i Ha Hi. unfold s. destruct (owner_offset lens a i Ha Hi) as [O1 _]. unfold ix. now rewrite O1. }
  unfold det_part. rewrite <- (filter_stacked s lens S E), <- (filter_stacked (fun i => negb (s i)) lens (fun a => negb (S a))).
  2:{ intros a i Ha Hi. now rewrite E. }
  apply det_blocks; [exact HP|]. intros i j Hi Hj N. unfold s in N.
  destruct (owner_lt lens i Hi) as [Oi [Pi Ei]]. destruct (owner_lt lens j Hj) as [Oj [Pj Ej]]. unfold ix in HZ. rewrite Ei, Ej. now apply HZ.
Qed.

Lemma det_part_ext lens lens' K K' S : length lens' = length lens ->
  (forall a, (a < length lens)%nat -> S a = true -> nth a lens' 0%nat = nth a lens 0%nat) ->
  (forall a l b j, (a < length lens)%nat -> (b < length lens)%nat -> S a = true -> S b = true -> (l < nth a lens 0)%nat -> (j < nth b lens 0)%nat ->
     K (ix lens a l) (ix lens b j) = K' (ix lens' a l) (ix lens' b j)) -> det_part lens' K' S = det_part lens K S.
Proof.
  intros E H HK. unfold det_part. rewrite (places_eq lens lens' S E H).
  unfold det_on. rewrite !map_length. apply det_ext. intros i j Hi Hj.
  set (d := (O, O)).
  assert (N : forall ls r, (r < length (places lens S))%nat -> nth r (map (at_place ls) (places lens S)) O = at_place ls (nth r (places lens S) d)).
  { intros ls r Hr. rewrite (nth_indep _ O (at_place ls d)) by now rewrite map_length. apply map_nth. }
  rewrite !N by assumption.
  destruct (in_places lens S _ (nth_In _ d Hi)) as [A1 [A2 A3]]. destruct (in_places lens S _ (nth_In _ d Hj)) as [B1 [B2 B3]].
  symmetry. now apply HK.
Qed.
