(** Multi-indices in C order (last axis fastest), as numpy uses for
    [reshape] and [ravel]. *)

From Coq Require Import Reals List Arith Lia.
From Verif Require Import Base.
Import ListNotations.
Open Scope nat_scope.

Definition nprod (s : list nat) : nat := fold_right Nat.mul 1 s.

(** In-range multi-indices of shape [s]. *)
Fixpoint idx_in (s idx : list nat) : Prop :=
  match s, idx with
  | [], [] => True
  | n :: s', i :: idx' => i < n /\ idx_in s' idx'
  | _, _ => False
  end.

(** Flat C-order position of a multi-index. *)
Fixpoint ravel_idx (s idx : list nat) : nat :=
  match s, idx with
  | n :: s', i :: idx' => i * nprod s' + ravel_idx s' idx'
  | _, _ => 0
  end.

(** Multi-index at a flat C-order position. *)
Fixpoint unravel (s : list nat) (k : nat) : list nat :=
  match s with
  | [] => []
  | n :: s' => (k / nprod s') :: unravel s' (k mod nprod s')
  end.

(** All multi-indices in C order. *)
Fixpoint indices (s : list nat) : list (list nat) :=
  match s with
  | [] => [[]]
  | n :: s' => flat_map (fun i => map (cons i) (indices s')) (seq 0 n)
  end.

Lemma nprod_pos s : (forall n, In n s -> 0 < n) -> 0 < nprod s.
Proof.
  induction s as [|n s IH]; simpl; intros H; [lia|].
  apply Nat.mul_pos_pos; auto.
Qed.

Lemma nprod_pos_inv s n : 0 < nprod s -> In n s -> 0 < n.
Proof.
  induction s as [|m s IH]; simpl; intros H Hin; [easy|].
  destruct Hin as [->|Hin]; [destruct n; simpl in H; lia|].
  apply IH; auto. destruct (nprod s); [rewrite Nat.mul_0_r in H; lia|lia].
Qed.

Lemma nprod_app a b : nprod (a ++ b) = nprod a * nprod b.
Proof. induction a as [|x a IH]; simpl; [lia|]. rewrite IH. lia. Qed.

Lemma idx_in_length s idx : idx_in s idx -> length idx = length s.
Proof.
  revert idx. induction s as [|n s IH]; intros [|i idx]; simpl; try tauto.
  intros [_ H]. rewrite (IH _ H). reflexivity.
Qed.

Lemma idx_in_nth s idx p : idx_in s idx -> p < length s -> nth p idx 0 < nth p s 0.
Proof.
  revert idx p. induction s as [|n s IH]; intros [|i idx] p; simpl; try tauto; try lia.
  intros [Hi H] Hp. destruct p; auto. apply IH; auto. lia.
Qed.

Lemma idx_in_iff s idx :
  idx_in s idx <-> length idx = length s /\ forall p, p < length s -> nth p idx 0 < nth p s 0.
Proof.
  split.
  - intros H. split; [now apply idx_in_length|]. intros p; now apply idx_in_nth.
  - revert idx. induction s as [|n s IH]; intros [|i idx] [Hl H]; simpl in *; try lia; auto.
    split; [apply (H 0); lia|]. apply IH. split; [lia|].
    intros p Hp. apply (H (S p)). lia.
Qed.

Lemma ravel_lt s idx : idx_in s idx -> ravel_idx s idx < nprod s.
Proof.
  revert idx. induction s as [|n s IH]; intros [|i idx]; simpl; try tauto; try lia.
  intros [Hi H]. specialize (IH _ H). nia.
Qed.

Lemma unravel_in s k : k < nprod s -> idx_in s (unravel s k).
Proof.
  revert k. induction s as [|n s IH]; intros k Hk; simpl; auto.
  simpl in Hk. assert (Hp : 0 < nprod s) by nia.
  split.
  - apply Nat.div_lt_upper_bound; lia.
  - apply IH. apply Nat.mod_upper_bound. lia.
Qed.

Lemma ravel_unravel s k : k < nprod s -> ravel_idx s (unravel s k) = k.
Proof.
  revert k. induction s as [|n s IH]; intros k Hk; simpl in *; [lia|].
  assert (Hp : 0 < nprod s) by nia.
  rewrite IH by (apply Nat.mod_upper_bound; lia).
  rewrite Nat.mul_comm. symmetry. apply Nat.div_mod. lia.
Qed.

Lemma unravel_ravel s idx : idx_in s idx -> unravel s (ravel_idx s idx) = idx.
Proof.
  revert idx. induction s as [|n s IH]; intros [|i idx]; simpl; try tauto.
  intros [Hi H]. pose proof (ravel_lt _ _ H) as Hlt.
  rewrite Nat.add_comm, Nat.div_add, Nat.mod_add by lia.
  rewrite Nat.div_small, Nat.mod_small by lia. rewrite IH by auto. reflexivity.
Qed.

Lemma indices_tab s : indices s = tab (nprod s) (unravel s).
Proof.
  induction s as [|n s IH]; simpl; auto.
  rewrite IH, flat_map_concat_map. change (map ?f (seq 0 n)) with (tab n f).
  destruct (Nat.eq_dec (nprod s) 0) as [Hz|Hz].
  - rewrite Hz, Nat.mul_0_r. unfold tab. cbn [seq map].
    generalize (seq 0 n) as l. induction l; simpl; auto.
  - transitivity (concat (tab n (fun i => tab (nprod s) (fun k => i :: unravel s k)))).
    { f_equal. apply tab_ext. intros i _. apply map_tab. }
    rewrite concat_tab_tab by lia. reflexivity.
Qed.

Lemma indices_length s : length (indices s) = nprod s.
Proof. rewrite indices_tab. apply tab_length. Qed.

Lemma in_indices s idx : In idx (indices s) <-> idx_in s idx.
Proof.
  rewrite indices_tab, in_tab. split.
  - intros [k [Hk ->]]. now apply unravel_in.
  - intros H. exists (ravel_idx s idx). split; [now apply ravel_lt|].
    symmetry. now apply unravel_ravel.
Qed.

Lemma nth_indices s k d : k < nprod s -> nth k (indices s) d = unravel s k.
Proof. intros. rewrite indices_tab, nth_tab; auto. Qed.

Lemma unravel_length s k : length (unravel s k) = length s.
Proof. revert k. induction s as [|n s IH]; intros; simpl; auto. Qed.

Lemma NoDup_indices s : NoDup (indices s).
Proof.
  rewrite indices_tab. unfold tab.
  assert (H : forall l, NoDup l -> (forall k, In k l -> k < nprod s) -> NoDup (map (unravel s) l)).
  { induction l as [|a l IH]; intros Hnd Hb; simpl; constructor.
    - rewrite in_map_iff. intros [b [Hb1 Hb2]].
      assert (a = b).
      { rewrite <- (ravel_unravel s a), <- (ravel_unravel s b); [congruence| |];
          apply Hb; simpl; auto. }
      subst. inversion Hnd; auto.
    - apply IH; [inversion Hnd; auto|]. intros; apply Hb; simpl; auto. }
  apply H; [apply seq_NoDup|]. intros k Hk. apply in_seq in Hk. lia.
Qed.
