(** Shared vocabulary: exceptions as values, finite sums over R, tabulated
    lists, vectors and dense matrices.  Nothing here models a particular
    runlmc function; numpy conventions used throughout the model are fixed
    here (1-D array = list, 2-D array = list of rows). *)

From Coq Require Import Reals List Arith Lia Lra.
Import ListNotations.
Open Scope R_scope.

#[global] Arguments Nat.div : simpl never.
#[global] Arguments Nat.modulo : simpl never.

(** ** Exceptions *)

(** Python exception classes that the modelled code can raise. *)
Inductive err : Set :=
| ValueError | TypeError | KeyError | AttributeError | AssertionError
| IndexError | NotImplementedError | ZeroDivisionError | LinAlgError.

Inductive result (A : Type) : Type :=
| Ok (a : A)
| Err (e : err).
Arguments Ok {A} a.
Arguments Err {A} e.

Definition bind {A B} (x : result A) (f : A -> result B) : result B :=
  match x with Ok a => f a | Err e => Err e end.

Notation "'let!' x ':=' e 'in' k" := (bind e (fun x => k))
  (at level 200, x pattern, e at level 100, k at level 200).

(** ** Finite sums *)

Fixpoint Rsum (n : nat) (f : nat -> R) : R :=
  match n with
  | O => 0
  | S k => Rsum k f + f k
  end.

Lemma Rsum_ext n f g : (forall i, (i < n)%nat -> f i = g i) -> Rsum n f = Rsum n g.
Proof.
  induction n as [|n IH]; intros H; simpl; auto.
  rewrite IH, H; auto.
Qed.

Lemma Rsum_zero n f : (forall i, (i < n)%nat -> f i = 0) -> Rsum n f = 0.
Proof.
  induction n as [|n IH]; intros H; simpl; auto.
  rewrite IH, H; auto. lra.
Qed.

Lemma Rsum_plus n f g : Rsum n (fun i => f i + g i) = Rsum n f + Rsum n g.
Proof. induction n as [|n IH]; simpl; rewrite ?IH; lra. Qed.

Lemma Rsum_minus n f g : Rsum n (fun i => f i - g i) = Rsum n f - Rsum n g.
Proof. induction n as [|n IH]; simpl; rewrite ?IH; lra. Qed.

Lemma Rsum_scal_l n c f : Rsum n (fun i => c * f i) = c * Rsum n f.
Proof. induction n as [|n IH]; simpl; rewrite ?IH; lra. Qed.

Lemma Rsum_scal_r n c f : Rsum n (fun i => f i * c) = Rsum n f * c.
Proof. induction n as [|n IH]; simpl; rewrite ?IH; lra. Qed.

Lemma Rsum_opp n f : Rsum n (fun i => - f i) = - Rsum n f.
Proof. induction n as [|n IH]; simpl; rewrite ?IH; lra. Qed.

Lemma Rsum_const n c : Rsum n (fun _ => c) = INR n * c.
Proof. induction n as [|n IH]; [simpl; lra|]. rewrite S_INR. simpl. rewrite IH. lra. Qed.

Lemma Rsum_swap n m f :
  Rsum n (fun i => Rsum m (fun j => f i j)) = Rsum m (fun j => Rsum n (fun i => f i j)).
Proof.
  induction n as [|n IH]; simpl.
  - symmetry; apply Rsum_zero; auto.
  - rewrite IH, <- Rsum_plus. reflexivity.
Qed.

Lemma Rsum_split n m f :
  Rsum (n + m) f = Rsum n f + Rsum m (fun j => f (n + j)%nat).
Proof.
  induction m as [|m IH]; simpl.
  - rewrite Nat.add_0_r. lra.
  - rewrite Nat.add_succ_r. simpl. rewrite IH. lra.
Qed.

Lemma Rsum_S_l n f : Rsum (S n) f = f O + Rsum n (fun i => f (S i)).
Proof. change (S n) with (1 + n)%nat. rewrite (Rsum_split 1 n f). simpl. lra. Qed.

Lemma Rsum_flatten n m f :
  Rsum (n * m) f = Rsum n (fun i => Rsum m (fun j => f (i * m + j)%nat)).
Proof.
  induction n as [|n IH]; simpl; auto.
  rewrite Nat.add_comm, Rsum_split, IH. reflexivity.
Qed.

Lemma Rsum_delta n k f :
  (k < n)%nat -> Rsum n (fun i => if Nat.eqb i k then f i else 0) = f k.
Proof.
  induction n as [|n IH]; intros H; [lia|].
  simpl. destruct (Nat.eqb_spec n k) as [->|Hne].
  - rewrite Rsum_zero; [lra|].
    intros i Hi. destruct (Nat.eqb_spec i k); [lia|auto].
  - rewrite IH by lia. lra.
Qed.

Lemma Rsum_delta' n k f :
  (k < n)%nat -> Rsum n (fun i => if Nat.eqb k i then f i else 0) = f k.
Proof.
  intros H. rewrite <- (Rsum_delta n k f H). apply Rsum_ext.
  intros i _. rewrite Nat.eqb_sym. reflexivity.
Qed.

Lemma Rsum_le n f g : (forall i, (i < n)%nat -> f i <= g i) -> Rsum n f <= Rsum n g.
Proof.
  induction n as [|n IH]; intros H; simpl; [lra|].
  specialize (IH (fun i Hi => H i (Nat.lt_lt_succ_r _ _ Hi))).
  specialize (H n (Nat.lt_succ_diag_r n)). lra.
Qed.

Lemma Rsum_nonneg n f : (forall i, (i < n)%nat -> 0 <= f i) -> 0 <= Rsum n f.
Proof.
  intros H. rewrite <- (Rsum_zero n (fun _ => 0)); auto. apply Rsum_le; auto.
Qed.

Lemma Rsum_abs n f : Rabs (Rsum n f) <= Rsum n (fun i => Rabs (f i)).
Proof.
  induction n as [|n IH]; simpl; [rewrite Rabs_R0; lra|].
  eapply Rle_trans; [apply Rabs_triang|]. lra.
Qed.

Lemma Rsum_rev n f : Rsum n f = Rsum n (fun i => f (n - 1 - i)%nat).
Proof.
  induction n as [|n IH]; auto.
  rewrite (Rsum_S_l n (fun i => f (S n - 1 - i)%nat)). cbn [Rsum].
  rewrite IH, Rplus_comm. f_equal; [f_equal; lia|].
  apply Rsum_ext. intros i Hi. f_equal. lia.
Qed.

(** ** Tabulated lists *)

Definition tab {A} (n : nat) (f : nat -> A) : list A := map f (seq 0 n).

Lemma tab_length {A} n (f : nat -> A) : length (tab n f) = n.
Proof. unfold tab. rewrite map_length, seq_length. reflexivity. Qed.

Lemma nth_tab {A} n (f : nat -> A) i d : (i < n)%nat -> nth i (tab n f) d = f i.
Proof.
  intros H. unfold tab.
  rewrite (nth_indep _ d (f O)) by (rewrite map_length, seq_length; lia).
  rewrite map_nth, seq_nth by lia. reflexivity.
Qed.

Lemma tab_ext {A} n (f g : nat -> A) :
  (forall i, (i < n)%nat -> f i = g i) -> tab n f = tab n g.
Proof.
  intros H. unfold tab. apply map_ext_in. intros i Hi.
  apply in_seq in Hi. apply H. lia.
Qed.

Lemma list_ext {A} (d : A) (l l' : list A) :
  length l = length l' ->
  (forall i, (i < length l)%nat -> nth i l d = nth i l' d) -> l = l'.
Proof. intros Hl H. eapply nth_ext; eauto. Qed.

Lemma list_as_tab {A} (d : A) (l : list A) :
  l = tab (length l) (fun i => nth i l d).
Proof.
  apply (list_ext d); [now rewrite tab_length|].
  intros i Hi. rewrite nth_tab; auto.
Qed.

Lemma map_tab {A B} (g : A -> B) n f : map g (tab n f) = tab n (fun i => g (f i)).
Proof. unfold tab. rewrite map_map. reflexivity. Qed.

Lemma tab_S {A} n (f : nat -> A) : tab (S n) f = tab n f ++ [f n].
Proof. unfold tab. rewrite seq_S, map_app. reflexivity. Qed.

Lemma tab_S_l {A} n (f : nat -> A) : tab (S n) f = f O :: tab n (fun i => f (S i)).
Proof. unfold tab. simpl. f_equal. rewrite <- seq_shift, map_map. reflexivity. Qed.

Lemma tab_app {A} n m (f : nat -> A) :
  tab (n + m) f = tab n f ++ tab m (fun i => f (n + i)%nat).
Proof.
  unfold tab. rewrite seq_app, map_app. f_equal. simpl.
  rewrite <- (Nat.add_0_r n) at 1.
  generalize O as k. induction m as [|m IH]; intros k; simpl; auto.
  f_equal. rewrite <- IH. f_equal. f_equal. lia.
Qed.

Lemma in_tab {A} n (f : nat -> A) x : In x (tab n f) <-> exists i, (i < n)%nat /\ x = f i.
Proof.
  unfold tab. rewrite in_map_iff. split.
  - intros [i [<- Hi]]. apply in_seq in Hi. exists i; split; auto; lia.
  - intros [i [Hi ->]]. exists i. split; auto. apply in_seq. lia.
Qed.

(** Concatenation of equally long tabulated pieces. *)
Lemma concat_tab_tab {A} n m (f : nat -> nat -> A) :
  (0 < m)%nat ->
  concat (tab n (fun i => tab m (f i))) = tab (n * m) (fun k => f (k / m)%nat (k mod m)%nat).
Proof.
  intros Hm. induction n as [|n IH]; [reflexivity|]. cbn [Nat.mul].
  rewrite tab_S, concat_app, IH. cbn [concat]. rewrite app_nil_r.
  rewrite (Nat.add_comm m (n * m)), tab_app. f_equal.
  apply tab_ext. intros i Hi.
  rewrite (Nat.add_comm (n * m) i), Nat.div_add, Nat.mod_add by lia.
  rewrite Nat.div_small, Nat.mod_small by lia. reflexivity.
Qed.

(** ** Vectors and dense matrices *)

Definition vec := list R.
Definition mx := list (list R).

Definition vget (v : vec) (i : nat) : R := nth i v 0.
Definition mget (M : mx) (i j : nat) : R := nth j (nth i M []) 0.

(** [M] is a 2-D array of shape (r, c). *)
Definition is_mx (r c : nat) (M : mx) : Prop :=
  length M = r /\ forall row, In row M -> length row = c.

Definition mk (r c : nat) (F : nat -> nat -> R) : mx := tab r (fun i => tab c (F i)).

Lemma vget_tab n f i : (i < n)%nat -> vget (tab n f) i = f i.
Proof. intros. unfold vget. apply nth_tab; auto. Qed.

Lemma vget_over v i : (length v <= i)%nat -> vget v i = 0.
Proof. intros. unfold vget. apply nth_overflow; auto. Qed.

Lemma vec_as_tab v : v = tab (length v) (vget v).
Proof. apply (list_as_tab 0). Qed.

Lemma vec_ext (u v : vec) :
  length u = length v -> (forall i, (i < length u)%nat -> vget u i = vget v i) -> u = v.
Proof. apply (list_ext 0). Qed.

Lemma mk_is_mx r c F : is_mx r c (mk r c F).
Proof.
  split; [apply tab_length|]. intros row Hin.
  apply in_tab in Hin. destruct Hin as [i [_ ->]]. apply tab_length.
Qed.

Lemma mget_mk r c F i j : (i < r)%nat -> (j < c)%nat -> mget (mk r c F) i j = F i j.
Proof. intros. unfold mget, mk. rewrite nth_tab by auto. apply nth_tab; auto. Qed.

Lemma mk_ext r c F G :
  (forall i j, (i < r)%nat -> (j < c)%nat -> F i j = G i j) -> mk r c F = mk r c G.
Proof. intros H. apply tab_ext. intros i Hi. apply tab_ext. auto. Qed.

Lemma is_mx_row r c M i : is_mx r c M -> (i < r)%nat -> length (nth i M []) = c.
Proof. intros [Hl Hr] Hi. apply Hr. apply nth_In. lia. Qed.

Lemma mx_as_mk r c M : is_mx r c M -> M = mk r c (mget M).
Proof.
  intros HM. unfold mk, mget.
  destruct HM as [Hl Hr].
  rewrite (list_as_tab [] M) at 1. rewrite Hl. apply tab_ext.
  intros i Hi. rewrite <- (Hr (nth i M [])) at 1 by (apply nth_In; lia).
  apply vec_as_tab.
Qed.

Lemma mx_ext r c M N :
  is_mx r c M -> is_mx r c N ->
  (forall i j, (i < r)%nat -> (j < c)%nat -> mget M i j = mget N i j) -> M = N.
Proof.
  intros HM HN H. rewrite (mx_as_mk r c M HM), (mx_as_mk r c N HN). apply mk_ext; auto.
Qed.

Lemma mk_inj r c F G i j :
  mk r c F = mk r c G -> (i < r)%nat -> (j < c)%nat -> F i j = G i j.
Proof. intros H Hi Hj. rewrite <- (mget_mk r c F i j), H, mget_mk; auto. Qed.

(** numpy primitives on dense arrays. *)

(** [u.dot(v)] for 1-D arrays. *)
Definition np_vdot (u v : vec) : R := Rsum (length u) (fun i => vget u i * vget v i).

(** [A.dot(x)] for a 2-D array and a 1-D array. *)
Definition np_dot1 (A : mx) (x : vec) : vec := map (fun row => np_vdot row x) A.

(** Number of columns of a 2-D array with at least one row: [X.shape[1]]. *)
Definition ncols (X : mx) : nat := length (hd [] X).

(** [A.dot(X)] for 2-D arrays. *)
Definition np_dot2 (A X : mx) : mx :=
  map (fun row => tab (ncols X) (fun l => Rsum (length row) (fun j => vget row j * mget X j l))) A.

(** [X.T]; the number [c] of columns is needed because an array with no rows
    still has a second dimension. *)
Definition np_T (c : nat) (X : mx) : mx := mk c (length X) (fun j i => mget X i j).

(** [np.identity(n)]. *)
Definition np_identity (n : nat) : mx := mk n n (fun i j => if Nat.eqb i j then 1 else 0).

(** [np.diag(v)] of a 1-D array. *)
Definition np_diag (v : vec) : mx :=
  mk (length v) (length v) (fun i j => if Nat.eqb i j then vget v i else 0).

(** Sum of two equally shaped arrays. *)
Definition vadd (u v : vec) : vec := map (fun p => fst p + snd p) (combine u v).
Definition madd (A B : mx) : mx := map (fun p => vadd (fst p) (snd p)) (combine A B).

Lemma ncols_is_mx r c X : is_mx r c X -> (0 < r)%nat -> ncols X = c.
Proof.
  intros [Hl Hr] Hpos. unfold ncols. destruct X as [|x X]; simpl in *; [lia|].
  apply Hr. auto.
Qed.

Lemma np_dot1_mk r c F x : 
  np_dot1 (mk r c F) x = tab r (fun i => Rsum c (fun j => F i j * vget x j)).
Proof.
  unfold np_dot1, mk. rewrite map_tab. apply tab_ext. intros i Hi.
  unfold np_vdot. rewrite tab_length. apply Rsum_ext. intros j Hj.
  rewrite vget_tab by auto. reflexivity.
Qed.

Lemma np_dot2_mk r c k F X :
  is_mx c k X -> (0 < c)%nat ->
  np_dot2 (mk r c F) X = mk r k (fun i l => Rsum c (fun j => F i j * mget X j l)).
Proof.
  intros HX Hc. unfold np_dot2. rewrite (ncols_is_mx c k X HX Hc).
  unfold mk at 1. rewrite map_tab. apply tab_ext. intros i Hi.
  apply tab_ext. intros l Hl. rewrite tab_length. apply Rsum_ext.
  intros j Hj. rewrite vget_tab by auto. reflexivity.
Qed.

Lemma np_T_is_mx r c X : is_mx r c X -> is_mx c r (np_T c X).
Proof. intros [Hl _]. unfold np_T. rewrite Hl. apply mk_is_mx. Qed.

Lemma mget_np_T r c X i j :
  is_mx r c X -> (i < c)%nat -> (j < r)%nat -> mget (np_T c X) i j = mget X j i.
Proof. intros [Hl _] Hi Hj. unfold np_T. rewrite Hl, mget_mk by auto. reflexivity. Qed.

Lemma np_T_mk r c F : np_T c (mk r c F) = mk c r (fun j i => F i j).
Proof.
  unfold np_T. rewrite (proj1 (mk_is_mx r c F)). apply mk_ext.
  intros i j Hi Hj. apply mget_mk; auto.
Qed.

Lemma combine_tab {A B} n (f : nat -> A) (g : nat -> B) :
  combine (tab n f) (tab n g) = tab n (fun i => (f i, g i)).
Proof.
  unfold tab. generalize (seq 0 n). intros l.
  induction l as [|a l IH]; simpl; auto. rewrite IH. reflexivity.
Qed.

Lemma vadd_tab n f g : vadd (tab n f) (tab n g) = tab n (fun i => f i + g i).
Proof. unfold vadd. rewrite combine_tab, map_tab. reflexivity. Qed.

Lemma madd_mk r c F G : madd (mk r c F) (mk r c G) = mk r c (fun i j => F i j + G i j).
Proof.
  unfold madd, mk. rewrite combine_tab, map_tab. apply tab_ext.
  intros i _. simpl. apply vadd_tab.
Qed.

(** Sub-arrays [x[b:e]]. *)
Definition slice {A} (b e : nat) (l : list A) : list A := firstn (e - b) (skipn b l).

Lemma slice_length {A} b e (l : list A) :
  (b <= e)%nat -> (e <= length l)%nat -> length (slice b e l) = (e - b)%nat.
Proof. intros. unfold slice. rewrite firstn_length, skipn_length. lia. Qed.

Lemma nth_skipn {A} b i (l : list A) d : nth i (skipn b l) d = nth (b + i) l d.
Proof.
  revert l. induction b as [|b IH]; intros l; simpl; auto.
  destruct l; simpl; auto. destruct i; auto.
Qed.

Lemma nth_firstn {A} n i (l : list A) d : (i < n)%nat -> nth i (firstn n l) d = nth i l d.
Proof.
  revert i l. induction n as [|n IH]; intros i l H; [lia|].
  destruct l; simpl; auto. destruct i; auto. apply IH. lia.
Qed.

Lemma nth_slice {A} b e i (l : list A) d :
  (i < e - b)%nat -> nth i (slice b e l) d = nth (b + i) l d.
Proof. intros. unfold slice. rewrite nth_firstn, nth_skipn by auto. reflexivity. Qed.

(** Sum of a list. *)
Definition lsum (l : list R) : R := fold_right Rplus 0 l.
Definition nsum (l : list nat) : nat := fold_right Nat.add O l.

Lemma lsum_app a b : lsum (a ++ b) = lsum a + lsum b.
Proof. induction a as [|x a IH]; simpl; [lra|]. rewrite IH. lra. Qed.

Lemma nsum_app a b : nsum (a ++ b) = (nsum a + nsum b)%nat.
Proof. induction a as [|x a IH]; simpl; auto. rewrite IH. lia. Qed.

Lemma lsum_tab n f : lsum (tab n f) = Rsum n f.
Proof.
  induction n as [|n IH]; auto. rewrite tab_S, lsum_app, IH. simpl. lra.
Qed.

Lemma lsum_Rsum l : lsum l = Rsum (length l) (vget l).
Proof. rewrite <- lsum_tab, <- vec_as_tab. reflexivity. Qed.

Lemma skipn_add {A} a b (l : list A) : skipn a (skipn b l) = skipn (b + a) l.
Proof.
  revert l. induction b as [|b IH]; intros l; simpl; auto.
  destruct l; [now rewrite skipn_nil|apply IH].
Qed.
