(** Lemmas about the CSR model. *)

From Coq Require Import Reals List Arith ZArith Lia Lra.
From Verif Require Import Base NDArray Model_Util Spec_Util Proofs_Util Model_Linalg Model_Interp Spec_Interp.
Import ListNotations.
Open Scope R_scope.

Lemma combine_fst_snd {A B} (l : list (A * B)) : combine (map fst l) (map snd l) = l.
Proof. induction l as [|[a b] l IH]; simpl; congruence. Qed.

Lemma slice_app_skip {A} (pre : list A) b e (l : list A) :
  slice (length pre + b) (length pre + e) (pre ++ l) = slice b e l.
Proof.
  unfold slice. replace (length pre + e - (length pre + b))%nat with (e - b)%nat by lia.
  f_equal. rewrite skipn_app. rewrite skipn_all2 by lia. simpl. f_equal. lia.
Qed.

Lemma nth_indptr (lens : list nat) i : (i <= length lens)%nat ->
  nth i (0%nat :: accumulate lens) 0%nat = nsum (firstn i lens).
Proof.
  intros Hi. destruct i as [|i]; [reflexivity|]. cbn [nth]. rewrite accumulate_nth by lia. reflexivity.
Qed.

Lemma slice_concat {A} (rows : list (list A)) i : (i < length rows)%nat ->
  slice (nsum (firstn i (map (@length A) rows))) (nsum (firstn (S i) (map (@length A) rows))) (concat rows) = nth i rows [].
Proof.
  revert i. induction rows as [|r rows IH]; intros i Hi; [simpl in Hi; lia|].
  destruct i as [|i].
  - cbn [map firstn nsum fold_right concat nth]. unfold slice. rewrite Nat.add_0_r, Nat.sub_0_r. cbn [skipn].
    rewrite firstn_app, firstn_all, Nat.sub_diag. simpl. apply app_nil_r.
  - cbn [map]. rewrite !firstn_cons. 
    change (nsum (length r :: ?x)) with (length r + nsum x)%nat. cbn [concat]. rewrite slice_app_skip.
    cbn [nth]. apply IH. simpl in Hi. lia.
Qed.

Lemma csr_row_from_rows c rows i : (i < length rows)%nat -> csr_row (csr_from_rows c rows) i = nth i rows [].
Proof.
  intros Hi. unfold csr_row, csr_from_rows. cbn [c_indptr c_indices c_data].
  rewrite combine_fst_snd. rewrite !nth_indptr by (rewrite map_length; lia).
  now apply slice_concat.
Qed.

Lemma nsum_concat {A} (rows : list (list A)) : nsum (map (@length A) rows) = length (concat rows).
Proof. induction rows as [|r rows IH]; simpl; auto. rewrite app_length. f_equal. exact IH. Qed.

Lemma csr_from_rows_wf c rows :
  (forall r p, In r rows -> In p r -> (fst p < c)%nat) -> csr_wf (csr_from_rows c rows).
Proof.
  intros H. constructor; cbn [csr_from_rows c_indptr c_indices c_data c_r c_c].
  - simpl. rewrite accumulate_length, map_length. reflexivity.
  - reflexivity.
  - intros i Hi. rewrite !nth_indptr by (rewrite map_length; lia).
    clear H. revert i Hi. generalize (map (@length (nat * R)) rows) as l.
    intros l i _. revert i. induction l as [|x l IH]; intros i; [now rewrite !firstn_nil|].
    destruct i as [|i]; [simpl; lia|]. rewrite !(firstn_cons _ x). simpl. specialize (IH i). simpl in IH. lia.
  - rewrite nth_indptr by (rewrite map_length; lia). rewrite firstn_all2 by (rewrite map_length; lia).
    rewrite nsum_concat, map_length. reflexivity.
  - now rewrite !map_length.
  - intros j Hj. apply in_map_iff in Hj. destruct Hj as [p [<- Hp]]. apply in_concat in Hp.
    destruct Hp as [r [Hr Hp]]. eauto.
Qed.

(** Every well-formed matrix is given by its rows. *)
Lemma firstn_skipn_add {A} a b (l : list A) : firstn (a + b) l = firstn a l ++ firstn b (skipn a l).
Proof.
  revert l. induction a as [|a IH]; intros l; simpl; auto. destruct l as [|x l]; simpl.
  - now rewrite firstn_nil.
  - now rewrite IH.
Qed.

Lemma concat_slices {A} (ip : nat -> nat) (l : list A) k :
  ip 0%nat = 0%nat -> (forall i, (i < k)%nat -> (ip i <= ip (S i))%nat) -> (ip k <= length l)%nat ->
  concat (tab k (fun i => slice (ip i) (ip (S i)) l)) = firstn (ip k) l.
Proof.
  intros H0 Hm. induction k as [|k IH]; intros Hl.
  - simpl. now rewrite H0.
  - rewrite tab_S, concat_app, IH; [|intros; apply Hm; lia|specialize (Hm k ltac:(lia)); lia].
    cbn [concat]. rewrite app_nil_r. unfold slice.
    pose proof (Hm k ltac:(lia)). replace (ip (S k)) with (ip k + (ip (S k) - ip k))%nat at 2 by lia.
    now rewrite firstn_skipn_add.
Qed.

Lemma skipn_nth_cons {A} (l : list A) k d : (k < length l)%nat -> skipn k l = nth k l d :: skipn (S k) l.
Proof.
  revert k. induction l as [|x l IH]; intros k Hk; simpl in Hk; [lia|].
  destruct k; [reflexivity|]. cbn [skipn nth]. apply IH. lia.
Qed.

Lemma firstn_In' {A} (x : A) n l : In x (firstn n l) -> In x l.
Proof. intros H. rewrite <- (firstn_skipn n l). apply in_or_app. auto. Qed.

Lemma skipn_In' {A} (x : A) n l : In x (skipn n l) -> In x l.
Proof. intros H. rewrite <- (firstn_skipn n l). apply in_or_app. auto. Qed.

Lemma nsum_firstn_tab n (f : nat -> nat) (ip : nat -> nat) k :
  ip 0%nat = 0%nat -> (forall i, (i < n)%nat -> ip (S i) = (ip i + f i)%nat) -> (k <= n)%nat ->
  nsum (firstn k (tab n f)) = ip k.
Proof.
  intros H0 Hs. induction k as [|k IH]; intros Hk; [simpl; auto|].
  rewrite Hs by lia. rewrite <- IH by lia.
  replace (S k) with (k + 1)%nat by lia. rewrite firstn_skipn_add, nsum_app. f_equal.
  assert (E : skipn k (tab n f) = f k :: skipn (S k) (tab n f)).
  { assert (Hkl : (k < length (tab n f))%nat) by (rewrite tab_length; lia).
    rewrite (skipn_nth_cons (tab n f) k 0%nat Hkl). now rewrite nth_tab by lia. }
  rewrite E. simpl. lia.
Qed.

Lemma csr_rows A : csr_wf A -> A = csr_from_rows (c_c A) (tab (c_r A) (csr_row A)).
Proof.
  intros H. destruct A as [r c ip ix d]. cbn [c_r c_c] in *.
  set (A := mk_csr r c ip ix d) in *. unfold csr_from_rows. rewrite tab_length.
  pose proof (wf_len _ H) as H1. pose proof (wf_first _ H) as H2. pose proof (wf_mono _ H) as H3.
  pose proof (wf_last _ H) as H4. pose proof (wf_data _ H) as H5. cbn in H1, H2, H3, H4, H5.
  assert (Hmono : forall i j, (i <= j)%nat -> (j <= r)%nat -> (nth i ip 0 <= nth j ip 0)%nat).
  { intros i j Hij. induction Hij as [|j Hij IH]; intros Hr; [lia|].
    eapply Nat.le_trans; [apply IH; lia|apply H3; lia]. }
  assert (Hcomb : length (combine ix d) = length ix) by (rewrite combine_length; lia).
  assert (Hc : concat (tab r (csr_row A)) = combine ix d).
  { unfold csr_row. cbn [c_indptr c_indices c_data A].
    rewrite (concat_slices (fun i => nth i ip 0%nat)); auto.
    - rewrite H4. apply firstn_all2. lia.
    - rewrite H4. lia. }
  rewrite Hc. unfold A. f_equal.
  - assert (Hl : map (@length (nat * R)) (tab r (csr_row A)) = tab r (fun i => nth (S i) ip 0 - nth i ip 0)%nat).
    { rewrite map_tab. apply tab_ext. intros i Hi. unfold csr_row. cbn [c_indptr c_indices c_data A].
      pose proof (Hmono (S i) r ltac:(lia) ltac:(lia)). apply slice_length; [apply H3; auto|rewrite Hcomb; lia]. }
    fold A. rewrite Hl. apply (list_ext 0%nat).
    + simpl. rewrite accumulate_length, tab_length. auto.
    + intros i Hi. rewrite nth_indptr by (rewrite tab_length; lia).
      symmetry. apply (nsum_firstn_tab r _ (fun i => nth i ip 0%nat)); auto; [|lia].
      intros k Hk. specialize (H3 k Hk). lia.
  - clear -H5. revert d H5. induction ix as [|x ix IH]; intros [|y d] H; simpl in *; try lia; auto. f_equal. apply IH. lia.
  - clear -H5. revert d H5. induction ix as [|x ix IH]; intros [|y d] H; simpl in *; try lia; auto. f_equal. apply IH. lia.
Qed.

Lemma csr_row_in A i p : csr_wf A -> (i < c_r A)%nat -> In p (csr_row A i) -> (fst p < c_c A)%nat.
Proof.
  intros H Hi Hp. apply (wf_cols _ H). unfold csr_row, slice in Hp.
  assert (In p (combine (c_indices A) (c_data A))).
  { eapply skipn_In', firstn_In'. exact Hp. }
  destruct p. apply in_combine_l in H0. exact H0.
Qed.

(** Entries of [csr_of]. *)
Lemma filter_nz_get (F : nat -> R) js j :
  lsum (map (fun p => if Nat.eqb (fst p) j then snd p else 0)
    (filter (fun p : nat * R => if Req_EM_T (snd p) 0 then false else true) (map (fun j => (j, F j)) js)))
  = lsum (map (fun k => if Nat.eqb k j then F k else 0) js).
Proof.
  induction js as [|k js IH]; simpl; auto.
  destruct (Req_EM_T (F k) 0) as [E|E]; simpl.
  - rewrite IH. destruct (Nat.eqb k j); rewrite ?E; ring.
  - now rewrite IH.
Qed.

Lemma lsum_seq_delta n (F : nat -> R) j b :
  lsum (map (fun k => if Nat.eqb k j then F k else 0) (seq b n))
  = if (Nat.leb b j && Nat.ltb j (b + n))%bool then F j else 0.
Proof.
  revert b. induction n as [|n IH]; intros b; cbn [seq map lsum fold_right].
  - destruct (Nat.leb_spec b j), (Nat.ltb_spec j (b + 0)); simpl; auto; lia.
  - change (fold_right Rplus 0 ?l) with (lsum l). rewrite IH.
    destruct (Nat.eqb_spec b j) as [->|Hne].
    + destruct (Nat.leb_spec j j), (Nat.ltb_spec j (j + S n)), (Nat.leb_spec (S j) j); simpl; try lia. ring.
    + destruct (Nat.leb_spec b j), (Nat.ltb_spec j (b + S n)), (Nat.leb_spec (S b) j), (Nat.ltb_spec j (S b + n)); simpl; try lia; ring.
Qed.

Lemma csr_of_row r c F i : (i < r)%nat ->
  csr_row (csr_of r c F) i = filter (fun p => if Req_EM_T (snd p) 0 then false else true) (map (fun j => (j, F i j)) (seq 0 c)).
Proof. intros Hi. unfold csr_of. rewrite csr_row_from_rows by (now rewrite tab_length). now rewrite nth_tab. Qed.

Lemma csr_of_get r c F i j : (i < r)%nat -> csr_get (csr_of r c F) i j = if Nat.ltb j c then F i j else 0.
Proof.
  intros Hi. unfold csr_get. rewrite csr_of_row by auto. rewrite (filter_nz_get (F i)).
  rewrite lsum_seq_delta. reflexivity.
Qed.

Lemma csr_of_wf r c F : csr_wf (csr_of r c F).
Proof.
  apply csr_from_rows_wf. intros row p Hr Hp. apply in_tab in Hr. destruct Hr as [i [Hi ->]].
  apply filter_In in Hp. destruct Hp as [Hp _]. apply in_map_iff in Hp. destruct Hp as [j [<- Hj]].
  apply in_seq in Hj. simpl. lia.
Qed.

Lemma csr_of_shape r c F : c_r (csr_of r c F) = r /\ c_c (csr_of r c F) = c.
Proof. unfold csr_of, csr_from_rows. simpl. now rewrite tab_length. Qed.

(** The stored entries of a row of [csr_of] are its nonzero columns. *)
Lemma csr_of_row_cols r c F i : (i < r)%nat ->
  NoDup (map fst (csr_row (csr_of r c F) i)) /\
  forall j, In j (map fst (csr_row (csr_of r c F) i)) -> (j < c)%nat /\ F i j <> 0.
Proof.
  intros Hi. rewrite csr_of_row by auto. split.
  - assert (Hs : forall js, NoDup js -> NoDup (map fst (filter (fun p : nat * R => if Req_EM_T (snd p) 0 then false else true) (map (fun j => (j, F i j)) js)))).
    { induction js as [|j js IH]; intros Hn; simpl; [constructor|]. inversion Hn; subst.
      destruct (Req_EM_T (F i j) 0); simpl; auto. constructor; auto.
      intros Hin. apply in_map_iff in Hin. destruct Hin as [p [Hp1 Hp2]]. apply filter_In in Hp2.
      destruct Hp2 as [Hp2 _]. apply in_map_iff in Hp2. destruct Hp2 as [k [<- Hk]]. simpl in Hp1. subst. contradiction. }
    apply Hs, seq_NoDup.
  - intros j Hj. apply in_map_iff in Hj. destruct Hj as [p [<- Hp]]. apply filter_In in Hp. destruct Hp as [Hp1 Hp2].
    apply in_map_iff in Hp1. destruct Hp1 as [k [<- Hk]]. apply in_seq in Hk. simpl in *. split; [lia|].
    destruct (Req_EM_T (F i k) 0); [discriminate|auto].
Qed.

(** One stored entry per row. *)
Lemma single_row n c cols data i : length cols = n -> length data = n -> (i < n)%nat ->
  csr_row (mk_csr n c (seq 0 (n + 1)) cols data) i = [(nth i cols 0%nat, vget data i)].
Proof.
  intros Hc Hd Hi. unfold csr_row. cbn [c_indptr c_indices c_data].
  rewrite !seq_nth by lia. cbn [Nat.add]. unfold slice. replace (S i - i)%nat with 1%nat by lia.
  assert (Hl : (i < length (combine cols data))%nat) by (rewrite combine_length; lia).
  transitivity [nth i (combine cols data) (0%nat, 0)].
  - generalize dependent (combine cols data). intros l Hl. clear -Hl. revert i Hl.
    induction l as [|x l IH]; intros i Hl; simpl in Hl; [lia|]. destruct i; [reflexivity|].
    cbn [skipn nth]. apply IH. lia.
  - rewrite combine_nth by lia. reflexivity.
Qed.

Lemma csr_zero_row r c i : csr_row (csr_zero r c) i = [].
Proof. unfold csr_row, csr_zero, slice. cbn [c_indices c_data combine]. rewrite skipn_nil. apply firstn_nil. Qed.

Lemma csr_zero_get r c i j : csr_get (csr_zero r c) i j = 0.
Proof. unfold csr_get. now rewrite csr_zero_row. Qed.

Lemma csr_zero_wf r c : csr_wf (csr_zero r c).
Proof.
  constructor; cbn [csr_zero c_indptr c_indices c_data c_r c_c].
  - now rewrite repeat_length.
  - reflexivity.
  - intros i Hi. assert (H : forall k n, nth k (repeat 0%nat n) 0%nat = 0%nat).
    { intros k n. revert k. induction n; intros [|k]; simpl; auto. }
    rewrite !H. lia.
  - assert (H : forall k n, nth k (repeat 0%nat n) 0%nat = 0%nat).
    { intros k n. revert k. induction n; intros [|k]; simpl; auto. }
    apply H.
  - reflexivity.
  - intros j [].
Qed.

(** [dot] with a vector, entrywise. *)
Lemma row_dot c (row : list (nat * R)) phi : (forall p, In p row -> (fst p < c)%nat) ->
  lsum (map (fun p => snd p * phi (fst p)) row)
  = Rsum c (fun j => lsum (map (fun p => if Nat.eqb (fst p) j then snd p else 0) row) * phi j).
Proof.
  induction row as [|[k v] row IH]; intros H; cbn [map lsum fold_right].
  - symmetry. apply Rsum_zero. intros. ring.
  - change (fold_right Rplus 0 ?l) with (lsum l). rewrite IH by (intros; apply H; simpl; auto).
    cbn [fst snd].
    rewrite (Rsum_ext c (fun j => ((if Nat.eqb k j then v else 0) + lsum _) * phi j)
      (fun j => (if Nat.eqb k j then v * phi j else 0) + lsum (map (fun p => if Nat.eqb (fst p) j then snd p else 0) row) * phi j)).
    + rewrite Rsum_plus. f_equal. specialize (H (k, v) (or_introl eq_refl)). simpl in H.
      rewrite (Rsum_ext c _ (fun j => if Nat.eqb j k then v * phi j else 0)).
      * now rewrite (Rsum_delta c k (fun j => v * phi j)).
      * intros j Hj. now rewrite Nat.eqb_sym.
    + intros j Hj. destruct (Nat.eqb k j); ring.
Qed.

Lemma csr_dot1_get A x i : csr_wf A -> (i < c_r A)%nat ->
  vget (csr_dot1 A x) i = Rsum (c_c A) (fun j => csr_get A i j * vget x j).
Proof.
  intros H Hi. unfold csr_dot1. rewrite vget_tab by auto. unfold csr_get.
  apply (row_dot (c_c A) (csr_row A i) (vget x)). intros p Hp. now apply (csr_row_in A i).
Qed.
