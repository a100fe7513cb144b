(** Proofs about the utility functions. *)

From Coq Require Import Reals List Arith Lia Lra Sorting.Permutation.
From Verif Require Import Base NDArray Model_Util Spec_Util.
Import ListNotations.
Open Scope R_scope.

(** ** accumulate *)

Lemma accumulate_from_length acc l : length (accumulate_from acc l) = length l.
Proof. revert acc. induction l as [|x l IH]; intros; simpl; auto. Qed.

Lemma accumulate_length l : length (accumulate l) = length l.
Proof. apply accumulate_from_length. Qed.

Lemma accumulate_from_nth acc l i :
  (i < length l)%nat -> nth i (accumulate_from acc l) O = (acc + nsum (firstn (S i) l))%nat.
Proof.
  revert acc i. induction l as [|x l IH]; intros acc i Hi; simpl in *; [lia|].
  destruct i as [|i]; simpl; [lia|]. rewrite IH by lia. simpl. lia.
Qed.

Lemma accumulate_nth l i :
  (i < length l)%nat -> nth i (accumulate l) O = nsum (firstn (S i) l).
Proof. intros. unfold accumulate. rewrite accumulate_from_nth; auto. Qed.

Lemma accumulate_from_last acc l :
  l <> [] -> last (accumulate_from acc l) O = (acc + nsum l)%nat.
Proof.
  revert acc. induction l as [|x l IH]; intros acc H; [congruence|].
  destruct l as [|y l]; simpl; [lia|].
  specialize (IH (acc + x)%nat). simpl in IH. rewrite IH by congruence. lia.
Qed.

Lemma accumulate_last l : l <> [] -> last (accumulate l) O = nsum l.
Proof. intros. unfold accumulate. rewrite accumulate_from_last; auto. Qed.

(** ** tesselate *)

Lemma slice_full {A} (a : list A) b : slice b (length a) a = skipn b a.
Proof.
  unfold slice. apply firstn_all2. rewrite skipn_length. lia.
Qed.

Lemma np_split_from_concat {A} (a : list A) lens acc :
  lens <> [] -> (acc + nsum lens = length a)%nat ->
  concat (np_split_from acc a (removelast (accumulate_from acc lens))) = skipn acc a /\
  map (@length A) (np_split_from acc a (removelast (accumulate_from acc lens))) = lens.
Proof.
  revert acc. induction lens as [|x lens IH]; intros acc Hne Hsum; [congruence|].
  destruct lens as [|y lens].
  - simpl in *. rewrite app_nil_r, slice_full, skipn_length. split; auto.
    f_equal. lia.
  - change (removelast (accumulate_from acc (x :: y :: lens)))
      with ((acc + x)%nat :: removelast (accumulate_from (acc + x) (y :: lens))).
    cbn [np_split_from concat map].
    specialize (IH (acc + x)%nat ltac:(congruence)).
    assert (Hsum' : (acc + x + nsum (y :: lens))%nat = length a) by (simpl in *; lia).
    specialize (IH Hsum'). destruct IH as [IH1 IH2].
    rewrite IH1, IH2. split.
    + unfold slice. replace (acc + x - acc)%nat with x by lia.
      rewrite <- (firstn_skipn x (skipn acc a)) at 2. f_equal.
      rewrite skipn_add. reflexivity.
    + f_equal. rewrite slice_length; simpl in *; lia.
Qed.

Lemma tesselate_ok {A} (a : list A) lens :
  lens <> [] -> nsum lens = length a ->
  exists segs, tesselate a lens = Ok segs /\ splits_as a lens segs.
Proof.
  intros Hne Hsum. unfold tesselate.
  destruct (accumulate lens) as [|e es] eqn:E.
  - apply (f_equal (@length nat)) in E. rewrite accumulate_length in E.
    destruct lens; simpl in E; congruence.
  - rewrite <- E, accumulate_last by auto.
    rewrite Hsum, Nat.eqb_refl. eexists. split; [reflexivity|].
    apply (np_split_from_concat a lens 0%nat); auto.
Qed.

Lemma tesselate_err {A} (a : list A) lens :
  lens = [] \/ nsum lens <> length a -> tesselate a lens = Err ValueError.
Proof.
  intros H. unfold tesselate.
  destruct (accumulate lens) as [|e es] eqn:E; auto.
  assert (Hne : lens <> []) by (intros ->; discriminate).
  rewrite <- E, accumulate_last by auto.
  destruct (Nat.eqb_spec (length a) (nsum lens)) as [He|He]; auto.
  destruct H; congruence.
Qed.

(** Segments are determined by their concatenation and lengths. *)
Lemma splits_as_unique {A} (a : list A) lens s1 s2 :
  splits_as a lens s1 -> splits_as a lens s2 -> s1 = s2.
Proof.
  unfold splits_as. revert a lens s2. induction s1 as [|x s1 IH]; intros a lens s2 [H1 H2] [H3 H4].
  - simpl in H2. subst lens. destruct s2; simpl in H4; congruence.
  - destruct lens as [|n lens]; simpl in H2; [discriminate|].
    destruct s2 as [|y s2]; simpl in H4; [discriminate|].
    simpl in H1, H3. injection H2 as Hx Hs1. injection H4 as Hy Hs2.
    assert (Hxy : x = y /\ concat s1 = concat s2).
    { clear -H1 H3 Hx Hy. subst a. subst n. revert y Hy H3. 
      induction x as [|u x IHx]; intros [|v y] Hy H3; simpl in *; try discriminate.
      - auto.
      - injection H3 as -> H3. destruct (IHx y) as [-> Hc]; auto. }
    destruct Hxy as [-> Hc]. f_equal. apply (IH (concat s1) lens); auto.
Qed.

(** ** search_descending *)

Lemma any_diff_pos_false xs : any_diff_pos xs = false <-> weakly_decreasing xs.
Proof.
  split.
  - intros H i j Hij Hj. revert i j Hij Hj.
    assert (Hstep : forall k, (S k < length xs)%nat -> nth (S k) xs 0 <= nth k xs 0).
    { induction xs as [|x xs IH]; intros k Hk; simpl in Hk; [lia|].
      destruct xs as [|y xs]; simpl in Hk; [lia|].
      cbn [any_diff_pos] in H. destruct (Rlt_dec 0 (y - x)) as [|Hn]; [discriminate|].
      destruct k as [|k]; [simpl; lra|].
      change (nth (S (S k)) (x :: y :: xs) 0) with (nth (S k) (y :: xs) 0).
      change (nth (S k) (x :: y :: xs) 0) with (nth k (y :: xs) 0).
      apply IH; auto. simpl. lia. }
    intros i j Hij. induction Hij as [|j Hij IHj]; intros Hj.
    + apply Hstep; auto.
    + eapply Rle_trans; [apply Hstep; auto|]. apply IHj. lia.
  - induction xs as [|x xs IH]; intros H; auto.
    destruct xs as [|y xs]; auto. cbn [any_diff_pos].
    pose proof (H 0%nat 1%nat) as H01. simpl in H01.
    destruct (Rlt_dec 0 (y - x)) as [Hlt|_].
    + specialize (H01 ltac:(lia) ltac:(lia)). lra.
    + apply IH. intros i j Hij Hj.
      apply (H (S i) (S j)); simpl in *; lia.
Qed.

(** Binary search on a monotone predicate finds the boundary. *)
Lemma binsearch_spec (p : R -> bool) a fuel lo hi :
  (forall i j, (i <= j)%nat -> (j < length a)%nat -> p (vget a j) = true -> p (vget a i) = true) ->
  (lo <= hi)%nat -> (hi <= length a)%nat -> (hi - lo <= fuel)%nat ->
  (forall i, (i < lo)%nat -> p (vget a i) = true) ->
  (forall i, (hi <= i)%nat -> (i < length a)%nat -> p (vget a i) = false) ->
  let r := binsearch fuel p a lo hi in
  (r <= length a)%nat /\
  (forall i, (i < r)%nat -> p (vget a i) = true) /\
  (forall i, (r <= i)%nat -> (i < length a)%nat -> p (vget a i) = false).
Proof.
  intros Hmono. revert lo hi. induction fuel as [|fuel IH]; intros lo hi Hlh Hh Hf Hlo Hhi; cbn [binsearch]; cbv zeta.
  - assert (lo = hi) by lia. subst hi. auto.
  - destruct (Nat.ltb_spec lo hi) as [Hlt|Hge].
    + assert (Hdiv : ((hi - lo) / 2 < hi - lo)%nat) by (apply Nat.div_lt; lia).
      set (mid := (lo + (hi - lo) / 2)%nat) in *.
      destruct (p (vget a mid)) eqn:E.
      * apply IH; try lia; auto. intros i Hi. apply Hmono with mid; auto; lia.
      * apply IH; try lia; auto. intros i Hi1 Hi2.
        destruct (p (vget a i)) eqn:E2; auto.
        rewrite (Hmono mid i) in E; auto. 
    + assert (lo = hi) by lia. subst hi. auto.
Qed.

Lemma nth_rev_R (l : list R) i :
  (i < length l)%nat -> nth i (rev l) 0 = nth (length l - 1 - i) l 0.
Proof. intros. rewrite rev_nth by auto. f_equal. lia. Qed.

Lemma search_descending_ok x xs inclusive :
  weakly_decreasing xs ->
  exists i, search_descending x xs inclusive = Ok i /\ largest_prefix x xs inclusive i.
Proof.
  intros Hwd. unfold search_descending.
  rewrite (proj2 (any_diff_pos_false xs) Hwd).
  set (p := fun y => if inclusive then Rltb y x else Rleb y x).
  unfold np_searchsorted. fold p.
  set (n := length xs).
  assert (Hrl : length (rev xs) = n) by apply rev_length.
  assert (Hget : forall i, (i < n)%nat -> vget (rev xs) i = nth (n - 1 - i) xs 0).
  { intros i Hi. unfold vget. apply nth_rev_R; auto. }
  pose proof (binsearch_spec p (rev xs) (length (rev xs)) 0 (length (rev xs))) as HB.
  assert (Hmono : forall i j, (i <= j)%nat -> (j < length (rev xs))%nat ->
            p (vget (rev xs) j) = true -> p (vget (rev xs) i) = true).
  { intros i j Hij Hj. rewrite Hrl in Hj. rewrite !Hget by lia.
    assert (Hle : nth (n - 1 - i) xs 0 <= nth (n - 1 - j) xs 0).
    { destruct (Nat.eq_dec i j) as [->|Hne]; [lra|].
      apply Hwd; unfold n in *; lia. }
    unfold p, Rltb, Rleb. destruct inclusive.
    - destruct (Rlt_dec (nth (n - 1 - j) xs 0) x), (Rlt_dec (nth (n - 1 - i) xs 0) x);
        auto; try discriminate; lra.
    - destruct (Rle_dec (nth (n - 1 - j) xs 0) x), (Rle_dec (nth (n - 1 - i) xs 0) x);
        auto; try discriminate; lra. }
  specialize (HB Hmono). cbv zeta in HB.
  set (r := binsearch (length (rev xs)) p (rev xs) 0 (length (rev xs))) in *.
  destruct HB as [Hr [Ht Hf]]; try lia.
  exists (n - r)%nat. split; auto.
  assert (Hmemb : forall k, (k < n)%nat ->
     ((if inclusive then x <= nth k xs 0 else x < nth k xs 0) <-> (k < n - r)%nat)).
  { intros k Hk. set (i := (n - 1 - k)%nat).
    assert (Hi : nth k xs 0 = vget (rev xs) i).
    { rewrite Hget by (unfold i; lia). f_equal. unfold i. lia. }
    rewrite Hi. split.
    - intros HP. destruct (le_lt_dec (n - r) k) as [Hge|]; auto.
      specialize (Ht i). unfold p, Rltb, Rleb in Ht.
      assert (Hir : (i < r)%nat) by (unfold i; lia).
      specialize (Ht Hir). destruct inclusive.
      + destruct (Rlt_dec (vget (rev xs) i) x); [lra|discriminate].
      + destruct (Rle_dec (vget (rev xs) i) x); [lra|discriminate].
    - intros Hlt. specialize (Hf i). unfold p, Rltb, Rleb in Hf.
      assert (Hir : (r <= i)%nat) by (unfold i; lia).
      specialize (Hf Hir ltac:(unfold i; lia)). destruct inclusive.
      + destruct (Rlt_dec (vget (rev xs) i) x); [discriminate|lra].
      + destruct (Rle_dec (vget (rev xs) i) x); [discriminate|lra]. }
  split.
  - split; [unfold n; lia|]. intros k Hk. apply Hmemb; lia.
  - intros i' [Hi' HP]. fold n in Hi'. destruct (le_lt_dec i' (n - r)) as [|Hlt]; auto.
    exfalso. specialize (HP (n - r)%nat Hlt).
    apply Hmemb in HP; lia.
Qed.

Lemma search_descending_err x xs inclusive :
  ~ weakly_decreasing xs -> search_descending x xs inclusive = Err ValueError.
Proof.
  intros H. unfold search_descending. destruct (any_diff_pos xs) eqn:E; auto.
  apply any_diff_pos_false in E. contradiction.
Qed.

(** ** map_entries *)

Lemma sort_axes_sorted key l :
  (forall i j, (i < j)%nat -> (j < length l)%nat -> (key (nth j l O) <= key (nth i l O))%nat) ->
  sort_axes key l = l.
Proof.
  induction l as [|x l IH]; intros H; simpl; auto.
  rewrite IH.
  - destruct l as [|y l]; simpl; auto.
    pose proof (H 0%nat 1%nat ltac:(lia) ltac:(simpl; lia)) as H01. simpl in H01.
    apply Nat.leb_le in H01. rewrite H01. reflexivity.
  - intros i j Hij Hj. apply (H (S i) (S j)); simpl; lia.
Qed.

Lemma index_of_seq p b n : (b <= p < b + n)%nat -> index_of p (seq b n) = (p - b)%nat.
Proof.
  revert b. induction n as [|n IH]; intros b H; [lia|]. simpl.
  destruct (Nat.eqb_spec p b) as [->|Hne]; [lia|].
  rewrite IH by lia. lia.
Qed.

Lemma c_strides_ravel s idx : idx_in s idx -> idx_dot idx (c_strides s) = ravel_idx s idx.
Proof.
  revert idx. induction s as [|n s IH]; intros [|i idx]; simpl; try tauto.
  intros [_ H]. rewrite IH by auto. reflexivity.
Qed.

Lemma tab_nth_self (l : list nat) : tab (length l) (fun p => nth p l O) = l.
Proof. symmetry. apply list_as_tab. Qed.

(** Layouts whose axes are already ordered by decreasing stride (C order,
    including strided slices of C-ordered arrays). *)
Definition c_like {A} (a : ndarray A) : Prop :=
  length (nd_strides a) = length (nd_shape a) /\
  forall i j, (i < j)%nat -> (j < length (nd_strides a))%nat ->
    (nth j (nd_strides a) O <= nth i (nd_strides a) O)%nat.

Lemma nditer_c_like {A} (a : ndarray A) :
  c_like a -> nditer a = map (nd_get a) (indices (nd_shape a)).
Proof.
  intros [Hlen Hdec]. unfold nditer.
  rewrite sort_axes_sorted.
  2:{ intros i j Hij Hj. rewrite seq_length in Hj.
      rewrite !seq_nth by lia. simpl. apply Hdec; lia. }
  replace (map (fun p => nth p (nd_shape a) 0%nat) (seq 0 (length (nd_shape a))))
    with (nd_shape a) by (symmetry; apply tab_nth_self).
  apply map_ext_in. intros idx Hin. apply in_indices in Hin.
  f_equal. rewrite <- (idx_in_length _ _ Hin) at 1.
  rewrite <- (tab_nth_self idx) at 2.
  apply tab_ext. intros p Hp.
  rewrite index_of_seq by (rewrite <- (idx_in_length _ _ Hin); lia).
  rewrite Nat.sub_0_r. reflexivity.
Qed.

Lemma map_entries_pointwise {A} (f : A -> A) (a : ndarray A) idx :
  c_like a -> idx_in (nd_shape a) idx ->
  nd_shape (map_entries f a) = nd_shape a /\
  nd_get (map_entries f a) idx = f (nd_get a idx).
Proof.
  intros Hc Hin. unfold map_entries.
  pose proof (ravel_lt _ _ Hin) as Hlt.
  destruct (Nat.eqb_spec (nprod (nd_shape a)) 0) as [Hz|Hz]; [lia|].
  split; [reflexivity|]. unfold nd_get at 1. simpl.
  rewrite c_strides_ravel by auto. rewrite nditer_c_like by auto.
  rewrite map_map.
  rewrite (nth_indep _ _ (f (nd_get a []))) by (rewrite map_length, indices_length; auto).
  rewrite (map_nth (fun i => f (nd_get a i))).
  rewrite nth_indices by auto. rewrite unravel_ravel by auto. reflexivity.
Qed.

Lemma map_entries_shape {A} (f : A -> A) (a : ndarray A) :
  nd_shape (map_entries f a) = nd_shape a.
Proof. unfold map_entries. destruct (Nat.eqb _ _); reflexivity. Qed.

(** A transposed 2x2 array (strides 1, 2 over the buffer 0,1,2,3). *)
Definition fortran_2x2 : ndarray nat := mk_nd [2;2]%nat [1;2]%nat 0 (fun k => k).

Lemma map_entries_fortran_wrong :
  nd_get (map_entries (fun x => x) fortran_2x2) [0;1]%nat
  <> (fun x => x) (nd_get fortran_2x2 [0;1]%nat).
Proof. vm_compute. discriminate. Qed.

(** ** symm_2d_list_map *)

Section Symm.
Context {A B : Type} (f : A -> B) (arr : nat -> nat -> A) (D : nat).

Let inner (i : nat) (out : nat -> nat -> option B) (js : list nat) :=
  fold_left (fun out j =>
      let out1 := upd2 out i j (Some (f (arr i j))) in
      upd2 out1 j i (out1 i j)) js out.

Lemma inner_spec i out js a b :
  inner i out js a b =
  if (Nat.eqb a i && existsb (Nat.eqb b) js)%bool then Some (f (arr i b))
  else if (Nat.eqb b i && existsb (Nat.eqb a) js)%bool then Some (f (arr i a))
  else out a b.
Proof.
  revert out. induction js as [|j js IH]; intros out; simpl.
  - rewrite !Bool.andb_false_r. reflexivity.
  - rewrite IH. clear IH. unfold upd2. rewrite !Nat.eqb_refl. simpl.
    destruct (Nat.eqb_spec a i) as [->|Hai]; destruct (Nat.eqb_spec b i) as [->|Hbi];
      simpl;
      destruct (existsb (Nat.eqb i) js); destruct (Nat.eqb_spec i j) as [<-|Hij]; simpl;
      repeat match goal with
      | |- context [existsb ?p js] => destruct (existsb p js) eqn:?; simpl
      | |- context [Nat.eqb ?x ?y] => destruct (Nat.eqb_spec x y); subst; simpl
      end; auto; try congruence; try lia.
Qed.

Lemma symm_2d_spec a b :
  (a < D)%nat -> (b < D)%nat ->
  symm_2d_list_map f arr D a b = Some (f (arr (Nat.min a b) (Nat.max a b))).
Proof.
  intros Ha Hb. unfold symm_2d_list_map.
  assert (H : forall l out, NoDup l ->
     fold_left (fun out i => inner i out (seq i (D - i))) l out a b =
     if existsb (Nat.eqb (Nat.min a b)) l
     then Some (f (arr (Nat.min a b) (Nat.max a b))) else out a b).
  { induction l as [|i l IH]; intros out Hnd; simpl; auto.
    inversion Hnd; subst. rewrite IH by auto. rewrite inner_spec.
    assert (Hex : forall x, (x < D)%nat -> existsb (Nat.eqb x) (seq i (D - i)) = (i <=? x)%nat).
    { intros x Hx. destruct (Nat.leb_spec i x).
      - apply existsb_exists. exists x. split; [apply in_seq; lia|apply Nat.eqb_refl].
      - destruct (existsb (Nat.eqb x) (seq i (D - i))) eqn:E; auto.
        apply existsb_exists in E. destruct E as [y [Hy1 Hy2]].
        apply in_seq in Hy1. apply Nat.eqb_eq in Hy2. lia. }
    rewrite !Hex by auto.
    destruct (existsb (Nat.eqb (Nat.min a b)) l) eqn:E.
    - rewrite Bool.orb_true_r. reflexivity.
    - rewrite Bool.orb_false_r.
      destruct (Nat.eqb_spec (Nat.min a b) i) as [He|He].
      + destruct (Nat.eqb_spec a i) as [->|Hai]; simpl.
        * destruct (Nat.leb_spec i b) as [Hle|]; [|lia].
          replace (Nat.min i b) with i by lia. replace (Nat.max i b) with b by lia.
          reflexivity.
        * destruct (Nat.eqb_spec b i) as [->|Hbi]; simpl; [|lia].
          destruct (Nat.leb_spec i a) as [Hle|]; [|lia].
          replace (Nat.min a i) with i by lia. replace (Nat.max a i) with a by lia.
          reflexivity.
      + destruct (Nat.eqb_spec a i) as [->|Hai]; simpl;
          destruct (Nat.leb_spec i b); simpl; try lia; auto;
          destruct (Nat.eqb_spec b i) as [->|Hbi]; simpl; try lia; auto;
          try (destruct (Nat.leb_spec i a); simpl; try lia; auto). }
  specialize (H (seq 0 D) (fun _ _ => None) (seq_NoDup D 0)).
  unfold inner in H. rewrite H.
  replace (existsb (Nat.eqb (Nat.min a b)) (seq 0 D)) with true; auto.
  symmetry. apply existsb_exists. exists (Nat.min a b). split; [apply in_seq; lia|].
  apply Nat.eqb_refl.
Qed.
End Symm.

(** ** begin_end_indices *)

Lemma begin_end_ok lens :
  lens <> [] ->
  exists begins ends, begin_end_indices lens = Ok (begins, ends) /\
    contiguous_ranges lens begins ends.
Proof.
  intros Hne. unfold begin_end_indices.
  destruct (accumulate lens) as [|e es] eqn:E.
  { apply (f_equal (@length nat)) in E. rewrite accumulate_length in E.
    destruct lens; simpl in E; congruence. }
  rewrite <- E. do 2 eexists. split; [reflexivity|].
  assert (Hlen : length (accumulate lens) = length lens) by apply accumulate_length.
  assert (Hpos : (0 < length lens)%nat) by (destruct lens; simpl; [congruence|lia]).
  assert (Hacc : accumulate lens <> []) by (rewrite E; discriminate).
  assert (Hrl : length (removelast (accumulate lens)) = (length lens - 1)%nat).
  { pose proof (app_removelast_last O Hacc) as Ha.
    apply (f_equal (@length nat)) in Ha. rewrite app_length, Hlen in Ha. simpl in Ha. lia. }
  assert (Hrn : forall i, (S i < length lens)%nat ->
            nth i (removelast (accumulate lens)) O = nth i (accumulate lens) O).
  { intros i Hi. rewrite (app_removelast_last O Hacc) at 2. rewrite app_nth1 by lia. reflexivity. }
  unfold contiguous_ranges. repeat split.
  - simpl. lia.
  - auto.
  - intros i Hi. cbn [nth]. apply Hrn; auto.
  - intros i Hi. rewrite accumulate_nth by auto. destruct i as [|i]; cbn [nth].
    + destruct lens as [|x lens]; simpl; lia.
    + rewrite Hrn, accumulate_nth by lia.
      clear -Hi. revert lens Hi. induction i as [|i IH]; intros [|x lens] Hi; simpl in Hi; try lia.
      * destruct lens as [|y lens]; simpl in *; lia.
      * specialize (IH lens ltac:(lia)). cbn [firstn nsum fold_right nth] in *.
        unfold nsum in *. rewrite IH. lia.
  - apply accumulate_last. auto.
Qed.

Lemma begin_end_nil : begin_end_indices [] = Err IndexError.
Proof. reflexivity. Qed.

(** ** chunks *)

Lemma chunks_ok {A} (l : list A) n :
  (0 < n)%nat ->
  exists cs, chunks l n = Ok cs /\ concat cs = l /\
    (forall k, (S k < length cs)%nat -> length (nth k cs []) = n) /\
    (forall k, (k < length cs)%nat -> (0 < length (nth k cs []) <= n)%nat).
Proof.
  intros Hn. unfold chunks. destruct n as [|n']; [lia|]. set (n := S n') in *.
  eexists. split; [reflexivity|].
  set (L := length l).
  set (c := ((L + n - 1) / n)%nat).
  assert (Hc : (L <= c * n <= L + n - 1)%nat).
  { unfold c. pose proof (Nat.div_mod (L + n - 1) n ltac:(lia)) as Hd.
    pose proof (Nat.mod_upper_bound (L + n - 1) n ltac:(lia)) as Hm.
    set (q := ((L + n - 1) / n)%nat) in *. set (r := ((L + n - 1) mod n)%nat) in *.
    clearbody q r. rewrite (Nat.mul_comm q n). lia. }
  assert (Hsl : forall k, length (slice (k * n) (k * n + n) l) = Nat.min n (L - k * n)).
  { intros k. unfold slice. rewrite firstn_length, skipn_length. fold L. lia. }
  assert (Hcat : forall k, concat (tab k (fun k => slice (k * n) (k * n + n) l)) = firstn (k * n) l).
  { induction k as [|k IH]; [reflexivity|].
    rewrite tab_S, concat_app, IH. cbn [concat]. rewrite app_nil_r.
    unfold slice. replace (k * n + n - k * n)%nat with n by lia.
    replace (S k * n)%nat with (k * n + n)%nat by lia.
    clear. generalize (k * n)%nat as m. intros m. revert m l n.
    induction m as [|m IHm]; intros l n; simpl; auto.
    destruct l as [|x l]; [destruct n; reflexivity|].
    simpl. rewrite IHm. reflexivity. }
  split; [|split].
  - rewrite Hcat. apply firstn_all2. fold L. lia.
  - intros k Hk. rewrite tab_length in Hk. rewrite nth_tab by lia. rewrite Hsl.
    assert (Hkn : ((k + 2) * n <= c * n)%nat) by (apply Nat.mul_le_mono_r; lia).
    rewrite Nat.mul_add_distr_r in Hkn. lia.
  - intros k Hk. rewrite tab_length in Hk. rewrite nth_tab by lia. rewrite Hsl.
    assert (Hkn : ((k + 1) * n <= c * n)%nat) by (apply Nat.mul_le_mono_r; lia).
    rewrite Nat.mul_add_distr_r in Hkn. lia.
Qed.

Lemma chunks_zero {A} (l : list A) : chunks l 0 = Err ValueError.
Proof. reflexivity. Qed.

(** ** cartesian_product *)

Lemma cart_length arrays : length (cart arrays) = nprod (map (@length R) arrays).
Proof.
  induction arrays as [|a rest IH]; simpl; auto. rewrite <- IH.
  generalize (cart rest) as c. intros c. induction a as [|x a IHa]; simpl; auto.
  rewrite app_length, map_length, IHa. reflexivity.
Qed.

Lemma cart_tab arrays :
  cart arrays = tab (nprod (map (@length R) arrays)) (fun k =>
     tab (length arrays) (fun i =>
       nth (nth i (unravel (map (@length R) arrays) k) O) (nth i arrays []) 0)).
Proof.
  induction arrays as [|a rest IH]; [reflexivity|].
  cbn [cart map nprod fold_right length]. fold (nprod (map (@length R) rest)).
  set (P := nprod (map (@length R) rest)).
  transitivity (concat (tab (length a) (fun i => tab P (fun k => 
     nth i a 0 :: tab (length rest) (fun i => 
       nth (nth i (unravel (map (@length R) rest) k) O) (nth i rest []) 0))))).
  - rewrite flat_map_concat_map. f_equal.
    rewrite (list_as_tab 0 a) at 1. rewrite map_tab. apply tab_ext. intros i Hi.
    rewrite IH, map_tab. reflexivity.
  - destruct (Nat.eq_dec P 0) as [Hz|Hz].
    + rewrite Hz, Nat.mul_0_r. unfold tab at 2. simpl.
      unfold tab. generalize (seq 0 (length a)). induction l; simpl; auto.
    + rewrite concat_tab_tab by lia. apply tab_ext. intros k Hk.
      rewrite tab_S_l. cbn [unravel nth]. fold P. reflexivity.
Qed.

Lemma cartesian_product_ok arrays :
  arrays <> [] -> cartesian_product arrays = Ok (cart arrays).
Proof.
  intros H. unfold cartesian_product. destruct arrays; [congruence|].
  rewrite cart_tab. reflexivity.
Qed.

Lemma in_cart arrays row :
  In row (cart arrays) <-> Forall2 (fun x a => In x a) row arrays.
Proof.
  revert row. induction arrays as [|a rest IH]; intros row; simpl.
  - split; [intros [<-|[]]; constructor|]. inversion 1; auto.
  - rewrite in_flat_map. split.
    + intros [x [Hx Hr]]. apply in_map_iff in Hr. destruct Hr as [r [<- Hr]].
      constructor; auto. now apply IH.
    + inversion 1; subst. eexists. split; [eassumption|]. apply in_map. now apply IH.
Qed.

(** ** InlinePool.starmap *)

Lemma map_result_all_ok {A B} (f : A -> result B) (g : A -> B) ls :
  (forall x, In x ls -> f x = Ok (g x)) -> map_result f ls = Ok (map g ls).
Proof.
  induction ls as [|x ls IH]; intros H; simpl; auto.
  rewrite H by (simpl; auto). simpl. rewrite IH by (intros; apply H; simpl; auto). reflexivity.
Qed.

Lemma map_result_err {A B} (f : A -> result B) ls :
  (exists x e, In x ls /\ f x = Err e) -> exists e, map_result f ls = Err e.
Proof.
  induction ls as [|y ls IH]; intros [x [e [Hin He]]]; [destruct Hin|].
  simpl. destruct (f y) as [b|e'] eqn:E; simpl; [|eauto].
  destruct Hin as [->|Hin]; [congruence|].
  destruct IH as [e' He']; [eauto|]. rewrite He'. simpl. eauto.
Qed.

Lemma concat_map_map {A B} (g : A -> B) (cs : list (list A)) :
  concat (map (map g) cs) = map g (concat cs).
Proof. symmetry. apply concat_map. Qed.

Lemma pool_fold_ok {A B} (f : A -> result B) (g : A -> B) cs sched st :
  (forall c x, In c cs -> In x c -> f x = Ok (g x)) ->
  (forall i, In i sched -> (i < length cs)%nat) ->
  let st' := fold_left (pool_step f cs) sched st in
  ps_err st' = ps_err st /\
  forall i, ps_slots st' i =
    if existsb (Nat.eqb i) sched then Some (map g (nth i cs [])) else ps_slots st i.
Proof.
  intros Hok. revert st. induction sched as [|j sched IH]; intros st Hb; simpl; auto.
  assert (Hj : map_result f (nth j cs []) = Ok (map g (nth j cs []))).
  { apply map_result_all_ok. intros x Hx. apply (Hok (nth j cs [])); auto.
    apply nth_In. apply Hb. simpl. auto. }
  specialize (IH (pool_step f cs st j) (fun i Hi => Hb i (or_intror Hi))).
  destruct IH as [IH1 IH2].
  assert (Hst : pool_step f cs st j =
     mk_pool (fun k => if Nat.eqb k j then Some (map g (nth j cs [])) else ps_slots st k) (ps_err st))
    by (unfold pool_step; rewrite Hj; reflexivity).
  split; [rewrite IH1, Hst; reflexivity|]. intros i. rewrite IH2, Hst. simpl.
  destruct (Nat.eqb_spec i j) as [->|Hne]; simpl; auto.
  destruct (existsb (Nat.eqb j) sched); reflexivity.
Qed.

Lemma pool_starmap_ok {A B} (f : A -> result B) (g : A -> B) ls chunksize sched cs :
  (forall x, In x ls -> f x = Ok (g x)) ->
  chunks ls chunksize = Ok cs ->
  Permutation sched (seq 0 (length cs)) ->
  pool_starmap chunksize sched f ls = Ok (map g ls).
Proof.
  intros Hok Hcs Hperm. unfold pool_starmap. rewrite Hcs. simpl.
  destruct chunksize as [|c']; [discriminate|].
  destruct (chunks_ok ls (S c') ltac:(lia)) as [cs' [Hcs' [Hcat _]]].
  rewrite Hcs in Hcs'. injection Hcs' as <-.
  assert (H1 : forall c x, In c cs -> In x c -> f x = Ok (g x)).
  { intros c x Hc Hx. apply Hok. rewrite <- Hcat. apply in_concat. eauto. }
  assert (H2 : forall i, In i sched -> (i < length cs)%nat).
  { intros i Hi. apply (Permutation_in _ Hperm) in Hi. apply in_seq in Hi. lia. }
  destruct (pool_fold_ok f g cs sched (mk_pool (fun _ => None) None) H1 H2) as [He Hs].
  simpl in He. rewrite He. f_equal.
  transitivity (concat (map (map g) cs)).
  - f_equal. rewrite (list_as_tab [] cs) at 2. rewrite map_tab. apply tab_ext.
    intros i Hi. rewrite Hs.
    replace (existsb (Nat.eqb i) sched) with true; auto.
    symmetry. apply existsb_exists. exists i. split; [|apply Nat.eqb_refl].
    apply (Permutation_in _ (Permutation_sym Hperm)). apply in_seq. lia.
  - rewrite concat_map_map, Hcat. reflexivity.
Qed.

Lemma pool_fold_err {A B} (f : A -> result B) cs sched st :
  (ps_err st <> None \/
   exists j e, In j sched /\ map_result f (nth j cs []) = Err e) ->
  ps_err (fold_left (pool_step f cs) sched st) <> None.
Proof.
  revert st. induction sched as [|j sched IH]; intros st H; simpl.
  - destruct H as [H|[j [e [[] _]]]]; auto.
  - apply IH. destruct H as [H|[k [e [[->|Hk] He]]]].
    + left. unfold pool_step. destruct (map_result f (nth j cs [])); simpl; auto.
      destruct (ps_err st); congruence.
    + left. unfold pool_step. rewrite He. simpl. destruct (ps_err st); congruence.
    + right. eauto.
Qed.

Lemma pool_starmap_err {A B} (f : A -> result B) ls chunksize sched cs :
  (exists x e, In x ls /\ f x = Err e) ->
  chunks ls chunksize = Ok cs ->
  Permutation sched (seq 0 (length cs)) ->
  exists e, pool_starmap chunksize sched f ls = Err e.
Proof.
  intros [x [e [Hin He]]] Hcs Hperm. unfold pool_starmap. rewrite Hcs. simpl.
  destruct chunksize as [|c']; [discriminate|].
  destruct (chunks_ok ls (S c') ltac:(lia)) as [cs' [Hcs' [Hcat _]]].
  rewrite Hcs in Hcs'. injection Hcs' as <-.
  assert (H : ps_err (fold_left (pool_step f cs) sched (mk_pool (fun _ => None) None)) <> None).
  { apply pool_fold_err. right. rewrite <- Hcat in Hin.
    apply in_concat in Hin. destruct Hin as [c [Hc Hx]].
    apply (In_nth _ _ []) in Hc. destruct Hc as [j [Hj Hcj]].
    destruct (map_result_err f c) as [e' He']; [eauto|].
    exists j, e'. split; [|congruence].
    apply (Permutation_in _ (Permutation_sym Hperm)). apply in_seq. lia. }
  destruct (ps_err _) as [e'|]; [eauto|congruence].
Qed.

(** ** Norm *)

Lemma lsum_map_scal (c : R) l : lsum (map (fun x => x * c) l) = lsum l * c.
Proof. induction l as [|x l IH]; simpl; [lra|]. rewrite IH. lra. Qed.

Lemma lsum_map_minus (c : R) l : lsum (map (fun x => x - c) l) = lsum l - INR (length l) * c.
Proof.
  induction l as [|x l IH]; [simpl; lra|].
  change (length (x :: l)) with (S (length l)). rewrite S_INR.
  cbn [map]. change (lsum (?a :: ?b)) with (a + lsum b). rewrite IH.
  change (lsum (x :: l)) with (x + lsum l). ring.
Qed.

Lemma inverse_normalize Y Z nY :
  np_std Y <> 0 -> normalize (Some (scale_by Y)) Z = Ok nY ->
  inverse_mean (scale_by Y) nY = Z.
Proof.
  intros Hs H. injection H as <-. unfold inverse_mean. rewrite map_map.
  rewrite <- (map_id Z) at 2. apply map_ext. intros z. simpl. field. auto.
Qed.

Lemma np_var_spec Y : np_var Y = sample_var Y.
Proof.
  unfold np_var, sample_var, sample_mean. rewrite map_length. reflexivity.
Qed.

Lemma lsum_sq_nonneg (l : list R) (c : R) : 0 <= lsum (map (fun y => (y - c) * (y - c)) l).
Proof.
  induction l as [|x l IH]; [simpl; lra|]. cbn [map].
  change (lsum (?a :: ?b)) with (a + lsum b).
  pose proof (Rle_0_sqr (x - c)) as H. unfold Rsqr in H. lra.
Qed.

Lemma np_var_nonneg Y : Y <> [] -> 0 <= np_var Y.
Proof.
  intros H. unfold np_var. apply Rmult_le_pos; [apply lsum_sq_nonneg|].
  apply Rlt_le, Rinv_0_lt_compat, lt_0_INR. destruct Y; simpl; [congruence|lia].
Qed.

Lemma normalize_standard Y nY :
  Y <> [] -> np_std Y <> 0 -> normalize (Some (scale_by Y)) Y = Ok nY ->
  sample_mean nY = 0 /\ sample_var nY = 1.
Proof.
  intros Hne Hs H. injection H as <-.
  assert (Hn : INR (length Y) <> 0).
  { apply not_0_INR. destruct Y; simpl; congruence. }
  simpl n_mean. simpl n_std.
  assert (Hm : sample_mean (map (fun y => (y - np_mean Y) / np_std Y) Y) = 0).
  { unfold sample_mean. change (fold_right Rplus 0) with lsum.
    rewrite map_length.
    replace (map (fun y => (y - np_mean Y) / np_std Y) Y)
      with (map (fun x => x * / np_std Y) (map (fun y => y - np_mean Y) Y))
      by (rewrite map_map; reflexivity).
    rewrite lsum_map_scal, lsum_map_minus. unfold np_mean. field. auto. }
  split; auto. unfold sample_var. rewrite Hm. rewrite map_map.
  unfold sample_mean. change (fold_right Rplus 0) with lsum. rewrite map_length.
  replace (map (fun x => ((x - np_mean Y) / np_std Y - 0)²) Y)
    with (map (fun x => x * / (np_std Y * np_std Y))
              (map (fun y => (y - np_mean Y) * (y - np_mean Y)) Y)).
  2:{ rewrite map_map. apply map_ext. intros y. unfold Rsqr. field. auto. }
  rewrite lsum_map_scal.
  assert (Hsq : np_std Y * np_std Y = np_var Y).
  { unfold np_std. apply sqrt_sqrt. now apply np_var_nonneg. }
  assert (Hv : np_var Y <> 0).
  { intros Hz. apply Hs. unfold np_std. rewrite Hz. apply sqrt_0. }
  rewrite Hsq. set (S := lsum _) in *.
  assert (HS : S = np_var Y * INR (length Y)).
  { unfold np_var. fold S. field. auto. }
  rewrite HS. field. auto.
Qed.
