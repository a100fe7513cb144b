(** Proofs about the heat maps. *)

From Coq Require Import Reals List Arith String Bool Lia Lra Permutation.
From Verif Require Import Base Model_Util Model_Heat Spec_Heat.
Import ListNotations.
Open Scope R_scope.
Local Notation len := List.length.

Definition ascending (l : list R) : Prop := forall i j, (i < j < len l)%nat -> nth i l 0 < nth j l 0.

Lemma asc_cons x l : ascending (x :: l) <-> (forall y, In y l -> x < y) /\ ascending l.
Proof.
  split.
  - intros H. split.
    + intros y Hy. destruct (In_nth l y 0 Hy) as [i [Hi <-]]. apply (H 0%nat (S i)). cbn. lia.
    + intros i j Hij. apply (H (S i) (S j)). cbn. lia.
  - intros [H1 H2] [|i] [|j] Hij; cbn in *; try lia; [apply H1, nth_In; lia|apply H2; lia].
Qed.

Lemma ins_in x l y : In y (ins x l) <-> y = x \/ In y l.
Proof.
  induction l as [|z t IH]; cbn; [intuition|].
  destruct (Rlt_dec x z); [cbn; intuition|]. destruct (Req_EM_T x z) as [->|]; cbn; rewrite ?IH; intuition.
Qed.

Lemma ins_asc x l : ascending l -> ascending (ins x l).
Proof.
  induction l as [|z t IH]; intros H; cbn.
  - intros i j Hij. cbn in Hij. lia.
  - destruct (Rlt_dec x z).
    + apply asc_cons. split; [|exact H]. apply asc_cons in H. destruct H as [H _]. intros y [<-|Hy]; [assumption|]. specialize (H y Hy). lra.
    + destruct (Req_EM_T x z); [exact H|]. apply asc_cons in H. destruct H as [H1 H2]. apply asc_cons. split; [|now apply IH].
      intros y Hy. apply ins_in in Hy. destruct Hy as [->|Hy]; [lra|now apply H1].
Qed.

Lemma levels_in l y : In y (levels l) <-> In y l.
Proof. induction l as [|x t IH]; cbn; [tauto|]. rewrite ins_in, IH. intuition. Qed.

Lemma levels_asc l : ascending (levels l).
Proof. induction l as [|x t IH]; cbn; [intros i j Hij; cbn in Hij; lia|now apply ins_asc]. Qed.

Lemma asc_NoDup l : ascending l -> NoDup l.
Proof.
  induction l as [|x t IH]; intros H; [constructor|]. apply asc_cons in H. destruct H as [H1 H2]. constructor; [|now apply IH].
  intros C. specialize (H1 x C). lra.
Qed.

Lemma rev_desc l : ascending l -> descending (rev l).
Proof. intros H i j Hij. rewrite rev_length in Hij. rewrite !rev_nth by lia. apply H. lia. Qed.

(** Sorting by the negated levels reverses them. *)
Lemma ins_by_last key i l : (forall j, In j l -> key j < key i) -> ins_by key i l = l ++ [i].
Proof.
  induction l as [|j t IH]; intros H; cbn; [reflexivity|]. destruct (Rlt_dec (key i) (key j)).
  - specialize (H j (or_introl eq_refl)). lra.
  - rewrite IH; [reflexivity|]. intros k Hk. apply H. now right.
Qed.

Lemma argsort_desc l : descending l -> argsort l = rev (seq 0 (len l)).
Proof.
  intros H. unfold argsort. set (key := fun i => nth i l 0).
  assert (G : forall n a, (a + n = len l)%nat -> fold_right (ins_by key) [] (seq a n) = rev (seq a n)).
  { induction n as [|n IH]; intros a Ha; [reflexivity|]. cbn [seq fold_right rev]. rewrite IH by lia. apply ins_by_last.
    intros j Hj. apply in_rev in Hj. apply in_seq in Hj. apply H. lia. }
  apply G. lia.
Qed.

Lemma gather_rev {A} (d : A) l : gather d l (rev (seq 0 (len l))) = rev l.
Proof.
  unfold gather. rewrite map_rev. f_equal. induction l as [|x t IH]; [reflexivity|]. cbn. f_equal. rewrite <- seq_shift, map_map. exact IH.
Qed.

Lemma gather_map {A B} (d : B) (h : A -> B) l : gather d (map h l) (rev (seq 0 (len l))) = rev (map h l).
Proof. rewrite <- (map_length h l). apply gather_rev. Qed.

Lemma asc_opp_desc l : ascending l -> descending (map Ropp l).
Proof.
  intros H i j Hij. rewrite map_length in Hij.
  rewrite (nth_indep (map Ropp l) 0 (- 0) (n := j)), (nth_indep (map Ropp l) 0 (- 0) (n := i)) by (rewrite map_length; lia).
  rewrite !(map_nth Ropp). specialize (H i j Hij). lra.
Qed.

Lemma asc_ln_desc l : ascending l -> (forall e, In e l -> 0 < e) -> descending (map (fun e => - ln e) l).
Proof.
  intros H Hp i j Hij. rewrite map_length in Hij. set (h := fun e => - ln e).
  rewrite (nth_indep (map h l) 0 (h 0) (n := j)), (nth_indep (map h l) 0 (h 0) (n := i)) by (rewrite map_length; lia).
  rewrite !(map_nth h). unfold h. specialize (H i j Hij).
  assert (ln (nth i l 0) < ln (nth j l 0)) by (apply ln_increasing; [apply Hp, nth_In; lia|exact H]). lra.
Qed.

(** ** The cells *)

Definition cell (negate : bool) (rows : list row) (q e : R) : option R :=
  match find (at_cell q e) rows with Some r => Some ((if negate then -1 else 1) * ln (w_v r)) | None => None end.

Lemma at_cell_ok q e r : at_cell q e r = true <-> w_q r = q /\ w_eps r = e.
Proof. unfold at_cell. destruct (Req_EM_T (w_q r) q), (Req_EM_T (w_eps r) e); cbn; intuition congruence. Qed.

Lemma no_dup_ok l : no_dup l = true <-> NoDup (map (fun r => (w_q r, w_eps r)) l).
Proof.
  induction l as [|r t IH]; cbn; [split; [constructor|reflexivity]|]. rewrite andb_true_iff, negb_true_iff, IH. split.
  - intros [H1 H2]. constructor; [|exact H2]. intros C. apply in_map_iff in C. destruct C as [s [E Hs]]. injection E as E1 E2.
    assert (existsb (at_cell (w_q r) (w_eps r)) t = true) by (apply existsb_exists; exists s; split; [exact Hs|now apply at_cell_ok]). congruence.
  - intros H. inversion H as [|? ? H1 H2]; subst. split; [|exact H2]. apply not_true_iff_false. intros C. apply existsb_exists in C. destruct C as [s [Hs Es]].
    apply at_cell_ok in Es. apply H1. apply in_map_iff. exists s. split; [|exact Hs]. now f_equal.
Qed.

Lemma cell_some negate rows r : no_dup rows = true -> In r rows -> cell negate rows (w_q r) (w_eps r) = Some (shade negate r).
Proof.
  intros HD Hr. unfold cell. destruct (find _ rows) as [s|] eqn:E.
  - apply find_some in E. destruct E as [Hs Es]. apply at_cell_ok in Es. replace s with r; [unfold shade; f_equal; destruct negate; ring|].
    apply no_dup_ok in HD. clear -HD Hr Hs Es. induction rows as [|t l IH]; [destruct Hr|]. cbn in HD. inversion HD as [|? ? H1 H2]; subst.
    destruct Hr as [->|Hr], Hs as [->|Hs]; auto.
    + exfalso. apply H1. apply in_map_iff. exists s. split; [f_equal; apply Es|exact Hs].
    + exfalso. apply H1. apply in_map_iff. exists r. split; [f_equal; symmetry; apply Es|exact Hr].
  - exfalso. pose proof (find_none _ _ E r Hr) as C. cbn in C. assert (at_cell (w_q r) (w_eps r) r = true) by now apply at_cell_ok. congruence.
Qed.

Lemma cell_none negate rows q e : cell negate rows q e = None <-> forall r, In r rows -> ~ (w_q r = q /\ w_eps r = e).
Proof.
  unfold cell. destruct (find _ rows) as [s|] eqn:E.
  - apply find_some in E. destruct E as [Hs Es]. apply at_cell_ok in Es. split; [discriminate|]. intros H. exfalso. now apply (H s Hs).
  - split; [|reflexivity]. intros _ r Hr C. apply at_cell_ok in C. rewrite (find_none _ _ E r Hr) in C. discriminate.
Qed.

Definition qs_of (rows : list row) := levels (map w_q rows).
Definition es_of (rows : list row) := levels (map w_eps rows).
Definition cells (negate : bool) (rows : list row) := map (fun q => map (cell negate rows q) (rev (es_of rows))) (rev (qs_of rows)).
Definition mark_of (negate : bool) (rows : list row) (i : nat) :=
  ((i / len (es_of rows))%nat, (i mod len (es_of rows))%nat, nth i (List.concat (cells negate rows)) None).

Lemma matrix_ok negate rows : no_dup rows = true -> matrix negate rows = Ok (map (fun q => map (cell negate rows q) (es_of rows)) (qs_of rows)).
Proof. intros H. unfold matrix. rewrite H. reflexivity. Qed.

Lemma draw_ok negate k rows : no_dup rows = true -> (forall r, In r rows -> 0 < w_eps r) ->
  draw negate k rows = Ok (mk_panel k (rev (qs_of rows)) (map log10 (rev (es_of rows))) (cells negate rows)
    [mark_of negate rows (arg_ext lt_b (List.concat (cells negate rows))); mark_of negate rows (arg_ext (fun x y => lt_b y x) (List.concat (cells negate rows)))]).
Proof.
  intros HD He. unfold draw. rewrite (matrix_ok negate rows HD). cbn [bind].
  assert (Pe : forall e, In e (es_of rows) -> 0 < e) by (intros e H; apply levels_in, in_map_iff in H; destruct H as [r [<- Hr]]; now apply He).
  fold (qs_of rows) (es_of rows).
  rewrite (argsort_desc (map Ropp (qs_of rows))) by (apply asc_opp_desc, levels_asc).
  rewrite (argsort_desc (map (fun e => - ln e) (es_of rows))) by (apply asc_ln_desc; [apply levels_asc|exact Pe]).
  rewrite !map_length, rev_length, seq_length.
  assert (EM : map (fun r => gather None r (rev (seq 0 (len (es_of rows))))) (gather [] (map (fun q => map (cell negate rows q) (es_of rows)) (qs_of rows)) (rev (seq 0 (len (qs_of rows))))) = cells negate rows).
  { rewrite (gather_map []), <- map_rev, map_map. unfold cells. apply map_ext. intros q. rewrite (gather_map None). symmetry. apply map_rev. }
  rewrite EM, gather_rev, (gather_map 0), <- map_rev. reflexivity.
Qed.

(** ** Kernels *)

Lemma uniq_in l k : In k (uniq l) <-> In k l.
Proof.
  induction l as [|x t IH]; cbn; [tauto|]. rewrite filter_In, IH, negb_true_iff. split; [intuition|].
  intros [->|H]; [now left|]. destruct (String.eqb_spec x k); [now left|right; now split].
Qed.

Lemma uniq_nodup l : NoDup (uniq l).
Proof.
  induction l as [|x t IH]; cbn; constructor; [|now apply NoDup_filter]. rewrite filter_In. intros [_ C]. now rewrite String.eqb_refl in C.
Qed.

Lemma nth_filter {A} (p : A -> bool) l d : forall i j, (i < j < len (filter p l))%nat ->
  exists i' j', (i' < j' < len l)%nat /\ nth i (filter p l) d = nth i' l d /\ nth j (filter p l) d = nth j' l d.
Proof.
  assert (G : forall l j, (j < len (filter p l))%nat -> exists j', (j' < len l)%nat /\ nth j (filter p l) d = nth j' l d).
  { clear. induction l as [|x t IH]; cbn; [lia|]. destruct (p x); cbn.
    - intros [|j] Hj; [exists 0%nat; split; [lia|reflexivity]|]. destruct (IH j ltac:(lia)) as [j' [A1 A2]]. exists (S j'). split; [lia|exact A2].
    - intros j Hj. destruct (IH j Hj) as [j' [A1 A2]]. exists (S j'). split; [lia|exact A2]. }
  induction l as [|x t IH]; cbn; [lia|]. destruct (p x); cbn.
  - intros [|i] [|j] Hij; try lia.
    + destruct (G t j ltac:(lia)) as [j' [A1 A2]]. exists 0%nat, (S j'). split; [lia|]. now split.
    + destruct (IH i j ltac:(lia)) as [i' [j' [A1 A2]]]. exists (S i'), (S j'). split; [lia|exact A2].
  - intros i j Hij. destruct (IH i j Hij) as [i' [j' [A1 A2]]]. exists (S i'), (S j'). split; [lia|exact A2].
Qed.

Lemma uniq_order (df : list row) : forall i j, (i < j < len (uniq (map w_k df)))%nat -> exists df1 df2, df = df1 ++ df2 /\
  (exists r, of_kernel df1 (nth i (uniq (map w_k df)) EmptyString) r) /\ ~ (exists r, of_kernel df1 (nth j (uniq (map w_k df)) EmptyString) r).
Proof.
  induction df as [|r t IH]; cbn; [lia|]. intros i j Hij. set (p := fun y => negb (String.eqb (w_k r) y)) in *.
  assert (Hp : forall j, (j < len (filter p (uniq (map w_k t))))%nat -> w_k r <> nth j (filter p (uniq (map w_k t))) EmptyString).
  { intros j0 Hj C. assert (HI : In (nth j0 (filter p (uniq (map w_k t))) EmptyString) (filter p (uniq (map w_k t)))) by now apply nth_In.
    rewrite <- C in HI. apply filter_In in HI. destruct HI as [_ HI]. unfold p in HI. rewrite String.eqb_refl in HI. discriminate. }
  destruct j as [|j]; [lia|]. destruct i as [|i]; cbn.
  - exists [r], t. split; [reflexivity|]. split; [exists r; split; [now left|reflexivity]|]. intros [s [[<-|[]] C]]. now apply (Hp j ltac:(lia)).
  - destruct (nth_filter p (uniq (map w_k t)) EmptyString i j ltac:(lia)) as [i' [j' [H1 [H2 H3]]]].
    destruct (IH i' j' H1) as [df1 [df2 [E [[s [S1 S2]] N]]]]. rewrite H2, H3. exists (r :: df1), df2. split; [now rewrite E|]. split; [exists s; split; [now right|exact S2]|].
    intros [u [[<-|Hu] C]]; [|apply N; now exists u]. rewrite <- H3 in C. now apply (Hp j ltac:(lia)).
Qed.

Lemma uniq_kernels df : kernels_in_order df (uniq (map w_k df)).
Proof.
  split; [apply uniq_nodup|]. split; [|apply uniq_order]. intros k. rewrite uniq_in, in_map_iff. split; intros [r H]; exists r; split; apply H.
Qed.

Lemma only_in k df r : In r (only k df) <-> of_kernel df k r.
Proof. unfold only, of_kernel. rewrite filter_In, String.eqb_eq. reflexivity. Qed.

Lemma only_no_dup df k : single df -> no_dup (only k df) = true.
Proof.
  intros H. apply no_dup_ok. unfold single in H. induction df as [|r t IH]; [constructor|]. cbn in H. inversion H as [|? ? H1 H2]; subst.
  cbn. destruct (String.eqb_spec (w_k r) k) as [E|E]; [|now apply IH]. cbn. constructor; [|now apply IH].
  intros C. apply in_map_iff in C. destruct C as [s [Es Hs]]. apply only_in in Hs. destruct Hs as [Hs Ks]. apply H1. apply in_map_iff. exists s.
  split; [|exact Hs]. injection Es as E1 E2. now rewrite Ks, E1, E2, E.
Qed.

Lemma map_result_all {A B} (f : A -> result B) (h : A -> B) l : (forall a, In a l -> f a = Ok (h a)) -> map_result f l = Ok (map h l).
Proof. induction l as [|x t IH]; intros H; cbn; [reflexivity|]. rewrite (H x (or_introl eq_refl)). cbn. rewrite IH; [reflexivity|]. intros a Ha. apply H. now right. Qed.

(** ** What a panel shows *)

Definition the_panel (negate : bool) (df : list row) (k : string) : panel :=
  let rows := only k df in
  mk_panel k (rev (qs_of rows)) (map log10 (rev (es_of rows))) (cells negate rows)
    [mark_of negate rows (arg_ext lt_b (List.concat (cells negate rows))); mark_of negate rows (arg_ext (fun x y => lt_b y x) (List.concat (cells negate rows)))].

Lemma log10_lt x y : 0 < x -> x < y -> log10 x < log10 y.
Proof.
  intros Hx Hy. unfold log10. apply Rmult_lt_compat_r; [apply Rinv_0_lt_compat; rewrite <- ln_1; apply ln_increasing; lra|now apply ln_increasing].
Qed.

Lemma log10_inj x y : 0 < x -> 0 < y -> log10 x = log10 y -> x = y.
Proof. intros Hx Hy E. destruct (Rtotal_order x y) as [C|[C|C]]; [apply log10_lt in C; lra|exact C|apply log10_lt in C; lra]. Qed.

Lemma nth_map_in {A B} (h : A -> B) l da db i : (i < len l)%nat -> nth i (map h l) db = h (nth i l da).
Proof. intros H. rewrite (nth_indep _ db (h da)) by now rewrite map_length. apply map_nth. Qed.

Lemma cells_nth negate rows i j : (i < len (qs_of rows))%nat -> (j < len (es_of rows))%nat ->
  nth j (nth i (cells negate rows) []) None = cell negate rows (nth i (rev (qs_of rows)) 0) (nth j (rev (es_of rows)) 0).
Proof.
  intros Hi Hj. unfold cells. rewrite (nth_map_in _ _ 0) by now rewrite rev_length. rewrite (nth_map_in _ _ 0) by now rewrite rev_length. reflexivity.
Qed.

Lemma panel_shows negate df k : single df -> (forall r, In r df -> 0 < w_eps r) -> shows negate df (the_panel negate df k).
Proof.
  intros HS He. pose proof (only_no_dup df k HS) as HD. set (rows := only k df) in *.
  assert (Pe : forall e, In e (es_of rows) -> 0 < e).
  { intros e H. apply levels_in, in_map_iff in H. destruct H as [r [<- Hr]]. apply only_in in Hr. now apply He, Hr. }
  assert (Ne : forall j, (j < len (es_of rows))%nat -> 0 < nth j (rev (es_of rows)) 0).
  { intros j Hj. apply Pe, in_rev. apply nth_In. now rewrite rev_length. }
  constructor; cbn [the_panel p_title p_rows p_cols p_cells]; fold rows.
  - split; [apply rev_desc, levels_asc|]. intros q. rewrite <- in_rev. unfold qs_of. rewrite levels_in, in_map_iff. split.
    + intros [r [E Hr]]. exists r. split; [now apply only_in|exact E].
    + intros [r [Hr E]]. exists r. split; [exact E|now apply only_in].
  - split.
    + intros i j Hij. rewrite map_length, rev_length in Hij. rewrite !(nth_map_in _ _ 0) by (rewrite rev_length; lia).
      apply log10_lt; [apply Ne; lia|]. apply rev_desc; [apply levels_asc|]. rewrite rev_length. exact Hij.
    + intros e. rewrite in_map_iff. split.
      * intros [x [<- Hx]]. apply in_rev in Hx. unfold es_of in Hx. apply levels_in, in_map_iff in Hx. destruct Hx as [r [<- Hr]].
        exists r. split; [now apply only_in|reflexivity].
      * intros [r [Hr <-]]. exists (w_eps r). split; [reflexivity|]. apply -> in_rev. unfold es_of. apply levels_in, in_map. now apply only_in.
  - unfold cells. rewrite map_length. split; [reflexivity|]. intros i Hi. rewrite (nth_map_in _ _ 0) by exact Hi. now rewrite !map_length.
  - intros i j r Hi Hj Hr Eq Ee. rewrite rev_length in Hi. rewrite map_length, rev_length in Hj. unfold cell_of. cbn [the_panel p_cells]. fold rows.
    rewrite cells_nth by assumption. rewrite (nth_map_in _ _ 0) in Ee by now rewrite rev_length.
    apply log10_inj in Ee; [|apply He, Hr|now apply Ne]. rewrite <- Eq, <- Ee. apply cell_some; [exact HD|now apply only_in].
  - intros i j Hi Hj. rewrite rev_length in Hi. rewrite map_length, rev_length in Hj. unfold cell_of. cbn [the_panel p_cells]. fold rows.
    rewrite cells_nth by assumption. rewrite cell_none. rewrite (nth_map_in _ _ 0) by now rewrite rev_length. split.
    + intros H r Hr [E1 E2]. apply (H r); [now apply only_in|]. split; [exact E1|]. apply log10_inj; [apply He, Hr|now apply Ne|exact E2].
    + intros H r Hr [E1 E2]. apply (H r); [now apply only_in|]. split; [exact E1|now rewrite E2].
Qed.

Lemma printimg_ok negate df : df <> [] -> single df -> (forall r, In r df -> 0 < w_eps r) ->
  let ks := firstn 4 (uniq (map w_k df)) in
  printimg negate df = Ok (Some (map (the_panel negate df) ks,
    limits (map (fun k => map (fun q => map (cell negate (only k df) q) (es_of (only k df))) (qs_of (only k df))) ks) (Some 0) (Some 0))).
Proof.
  intros HN HS He ks. unfold printimg. fold ks.
  rewrite (map_result_all _ (fun k => map (fun q => map (cell negate (only k df) q) (es_of (only k df))) (qs_of (only k df)))) by (intros k _; apply matrix_ok, only_no_dup, HS).
  cbn [bind]. rewrite (map_result_all _ (the_panel negate df)).
  2:{ intros k _. apply draw_ok; [now apply only_no_dup|]. intros r Hr. apply only_in in Hr. now apply He, Hr. }
  cbn [bind]. destruct df as [|r t]; [congruence|]. reflexivity.
Qed.

(** ** Limits and marks *)

Definition full (l : list (option R)) : Prop := forall x, In x l -> x <> None.

Lemma a_fold_ok f l : (forall x y, f x y = x \/ f x y = y) -> l <> [] -> full l -> exists m, a_fold f l = Some m /\ In (Some m) l.
Proof.
  intros Hf HN HF. destruct l as [|[x|] t]; [congruence| |exfalso; now apply (HF None (or_introl eq_refl))]. cbn. clear HN.
  assert (HF' : full t) by (intros y Hy; apply HF; now right). clear HF. revert x. induction t as [|[y|] t IH]; intros x; cbn.
  - exists x. split; [reflexivity|now left].
  - destruct (IH ltac:(intros z Hz; apply HF'; now right) (f x y)) as [m [E [H|H]]]; exists m; (split; [exact E|]); [|tauto].
    injection H as <-. destruct (Hf x y) as [->| ->]; tauto.
  - exfalso. now apply (HF' None (or_introl eq_refl)).
Qed.

Lemma a_fold_none f l : In None l -> a_fold f l = None.
Proof.
  assert (G : forall t, fold_left (join f) t None = None) by (induction t as [|y t IH]; [reflexivity|exact IH]).
  destruct l as [|x t]; [intros []|]. intros [->|H]; cbn; [apply G|]. revert x. induction t as [|y t IH]; intros x; [destruct H|]. cbn. destruct H as [->|H].
  - destruct x; cbn; apply G.
  - destruct x, y; cbn; try apply G. now apply IH.
Qed.

Lemma a_max_ge l m : a_fold Rmax l = Some m -> forall x, In (Some x) l -> x <= m.
Proof.
  assert (G : forall t z, fold_left (join Rmax) t (Some z) = Some m -> z <= m /\ forall x, In (Some x) t -> x <= m).
  { induction t as [|[y|] t IH]; intros z E; cbn in E.
    - injection E as ->. split; [lra|intros x []].
    - apply IH in E. destruct E as [E1 E2]. pose proof (Rmax_l z y). pose proof (Rmax_r z y). split; [lra|]. intros x [H1|H1]; [injection H1 as <-; lra|now apply E2].
    - exfalso. clear -E. induction t; [discriminate|auto]. }
  destruct l as [|[x|] t]; cbn; [discriminate| |].
  - intros E. apply G in E. destruct E as [E1 E2]. intros y [H|H]; [injection H as <-; lra|now apply E2].
  - intros E. exfalso. clear -E. induction t; [discriminate|auto].
Qed.

Lemma a_min_le l m : a_fold Rmin l = Some m -> forall x, In (Some x) l -> m <= x.
Proof.
  assert (G : forall t z, fold_left (join Rmin) t (Some z) = Some m -> m <= z /\ forall x, In (Some x) t -> m <= x).
  { induction t as [|[y|] t IH]; intros z E; cbn in E.
    - injection E as ->. split; [lra|intros x []].
    - apply IH in E. destruct E as [E1 E2]. pose proof (Rmin_l z y). pose proof (Rmin_r z y). split; [lra|]. intros x [H1|H1]; [injection H1 as <-; lra|now apply E2].
    - exfalso. clear -E. induction t; [discriminate|auto]. }
  destruct l as [|[x|] t]; cbn; [discriminate| |].
  - intros E. apply G in E. destruct E as [E1 E2]. intros y [H|H]; [injection H as <-; lra|now apply E2].
  - intros E. exfalso. clear -E. induction t; [discriminate|auto].
Qed.

Lemma limits_ok Ms : (forall M, In M Ms -> List.concat M <> [] /\ full (List.concat M)) -> forall lo hi, exists lo' hi',
  limits Ms (Some lo) (Some hi) = (Some lo', Some hi') /\ lo' <= lo /\ hi <= hi' /\
  (forall M x, In M Ms -> In (Some x) (List.concat M) -> lo' <= x <= hi') /\
  (lo' = lo \/ exists M, In M Ms /\ In (Some lo') (List.concat M)) /\ (hi' = hi \/ exists M, In M Ms /\ In (Some hi') (List.concat M)).
Proof.
  induction Ms as [|M Ms IH]; intros H lo hi; cbn.
  - exists lo, hi. repeat split; try lra; try (intros; contradiction); now left.
  - destruct (H M (or_introl eq_refl)) as [HN HF].
    destruct (a_fold_ok Rmin (List.concat M)) as [a [Ea Ia]]; [intros; unfold Rmin; destruct (Rle_dec x y); tauto|exact HN|exact HF|].
    destruct (a_fold_ok Rmax (List.concat M)) as [b [Eb Ib]]; [intros; unfold Rmax; destruct (Rle_dec x y); tauto|exact HN|exact HF|].
    rewrite Ea, Eb. cbn [py_min py_max].
    assert (Xlo : exists lo1, (if Rlt_dec lo a then Some lo else Some a) = Some lo1 /\ lo1 <= lo /\ lo1 <= a /\ (lo1 = lo \/ lo1 = a)).
    { destruct (Rlt_dec lo a); eexists; (split; [reflexivity|]); repeat split; try lra; tauto. }
    assert (Xhi : exists hi1, (if Rlt_dec b hi then Some hi else Some b) = Some hi1 /\ hi <= hi1 /\ b <= hi1 /\ (hi1 = hi \/ hi1 = b)).
    { destruct (Rlt_dec b hi); eexists; (split; [reflexivity|]); repeat split; try lra; tauto. }
    destruct Xlo as [lo1 [-> [L1 [L2 L3]]]]. destruct Xhi as [hi1 [-> [H1 [H2 H3]]]].
    destruct (IH ltac:(intros; apply H; now right) lo1 hi1) as [lo' [hi' [E [A1 [A2 [A3 [A4 A5]]]]]]].
    exists lo', hi'. split; [exact E|]. split; [lra|]. split; [lra|]. split.
    { intros M' x [<-|HM] Hx; [|now apply (A3 M')]. pose proof (a_min_le _ _ Ea x Hx). pose proof (a_max_ge _ _ Eb x Hx). lra. }
    split.
    + destruct A4 as [->|[M' [I1 I2]]]; [|right; exists M'; tauto]. destruct L3 as [->| ->]; [now left|right; exists M; tauto].
    + destruct A5 as [->|[M' [I1 I2]]]; [|right; exists M'; tauto]. destruct H3 as [->| ->]; [now left|right; exists M; tauto].
Qed.

(** The first extreme value. *)
Lemma arg_first_ok better l : forall i best v, full l -> (forall x y z, better x y = false -> better y z = false -> better x z = false) ->
  (forall x y, better x y = true -> better y x = false) -> (forall x, better x x = false) ->
  exists v', (arg_first better l i best v = best /\ v' = v \/ exists j, (j < len l)%nat /\ arg_first better l i best v = (i + j)%nat /\ nth j l None = Some v') /\
    better v v' = false /\ forall x, In (Some x) l -> better x v' = false.
Proof.
  intros i best v HF HT HA HI. revert i best v. induction l as [|[x|] t IH]; intros i best v; cbn.
  - exists v. split; [now left|]. split; [apply HI|intros x []].
  - assert (HF' : full t) by (intros z Hz; apply HF; now right). destruct (better x v) eqn:E.
    + destruct (IH HF' (S i) i x) as [v' [H1 [H2 H3]]]. exists v'. split; [|split].
      * right. destruct H1 as [[-> ->]|[j [J1 [-> J3]]]]; [exists 0%nat; split; [lia|]; split; [lia|reflexivity]|exists (S j); split; [lia|]; split; [lia|exact J3]].
      * apply (HT v x); [now apply HA|exact H2].
      * intros y [Ey|Hy]; [injection Ey as <-; exact H2|now apply H3].
    + destruct (IH HF' (S i) best v) as [v' [H1 [H2 H3]]]. exists v'. split; [|split].
      * destruct H1 as [H1|[j [J1 [-> J3]]]]; [now left|right; exists (S j); split; [lia|]; split; [lia|exact J3]].
      * exact H2.
      * intros y [Ey|Hy]; [injection Ey as <-; now apply (HT x v)|now apply H3].
  - exfalso. now apply (HF None (or_introl eq_refl)).
Qed.

Lemma arg_ext_ok better l : l <> [] -> full l -> (forall x y z, better x y = false -> better y z = false -> better x z = false) ->
  (forall x y, better x y = true -> better y x = false) -> (forall x, better x x = false) ->
  (arg_ext better l < len l)%nat /\ exists v, nth (arg_ext better l) l None = Some v /\ forall x, In (Some x) l -> better x v = false.
Proof.
  intros HN HF HT HA HI. destruct l as [|[x|] t]; [congruence| |exfalso; now apply (HF None (or_introl eq_refl))]. cbn [arg_ext].
  destruct (arg_first_ok better t 1 0 x ltac:(intros z Hz; apply HF; now right) HT HA HI) as [v [[[-> ->]|[j [J1 [-> J3]]]] [H2 H3]]].
  - split; [cbn; lia|]. exists x. split; [reflexivity|]. intros y [E|Hy]; [injection E as <-; apply HI|now apply H3].
  - split; [cbn; lia|]. exists v. split; [exact J3|]. intros y [E|Hy]; [injection E as <-; exact H2|now apply H3].
Qed.

Lemma arg_first_gap better l : forall i best v, In None l -> exists j, (j < len l)%nat /\ arg_first better l i best v = (i + j)%nat /\ nth j l None = None.
Proof.
  induction l as [|[x|] t IH]; intros i best v H; cbn; [destruct H| |exists 0%nat; split; [lia|]; split; [lia|reflexivity]].
  destruct H as [H|H]; [discriminate|]. destruct (better x v); [destruct (IH (S i) i x H) as [j [J1 [-> J3]]]|destruct (IH (S i) best v H) as [j [J1 [-> J3]]]];
    exists (S j); (split; [lia|]); (split; [lia|exact J3]).
Qed.

Lemma arg_ext_gap better l : In None l -> (arg_ext better l < len l)%nat /\ nth (arg_ext better l) l None = None.
Proof.
  destruct l as [|[x|] t]; [intros []| |intros _; cbn; split; [lia|reflexivity]]. intros [H|H]; [discriminate|]. cbn [arg_ext].
  destruct (arg_first_gap better t 1 0 x H) as [j [J1 [-> J3]]]. cbn. split; [lia|exact J3].
Qed.

(** Rows of equal length. *)
Lemma nth_concat {A} (d : A) c l : (0 < c)%nat -> (forall r, In r l -> len r = c) -> forall i, (i < len (List.concat l))%nat ->
  (i / c < len l)%nat /\ nth i (List.concat l) d = nth (i mod c) (nth (i / c) l []) d.
Proof.
  intros Hc HL. induction l as [|r t IH]; intros i Hi; cbn in *; [lia|]. assert (Er : len r = c) by (apply HL; now left).
  rewrite app_length, Er in Hi. destruct (Nat.lt_ge_cases i c) as [H|H].
  - rewrite Nat.div_small, Nat.mod_small, app_nth1 by lia. split; [lia|reflexivity].
  - destruct (IH ltac:(intros; apply HL; now right) (i - c)%nat ltac:(lia)) as [I1 I2].
    assert (E1 : (i / c = S ((i - c) / c))%nat). { replace i with ((i - c) + 1 * c)%nat at 1 by lia. rewrite Nat.div_add by lia. lia. }
    assert (E2 : (i mod c = (i - c) mod c)%nat). { replace i with ((i - c) + 1 * c)%nat at 1 by lia. now rewrite Nat.mod_add by lia. }
    rewrite E1, E2, app_nth2, Er by lia. split; [lia|exact I2].
Qed.

Lemma in_cells negate rows x : In x (List.concat (cells negate rows)) <-> exists i j, (i < len (qs_of rows))%nat /\ (j < len (es_of rows))%nat /\ x = nth j (nth i (cells negate rows) []) None.
Proof.
  unfold cells. rewrite in_concat. split.
  - intros [l [Hl Hx]]. apply in_map_iff in Hl. destruct Hl as [q [<- Hq]]. apply in_map_iff in Hx. destruct Hx as [e [<- Hx]].
    destruct (In_nth _ _ 0 Hq) as [i [Hi Ei]]. destruct (In_nth _ _ 0 Hx) as [j [Hj Ej]]. rewrite rev_length in Hi, Hj. exists i, j. split; [exact Hi|]. split; [exact Hj|].
    rewrite (nth_map_in _ _ 0) by now rewrite rev_length. rewrite (nth_map_in _ _ 0) by now rewrite rev_length. now rewrite Ei, Ej.
  - intros [i [j [Hi [Hj ->]]]]. exists (nth i (map (fun q => map (cell negate rows q) (rev (es_of rows))) (rev (qs_of rows))) []). split.
    + apply nth_In. now rewrite map_length, rev_length.
    + rewrite (nth_map_in _ _ 0) by now rewrite rev_length. apply nth_In. now rewrite map_length, rev_length.
Qed.

Lemma in_matrix negate rows x : In x (List.concat (map (fun q => map (cell negate rows q) (es_of rows)) (qs_of rows))) <-> In x (List.concat (cells negate rows)).
Proof.
  unfold cells. rewrite !in_concat. split; intros [l [Hl Hx]]; apply in_map_iff in Hl; destruct Hl as [q [<- Hq]]; apply in_map_iff in Hx; destruct Hx as [e [<- He]].
  - exists (map (cell negate rows q) (rev (es_of rows))). split; [apply in_map_iff; exists q; split; [reflexivity|now apply -> in_rev]|]. apply in_map. now apply -> in_rev.
  - apply in_rev in Hq. apply in_rev in He. exists (map (cell negate rows q) (es_of rows)). split; [apply in_map_iff; now exists q|now apply in_map].
Qed.

Lemma cells_full negate df k : complete df -> full (List.concat (cells negate (only k df))).
Proof.
  intros HC x Hx. apply in_cells in Hx. destruct Hx as [i [j [Hi [Hj ->]]]]. rewrite cells_nth by assumption. intros C. rewrite cell_none in C.
  set (rows := only k df) in *.
  assert (Iq : In (nth i (rev (qs_of rows)) 0) (qs_of rows)) by (apply in_rev, nth_In; now rewrite rev_length).
  assert (Ie : In (nth j (rev (es_of rows)) 0) (es_of rows)) by (apply in_rev, nth_In; now rewrite rev_length).
  unfold qs_of in Iq. unfold es_of in Ie. apply levels_in, in_map_iff in Iq. apply levels_in, in_map_iff in Ie. fold (qs_of rows) in Iq. fold (es_of rows) in Ie.
  destruct Iq as [r [Er Hr]]. destruct Ie as [s [Es Hs]]. apply only_in in Hr. apply only_in in Hs.
  destruct (HC k r s Hr Hs) as [t [Ht [E1 E2]]]. apply (C t); [now apply only_in|]. split; congruence.
Qed.

Lemma cells_nonempty negate df k r : of_kernel df k r -> List.concat (cells negate (only k df)) <> [].
Proof.
  intros Hr C. apply only_in in Hr. set (rows := only k df) in *.
  assert (Hq : In (w_q r) (qs_of rows)) by (apply levels_in, in_map, Hr). assert (He : In (w_eps r) (es_of rows)) by (apply levels_in, in_map, Hr).
  assert (H : In (cell negate rows (w_q r) (w_eps r)) (List.concat (map (fun q => map (cell negate rows q) (es_of rows)) (qs_of rows)))).
  { apply in_concat. exists (map (cell negate rows (w_q r)) (es_of rows)). split; [apply in_map_iff; exists (w_q r); split; [reflexivity|exact Hq]|now apply in_map]. }
  apply in_matrix in H. rewrite C in H. destruct H.
Qed.
