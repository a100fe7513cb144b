(** C93: the heat maps of the gradient benchmark. *)

From Coq Require Import Reals List Arith String Bool Lia Lra.
From Verif Require Import Base Model_Util Model_Heat Spec_Heat Proofs_Heat.
Import ListNotations.
Open Scope R_scope.
Local Notation len := List.length.

(** One panel for each of the first four kernels, in the order of the rows;
    its labels are the kernel's values of [q] and the logarithms of its values
    of [eps], descending, and every cell has the value of the row its labels
    name, or nothing if there is no such row. *)
Theorem C93_panels :
  forall negate df, df <> [] -> single df -> (forall r, In r df -> 0 < w_eps r) ->
  exists ps lim ks, printimg negate df = Ok (Some (ps, lim)) /\ kernels_in_order df ks /\ map p_title ps = firstn 4 ks /\
    forall p, In p ps -> shows negate df p.
Proof.
  intros negate df HN HS He. eexists _, _, _. split; [exact (printimg_ok negate df HN HS He)|]. split; [apply uniq_kernels|].
  split; [rewrite map_map; cbn; apply map_id|]. intros p Hp. apply in_map_iff in Hp. destruct Hp as [k [<- _]]. now apply panel_shows.
Qed.
Print Assumptions C93_panels.

Lemma concat_matrix negate df k M : complete df -> In k (firstn 4 (uniq (map w_k df))) ->
  M = map (fun q => map (cell negate (only k df) q) (es_of (only k df))) (qs_of (only k df)) -> List.concat M <> [] /\ full (List.concat M).
Proof.
  intros HC Hk ->. assert (Hk' : In k (uniq (map w_k df))) by (rewrite <- (firstn_skipn 4 (uniq (map w_k df))); apply in_or_app; now left).
  apply (proj1 (proj2 (uniq_kernels df))) in Hk'. destruct Hk' as [r Hr]. split.
  - intros C. apply (cells_nonempty negate df k r Hr).
    destruct (List.concat (cells negate (only k df))) as [|x t] eqn:E; [reflexivity|]. exfalso.
    assert (H : In x (x :: t)) by now left. rewrite <- E in H. apply in_matrix in H. rewrite C in H. destruct H.
  - intros x Hx. apply in_matrix in Hx. now apply (cells_full negate df k HC).
Qed.

(** The colours are scaled to a range that has zero and all the cells in it and
    is no larger than that needs.  Missing here: only if every kernel has rows for all
    pairs of its [q] and [eps]. *)
Theorem C93_limits_partial :
  forall negate df, df <> [] -> single df -> complete df -> (forall r, In r df -> 0 < w_eps r) ->
  exists ps lo hi, printimg negate df = Ok (Some (ps, (Some lo, Some hi))) /\ lo <= 0 <= hi /\
    (forall p i j, In p ps -> (i < len (p_rows p))%nat -> (j < len (p_cols p))%nat -> exists x, cell_of p i j = Some x /\ lo <= x <= hi) /\
    (lo = 0 \/ exists p i j, In p ps /\ cell_of p i j = Some lo) /\ (hi = 0 \/ exists p i j, In p ps /\ cell_of p i j = Some hi).
Proof.
  intros negate df HN HS HC He. pose proof (printimg_ok negate df HN HS He) as EP. cbv zeta in EP.
  set (ks := firstn 4 (uniq (map w_k df))) in *. set (Ms := map _ ks) in EP at 2.
  destruct (limits_ok Ms) with (lo := 0) (hi := 0) as [lo [hi [E [A1 [A2 [A3 [A4 A5]]]]]]].
  { intros M HM. apply in_map_iff in HM. destruct HM as [k [<- Hk]]. now apply (concat_matrix negate df k). }
  rewrite E in EP. eexists _, lo, hi. split; [exact EP|]. split; [lra|].
  assert (IM : forall M x, In M Ms -> In x (List.concat M) -> exists k, In k ks /\ In x (List.concat (cells negate (only k df)))).
  { intros M x HM Hx. apply in_map_iff in HM. destruct HM as [k [<- Hk]]. apply in_matrix in Hx. now exists k. }
  assert (IC : forall x, (exists M, In M Ms /\ In (Some x) (List.concat M)) -> exists p i j, In p (map (the_panel negate df) ks) /\ cell_of p i j = Some x).
  { intros x [M [HM Hx]]. destruct (IM M _ HM Hx) as [k [Hk Hx']]. apply in_cells in Hx'. destruct Hx' as [i [j [_ [_ Ex]]]].
    exists (the_panel negate df k), i, j. split; [now apply in_map|]. unfold cell_of. cbn. now symmetry. }
  split; [|split].
  - intros p i j Hp Hi Hj. apply in_map_iff in Hp. destruct Hp as [k [<- Hk]]. cbn in Hi, Hj. rewrite rev_length in Hi. rewrite map_length, rev_length in Hj.
    unfold cell_of. cbn [the_panel p_cells]. set (x := nth j (nth i (cells negate (only k df)) []) None).
    assert (Hx : In x (List.concat (cells negate (only k df)))) by (apply in_cells; now exists i, j).
    pose proof (cells_full negate df k HC x Hx) as Nx. destruct x as [x|]; [|congruence]. exists x. split; [reflexivity|].
    apply (A3 (map (fun q => map (cell negate (only k df) q) (es_of (only k df))) (qs_of (only k df)))); [unfold Ms; now apply (in_map (fun k => map (fun q => map (cell negate (only k df) q) (es_of (only k df))) (qs_of (only k df))))|now apply in_matrix].
  - destruct A4 as [A4|A4]; [now left|right; now apply IC].
  - destruct A5 as [A5|A5]; [now left|right; now apply IC].
Qed.
Print Assumptions C93_limits_partial.

(** The numbers in a panel are its least and its greatest value and stand on
    their cells.  Missing here: only if the kernel has rows for all pairs. *)
Theorem C93_marks_partial :
  forall negate df, df <> [] -> single df -> complete df -> (forall r, In r df -> 0 < w_eps r) ->
  exists ps lim, printimg negate df = Ok (Some (ps, lim)) /\ forall p, In p ps ->
    exists i j x i' j' x', p_marks p = [(i, j, Some x); (i', j', Some x')] /\
      (i < len (p_rows p))%nat /\ (j < len (p_cols p))%nat /\ cell_of p i j = Some x /\
      (i' < len (p_rows p))%nat /\ (j' < len (p_cols p))%nat /\ cell_of p i' j' = Some x' /\
      forall a b y, (a < len (p_rows p))%nat -> (b < len (p_cols p))%nat -> cell_of p a b = Some y -> x <= y <= x'.
Proof.
  intros negate df HN HS HC He. eexists _, _. split; [exact (printimg_ok negate df HN HS He)|]. intros p Hp. apply in_map_iff in Hp. destruct Hp as [k [<- Hk]].
  assert (Hk' : In k (uniq (map w_k df))) by (rewrite <- (firstn_skipn 4 (uniq (map w_k df))); apply in_or_app; now left).
  apply (proj1 (proj2 (uniq_kernels df))) in Hk'. destruct Hk' as [r Hr].
  pose proof (cells_nonempty negate df k r Hr) as NE. pose proof (cells_full negate df k HC) as FU. set (rows := only k df) in *.
  assert (Ne : (0 < len (es_of rows))%nat).
  { assert (H : In (w_eps r) (es_of rows)) by (apply levels_in, in_map; now apply only_in). destruct (es_of rows); [destruct H|cbn; lia]. }
  assert (Lr : forall l, In l (cells negate rows) -> len l = len (es_of rows)).
  { intros l Hl. unfold cells in Hl. apply in_map_iff in Hl. destruct Hl as [q [<- _]]. now rewrite map_length, rev_length. }
  destruct (arg_ext_ok lt_b _ NE FU) as [I1 [x [X1 X2]]].
  { intros a b c. unfold lt_b. destruct (Rlt_dec a b), (Rlt_dec b c), (Rlt_dec a c); try reflexivity; try discriminate; lra. }
  { intros a b. unfold lt_b. destruct (Rlt_dec a b), (Rlt_dec b a); try reflexivity; try discriminate; lra. }
  { intros a. unfold lt_b. destruct (Rlt_dec a a); [lra|reflexivity]. }
  destruct (arg_ext_ok (fun x y => lt_b y x) _ NE FU) as [I1' [x' [X1' X2']]].
  { intros a b c. unfold lt_b. destruct (Rlt_dec b a), (Rlt_dec c b), (Rlt_dec c a); try reflexivity; try discriminate; lra. }
  { intros a b. unfold lt_b. destruct (Rlt_dec a b), (Rlt_dec b a); try reflexivity; try discriminate; lra. }
  { intros a. unfold lt_b. destruct (Rlt_dec a a); [lra|reflexivity]. }
  destruct (nth_concat None _ _ Ne Lr _ I1) as [D1 E1]. destruct (nth_concat None _ _ Ne Lr _ I1') as [D1' E1'].
  unfold cells in D1, D1'. rewrite map_length, rev_length in D1, D1'.
  eexists _, _, x, _, _, x'. cbn [the_panel p_marks]. unfold mark_of. fold rows. rewrite X1, X1'. split; [reflexivity|].
  unfold cell_of. cbn [the_panel p_rows p_cols p_cells]. fold rows. rewrite map_length, !rev_length.
  split; [exact D1|]. split; [apply Nat.mod_upper_bound; lia|]. split; [now rewrite <- E1|].
  split; [exact D1'|]. split; [apply Nat.mod_upper_bound; lia|]. split; [now rewrite <- E1'|].
  intros a b y Ha Hb Ey. assert (Hy : In (Some y) (List.concat (cells negate rows))) by (apply in_cells; exists a, b; now rewrite Ey).
  specialize (X2 y Hy). specialize (X2' y Hy). unfold lt_b in X2, X2'. destruct (Rlt_dec y x); [discriminate|]. destruct (Rlt_dec x' y); [discriminate|]. lra.
Qed.
Print Assumptions C93_marks_partial.

Lemma all_single df : (forall k, no_dup (only k df) = true) -> single df.
Proof.
  unfold single. induction df as [|r t IH]; intros H; cbn; constructor.
  - intros C. apply in_map_iff in C. destruct C as [s [E Hs]]. injection E as E1 E2 E3. specialize (H (w_k r)). cbn in H. rewrite String.eqb_refl in H.
    apply no_dup_ok in H. cbn in H. inversion H as [|? ? H1 _]; subst. apply H1. apply in_map_iff. exists s. split; [now rewrite E2, E3|]. apply only_in. now split.
  - apply IH. intros k. specialize (H k). cbn in H. destruct (String.eqb (w_k r) k); [|exact H]. cbn in H. now apply andb_true_iff in H.
Qed.

(** Of at most four kernels, the figure is refused exactly if a kernel has two
    rows for the same [q] and [eps]. *)
Theorem C93_duplicates :
  forall negate df, (forall ks, NoDup ks -> incl ks (map w_k df) -> (len ks <= 4)%nat) -> (forall r, In r df -> 0 < w_eps r) ->
  (single df -> exists x, printimg negate df = Ok x) /\ (~ single df -> printimg negate df = Err ValueError).
Proof.
  intros negate df H4 He. split.
  - intros HS. destruct df as [|r t]; [eexists; reflexivity|]. eexists. apply printimg_ok; [discriminate|exact HS|exact He].
  - intros HN. unfold printimg. assert (EF : firstn 4 (uniq (map w_k df)) = uniq (map w_k df)).
    { apply firstn_all2. apply H4; [apply uniq_nodup|]. intros k Hk. now apply (uniq_in (map w_k df)). }
    rewrite EF. assert (HX : existsb (fun k => negb (no_dup (only k df))) (uniq (map w_k df)) = true).
    { apply not_false_iff_true. intros C. apply HN, all_single. intros k. destruct (no_dup (only k df)) eqn:E; [reflexivity|]. exfalso.
      assert (Hk : In k (uniq (map w_k df))).
      { apply (proj1 (proj2 (uniq_kernels df))). destruct (only k df) as [|r l] eqn:E'; [discriminate|]. exists r. apply only_in. rewrite E'. now left. }
      assert (existsb (fun k => negb (no_dup (only k df))) (uniq (map w_k df)) = true) by (apply existsb_exists; exists k; split; [exact Hk|now rewrite E]). congruence. }
    assert (EM : map_result (fun k => matrix negate (only k df)) (uniq (map w_k df)) = Err ValueError); [|now rewrite EM].
    revert HX. generalize (uniq (map w_k df)). induction l as [|k l IH]; cbn; [discriminate|]. unfold matrix at 1. destruct (no_dup (only k df)); cbn; [|reflexivity].
    intros HX. now rewrite (IH HX).
Qed.
Print Assumptions C93_duplicates.

(** *** Refuted *)

Open Scope string_scope.

Ltac dec := repeat match goal with
  | |- context [Rlt_dec ?a ?b] => destruct (Rlt_dec a b); [try (exfalso; lra)|try (exfalso; lra)]
  | |- context [Req_EM_T ?a ?b] => destruct (Req_EM_T a b); [try (exfalso; lra)|try (exfalso; lra)]
  end.

(** One pair of the second kernel is missing. *)
Definition gap_df : list row :=
  [mk_row "rbf" 1 1 (exp 5); mk_row "mix" 1 1 (exp 1); mk_row "mix" 5 (1/10) (exp 2); mk_row "mix" 5 1 (exp 3); mk_row "matern" 1 1 (exp 1)].

Lemma gap_single : single gap_df.
Proof.
  unfold single, gap_df. cbn. repeat constructor; cbn; intros C; repeat destruct C as [C|C]; try discriminate; try contradiction;
    injection C; intros; lra.
Qed.

Ltac crd := cbn -[ln exp Rlt_dec Req_EM_T Rmult Rmin Rmax Rdiv at_cell]; repeat (progress unfold at_cell; cbn -[ln exp Rlt_dec Req_EM_T Rmult Rmin Rmax Rdiv at_cell]).

Lemma gap_printed : exists p1 p2 p3, printimg false gap_df = Ok (Some ([p1; p2; p3], (Some 1, Some 1))) /\
  cell_of p1 0 0 = Some 5 /\ p_title p2 = "mix" /\ p_marks p2 = [(1%nat, 1%nat, None); (1%nat, 1%nat, None)].
Proof.
  rewrite (printimg_ok false gap_df); [|discriminate|exact gap_single|].
  2:{ intros r Hr. cbn in Hr. repeat destruct Hr as [<-|Hr]; try contradiction; cbn; lra. }
  cbn [gap_df map w_k uniq filter negb String.eqb Ascii.eqb Bool.eqb firstn].
  eexists _, _, _. split; [|split; [|split]].
  - do 3 f_equal. unfold only, es_of, qs_of, cell. crd. repeat (dec; crd). rewrite !ln_exp. repeat (dec; crd).
    all: rewrite ?ln_exp, ?Rmult_1_l; reflexivity.
  - unfold the_panel, cell_of, cells, only, es_of, qs_of, cell. crd. repeat (dec; crd). rewrite ln_exp. f_equal. lra.
  - reflexivity.
  - unfold the_panel, mark_of, cells, only, es_of, qs_of, cell. crd. repeat (dec; crd).
    repeat match goal with |- context [lt_b ?a ?b] => destruct (lt_b a b) end; reflexivity.
Qed.

(** With a pair missing, the range of colours is that of the kernels after it:
    here 1 to 1, though there are cells with 5. *)
Theorem C93_limits_refuted :
  exists df ps lo hi p i j x, single df /\ (forall r, In r df -> 0 < w_eps r) /\ printimg false df = Ok (Some (ps, (Some lo, Some hi))) /\
    In p ps /\ cell_of p i j = Some x /\ hi < x /\ 0 < lo.
Proof.
  destruct gap_printed as [p1 [p2 [p3 (E & C & _)]]]. exists gap_df, [p1; p2; p3], 1, 1, p1, 0%nat, 0%nat, 5.
  split; [exact gap_single|]. split; [intros r Hr; cbn in Hr; repeat destruct Hr as [<-|Hr]; try contradiction; cbn; lra|].
  split; [exact E|]. split; [now left|]. split; [exact C|]. lra.
Qed.
Print Assumptions C93_limits_refuted.

(** In the panel it is missing from, the numbers are both nan, on the empty
    cell. *)
Theorem C93_marks_refuted :
  exists df ps lim p i j, single df /\ (forall r, In r df -> 0 < w_eps r) /\ printimg false df = Ok (Some (ps, lim)) /\
    In p ps /\ p_marks p = [(i, j, None); (i, j, None)] /\ exists r, of_kernel df (p_title p) r.
Proof.
  destruct gap_printed as [p1 [p2 [p3 (E & _ & T & M)]]]. exists gap_df, [p1; p2; p3], (Some 1, Some 1), p2, 1%nat, 1%nat.
  split; [exact gap_single|]. split; [intros r Hr; cbn in Hr; repeat destruct Hr as [<-|Hr]; try contradiction; cbn; lra|].
  split; [exact E|]. split; [right; now left|]. split; [exact M|]. rewrite T. exists (mk_row "mix" 1 1 (exp 1)). split; [right; now left|reflexivity].
Qed.
Print Assumptions C93_marks_refuted.

(** A fifth kernel is not drawn. *)
Theorem C93_all_kernels_refuted :
  exists df ps lim k, single df /\ complete df /\ (forall r, In r df -> 0 < w_eps r) /\ printimg true df = Ok (Some (ps, lim)) /\
    (exists r, of_kernel df k r) /\ forall p, In p ps -> p_title p <> k.
Proof.
  set (df := map (fun k => mk_row k 1 1 2) ["rbf"; "periodic"; "matern"; "mix"; "bessel"]).
  assert (HS : single df) by (unfold single; cbn; repeat constructor; cbn; intros C; repeat destruct C as [C|C]; try discriminate; contradiction).
  assert (He : forall r, In r df -> 0 < w_eps r) by (intros r Hr; cbn in Hr; repeat destruct Hr as [<-|Hr]; try contradiction; cbn; lra).
  eexists df, _, _, "bessel". split; [exact HS|]. split.
  { intros k r s Hr Hs. exists r. split; [exact Hr|]. split; [reflexivity|]. destruct Hr as [Hr _], Hs as [Hs _].
    apply in_map_iff in Hr. apply in_map_iff in Hs. destruct Hr as [? [<- _]]. destruct Hs as [? [<- _]]. reflexivity. }
  split; [exact He|]. split; [apply printimg_ok; [discriminate|exact HS|exact He]|].
  split; [exists (mk_row "bessel" 1 1 2); split; [cbn; tauto|reflexivity]|].
  intros p Hp. apply in_map_iff in Hp. destruct Hp as [k [<- Hk]]. cbn in Hk |- *. repeat destruct Hk as [<-|Hk]; try discriminate; contradiction.
Qed.
Print Assumptions C93_all_kernels_refuted.

(** *** Example *)

(** Two kernels with four and two rows. *)
Definition heat_df : list row :=
  [mk_row "rbf" 1 1 (exp 5); mk_row "mix" 1 1 (exp 1); mk_row "rbf" 5 1 (exp 2); mk_row "rbf" 1 (1/10) (exp 3); mk_row "rbf" 5 (1/10) (exp 1); mk_row "mix" 10 1 (exp 1)].

Example C93_ex : heat_df <> [] /\ single heat_df /\ complete heat_df /\ (forall r, In r heat_df -> 0 < w_eps r) /\
  (forall ks, NoDup ks -> incl ks (map w_k heat_df) -> (len ks <= 4)%nat) /\
  ~ single (heat_df ++ [mk_row "mix" 1 1 (exp 4)]) /\ kernels_in_order heat_df ["rbf"; "mix"].
Proof.
  split; [discriminate|]. split.
  { unfold single, heat_df. cbn. repeat constructor; cbn; intros C; repeat destruct C as [C|C]; try discriminate; try contradiction; injection C; intros; lra. }
  split.
  { intros k r s [Hr Kr] [Hs Ks]. unfold of_kernel. cbn in Hr, Hs. destruct Hr as [<-|[<-|[<-|[<-|[<-|[<-|[]]]]]]]; cbn in Kr; subst k;
      destruct Hs as [<-|[<-|[<-|[<-|[<-|[<-|[]]]]]]]; cbn in Ks; try discriminate Ks; cbn [w_q w_eps];
      first [exists (mk_row "rbf" 1 1 (exp 5)); split; [split; [cbn; tauto|reflexivity]|split; reflexivity]
            |exists (mk_row "rbf" 5 1 (exp 2)); split; [split; [cbn; tauto|reflexivity]|split; reflexivity]
            |exists (mk_row "rbf" 1 (1/10) (exp 3)); split; [split; [cbn; tauto|reflexivity]|split; reflexivity]
            |exists (mk_row "rbf" 5 (1/10) (exp 1)); split; [split; [cbn; tauto|reflexivity]|split; reflexivity]
            |exists (mk_row "mix" 1 1 (exp 1)); split; [split; [cbn; tauto|reflexivity]|split; reflexivity]
            |exists (mk_row "mix" 10 1 (exp 1)); split; [split; [cbn; tauto|reflexivity]|split; reflexivity]]. }
  split. { intros r Hr. cbn in Hr. repeat destruct Hr as [<-|Hr]; try contradiction; cbn; lra. }
  split. { intros ks HN HI. apply (Nat.le_trans _ 2); [|lia]. apply (NoDup_incl_length HN (l' := ["rbf"; "mix"])). intros k Hk. specialize (HI k Hk). cbn in HI |- *. tauto. }
  split; [|exact (uniq_kernels heat_df)].
  unfold single. cbn. intros C. inversion C as [|? ? _ C1]; subst. inversion C1 as [|? ? C2 _]; subst. apply C2. cbn. tauto.
Qed.
