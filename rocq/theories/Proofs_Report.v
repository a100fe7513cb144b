(** Proofs about the report of the optimisation benchmark. *)

From Coq Require Import Reals List Arith Bool Lia Lra.
From Verif Require Import Base Model_Linalg Model_Util Model_Kern Model_FK Model_Lik Model_Bench Model_BenchPy Model_Report Spec_Report.
Import ListNotations.
Open Scope R_scope.

(** The sum of [h] over two lists side by side. *)
Definition hsum (h : R -> R -> R) (a b : vec) : R := lsum (map (fun p => h (fst p) (snd p)) (combine a b)).
Definition diff (a b : vec) : vec := map (fun p => fst p - snd p) (combine a b).

Lemma combine_app_same {A B} (a1 a2 : list A) (b1 b2 : list B) : length a1 = length b1 -> combine (a1 ++ a2) (b1 ++ b2) = combine a1 b1 ++ combine a2 b2.
Proof. revert b1. induction a1 as [|x a1 IH]; intros [|y b1] H; try discriminate; [reflexivity|]. cbn. f_equal. apply IH. now injection H. Qed.


Lemma hsum_app h a1 a2 b1 b2 : length a1 = length b1 -> hsum h (a1 ++ a2) (b1 ++ b2) = hsum h a1 b1 + hsum h a2 b2.
Proof. intros H. unfold hsum. now rewrite combine_app_same, map_app, lsum_app by exact H. Qed.

Lemma diff_app a1 a2 b1 b2 : length a1 = length b1 -> diff (a1 ++ a2) (b1 ++ b2) = diff a1 b1 ++ diff a2 b2.
Proof. intros H. unfold diff. now rewrite combine_app_same, map_app by exact H. Qed.

Lemma diff_length a b : length a = length b -> length (diff a b) = length a.
Proof. intros H. unfold diff. rewrite map_length, combine_length. lia. Qed.

Lemma hsum_tab h n f g : hsum h (tab n f) (tab n g) = Rsum n (fun i => h (f i) (g i)).
Proof. unfold hsum. rewrite combine_tab. unfold tab. rewrite map_map. cbn [fst snd]. apply lsum_tab. Qed.

Lemma vec_tab (l : vec) : l = tab (length l) (vget l).
Proof. apply nth_ext with (d := 0) (d' := 0); [now rewrite tab_length|]. intros i Hi. now rewrite nth_tab. Qed.

Lemma hsum_vget h a b : length a = length b -> hsum h a b = Rsum (length a) (fun i => h (vget a i) (vget b i)).
Proof. intros H. rewrite (vec_tab a) at 1. rewrite (vec_tab b) at 1. rewrite <- H. apply hsum_tab. Qed.

Lemma diff_tab a b : length a = length b -> diff a b = tab (length a) (fun i => vget a i - vget b i).
Proof.
  intros H. unfold diff. rewrite (vec_tab a) at 1. rewrite (vec_tab b) at 1. rewrite <- H, combine_tab. unfold tab at 1. now rewrite map_map.
Qed.

Lemma diff_vget a b i : length a = length b -> (i < length a)%nat -> vget (diff a b) i = vget a i - vget b i.
Proof. intros H Hi. rewrite diff_tab by exact H. now rewrite vget_tab. Qed.

Lemma lsum_hsum (u : R -> R) a b : lsum (map u (diff a b)) = hsum (fun x y => u (x - y)) a b.
Proof. unfold diff, hsum. now rewrite map_map. Qed.

Lemma lsum_left (u : R -> R) a b : length a = length b -> lsum (map u a) = hsum (fun x _ => u x) a b.
Proof.
  intros H. unfold hsum. rewrite <- map_map with (f := fst). f_equal. f_equal. revert b H.
  induction a as [|x a IH]; intros [|y b] H; try discriminate; [reflexivity|]. cbn. f_equal. apply IH. now injection H.
Qed.

Lemma concat_same n (f g : nat -> vec) : (forall i, (i < n)%nat -> length (f i) = length (g i)) -> length (concat (tab n f)) = length (concat (tab n g)).
Proof.
  revert f g. induction n as [|n IH]; intros f g H; [reflexivity|].
  unfold tab. cbn [seq map concat]. rewrite <- !seq_shift, !map_map, !app_length, (H 0%nat) by lia. f_equal. apply (IH (fun i => f (S i)) (fun i => g (S i))). intros i Hi. apply H. lia.
Qed.

Lemma hsum_concat h n (f g : nat -> vec) : (forall i, (i < n)%nat -> length (f i) = length (g i)) ->
  hsum h (concat (tab n f)) (concat (tab n g)) = Rsum n (fun i => hsum h (f i) (g i)).
Proof.
  revert f g. induction n as [|n IH]; intros f g H; [reflexivity|].
  unfold tab. cbn [seq map concat]. rewrite <- !seq_shift, !map_map, hsum_app by (apply H; lia). rewrite Rsum_S_l. f_equal.
  apply (IH (fun i => f (S i)) (fun i => g (S i))). intros i Hi. apply H. lia.
Qed.

Lemma diff_concat n (f g : nat -> vec) : (forall i, (i < n)%nat -> length (f i) = length (g i)) ->
  diff (concat (tab n f)) (concat (tab n g)) = concat (tab n (fun i => diff (f i) (g i))).
Proof.
  revert f g. induction n as [|n IH]; intros f g H; [reflexivity|].
  unfold tab. cbn [seq map concat]. rewrite <- !seq_shift, !map_map, diff_app by (apply H; lia). f_equal.
  apply (IH (fun i => f (S i)) (fun i => g (S i))). intros i Hi. apply H. lia.
Qed.

Lemma list_tab {A} (d : A) (l : list A) n : length l = n -> l = tab n (fun i => nth i l d).
Proof. intros <-. apply nth_ext with (d := d) (d' := d); [now rewrite tab_length|]. intros i Hi. now rewrite nth_tab. Qed.

Lemma np_sub_diff a b : length a = length b -> np_sub a b = Ok (diff a b).
Proof.
  intros H. unfold np_sub. rewrite <- H, Nat.eqb_refl. f_equal. symmetry. rewrite (vec_tab (diff a b)), diff_length by exact H.
  apply tab_ext. intros i Hi. now apply diff_vget.
Qed.

Lemma nsum_tab n f : nsum (map f (seq 0 n)) = nsum (tab n f).
Proof. reflexivity. Qed.

Lemma nsum_const n c : nsum (tab n (fun _ => c)) = (n * c)%nat.
Proof. unfold tab. generalize 0%nat. induction n as [|n IH]; intros s; [reflexivity|]. cbn [seq map]. change (nsum (?a :: ?l)) with (a + nsum l)%nat. rewrite IH. lia. Qed.

Section Shape.
Variables (Q D : nat) (rk np : nat -> nat).

Lemma lengths_tab {A} (l : list (list A)) n s : length l = n -> (forall q, (q < n)%nat -> length (nth q l []) = s q) -> map (@length A) l = map s (seq 0 n).
Proof.
  intros H Hs. rewrite (list_tab [] l n H). unfold tab. rewrite map_map. apply map_ext_in. intros q Hq. apply in_seq in Hq. apply Hs. lia.
Qed.

Lemma count_ok {A} (e a : list (list A)) s : length e = Q -> length a = Q ->
  (forall q, (q < Q)%nat -> length (nth q e []) = s q) -> (forall q, (q < Q)%nat -> length (nth q a []) = s q) ->
  (0 < nsum (map s (seq 0 Q)))%nat -> count_grads e a = Ok (nsum (map s (seq 0 Q))).
Proof.
  intros He Ha Se Sa H. unfold count_grads. rewrite (lengths_tab e Q s He Se), (lengths_tab a Q s Ha Sa).
  destruct (Nat.eqb_spec (nsum (map s (seq 0 Q))) 0); [lia|]. now rewrite Nat.eqb_refl.
Qed.

Lemma check_vecs_ok e a s : (0 < Q)%nat -> length e = Q -> length a = Q ->
  (forall q, (q < Q)%nat -> length (nth q e []) = s q) -> (forall q, (q < Q)%nat -> length (nth q a []) = s q) ->
  (0 < nsum (map s (seq 0 Q)))%nat -> check_vecs e a = Ok (mk_checked (nsum (map s (seq 0 Q))) (diff (concat e) (concat a)) (concat e)).
Proof.
  intros HQ He Ha Se Sa H. unfold check_vecs. rewrite (count_ok e a s He Ha Se Sa H). cbn [bind].
  assert (L : length (concat e) = length (concat a)).
  { rewrite (list_tab [] e Q He), (list_tab [] a Q Ha). apply concat_same. intros q Hq. now rewrite Se, Sa. }
  destruct e as [|e0 e]; [cbn in He; subst Q; exfalso; lia|]. destruct a as [|a0 a]; [cbn in Ha; lia|]. cbn [hstack_vecs bind]. rewrite np_sub_diff by exact L. reflexivity.
Qed.

(** The rows of the stacked matrices. *)
Definition side (r : nat) (l : list mx) : mx := tab r (fun i => concat (map (fun m => nth i m []) l)).

Lemma hstack_ok l r : (0 < Q)%nat -> length l = Q -> (forall q, (q < Q)%nat -> length (nth q l []) = r) -> hstack_mxs l = Ok (side r l).
Proof.
  intros HQ HL H. unfold hstack_mxs. destruct l as [|m l]; [cbn in HL; lia|]. pose proof (H 0%nat HQ) as H0. cbn [nth] in H0.
  rewrite (proj2 (forallb_forall _ _)).
  - now rewrite H0.
  - intros m' Hm. apply Nat.eqb_eq. destruct (In_nth _ _ ([] : mx) Hm) as [q [Hq <-]]. rewrite H0. apply H. rewrite <- HL. exact Hq.
Qed.

Lemma mx_row r c (M : mx) i : is_mx r c M -> (i < r)%nat -> length (nth i M []) = c.
Proof. intros [H1 H2] Hi. apply H2. apply nth_In. lia. Qed.

Lemma row_len (e a : list mx) r i : length e = Q -> length a = Q -> (forall q, (q < Q)%nat -> is_mx r D (nth q e [])) -> (forall q, (q < Q)%nat -> is_mx r D (nth q a [])) -> (i < r)%nat ->
  length (concat (map (fun m => nth i m []) e)) = length (concat (map (fun m => nth i m []) a)).
Proof.
  intros He Ha Se Sa Hi. rewrite (list_tab [] e Q He), (list_tab [] a Q Ha). unfold tab. rewrite !map_map. apply concat_same. intros q Hq.
  transitivity D; [|symmetry]; apply (mx_row r D); auto.
Qed.

Lemma check_mxs_ok e a r : (0 < Q)%nat -> (0 < r)%nat -> length e = Q -> length a = Q ->
  (forall q, (q < Q)%nat -> is_mx r D (nth q e [])) -> (forall q, (q < Q)%nat -> is_mx r D (nth q a [])) ->
  check_mxs e a = Ok (mk_checked (Q * r) (diff (concat (side r e)) (concat (side r a))) (concat (side r e))).
Proof.
  intros HQ Hr He Ha Se Sa. unfold check_mxs.
  assert (N : nsum (map (fun _ => r) (seq 0 Q)) = (Q * r)%nat).
  { apply nsum_const. }
  rewrite (count_ok e a (fun _ => r) He Ha (fun q Hq => proj1 (Se q Hq)) (fun q Hq => proj1 (Sa q Hq))) by (rewrite N; now apply Nat.mul_pos_pos).
  cbn [bind]. rewrite (hstack_ok e r HQ He (fun q Hq => proj1 (Se q Hq))), (hstack_ok a r HQ Ha (fun q Hq => proj1 (Sa q Hq))). cbn [bind].
  unfold mx_minus. rewrite (proj2 (Nat.eqb_eq _ _)) by (unfold side; now rewrite !tab_length). unfold side at 1 2. rewrite combine_tab.
  rewrite (proj2 (forallb_forall _ _)).
  2:{ intros p Hp. unfold tab in Hp. apply in_map_iff in Hp as [i [<- Hi]]. apply in_seq in Hi. cbn [fst snd]. apply Nat.eqb_eq. apply (row_len e a r i He Ha Se Sa). lia. }
  cbn [andb bind]. rewrite N. do 2 f_equal. unfold side. rewrite combine_tab. unfold tab at 1. rewrite map_map. cbn [fst snd]. symmetry. apply (diff_concat r).
  intros i Hi. apply (row_len e a r i He Ha Se Sa Hi).
Qed.

Definition flat (r : nat) (g : gradients) : vec := concat (g_kernels g) ++ concat (side r (g_vecs g)) ++ concat (g_diags g) ++ g_noise g.

Lemma len_tab n f : length (concat (tab n f)) = nsum (tab n (fun i => length (f i : vec))).
Proof.
  revert f. induction n as [|n IH]; intros f; [reflexivity|]. unfold tab. cbn [seq map concat]. rewrite app_length, <- !seq_shift, !map_map. 
  change (nsum (?a :: ?l)) with (a + nsum l)%nat. f_equal. apply (IH (fun i => f (S i))).
Qed.

Lemma nsum_tab_ext n f g : (forall i, (i < n)%nat -> f i = g i) -> nsum (tab n f) = nsum (tab n g).
Proof. intros H. f_equal. now apply tab_ext. Qed.

Section Two.
Variables (r : nat) (e a : gradients).
Hypothesis Hrk : forall q, (q < Q)%nat -> rk q = r.
Hypothesis He : grads_shape Q D rk np e.
Hypothesis Ha : grads_shape Q D rk np a.

Lemma shape_mx g : grads_shape Q D rk np g -> forall q, (q < Q)%nat -> is_mx r D (nth q (g_vecs g) []).
Proof. intros H q Hq. rewrite <- (Hrk q Hq). now apply (gs_vecs _ _ _ _ _ H). Qed.

Lemma flat_length g : grads_shape Q D rk np g -> length (flat r g) = (n_kparams Q np + Q * r * D + Q * D + D)%nat.
Proof.
  intros H. unfold flat. rewrite !app_length, (gs_noise _ _ _ _ _ H).
  destruct (gs_kernels _ _ _ _ _ H) as [K1 K2]. destruct (gs_diags _ _ _ _ _ H) as [D1 D2]. destruct (gs_vecs _ _ _ _ _ H) as [V1 _].
  assert (E1 : length (concat (g_kernels g)) = n_kparams Q np).
  { rewrite (list_tab [] _ Q K1), len_tab. apply nsum_tab_ext. exact K2. }
  assert (E2 : length (concat (g_diags g)) = (Q * D)%nat).
  { rewrite (list_tab [] _ Q D1), len_tab. etransitivity; [apply nsum_tab_ext; exact D2|apply nsum_const]. }
  assert (E3 : length (concat (side r (g_vecs g))) = (r * (Q * D))%nat).
  { unfold side. rewrite len_tab, (nsum_tab_ext r _ (fun _ => (Q * D)%nat)); [apply nsum_const|]. intros i Hi.
    rewrite (list_tab [] _ Q V1). unfold tab. rewrite map_map. change (map ?f (seq 0 Q)) with (tab Q f). rewrite len_tab.
    etransitivity; [apply (nsum_tab_ext Q _ (fun _ => D))|apply nsum_const]. intros q Hq. exact (mx_row r D _ i (shape_mx g H q Hq) Hi). }
  rewrite E1, E2, E3. lia.
Qed.

Lemma flat_sum h : hsum h (flat r e) (flat r a) = over_partials Q D rk np h e a.
Proof.
  destruct (gs_kernels _ _ _ _ _ He) as [K1 K2]. destruct (gs_diags _ _ _ _ _ He) as [D1 D2]. destruct (gs_vecs _ _ _ _ _ He) as [V1 _]. pose proof (gs_noise _ _ _ _ _ He) as N1.
  destruct (gs_kernels _ _ _ _ _ Ha) as [K1' K2']. destruct (gs_diags _ _ _ _ _ Ha) as [D1' D2']. destruct (gs_vecs _ _ _ _ _ Ha) as [V1' _]. pose proof (gs_noise _ _ _ _ _ Ha) as N1'.
  unfold flat. rewrite !hsum_app.
  - unfold over_partials. rewrite !Rplus_assoc. f_equal; [|f_equal; [|f_equal]].
    + rewrite (list_tab [] (g_kernels e) Q K1), (list_tab [] (g_kernels a) Q K1').
      rewrite hsum_concat by (intros q Hq; now rewrite K2, K2'). apply Rsum_ext. intros q Hq.
      rewrite !nth_tab by exact Hq. rewrite hsum_vget by (now rewrite K2, K2'). rewrite K2 by exact Hq. reflexivity.
    + unfold side. rewrite hsum_concat by (intros i Hi; exact (row_len _ _ r i V1 V1' (shape_mx e He) (shape_mx a Ha) Hi)).
      transitivity (Rsum r (fun i => Rsum Q (fun q => Rsum D (fun d => h (mget (nth q (g_vecs e) []) i d) (mget (nth q (g_vecs a) []) i d))))).
      * apply Rsum_ext. intros i Hi. rewrite (list_tab [] (g_vecs e) Q V1), (list_tab [] (g_vecs a) Q V1') at 1. unfold tab at 1 2. rewrite !map_map.
        pose proof (fun q Hq => mx_row r D _ i (shape_mx e He q Hq) Hi) as L1. pose proof (fun q Hq => mx_row r D _ i (shape_mx a Ha q Hq) Hi) as L2.
        change (map ?f (seq 0 Q)) with (tab Q f). rewrite hsum_concat by (intros q Hq; now rewrite L1, L2).
        apply Rsum_ext. intros q Hq. rewrite hsum_vget by (now rewrite L1, L2). rewrite L1 by exact Hq. apply Rsum_ext. intros d Hd. reflexivity.
      * rewrite Rsum_swap. apply Rsum_ext. intros q Hq. now rewrite (Hrk q Hq).
    + rewrite (list_tab [] (g_diags e) Q D1), (list_tab [] (g_diags a) Q D1').
      rewrite hsum_concat by (intros q Hq; now rewrite D2, D2'). apply Rsum_ext. intros q Hq.
      rewrite !nth_tab by exact Hq. rewrite hsum_vget by (now rewrite D2, D2'). rewrite D2 by exact Hq. reflexivity.
    + rewrite hsum_vget by congruence. now rewrite N1.
  - rewrite (list_tab [] (g_diags e) Q D1), (list_tab [] (g_diags a) Q D1'). apply concat_same. intros q Hq. now rewrite D2, D2'.
  - unfold side. apply concat_same. intros i Hi. exact (row_len _ _ r i V1 V1' (shape_mx e He) (shape_mx a Ha) Hi).
  - rewrite (list_tab [] (g_kernels e) Q K1), (list_tab [] (g_kernels a) Q K1'). apply concat_same. intros q Hq. now rewrite K2, K2'.
Qed.

Lemma flat_diff : diff (flat r e) (flat r a) = diff (concat (g_kernels e)) (concat (g_kernels a)) ++ diff (concat (side r (g_vecs e))) (concat (side r (g_vecs a))) ++
  diff (concat (g_diags e)) (concat (g_diags a)) ++ diff (g_noise e) (g_noise a).
Proof.
  destruct (gs_kernels _ _ _ _ _ He) as [K1 K2]. destruct (gs_diags _ _ _ _ _ He) as [D1 D2]. destruct (gs_vecs _ _ _ _ _ He) as [V1 _].
  destruct (gs_kernels _ _ _ _ _ Ha) as [K1' K2']. destruct (gs_diags _ _ _ _ _ Ha) as [D1' D2']. destruct (gs_vecs _ _ _ _ _ Ha) as [V1' _].
  unfold flat. rewrite !diff_app; [reflexivity| | |].
  - rewrite (list_tab [] (g_diags e) Q D1), (list_tab [] (g_diags a) Q D1'). apply concat_same. intros q Hq. now rewrite D2, D2'.
  - unfold side. apply concat_same. intros i Hi. exact (row_len _ _ r i V1 V1' (shape_mx e He) (shape_mx a Ha) Hi).
  - rewrite (list_tab [] (g_kernels e) Q K1), (list_tab [] (g_kernels a) Q K1'). apply concat_same. intros q Hq. now rewrite K2, K2'.
Qed.

Lemma report_flat : (0 < Q)%nat -> (0 < D)%nat -> (0 < r)%nat -> (0 < n_kparams Q np)%nat ->
  opt_report e a = let! ratios := vector_errors (tab (length (flat r e)) (fun i => vget (diff (flat r e) (flat r a)) i + vget (flat r e) i)) (flat r e) in
    Ok (mk_report [n_kparams Q np; Q * r; Q * D; D]%nat (length (flat r e)) (arr_mean (map Rabs (diff (flat r e) (flat r a)))) (arr_mean (map Rabs (flat r e))) ratios).
Proof.
  intros HQ HD Hr HP.
  destruct (gs_kernels _ _ _ _ _ He) as [K1 K2]. destruct (gs_diags _ _ _ _ _ He) as [D1 D2]. destruct (gs_vecs _ _ _ _ _ He) as [V1 _]. pose proof (gs_noise _ _ _ _ _ He) as N1.
  destruct (gs_kernels _ _ _ _ _ Ha) as [K1' K2']. destruct (gs_diags _ _ _ _ _ Ha) as [D1' D2']. destruct (gs_vecs _ _ _ _ _ Ha) as [V1' _]. pose proof (gs_noise _ _ _ _ _ Ha) as N1'.
  unfold opt_report. rewrite (check_vecs_ok _ _ np HQ K1 K1' K2 K2' HP). cbn [bind].
  rewrite (check_mxs_ok _ _ r HQ Hr V1 V1' (shape_mx e He) (shape_mx a Ha)). cbn [bind].
  assert (ND : nsum (map (fun _ => D) (seq 0 Q)) = (Q * D)%nat) by apply nsum_const.
  rewrite (check_vecs_ok _ _ (fun _ => D) HQ D1 D1' D2 D2') by (rewrite ND; now apply Nat.mul_pos_pos). cbn [bind]. rewrite ND.
  assert (EN : check_vecs [g_noise e] [g_noise a] = Ok (mk_checked D (diff (g_noise e) (g_noise a)) (g_noise e))).
  { unfold check_vecs, count_grads. cbn [map]. change (nsum [?x]) with (x + 0)%nat. rewrite !Nat.add_0_r, N1, N1', Nat.eqb_refl.
    destruct (Nat.eqb_spec D 0); [lia|]. cbn [bind hstack_vecs concat]. rewrite !app_nil_r, np_sub_diff by congruence. reflexivity. }
  rewrite EN. cbn [bind ck_err ck_exact map ck_ngrad]. rewrite <- flat_diff. fold (flat r e).
  rewrite (diff_length (flat r e) (flat r a)) by (now rewrite !flat_length). reflexivity.
Qed.
End Two.
End Shape.
