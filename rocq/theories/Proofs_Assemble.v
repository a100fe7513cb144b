(** multi_interpolant assembles the block diagonal matrix. *)

From Coq Require Import Reals List Arith ZArith Lia Lra.
From Verif Require Import Base NDArray Model_Util Proofs_Util Model_Linalg Proofs_Linalg
  Model_Interp Spec_Interp Proofs_Sparse.
Import ListNotations.

Fixpoint begins_from (acc : nat) (l : list nat) : list nat :=
  match l with [] => [] | x :: l' => acc :: begins_from (acc + x) l' end.

Lemma removelast_accumulate acc x l :
  acc :: removelast (accumulate_from acc (x :: l)) = begins_from acc (x :: l).
Proof.
  revert acc x. induction l as [|y l IH]; intros acc x; [reflexivity|].
  change (accumulate_from acc (x :: y :: l)) with ((acc + x) :: accumulate_from (acc + x) (y :: l))%nat.
  change (begins_from acc (x :: y :: l)) with (acc :: begins_from (acc + x) (y :: l)).
  rewrite <- IH. f_equal.
Qed.

Lemma begin_end_value lens : lens <> [] ->
  begin_end_indices lens = Ok (begins_from 0 lens, accumulate lens).
Proof.
  destruct lens as [|x l]; [congruence|]. intros _.
  unfold begin_end_indices. rewrite <- removelast_accumulate. reflexivity.
Qed.

(** ** Updating a block *)

Lemma combine_app {A B} (a1 a2 : list A) (b1 b2 : list B) : length a1 = length b1 ->
  combine (a1 ++ a2) (b1 ++ b2) = combine a1 b1 ++ combine a2 b2.
Proof. revert b1. induction a1 as [|x a1 IH]; intros [|y b1] H; simpl in *; try lia; auto. f_equal. apply IH. lia. Qed.

Lemma combine_seq_tab {A} (d : A) (l : list A) k :
  combine (seq k (length l)) l = tab (length l) (fun i => ((k + i)%nat, nth i l d)).
Proof.
  revert k. induction l as [|x l IH]; intros k; [reflexivity|].
  cbn [length seq combine]. rewrite tab_S_l. f_equal; [f_equal; simpl; lia|].
  rewrite IH. apply tab_ext. intros i Hi. f_equal; simpl; lia.
Qed.

Lemma upd_slice_block {A} (op : A -> A -> A) pre blk post (v : list A) :
  length v = length blk ->
  upd_slice op (length pre) v (pre ++ blk ++ post) =
  pre ++ map (fun p => op (fst p) (snd p)) (combine blk v) ++ post.
Proof.
  intros Hv. unfold upd_slice. rewrite !app_length, !seq_app.
  rewrite combine_app by apply seq_length. rewrite combine_app by apply seq_length.
  rewrite !map_app. f_equal; [|f_equal].
  - rewrite (map_ext_in _ snd).
    + clear. generalize 0%nat. induction pre as [|x l IH]; intros k; simpl; auto. now rewrite IH.
    + intros [k x] Hin. apply in_combine_l in Hin. apply in_seq in Hin. cbn [fst snd].
      destruct (Nat.leb_spec (length pre) k); [lia|reflexivity].
  - destruct blk as [|d blk']; [destruct v; simpl in *; [reflexivity|lia]|]. set (blk := d :: blk') in *.
    rewrite (combine_seq_tab d). rewrite map_tab.
    assert (E : combine blk v = tab (length blk) (fun i => (nth i blk d, nth i v d))).
    { rewrite (list_as_tab d blk) at 1. rewrite (list_as_tab d v) at 1. rewrite Hv. apply combine_tab. }
    rewrite E, map_tab. apply tab_ext. intros i Hi. cbn [fst snd].
    destruct (Nat.leb_spec (length pre) (0 + length pre + i)); [|lia].
    destruct (Nat.ltb_spec (0 + length pre + i) (length pre + length v)); [|lia].
    cbn [andb]. f_equal. replace (0 + length pre + i - length pre)%nat with i by lia.
    apply nth_indep. lia.
  - rewrite (map_ext_in _ snd).
    + clear. generalize (0 + length pre + length blk)%nat. induction post as [|x l IH]; intros k; simpl; auto. now rewrite IH.
    + intros [k x] Hin. apply in_combine_l in Hin. apply in_seq in Hin. cbn [fst snd].
      destruct (Nat.ltb_spec k (length pre + length v)); [lia|]. now rewrite Bool.andb_false_r.
Qed.

(** ** The three arrays before and after the loop *)

Fixpoint ip_init (s : nat) (Ws : list csr) : list nat :=
  match Ws with [] => [] | W :: Ws' => repeat s (c_r W) ++ ip_init (s + csr_nnz W) Ws' end.
Fixpoint ip_fin (s : nat) (Ws : list csr) : list nat :=
  match Ws with [] => [] | W :: Ws' => map (Nat.add s) (removelast (c_indptr W)) ++ ip_fin (s + csr_nnz W) Ws' end.
Fixpoint ci_init (m k : nat) (Ws : list csr) : list nat :=
  match Ws with [] => [] | W :: Ws' => repeat (k * m)%nat (csr_nnz W) ++ ci_init m (S k) Ws' end.
Fixpoint ci_fin (m k : nat) (Ws : list csr) : list nat :=
  match Ws with [] => [] | W :: Ws' => map (Nat.add (k * m)) (c_indices W) ++ ci_fin m (S k) Ws' end.

Lemma np_repeat_starts s Ws : np_repeat (begins_from s (map csr_nnz Ws)) (map c_r Ws) = ip_init s Ws.
Proof.
  revert s. induction Ws as [|W Ws IH]; intros s; [reflexivity|].
  unfold np_repeat in *. cbn [map begins_from combine concat fst snd ip_init]. now rewrite IH.
Qed.

Lemma np_repeat_grid m k Ws : np_repeat (tab (length Ws) (fun i => ((k + i) * m)%nat)) (map csr_nnz Ws) = ci_init m k Ws.
Proof.
  revert k. induction Ws as [|W Ws IH]; intros k; [reflexivity|].
  unfold np_repeat in *. cbn [length]. rewrite tab_S_l. cbn [map combine concat fst snd ci_init].
  rewrite Nat.add_0_r. f_equal. rewrite <- IH. f_equal. f_equal. f_equal. apply tab_ext. intros i _. f_equal. lia.
Qed.

Lemma removelast_length {A} (l : list A) : length (removelast l) = (length l - 1)%nat.
Proof.
  destruct l as [|x l]; [reflexivity|].
  pose proof (app_removelast_last x (l := x :: l) ltac:(discriminate)) as E.
  apply (f_equal (@length A)) in E. rewrite app_length in E. simpl in E |- *. lia.
Qed.

Lemma wf_nnz W : csr_wf W -> csr_nnz W = length (c_indices W).
Proof.
  intros H. unfold csr_nnz. rewrite <- (wf_last _ H).
  pose proof (wf_len _ H) as L. destruct (c_indptr W) as [|x l]; [simpl in L; lia|].
  clear -L. simpl in L. revert x L. generalize (c_r W). induction l as [|y l IH]; intros n x L.
  - simpl in *. replace n with 0%nat by lia. reflexivity.
  - destruct n as [|n]; [simpl in L; lia|]. change (nth (S n) (x :: y :: l) 0%nat) with (nth n (y :: l) 0%nat).
    rewrite <- (IH n y) by (simpl in L; lia). reflexivity.
Qed.

Lemma combine_repeat_l {A} (x : A) (l : list A) (op : A -> A -> A) :
  map (fun p => op (fst p) (snd p)) (combine (repeat x (length l)) l) = map (op x) l.
Proof. induction l as [|y l IH]; simpl; auto. now rewrite IH. Qed.

Definition step (acc : list nat * vec * list nat) (t : nat * nat * csr) : list nat * vec * list nat :=
  let '(ip, d, ci) := acc in
  let '(rb, cb, W) := t in
  (upd_slice Nat.add rb (removelast (c_indptr W)) ip,
   upd_slice (fun _ v => v) cb (c_data W) d,
   upd_slice Nat.add cb (c_indices W) ci).

Lemma loop_ok m w Ws : forall k s p1 p2 p3,
  (forall W, In W Ws -> csr_wf W) -> length p2 = length p3 ->
  fold_left step (combine (combine (begins_from (length p1) (map c_r Ws)) (begins_from (length p2) (map csr_nnz Ws))) Ws)
    (p1 ++ ip_init s Ws ++ [w], p2 ++ repeat 0%R (nsum (map csr_nnz Ws)), p3 ++ ci_init m k Ws)
  = (p1 ++ ip_fin s Ws ++ [w], p2 ++ concat (map c_data Ws), p3 ++ ci_fin m k Ws).
Proof.
  induction Ws as [|W Ws IH]; intros k s p1 p2 p3 Hwf Hl; [reflexivity|].
  pose proof (Hwf W (or_introl eq_refl)) as HW.
  assert (Lip : length (removelast (c_indptr W)) = c_r W) by (rewrite removelast_length, (wf_len _ HW); lia).
  pose proof (wf_nnz W HW) as Hn. pose proof (wf_data _ HW) as Hd.
  cbn [map begins_from combine fold_left ip_init ip_fin ci_init ci_fin concat]. unfold step at 2.
  rewrite <- !app_assoc.
  rewrite upd_slice_block by (rewrite repeat_length; auto).
  assert (Hrep : repeat 0%R (nsum (csr_nnz W :: map csr_nnz Ws)) = repeat 0%R (csr_nnz W) ++ repeat 0%R (nsum (map csr_nnz Ws))).
  { rewrite <- repeat_app. reflexivity. }
  rewrite Hrep.
  rewrite (upd_slice_block (fun _ v : R => v)) by (rewrite repeat_length; lia).
  assert (U3 : upd_slice Nat.add (length p2) (c_indices W) (p3 ++ repeat (k * m)%nat (csr_nnz W) ++ ci_init m (S k) Ws)
     = p3 ++ map (Nat.add (k * m)) (c_indices W) ++ ci_init m (S k) Ws).
  { rewrite Hl, upd_slice_block by (rewrite repeat_length; lia). rewrite Hn. now rewrite (combine_repeat_l (k * m)%nat). }
  assert (U1 : map (fun p : nat * nat => (fst p + snd p)%nat) (combine (repeat s (c_r W)) (removelast (c_indptr W)))
     = map (Nat.add s) (removelast (c_indptr W))).
  { rewrite <- Lip. apply (combine_repeat_l s). }
  rewrite U3, U1.
  assert (Hdd : map (fun p : R * R => snd p) (combine (repeat 0%R (csr_nnz W)) (c_data W)) = c_data W).
  { rewrite Hn, <- Hd, (combine_repeat_l 0%R (c_data W) (fun _ v => v)). apply map_id. }
  rewrite Hdd.
  specialize (IH (S k) (s + csr_nnz W)%nat (p1 ++ map (Nat.add s) (removelast (c_indptr W))) (p2 ++ c_data W)
    (p3 ++ map (Nat.add (k * m)) (c_indices W))).
  rewrite !app_length, !map_length, Lip, Hd, <- Hn in IH.
  rewrite <- !app_assoc in IH. apply IH.
  - intros V HV. apply Hwf. simpl. auto.
  - lia.
Qed.

(** ** The rows of the block diagonal matrix *)

Definition shift_row (off : nat) (row : list (nat * R)) : list (nat * R) :=
  map (fun p => ((off + fst p)%nat, snd p)) row.
Fixpoint all_rows (m k : nat) (Ws : list csr) : list (list (nat * R)) :=
  match Ws with
  | [] => []
  | W :: Ws' => tab (c_r W) (fun i => shift_row (k * m) (csr_row W i)) ++ all_rows m (S k) Ws'
  end.

Lemma accumulate_from_app a l1 l2 :
  accumulate_from a (l1 ++ l2) = accumulate_from a l1 ++ accumulate_from (a + nsum l1) l2.
Proof.
  revert a. induction l1 as [|x l1 IH]; intros a; cbn [app accumulate_from nsum fold_right].
  - now rewrite Nat.add_0_r.
  - rewrite IH. unfold nsum. now rewrite Nat.add_assoc.
Qed.

Lemma accumulate_from_shift a l : accumulate_from a l = map (Nat.add a) (accumulate_from 0 l).
Proof.
  assert (G : forall l a b, accumulate_from (a + b) l = map (Nat.add a) (accumulate_from b l)).
  { intros l0. induction l0 as [|x l0 IH]; intros a0 b; [reflexivity|]. cbn [accumulate_from map].
    rewrite <- Nat.add_assoc. f_equal. apply IH. }
  rewrite <- G. now rewrite Nat.add_0_r.
Qed.

Lemma removelast_snoc {A} (l : list A) x : removelast (l ++ [x]) = l.
Proof. apply removelast_last. Qed.

Lemma indptr_app s l1 l2 :
  map (Nat.add s) (removelast (0%nat :: accumulate_from 0 l1)) ++ ((s + nsum l1)%nat :: accumulate_from (s + nsum l1) l2)
  = s :: accumulate_from s (l1 ++ l2).
Proof.
  rewrite accumulate_from_app.
  destruct l1 as [|x l1].
  - simpl. now rewrite Nat.add_0_r.
  - assert (E : accumulate_from s (x :: l1) = map (Nat.add s) (removelast (accumulate_from 0 (x :: l1))) ++ [(s + nsum (x :: l1))%nat]).
    { rewrite (accumulate_from_shift s (x :: l1)).
      pose proof (app_removelast_last 0%nat (l := accumulate_from 0 (x :: l1)) ltac:(discriminate)) as E.
      rewrite E at 1. rewrite map_app. f_equal. cbn [map]. f_equal. f_equal.
      rewrite accumulate_from_last by discriminate. reflexivity. }
    rewrite E. change (removelast (0%nat :: accumulate_from 0 (x :: l1))) with (0%nat :: removelast (accumulate_from 0 (x :: l1))).
    cbn [map]. rewrite Nat.add_0_r. cbn [app]. f_equal. rewrite <- app_assoc. reflexivity.
Qed.

Lemma wf_rows_sum W : csr_wf W -> nsum (map (@length _) (tab (c_r W) (csr_row W))) = csr_nnz W.
Proof.
  intros H. rewrite nsum_concat.
  pose proof (f_equal c_indices (csr_rows W H)) as E. cbn [csr_from_rows c_indices] in E.
  apply (f_equal (@length nat)) in E. rewrite map_length in E. rewrite <- E. symmetry. now apply wf_nnz.
Qed.

Lemma shift_lengths m k W : map (@length _) (tab (c_r W) (fun i => shift_row (k * m) (csr_row W i)))
  = map (@length _) (tab (c_r W) (csr_row W)).
Proof. rewrite !map_tab. apply tab_ext. intros i _. unfold shift_row. apply map_length. Qed.

Lemma ip_fin_rows m Ws : forall k s, (forall W, In W Ws -> csr_wf W) ->
  ip_fin s Ws ++ [(s + nsum (map csr_nnz Ws))%nat] =
  s :: accumulate_from s (map (@length _) (all_rows m k Ws)).
Proof.
  induction Ws as [|W Ws IH]; intros k s Hwf.
  - simpl. now rewrite Nat.add_0_r.
  - pose proof (Hwf W (or_introl eq_refl)) as HW. cbn [ip_fin all_rows map].
    rewrite map_app, shift_lengths.
    rewrite <- indptr_app, (wf_rows_sum W HW).
    rewrite <- app_assoc.
    change (nsum (csr_nnz W :: map csr_nnz Ws)) with (csr_nnz W + nsum (map csr_nnz Ws))%nat.
    rewrite Nat.add_assoc, (IH (S k)) by (intros V HV; apply Hwf; simpl; auto).
    f_equal. f_equal. f_equal. exact (f_equal c_indptr (csr_rows W HW)).
Qed.

Lemma concat_shift {A} (f : nat -> list (nat * R)) (off n : nat) (g : nat * R -> A) (h : nat * R -> A) :
  (forall p, g ((off + fst p)%nat, snd p) = h p) ->
  map g (concat (tab n (fun i => shift_row off (f i)))) = map h (concat (tab n f)).
Proof.
  intros H. rewrite !concat_map, !map_tab. f_equal. apply tab_ext. intros i _. unfold shift_row.
  rewrite map_map. apply map_ext. auto.
Qed.

Lemma ci_fin_rows m Ws : forall k, (forall W, In W Ws -> csr_wf W) ->
  ci_fin m k Ws = map fst (concat (all_rows m k Ws)).
Proof.
  induction Ws as [|W Ws IH]; intros k Hwf; [reflexivity|].
  pose proof (Hwf W (or_introl eq_refl)) as HW. cbn [ci_fin all_rows].
  rewrite concat_app, map_app. f_equal; [|apply IH; intros V HV; apply Hwf; simpl; auto].
  rewrite (concat_shift (csr_row W) (k * m) (c_r W) fst (fun p => (k * m + fst p)%nat)) by reflexivity.
  rewrite (f_equal c_indices (csr_rows W HW)) at 1. cbn [csr_from_rows c_indices]. now rewrite map_map.
Qed.

Lemma data_rows m Ws : forall k, (forall W, In W Ws -> csr_wf W) ->
  concat (map c_data Ws) = map snd (concat (all_rows m k Ws)).
Proof.
  induction Ws as [|W Ws IH]; intros k Hwf; [reflexivity|].
  pose proof (Hwf W (or_introl eq_refl)) as HW. cbn [map concat all_rows].
  rewrite concat_app, map_app. f_equal; [|apply IH; intros V HV; apply Hwf; simpl; auto].
  rewrite (concat_shift (csr_row W) (k * m) (c_r W) snd snd) by reflexivity.
  rewrite (f_equal c_data (csr_rows W HW)) at 1. reflexivity.
Qed.

Lemma all_rows_length m Ws : forall k, length (all_rows m k Ws) = nsum (map c_r Ws).
Proof.
  induction Ws as [|W Ws IH]; intros k; [reflexivity|].
  cbn [all_rows map]. rewrite app_length, tab_length, IH. reflexivity.
Qed.

Lemma assemble_rows m row_lens Ws : Ws <> [] ->
  map c_r Ws = row_lens -> (forall W, In W Ws -> csr_wf W) ->
  assemble m row_lens Ws = Ok (csr_from_rows (length Ws * m) (all_rows m 0 Ws)).
Proof.
  intros Hne Hrl Hwf. subst row_lens. unfold assemble.
  assert (N1 : map c_r Ws <> []) by (destruct Ws; simpl; congruence).
  assert (N2 : map csr_nnz Ws <> []) by (destruct Ws; simpl; congruence).
  rewrite (begin_end_value _ N1). cbn [bind]. rewrite (begin_end_value _ N2). cbn [bind].
  rewrite !accumulate_last by auto.
  change (map (fun W => last (c_indptr W) 0%nat) Ws) with (map csr_nnz Ws).
  assert (Hst : 0%nat :: removelast (accumulate (map csr_nnz Ws)) = begins_from 0 (map csr_nnz Ws)).
  { destruct (map csr_nnz Ws); [congruence|]. apply removelast_accumulate. }
  rewrite Hst, np_repeat_starts, map_length.
  pose proof (np_repeat_grid m 0 Ws) as Hg. cbn [Nat.add] in Hg. rewrite Hg.
  pose proof (loop_ok m (nsum (map csr_nnz Ws)) Ws 0 0 [] [] [] Hwf eq_refl) as L.
  cbn [app length] in L.
  match goal with |- context [fold_left ?f ?l ?a] =>
    replace (fold_left f l a) with (ip_fin 0 Ws ++ [nsum (map csr_nnz Ws)], concat (map c_data Ws), ci_fin m 0 Ws)
      by (symmetry; exact L) end.
  unfold csr_from_rows. rewrite all_rows_length. f_equal.
  pose proof (ip_fin_rows m Ws 0 0 Hwf) as E1. cbn [Nat.add] in E1.
  rewrite E1, (ci_fin_rows m Ws 0 Hwf), (data_rows m Ws 0 Hwf). reflexivity.
Qed.

(** Row [i] of output [a]. *)
Lemma all_rows_nth m Ws : forall k a i, (a < length Ws)%nat -> (i < c_r (nth a Ws (csr_zero 0 0)))%nat ->
  nth (nsum (firstn a (map c_r Ws)) + i) (all_rows m k Ws) [] =
  shift_row ((k + a) * m) (csr_row (nth a Ws (csr_zero 0 0)) i).
Proof.
  induction Ws as [|W Ws IH]; intros k a i Ha Hi; [simpl in Ha; lia|].
  destruct a as [|a]; cbn [nth all_rows map firstn nsum fold_right] in *.
  - rewrite app_nth1 by (rewrite tab_length; lia). rewrite nth_tab by auto. now rewrite Nat.add_0_r.
  - change (fold_right Nat.add 0%nat ?l) with (nsum l).
    rewrite app_nth2 by (rewrite tab_length; lia). rewrite tab_length.
    replace (c_r W + nsum (firstn a (map c_r Ws)) + i - c_r W)%nat with (nsum (firstn a (map c_r Ws)) + i)%nat by lia.
    rewrite IH by (auto; simpl in Ha; lia). f_equal. f_equal. lia.
Qed.

Lemma nsum_firstn_le l a : (nsum (firstn a l) <= nsum l)%nat.
Proof. rewrite <- (firstn_skipn a l) at 2. rewrite nsum_app. lia. Qed.

Lemma row_index_lt Ws a i : (a < length Ws)%nat -> (i < c_r (nth a Ws (csr_zero 0 0)))%nat ->
  (nsum (firstn a (map c_r Ws)) + i < nsum (map c_r Ws))%nat.
Proof.
  revert a. induction Ws as [|W Ws IH]; intros a Ha Hi; [simpl in Ha; lia|].
  destruct a as [|a]; cbn [nth map firstn nsum fold_right] in *.
  - lia.
  - change (fold_right Nat.add 0%nat ?l) with (nsum l). specialize (IH a ltac:(simpl in Ha; lia) Hi). lia.
Qed.

Open Scope R_scope.

Lemma assemble_entries m row_lens Ws M : Ws <> [] ->
  map c_r Ws = row_lens -> (forall W, In W Ws -> csr_wf W /\ c_c W = m) ->
  assemble m row_lens Ws = Ok M ->
  c_r M = nsum row_lens /\ c_c M = (length Ws * m)%nat /\ csr_wf M /\
  forall a i b j, (a < length Ws)%nat -> (i < nth a row_lens 0%nat)%nat -> (b < length Ws)%nat -> (j < m)%nat ->
    csr_get M (nsum (firstn a row_lens) + i) (b * m + j) =
    if Nat.eqb a b then csr_get (nth a Ws (csr_zero 0 0)) i j else 0.
Proof.
  intros Hne Hrl Hwf HM.
  rewrite (assemble_rows m row_lens Ws Hne Hrl) in HM by (intros W HW; now apply Hwf).
  apply Ok_inj in HM. subst M row_lens.
  split; [cbn [csr_from_rows c_r]; apply all_rows_length|]. split; [reflexivity|]. split.
  - apply csr_from_rows_wf. intros r p Hr Hp.
    assert (G : forall Ws k, (forall W, In W Ws -> csr_wf W /\ c_c W = m) -> In r (all_rows m k Ws) ->
               (fst p < (k + length Ws) * m)%nat).
    { clear -Hp. induction Ws as [|W Ws IH]; intros k Hwf Hr; [destruct Hr|].
      cbn [all_rows] in Hr. apply in_app_or in Hr. destruct Hr as [Hr|Hr].
      - apply in_tab in Hr. destruct Hr as [i [Hi ->]]. unfold shift_row in Hp. apply in_map_iff in Hp.
        destruct Hp as [q [<- Hq]]. destruct (Hwf W (or_introl eq_refl)) as [HW Hc].
        pose proof (csr_row_in W i q HW Hi Hq). cbn [fst length]. nia.
      - specialize (IH (S k) ltac:(intros V HV; apply Hwf; simpl; auto) Hr). cbn [length]. nia. }
    exact (G Ws 0%nat Hwf Hr).
  - intros a i b j Ha Hi Hb Hj.
    assert (Hi' : (i < c_r (nth a Ws (csr_zero 0 0)))%nat).
    { rewrite <- (map_nth c_r). exact Hi. }
    assert (HIn : In (nth a Ws (csr_zero 0 0)) Ws) by (now apply nth_In).
    destruct (Hwf _ HIn) as [HW Hc].
    unfold csr_get at 1. rewrite csr_row_from_rows by (rewrite all_rows_length; now apply row_index_lt).
    rewrite all_rows_nth by auto. cbn [Nat.add]. unfold shift_row. rewrite map_map. cbn [fst snd].
    unfold csr_get. destruct (Nat.eqb_spec a b) as [->|N].
    + f_equal. apply map_ext_in. intros p Hp.
      destruct (Nat.eqb_spec (fst p) j) as [->|Nj]; [now rewrite Nat.eqb_refl|].
      destruct (Nat.eqb_spec (b * m + fst p) (b * m + j)); [lia|reflexivity].
    + rewrite (map_ext_in _ (fun _ => 0)).
      * generalize (csr_row (nth a Ws (csr_zero 0 0)) i). intros l. induction l as [|x l IH]; cbn [map lsum fold_right]; [reflexivity|].
        unfold lsum in IH. rewrite IH. ring.
      * intros p Hp. pose proof (csr_row_in _ i p HW Hi' Hp). rewrite Hc in *.
        destruct (Nat.eqb_spec (a * m + fst p) (b * m + j)); [|reflexivity]. exfalso. apply N. nia.
Qed.
