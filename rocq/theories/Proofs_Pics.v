(** Proofs about the pictures. *)

From Coq Require Import Reals List Arith Lia Lra Bool String.
From Verif Require Import Base NDArray PSD Model_Util Proofs_Util Model_Linalg Spec_Linalg Proofs_Linalg Model_Interp
  Model_Kern Spec_Kern Model_FK Spec_FK Proofs_FK Model_Grid Spec_Grid Model_Lik Spec_Lik
  Spec_GP Model_GP Spec_Pred Proofs_Pred Proofs_Pred2 Proofs_Pred3 Proofs_Pred4 Properties_Pred
  Spec_State Properties_Mode Model_Bench Model_Heat Proofs_Heat Model_Pics Spec_Pics.
Import ListNotations.
Open Scope R_scope.
Notation length := List.length.

(** ** Lookups *)

Lemma look_nth {A} cols : forall (xs : list A) i col a, NoDup cols -> length xs = length cols -> nth_error cols i = Some col -> look cols xs col = Ok (nth i xs a).
Proof.
  induction cols as [|c r IH]; intros xs i col a ND HL Hi; [destruct i; discriminate Hi|]. destruct xs as [|x s]; [discriminate HL|]. cbn in HL. injection HL as HL.
  inversion ND as [|? ? Hn ND']; subst. cbn [look]. destruct i as [|i]; cbn in Hi.
  - injection Hi as ->. rewrite String.eqb_refl.
    assert (N : forall cs (l : list A), ~ In col cs -> exists er, look cs l col = Err er).
    { clear. induction cs as [|c cs IH]; intros [|x l] H; cbn; try now eexists. destruct (IH l) as [er E]; [intros C; apply H; now right|]. rewrite E.
      destruct (String.eqb_spec c col) as [->|]; [exfalso; apply H; now left|now eexists]. }
    destruct (N r s Hn) as [er ->]. reflexivity.
  - rewrite (IH s i col a ND' HL Hi). reflexivity.
Qed.

Lemma index_nth cols : forall i col, NoDup cols -> nth_error cols i = Some col -> index_of cols col = Ok i.
Proof.
  induction cols as [|c r IH]; intros i col ND Hi; [destruct i; discriminate Hi|]. inversion ND as [|? ? Hn ND']; subst. cbn [index_of]. destruct i as [|i]; cbn in Hi.
  - injection Hi as ->. now rewrite String.eqb_refl.
  - destruct (String.eqb_spec c col) as [->|]; [exfalso; apply Hn; now apply nth_error_In in Hi|]. now rewrite (IH i col ND' Hi).
Qed.

Lemma memb_in l s : memb l s = true <-> In s l.
Proof. unfold memb. rewrite existsb_exists. split; [intros [x [H E]]; apply String.eqb_eq in E; now subst|intros H; exists s; split; [exact H|apply String.eqb_refl]]. Qed.

Lemma getitem_nth {A} (l : list A) i a : (i < length l)%nat -> getitem l i = Ok (nth i l a).
Proof. intros H. unfold getitem. now rewrite (nth_error_nth' l a H). Qed.

(** ** Lines and bands *)

Lemma shift_spec mu var c : length var = length mu ->
  shift mu var c = tab (length mu) (fun i => if Rle_dec 0 (vget var i) then Some (vget mu i + c * sqrt (vget var i)) else None).
Proof.
  intros H. unfold shift. rewrite H, Nat.max_id. apply tab_ext. intros i Hi. rewrite (nth_error_nth' mu 0 Hi). rewrite nth_error_map, (nth_error_nth' var 0) by lia. cbn [option_map].
  unfold np_sqrt, vget. now destruct (Rle_dec 0 (nth i var 0)).
Qed.

Lemma combine_as_tab {A B} (a : list A) (b : list B) da db : length a = length b -> combine a b = tab (length a) (fun i => (nth i a da, nth i b db)).
Proof. intros H. rewrite (list_as_tab da a), (list_as_tab db b) at 1. rewrite <- H, combine_tab. reflexivity. Qed.

Lemma draw_ok title xs cm cv pm pv tx ty rx ry : length cm = length xs -> length cv = length xs -> length pm = length xs -> length pv = length xs ->
  length ty = length tx -> length ry = length rx ->
  exists p, draw title xs cm cv pm pv tx ty rx ry = Ok p /\ pn_title p = title /\ shows_results xs cm cv p /\ pn_mean p = combine xs pm /\
    pn_band p = tab (length xs) (fun i => (vget xs i, (if Rle_dec 0 (vget pv i) then Some (vget pm i - 2 * sqrt (vget pv i)) else None),
      (if Rle_dec 0 (vget pv i) then Some (vget pm i + 2 * sqrt (vget pv i)) else None))) /\
    pn_hold p = combine tx ty /\ pn_train p = combine rx ry.
Proof.
  intros H1 H2 H3 H4 H5 H6.
  assert (PL : forall A (a : vec) (b : list A), length b = length a -> plot a b = Ok (combine a b)) by (intros A a b H; unfold plot; now rewrite H, Nat.eqb_refl).
  assert (FB : forall m v, length m = length xs -> length v = length xs -> fill_between xs (shift m v (-2)) (shift m v 2) =
    Ok (tab (length xs) (fun i => (vget xs i, (if Rle_dec 0 (vget v i) then Some (vget m i - 2 * sqrt (vget v i)) else None), (if Rle_dec 0 (vget v i) then Some (vget m i + 2 * sqrt (vget v i)) else None))))).
  { intros m v Hm Hv. unfold fill_between. rewrite !shift_spec by congruence. rewrite !tab_length, Hm, Nat.eqb_refl.
    rewrite (@combine_as_tab R npf xs _ 0 (None : npf)) by now rewrite tab_length. rewrite combine_tab. f_equal. apply tab_ext. intros i Hi. rewrite nth_tab by exact Hi. unfold vget.
    destruct (Rle_dec 0 (nth i v 0)); [|reflexivity]. do 3 f_equal. ring. }
  eexists. unfold draw. rewrite (PL R xs cm H1). cbn [bind]. rewrite (FB cm cv H1 H2). cbn [bind]. rewrite (PL R xs pm H3). cbn [bind]. rewrite (FB pm pv H3 H4). cbn [bind].
  rewrite (PL npf tx ty H5). cbn [bind]. rewrite (PL R rx ry H6). cbn [bind]. split; [reflexivity|]. repeat (split; [split; reflexivity || reflexivity|]) || (split; [reflexivity|]). repeat split.
Qed.

(** ** Predictions *)

Section Draw.
Variables (solve : Mat -> vec -> result vec) (g : gp) (k : gp_kernel) (D : nat).
Hypothesis HG : drawable solve g k D.
Let g' := precompute g.
Let m_at d x := unnorm_mean g' d (mean_at g' k d (fun _ => x)).
Let v_at d x := unnorm_var g' d (var_at g' k solve d (fun _ => x)).

Lemma predict_any Zs zl : requests 1 Zs zl -> length zl = D ->
  gp_predict solve g' k Zs = Ok (tab D (fun a => tab (nth a zl 0%nat) (fun i => m_at a (point 1 Zs a i 0%nat))), tab D (fun a => tab (nth a zl 0%nat) (fun i => v_at a (point 1 Zs a i 0%nat)))).
Proof.
  intros HZ Hz. destruct HG as [[lo [hi [m HR]]] [bits [n_it [old [sl Hf]]]] HS Hid HP HQ HD].
  assert (HR' : gp_ready g' lo hi m) by exact (ready_mode g Precompute lo hi m HR).
  destruct (fitted_of g _ _ _ _ _ _ Hf) as [HK _].
  assert (HM : mode_ready g') by (unfold mode_ready; cbn [g' precompute gp_mode gp_f gp_data]; rewrite HP; exact HQ).
  pose proof (predict_ok g' lo hi m HR' k HK solve HS Zs zl Hid HM) as E. cbn [g' precompute gp_data gp_f gp_mode] in E. rewrite HP, HD in E.
  rewrite (E HZ Hz ltac:(discriminate)). clear E. f_equal. f_equal; apply tab_ext; intros a Ha; apply tab_ext; intros i Hi; unfold m_at, v_at; f_equal.
  - apply (mean_ext g' lo hi m HR' k). cbn [g' precompute gp_data]. rewrite HP. intros p Hp. now replace p with 0%nat by lia.
  - apply (var_ext g' lo hi m HR' k solve a _ _ HM). cbn [g' precompute gp_data]. rewrite HP. intros p Hp. now replace p with 0%nat by lia.
Qed.

Lemma predicts_at d x : (d < D)%nat -> predicts solve g' k D d x (m_at d x) (v_at d x).
Proof.
  intros Hd. unfold predicts.
  assert (HZ : requests 1 (ask D d x) (tab D (fun a => if Nat.eqb a d then 1%nat else 0%nat))).
  { unfold requests, ask, tab. clear. induction (seq 0 D) as [|a l IH]; constructor; [|exact IH]. destruct (Nat.eqb a d); (split; [right; split; reflexivity|reflexivity]). }
  pose proof (predict_any _ _ HZ (tab_length _ _)) as E. eexists _, _. split; [exact E|].
  assert (L : nth d (tab D (fun a => if Nat.eqb a d then 1%nat else 0%nat)) 0%nat = 1%nat) by (rewrite nth_tab by exact Hd; now rewrite Nat.eqb_refl).
  assert (PT : point 1 (ask D d x) d 0 0 = x) by (unfold point, ask; rewrite nth_tab by exact Hd; rewrite Nat.eqb_refl; reflexivity).
  assert (EV : nth d (tab D (fun a => tab (nth a (tab D (fun a0 => if Nat.eqb a0 d then 1%nat else 0%nat)) 0%nat) (fun i => v_at a (point 1 (ask D d x) a i 0%nat)))) [] = [v_at d x]).
  { rewrite nth_tab by exact Hd. rewrite L. unfold tab. cbn [seq map]. now rewrite PT. }
  split; [|split; [exact EV|]].
  - rewrite nth_tab by exact Hd. rewrite L. unfold tab. cbn [seq map]. now rewrite PT.
  - apply (C36_nonnegative solve g' k (ask D d x) _ _ E [v_at d x]); [|now left]. rewrite <- EV. apply nth_In. rewrite tab_length. exact Hd.
Qed.

(** Requests by name of column. *)
Lemma predict_named test_fx cols xs : length cols = D ->
  exists mu var, gp_predict solve g' k (map (fun col => arr1 (if memb test_fx col then xs else [])) cols) = Ok (mu, var) /\ length mu = D /\ length var = D /\
    forall d c, nth_error cols d = Some c -> In c test_fx -> nth d mu [] = map (m_at d) xs /\ nth d var [] = map (v_at d) xs.
Proof.
  intros HL. set (f := fun col => arr1 (if memb test_fx col then xs else [])).
  assert (HZ : requests 1 (map f cols) (map (fun col => if memb test_fx col then length xs else 0%nat) cols)).
  { clear. induction cols as [|c r IH]; constructor; [|exact IH]. unfold f, arr1. destruct (memb test_fx c); (split; [right; split; reflexivity|cbn; lia]). }
  rewrite (predict_any _ _ HZ) by now rewrite map_length. eexists _, _. split; [reflexivity|]. split; [apply tab_length|]. split; [apply tab_length|].
  intros d c Hd Hc. assert (Hlt : (d < D)%nat) by (rewrite <- HL; apply nth_error_Some; congruence).
  assert (LN : nth d (map (fun col => if memb test_fx col then length xs else 0%nat) cols) 0%nat = length xs).
  { apply (nth_error_nth (map _ cols) d 0%nat). rewrite nth_error_map, Hd. cbn. now rewrite (proj2 (memb_in test_fx c) Hc). }
  assert (PT : forall i, point 1 (map f cols) d i 0 = vget xs i).
  { intros i. unfold point. rewrite (nth_error_nth (map f cols) d (mk_arr [] []) (x := f c)); [|rewrite nth_error_map, Hd; reflexivity].
    unfold f. rewrite (proj2 (memb_in test_fx c) Hc). cbn [arr1 a_data]. f_equal. lia. }
  assert (TM : forall h : R -> R, tab (length xs) (fun i => h (vget xs i)) = map h xs).
  { intros h. rewrite (list_as_tab 0 xs) at 2. rewrite map_tab. reflexivity. }
  rewrite !nth_tab by exact Hlt. rewrite LN. split; rewrite <- TM; apply tab_ext; intros i Hi; now rewrite PT.
Qed.

Lemma shows_of d xs p pm pv : (d < D)%nat -> pm = map (m_at d) xs -> pv = map (v_at d) xs -> pn_mean p = combine xs pm ->
  pn_band p = tab (length xs) (fun i => (vget xs i, (if Rle_dec 0 (vget pv i) then Some (vget pm i - 2 * sqrt (vget pv i)) else None),
      (if Rle_dec 0 (vget pv i) then Some (vget pm i + 2 * sqrt (vget pv i)) else None))) -> shows_model solve g' k D d xs p.
Proof.
  intros Hd -> -> E1 E2. exists (m_at d), (v_at d). split; [intros x _; now apply predicts_at|]. split.
  - rewrite E1. clear. induction xs as [|x l IH]; cbn; [reflexivity|]. now rewrite IH.
  - rewrite E2. rewrite (list_as_tab 0 xs) at 2. rewrite map_tab. apply tab_ext. intros i Hi. unfold vget.
    rewrite !(nth_indep (map _ xs) 0 (m_at d 0)) by now rewrite map_length. rewrite !(nth_indep (map (v_at d) xs) _ (v_at d 0)) by now rewrite map_length. rewrite !map_nth.
    destruct (predicts_at d (nth i xs 0) Hd) as (_ & _ & _ & _ & _ & V). destruct (Rle_dec 0 (v_at d (nth i xs 0))); [reflexivity|contradiction].
Qed.
End Draw.

(** ** Days *)

Lemma least_ok l : l <> [] -> exists a, least l = Ok a /\ In a l /\ forall x, In x l -> (a <= x)%nat.
Proof.
  destruct l as [|x r]; [congruence|]. intros _. cbn [least]. exists (fold_right Nat.min x r). split; [reflexivity|]. induction r as [|y r [I1 I2]]; cbn [fold_right].
  - split; [now left|]. intros z [<-|[]]. lia.
  - split.
    + destruct (Nat.min_spec y (fold_right Nat.min x r)) as [[_ ->]|[_ ->]]; [right; now left|]. destruct I1 as [<-|I1]; [now left|right; now right].
    + intros z [<-|[<-|Hz]]; [specialize (I2 x (or_introl eq_refl)); lia|lia|specialize (I2 z (or_intror Hz)); lia].
Qed.

Lemma most_ok l : l <> [] -> exists a, most l = Ok a /\ In a l /\ forall x, In x l -> (x <= a)%nat.
Proof.
  destruct l as [|x r]; [congruence|]. intros _. cbn [most]. exists (fold_right Nat.max x r). split; [reflexivity|]. induction r as [|y r [I1 I2]]; cbn [fold_right].
  - split; [now left|]. intros z [<-|[]]. lia.
  - split.
    + destruct (Nat.max_spec y (fold_right Nat.max x r)) as [[_ ->]|[_ ->]]; [|right; now left]. destruct I1 as [<-|I1]; [now left|right; now right].
    + intros z [<-|[<-|Hz]]; [specialize (I2 x (or_introl eq_refl)); lia|lia|specialize (I2 z (or_intror Hz)); lia].
Qed.

Lemma map_result_exists {A B} (f : A -> result B) (Q : A -> B -> Prop) l : (forall x, In x l -> exists y, f x = Ok y /\ Q x y) ->
  exists l', map_result f l = Ok l' /\ Forall2 Q l l'.
Proof.
  induction l as [|x l IH]; intros H; [exists []; split; [reflexivity|constructor]|]. destruct (H x (or_introl eq_refl)) as [y [E Hy]].
  destruct IH as [l' [E' H']]; [intros; apply H; now right|]. exists (y :: l'). cbn. rewrite E. cbn [bind]. rewrite E'. split; [reflexivity|now constructor].
Qed.

Lemma Forall2_in_l {A B} (Q : A -> B -> Prop) l l' : Forall2 Q l l' -> forall x, In x l -> exists y, In y l' /\ Q x y.
Proof. induction 1 as [|a b l l' H _ IH]; intros x []; [subst; exists b; split; [now left|exact H]|]. destruct (IH x H0) as [y [H1 H2]]. exists y. split; [now right|exact H2]. Qed.
Lemma Forall2_in_r {A B} (Q : A -> B -> Prop) l l' : Forall2 Q l l' -> forall y, In y l' -> exists x, In x l /\ Q x y.
Proof. induction 1 as [|a b l l' H _ IH]; intros y []; [subst; exists a; split; [now left|exact H]|]. destruct (IH y H0) as [x [H1 H2]]. exists x. split; [now right|exact H2]. Qed.

Lemma days_ok xss : xss <> [] -> (forall xs, In xs xss -> xs <> []) ->
  exists a n, fx_days xss = Ok (seq a (n + 1)) /\ (exists xs, In xs xss /\ In a xs) /\ (exists xs, In xs xss /\ In (a + n)%nat xs) /\
    forall xs x, In xs xss -> In x xs -> (a <= x <= a + n)%nat.
Proof.
  intros NE Hne.
  destruct (map_result_exists least (fun xs a => In a xs /\ forall x, In x xs -> (a <= x)%nat) xss) as [los [E1 F1]]; [intros xs Hxs; apply least_ok; now apply Hne|].
  destruct (map_result_exists most (fun xs a => In a xs /\ forall x, In x xs -> (x <= a)%nat) xss) as [his [E2 F2]]; [intros xs Hxs; apply most_ok; now apply Hne|].
  assert (N1 : los <> []) by (destruct F1; [congruence|discriminate]). assert (N2 : his <> []) by (destruct F2; [congruence|discriminate]).
  destruct (least_ok los N1) as (a & Ea & Ia & La). destruct (most_ok his N2) as (b & Eb & Ib & Lb).
  assert (B : forall xs x, In xs xss -> In x xs -> (a <= x <= b)%nat).
  { intros xs x Hxs Hx. destruct (Forall2_in_l _ _ _ F1 xs Hxs) as (y & Hy & _ & Ly). destruct (Forall2_in_l _ _ _ F2 xs Hxs) as (z & Hz & _ & Lz).
    specialize (La y Hy). specialize (Lb z Hz). specialize (Ly x Hx). specialize (Lz x Hx). lia. }
  destruct (Forall2_in_r _ _ _ F1 a Ia) as (xa & Hxa & Ina & _). destruct (Forall2_in_r _ _ _ F2 b Ib) as (xb & Hxb & Inb & _).
  assert (AB : (a <= b)%nat) by exact (proj2 (B xa a Hxa Ina)).
  exists a, (b - a)%nat. split; [|split; [now exists xa|split; [exists xb; split; [exact Hxb|now replace (a + (b - a))%nat with b by lia]|]]].
  - unfold fx_days. rewrite E1. cbn [bind]. rewrite Ea. cbn [bind]. rewrite E2. cbn [bind]. rewrite Eb. cbn [bind]. do 2 f_equal. lia.
  - intros xs x Hxs Hx. pose proof (B xs x Hxs Hx). lia.
Qed.

(** ** Masks *)
Lemma mask_map {A B} (l : list A) (b : list B) (h : A -> bool) : length b = length l -> mask b (map h l) = Ok (map snd (filter (fun p => h (fst p)) (combine l b))).
Proof.
  intros H. unfold mask. rewrite map_length, H, Nat.eqb_refl. f_equal. revert b H. induction l as [|x l IH]; intros [|y b] H; try discriminate H; [reflexivity|]. cbn in *. injection H as H.
  destruct (h x); cbn; now rewrite IH.
Qed.
Lemma mask_self {A} (l : list A) (h : A -> bool) : mask l (map h l) = Ok (filter h l).
Proof.
  unfold mask. rewrite map_length, Nat.eqb_refl. f_equal. induction l as [|x l IH]; [reflexivity|]. cbn. destruct (h x); cbn; now rewrite IH.
Qed.
Lemma filter_combine_split {A B} (l : list A) (b : list B) (h : A -> bool) : length b = length l ->
  combine (filter h l) (map snd (filter (fun p => h (fst p)) (combine l b))) = filter (fun p => h (fst p)) (combine l b).
Proof.
  revert b. induction l as [|x l IH]; intros [|y b] H; try discriminate H; [reflexivity|]. cbn in *. injection H as H. destruct (h x); cbn; now rewrite IH.
Qed.
Lemma filter_mask_length {A B} (l : list A) (b : list B) (h : A -> bool) : length b = length l ->
  length (map snd (filter (fun p => h (fst p)) (combine l b))) = length (filter h l).
Proof. revert b. induction l as [|x l IH]; intros [|y b] H; try discriminate H; [reflexivity|]. cbn in *. injection H as H. destruct (h x); cbn; now rewrite IH. Qed.
