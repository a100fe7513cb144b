(** autogrid. *)

From Coq Require Import Reals List Arith ZArith Lia Lra.
From Verif Require Import Base NDArray Model_Util Proofs_Util Model_Linalg Proofs_Linalg Proofs_Eig
  Model_Interp Spec_Interp Proofs_Sparse Proofs_Interp.
Import ListNotations.
Open Scope R_scope.

Lemma fold_min_le l : forall a, fold_left Rmin l a <= a.
Proof. induction l as [|x l IH]; intros a; simpl; [lra|]. eapply Rle_trans; [apply IH|apply Rmin_l]. Qed.

Lemma np_min_le l x : In x l -> np_min l <= x.
Proof.
  destruct l as [|a l]; [intros []|]. unfold np_min. cbn [tl hd]. intros [->|H]; [apply fold_min_le|].
  revert a H. induction l as [|y l IH]; intros a H; [destruct H|]. cbn [fold_left]. destruct H as [->|H].
  - eapply Rle_trans; [apply fold_min_le|apply Rmin_r].
  - now apply IH.
Qed.

Lemma arr_col_in P p X i : (i < hd 0 (a_shape X))%nat -> In (vget (a_data X) (i * P + p)) (arr_col P p X).
Proof. intros Hi. unfold arr_col. apply in_tab. eauto. Qed.

Definition lo_of (Xs : list ndarr) (P p : nat) : R := np_min (map (fun X => np_min (arr_col P p X)) Xs).
Definition hi_of (Xs : list ndarr) (P p : nat) : R := np_max (map (fun X => np_max (arr_col P p X)) Xs).

(** [x] occurs in column [p] of the inputs. *)
Definition data_at (Xs : list ndarr) (P p : nat) (x : R) : Prop :=
  exists X i, In X Xs /\ (i < hd 0 (a_shape X))%nat /\ x = vget (a_data X) (i * P + p).

Lemma data_bounds Xs P p x : data_at Xs P p x -> lo_of Xs P p <= x <= hi_of Xs P p.
Proof.
  intros [X [i [HX [Hi ->]]]]. split.
  - eapply Rle_trans; [apply np_min_le|apply np_min_le, arr_col_in; eauto].
    apply in_map_iff. exists X. auto.
  - eapply Rle_trans; [apply np_max_ge, arr_col_in; eauto|apply np_max_ge].
    apply in_map_iff. exists X. auto.
Qed.

(** Arithmetic of the grid: [k] cells requested on [lo, hi], padded by two on
    each side and with [k + 4] points. *)
Lemma grid_arith lo hi k : lo < hi -> (1 <= k)%nat ->
  let d := (hi - lo) / INR k in
  let a := lo - 2 * d in
  let h := (hi + 2 * d - a) / INR (k + 4 - 1) in
  0 < h /\ a + h < lo /\ hi < a + INR (k + 2) * h /\ hi + 2 * d = a + INR (k + 3) * h.
Proof.
  intros Hlt Hk d a h.
  assert (K : 1 <= INR k) by (change 1 with (INR 1); now apply le_INR).
  assert (Hd : 0 < d) by (unfold d; apply Rdiv_lt_0_compat; lra).
  assert (Hhl : hi = lo + INR k * d) by (unfold d; field; lra).
  assert (Hh : h = d * ((INR k + 4) / (INR k + 3))).
  { unfold h, a. replace (k + 4 - 1)%nat with (k + 3)%nat by lia. rewrite plus_INR, Hhl.
    replace (INR 3) with 3 by (simpl; lra). field. lra. }
  assert (Hq : 0 < INR k + 3) by lra.
  set (r := (INR k + 4) / (INR k + 3)) in *.
  assert (Hr : r * (INR k + 3) = INR k + 4) by (unfold r; field; lra).
  assert (R1 : 1 < r) by (apply Rmult_lt_reg_r with (INR k + 3); lra).
  assert (R2 : r < 2) by (apply Rmult_lt_reg_r with (INR k + 3); lra).
  rewrite Hh. split; [apply Rmult_lt_0_compat; lra|]. unfold a. split; [nra|].
  rewrite !plus_INR. replace (INR 2) with 2 by (simpl; lra). replace (INR 3) with 3 by (simpl; lra). split.
  - rewrite Hhl. replace (lo - 2 * d + (INR k + 2) * (d * r)) with (lo + d * (r * (INR k + 3) - r - 2)) by ring.
    rewrite Hr. nra.
  - rewrite Hhl. replace (lo - 2 * d + (INR k + 3) * (d * r)) with (lo + d * (r * (INR k + 3) - 2)) by ring.
    rewrite Hr. ring.
Qed.

Lemma linspace_equispaced a b n : (2 <= n)%nat -> np_linspace a b n = equispaced n a ((b - a) / INR (n - 1)).
Proof.
  intros Hn. unfold np_linspace, equispaced. apply tab_ext. intros k Hk.
  destruct (Nat.eqb_spec n 1); [lia|reflexivity].
Qed.

(** Requested cells in dimension [p]. *)
Definition cells (Xs : list ndarr) (m : marg) (p : nat) : nat :=
  match m with
  | MNone => (nsum (map (fun X => hd 0%nat (a_shape X)) Xs) / length Xs)%nat
  | MList l | MArray l => nth p l 0%nat
  end.

Definition marg_ok (P : nat) (m : marg) : Prop :=
  match m with MNone => True | MList l | MArray l => length l = P end.

Lemma mean_ge_1 (l : list nat) : l <> [] -> (forall x, In x l -> 1 <= x)%nat -> (1 <= nsum l / length l)%nat.
Proof.
  intros Hne H. apply Nat.div_le_lower_bound; [destruct l; simpl; [congruence|lia]|].
  rewrite Nat.mul_1_r. clear Hne. induction l as [|x l IH]; [simpl; lia|].
  cbn [nsum fold_right length]. pose proof (H x (or_introl eq_refl)).
  assert (length l <= nsum l)%nat by (apply IH; intros; apply H; simpl; auto). unfold nsum in *. lia.
Qed.

Lemma min_pair_get P (l : vec) (f : nat -> R) p : length l = P -> (p < P)%nat ->
  vget (map (fun q => Rmin (fst q) (snd q)) (combine l (tab P f))) p = Rmin (vget l p) (f p).
Proof.
  intros Hl Hp. rewrite (vec_as_tab l) at 1. rewrite Hl, combine_tab, map_tab, vget_tab by auto. reflexivity.
Qed.
Lemma max_pair_get P (l : vec) (f : nat -> R) p : length l = P -> (p < P)%nat ->
  vget (map (fun q => Rmax (fst q) (snd q)) (combine l (tab P f))) p = Rmax (vget l p) (f p).
Proof.
  intros Hl Hp. rewrite (vec_as_tab l) at 1. rewrite Hl, combine_tab, map_tab, vget_tab by auto. reflexivity.
Qed.

Definition opt_ok (P : nat) (o : option vec) : Prop := match o with None => True | Some l => length l = P end.

Lemma opt_ok_b P o : opt_ok P o -> opt_len_ok P o = true.
Proof. destruct o; simpl; auto. intros ->. apply Nat.eqb_refl. Qed.

Lemma autogrid_value Xs P lo hi m :
  Xs <> [] -> (forall X, In X Xs -> exists n, a_shape X = [n; P] /\ (1 <= n)%nat) ->
  opt_ok P lo -> opt_ok P hi -> marg_ok P m ->
  exists grids m', autogrid Xs lo hi m = Ok (grids, m') /\ length grids = P /\
    m' = (match m with MArray l => MArray (map (fun k => (k + 4)%nat) l) | _ => m end) /\
    forall p, (p < P)%nat ->
      let lo' := match lo with None => lo_of Xs P p | Some l => Rmin (vget l p) (lo_of Xs P p) end in
      let hi' := match hi with None => hi_of Xs P p | Some l => Rmax (vget l p) (hi_of Xs P p) end in
      let k := cells Xs m p in
      let d := (hi' - lo') / INR k in
      nth p grids [] = np_linspace (lo' - 2 * d) (hi' + 2 * d) (k + 4).
Proof.
  intros Hne Hsh Hlo Hhi Hm.
  destruct Xs as [|X0 Xs']; [congruence|]. set (Xs := X0 :: Xs') in *.
  destruct (Hsh X0 (or_introl eq_refl)) as [n0 [Hs0 Hn0]].
  unfold autogrid. fold Xs. unfold Xs at 1. rewrite Hs0.
  rewrite (opt_ok_b _ _ Hlo), (opt_ok_b _ _ Hhi). cbn [negb].
  assert (Hmb : match m with MNone => true | MList l | MArray l => Nat.eqb (length l) P end = true).
  { destruct m; auto; simpl in Hm; rewrite Hm; apply Nat.eqb_refl. }
  rewrite Hmb. cbn [negb].
  assert (He : existsb (fun X => Nat.eqb (hd 0%nat (a_shape X)) 0) Xs = false).
  { destruct (existsb _ Xs) eqn:E; auto. apply existsb_exists in E. destruct E as [X [HX E]].
    destruct (Hsh X HX) as [n [Hs Hn]]. rewrite Hs in E. simpl in E. apply Nat.eqb_eq in E. lia. }
  rewrite He.
  do 2 eexists. split; [reflexivity|]. split; [now rewrite tab_length|]. split.
  { destruct m; reflexivity. }
  intros p Hp.
  set (lo' := match lo with None => lo_of Xs P p | Some l => Rmin (vget l p) (lo_of Xs P p) end).
  set (hi' := match hi with None => hi_of Xs P p | Some l => Rmax (vget l p) (hi_of Xs P p) end).
  set (k := cells Xs m p). set (d := (hi' - lo') / INR k).
  rewrite nth_tab by auto. rewrite !vget_tab by auto.
  match goal with |- np_linspace (vget ?L p - _) (vget ?H p + _) _ = _ =>
    assert (E1 : vget L p = lo'); [|assert (E2 : vget H p = hi')] end.
  { unfold lo'. destruct lo as [l|]; [now apply (min_pair_get P l (lo_of Xs P))|now rewrite vget_tab]. }
  { unfold hi'. destruct hi as [l|]; [now apply (max_pair_get P l (hi_of Xs P))|now rewrite vget_tab]. }
  rewrite E1, E2.
  set (mv := match m with MNone => _ | MList l | MArray l => l end).
  assert (E3 : nth p mv 0%nat = k /\ (p < length mv)%nat).
  { unfold mv, k, cells. destruct m; simpl in Hm.
    - rewrite nth_tab, tab_length by auto. auto.
    - split; auto. lia.
    - split; auto. lia. }
  destruct E3 as [E3 L3]. rewrite E3. fold d. f_equal.
  rewrite (nth_indep _ 0%nat (0 + 4)%nat) by (rewrite map_length; auto).
  rewrite (map_nth (fun k => (k + 4)%nat)). now rewrite E3.
Qed.

Lemma autogrid_spans Xs P lo hi m :
  Xs <> [] -> (forall X, In X Xs -> exists n, a_shape X = [n; P] /\ (1 <= n)%nat) ->
  opt_ok P lo -> opt_ok P hi -> marg_ok P m ->
  (forall l, m = MList l \/ m = MArray l -> forall k, In k l -> (1 <= k)%nat) ->
  (forall p, (p < P)%nat -> exists x y, x < y /\
      (data_at Xs P p x \/ exists l, lo = Some l /\ x = vget l p) /\
      (data_at Xs P p y \/ exists l, hi = Some l /\ y = vget l p)) ->
  exists grids m', autogrid Xs lo hi m = Ok (grids, m') /\ length grids = P /\
    forall p, (p < P)%nat -> exists a h,
      let k := cells Xs m p in
      0 < h /\ nth p grids [] = equispaced (k + 4) a h /\
      (forall x, data_at Xs P p x -> a + h < x < a + INR (k + 2) * h) /\
      (forall l, lo = Some l -> a + h < vget l p) /\
      (forall l, hi = Some l -> vget l p < a + INR (k + 2) * h).
Proof.
  intros Hne Hsh Hlo Hhi Hm Hpos Hnd.
  destruct (autogrid_value Xs P lo hi m Hne Hsh Hlo Hhi Hm) as [grids [m' [HG [HL [_ HV]]]]].
  exists grids, m'. split; auto. split; auto.
  intros p Hp. specialize (HV p Hp). cbv zeta in HV.
  set (lo' := match lo with None => lo_of Xs P p | Some l => Rmin (vget l p) (lo_of Xs P p) end) in *.
  set (hi' := match hi with None => hi_of Xs P p | Some l => Rmax (vget l p) (hi_of Xs P p) end) in *.
  set (k := cells Xs m p) in *.
  assert (Hlow : forall x, data_at Xs P p x -> lo' <= x).
  { intros x Hx. pose proof (data_bounds _ _ _ _ Hx) as [B1 B2]. unfold lo'. destruct lo; auto.
    eapply Rle_trans; [apply Rmin_r|auto]. }
  assert (Hhig : forall x, data_at Xs P p x -> x <= hi').
  { intros x Hx. pose proof (data_bounds _ _ _ _ Hx) as [B1 B2]. unfold hi'. destruct hi; auto.
    eapply Rle_trans; [eauto|apply Rmax_r]. }
  assert (Hlol : forall l, lo = Some l -> lo' <= vget l p) by (intros l ->; apply Rmin_l).
  assert (Hhil : forall l, hi = Some l -> vget l p <= hi') by (intros l ->; apply Rmax_l).
  assert (Hlt : lo' < hi').
  { destruct (Hnd p Hp) as [x [y [Hxy [Hx Hy]]]].
    assert (lo' <= x) by (destruct Hx as [Hx|[l [E ->]]]; auto).
    assert (y <= hi') by (destruct Hy as [Hy|[l [E ->]]]; auto). lra. }
  assert (Hk : (1 <= k)%nat).
  { unfold k, cells. destruct m as [|l|l].
    - assert (E : length Xs = length (map (fun X => hd 0%nat (a_shape X)) Xs)) by now rewrite map_length.
      rewrite E. apply mean_ge_1; [destruct Xs; simpl; congruence|].
      intros x Hx. apply in_map_iff in Hx. destruct Hx as [X [<- HX]]. destruct (Hsh X HX) as [n [-> Hn]]. exact Hn.
    - apply (Hpos l); auto. apply nth_In. simpl in Hm. lia.
    - apply (Hpos l); auto. apply nth_In. simpl in Hm. lia. }
  pose proof (grid_arith lo' hi' k Hlt Hk) as A. cbv zeta in A.
  set (d := (hi' - lo') / INR k) in *. set (a := lo' - 2 * d) in *. set (h := (hi' + 2 * d - a) / INR (k + 4 - 1)) in *.
  destruct A as [A1 [A2 [A3 A4]]].
  exists a, h. cbv zeta. split; [exact A1|]. split.
  { rewrite HV. apply linspace_equispaced. lia. }
  split.
  { intros x Hx. specialize (Hlow x Hx). specialize (Hhig x Hx). lra. }
  split.
  - intros l E. specialize (Hlol l E). lra.
  - intros l E. specialize (Hhil l E). lra.
Qed.

(** Points with two grid points on each side are interpolated without
    clamping. *)
Lemma no_clamp a h k x conv : 0 < h -> a + h < x < a + INR (k + 2) * h -> In conv conv_window ->
  (0 <= np_floor ((x - a) / h) - conv < Z.of_nat (k + 4))%Z.
Proof.
  intros Hh [H1 H2] Hc. set (f := (x - a) / h).
  assert (Hx : x = a + f * h) by (unfold f; field; lra).
  pose proof (floor_bounds f) as [F1 F2].
  assert (G1 : 1 <= f) by (apply Rmult_le_reg_r with h; lra).
  assert (G2 : f < INR (k + 2)) by (apply Rmult_lt_reg_r with h; lra).
  assert (1 < np_floor f + 1)%Z by (apply lt_IZR; rewrite plus_IZR; simpl; lra).
  assert (np_floor f < Z.of_nat (k + 2))%Z by (apply lt_IZR; rewrite <- INR_IZR_INZ; lra).
  simpl in Hc. lia.
Qed.
