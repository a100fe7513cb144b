(** Accuracy of the one-dimensional interpolation: exactness and the third
    order error bound. *)

From Coq Require Import Reals List Arith ZArith Lia Lra.
From Coquelicot Require Import Coquelicot.
From Verif Require Import Base NDArray Model_Util Proofs_Util Model_Linalg Proofs_Linalg
  Model_Interp Spec_Interp Proofs_Sparse Proofs_Interp.
Import ListNotations.
Open Scope R_scope.

Lemma equispaced_length m a h : length (equispaced m a h) = m.
Proof. apply tab_length. Qed.
Lemma equispaced_0 m a h : (1 <= m)%nat -> vget (equispaced m a h) 0 = a.
Proof. intros. unfold equispaced. rewrite vget_tab by lia. simpl. lra. Qed.
Lemma equispaced_1 m a h : (2 <= m)%nat -> vget (equispaced m a h) 1 = a + h.
Proof. intros. unfold equispaced. rewrite vget_tab by lia. simpl. lra. Qed.

Lemma factor_get g0 d s i : (i < length s)%nat -> vget (factors g0 d s) i = (vget s i - g0) / d.
Proof.
  intros Hi. unfold factors, vget. rewrite (nth_indep _ 0 ((0 - g0) / d)) by (rewrite map_length; auto).
  apply (map_nth (fun s => (s - g0) / d)).
Qed.

(** The value of the interpolant at row [i] on an equispaced grid. *)
Lemma interp_equi W m a h s i phi :
  (4 <= m)%nat ->
  interp_cubic (arr1 (equispaced m a h)) (arr1 s) = Ok W -> (i < length s)%nat ->
  let f := (vget s i - a) / h in
  interp_value W i phi =
  lsum (map (fun conv => wgt (f - IZR (np_floor f)) conv * phi (clamp_idx m (np_floor f - conv))) conv_window).
Proof.
  intros Hm HW Hi f.
  destruct (interp_cubic_ok (equispaced m a h) s) as [W' [HW' Hok]].
  - now rewrite equispaced_length.
  - destruct s; simpl in Hi; [lia|discriminate].
  - rewrite HW in HW'. apply Ok_inj in HW'. subst W'. rewrite equispaced_length in Hok.
    rewrite equispaced_0, equispaced_1 in Hok by lia.
    rewrite (interp_ok_dot _ _ _ _ i phi Hok) by lia. cbv zeta.
    rewrite factor_get by auto. replace (a + h - a) with h by ring. reflexivity.
Qed.

Lemma lsum_ext {A} (f g : A -> R) l : (forall x, In x l -> f x = g x) -> lsum (map f l) = lsum (map g l).
Proof. intros H. f_equal. now apply map_ext_in. Qed.

Lemma frac_range f : 0 <= f - IZR (np_floor f) < 1.
Proof. pose proof (floor_bounds f). lra. Qed.

(** Interior samples: the window reads the function at the four neighbours. *)
Lemma interp_interior W m a h s i phi :
  (4 <= m)%nat -> 0 < h ->
  interp_cubic (arr1 (equispaced m a h)) (arr1 s) = Ok W -> (i < length s)%nat ->
  a + h <= vget s i <= a + INR (m - 2) * h ->
  exists t, 0 <= t < 1 /\
    (forall conv, In conv conv_window -> wgt t conv <> 0 ->
       a <= vget s i + (IZR (- conv) - t) * h <= a + INR (m - 1) * h) /\
    interp_value W i (fun j => phi (a + INR j * h)) =
    lsum (map (fun conv => wgt t conv * phi (vget s i + (IZR (- conv) - t) * h)) conv_window).
Proof.
  intros Hm Hh HW Hi [Hlo Hhi]. set (x := vget s i) in *. set (f := (x - a) / h).
  assert (Hx : x = a + f * h) by (unfold f; field; lra).
  pose proof (floor_bounds f) as [Hf1 Hf2]. pose proof (frac_range f) as Ht.
  assert (F1 : 1 <= f) by (apply Rmult_le_reg_r with h; lra).
  assert (F2 : f <= INR (m - 2)) by (apply Rmult_le_reg_r with h; lra).
  assert (K1 : (1 <= np_floor f)%Z).
  { assert (1 < np_floor f + 1)%Z; [|lia]. apply lt_IZR. rewrite plus_IZR. simpl. lra. }
  assert (K2 : (np_floor f <= Z.of_nat (m - 2))%Z).
  { apply le_IZR. rewrite <- INR_IZR_INZ. lra. }
  set (t := f - IZR (np_floor f)) in *.
  assert (Hw2 : np_floor f = Z.of_nat (m - 2) -> wgt t (-2) = 0).
  { intros E. assert (t = 0) as E0.
    { unfold t in *. rewrite E, <- INR_IZR_INZ in *. lra. }
    rewrite wgt_m2, E0 by lra. ring. }
  assert (Hrange : forall conv, In conv conv_window -> wgt t conv <> 0 -> (0 <= np_floor f - conv < Z.of_nat m)%Z).
  { intros conv Hc Hw. simpl in Hc. destruct Hc as [<-|[<-|[<-|[<-|[]]]]]; try lia.
    destruct (Z.eq_dec (np_floor f) (Z.of_nat (m - 2))); [tauto|lia]. }
  assert (Hpos : forall conv, x + (IZR (- conv) - t) * h = a + IZR (np_floor f - conv) * h).
  { intros conv. rewrite minus_IZR, opp_IZR. unfold t. rewrite Hx. ring. }
  exists t. split; [exact Ht|]. split.
  - intros conv Hc Hw. pose proof (Hrange conv Hc Hw) as [R1 R2]. rewrite Hpos.
    apply IZR_le in R1. simpl in R1.
    assert (IZR (np_floor f - conv) <= INR (m - 1)).
    { rewrite INR_IZR_INZ. apply IZR_le. lia. }
    split; [nra|]. apply Rplus_le_compat_l. apply Rmult_le_compat_r; lra.
  - rewrite (interp_equi W m a h s i _ Hm HW Hi). fold x. fold f. fold t.
    apply lsum_ext. intros conv Hc. destruct (Req_dec (wgt t conv) 0) as [E|E]; [rewrite E; ring|].
    pose proof (Hrange conv Hc E) as Hr. rewrite clamp_in by auto. rewrite Hpos.
    rewrite INR_IZR_INZ, Z2Nat.id by lia. reflexivity.
Qed.

(** ** Taylor's formula to second order *)

Lemma mono_ge (p p' : R -> R) x y : x <= y ->
  (forall z, x <= z <= y -> is_derive p z (p' z)) -> (forall z, x <= z <= y -> 0 <= p' z) -> p x <= p y.
Proof.
  intros Hxy Hd Hp.
  destruct (MVT_gen p x y p') as [c [Hc E]].
  - rewrite Rmin_left, Rmax_right by auto. intros z Hz. apply Hd. lra.
  - rewrite Rmin_left, Rmax_right by auto. intros z Hz.
    apply continuity_pt_filterlim. apply (ex_derive_continuous p z). exists (p' z). auto.
  - rewrite Rmin_left, Rmax_right in Hc by auto. specialize (Hp c Hc). nra.
Qed.

(** [f1 f2 f3] are the successive derivatives of [f] on [lo, hi]. *)
Definition smooth3 (f f1 f2 f3 : R -> R) (lo hi : R) : Prop :=
  forall x, lo <= x <= hi -> is_derive f x (f1 x) /\ is_derive f1 x (f2 x) /\ is_derive f2 x (f3 x).

Lemma taylor_right_upper f f1 f2 f3 x y B :
  x <= y -> smooth3 f f1 f2 f3 x y -> (forall z, x <= z <= y -> f3 z <= B) ->
  f y <= f x + f1 x * (y - x) + f2 x * ((y - x) * (y - x)) / 2 + B * ((y - x) * (y - x) * (y - x)) / 6.
Proof.
  intros Hxy Hs HB.
  assert (A2 : forall z, x <= z <= y -> f2 z <= f2 x + B * (z - x)).
  { intros z Hz. pose proof (mono_ge (fun u => f2 x + B * (u - x) - f2 u) (fun u => B - f3 u) x z) as M.
    cbv beta in M. assert (f2 x + B * (x - x) - f2 x <= f2 x + B * (z - x) - f2 z); [|lra].
    apply M; [lra| |].
    - intros u Hu. destruct (Hs u) as [_ [_ D]]; [lra|]. pose proof (is_derive_unique f2 u _ D) as Du.
      auto_derive; [exists (f3 u); exact D|]. change (Derive (fun x0 => f2 x0) u) with (Derive f2 u); rewrite ?Du; field.
    - intros u Hu. specialize (HB u). lra. }
  assert (A1 : forall z, x <= z <= y -> f1 z <= f1 x + f2 x * (z - x) + B * ((z - x) * (z - x)) / 2).
  { intros z Hz. pose proof (mono_ge (fun u => f1 x + f2 x * (u - x) + B * ((u - x) * (u - x)) / 2 - f1 u)
       (fun u => f2 x + B * (u - x) - f2 u) x z) as M. cbv beta in M.
    assert (f1 x + f2 x * (x - x) + B * ((x - x) * (x - x)) / 2 - f1 x <=
            f1 x + f2 x * (z - x) + B * ((z - x) * (z - x)) / 2 - f1 z); [|lra].
    apply M; [lra| |].
    - intros u Hu. destruct (Hs u) as [_ [D _]]; [lra|]. pose proof (is_derive_unique f1 u _ D) as Du.
      auto_derive; [exists (f2 u); exact D|]. change (Derive (fun x0 => f1 x0) u) with (Derive f1 u); rewrite Du; field.
    - intros u Hu. specialize (A2 u). lra. }
  pose proof (mono_ge (fun u => f x + f1 x * (u - x) + f2 x * ((u - x) * (u - x)) / 2 + B * ((u - x) * (u - x) * (u - x)) / 6 - f u)
       (fun u => f1 x + f2 x * (u - x) + B * ((u - x) * (u - x)) / 2 - f1 u) x y) as M. cbv beta in M.
  assert (f x + f1 x * (x - x) + f2 x * ((x - x) * (x - x)) / 2 + B * ((x - x) * (x - x) * (x - x)) / 6 - f x <=
          f x + f1 x * (y - x) + f2 x * ((y - x) * (y - x)) / 2 + B * ((y - x) * (y - x) * (y - x)) / 6 - f y); [|lra].
  apply M; [lra| |].
  - intros u Hu. destruct (Hs u) as [D _]; [lra|]. pose proof (is_derive_unique f u _ D) as Du.
    auto_derive; [exists (f1 u); exact D|]. change (Derive (fun x0 => f x0) u) with (Derive f u); rewrite Du; field.
  - intros u Hu. specialize (A1 u). lra.
Qed.

Lemma smooth3_opp f f1 f2 f3 lo hi : smooth3 f f1 f2 f3 lo hi ->
  smooth3 (fun x => - f x) (fun x => - f1 x) (fun x => - f2 x) (fun x => - f3 x) lo hi.
Proof.
  intros H x Hx. destruct (H x Hx) as [A [B C]].
  split; [|split]; [apply (is_derive_opp f)|apply (is_derive_opp f1)|apply (is_derive_opp f2)]; assumption.
Qed.

Lemma is_derive_refl (g : R -> R) x d : is_derive g (- x) d -> is_derive (fun y => g (- y)) x (- d).
Proof.
  intros H. replace (- d) with (scal (-1) d) by (unfold scal; simpl; unfold mult; simpl; ring).
  apply (is_derive_comp g (fun y => - y)); auto. auto_derive; auto.
Qed.

Lemma smooth3_refl f f1 f2 f3 lo hi : smooth3 f f1 f2 f3 lo hi ->
  smooth3 (fun x => f (- x)) (fun x => - f1 (- x)) (fun x => f2 (- x)) (fun x => - f3 (- x)) (- hi) (- lo).
Proof.
  intros H x Hx. destruct (H (- x)) as [A [B C]]; [lra|]. split; [|split].
  - now apply is_derive_refl.
  - replace (f2 (- x)) with (- - f2 (- x)) by ring. apply (is_derive_opp (fun x => f1 (- x))). now apply is_derive_refl.
  - now apply is_derive_refl.
Qed.

Lemma taylor_right f f1 f2 f3 x y B :
  x <= y -> smooth3 f f1 f2 f3 x y -> (forall z, x <= z <= y -> Rabs (f3 z) <= B) ->
  Rabs (f y - (f x + f1 x * (y - x) + f2 x * ((y - x) * (y - x)) / 2)) <= B * ((y - x) * (y - x) * (y - x)) / 6.
Proof.
  intros Hxy Hs HB. apply Rabs_le.
  pose proof (taylor_right_upper f f1 f2 f3 x y B Hxy Hs) as U.
  pose proof (taylor_right_upper _ _ _ _ x y B Hxy (smooth3_opp _ _ _ _ _ _ Hs)) as L.
  cbv beta in L. split.
  - assert (HL : forall z, x <= z <= y -> - f3 z <= B).
    { intros z Hz. specialize (HB z Hz). apply Rabs_le_between in HB. lra. }
    specialize (L HL). lra.
  - assert (HU : forall z, x <= z <= y -> f3 z <= B).
    { intros z Hz. specialize (HB z Hz). apply Rabs_le_between in HB. lra. }
    specialize (U HU). lra.
Qed.

Lemma taylor_left f f1 f2 f3 x y B :
  y <= x -> smooth3 f f1 f2 f3 y x -> (forall z, y <= z <= x -> Rabs (f3 z) <= B) ->
  Rabs (f y - (f x + f1 x * (y - x) + f2 x * ((y - x) * (y - x)) / 2)) <= B * ((x - y) * (x - y) * (x - y)) / 6.
Proof.
  intros Hxy Hs HB.
  pose proof (taylor_right _ _ _ _ (- x) (- y) B ltac:(lra) (smooth3_refl _ _ _ _ _ _ Hs)) as T.
  cbv beta in T. rewrite !Ropp_involutive in T.
  replace (- y - - x) with (x - y) in T by ring.
  replace (f x + f1 x * (y - x) + f2 x * ((y - x) * (y - x)) / 2)
    with (f x + - f1 x * (x - y) + f2 x * ((x - y) * (x - y)) / 2) by field.
  apply T. intros z Hz. rewrite Rabs_Ropp. apply HB. lra.
Qed.

Lemma taylor3 f f1 f2 f3 lo hi x y B :
  smooth3 f f1 f2 f3 lo hi -> (forall z, lo <= z <= hi -> Rabs (f3 z) <= B) ->
  lo <= x <= hi -> lo <= y <= hi ->
  Rabs (f y - (f x + f1 x * (y - x) + f2 x * ((y - x) * (y - x)) / 2)) <= B / 6 * (Rabs (y - x) * Rabs (y - x) * Rabs (y - x)).
Proof.
  intros Hs HB Hx Hy. destruct (Rle_dec x y) as [H|H].
  - rewrite (Rabs_right (y - x)) by lra.
    pose proof (taylor_right f f1 f2 f3 x y B H) as T.
    assert (smooth3 f f1 f2 f3 x y) as S by (intros z Hz; apply Hs; lra).
    specialize (T S ltac:(intros z Hz; apply HB; lra)). lra.
  - rewrite (Rabs_left (y - x)) by lra.
    pose proof (taylor_left f f1 f2 f3 x y B ltac:(lra)) as T.
    assert (smooth3 f f1 f2 f3 y x) as S by (intros z Hz; apply Hs; lra).
    specialize (T S ltac:(intros z Hz; apply HB; lra)). lra.
Qed.

(** ** The error bound *)

Lemma lsum_abs_le {A} (f : A -> R) l : Rabs (lsum (map f l)) <= lsum (map (fun x => Rabs (f x)) l).
Proof.
  induction l as [|x l IH]; cbn [map lsum fold_right].
  - rewrite Rabs_R0. lra.
  - eapply Rle_trans; [apply Rabs_triang|]. unfold lsum in *. lra.
Qed.

Lemma lsum_le {A} (f g : A -> R) l : (forall x, In x l -> f x <= g x) -> lsum (map f l) <= lsum (map g l).
Proof.
  induction l as [|x l IH]; intros H; cbn [map lsum fold_right]; [lra|].
  pose proof (H x (or_introl eq_refl)). assert (lsum (map f l) <= lsum (map g l)) by (apply IH; intros; apply H; simpl; auto).
  unfold lsum in *. lra.
Qed.

Lemma lsum_minus {A} (f g : A -> R) l : lsum (map f l) - lsum (map g l) = lsum (map (fun x => f x - g x) l).
Proof. induction l as [|x l IH]; cbn [map lsum fold_right]; unfold lsum in *; lra. Qed.

Lemma lsum_scal {A} c (f : A -> R) l : lsum (map (fun x => c * f x) l) = c * lsum (map f l).
Proof. induction l as [|x l IH]; cbn [map lsum fold_right]; unfold lsum in *; lra. Qed.

Lemma cube_nonneg u : 0 <= Rabs u * Rabs u * Rabs u.
Proof. pose proof (Rabs_pos u). nra. Qed.

Lemma weight_moment3 t : 0 <= t < 1 ->
  lsum (map (fun conv => Rabs (wgt t conv) * (Rabs (IZR (- conv) - t) * Rabs (IZR (- conv) - t) * Rabs (IZR (- conv) - t))) conv_window) <= 3.
Proof.
  intros H. cbn [conv_window map lsum fold_right]. rewrite wgt_m2, wgt_m1, wgt_0, wgt_1 by auto. simpl Z.opp.
  assert (P : 0 <= t * (1 - t) <= 1 / 4) by (split; [nra|pose proof (Rle_0_sqr (t - 1 / 2)); unfold Rsqr in *; lra]).
  set (q := 1 - t) in *. assert (Hq : 0 <= q <= 1) by (unfold q; lra).
  assert (Ht : t = 1 - q) by (unfold q; ring).
  rewrite (Rabs_right (2 - t)) by lra. rewrite (Rabs_right q) by lra.
  rewrite (Rabs_left1 (0 - t)) by lra. rewrite (Rabs_left (-1 - t)) by lra.
  (* outer weights *)
  assert (C8 : forall u, 0 <= u <= 2 -> 0 <= u * u * u <= 8) by (intros u Hu; nra).
  assert (W2 : Rabs (- (1 / 2) * q * (t * t)) <= 1 / 8).
  { replace (- (1 / 2) * q * (t * t)) with (- (1 / 2 * (t * q) * t)) by ring. rewrite Rabs_Ropp, Rabs_right; nra. }
  assert (W1 : Rabs (- (1 / 2) * t * (q * q)) <= 1 / 8).
  { replace (- (1 / 2) * t * (q * q)) with (- (1 / 2 * (t * q) * q)) by ring. rewrite Rabs_Ropp, Rabs_right; nra. }
  (* inner weights are between 0 and 1 *)
  assert (V : forall u, 0 <= u <= 1 -> Rabs (3 / 2 * u * u * u - 5 / 2 * u * u + 1) <= 1).
  { intros u Hu. rewrite Rabs_right.
    - assert (0 <= u * u * (5 / 2 - 3 / 2 * u)) by (apply Rmult_le_pos; nra). lra.
    - replace (3 / 2 * u * u * u - 5 / 2 * u * u + 1) with ((1 - u) * (1 + u * (1 - 3 / 2 * u))) by field.
      apply Rle_ge, Rmult_le_pos; [lra|]. pose proof (Rle_0_sqr (u - 1 / 3)); unfold Rsqr in *; nra. }
  pose proof (V q ltac:(lra)) as V1. pose proof (V t ltac:(lra)) as V2.
  pose proof (C8 (2 - t) ltac:(lra)) as K1. pose proof (C8 (- (-1 - t)) ltac:(lra)) as K2.
  assert (K3 : 0 <= q * q * q) by nra.
  assert (K4 : 0 <= - (0 - t) * - (0 - t) * - (0 - t)) by nra.
  assert (K5 : q * q * q + - (0 - t) * - (0 - t) * - (0 - t) <= 1) by nra.
  pose proof (Rabs_pos (- (1 / 2) * q * (t * t))). pose proof (Rabs_pos (- (1 / 2) * t * (q * q))).
  assert (T1 : Rabs (- (1 / 2) * q * (t * t)) * ((2 - t) * (2 - t) * (2 - t)) <= 1) by nra.
  assert (T2 : Rabs (- (1 / 2) * t * (q * q)) * (- (-1 - t) * - (-1 - t) * - (-1 - t)) <= 1) by nra.
  assert (T3 : Rabs (3 / 2 * q * q * q - 5 / 2 * q * q + 1) * (q * q * q) <= q * q * q).
  { rewrite <- (Rmult_1_l (q * q * q)) at 2. apply Rmult_le_compat_r; auto. }
  assert (T4 : Rabs (3 / 2 * t * t * t - 5 / 2 * t * t + 1) * (- (0 - t) * - (0 - t) * - (0 - t)) <= - (0 - t) * - (0 - t) * - (0 - t)).
  { rewrite <- (Rmult_1_l (- (0 - t) * - (0 - t) * - (0 - t))) at 2. apply Rmult_le_compat_r; auto. }
  lra.
Qed.

Lemma interp_error W m a h s i f f1 f2 f3 B :
  (4 <= m)%nat -> 0 < h ->
  interp_cubic (arr1 (equispaced m a h)) (arr1 s) = Ok W -> (i < length s)%nat ->
  a + h <= vget s i <= a + INR (m - 2) * h ->
  smooth3 f f1 f2 f3 a (a + INR (m - 1) * h) ->
  (forall z, a <= z <= a + INR (m - 1) * h -> Rabs (f3 z) <= B) ->
  Rabs (interp_value W i (fun j => f (a + INR j * h)) - f (vget s i)) <= B / 2 * (h * h * h).
Proof.
  intros Hm Hh HW Hi Hx Hs HB.
  destruct (interp_interior W m a h s i f Hm Hh HW Hi Hx) as [t [Ht [Hr E]]].
  set (x := vget s i) in *. rewrite E.
  assert (Hxr : a <= x <= a + INR (m - 1) * h).
  { split; [lra|]. assert (INR (m - 2) <= INR (m - 1)) by (apply le_INR; lia). nra. }
  assert (B0 : 0 <= B) by (eapply Rle_trans; [apply Rabs_pos|apply (HB x Hxr)]).
  set (P := fun conv => wgt t conv * (f x + f1 x * h * (IZR (- conv) - t) + f2 x * (h * h) / 2 * ((IZR (- conv) - t) * (IZR (- conv) - t)))).
  assert (HP : lsum (map P conv_window) = f x) by (apply wgt_moments; auto).
  rewrite <- HP. rewrite lsum_minus.
  eapply Rle_trans; [apply lsum_abs_le|].
  eapply Rle_trans; [apply (lsum_le _ (fun conv => B / 6 * (h * h * h) *
    (Rabs (wgt t conv) * (Rabs (IZR (- conv) - t) * Rabs (IZR (- conv) - t) * Rabs (IZR (- conv) - t)))))|].
  - intros conv Hc. unfold P. rewrite <- Rmult_minus_distr_l, Rabs_mult.
    destruct (Req_dec (wgt t conv) 0) as [Z|Z].
    { rewrite Z, Rabs_R0. lra. }
    pose proof (taylor3 f f1 f2 f3 _ _ x (x + (IZR (- conv) - t) * h) B Hs HB Hxr (Hr conv Hc Z)) as T.
    replace (x + (IZR (- conv) - t) * h - x) with ((IZR (- conv) - t) * h) in T by ring.
    rewrite Rabs_mult, (Rabs_right h) in T by lra.
    replace (B / 6 * (h * h * h) * (Rabs (wgt t conv) * (Rabs (IZR (- conv) - t) * Rabs (IZR (- conv) - t) * Rabs (IZR (- conv) - t))))
      with (Rabs (wgt t conv) * (B / 6 * (Rabs (IZR (- conv) - t) * h * (Rabs (IZR (- conv) - t) * h) * (Rabs (IZR (- conv) - t) * h)))) by ring.
    apply Rmult_le_compat_l; [apply Rabs_pos|].
    replace (f x + f1 x * h * (IZR (- conv) - t) + f2 x * (h * h) / 2 * ((IZR (- conv) - t) * (IZR (- conv) - t)))
      with (f x + f1 x * ((IZR (- conv) - t) * h) + f2 x * ((IZR (- conv) - t) * h * ((IZR (- conv) - t) * h)) / 2) by field.
    exact T.
  - rewrite lsum_scal. pose proof (weight_moment3 t Ht).
    assert (0 <= B / 6 * (h * h * h)) by (apply Rmult_le_pos; [lra|nra]).
    nra.
Qed.

Lemma interp_quadratic W m a h s i c0 c1 c2 :
  (4 <= m)%nat -> 0 < h ->
  interp_cubic (arr1 (equispaced m a h)) (arr1 s) = Ok W -> (i < length s)%nat ->
  a + h <= vget s i <= a + INR (m - 2) * h ->
  interp_value W i (fun j => let x := a + INR j * h in c0 + c1 * x + c2 * (x * x)) =
  c0 + c1 * vget s i + c2 * (vget s i * vget s i).
Proof.
  intros Hm Hh HW Hi Hx.
  destruct (interp_interior W m a h s i (fun x => c0 + c1 * x + c2 * (x * x)) Hm Hh HW Hi Hx) as [t [Ht [_ E]]].
  cbv zeta in *. rewrite E. set (x := vget s i).
  rewrite <- (wgt_moments t (c0 + c1 * x + c2 * (x * x)) ((c1 + 2 * c2 * x) * h) (c2 * (h * h)) Ht).
  apply lsum_ext. intros conv _. ring.
Qed.

Lemma interp_node W m a h s i k phi :
  (4 <= m)%nat -> 0 < h ->
  interp_cubic (arr1 (equispaced m a h)) (arr1 s) = Ok W -> (i < length s)%nat ->
  (k < m)%nat -> vget s i = a + INR k * h ->
  interp_value W i phi = phi k.
Proof.
  intros Hm Hh HW Hi Hk Hx.
  rewrite (interp_equi W m a h s i _ Hm HW Hi). rewrite Hx.
  replace ((a + INR k * h - a) / h) with (IZR (Z.of_nat k)) by (rewrite <- INR_IZR_INZ; field; lra).
  rewrite (floor_unique _ (Z.of_nat k)) by lra.
  rewrite Rminus_diag_eq by reflexivity.
  cbn [conv_window map lsum fold_right]. rewrite wgt_m2, wgt_m1, wgt_0, wgt_1 by lra.
  rewrite (clamp_in m (Z.of_nat k - 0)) by lia. rewrite Z.sub_0_r, Nat2Z.id. field.
Qed.
