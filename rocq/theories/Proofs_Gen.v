(** The grids of InterpolatedLLGP: what [_generate_grids] builds. *)

From Coq Require Import Reals List Arith ZArith Lia Lra.
From Verif Require Import Base NDArray PSD Model_Util Proofs_Util Spec_Util Model_Linalg Spec_Linalg Proofs_Linalg Model_Interp Spec_Interp
  Proofs_Sparse Proofs_Interp Proofs_Interp2 Proofs_Bicubic Proofs_Assemble Proofs_Autogrid Properties_Interp
  Model_Kern Spec_Kern Model_FK Spec_FK Proofs_FK Model_Grid Spec_Grid Proofs_Grid Proofs_Grid2 Spec_Lik Proofs_Lik Spec_GP.
Import ListNotations.
Open Scope R_scope.

(** ** Weights *)

(** The weight of point [j] of an axis at [x]. *)
Definition w1 (t : nat * R * R) (x : R) (j : nat) : R :=
  let f := (x - snd (fst t)) / snd t in
  lsum (map (fun conv => if Nat.eqb (clamp_idx (fst (fst t)) (np_floor f - conv)) j
                         then wgt (f - IZR (np_floor f)) conv else 0) conv_window).

(** The weight of point [u] of a grid of one or two axes. *)
Definition wN (l : list (nat * R * R)) (x : nat -> R) (u : nat) : R :=
  match l with
  | [t] => w1 t (x 0%nat) u
  | [tx; ty] => w1 tx (x 0%nat) (u / fst (fst ty)) * w1 ty (x 1%nat) (u mod fst (fst ty))
  | _ => 0
  end.

Lemma interp_w1 W m a h s i j : (4 <= m)%nat -> 0 < h ->
  interp_cubic (arr1 (equispaced m a h)) (arr1 s) = Ok W -> (i < length s)%nat -> (j < m)%nat ->
  csr_get W i j = w1 (m, a, h) (vget s i) j.
Proof.
  intros Hm Hh HW Hi Hj.
  destruct (interp_cubic_ok (equispaced m a h) s) as [W' [HW' Hok]].
  - now rewrite equispaced_length.
  - destruct s; simpl in Hi; [lia|discriminate].
  - rewrite HW in HW'. apply Ok_inj in HW'. subst W'. rewrite equispaced_length in Hok.
    rewrite equispaced_0, equispaced_1 in Hok by lia.
    rewrite (io_get _ _ _ _ Hok) by assumption. unfold w1. cbn [fst snd].
    assert (E : vget (factors a (a + h - a) s) i = (vget s i - a) / h).
    { unfold factors, vget. rewrite (nth_indep _ 0 ((fun v => (v - a) / (a + h - a)) 0)) by (now rewrite map_length).
      rewrite (map_nth (fun v => (v - a) / (a + h - a))). f_equal. ring. }
    rewrite E. reflexivity.
Qed.

Lemma w1_node m a h k j : (4 <= m)%nat -> 0 < h -> (k < m)%nat -> (j < m)%nat ->
  w1 (m, a, h) (a + INR k * h) j = if Nat.eqb j k then 1 else 0.
Proof.
  intros Hm Hh Hk Hj. set (s := [a + INR k * h]).
  destruct (C13_interp_rows m a h s Hm Hh) as [W [HW [Hr [Hc _]]]]; [discriminate|].
  change (a + INR k * h) with (vget s 0).
  rewrite <- (interp_w1 W m a h s 0 j Hm Hh HW) by (cbn; lia).
  pose proof (interp_node W m a h s 0 k (fun x => if Nat.eqb x j then 1 else 0) Hm Hh HW) as E.
  specialize (E ltac:(cbn; lia) Hk eq_refl). unfold interp_value in E. rewrite Hc in E.
  rewrite (Rsum_ext m _ (fun x => if Nat.eqb x j then csr_get W 0 x else 0)) in E.
  2:{ intros x Hx. destruct (Nat.eqb_spec x j); ring. }
  rewrite Rsum_delta in E by exact Hj. rewrite E. now rewrite Nat.eqb_sym.
Qed.

Lemma keys_le1 s : Rabs s <= 1 -> keys_cubic s = cubic_val (Rabs s).
Proof. intros H. unfold keys_cubic, cubic_val. destruct (Rle_dec (Rabs s) 1); [|contradiction]. rewrite Rleb_true by exact H. field. Qed.
Lemma keys_le2 s : 1 < Rabs s <= 2 -> keys_cubic s = cubic_val (Rabs s).
Proof.
  intros H. unfold keys_cubic, cubic_val. destruct (Rle_dec (Rabs s) 1); [lra|]. destruct (Rle_dec (Rabs s) 2); [|lra].
  rewrite Rleb_false by apply H. field.
Qed.
Lemma keys_far s : 2 <= Rabs s -> keys_cubic s = 0.
Proof.
  intros H. unfold keys_cubic. destruct (Rle_dec (Rabs s) 1); [lra|]. destruct (Rle_dec (Rabs s) 2); [|reflexivity].
  replace (Rabs s) with 2 by lra. field.
Qed.
Lemma keys_wgt t c : 0 <= t < 1 -> In c conv_window -> wgt t c = keys_cubic (t + IZR c).
Proof.
  intros Ht Hc. unfold wgt. destruct (Rle_dec (Rabs (t + IZR c)) 1); [now rewrite keys_le1|]. rewrite keys_le2; [reflexivity|]. split; [lra|].
  unfold Rabs in *. cbn in Hc. destruct Hc as [<-|[<-|[<-|[<-|[]]]]]; destruct (Rcase_abs _); lra.
Qed.

(** In the cells that are not at the border of the axis, the weights are those
    of cubic convolution. *)
Lemma w1_keys m a h x j : (4 <= m)%nat -> 0 < h -> a + h <= x < a + INR (m - 2) * h -> (j < m)%nat ->
  w1 (m, a, h) x j = keys_cubic ((x - (a + INR j * h)) / h).
Proof.
  intros Hm Hh Hx Hj. unfold w1. cbn [fst snd]. set (f := (x - a) / h).
  assert (Ef : (x - (a + INR j * h)) / h = f - INR j) by (unfold f; field; lra). rewrite Ef.
  assert (Hf : 1 <= f < INR (m - 2)).
  { unfold f. split.
    - apply (Rmult_le_reg_r h); [exact Hh|]. replace ((x - a) / h * h) with (x - a) by (field; lra). lra.
    - apply (Rmult_lt_reg_r h); [exact Hh|]. replace ((x - a) / h * h) with (x - a) by (field; lra). lra. }
  pose proof (floor_bounds f) as Hz. set (z := np_floor f) in *.
  assert (Z1 : (1 <= z)%Z) by (assert (0 < z)%Z by (apply lt_IZR; lra); lia).
  assert (Z2 : (z < Z.of_nat (m - 2))%Z) by (apply lt_IZR; rewrite <- INR_IZR_INZ; lra).
  assert (HT : 0 <= f - IZR z < 1) by lra.
  assert (HC : forall c, In c conv_window -> (if Nat.eqb (clamp_idx m (z - c)) j then wgt (f - IZR z) c else 0)
                = if Z.eqb (z - c) (Z.of_nat j) then keys_cubic (f - INR j) else 0).
  { intros c Hc. assert (CB : (-2 <= c <= 1)%Z) by (cbn in Hc; lia).
    assert (EC : clamp_idx m (z - c) = Z.to_nat (z - c)).
    { unfold clamp_idx. destruct (Z.ltb_spec (z - c) 0); [lia|]. destruct (Z.leb_spec (Z.of_nat m) (z - c)); [lia|]. reflexivity. }
    rewrite EC. destruct (Nat.eqb_spec (Z.to_nat (z - c)) j) as [E|E]; destruct (Z.eqb_spec (z - c) (Z.of_nat j)) as [E'|E']; try lia; [|reflexivity].
    rewrite (keys_wgt _ _ HT Hc). f_equal. rewrite INR_IZR_INZ, <- E', minus_IZR. ring. }
  rewrite (lsum_map_ext _ _ _ HC). cbn [conv_window map]. unfold lsum. cbn [fold_right].
  destruct (Z.eqb_spec (z - -2) (Z.of_nat j)), (Z.eqb_spec (z - -1) (Z.of_nat j)), (Z.eqb_spec (z - 0) (Z.of_nat j)), (Z.eqb_spec (z - 1) (Z.of_nat j));
    try lia; try ring.
  rewrite keys_far; [ring|].
  assert (HJ : (Z.of_nat j <= z - 2)%Z \/ (z + 3 <= Z.of_nat j)%Z) by lia.
  rewrite INR_IZR_INZ. destruct HJ as [HJ|HJ]; apply IZR_le in HJ.
  - rewrite minus_IZR in HJ. unfold Rabs. destruct (Rcase_abs _); lra.
  - rewrite plus_IZR in HJ. unfold Rabs. destruct (Rcase_abs _); lra.
Qed.

Definition axis_ok (t : nat * R * R) : Prop := (4 <= fst (fst t))%nat /\ 0 < snd t.

Lemma wN_node l k u : (length l = 1 \/ length l = 2)%nat -> Forall axis_ok l -> (k < axes_points l)%nat -> (u < axes_points l)%nat ->
  wN l (grid_pt (axes_of l) k) u = if Nat.eqb u k then 1 else 0.
Proof.
  intros Hl HF Hk Hu. destruct l as [|[[m a] h] [|[[m' a'] h'] [|]]]; cbn in Hl; try lia.
  - inversion HF as [|? ? [H1 H2] _]; subst. cbn [fst snd] in *. unfold wN. rewrite grid_pt_coord by (try exact Hk; cbn; lia).
    cbn [nth map fst snd]. unfold axes_points in Hk, Hu. cbn in Hk, Hu. cbn [unravel nprod fold_right nth].
    rewrite Nat.div_1_r. apply w1_node; auto; lia.
  - inversion HF as [|? ? [H1 H2] HF']; subst. inversion HF' as [|? ? [H3 H4] _]; subst. cbn [fst snd] in *.
    unfold wN. rewrite !grid_pt_coord by (try exact Hk; cbn; lia). cbn [nth map fst snd]. unfold axes_points in Hk, Hu. cbn in Hk, Hu.
    rewrite Nat.mul_1_r in *. cbn [unravel nprod fold_right nth]. rewrite Nat.mul_1_r, Nat.div_1_r.
    assert (Hkd : (k / m' < m)%nat) by (apply Nat.div_lt_upper_bound; lia).
    assert (Hud : (u / m' < m)%nat) by (apply Nat.div_lt_upper_bound; lia).
    assert (Hkm : (k mod m' < m')%nat) by (apply Nat.mod_upper_bound; lia).
    assert (Hum : (u mod m' < m')%nat) by (apply Nat.mod_upper_bound; lia).
    rewrite !w1_node by assumption.
    pose proof (Nat.div_mod u m' ltac:(lia)) as Eu. pose proof (Nat.div_mod k m' ltac:(lia)) as Ek.
    destruct (Nat.eqb_spec (u / m') (k / m')) as [E1|E1]; destruct (Nat.eqb_spec (u mod m') (k mod m')) as [E2|E2];
      destruct (Nat.eqb_spec u k) as [E3|E3]; try ring; exfalso; try congruence; apply E3; rewrite Eu, Ek, E1, E2; reflexivity.
Qed.

(** ** multi_interpolant *)

Lemma obs_point P Xs lens i p : obs P Xs lens i p = point P Xs (owner lens i) (place lens i) p.
Proof. reflexivity. Qed.

Lemma inputs_len P Xs lens : inputs P Xs lens -> length Xs = length lens.
Proof. intros H. exact (Forall2_len _ _ _ H). Qed.

Lemma wN_keys l x u : (length l = 1 \/ length l = 2)%nat -> Forall axis_ok l -> (u < axes_points l)%nat ->
  (forall p, (p < length l)%nat -> let t := nth p l (0%nat, 0, 0) in
     snd (fst t) + snd t <= x p < snd (fst t) + INR (fst (fst t) - 2) * snd t) ->
  wN l x u = fold_right Rmult 1 (tab (length l) (fun p => keys_cubic ((x p - grid_pt (axes_of l) u p) / snd (nth p l (0%nat, 0, 0))))).
Proof.
  intros Hl HF Hu Hx. destruct l as [|[[m a] h] [|[[m' a'] h'] [|]]]; cbn in Hl; try lia.
  - inversion HF as [|? ? [H1 H2] _]; subst. cbn [fst snd] in *. specialize (Hx 0%nat ltac:(cbn; lia)). cbv zeta in Hx. cbn [nth fst snd] in Hx.
    cbn [length]. rewrite tab_S_l. cbn [tab seq map fold_right]. rewrite grid_pt_coord by (try exact Hu; cbn; lia).
    cbn [nth map fst snd]. unfold axes_points in Hu. cbn in Hu. cbn [unravel nprod fold_right nth].
    rewrite Nat.div_1_r. unfold wN. rewrite w1_keys by (try assumption; lia). ring.
  - inversion HF as [|? ? [H1 H2] HF']; subst. inversion HF' as [|? ? [H3 H4] _]; subst. cbn [fst snd] in *.
    pose proof (Hx 0%nat ltac:(cbn; lia)) as Hx0. pose proof (Hx 1%nat ltac:(cbn; lia)) as Hx1. cbv zeta in Hx0, Hx1. cbn [nth fst snd] in Hx0, Hx1.
    cbn [length]. rewrite !tab_S_l. cbn [tab seq map fold_right]. rewrite !grid_pt_coord by (try exact Hu; cbn; lia). cbn [nth map fst snd].
    unfold axes_points in Hu. cbn in Hu. rewrite Nat.mul_1_r in *. cbn [unravel nprod fold_right nth]. rewrite Nat.mul_1_r, Nat.div_1_r.
    assert (Hud : (u / m' < m)%nat) by (apply Nat.div_lt_upper_bound; lia).
    assert (Hum : (u mod m' < m')%nat) by (apply Nat.mod_upper_bound; lia).
    unfold wN. cbn [fst snd]. rewrite !w1_keys by (try assumption; lia). ring.
Qed.

Lemma multi_ok l Xa lens : (length l = 1 \/ length l = 2)%nat -> Forall axis_ok l -> Xa <> [] -> inputs (length l) Xa lens ->
  let mm := axes_points l in
  exists M, multi_interpolant Xa (map np1 (axes_of l)) = Ok M /\
    c_r M = nsum lens /\ c_c M = (length lens * mm)%nat /\ csr_wf M /\
    forall i u, (i < nsum lens)%nat -> (u < length lens * mm)%nat ->
      csr_get M i u = if Nat.eqb (u / mm) (owner lens i) then wN l (obs (length l) Xa lens i) (u mod mm) else 0.
Proof.
  intros Hl HF Hne Hin mm. pose proof (inputs_len _ _ _ Hin) as HL.
  destruct l as [|[[m a] h] [|[[m' a'] h'] [|]]]; cbn in Hl; try lia.
  - inversion HF as [|? ? [H1 H2] _]; subst. cbn [fst snd length] in *.
    assert (Emm : mm = m) by (unfold mm, axes_points; cbn; lia).
    destruct (C17_multi_interpolant m a h (map a_data Xa) (fun _ => true) H1 H2) as [M [Ws [E [FW [Er [Ec [Wf G]]]]]]].
    { destruct Xa; [congruence|discriminate]. }
    assert (EX : map (fun v : vec => as_input true v) (map a_data Xa) = Xa).
    { clear - Hin. induction Hin as [|[s d] n Xa lens [A B] Hin IH]; [reflexivity|]. cbn [map a_data a_shape] in *. f_equal; [|exact IH].
      cbn. rewrite B. subst s. repeat f_equal; lia. }
    assert (EL : map (@length R) (map a_data Xa) = lens).
    { clear - Hin. induction Hin as [|X n Xa lens [A B] Hin IH]; [reflexivity|]. cbn [map]. f_equal; [lia|exact IH]. }
    rewrite EX in E. rewrite EL in Er. rewrite map_length, HL in Ec.
    exists M. split; [exact E|]. split; [exact Er|]. rewrite Emm. split; [exact Ec|]. split; [exact Wf|].
    intros i u Hi Hu. destruct (owner_lt lens i Hi) as [O1 [O2 O3]]. set (o := owner lens i) in *. set (r := place lens i) in *.
    assert (Hud : (u / m < length lens)%nat) by (apply Nat.div_lt_upper_bound; lia).
    assert (Hum : (u mod m < m)%nat) by (apply Nat.mod_upper_bound; lia).
    assert (Hlen : length (nth o (map a_data Xa) []) = nth o lens 0%nat).
    { rewrite <- EL. rewrite (nth_indep (map (@length R) (map a_data Xa)) 0%nat (@length R [])) by (rewrite !map_length; lia).
      now rewrite map_nth. }
    specialize (G o r (u / m)%nat (u mod m)%nat). rewrite map_length in G. specialize (G ltac:(lia) ltac:(lia) ltac:(lia) Hum).
    unfold vec in *. rewrite <- firstn_map, EL in G.
    replace (nsum (firstn o lens) + r)%nat with i in G by exact O3.
    replace (u / m * m + u mod m)%nat with u in G by (rewrite (Nat.div_mod u m) at 1 by lia; lia).
    rewrite G, Nat.eqb_sym. destruct (Nat.eqb_spec o (u / m)) as [Eo|Eo]; rewrite Nat.eqb_sym;
      [destruct (Nat.eqb_spec o (u / m)); [|congruence]|destruct (Nat.eqb_spec o (u / m)); [congruence|reflexivity]].
    unfold wN. rewrite obs_point. fold o r. unfold point.
    rewrite (interp_w1 _ m a h (nth o (map a_data Xa) []) r (u mod m) H1 H2); [|apply (Forall2_nth _ _ _ [] (csr_zero 0 0) o FW); rewrite map_length; lia|unfold vec in *; lia|exact Hum].
    f_equal. unfold vget. replace (r * 1 + 0)%nat with r by lia.
    rewrite (nth_indep (map a_data Xa) [] (a_data (mk_arr [] []))) by (rewrite map_length; lia). now rewrite map_nth.
  - inversion HF as [|? ? [H1 H2] HF']; subst. inversion HF' as [|? ? [H3 H4] _]; subst. cbn [fst snd length] in *.
    assert (Emm : mm = (m * m')%nat) by (unfold mm, axes_points; cbn; lia).
    set (Xp := combine lens (map a_data Xa)).
    destruct (C17_multi_interpolant_2d m a h m' a' h' Xp H1 H3 H2 H4) as [M [Ws [E [FW [Er [Ec [Wf G]]]]]]].
    { unfold Xp. destruct Xa; [congruence|]. destruct lens; [cbn in HL; lia|discriminate]. }
    cbv zeta in *.
    assert (EX : map (fun X : nat * vec => mk_arr [fst X; 2%nat] (snd X)) Xp = Xa).
    { unfold Xp. clear - Hin. induction Hin as [|[s d] n Xa lens [A B] Hin IH]; [reflexivity|]. cbn [map combine a_data a_shape fst snd] in *. f_equal; [|exact IH].
      now subst s. }
    assert (ELf : map fst Xp = lens).
    { unfold Xp. clear - Hin. induction Hin as [|X n Xa lens [A B] Hin IH]; [reflexivity|]. cbn [map combine fst]. f_equal; exact IH. }
    assert (ELp : length Xp = length lens) by (rewrite <- ELf; symmetry; apply map_length).
    rewrite EX in E. rewrite ELf in Er. rewrite ELp in Ec.
    exists M. split; [exact E|]. split; [exact Er|]. rewrite Emm. split; [exact Ec|]. split; [exact Wf|].
    intros i u Hi Hu. destruct (owner_lt lens i Hi) as [O1 [O2 O3]]. set (o := owner lens i) in *. set (r := place lens i) in *.
    assert (Hmp : (0 < m * m')%nat) by nia.
    assert (Hud : (u / (m * m') < length lens)%nat) by (apply Nat.div_lt_upper_bound; lia).
    assert (Hum : (u mod (m * m') < m * m')%nat) by (apply Nat.mod_upper_bound; lia).
    assert (Hfst : fst (nth o Xp (0%nat, [])) = nth o lens 0%nat).
    { rewrite <- ELf. change 0%nat with (fst (0%nat, @nil R)) at 2. now rewrite map_nth. }
    assert (Hsnd : nth o Xa (mk_arr [] []) = mk_arr [nth o lens 0%nat; 2%nat] (snd (nth o Xp (0%nat, [])))).
    { rewrite <- Hfst. rewrite <- EX at 1. rewrite (nth_indep _ _ ((fun X : nat * vec => mk_arr [fst X; 2%nat] (snd X)) (0%nat, []))) by (rewrite map_length; lia).
      now rewrite (map_nth (fun X : nat * vec => mk_arr [fst X; 2%nat] (snd X))). }
    specialize (G o r (u / (m * m'))%nat (u mod (m * m'))%nat). rewrite ELp, Hfst in G. specialize (G O1 O2 Hud Hum).
    rewrite <- firstn_map, ELf in G.
    replace (nsum (firstn o lens) + r)%nat with i in G by exact O3.
    replace (u / (m * m') * (m * m') + u mod (m * m'))%nat with u in G by (rewrite (Nat.div_mod u (m * m')) at 1 by lia; lia).
    rewrite G, Nat.eqb_sym. destruct (Nat.eqb_spec (u / (m * m')) o) as [Eo|Eo]; [|reflexivity].
    set (c := (u mod (m * m'))%nat) in *.
    pose proof (Forall2_nth _ _ _ (0%nat, []) (csr_zero 0 0) o FW ltac:(unfold vec in *; lia)) as HW. cbv beta in HW. unfold vec in *; rewrite Hfst in HW.
    set (data := snd (nth o Xp (0%nat, []))) in *.
    destruct (C16_bicubic m a h m' a' h' (nth o lens 0%nat) data H1 H3 H2 H4 ltac:(lia)) as [W [Wx [Wy [B1 [B2 [B3 [_ [_ [_ B4]]]]]]]]].
    rewrite B1 in HW. apply Ok_inj in HW. destruct (B4 r O2) as [_ [_ [B5 _]]].
    assert (Hcd : (c / m' < m)%nat) by (apply Nat.div_lt_upper_bound; lia).
    assert (Hcm : (c mod m' < m')%nat) by (apply Nat.mod_upper_bound; lia).
    specialize (B5 (c / m')%nat (c mod m')%nat Hcd Hcm).
    replace (c / m' * m' + c mod m')%nat with c in B5 by (rewrite (Nat.div_mod c m') at 1 by lia; lia).
    rewrite <- HW, B5.
    rewrite (interp_w1 Wx m a h _ r (c / m') H1 H2 B2) by (rewrite ?tab_length; lia).
    rewrite (interp_w1 Wy m' a' h' _ r (c mod m') H3 H4 B3) by (rewrite ?tab_length; lia).
    unfold wN. cbn [fst snd]. rewrite !obs_point. fold o r. unfold point. rewrite Hsnd. cbn [a_data].
    rewrite !vget_tab by exact O2.
    replace (r * 2 + 0)%nat with (2 * r)%nat by lia. replace (r * 2 + 1)%nat with (2 * r + 1)%nat by lia. reflexivity.
Qed.

(** ** The transpose *)

Lemma csr_get_out A i j : csr_wf A -> ~ ((i < c_r A)%nat /\ (j < c_c A)%nat) -> csr_get A i j = 0.
Proof.
  intros Wf H. destruct (Nat.lt_ge_cases i (c_r A)) as [Hi|Hi].
  - unfold csr_get. apply lsum_map_zero. intros p Hp. pose proof (csr_row_in A i p Wf Hi Hp).
    destruct (Nat.eqb_spec (fst p) j); [lia|reflexivity].
  - unfold csr_get, csr_row. rewrite (nth_overflow _ _ (n := S i)) by (rewrite (wf_len _ Wf); lia).
    unfold slice. rewrite Nat.sub_0_l. reflexivity.
Qed.

Lemma csr_T_get A i j : csr_wf A -> csr_get (csr_T A) i j = csr_get A j i.
Proof.
  intros Wf. unfold csr_T. destruct (Nat.lt_ge_cases i (c_c A)) as [Hi|Hi].
  - rewrite csr_of_get by exact Hi. destruct (Nat.ltb_spec j (c_r A)) as [Hj|Hj]; [reflexivity|].
    symmetry. apply csr_get_out; [exact Wf|lia].
  - rewrite (csr_get_out A j i) by (auto; lia). apply csr_get_out; [apply csr_of_wf|].
    rewrite (proj1 (csr_of_shape _ _ _)). lia.
Qed.

(** ** Columns *)

Lemma take_cols_ok ad X n P : a_shape X = [n; P] -> (forall d, In d ad -> (d < P)%nat) ->
  exists X', take_cols ad X = Ok X' /\ a_shape X' = [n; length ad] /\ length (a_data X') = (n * length ad)%nat /\
    forall i p, (i < n)%nat -> (p < length ad)%nat -> vget (a_data X') (i * length ad + p) = vget (a_data X) (i * P + nth p ad 0%nat).
Proof.
  intros Hs Hd. unfold take_cols. rewrite Hs.
  assert (E : forallb (fun d => Nat.ltb d P) ad = true).
  { apply forallb_forall. intros d Hin. apply Nat.ltb_lt. now apply Hd. }
  rewrite E. eexists. split; [reflexivity|]. cbn [a_shape a_data]. split; [reflexivity|].
  assert (E' : tab n (fun i => map (fun d => vget (a_data X) (i * P + d)) ad)
             = tab n (fun i => tab (length ad) (fun p => vget (a_data X) (i * P + nth p ad 0%nat)))).
  { apply tab_ext. intros i _. rewrite (list_as_tab 0%nat ad) at 1. now rewrite map_tab. }
  rewrite E'. split; [apply concat_tab_len|].
  intros i p Hi Hp. exact (concat_mk_get n (length ad) (fun i p => vget (a_data X) (i * P + nth p ad 0%nat)) i p Hi Hp).
Qed.

Lemma take_cols_all ad Xs lens P : inputs P Xs lens -> (forall d, In d ad -> (d < P)%nat) ->
  exists Xa, map_result (take_cols ad) Xs = Ok Xa /\ inputs (length ad) Xa lens /\
    forall i p, (i < nsum lens)%nat -> (p < length ad)%nat -> obs (length ad) Xa lens i p = obs P Xs lens i (nth p ad 0%nat).
Proof.
  intros Hin Hd.
  assert (HX : exists Xa, map_result (take_cols ad) Xs = Ok Xa /\ inputs (length ad) Xa lens /\
    forall a i p, (a < length lens)%nat -> (i < nth a lens 0)%nat -> (p < length ad)%nat ->
      point (length ad) Xa a i p = point P Xs a i (nth p ad 0%nat)).
  { induction Hin as [|X n Xs lens [A B] Hin IH].
    - exists []. split; [reflexivity|]. split; [constructor|]. cbn. lia.
    - destruct (take_cols_ok ad X n P A Hd) as [X' [E [S1 [S2 S3]]]]. destruct IH as [Xa [EX [HI HP]]].
      exists (X' :: Xa). cbn [map_result]. rewrite E. cbn [bind]. rewrite EX. cbn [bind]. split; [reflexivity|].
      split; [constructor; auto|]. intros [|a] i p Ha Hi Hp; unfold point; cbn [nth] in *.
      + now apply S3.
      + apply HP; auto. cbn in Ha. lia. }
  destruct HX as [Xa [E [HI HP]]]. exists Xa. split; [exact E|]. split; [exact HI|]. intros i p Hi Hp. rewrite !obs_point.
  destruct (owner_lt lens i Hi) as [O1 [O2 _]]. now apply HP.
Qed.

(** ** Arguments *)

Lemma wrap_ok {A} (x : grid_arg A) ad : arg_ok x ad ->
  exists o, wrap_arg x ad = Ok o /\
    match o with
    | None => forall d, arg_at x d = None
    | Some l => length l = length ad /\ forall p dflt, (p < length ad)%nat -> arg_at x (nth p ad 0%nat) = Some (nth p l dflt)
    end.
Proof.
  destruct x as [|v|l]; cbn [arg_ok wrap_arg arg_at]; intros H.
  - exists None. split; [reflexivity|]. reflexivity.
  - rewrite H. eexists. split; [reflexivity|]. split; [cbn; lia|]. intros p dflt Hp. replace p with 0%nat by lia. reflexivity.
  - assert (E : exists r, map_result (fun d => match nth_error l d with Some v => Ok v | None => Err IndexError end) ad = Ok r /\
      length r = length ad /\ forall p dflt, (p < length ad)%nat -> nth_error l (nth p ad 0%nat) = Some (nth p r dflt)).
    { induction ad as [|d ad IH].
      - exists []. split; [reflexivity|]. split; [reflexivity|]. cbn. lia.
      - destruct IH as [r [Er [Lr Hr]]]; [intros d' Hd'; apply H; now right|].
        destruct (nth_error l d) as [v|] eqn:Ev.
        2:{ apply nth_error_None in Ev. specialize (H d (or_introl eq_refl)). lia. }
        exists (v :: r). cbn [map_result]. rewrite Ev. cbn [bind]. rewrite Er. cbn [bind]. split; [reflexivity|].
        split; [cbn; lia|]. intros [|p] dflt Hp; cbn [nth]; [exact Ev|]. apply Hr. cbn in Hp. lia. }
    destruct E as [r [Er [Lr Hr]]]. rewrite Er. cbn [bind]. eexists. split; [reflexivity|]. cbn. auto.
Qed.

Lemma data_coord L Xa lens p x : inputs L Xa lens -> (data_at Xa L p x <-> exists i, (i < nsum lens)%nat /\ x = obs L Xa lens i p).
Proof.
  intros Hin. pose proof (inputs_len _ _ _ Hin) as HL. split.
  - intros [X [i [HX [Hi ->]]]]. apply (In_nth _ _ (mk_arr [] [])) in HX. destruct HX as [a [Ha EX]].
    pose proof (Forall2_nth _ _ _ (mk_arr [] []) 0%nat a Hin Ha) as [S1 S2]. rewrite EX in S1, S2. rewrite S1 in Hi. cbn in Hi.
    exists (nsum (firstn a lens) + i)%nat. split.
    + destruct (owner_offset lens a i ltac:(lia) Hi) as [O1 O2].
      clear - Ha HL Hi. revert a Ha Hi. rewrite HL. clear. induction lens as [|n lens IH]; intros [|a] Ha Hi; cbn in Ha, Hi; try lia.
      * cbn. lia.
      * unfold nsum. cbn [firstn fold_right]. fold (nsum (firstn a lens)) (nsum lens). specialize (IH a ltac:(lia) Hi). lia.
    + rewrite obs_point. destruct (owner_offset lens a i ltac:(lia) Hi) as [-> ->]. unfold point. now rewrite EX.
  - intros [i [Hi ->]]. destruct (owner_lt lens i Hi) as [O1 [O2 _]].
    pose proof (Forall2_nth _ _ _ (mk_arr [] []) 0%nat (owner lens i) Hin ltac:(lia)) as [S1 S2].
    exists (nth (owner lens i) Xa (mk_arr [] [])), (place lens i). split; [apply nth_In; lia|]. rewrite S1. split; [exact O2|reflexivity].
Qed.

Lemma wN_ext l x y u : (forall p, (p < length l)%nat -> x p = y p) -> wN l x u = wN l y u.
Proof.
  intros H. destruct l as [|t [|t' [|]]]; try reflexivity; unfold wN; rewrite (H 0%nat) by (cbn; lia); [reflexivity|].
  now rewrite (H 1%nat) by (cbn; lia).
Qed.

Lemma axes_of_tab L (F : nat -> nat * R * R) (g : list vec) : length g = L ->
  (forall p, (p < L)%nat -> nth p g [] = equispaced (fst (fst (F p))) (snd (fst (F p))) (snd (F p))) -> g = axes_of (tab L F).
Proof.
  intros HL H. unfold axes_of. rewrite map_tab. rewrite (list_as_tab [] g). unfold vec in *. rewrite HL. apply tab_ext. exact H.
Qed.

Lemma generate_grid_ok P Xs lens lo hi m ad :
  inputs P Xs lens -> lens <> [] -> (forall n, In n lens -> (1 <= n)%nat) -> grid_args_ok P Xs lens lo hi m ad ->
  exists l W, generate_grid Xs lo hi m ad = Ok (mk_ag (axes_of l) (dists_of l) W (csr_T W)) /\
    encloses P Xs lens lo hi m ad l /\ Forall axis_ok l /\
    c_r W = nsum lens /\ c_c W = (length lens * axes_points l)%nat /\ csr_wf W /\
    forall i u, (i < nsum lens)%nat -> (u < length lens * axes_points l)%nat ->
      csr_get W i u = if Nat.eqb (u / axes_points l) (owner lens i) then wN l (proj ad (obs P Xs lens i)) (u mod axes_points l) else 0.
Proof.
  intros Hin Hne Hpos HA. pose proof (inputs_len _ _ _ Hin) as HL.
  destruct (wrap_ok lo ad (ga_lo _ _ _ _ _ _ _ HA)) as [wlo [Elo Hlo]].
  destruct (wrap_ok hi ad (ga_hi _ _ _ _ _ _ _ HA)) as [whi [Ehi Hhi]].
  destruct (wrap_ok m ad (ga_m _ _ _ _ _ _ _ HA)) as [wm [Em Hm]].
  destruct (take_cols_all ad Xs lens P Hin (ga_range _ _ _ _ _ _ _ HA)) as [Xa [EX [HIa HO]]].
  pose proof (inputs_len _ _ _ HIa) as HLa.
  assert (HXne : Xa <> []) by (destruct Xa; [destruct lens; [congruence|discriminate]|discriminate]).
  assert (HC : forall p x, (p < length ad)%nat -> (data_at Xa (length ad) p x <-> coord P Xs lens (nth p ad 0%nat) x)).
  { intros p x Hp. rewrite (data_coord _ _ lens) by exact HIa. unfold coord.
    split; intros [i [Hi ->]]; exists i; (split; [exact Hi|]); rewrite HO by assumption; reflexivity. }
  unfold generate_grid. rewrite Elo, Ehi, Em, EX. cbn [bind].
  set (mm := match wm with None => MNone | Some l => MArray l end).
  assert (HmL : forall l, mm = MList l \/ mm = MArray l -> wm = Some l).
  { unfold mm. intros l [H|H]; destruct wm; try discriminate; injection H as ->; reflexivity. }
  destruct (C18_autogrid Xa (length ad) wlo whi mm HXne) as [grids [m' [EG [LG HG]]]].
  - intros X HX. apply (In_nth _ _ (mk_arr [] [])) in HX. destruct HX as [a [Ha <-]].
    pose proof (Forall2_nth _ _ _ (mk_arr [] []) 0%nat a HIa Ha) as [S1 _]. exists (nth a lens 0%nat). split; [exact S1|].
    apply Hpos, nth_In. lia.
  - intros l [->| ->]; [apply Hlo|apply Hhi].
  - intros l Hl. apply HmL in Hl. subst wm. destruct Hm as [Lm Hm]. split; [exact Lm|].
    intros k Hk. apply (In_nth _ _ 0%nat) in Hk. destruct Hk as [p [Hp <-]]. rewrite Lm in Hp.
    apply (ga_pos _ _ _ _ _ _ _ HA (nth p ad 0%nat)); [now apply nth_In|]. now apply Hm.
  - intros p Hp. destruct (ga_spread _ _ _ _ _ _ _ HA (nth p ad 0%nat)) as [x [y [Hxy [Hx Hy]]]]; [now apply nth_In|].
    exists x, y. split; [exact Hxy|]. split.
    + destruct Hx as [Hx|Hx]; [left; now apply HC|]. right. destruct wlo as [l|]; [|rewrite Hlo in Hx; discriminate].
      exists l. split; [reflexivity|]. destruct Hlo as [_ Hlo]. rewrite (Hlo p 0 Hp) in Hx. injection Hx as <-. reflexivity.
    + destruct Hy as [Hy|Hy]; [left; now apply HC|]. right. destruct whi as [l|]; [|rewrite Hhi in Hy; discriminate].
      exists l. split; [reflexivity|]. destruct Hhi as [_ Hhi]. rewrite (Hhi p 0 Hp) in Hy. injection Hy as <-. reflexivity.
  - rewrite EG. cbn [bind].
    assert (HF : exists F : list (nat * R * R), Forall2 (fun p t => fst (fst t) = (cells_for m lens (nth p ad 0%nat) + 4)%nat /\
        (1 <= cells_for m lens (nth p ad 0%nat))%nat /\ 0 < snd t /\
        nth p grids [] = equispaced (fst (fst t)) (snd (fst t)) (snd t) /\
        (forall x, data_at Xa (length ad) p x -> snd (fst t) + snd t < x < snd (fst t) + INR (cells_for m lens (nth p ad 0%nat) + 2) * snd t) /\
        (forall l, wlo = Some l -> snd (fst t) + snd t < vget l p) /\
        (forall l, whi = Some l -> vget l p < snd (fst t) + INR (cells_for m lens (nth p ad 0%nat) + 2) * snd t)) (seq 0 (length ad)) F).
    { apply forall_exists_list. intros p Hp. apply in_seq in Hp. destruct (HG p ltac:(lia)) as [a [h [k [Ek [Hk [Hh [Eg [HD [Hl Hr]]]]]]]]].
      assert (Ec : cells_for m lens (nth p ad 0%nat) = k).
      { rewrite Ek. unfold mm, cells_for. destruct wm as [l|].
        - destruct Hm as [_ Hm]. now rewrite (Hm p 0%nat) by lia.
        - rewrite Hm. rewrite HLa. f_equal. f_equal. clear - HIa. induction HIa as [|X n Xa lens [A B] _ IH]; [reflexivity|].
          cbn [map]. f_equal; [now rewrite A|exact IH]. }
      rewrite Ec. exists ((k + 4)%nat, a, h). cbn [fst snd]. split; [reflexivity|]. split; [exact Hk|]. split; [exact Hh|]. split; [exact Eg|].
      replace (INR 1 * h) with h in * by (cbn; ring). split; [intros x Hx; apply (HD x Hx)|]. split; [exact Hl|exact Hr]. }
    destruct HF as [l HF].
    assert (Ll : length l = length ad) by (rewrite <- (Forall2_len _ _ _ HF); apply seq_length).
    assert (HN : forall p, (p < length ad)%nat -> fst (fst (nth p l (0%nat, 0, 0))) = (cells_for m lens (nth p ad 0%nat) + 4)%nat /\
        (1 <= cells_for m lens (nth p ad 0%nat))%nat /\ 0 < snd (nth p l (0%nat, 0, 0)) /\
        nth p grids [] = equispaced (fst (fst (nth p l (0%nat, 0, 0)))) (snd (fst (nth p l (0%nat, 0, 0)))) (snd (nth p l (0%nat, 0, 0))) /\
        (forall x, data_at Xa (length ad) p x -> snd (fst (nth p l (0%nat, 0, 0))) + snd (nth p l (0%nat, 0, 0)) < x < snd (fst (nth p l (0%nat, 0, 0))) + INR (cells_for m lens (nth p ad 0%nat) + 2) * snd (nth p l (0%nat, 0, 0))) /\
        (forall z, wlo = Some z -> snd (fst (nth p l (0%nat, 0, 0))) + snd (nth p l (0%nat, 0, 0)) < vget z p) /\
        (forall z, whi = Some z -> vget z p < snd (fst (nth p l (0%nat, 0, 0))) + INR (cells_for m lens (nth p ad 0%nat) + 2) * snd (nth p l (0%nat, 0, 0)))).
    { intros p Hp. pose proof (Forall2_nth _ _ _ 0%nat (0%nat, 0, 0) p HF ltac:(rewrite seq_length; lia)) as H.
      rewrite seq_nth in H by lia. exact H. }
    assert (El : grids = axes_of l).
    { rewrite (list_as_tab (0%nat, 0, 0) l). rewrite Ll. apply axes_of_tab; [exact LG|]. intros p Hp. apply (HN p Hp). }
    assert (Hax : Forall axis_ok l).
    { apply Forall_forall. intros t Ht. apply (In_nth _ _ (0%nat, 0, 0)) in Ht. destruct Ht as [p [Hp <-]].
      destruct (HN p ltac:(lia)) as [A [B [C _]]]. split; [lia|exact C]. }
    subst grids.
    assert (Hd12 : (length l = 1 \/ length l = 2)%nat) by (rewrite Ll; apply (ga_dims _ _ _ _ _ _ _ HA)).
    assert (Hpp : (0 < axes_points l)%nat).
    { clear - Hax. unfold axes_points. induction Hax as [|t l [A B] _ IH]; [cbn; lia|]. cbn [map nprod fold_right]. fold (nprod (map (fun x : nat * R * R => fst (fst x)) l)). nia. }
    assert (Hlne : axes_of l <> []) by (unfold axes_of; destruct l; [cbn in Hd12; lia|discriminate]).
    rewrite grid_dists_value; [|exact Hlne|rewrite axes_lengths; exact Hpp]. cbn [bind]. rewrite axes_lengths.
    assert (La : @length vec (axes_of l) = length l) by (unfold axes_of; now rewrite map_length).
    rewrite <- Ll in HIa.
    destruct (multi_ok l Xa lens Hd12 Hax HXne HIa) as [W [EW [Wr [Wc [Wf HW]]]]].
    rewrite EW. cbn [bind]. exists l, W. split; [unfold dists_of, axes_points; now rewrite <- La|]. split.
    { split; [exact Ll|]. intros p Hp. destruct (HN p Hp) as [A [B [C [_ [D [Dl Dh]]]]]]. cbv zeta.
      split; [exact B|]. split; [exact A|]. split; [exact C|]. split; [intros x Hx; apply D; now apply HC|]. split.
      - intros x Hx. destruct wlo as [z|]; [|rewrite Hlo in Hx; discriminate]. destruct Hlo as [_ Hlo]. rewrite (Hlo p 0 Hp) in Hx.
        injection Hx as <-. exact (Dl z eq_refl).
      - intros x Hx. destruct whi as [z|]; [|rewrite Hhi in Hx; discriminate]. destruct Hhi as [_ Hhi]. rewrite (Hhi p 0 Hp) in Hx.
        injection Hx as <-. exact (Dh z eq_refl). }
    split; [exact Hax|]. split; [exact Wr|]. split; [exact Wc|]. split; [exact Wf|]. intros i u Hi Hu. rewrite HW by assumption.
    destruct (Nat.eqb (u / axes_points l) (owner lens i)); [|reflexivity]. apply wN_ext. intros p Hp. unfold proj. rewrite Ll in *. now apply HO.
Qed.
