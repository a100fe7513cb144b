(** Models whose data differ in order or size: their grids and covariances. *)

From Coq Require Import Reals List Arith ZArith Lia Lra Permutation.
From Verif Require Import Base NDArray PSD Model_Util Proofs_Util Spec_Util Model_Linalg Spec_Linalg Proofs_Linalg Model_Interp Spec_Interp
  Proofs_Sparse Proofs_Interp Proofs_Interp2 Proofs_Autogrid Properties_Interp Model_Kern Spec_Kern Proofs_Kern Model_FK Spec_FK Proofs_FK Model_Grid Spec_Grid Proofs_Grid
  Proofs_Grid2 Det Proofs_Det Model_Lik Spec_Lik Proofs_Lik Proofs_Lik2 Proofs_Lik5 Proofs_Lik6 Proofs_Lik7 Properties_Lik Spec_GP Proofs_Gen Proofs_Gen2 Model_GP Spec_Pred
  Proofs_Pred2 Proofs_Pred3 Proofs_Pred4 Proofs_Init Proofs_Pred6 Proofs_Eig Proofs_Ski3 Spec_Order Proofs_Order.
Import ListNotations.
Open Scope R_scope.

(** ** The grids *)

Lemma grid_axis P Xs lens lo hi m ad a p :
  inputs P Xs lens -> lens <> [] -> (forall n, In n lens -> (1 <= n)%nat) -> grid_args_ok P Xs lens lo hi m ad -> generate_grid Xs lo hi m ad = Ok a ->
  (p < length ad)%nat ->
  let d := nth p ad 0%nat in let k := cells_for m lens d in
  exists x y, (coord P Xs lens d x \/ arg_at lo d = Some x) /\ (coord P Xs lens d y \/ arg_at hi d = Some y) /\
    (1 <= k)%nat /\
    (forall z, coord P Xs lens d z -> x <= z <= y) /\ (forall z, arg_at lo d = Some z -> x <= z) /\ (forall z, arg_at hi d = Some z -> z <= y) /\
    length (ag_axes a) = length ad /\ nth p (ag_axes a) [] = np_linspace (x - 2 * ((y - x) / INR k)) (y + 2 * ((y - x) / INR k)) (k + 4).
Proof.
  intros Hin Hne Hpos HA HG Hp d k. pose proof (inputs_len _ _ _ Hin) as HL.
  destruct (Proofs_Gen.wrap_ok lo ad (ga_lo _ _ _ _ _ _ _ HA)) as [wlo [Elo Hlo]].
  destruct (Proofs_Gen.wrap_ok hi ad (ga_hi _ _ _ _ _ _ _ HA)) as [whi [Ehi Hhi]].
  destruct (Proofs_Gen.wrap_ok m ad (ga_m _ _ _ _ _ _ _ HA)) as [wm [Em Hm]].
  destruct (take_cols_all ad Xs lens P Hin (ga_range _ _ _ _ _ _ _ HA)) as [Xa [EX [HIa HO]]].
  pose proof (inputs_len _ _ _ HIa) as HLa.
  assert (HXne : Xa <> []) by (destruct Xa; [destruct lens; [congruence|discriminate]|discriminate]).
  assert (HC : forall x, data_at Xa (length ad) p x <-> coord P Xs lens d x).
  { intros x. rewrite (data_coord _ _ lens) by exact HIa. unfold coord.
    split; intros [i [Hi ->]]; exists i; (split; [exact Hi|]); rewrite HO by assumption; reflexivity. }
  unfold generate_grid in HG. rewrite Elo, Ehi, Em, EX in HG. cbn [bind] in HG.
  set (mm := match wm with None => MNone | Some l => MArray l end) in HG.
  assert (Hsh : forall X, In X Xa -> exists n, a_shape X = [n; length ad] /\ (1 <= n)%nat).
  { intros X HX. apply (In_nth _ _ (mk_arr [] [])) in HX. destruct HX as [b [Hb <-]].
    pose proof (Forall2_nth _ _ _ (mk_arr [] []) 0%nat b HIa Hb) as [S1 _]. exists (nth b lens 0%nat). split; [exact S1|]. apply Hpos, nth_In. lia. }
  destruct (autogrid_value Xa (length ad) wlo whi mm HXne Hsh) as [grids [m' [EG [LG [_ HV]]]]].
  { destruct wlo; [exact (proj1 Hlo)|exact I]. } { destruct whi; [exact (proj1 Hhi)|exact I]. }
  { unfold mm. destruct wm; [exact (proj1 Hm)|exact I]. }
  rewrite EG in HG. cbn [bind] in HG. apply bind_ok in HG. destruct HG as [ds [_ HG]]. apply bind_ok in HG. destruct HG as [W [_ HG]].
  apply Ok_inj in HG. subst a. cbn [ag_axes]. specialize (HV p Hp). cbv zeta in HV.
  assert (Ec : cells Xa mm p = k).
  { unfold mm, cells, k, cells_for. fold d. destruct wm as [l|].
    - destruct Hm as [_ Hm]. unfold d. now rewrite (Hm p 0%nat Hp).
    - rewrite Hm. rewrite HLa. f_equal. f_equal. clear - HIa. induction HIa as [|X n Xa lens [A B] _ IH]; [reflexivity|].
      cbn [map]. f_equal; [now rewrite A|exact IH]. }
  rewrite Ec in HV.
  assert (Hk : (1 <= k)%nat).
  { unfold k, cells_for. destruct (arg_at m d) as [c|] eqn:E.
    - apply (ga_pos _ _ _ _ _ _ _ HA d c); [now apply nth_In|exact E].
    - apply mean_ge_1; assumption. }
  assert (Hk0 : 0 < INR k) by (apply lt_0_INR; lia).
  destruct (extreme_in Xa (length ad) p HXne) as [D1 D2].
  { intros X HX. destruct (Hsh X HX) as [n [-> Hn]]. exact Hn. }
  set (x := match wlo with None => lo_of Xa (length ad) p | Some l => Rmin (vget l p) (lo_of Xa (length ad) p) end) in *.
  set (y := match whi with None => hi_of Xa (length ad) p | Some l => Rmax (vget l p) (hi_of Xa (length ad) p) end) in *.
  assert (X1 : coord P Xs lens d x \/ arg_at lo d = Some x).
  { unfold x. destruct wlo as [l|]; [|left; now apply HC]. unfold Rmin. destruct (Rle_dec (vget l p) (lo_of Xa (length ad) p)); [right|left; now apply HC].
    destruct Hlo as [_ Hlo]. exact (Hlo p 0 Hp). }
  assert (Y1 : coord P Xs lens d y \/ arg_at hi d = Some y).
  { unfold y. destruct whi as [l|]; [|left; now apply HC]. unfold Rmax. destruct (Rle_dec (vget l p) (hi_of Xa (length ad) p)); [left; now apply HC|right].
    destruct Hhi as [_ Hhi]. exact (Hhi p 0 Hp). }
  exists x, y. split; [exact X1|]. split; [exact Y1|]. split; [exact Hk|].
  assert (XL : x <= lo_of Xa (length ad) p) by (unfold x; destruct wlo; [apply Rmin_r|lra]).
  assert (YL : hi_of Xa (length ad) p <= y) by (unfold y; destruct whi; [apply Rmax_r|lra]).
  split. { intros z Hz. apply HC in Hz. apply data_bounds in Hz. lra. }
  split. { intros z Hz. destruct wlo as [l|]; [|rewrite Hlo in Hz; discriminate]. destruct Hlo as [_ Hlo]. unfold d in Hz. rewrite (Hlo p 0 Hp) in Hz. injection Hz as <-. apply Rmin_l. }
  split. { intros z Hz. destruct whi as [l|]; [|rewrite Hhi in Hz; discriminate]. destruct Hhi as [_ Hhi]. unfold d in Hz. rewrite (Hhi p 0 Hp) in Hz. injection Hz as <-. apply Rmax_l. }
  split; [exact LG|]. exact HV.
Qed.

Lemma grid_at_ok g lo hi m ad : gp_ready g lo hi m -> group (gp_f g) ad <> [] -> generate_grid (mg_Xs (gp_data g)) lo hi m ad = Ok (grid_at (gp_grids g) ad).
Proof.
  intros HR Had. destruct (rd_grid g lo hi m HR ad Had) as [EG _].
  pose proof (gr_grids _ _ _ _ HR) as Hg. unfold generate_grids in Hg.
  set (Xs := mg_Xs (gp_data g)) in *.
  assert (HI : forall l1 (l2 : dict ad_grid), map_result (fun ad => let! a := generate_grid Xs lo hi m ad in Ok (ad, a)) l1 = Ok l2 ->
     forall p, In p l2 -> generate_grid Xs lo hi m (fst p) = Ok (snd p)).
  { induction l1 as [|b l1 IH]; intros l2 H; cbn [map_result] in H.
    - apply Ok_inj in H. subst l2. intros p [].
    - apply bind_ok in H. destruct H as [x [Ex H]]. apply bind_ok in H. destruct H as [r [Er H]]. apply Ok_inj in H. subst l2.
      apply bind_ok in Ex. destruct Ex as [a [Ea Ex]]. apply Ok_inj in Ex. subst x. intros p [<-|Hp]; [exact Ea|now apply (IH r)]. }
  apply dict_get_in in EG. exact (HI _ _ Hg _ EG).
Qed.

(** ** Reordered and enlarged data *)

Lemma fin_choice {A} D (Q : nat -> A -> Prop) (a0 : A) : (forall d, (d < D)%nat -> exists f, Q d f) -> exists F, forall d, (d < D)%nat -> Q d (F d).
Proof.
  induction D as [|D IH]; intros H; [exists (fun _ => a0); intros; lia|]. destruct IH as [F HF]; [intros d Hd; apply H; lia|].
  destruct (H D ltac:(lia)) as [f Hf]. exists (fun d => if Nat.eqb d D then f else F d). intros d Hd.
  destruct (Nat.eqb_spec d D) as [->|N]; [exact Hf|apply HF; lia].
Qed.

Lemma nsum_offset lens a i : (a < length lens)%nat -> (i < nth a lens 0)%nat -> (nsum (firstn a lens) + i < nsum lens)%nat.
Proof.
  revert a. induction lens as [|n lens IH]; intros [|a] Ha Hi; cbn in Ha; try lia.
  - cbn in Hi |- *. lia.
  - cbn [firstn nth] in *. specialize (IH a ltac:(lia) Hi). unfold nsum in *. cbn [fold_right]. lia.
Qed.

Lemma concat_get (Ys : list vec) i : (i < nsum (map (@length R) Ys))%nat ->
  vget (concat Ys) i = vget (nth (owner (map (@length R) Ys) i) Ys []) (place (map (@length R) Ys) i).
Proof.
  revert i. induction Ys as [|y Ys IH]; intros i Hi; [cbn in Hi; lia|]. cbn [map concat owner place]. unfold vget in *.
  destruct (Nat.ltb_spec i (length y)) as [H|H]; [now rewrite app_nth1|]. rewrite app_nth2 by exact H. cbn [nth]. apply IH.
  cbn [map] in Hi. unfold nsum in Hi. cbn [fold_right] in Hi. fold (nsum (map (@length R) Ys)) in Hi. lia.
Qed.

(** [s] sends the samples of [g] to equal samples of [g']. *)
Record sends (g g' : gp) (s : nat -> nat) : Prop := {
  se_inj : injects (n_obs g) (n_obs g') s;
  se_own : forall i, (i < n_obs g)%nat -> owner (map (@length R) (mg_Ys (gp_data g'))) (s i) = owner (map (@length R) (mg_Ys (gp_data g))) i;
  se_obs : forall i p, (i < n_obs g)%nat -> (p < mg_P (gp_data g))%nat ->
    obs (mg_P (gp_data g)) (mg_Xs (gp_data g')) (map (@length R) (mg_Ys (gp_data g'))) (s i) p =
    obs (mg_P (gp_data g)) (mg_Xs (gp_data g)) (map (@length R) (mg_Ys (gp_data g))) i p;
  se_y : forall i, (i < n_obs g)%nat -> y_obs g' (s i) = y_obs g i
}.

Lemma tab_inj {A} n (f h : nat -> A) : tab n f = tab n h -> forall i, (i < n)%nat -> f i = h i.
Proof. intros E i Hi. rewrite <- (nth_tab n f i (f 0%nat)), E by exact Hi. now apply nth_tab. Qed.

Lemma more_sends g g' : mg_P (gp_data g') = mg_P (gp_data g) -> length (mg_Ys (gp_data g')) = length (mg_Ys (gp_data g)) -> more_samples g g' ->
  exists s, sends g g' s.
Proof.
  intros EP ED HM. set (Ys := mg_Ys (gp_data g)) in *. set (Ys' := mg_Ys (gp_data g')) in *. set (P := mg_P (gp_data g)) in *.
  set (lens := map (@length R) Ys). set (lens' := map (@length R) Ys').
  assert (NL : forall (Y : list vec) d, nth d (map (@length R) Y) 0%nat = length (nth d Y [])) by (intros Y d; exact (map_nth (@length R) Y [] d)).
  assert (HF : exists F, forall d, (d < length Ys)%nat ->
    (forall i, (i < length (nth d Ys []))%nat -> (F d i < length (nth d Ys' []))%nat) /\
    (forall i j, (i < length (nth d Ys []))%nat -> (j < length (nth d Ys []))%nat -> F d i = F d j -> i = j) /\
    (forall i, (i < length (nth d Ys []))%nat -> tab P (point P (mg_Xs (gp_data g')) d (F d i)) = tab P (point P (mg_Xs (gp_data g)) d i) /\
       vget (nth d Ys' []) (F d i) = vget (nth d Ys []) i)).
  { apply (fin_choice (length Ys) (fun d f =>
      (forall i, (i < length (nth d Ys []))%nat -> (f i < length (nth d Ys' []))%nat) /\
      (forall i j, (i < length (nth d Ys []))%nat -> (j < length (nth d Ys []))%nat -> f i = f j -> i = j) /\
      (forall i, (i < length (nth d Ys []))%nat -> tab P (point P (mg_Xs (gp_data g')) d (f i)) = tab P (point P (mg_Xs (gp_data g)) d i) /\
         vget (nth d Ys' []) (f i) = vget (nth d Ys []) i)) (fun i => i)). intros d Hd. destruct (HM d) as [extra HP].
    unfold data_of, samples in HP. rewrite EP in HP. fold P Ys Ys' in HP.
    apply Permutation_sym in HP. apply (Permutation_nth _ _ ([], 0)) in HP. cbv zeta in HP. destruct HP as [HL [f [B1 [B2 B3]]]].
    rewrite app_length, !tab_length in HL. rewrite tab_length in B1, B2, B3.
    exists f. unfold FinFun.bFun, FinFun.bInjective in *. split; [intros i Hi; apply B1; lia|]. split; [intros i j Hi Hj; apply B2; lia|].
    intros i Hi. specialize (B3 i ltac:(lia)). rewrite app_nth1 in B3 by (rewrite tab_length; exact Hi).
    specialize (B1 i ltac:(lia)). rewrite !nth_tab in B3 by assumption. injection B3 as E1 E2. auto. }
  destruct HF as [F HF].
  assert (LL : length lens' = length lens) by (unfold lens, lens'; now rewrite !map_length).
  assert (OW : forall i, (i < nsum lens)%nat -> let a := owner lens i in let p := place lens i in
    (a < length Ys)%nat /\ (p < length (nth a Ys []))%nat /\ i = (nsum (firstn a lens) + p)%nat).
  { intros i Hi a p. destruct (owner_lt lens i Hi) as [H1 [H2 H3]]. unfold lens in H1 at 2. rewrite map_length in H1. unfold lens in H2 at 3. rewrite NL in H2. auto. }
  set (s := fun i => (nsum (firstn (owner lens i) lens') + F (owner lens i) (place lens i))%nat).
  assert (OS : forall i, (i < nsum lens)%nat -> owner lens' (s i) = owner lens i /\ place lens' (s i) = F (owner lens i) (place lens i) /\ (s i < nsum lens')%nat).
  { intros i Hi. destruct (OW i Hi) as [H1 [H2 _]]. destruct (HF _ H1) as [G1 _]. specialize (G1 _ H2).
    assert (A1 : (owner lens i < length lens')%nat) by (rewrite LL; unfold lens at 2; now rewrite map_length).
    assert (A2 : (F (owner lens i) (place lens i) < nth (owner lens i) lens' 0)%nat) by (unfold lens'; now rewrite NL).
    destruct (owner_offset lens' _ _ A1 A2) as [E1 E2]. split; [exact E1|]. split; [exact E2|]. now apply nsum_offset. }
  exists s. constructor; unfold n_obs; fold Ys Ys' lens lens'.
  - split; [intros i Hi; apply OS, Hi|]. intros i j Hi Hj E. destruct (OS i Hi) as [A1 [A2 _]]. destruct (OS j Hj) as [B1 [B2 _]]. rewrite E in A1, A2.
    rewrite B1 in A1. rewrite B2 in A2. destruct (OW i Hi) as [O1 [O2 O3]]. destruct (OW j Hj) as [Q1 [Q2 Q3]]. rewrite <- A1 in A2, O2, O3.
    destruct (HF _ Q1) as [_ [G2 _]]. apply G2 in A2; [|assumption|assumption]. rewrite A2 in Q3. lia.
  - intros i Hi. apply OS, Hi.
  - intros i p Hi Hp. unfold obs. fold P. destruct (OS i Hi) as [-> [-> _]]. destruct (OW i Hi) as [O1 [O2 _]]. destruct (HF _ O1) as [_ [_ G3]].
    destruct (G3 _ O2) as [G _]. exact (tab_inj _ _ _ G p Hp).
  - intros i Hi. unfold y_obs. fold Ys Ys'. rewrite !concat_get by (try exact Hi; apply OS, Hi). fold lens lens'. destruct (OS i Hi) as [-> [-> _]].
    destruct (OW i Hi) as [O1 [O2 _]]. destruct (HF _ O1) as [_ [_ G3]]. apply G3, O2.
Qed.

Lemma same_more g g' : same_samples g g' -> more_samples g g'.
Proof. intros H d. exists []. rewrite app_nil_r. apply H. Qed.

Lemma same_count g g' : length (mg_Ys (gp_data g')) = length (mg_Ys (gp_data g)) -> same_samples g g' ->
  map (@length R) (mg_Ys (gp_data g')) = map (@length R) (mg_Ys (gp_data g)).
Proof.
  intros ED H. apply (nth_ext _ _ 0%nat 0%nat); [now rewrite !map_length|]. intros d Hd.
  change 0%nat with (@length R []). rewrite !(map_nth (@length R)). specialize (H d). apply Permutation_length in H. unfold data_of, samples in H. now rewrite !tab_length in H.
Qed.

(** ** Same grids, same covariances *)

Section Two.
Variables (g g' : gp) (lo hi : grid_arg R) (m : grid_arg nat).
Hypothesis HR : gp_ready g lo hi m.
Hypothesis HR' : gp_ready g' lo hi m.
Hypothesis HC : comparable g g'.
Let f := gp_f g.
Let P := mg_P (gp_data g).
Let Xs := mg_Xs (gp_data g).
Let Xs' := mg_Xs (gp_data g').
Let lens := map (@length R) (mg_Ys (gp_data g)).
Let lens' := map (@length R) (mg_Ys (gp_data g')).
Let n := n_obs g.
Let n' := n_obs g'.

Lemma two_D : length (mg_Ys (gp_data g')) = length (mg_Ys (gp_data g)).
Proof.
  pose proof (rd_D g lo hi m HR) as H. pose proof (rd_D g' lo hi m HR') as H'. rewrite (cp_f _ _ HC) in H'. rewrite !map_length in *. unfold vec in *. lia.
Qed.

Variable s : nat -> nat.
Hypothesis Hs : sends g g' s.
Hypothesis HW : within lo hi m g g'.

Lemma two_axes ad : group f ad <> [] -> ag_axes (grid_at (gp_grids g') ad) = ag_axes (grid_at (gp_grids g) ad).
Proof.
  intros Had. assert (Had' : group (gp_f g') ad <> []) by (rewrite (cp_f _ _ HC); exact Had).
  pose proof (grid_at_ok g lo hi m ad HR Had) as E. pose proof (grid_at_ok g' lo hi m ad HR' Had') as E'.
  pose proof (gr_data _ _ _ _ HR) as DA. pose proof (gr_data _ _ _ _ HR') as DA'.
  pose proof (da_args _ _ _ _ _ _ _ DA ad Had) as GA. pose proof (da_args _ _ _ _ _ _ _ DA' ad Had') as GA'.
  pose proof (da_in _ _ _ _ _ _ _ DA) as In1. pose proof (da_in _ _ _ _ _ _ _ DA') as In2.
  assert (X : forall p, (p < length ad)%nat -> length (ag_axes (grid_at (gp_grids g') ad)) = length ad /\ length (ag_axes (grid_at (gp_grids g) ad)) = length ad /\
    nth p (ag_axes (grid_at (gp_grids g') ad)) [] = nth p (ag_axes (grid_at (gp_grids g) ad)) []).
  { intros p Hp. set (d := nth p ad 0%nat).
    assert (Hd : (d < P)%nat) by (apply (ga_range _ _ _ _ _ _ _ GA), nth_In, Hp).
    destruct (grid_axis _ _ _ _ _ _ _ _ p In1 (da_lens _ _ _ _ _ _ _ (rd_ok g lo hi m HR) DA) (da_pos _ _ _ _ _ _ _ DA) GA E Hp)
      as [x [y (X1 & Y1 & _ & B & Bl & Bh & L1 & ->)]].
    destruct (grid_axis _ _ _ _ _ _ _ _ p In2 (da_lens _ _ _ _ _ _ _ (rd_ok g' lo hi m HR') DA') (da_pos _ _ _ _ _ _ _ DA') GA' E' Hp)
      as [x' [y' (X1' & Y1' & _ & B' & Bl' & Bh' & L2 & ->)]].
    fold d in X1, Y1, B, Bl, Bh, X1', Y1', B', Bl', Bh' |- *. rewrite (cp_P _ _ HC) in X1', Y1', B'. fold P Xs Xs' lens lens' in X1, Y1, B, X1', Y1', B' |- *.
    destruct (HW d Hd) as [Ec W]. fold P Xs Xs' lens lens' in Ec, W.
    assert (CC : forall z, coord P Xs lens d z -> coord P Xs' lens' d z).
    { intros z [i [Hi ->]]. exists (s i). split; [apply (se_inj _ _ _ Hs), Hi|]. symmetry. apply (se_obs _ _ _ Hs); assumption. }
    assert (Ex : x' = x).
    { apply Rle_antisym.
      - destruct X1 as [X1|X1]; [apply B', CC, X1|apply Bl', X1].
      - destruct X1' as [X1'|X1']; [|apply Bl, X1']. destruct (W _ X1') as [a [b [Ha [_ Hab]]]]. apply Rle_trans with a; [|apply Hab].
        destruct Ha as [Ha|Ha]; [apply B, Ha|apply Bl, Ha]. }
    assert (Ey : y' = y).
    { apply Rle_antisym.
      - destruct Y1' as [Y1'|Y1']; [|apply Bh, Y1']. destruct (W _ Y1') as [a [b [_ [Hb Hab]]]]. apply Rle_trans with b; [apply Hab|].
        destruct Hb as [Hb|Hb]; [apply B, Hb|apply Bh, Hb].
      - destruct Y1 as [Y1|Y1]; [apply B', CC, Y1|apply Bh', Y1]. }
    rewrite Ex, Ey, Ec. auto. }
  assert (Hl : (0 < length ad)%nat) by (destruct (ga_dims _ _ _ _ _ _ _ GA); lia).
  destruct (X 0%nat Hl) as [L1 [L2 _]]. apply (nth_ext _ _ [] []); [unfold vec in *; lia|]. intros p Hp. apply X. unfold vec in *. lia.
Qed.

Lemma two_G ad : group f ad <> [] -> G_of (gp_grids g') ad = G_of (gp_grids g) ad.
Proof.
  intros Had. assert (Had' : group (gp_f g') ad <> []) by (rewrite (cp_f _ _ HC); exact Had).
  destruct (rd_grid g lo hi m HR ad Had) as [_ [l [HL [_ [E _]]]]]. destruct (rd_grid g' lo hi m HR' ad Had') as [_ [l' [HL' [_ [E' _]]]]].
  rewrite (two_axes ad Had), E in E'. subst l'. unfold G_of. rewrite (gg_ag _ _ _ _ _ _ _ _ _ _ HL), (gg_ag _ _ _ _ _ _ _ _ _ _ HL'). reflexivity.
Qed.

Lemma two_pts ad : group f ad <> [] -> pts g' ad = pts g ad.
Proof. intros Had. unfold pts. now rewrite two_G. Qed.

Lemma ad_range ad p : group f ad <> [] -> In p ad -> (p < P)%nat.
Proof. intros Had. apply (ga_range _ _ _ _ _ _ _ (da_args _ _ _ _ _ _ _ (gr_data _ _ _ _ HR) ad Had)). Qed.

Lemma two_wt ad x x' u : group f ad <> [] -> (forall p, (p < P)%nat -> x' p = x p) -> wt g' ad x' u = wt g ad x u.
Proof.
  intros Had Hx. unfold wt at 1. rewrite two_axes by exact Had. fold (wt g ad x' u).
  apply (we_ext _ _ (wt_weights g lo hi m HR)); [exact Had|]. intros p Hp. apply Hx, (ad_range ad p Had Hp).
Qed.

Lemma two_ski a x b z x' z' : (forall p, (p < P)%nat -> x' p = x p) -> (forall p, (p < P)%nat -> z' p = z p) ->
  ski_cov g' (wt g') a x' b z' = ski_cov g (wt g) a x b z /\ ski_extra g' (wt g') a x' b z' = ski_extra g (wt g) a x b z.
Proof.
  intros Hx Hz. assert (Hok := rd_ok g lo hi m HR). assert (HP := rd_P g lo hi m HR). split.
  - unfold ski_cov. rewrite (cp_f _ _ HC). fold f. cbv zeta. apply Rsum_ext. intros q Hq. f_equal.
    destruct (group_qdims f P Hok HP q Hq) as [_ Had]. rewrite two_pts, two_G by exact Had. apply Rsum_ext. intros u Hu. apply Rsum_ext. intros v Hv.
    now rewrite (two_wt _ x x'), (two_wt _ z z').
  - unfold ski_extra. rewrite (cp_f _ _ HC). fold f. destruct (Nat.eqb a b); [|reflexivity]. apply lsum_map_ext. intros ad Had.
    apply (keys_group f P Hok HP) in Had. destruct (surplus_b f ad); [|reflexivity]. rewrite two_pts by exact Had. apply Rsum_ext. intros u Hu.
    now rewrite (two_wt _ x x'), (two_wt _ z z').
Qed.

Lemma lmc_ext a x b z x' z' : (forall p, (p < P)%nat -> x' p = x p) -> (forall p, (p < P)%nat -> z' p = z p) -> lmc_cov f a x' b z' = lmc_cov f a x b z.
Proof.
  intros Hx Hz. unfold lmc_cov. apply Rsum_ext. intros q Hq. do 2 f_equal. unfold dist_on. f_equal. apply lsum_map_ext. intros p Hp.
  assert (Hok := rd_ok g lo hi m HR). assert (HP := rd_P g lo hi m HR). destruct (group_qdims f P Hok HP q Hq) as [_ Had].
  rewrite Hx, Hz by (apply (ad_range _ _ Had Hp)). reflexivity.
Qed.

Lemma two_eqb i j : (i < n)%nat -> (j < n)%nat -> Nat.eqb (s i) (s j) = Nat.eqb i j.
Proof.
  intros Hi Hj. destruct (Nat.eqb_spec i j) as [->|N]; [apply Nat.eqb_refl|]. apply Nat.eqb_neq. intros E. apply N.
  apply (se_inj _ _ _ Hs); assumption.
Qed.

Lemma two_K_fit i j : (i < n)%nat -> (j < n)%nat -> K_fit g i j = K_fit g' (s i) (s j).
Proof.
  intros Hi Hj. rewrite (K_fit_weights g lo hi m HR i j Hi Hj). rewrite (K_fit_weights g' lo hi m HR') by (apply (se_inj _ _ _ Hs); assumption).
  rewrite !(se_own _ _ _ Hs) by assumption. rewrite two_eqb by assumption. rewrite (cp_f _ _ HC), (cp_P _ _ HC).
  destruct (two_ski (owner lens i) (obs P Xs lens i) (owner lens j) (obs P Xs lens j) (obs P Xs' lens' (s i)) (obs P Xs' lens' (s j))) as [E1 E2].
  - intros p Hp. now apply (se_obs _ _ _ Hs).
  - intros p Hp. now apply (se_obs _ _ _ Hs).
  - fold P Xs Xs' lens lens'. rewrite E1, E2. reflexivity.
Qed.

Lemma two_cross a x j : (j < n)%nat -> lmc_cov f a x (owner lens j) (obs P Xs lens j) = lmc_cov f a x (owner lens' (s j)) (obs P Xs' lens' (s j)).
Proof.
  intros Hj. unfold lens' at 1. rewrite (se_own _ _ _ Hs) by exact Hj. symmetry. apply lmc_ext; [reflexivity|]. intros p Hp. now apply (se_obs _ _ _ Hs).
Qed.

Lemma two_K_obs i j : (i < n)%nat -> (j < n)%nat -> K_obs f P Xs lens i j = K_obs f P Xs' lens' (s i) (s j).
Proof.
  intros Hi Hj. unfold K_obs. unfold lens' at 1 3 5. rewrite !(se_own _ _ _ Hs), two_eqb by assumption. f_equal. symmetry.
  apply lmc_ext; intros p Hp; now apply (se_obs _ _ _ Hs).
Qed.

End Two.

Lemma same_within g g' lo hi m : gp_ready g lo hi m -> gp_ready g' lo hi m -> comparable g g' -> same_samples g g' -> within lo hi m g g'.
Proof.
  intros HR HR' HC HS. pose proof (two_D g g' lo hi m HR HR' HC) as ED. pose proof (same_count g g' ED HS) as EL. cbv delta [within]. cbv zeta beta. intros p Hp.
  split; [now rewrite EL|]. intros x [i [Hi ->]].
  assert (HS' : same_samples g' g) by (intros d; apply Permutation_sym, HS).
  destruct (more_sends g' g) as [s Hs]; [symmetry; apply HC|symmetry; exact ED|apply same_more, HS'|].
  assert (EP := cp_P _ _ HC). set (x := obs _ _ _ i p). exists x, x.
  assert (Hx : coord (mg_P (gp_data g)) (mg_Xs (gp_data g)) (map (@length R) (mg_Ys (gp_data g))) p x).
  { exists (s i). split; [apply (se_inj _ _ _ Hs), Hi|]. unfold x. pose proof (se_obs _ _ _ Hs i p Hi ltac:(rewrite EP; exact Hp)) as E. rewrite EP in E. symmetry. exact E. }
  split; [now left|]. split; [now left|lra].
Qed.
