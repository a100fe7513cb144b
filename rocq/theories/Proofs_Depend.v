(** Lemmas for C79. *)

From Coq Require Import Reals List Arith Lia Lra.
From Verif Require Import Base NDArray PSD Model_Util Proofs_Util Model_Linalg Model_Interp Spec_Interp Model_Kern Spec_Kern Model_FK Spec_FK Proofs_FK
  Model_Grid Spec_Grid Proofs_Grid Proofs_Grid2 Det Proofs_Det Model_Lik Spec_Lik Proofs_Lik Proofs_Lik2 Proofs_Lik3 Proofs_Lik4 Proofs_Lik5 Proofs_Lik6 Proofs_Lik7
  Spec_GP Proofs_Gen Proofs_Gen2 Model_GP Spec_Pred Proofs_Pred Proofs_Pred2 Proofs_Pred3 Proofs_Pred4 Proofs_Init Proofs_Pred5 Proofs_Pred6
  Properties_Lik Spec_Order Proofs_Order Proofs_Order2 Proofs_Order3 Spec_Depend.
Import ListNotations.
Open Scope R_scope.

(** ** Sums over stacked observations *)

Definition ix (lens : list nat) (a l : nat) : nat := (nsum (firstn a lens) + l)%nat.

Lemma Rsum_app n m F : Rsum (n + m) F = Rsum n F + Rsum m (fun i => F (n + i)%nat).
Proof.
  induction m as [|m IH]; [rewrite Nat.add_0_r; cbn; ring|]. rewrite Nat.add_succ_r. cbn [Rsum]. rewrite IH. ring.
Qed.

Lemma Rsum_stacked lens : forall F, Rsum (nsum lens) F = Rsum (length lens) (fun a => Rsum (nth a lens 0%nat) (fun l => F (ix lens a l))).
Proof.
  induction lens as [|n lens IH]; intros F; [reflexivity|]. change (nsum (n :: lens)) with (n + nsum lens)%nat. rewrite Rsum_app.
  cbn [length]. rewrite Rsum_S_l. f_equal. rewrite IH. apply Rsum_ext. intros a Ha. cbn [nth]. apply Rsum_ext. intros l Hl. f_equal. unfold ix. cbn [firstn].
  change (nsum (n :: firstn a lens)) with (n + nsum (firstn a lens))%nat. lia.
Qed.

Section Uncoupled.
Variables (S : nat -> bool) (lens lens' : list nat) (K K' : nat -> nat -> R).
Let D := length lens.
Let n := nsum lens.
Let n' := nsum lens'.
Hypothesis HD : length lens' = D.
Hypothesis HL : forall a, (a < D)%nat -> S a = true -> nth a lens' 0%nat = nth a lens 0%nat.
Hypothesis HK : forall a l b j, (a < D)%nat -> (b < D)%nat -> S a = true -> S b = true -> (l < nth a lens 0)%nat -> (j < nth b lens 0)%nat ->
  K (ix lens a l) (ix lens b j) = K' (ix lens' a l) (ix lens' b j).
Hypothesis HZ : forall a l b j, (a < D)%nat -> (b < D)%nat -> S a <> S b -> (l < nth a lens 0)%nat -> (j < nth b lens 0)%nat -> K (ix lens a l) (ix lens b j) = 0.
Hypothesis HZ' : forall a l b j, (a < D)%nat -> (b < D)%nat -> S a <> S b -> (l < nth a lens' 0)%nat -> (j < nth b lens' 0)%nat -> K' (ix lens' a l) (ix lens' b j) = 0.
Hypothesis HP : pivots n K.

(** A sum of terms that vanish outside [S]. *)
Lemma S_sum F F' : (forall a l, (a < D)%nat -> S a = false -> (l < nth a lens 0)%nat -> F (ix lens a l) = 0) ->
  (forall a l, (a < D)%nat -> S a = false -> (l < nth a lens' 0)%nat -> F' (ix lens' a l) = 0) ->
  (forall a l, (a < D)%nat -> S a = true -> (l < nth a lens 0)%nat -> F (ix lens a l) = F' (ix lens' a l)) -> Rsum n F = Rsum n' F'.
Proof.
  intros H1 H2 H3. unfold n, n'. rewrite !Rsum_stacked, HD. fold D. apply Rsum_ext. intros a Ha. destruct (S a) eqn:E.
  - rewrite HL by assumption. apply Rsum_ext. intros l Hl. now apply H3.
  - rewrite !Rsum_zero; [reflexivity| |]; intros l Hl; [now apply H2|now apply H1].
Qed.

Lemma uncoupled c c' z z' :
  (forall a l, (a < D)%nat -> S a = true -> (l < nth a lens 0)%nat -> c (ix lens a l) = c' (ix lens' a l)) ->
  solves n K z c -> solves n' K' z' c' ->
  forall a l, (a < D)%nat -> S a = true -> (l < nth a lens 0)%nat -> z (ix lens a l) = z' (ix lens' a l).
Proof.
  intros Hc Hz Hz' a l Ha Ea Hl.
  set (w := fun i => if S (owner lens i) then z' (ix lens' (owner lens i) (place lens i)) else z i).
  assert (W : forall a l, (a < D)%nat -> (l < nth a lens 0)%nat -> w (ix lens a l) = if S a then z' (ix lens' a l) else z (ix lens a l)).
  { intros a0 l0 Ha0 Hl0. unfold w. destruct (owner_offset lens a0 l0 Ha0 Hl0) as [E1 E2]. fold (ix lens a0 l0) in E1, E2. now rewrite E1, E2. }
  assert (Hi : (ix lens a l < n)%nat) by (now apply nsum_offset).
  assert (G : z (ix lens a l) = w (ix lens a l)); [|rewrite G, W, Ea by assumption; reflexivity].
  apply (solves_unique n K c z w HP Hz); [|exact Hi].
  intros i Hi'. destruct (owner_lt lens i Hi') as [Ho [Hp Ei]]. set (b := owner lens i) in *. set (j := place lens i) in *. fold (ix lens b j) in Ei. rewrite Ei.
  destruct (S b) eqn:Eb.
  - rewrite (Hc b j Ho Eb Hp). assert (Hi2 : (ix lens' b j < n')%nat) by (apply nsum_offset; [now rewrite HD|now rewrite HL]).
    rewrite <- (Hz' _ Hi2). apply S_sum.
    + intros a0 l0 Ha0 Es Hl0. rewrite HZ; try assumption; [ring|congruence].
    + intros a0 l0 Ha0 Es Hl0. rewrite HZ'; try assumption; [ring|congruence|now rewrite HL].
    + intros a0 l0 Ha0 Es Hl0. rewrite W, Es, HK by assumption. reflexivity.
  - rewrite <- Ei, <- (Hz i Hi'), Ei. unfold n. rewrite !Rsum_stacked. apply Rsum_ext. intros a0 Ha0. apply Rsum_ext. intros l0 Hl0. fold D in Ha0.
    rewrite W by assumption. destruct (S a0) eqn:Es; [|reflexivity]. rewrite HZ; try assumption; [ring|congruence].
Qed.

Lemma S_inner c c' z z' h h' :
  (forall a l, (a < D)%nat -> S a = true -> (l < nth a lens 0)%nat -> c (ix lens a l) = c' (ix lens' a l)) ->
  solves n K z c -> solves n' K' z' c' ->
  (forall a l, (a < D)%nat -> S a = true -> (l < nth a lens 0)%nat -> h (ix lens a l) = h' (ix lens' a l)) ->
  (forall a l, (a < D)%nat -> S a = false -> (l < nth a lens 0)%nat -> h (ix lens a l) = 0) ->
  (forall a l, (a < D)%nat -> S a = false -> (l < nth a lens' 0)%nat -> h' (ix lens' a l) = 0) ->
  Rsum n (fun i => h i * z i) = Rsum n' (fun i => h' i * z' i).
Proof.
  intros Hc Hz Hz' H1 H2 H3. apply S_sum; intros a l Ha Es Hl; [rewrite H2 by assumption; ring|rewrite H3 by assumption; ring|].
  rewrite H1 by assumption. f_equal. now apply (uncoupled c c').
Qed.
End Uncoupled.

(** ** The two models *)

Section Depend.
Variables (S : nat -> bool) (g g' : gp) (lo hi : grid_arg R) (m : grid_arg nat).
Hypothesis HR : gp_ready g lo hi m.
Hypothesis HR' : gp_ready g' lo hi m.
Hypothesis HS : same_inputs S g g'.
Hypothesis HU : uncorrelated (gp_f g) S.
Hypothesis HW : within lo hi m g g'.
Hypothesis HW' : within lo hi m g' g.
Hypothesis Hp : proper (gp_f g).
Let f := gp_f g.
Let P := mg_P (gp_data g).
Let D := f_D (gp_f g).
Let Xs := mg_Xs (gp_data g).
Let Xs' := mg_Xs (gp_data g').
Let lens := map (@length R) (mg_Ys (gp_data g)).
Let lens' := map (@length R) (mg_Ys (gp_data g')).
Let n := n_obs g.
Let n' := n_obs g'.
Let Ko := K_obs (gp_f g) (mg_P (gp_data g)) (mg_Xs (gp_data g)) (map (@length R) (mg_Ys (gp_data g))).
Let Ko' := K_obs (gp_f g') (mg_P (gp_data g')) (mg_Xs (gp_data g')) (map (@length R) (mg_Ys (gp_data g'))).

Lemma dp_D : length lens = D /\ length lens' = D.
Proof. pose proof (rd_D g lo hi m HR) as H. pose proof (rd_D g' lo hi m HR') as H'. rewrite (si_f _ _ _ HS) in H'. split; assumption. Qed.

Lemma dp_len a : (a < D)%nat -> S a = true -> nth a lens' 0%nat = nth a lens 0%nat.
Proof. intros Ha Es. unfold lens, lens'. change 0%nat with (@length R []). rewrite !map_nth. now apply (si_len _ _ _ HS). Qed.

Lemma dp_proper : proper (gp_f g').
Proof. now rewrite (si_f _ _ _ HS). Qed.

Lemma dp_ix a l : (a < D)%nat -> (l < nth a lens 0)%nat -> owner lens (ix lens a l) = a /\ place lens (ix lens a l) = l /\ (ix lens a l < n)%nat.
Proof.
  intros Ha Hl. destruct dp_D as [E _]. rewrite <- E in Ha. destruct (owner_offset lens a l Ha Hl) as [E1 E2]. repeat split; [exact E1|exact E2|now apply nsum_offset].
Qed.
Lemma dp_ix' a l : (a < D)%nat -> (l < nth a lens' 0)%nat -> owner lens' (ix lens' a l) = a /\ place lens' (ix lens' a l) = l /\ (ix lens' a l < n')%nat.
Proof.
  intros Ha Hl. destruct dp_D as [_ E]. rewrite <- E in Ha. destruct (owner_offset lens' a l Ha Hl) as [E1 E2]. repeat split; [exact E1|exact E2|now apply nsum_offset].
Qed.

Lemma dp_obs a l c : (a < D)%nat -> S a = true -> (l < nth a lens 0)%nat -> (c < P)%nat -> obs P Xs' lens' (ix lens' a l) c = obs P Xs lens (ix lens a l) c.
Proof.
  intros Ha Es Hl Hc. assert (Hl' : (l < nth a lens' 0)%nat) by now rewrite dp_len.
  unfold obs. destruct (dp_ix a l Ha Hl) as [-> [-> _]]. destruct (dp_ix' a l Ha Hl') as [-> [-> _]]. apply (si_pts _ _ _ HS); try assumption.
  unfold lens in Hl. change 0%nat with (@length R []) in Hl. now rewrite map_nth in Hl.
Qed.

(** *** Grids *)

Lemma dp_axes ad : group f ad <> [] -> ag_axes (grid_at (gp_grids g') ad) = ag_axes (grid_at (gp_grids g) ad).
Proof.
  intros Had. assert (Had' : group (gp_f g') ad <> []) by (rewrite (si_f _ _ _ HS); exact Had).
  pose proof (grid_at_ok g lo hi m ad HR Had) as E. pose proof (grid_at_ok g' lo hi m ad HR' Had') as E'.
  pose proof (gr_data _ _ _ _ HR) as DA. pose proof (gr_data _ _ _ _ HR') as DA'.
  pose proof (da_args _ _ _ _ _ _ _ DA ad Had) as GA. pose proof (da_args _ _ _ _ _ _ _ DA' ad Had') as GA'.
  pose proof (da_in _ _ _ _ _ _ _ DA) as In1. pose proof (da_in _ _ _ _ _ _ _ DA') as In2.
  assert (X : forall p, (p < length ad)%nat -> length (ag_axes (grid_at (gp_grids g') ad)) = length ad /\ length (ag_axes (grid_at (gp_grids g) ad)) = length ad /\
    nth p (ag_axes (grid_at (gp_grids g') ad)) [] = nth p (ag_axes (grid_at (gp_grids g) ad)) []).
  { intros p Hp0. set (d := nth p ad 0%nat).
    assert (Hd : (d < P)%nat) by (apply (ga_range _ _ _ _ _ _ _ GA), nth_In, Hp0).
    destruct (grid_axis _ _ _ _ _ _ _ _ p In1 (da_lens _ _ _ _ _ _ _ (rd_ok g lo hi m HR) DA) (da_pos _ _ _ _ _ _ _ DA) GA E Hp0)
      as [x [y (X1 & Y1 & _ & B & Bl & Bh & L1 & ->)]].
    destruct (grid_axis _ _ _ _ _ _ _ _ p In2 (da_lens _ _ _ _ _ _ _ (rd_ok g' lo hi m HR') DA') (da_pos _ _ _ _ _ _ _ DA') GA' E' Hp0)
      as [x' [y' (X1' & Y1' & _ & B' & Bl' & Bh' & L2 & ->)]].
    fold d in X1, Y1, B, Bl, Bh, X1', Y1', B', Bl', Bh' |- *. rewrite (si_P _ _ _ HS) in X1', Y1', B'. fold P Xs Xs' lens lens' in X1, Y1, B, X1', Y1', B' |- *.
    destruct (HW d Hd) as [Ec W]. fold P Xs Xs' lens lens' in Ec, W.
    assert (Hd' : (d < mg_P (gp_data g'))%nat) by (rewrite (si_P _ _ _ HS); exact Hd). destruct (HW' d Hd') as [_ W']. rewrite (si_P _ _ _ HS) in W'. fold P Xs Xs' lens lens' in W'.
    assert (Ex : x' = x).
    { apply Rle_antisym.
      - destruct X1 as [X1|X1]; [|apply Bl', X1]. destruct (W' _ X1) as [a [b [Ha [_ Hab]]]]. apply Rle_trans with a; [|apply Hab].
        destruct Ha as [Ha|Ha]; [apply B', Ha|apply Bl', Ha].
      - destruct X1' as [X1'|X1']; [|apply Bl, X1']. destruct (W _ X1') as [a [b [Ha [_ Hab]]]]. apply Rle_trans with a; [|apply Hab].
        destruct Ha as [Ha|Ha]; [apply B, Ha|apply Bl, Ha]. }
    assert (Ey : y' = y).
    { apply Rle_antisym.
      - destruct Y1' as [Y1'|Y1']; [|apply Bh, Y1']. destruct (W _ Y1') as [a [b [_ [Hb Hab]]]]. apply Rle_trans with b; [apply Hab|].
        destruct Hb as [Hb|Hb]; [apply B, Hb|apply Bh, Hb].
      - destruct Y1 as [Y1|Y1]; [|apply Bh', Y1]. destruct (W' _ Y1) as [a [b [_ [Hb Hab]]]]. apply Rle_trans with b; [apply Hab|].
        destruct Hb as [Hb|Hb]; [apply B', Hb|apply Bh', Hb]. }
    rewrite Ex, Ey, Ec. auto. }
  assert (Hl : (0 < length ad)%nat) by (destruct (ga_dims _ _ _ _ _ _ _ GA); lia).
  destruct (X 0%nat Hl) as [L1 [L2 _]]. apply (nth_ext _ _ [] []); [unfold vec in *; lia|]. intros p Hp0. apply X. unfold vec in *. lia.
Qed.

Lemma dp_G ad : group f ad <> [] -> G_of (gp_grids g') ad = G_of (gp_grids g) ad.
Proof.
  intros Had. assert (Had' : group (gp_f g') ad <> []) by (rewrite (si_f _ _ _ HS); exact Had).
  destruct (rd_grid g lo hi m HR ad Had) as [_ [l [HL [_ [E _]]]]]. destruct (rd_grid g' lo hi m HR' ad Had') as [_ [l' [HL' [_ [E' _]]]]].
  rewrite (dp_axes ad Had), E in E'. subst l'. unfold G_of. rewrite (gg_ag _ _ _ _ _ _ _ _ _ _ HL), (gg_ag _ _ _ _ _ _ _ _ _ _ HL'). reflexivity.
Qed.

Lemma dp_pts ad : group f ad <> [] -> pts g' ad = pts g ad.
Proof. intros Had. unfold pts. now rewrite dp_G. Qed.

Lemma dp_wt ad x x' u : group f ad <> [] -> (forall p, (p < P)%nat -> x' p = x p) -> wt g' ad x' u = wt g ad x u.
Proof.
  intros Had Hx. unfold wt at 1. rewrite dp_axes by exact Had. fold (wt g ad x' u).
  apply (we_ext _ _ (wt_weights g lo hi m HR)); [exact Had|]. intros p Hp0. apply Hx, (ga_range _ _ _ _ _ _ _ (da_args _ _ _ _ _ _ _ (gr_data _ _ _ _ HR) ad Had) p Hp0).
Qed.

Definition sk h a x b z := ski_cov h (wt h) a x b z + ski_extra h (wt h) a x b z.

Lemma dp_ski a x b z x' z' : (forall p, (p < P)%nat -> x' p = x p) -> (forall p, (p < P)%nat -> z' p = z p) -> sk g' a x' b z' = sk g a x b z.
Proof.
  intros Hx Hz. assert (Hok := rd_ok g lo hi m HR). assert (HP := rd_P g lo hi m HR). unfold sk. f_equal.
  - unfold ski_cov. rewrite (si_f _ _ _ HS). fold f. cbv zeta. apply Rsum_ext. intros q Hq. f_equal.
    destruct (group_qdims f P Hok HP q Hq) as [_ Had]. rewrite dp_pts, dp_G by exact Had. apply Rsum_ext. intros u Hu. apply Rsum_ext. intros v Hv.
    now rewrite (dp_wt _ x x'), (dp_wt _ z z').
  - unfold ski_extra. rewrite (si_f _ _ _ HS). fold f. destruct (Nat.eqb a b); [|reflexivity]. apply lsum_map_ext. intros ad Had.
    apply (keys_group f P Hok HP) in Had. destruct (surplus_b f ad); [|reflexivity]. rewrite dp_pts by exact Had. apply Rsum_ext. intros u Hu.
    now rewrite (dp_wt _ x x'), (dp_wt _ z z').
Qed.

(** *** No correlation *)

Lemma dp_ne a b : S a <> S b -> Nat.eqb a b = false.
Proof. intros H. apply Nat.eqb_neq. intros ->. now apply H. Qed.

Lemma sk0 h a x b z : gp_f h = f -> (a < D)%nat -> (b < D)%nat -> S a <> S b -> sk h a x b z = 0.
Proof.
  intros E Ha Hb N. unfold sk, ski_cov, ski_extra. rewrite E, (dp_ne a b N). cbv zeta. rewrite Rsum_zero; [ring|]. intros q Hq. unfold f. rewrite (HU q a b) by assumption. ring.
Qed.

Lemma lmc0 a x b z : (a < D)%nat -> (b < D)%nat -> S a <> S b -> lmc_cov f a x b z = 0.
Proof. intros Ha Hb N. unfold lmc_cov. apply Rsum_zero. intros q Hq. unfold f. rewrite (HU q a b) by assumption. ring. Qed.

Lemma dd0 h ad a u b v : gp_f h = f -> (a < D)%nat -> (b < D)%nat -> S a <> S b -> dd h ad a u b v = 0.
Proof.
  intros E Ha Hb N. unfold dd. rewrite E, (dp_ne a b N). cbn [andb]. rewrite lsum_map_zero; [destruct (surplus_b f ad); ring|].
  intros q Hq. apply in_group in Hq. unfold f. rewrite (HU q a b) by (assumption || apply Hq). ring.
Qed.

Lemma ix_ne ls a l b j : (a < length ls)%nat -> (b < length ls)%nat -> (l < nth a ls 0)%nat -> (j < nth b ls 0)%nat -> a <> b -> Nat.eqb (ix ls a l) (ix ls b j) = false.
Proof.
  intros Ha Hb Hl Hj N. apply Nat.eqb_neq. intros E. apply N. destruct (owner_offset ls a l Ha Hl) as [<- _]. destruct (owner_offset ls b j Hb Hj) as [<- _].
  unfold ix in E. now rewrite E.
Qed.

Lemma ix_eqb a l b j : (a < D)%nat -> (b < D)%nat -> S a = true -> S b = true -> (l < nth a lens 0)%nat -> (j < nth b lens 0)%nat ->
  Nat.eqb (ix lens' a l) (ix lens' b j) = Nat.eqb (ix lens a l) (ix lens b j).
Proof.
  intros Ha Hb Ea Eb Hl Hj. destruct dp_D as [E1 E2]. assert (Hl' : (l < nth a lens' 0)%nat) by now rewrite dp_len. assert (Hj' : (j < nth b lens' 0)%nat) by now rewrite dp_len.
  destruct (Nat.eq_dec a b) as [->|N].
  - unfold ix. destruct (Nat.eqb_spec (nsum (firstn b lens') + l) (nsum (firstn b lens') + j)), (Nat.eqb_spec (nsum (firstn b lens) + l) (nsum (firstn b lens) + j)); lia.
  - rewrite !ix_ne; try assumption; try lia; reflexivity.
Qed.

Lemma fit_S a l b j : (a < D)%nat -> (b < D)%nat -> S a = true -> S b = true -> (l < nth a lens 0)%nat -> (j < nth b lens 0)%nat ->
  K_fit g (ix lens a l) (ix lens b j) = K_fit g' (ix lens' a l) (ix lens' b j).
Proof.
  intros Ha Hb Ea Eb Hl Hj. assert (Hl' : (l < nth a lens' 0)%nat) by now rewrite dp_len. assert (Hj' : (j < nth b lens' 0)%nat) by now rewrite dp_len.
  destruct (dp_ix a l Ha Hl) as [O1 [_ I1]]. destruct (dp_ix b j Hb Hj) as [O2 [_ I2]]. destruct (dp_ix' a l Ha Hl') as [O1' [_ I1']]. destruct (dp_ix' b j Hb Hj') as [O2' [_ I2']].
  rewrite (K_fit_weights g lo hi m HR _ _ I1 I2), (K_fit_weights g' lo hi m HR' _ _ I1' I2'). fold lens lens'. rewrite O1, O2, O1', O2', ix_eqb by assumption.
  rewrite (si_f _ _ _ HS), (si_P _ _ _ HS). fold f P Xs Xs'. f_equal. symmetry.
  apply dp_ski; intros c Hc; now apply dp_obs.
Qed.

Lemma obs_S a l b j : (a < D)%nat -> (b < D)%nat -> S a = true -> S b = true -> (l < nth a lens 0)%nat -> (j < nth b lens 0)%nat ->
  Ko (ix lens a l) (ix lens b j) = Ko' (ix lens' a l) (ix lens' b j).
Proof.
  intros Ha Hb Ea Eb Hl Hj. assert (Hl' : (l < nth a lens' 0)%nat) by now rewrite dp_len. assert (Hj' : (j < nth b lens' 0)%nat) by now rewrite dp_len.
  destruct (dp_ix a l Ha Hl) as [O1 [_ I1]]. destruct (dp_ix b j Hb Hj) as [O2 [_ I2]]. destruct (dp_ix' a l Ha Hl') as [O1' [_ I1']]. destruct (dp_ix' b j Hb Hj') as [O2' [_ I2']].
  unfold Ko, Ko', K_obs. fold lens lens'. rewrite O1, O2, O1', O2', ix_eqb by assumption.
  rewrite (si_f _ _ _ HS), (si_P _ _ _ HS). fold f P Xs Xs'. f_equal. symmetry.
  apply (lmc_ext g lo hi m HR); intros c Hc; now apply dp_obs.
Qed.

Lemma fit_0 a l b j : (a < D)%nat -> (b < D)%nat -> S a <> S b -> (l < nth a lens 0)%nat -> (j < nth b lens 0)%nat -> K_fit g (ix lens a l) (ix lens b j) = 0.
Proof.
  intros Ha Hb N Hl Hj. destruct (dp_ix a l Ha Hl) as [O1 [_ I1]]. destruct (dp_ix b j Hb Hj) as [O2 [_ I2]]. destruct dp_D as [E1 E2].
  rewrite (K_fit_weights g lo hi m HR _ _ I1 I2). fold lens. rewrite O1, O2, ix_ne; try assumption; try lia; [|now intros ->].
  match goal with |- ski_cov _ _ _ ?x _ ?z + _ + _ = _ => change (sk g a x b z + 0 = 0) end. rewrite sk0 by (assumption || reflexivity). ring.
Qed.
Lemma fit_0' a l b j : (a < D)%nat -> (b < D)%nat -> S a <> S b -> (l < nth a lens' 0)%nat -> (j < nth b lens' 0)%nat -> K_fit g' (ix lens' a l) (ix lens' b j) = 0.
Proof.
  intros Ha Hb N Hl Hj. destruct (dp_ix' a l Ha Hl) as [O1 [_ I1]]. destruct (dp_ix' b j Hb Hj) as [O2 [_ I2]]. destruct dp_D as [E1 E2].
  rewrite (K_fit_weights g' lo hi m HR' _ _ I1 I2). fold lens'. rewrite O1, O2, ix_ne; try assumption; try lia; [|now intros ->].
  match goal with |- ski_cov _ _ _ ?x _ ?z + _ + _ = _ => change (sk g' a x b z + 0 = 0) end. rewrite sk0 by (assumption || exact (si_f _ _ _ HS)). ring.
Qed.
Lemma obs_0 a l b j : (a < D)%nat -> (b < D)%nat -> S a <> S b -> (l < nth a lens 0)%nat -> (j < nth b lens 0)%nat -> Ko (ix lens a l) (ix lens b j) = 0.
Proof.
  intros Ha Hb N Hl Hj. destruct (dp_ix a l Ha Hl) as [O1 [_ I1]]. destruct (dp_ix b j Hb Hj) as [O2 [_ I2]]. destruct dp_D as [E1 E2].
  unfold Ko, K_obs. fold lens f. rewrite O1, O2, ix_ne; try assumption; try lia; [|now intros ->]. rewrite lmc0 by assumption. ring.
Qed.
Lemma obs_0' a l b j : (a < D)%nat -> (b < D)%nat -> S a <> S b -> (l < nth a lens' 0)%nat -> (j < nth b lens' 0)%nat -> Ko' (ix lens' a l) (ix lens' b j) = 0.
Proof.
  intros Ha Hb N Hl Hj. destruct (dp_ix' a l Ha Hl) as [O1 [_ I1]]. destruct (dp_ix' b j Hb Hj) as [O2 [_ I2]]. destruct dp_D as [E1 E2].
  unfold Ko', K_obs. fold lens'. rewrite (si_f _ _ _ HS). fold f. rewrite O1, O2, ix_ne; try assumption; try lia; [|now intros ->]. rewrite lmc0 by assumption. ring.
Qed.

(** *** Covariances of the request with the data *)

Definition like (h h' : nat -> R) : Prop :=
  (forall a l, (a < D)%nat -> S a = true -> (l < nth a lens 0)%nat -> h (ix lens a l) = h' (ix lens' a l)) /\
  (forall a l, (a < D)%nat -> S a = false -> (l < nth a lens 0)%nat -> h (ix lens a l) = 0) /\
  (forall a l, (a < D)%nat -> S a = false -> (l < nth a lens' 0)%nat -> h' (ix lens' a l) = 0).

Lemma inner_fit c c' z z' h h' : (forall a l, (a < D)%nat -> S a = true -> (l < nth a lens 0)%nat -> c (ix lens a l) = c' (ix lens' a l)) ->
  solves n (K_fit g) z c -> solves n' (K_fit g') z' c' -> like h h' -> Rsum n (fun i => h i * z i) = Rsum n' (fun i => h' i * z' i).
Proof.
  intros Hc Hz Hz' (L1 & L2 & L3). destruct dp_D as [E1 E2].
  apply (S_inner S lens lens' (K_fit g) (K_fit g')) with (c := c) (c' := c'); rewrite ?E1; try assumption.
  - exact dp_len.
  - exact fit_S.
  - exact fit_0.
  - exact fit_0'.
  - exact (fit_pivots g lo hi m HR Hp).
Qed.

Lemma inner_obs c c' z z' h h' : (forall a l, (a < D)%nat -> S a = true -> (l < nth a lens 0)%nat -> c (ix lens a l) = c' (ix lens' a l)) ->
  solves n Ko z c -> solves n' Ko' z' c' -> like h h' -> Rsum n (fun i => h i * z i) = Rsum n' (fun i => h' i * z' i).
Proof.
  intros Hc Hz Hz' (L1 & L2 & L3). destruct dp_D as [E1 E2].
  apply (S_inner S lens lens' Ko Ko') with (c := c) (c' := c'); rewrite ?E1; try assumption.
  - exact dp_len.
  - exact obs_S.
  - exact obs_0.
  - exact obs_0'.
  - apply pos_definite_pivots; [apply K_obs_sym|exact (K_obs_pdR g lo hi m HR Hp)].
Qed.

Lemma like_cross a x : (a < D)%nat -> S a = true -> like (cross g a x) (cross g' a x).
Proof.
  intros Ha Ea. unfold cross. rewrite (si_f _ _ _ HS), (si_P _ _ _ HS). fold f P Xs Xs' lens lens'. repeat split; intros b l Hb Eb Hl.
  - assert (Hl' : (l < nth b lens' 0)%nat) by now rewrite dp_len. destruct (dp_ix b l Hb Hl) as [-> _]. destruct (dp_ix' b l Hb Hl') as [-> _].
    apply (lmc_ext g lo hi m HR); [reflexivity|]. intros c Hc. symmetry. now apply dp_obs.
  - destruct (dp_ix b l Hb Hl) as [-> _]. apply lmc0; try assumption. congruence.
  - destruct (dp_ix' b l Hb Hl) as [-> _]. apply lmc0; try assumption. congruence.
Qed.

Lemma dp_dd ad a u b v : group f ad <> [] -> dd g' ad a u b v = dd g ad a u b v.
Proof. intros Had. unfold dd. rewrite (si_f _ _ _ HS), (dp_G ad Had). reflexivity. Qed.

Lemma like_gcov ad a u : group f ad <> [] -> (a < D)%nat -> S a = true -> like (gcov g ad a u) (gcov g' ad a u).
Proof.
  intros Had Ha Ea. unfold gcov. rewrite dp_pts, (si_P _ _ _ HS) by exact Had. fold f P Xs Xs' lens lens'. repeat split; intros b l Hb Eb Hl.
  - assert (Hl' : (l < nth b lens' 0)%nat) by now rewrite dp_len. destruct (dp_ix b l Hb Hl) as [-> _]. destruct (dp_ix' b l Hb Hl') as [-> _].
    apply Rsum_ext. intros v Hv. rewrite dp_dd by exact Had. f_equal. symmetry. apply dp_wt; [exact Had|]. intros c Hc. now apply dp_obs.
  - destruct (dp_ix b l Hb Hl) as [-> _]. apply Rsum_zero. intros v Hv. rewrite dd0; try assumption; [ring|reflexivity|congruence].
  - destruct (dp_ix' b l Hb Hl) as [-> _]. apply Rsum_zero. intros v Hv. rewrite dd0; try assumption; [ring|exact (si_f _ _ _ HS)|congruence].
Qed.

Lemma like_sk a x : (a < D)%nat -> S a = true ->
  like (fun j => sk g a x (owner lens j) (obs P Xs lens j)) (fun j => sk g' a x (owner lens' j) (obs P Xs' lens' j)).
Proof.
  intros Ha Ea. repeat split; intros b l Hb Eb Hl.
  - assert (Hl' : (l < nth b lens' 0)%nat) by now rewrite dp_len. destruct (dp_ix b l Hb Hl) as [-> _]. destruct (dp_ix' b l Hb Hl') as [-> _].
    symmetry. apply dp_ski; [reflexivity|]. intros c Hc. now apply dp_obs.
  - destruct (dp_ix b l Hb Hl) as [-> _]. apply sk0; try assumption; [reflexivity|congruence].
  - destruct (dp_ix' b l Hb Hl) as [-> _]. apply sk0; try assumption; [exact (si_f _ _ _ HS)|congruence].
Qed.

(** *** Predictions *)

Variables (solve solve' : Mat -> vec -> result vec) (k k' : gp_kernel).
Hypothesis He : solves_exactly (n_obs g) (K_fit g) (solve (al_K (gpk_lik k))).
Hypothesis He' : solves_exactly (n_obs g') (K_fit g') (solve' (al_K (gpk_lik k'))).

Lemma dp_var a x : (a < D)%nat -> S a = true -> (gp_mode g = Precompute -> forall q, (q < f_Q f)%nat -> qdims f q = seq 0 P) ->
  var_at g' k' solve' a x = var_at g k solve a x.
Proof.
  intros Ha Ea Hpre. unfold var_at. rewrite (si_f _ _ _ HS). f_equal. f_equal. unfold explained. rewrite (si_mode _ _ _ HS).
  pose proof (like_cross a x Ha Ea) as LC. destruct (gp_mode g) eqn:EM.
  - destruct (fly_form g solve k He a x) as [z [Hz ->]]. destruct (fly_form g' solve' k' He' a x) as [z' [Hz' ->]]. symmetry.
    exact (inner_fit _ _ _ _ _ _ (proj1 LC) Hz Hz' LC).
  - pose proof (both_full g lo hi m HR (Hpre eq_refl)) as Had. unfold explained_pre. rewrite (si_P _ _ _ HS). fold P. rewrite dp_pts by exact Had.
    apply Rsum_ext. intros u Hu. rewrite (dp_wt _ x x) by (exact Had || reflexivity). f_equal. pose proof (like_gcov (seq 0 P) a u Had Ha Ea) as LG.
    destruct (nu_form g solve k He (seq 0 P) a u) as [z [Hz ->]]. destruct (nu_form g' solve' k' He' (seq 0 P) a u) as [z' [Hz' ->]]. symmetry.
    exact (inner_fit _ _ _ _ _ _ (proj1 LG) Hz Hz' LG).
  - pose proof (K_obs_pdR g lo hi m HR Hp) as P1. pose proof (K_obs_pdR g' lo hi m HR' dp_proper) as P2.
    destruct (dense_ok g lo hi m HR P1) as [e [E1 _]]. destruct (dense_ok g' lo hi m HR' P2) as [e' [E2 _]]. rewrite E1, E2.
    destruct (exact_form g lo hi m HR e a x E1 P1) as [z [Hz ->]]. destruct (exact_form g' lo hi m HR' e' a x E2 P2) as [z' [Hz' ->]]. symmetry.
    exact (inner_obs _ _ _ _ _ _ (proj1 LC) Hz Hz' LC).
Qed.

Hypothesis HA : solves n (K_fit g) (vget (sd_alpha (al_deriv (gpk_lik k)))) (y_obs g).
Hypothesis HA' : solves n' (K_fit g') (vget (sd_alpha (al_deriv (gpk_lik k')))) (y_obs g').
Hypothesis HY : forall a l, (a < D)%nat -> S a = true -> (l < nth a lens 0)%nat -> vget (nth a (mg_Ys (gp_data g')) []) l = vget (nth a (mg_Ys (gp_data g)) []) l.

Lemma y_at a l : (a < D)%nat -> S a = true -> (l < nth a lens 0)%nat -> y_obs g (ix lens a l) = y_obs g' (ix lens' a l).
Proof.
  intros Ha Ea Hl. assert (Hl' : (l < nth a lens' 0)%nat) by now rewrite dp_len.
  destruct (dp_ix a l Ha Hl) as (O1 & O2 & I1). destruct (dp_ix' a l Ha Hl') as (O1' & O2' & I1').
  unfold y_obs. rewrite (concat_get _ _ I1), (concat_get _ _ I1'). fold lens lens'. rewrite O1, O2, O1', O2'. symmetry. now apply HY.
Qed.

Lemma dp_mean a x : (a < D)%nat -> S a = true -> mean_at g' k' a x = mean_at g k a x.
Proof.
  intros Ha Ea. symmetry. unfold mean_at. rewrite (si_P _ _ _ HS). exact (inner_fit _ _ _ _ _ _ y_at HA HA' (like_sk a x Ha Ea)).
Qed.

End Depend.

(** ** All outputs observed at the same points *)

Section Full.
Variables (g g' : gp) (lo hi : grid_arg R) (m : grid_arg nat).
Hypothesis HR : gp_ready g lo hi m.
Hypothesis HR' : gp_ready g' lo hi m.
Hypothesis HS : same_inputs (fun _ => true) g g'.

Lemma full_uncorrelated f : uncorrelated f (fun _ => true).
Proof. intros q a b _ _ _ N. now destruct N. Qed.

Lemma full_lens : map (@length R) (mg_Ys (gp_data g')) = map (@length R) (mg_Ys (gp_data g)).
Proof.
  destruct (dp_D _ g g' lo hi m HR HR' HS) as [E1 E2]. apply (nth_ext _ _ 0%nat 0%nat); [congruence|]. intros a Ha. rewrite E2 in Ha.
  exact (dp_len _ g g' HS a Ha eq_refl).
Qed.

Lemma full_obs i c : (i < n_obs g)%nat -> (c < mg_P (gp_data g))%nat ->
  obs (mg_P (gp_data g)) (mg_Xs (gp_data g')) (map (@length R) (mg_Ys (gp_data g'))) i c = obs (mg_P (gp_data g)) (mg_Xs (gp_data g)) (map (@length R) (mg_Ys (gp_data g))) i c.
Proof.
  intros Hi Hc. rewrite full_lens. unfold obs. destruct (owner_lt _ _ Hi) as [Ho [Hp _]]. destruct (dp_D _ g g' lo hi m HR HR' HS) as [E1 _]. rewrite E1 in Ho.
  apply (si_pts _ _ _ HS); auto. change 0%nat with (@length R []) in Hp. now rewrite map_nth in Hp.
Qed.

Lemma full_within : within lo hi m g g' /\ within lo hi m g' g.
Proof.
  assert (X : forall p x, (p < mg_P (gp_data g))%nat -> coord (mg_P (gp_data g)) (mg_Xs (gp_data g')) (map (@length R) (mg_Ys (gp_data g'))) p x <->
    coord (mg_P (gp_data g)) (mg_Xs (gp_data g)) (map (@length R) (mg_Ys (gp_data g))) p x).
  { intros p x Hp. unfold coord. rewrite full_lens. split; intros [i [Hi E]]; exists i; (split; [exact Hi|]); rewrite E; [|symmetry]; rewrite <- full_lens at 1; now apply full_obs. }
  split; intros p Hp; rewrite ?(si_P _ _ _ HS) in *; (split; [now rewrite full_lens|]); intros x Hx; exists x, x; (split; [left; now apply X|]; split; [left; now apply X|lra]).
Qed.
End Full.
