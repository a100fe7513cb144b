(** Models with the same covariance: their grids and covariance matrices. *)

From Coq Require Import Reals List Arith ZArith Lia Lra Permutation.
From Verif Require Import Base NDArray PSD Model_Util Proofs_Util Spec_Util Model_Linalg Spec_Linalg Proofs_Linalg Model_Interp Spec_Interp
  Proofs_Sparse Proofs_Interp Proofs_Interp2 Proofs_Autogrid Properties_Interp Model_Kern Spec_Kern Proofs_Kern Model_FK Spec_FK Proofs_FK Model_Grid Spec_Grid Proofs_Grid
  Proofs_Grid2 Det Proofs_Det Model_Lik Spec_Lik Proofs_Lik Proofs_Lik2 Proofs_Lik5 Proofs_Lik6 Proofs_Lik7 Properties_Lik Spec_GP Proofs_Gen Proofs_Gen2 Model_GP Spec_Pred
  Proofs_Pred2 Proofs_Pred3 Proofs_Pred4 Proofs_Init Proofs_Pred6 Proofs_Eig Proofs_Ski3 Spec_Order Proofs_Order Proofs_Order2 Spec_Alike.
Import ListNotations.
Open Scope R_scope.

Lemma group_ne f ad : group f ad <> [] <-> exists q, (q < f_Q f)%nat /\ dims_of f q = Some ad.
Proof.
  split.
  - intros H. destruct (group f ad) as [|q l] eqn:E; [congruence|]. exists q. apply in_group. rewrite E. now left.
  - intros [q H] E. apply in_group in H. now rewrite E in H.
Qed.

Lemma lsum_lin {A} (l : list A) (c : A -> R) n (W : nat -> nat -> R) (H : A -> nat -> nat -> R) :
  lsum (map (fun q => c q * Rsum n (fun u => Rsum n (fun v => W u v * H q u v))) l) =
  Rsum n (fun u => Rsum n (fun v => W u v * lsum (map (fun q => c q * H q u v) l))).
Proof.
  induction l as [|q l IH].
  - cbn [map]. change (lsum []) with 0. symmetry. apply Rsum_zero. intros u _. apply Rsum_zero. intros v _. ring.
  - cbn [map]. change (lsum (?x :: ?y)) with (x + lsum y). rewrite IH. rewrite <- Rsum_scal_l, <- Rsum_plus. apply Rsum_ext. intros u _.
    rewrite <- Rsum_scal_l, <- Rsum_plus. apply Rsum_ext. intros v _. change (lsum (?x :: ?y)) with (x + lsum y). ring.
Qed.

Lemma nsum_perm l l' : Permutation l l' -> nsum l = nsum l'.
Proof. unfold nsum. induction 1; cbn [fold_right]; lia. Qed.

(** [s] sends the samples of [g] to equal samples of [g'], of renumbered outputs. *)
Record sends_to (p : nat -> nat) (g g' : gp) (s : nat -> nat) : Prop := {
  st_inj : injects (n_obs g) (n_obs g') s;
  st_own : forall i, (i < n_obs g)%nat -> owner (map (@length R) (mg_Ys (gp_data g'))) (s i) = p (owner (map (@length R) (mg_Ys (gp_data g))) i);
  st_obs : forall i c, (i < n_obs g)%nat -> (c < mg_P (gp_data g))%nat ->
    obs (mg_P (gp_data g)) (mg_Xs (gp_data g')) (map (@length R) (mg_Ys (gp_data g'))) (s i) c =
    obs (mg_P (gp_data g)) (mg_Xs (gp_data g)) (map (@length R) (mg_Ys (gp_data g))) i c;
  st_y : forall i, (i < n_obs g)%nat -> y_obs g' (s i) = y_obs g i
}.

Section Same.
Variables (p : nat -> nat) (g g' : gp) (lo hi : grid_arg R) (m : grid_arg nat).
Hypothesis HR : gp_ready g lo hi m.
Hypothesis HR' : gp_ready g' lo hi m.
Hypothesis HC : same_cov p (gp_f g) (gp_f g').
Hypothesis HU : forall ad, group (gp_f g) ad <> [] -> surplus (gp_f g') ad <-> surplus (gp_f g) ad.
Hypothesis HD : same_data p g g'.
Let f := gp_f g.
Let f' := gp_f g'.
Let P := mg_P (gp_data g).
Let Xs := mg_Xs (gp_data g).
Let Xs' := mg_Xs (gp_data g').
Let Ys := mg_Ys (gp_data g).
Let Ys' := mg_Ys (gp_data g').
Let lens := map (@length R) (mg_Ys (gp_data g)).
Let lens' := map (@length R) (mg_Ys (gp_data g')).
Let n := n_obs g.
Let n' := n_obs g'.

Lemma al_group ad : group f' ad <> [] <-> group f ad <> [].
Proof. rewrite !group_ne. apply (sc_dims _ _ _ HC). Qed.

Lemma al_surplus ad : group f ad <> [] -> surplus_b f' ad = surplus_b f ad.
Proof.
  intros Had. pose proof (surplus_b_ok f ad) as A. pose proof (surplus_b_ok f' ad) as B. specialize (HU ad Had). fold f f' in HU.
  destruct (surplus_b f ad), (surplus_b f' ad); intuition congruence.
Qed.

Lemma al_DD : length lens = f_D f /\ length lens' = f_D f.
Proof. pose proof (rd_D g lo hi m HR) as H. pose proof (rd_D g' lo hi m HR') as H'. rewrite (sc_D _ _ _ HC) in H'. split; assumption. Qed.

Lemma al_len a : (a < f_D f)%nat -> length (nth (p a) Ys' []) = length (nth a Ys []).
Proof.
  intros Ha. pose proof (sd_samples _ _ _ HD a Ha) as H. apply Permutation_length in H. unfold data_of, samples in H. rewrite !tab_length in H. symmetry. exact H.
Qed.

Lemma nth_lens (Y : list vec) d : nth d (map (@length R) Y) 0%nat = length (nth d Y []).
Proof. exact (map_nth (@length R) Y [] d). Qed.

Lemma al_lens : Permutation lens lens'.
Proof.
  destruct al_DD as [L L'].
  assert (IP : Permutation (map p (seq 0 (f_D f))) (seq 0 (f_D f))) by (apply injects_perm; split; [apply (sc_p _ _ _ HC)|apply (sc_inj _ _ _ HC)]).
  assert (E : lens = map (fun a => nth a lens' 0%nat) (map p (seq 0 (f_D f)))).
  { rewrite map_map. apply (nth_ext _ _ 0%nat 0%nat); [now rewrite map_length, seq_length|]. intros a Ha. rewrite L in Ha.
    rewrite (nth_indep (map _ _) 0%nat (nth (p 0%nat) lens' 0%nat)) by (rewrite map_length, seq_length; exact Ha).
    rewrite (map_nth (fun a => nth (p a) lens' 0%nat)), seq_nth by exact Ha. cbn [Nat.add].
    unfold lens, lens'. rewrite !nth_lens. symmetry. now apply al_len. }
  rewrite E. rewrite (Permutation_map _ IP). apply Permutation_refl'. rewrite <- L'. symmetry. exact (list_as_tab 0%nat lens').
Qed.

Lemma al_n : n' = n.
Proof. symmetry. exact (nsum_perm _ _ al_lens). Qed.

Lemma al_sends : exists s, sends_to p g g' s.
Proof.
  destruct al_DD as [L L'].
  assert (LY : length Ys = f_D f) by (rewrite <- L; symmetry; apply map_length). assert (LY' : length Ys' = f_D f) by (rewrite <- L'; symmetry; apply map_length).
  assert (HF : exists F, forall d, (d < f_D f)%nat ->
    (forall i, (i < length (nth d Ys []))%nat -> (F d i < length (nth (p d) Ys' []))%nat) /\
    (forall i j, (i < length (nth d Ys []))%nat -> (j < length (nth d Ys []))%nat -> F d i = F d j -> i = j) /\
    (forall i, (i < length (nth d Ys []))%nat -> tab P (point P Xs' (p d) (F d i)) = tab P (point P Xs d i) /\
       vget (nth (p d) Ys' []) (F d i) = vget (nth d Ys []) i)).
  { apply (fin_choice (f_D f) (fun d h =>
      (forall i, (i < length (nth d Ys []))%nat -> (h i < length (nth (p d) Ys' []))%nat) /\
      (forall i j, (i < length (nth d Ys []))%nat -> (j < length (nth d Ys []))%nat -> h i = h j -> i = j) /\
      (forall i, (i < length (nth d Ys []))%nat -> tab P (point P Xs' (p d) (h i)) = tab P (point P Xs d i) /\
         vget (nth (p d) Ys' []) (h i) = vget (nth d Ys []) i)) (fun i => i)). intros d Hd. pose proof (sd_samples _ _ _ HD d Hd) as HP.
    unfold data_of, samples in HP. rewrite (sd_P _ _ _ HD) in HP. fold P Ys Ys' Xs Xs' in HP.
    apply Permutation_sym in HP. apply (Permutation_nth _ _ ([], 0)) in HP. cbv zeta in HP. destruct HP as [HL [h [B1 [B2 B3]]]].
    rewrite !tab_length in HL. rewrite tab_length in B1, B2, B3.
    exists h. unfold FinFun.bFun, FinFun.bInjective in *. split; [intros i Hi; apply B1; lia|]. split; [intros i j Hi Hj; apply B2; lia|].
    intros i Hi. specialize (B3 i ltac:(lia)).
    specialize (B1 i ltac:(lia)). rewrite !nth_tab in B3 by assumption. injection B3 as E1 E2. auto. }
  destruct HF as [F HF].
  assert (OW : forall i, (i < nsum lens)%nat -> let a := owner lens i in let c := place lens i in
    (a < f_D f)%nat /\ (c < length (nth a Ys []))%nat /\ i = (nsum (firstn a lens) + c)%nat).
  { intros i Hi a c. destruct (owner_lt lens i Hi) as [H1 [H2 H3]]. rewrite L in H1. unfold lens in H2 at 3. rewrite nth_lens in H2. auto. }
  set (s := fun i => (nsum (firstn (p (owner lens i)) lens') + F (owner lens i) (place lens i))%nat).
  assert (OS : forall i, (i < nsum lens)%nat -> owner lens' (s i) = p (owner lens i) /\ place lens' (s i) = F (owner lens i) (place lens i) /\ (s i < nsum lens')%nat).
  { intros i Hi. destruct (OW i Hi) as [H1 [H2 _]]. destruct (HF _ H1) as [G1 _]. specialize (G1 _ H2).
    assert (A1 : (p (owner lens i) < length lens')%nat) by (rewrite L'; now apply (sc_p _ _ _ HC)).
    assert (A2 : (F (owner lens i) (place lens i) < nth (p (owner lens i)) lens' 0)%nat) by (unfold lens'; now rewrite nth_lens).
    destruct (owner_offset lens' _ _ A1 A2) as [E1 E2]. split; [exact E1|]. split; [exact E2|]. now apply nsum_offset. }
  exists s. constructor; unfold n_obs; fold lens lens' P Xs Xs'.
  - split; [intros i Hi; apply OS, Hi|]. intros i j Hi Hj E. destruct (OS i Hi) as [A1 [A2 _]]. destruct (OS j Hj) as [B1 [B2 _]]. rewrite E in A1, A2.
    rewrite B1 in A1. rewrite B2 in A2. destruct (OW i Hi) as [O1 [O2 O3]]. destruct (OW j Hj) as [Q1 [Q2 Q3]].
    apply (sc_inj _ _ _ HC) in A1; [|assumption|assumption]. rewrite <- A1 in A2, O2, O3.
    destruct (HF _ Q1) as [_ [G2 _]]. apply G2 in A2; [|assumption|assumption]. rewrite A2 in Q3. lia.
  - intros i Hi. apply OS, Hi.
  - intros i c Hi Hc. unfold obs. destruct (OS i Hi) as [-> [-> _]]. destruct (OW i Hi) as [O1 [O2 _]]. destruct (HF _ O1) as [_ [_ G3]].
    destruct (G3 _ O2) as [G _]. exact (tab_inj _ _ _ G c Hc).
  - intros i Hi. unfold y_obs. rewrite !concat_get by (try exact Hi; apply OS, Hi). fold lens lens' Ys Ys'. destruct (OS i Hi) as [-> [-> _]].
    destruct (OW i Hi) as [O1 [O2 _]]. destruct (HF _ O1) as [_ [_ G3]]. apply G3, O2.
Qed.

Variable s : nat -> nat.
Hypothesis Hs : sends_to p g g' s.

Lemma al_inj : injects n n s.
Proof. pose proof (st_inj _ _ _ _ Hs) as H. fold n n' in H. now rewrite al_n in H. Qed.

Lemma al_onto i : (i < n)%nat -> exists j, (j < n)%nat /\ i = s j.
Proof.
  intros Hi. pose proof (injects_perm n s al_inj) as H. apply Permutation_sym in H.
  assert (In i (map s (seq 0 n))) as Q by (apply (Permutation_in _ H), in_seq; lia).
  apply in_map_iff in Q. destruct Q as [j [E Hj]]. apply in_seq in Hj. exists j. split; [lia|congruence].
Qed.

Lemma al_coord d z : (d < P)%nat -> coord P Xs' lens' d z <-> coord P Xs lens d z.
Proof.
  intros Hd. split; intros [i [Hi ->]].
  - change (nsum lens') with n' in Hi. rewrite al_n in Hi. destruct (al_onto i Hi) as [j [Hj ->]]. exists j. split; [exact Hj|]. now apply (st_obs _ _ _ _ Hs).
  - exists (s i). split; [apply (st_inj _ _ _ _ Hs), Hi|]. symmetry. now apply (st_obs _ _ _ _ Hs).
Qed.

Lemma al_axes ad : group f ad <> [] -> ag_axes (grid_at (gp_grids g') ad) = ag_axes (grid_at (gp_grids g) ad).
Proof.
  intros Had. assert (Had' : group (gp_f g') ad <> []) by (now apply al_group).
  pose proof (grid_at_ok g lo hi m ad HR Had) as E. pose proof (grid_at_ok g' lo hi m ad HR' Had') as E'.
  pose proof (gr_data _ _ _ _ HR) as DA. pose proof (gr_data _ _ _ _ HR') as DA'.
  pose proof (da_args _ _ _ _ _ _ _ DA ad Had) as GA. pose proof (da_args _ _ _ _ _ _ _ DA' ad Had') as GA'.
  pose proof (da_in _ _ _ _ _ _ _ DA) as In1. pose proof (da_in _ _ _ _ _ _ _ DA') as In2.
  assert (X : forall c, (c < length ad)%nat -> length (ag_axes (grid_at (gp_grids g') ad)) = length ad /\ length (ag_axes (grid_at (gp_grids g) ad)) = length ad /\
    nth c (ag_axes (grid_at (gp_grids g') ad)) [] = nth c (ag_axes (grid_at (gp_grids g) ad)) []).
  { intros c Hp. set (d := nth c ad 0%nat).
    assert (Hd : (d < P)%nat) by (apply (ga_range _ _ _ _ _ _ _ GA), nth_In, Hp).
    destruct (grid_axis _ _ _ _ _ _ _ _ c In1 (da_lens _ _ _ _ _ _ _ (rd_ok g lo hi m HR) DA) (da_pos _ _ _ _ _ _ _ DA) GA E Hp)
      as [x [y (X1 & Y1 & _ & B & Bl & Bh & L1 & ->)]].
    destruct (grid_axis _ _ _ _ _ _ _ _ c In2 (da_lens _ _ _ _ _ _ _ (rd_ok g' lo hi m HR') DA') (da_pos _ _ _ _ _ _ _ DA') GA' E' Hp)
      as [x' [y' (X1' & Y1' & _ & B' & Bl' & Bh' & L2 & ->)]].
    fold d in X1, Y1, B, Bl, Bh, X1', Y1', B', Bl', Bh' |- *. rewrite (sd_P _ _ _ HD) in X1', Y1', B'. fold P Xs Xs' lens lens' in X1, Y1, B, X1', Y1', B' |- *.
    assert (Ec : cells_for m lens' d = cells_for m lens d).
    { unfold cells_for. destruct (arg_at m d); [reflexivity|]. destruct al_DD as [-> ->]. now rewrite (nsum_perm _ _ al_lens). }
    assert (CC := fun z => al_coord d z Hd).
    assert (Ex : x' = x).
    { apply Rle_antisym.
      - destruct X1 as [X1|X1]; [apply B', CC, X1|apply Bl', X1].
      - destruct X1' as [X1'|X1']; [apply B, CC, X1'|apply Bl, X1']. }
    assert (Ey : y' = y).
    { apply Rle_antisym.
      - destruct Y1' as [Y1'|Y1']; [apply B, CC, Y1'|apply Bh, Y1'].
      - destruct Y1 as [Y1|Y1]; [apply B', CC, Y1|apply Bh', Y1]. }
    rewrite Ex, Ey, Ec. auto. }
  assert (Hl : (0 < length ad)%nat) by (destruct (ga_dims _ _ _ _ _ _ _ GA); lia).
  destruct (X 0%nat Hl) as [L1 [L2 _]]. apply (nth_ext _ _ [] []); [unfold vec in *; lia|]. intros c Hp. apply X. unfold vec in *. lia.
Qed.

Lemma al_G ad : group f ad <> [] -> G_of (gp_grids g') ad = G_of (gp_grids g) ad.
Proof.
  intros Had. assert (Had' : group (gp_f g') ad <> []) by (now apply al_group).
  destruct (rd_grid g lo hi m HR ad Had) as [_ [l [HL [_ [E _]]]]]. destruct (rd_grid g' lo hi m HR' ad Had') as [_ [l' [HL' [_ [E' _]]]]].
  rewrite (al_axes ad Had), E in E'. subst l'. unfold G_of. rewrite (gg_ag _ _ _ _ _ _ _ _ _ _ HL), (gg_ag _ _ _ _ _ _ _ _ _ _ HL'). reflexivity.
Qed.

Lemma al_pts ad : group f ad <> [] -> pts g' ad = pts g ad.
Proof. intros Had. unfold pts. now rewrite al_G. Qed.

Lemma al_range ad c : group f ad <> [] -> In c ad -> (c < P)%nat.
Proof. intros Had. apply (ga_range _ _ _ _ _ _ _ (da_args _ _ _ _ _ _ _ (gr_data _ _ _ _ HR) ad Had)). Qed.

Lemma al_wt ad x x' u : group f ad <> [] -> (forall c, (c < P)%nat -> x' c = x c) -> wt g' ad x' u = wt g ad x u.
Proof.
  intros Had Hx. unfold wt at 1. rewrite al_axes by exact Had. fold (wt g ad x' u).
  apply (we_ext _ _ (wt_weights g lo hi m HR)); [exact Had|]. intros c Hc. apply Hx, (al_range ad c Had Hc).
Qed.

(** The distances on the grid are not negative. *)
Lemma al_dists ad i : group f ad <> [] -> 0 <= vget (a_data (G_of (gp_grids g) ad)) i.
Proof.
  intros Had. destruct (rd_grid g lo hi m HR ad Had) as [_ [l [HL _]]]. unfold G_of. rewrite (gg_ag _ _ _ _ _ _ _ _ _ _ HL). cbn [ag_dists dists_of a_data].
  destruct (Nat.lt_ge_cases i (axes_points l)) as [H|H].
  - rewrite vget_tab by exact H. unfold euclid. apply sqrt_pos.
  - unfold vget. rewrite nth_overflow; [lra|]. now rewrite tab_length.
Qed.

Definition grid_cov (h : fkernel) (gr : dict ad_grid) (ad : dims) (a b u v : nat) : R :=
  lsum (map (fun q => B_of h q a b * K_grid h (G_of gr ad) q u v) (group h ad)).

Lemma al_grid_cov ad a b u v : group f ad <> [] -> (a < f_D f)%nat -> (b < f_D f)%nat ->
  grid_cov f' (gp_grids g') ad (p a) (p b) u v = grid_cov f (gp_grids g) ad a b u v.
Proof.
  intros Had Ha Hb. unfold grid_cov, K_grid, bttb_entry. rewrite al_G by exact Had. set (Gd := G_of (gp_grids g) ad). set (i := ravel_idx _ _).
  assert (E : forall h b1 b2, lsum (map (fun q => B_of h q b1 b2 * vget (map (k_doc (kern_of h q)) (a_data Gd)) i) (group h ad)) =
    if Nat.ltb i (length (a_data Gd)) then cov_on h ad b1 b2 (vget (a_data Gd) i) else 0).
  { intros h b1 b2. destruct (Nat.ltb_spec i (length (a_data Gd))) as [H|H].
    - unfold cov_on. apply lsum_map_ext. intros q _. f_equal. unfold vget. rewrite (nth_indep _ 0 (k_doc (kern_of h q) 0)) by now rewrite map_length. apply map_nth.
    - apply lsum_map_zero. intros q _. unfold vget. rewrite nth_overflow by now rewrite map_length. ring. }
  rewrite !E. destruct (Nat.ltb i (length (a_data Gd))); [|reflexivity]. apply (sc_cov _ _ _ HC); [exact Ha|exact Hb|]. now apply al_dists.
Qed.

Lemma al_keys : Permutation (map fst (f_active f')) (map fst (f_active f)).
Proof.
  assert (Hok := rd_ok g lo hi m HR). assert (HP := rd_P g lo hi m HR). assert (Hok' := rd_ok g' lo hi m HR'). assert (HP' := rd_P g' lo hi m HR').
  pose proof (ok_dims _ Hok) as DI. rewrite HP in DI. pose proof (ok_dims _ Hok') as DI'. rewrite HP' in DI'.
  apply NoDup_Permutation; [exact (do_nodup _ DI')|exact (do_nodup _ DI)|]. intros ad. unfold f', f.
  rewrite (keys_group (gp_f g') _ Hok' HP'), (keys_group (gp_f g) _ Hok HP). apply al_group.
Qed.

Lemma al_keyed (F F' : dims -> R) : (forall ad, group f ad <> [] -> F' ad = F ad) -> lsum (map F' (map fst (f_active f'))) = lsum (map F (map fst (f_active f))).
Proof.
  intros H. rewrite (lsum_perm _ _ (Permutation_map F' al_keys)). apply lsum_map_ext. intros ad Had. apply H.
  apply (keys_group f P (rd_ok g lo hi m HR) (rd_P g lo hi m HR)), Had.
Qed.

Lemma al_lmc a x b z x' z' : (a < f_D f)%nat -> (b < f_D f)%nat -> (forall c, (c < P)%nat -> x' c = x c) -> (forall c, (c < P)%nat -> z' c = z c) ->
  lmc_cov f' (p a) x' (p b) z' = lmc_cov f a x b z.
Proof.
  intros Ha Hb Hx Hz. unfold lmc_cov.
  rewrite <- (sum_groups f' (mg_P (gp_data g')) (fun ad q => B_of f' q (p a) (p b) * k_doc (kern_of f' q) (dist_on ad x' z')) (rd_ok g' lo hi m HR') (rd_P g' lo hi m HR')).
  rewrite <- (sum_groups f P (fun ad q => B_of f q a b * k_doc (kern_of f q) (dist_on ad x z)) (rd_ok g lo hi m HR) (rd_P g lo hi m HR)).
  apply al_keyed. intros ad Had. replace (dist_on ad x' z') with (dist_on ad x z).
  - apply (sc_cov _ _ _ HC ad a b (dist_on ad x z) Ha Hb). unfold dist_on. apply sqrt_pos.
  - unfold dist_on. f_equal. apply lsum_map_ext. intros c Hc. rewrite Hx, Hz by (apply (al_range _ _ Had Hc)). reflexivity.
Qed.

Lemma ski_groups h lo0 hi0 m0 a x b z : gp_ready h lo0 hi0 m0 ->
  ski_cov h (wt h) a x b z = lsum (map (fun ad => Rsum (pts h ad) (fun u => Rsum (pts h ad) (fun v =>
    (wt h ad x u * wt h ad z v) * grid_cov (gp_f h) (gp_grids h) ad a b u v))) (map fst (f_active (gp_f h)))).
Proof.
  intros H. unfold ski_cov. cbv zeta.
  rewrite <- (sum_groups (gp_f h) (mg_P (gp_data h)) (fun ad q => B_of (gp_f h) q a b * Rsum (pts h ad) (fun u => Rsum (pts h ad) (fun v =>
    wt h ad x u * K_grid (gp_f h) (G_of (gp_grids h) ad) q u v * wt h ad z v))) (rd_ok h _ _ _ H) (rd_P h _ _ _ H)).
  apply lsum_map_ext. intros ad _. unfold grid_cov. rewrite <- (lsum_lin (group (gp_f h) ad) (fun q => B_of (gp_f h) q a b) (pts h ad) (fun u v => wt h ad x u * wt h ad z v)
    (fun q u v => K_grid (gp_f h) (G_of (gp_grids h) ad) q u v)).
  apply lsum_map_ext. intros q _. f_equal. apply Rsum_ext. intros u _. apply Rsum_ext. intros v _. ring.
Qed.

Lemma al_eqb a b : (a < f_D f)%nat -> (b < f_D f)%nat -> Nat.eqb (p a) (p b) = Nat.eqb a b.
Proof.
  intros Ha Hb. destruct (Nat.eqb_spec a b) as [->|N]; [apply Nat.eqb_refl|]. apply Nat.eqb_neq. intros E. apply N. now apply (sc_inj _ _ _ HC).
Qed.

Lemma al_ski a x b z x' z' : (a < f_D f)%nat -> (b < f_D f)%nat -> (forall c, (c < P)%nat -> x' c = x c) -> (forall c, (c < P)%nat -> z' c = z c) ->
  ski_cov g' (wt g') (p a) x' (p b) z' = ski_cov g (wt g) a x b z /\ ski_extra g' (wt g') (p a) x' (p b) z' = ski_extra g (wt g) a x b z.
Proof.
  intros Ha Hb Hx Hz. split.
  - rewrite (ski_groups g' _ _ _ _ _ _ _ HR'), (ski_groups g _ _ _ _ _ _ _ HR). apply al_keyed. intros ad Had. rewrite al_pts by exact Had.
    apply Rsum_ext. intros u _. apply Rsum_ext. intros v _. now rewrite (al_wt _ x x'), (al_wt _ z z'), al_grid_cov.
  - unfold ski_extra. rewrite al_eqb by assumption. destruct (Nat.eqb a b); [|reflexivity]. apply al_keyed. intros ad Had. change (gp_f g') with f'. rewrite (al_surplus ad Had). fold f.
    destruct (surplus_b f ad); [|reflexivity]. rewrite al_pts by exact Had. apply Rsum_ext. intros u _. now rewrite (al_wt _ x x'), (al_wt _ z z').
Qed.

Lemma al_sb i j : (i < n)%nat -> (j < n)%nat -> Nat.eqb (s i) (s j) = Nat.eqb i j.
Proof.
  intros Hi Hj. destruct (Nat.eqb_spec i j) as [->|N]; [apply Nat.eqb_refl|]. apply Nat.eqb_neq. intros E. apply N. now apply al_inj.
Qed.

Lemma al_own i : (i < n)%nat -> (owner lens i < f_D f)%nat.
Proof. intros Hi. destruct (owner_lt lens i Hi) as [H _]. destruct al_DD as [L _]. now rewrite L in H. Qed.

Lemma al_K_fit i j : (i < n)%nat -> (j < n)%nat -> K_fit g i j = K_fit g' (s i) (s j).
Proof.
  intros Hi Hj. rewrite (K_fit_weights g lo hi m HR i j Hi Hj). rewrite (K_fit_weights g' lo hi m HR') by (apply (st_inj _ _ _ _ Hs); assumption).
  rewrite !(st_own _ _ _ _ Hs) by assumption. rewrite al_sb by assumption. rewrite (sd_P _ _ _ HD). fold P Xs Xs' lens lens'.
  rewrite (sc_noise _ _ _ HC) by now apply al_own.
  destruct (al_ski (owner lens i) (obs P Xs lens i) (owner lens j) (obs P Xs lens j) (obs P Xs' lens' (s i)) (obs P Xs' lens' (s j))) as [E1 E2].
  - now apply al_own.
  - now apply al_own.
  - intros c Hc. now apply (st_obs _ _ _ _ Hs).
  - intros c Hc. now apply (st_obs _ _ _ _ Hs).
  - rewrite E1, E2. reflexivity.
Qed.

Lemma al_K_obs i j : (i < n)%nat -> (j < n)%nat -> K_obs f P Xs lens i j = K_obs f' P Xs' lens' (s i) (s j).
Proof.
  intros Hi Hj. unfold K_obs. unfold lens' at 1 3 5. rewrite !(st_own _ _ _ _ Hs), al_sb by assumption. fold lens.
  rewrite (sc_noise _ _ _ HC) by now apply al_own. fold f. f_equal. symmetry.
  apply al_lmc; try (now apply al_own); intros c Hc; now apply (st_obs _ _ _ _ Hs).
Qed.

Lemma al_cross a x j : (a < f_D f)%nat -> (j < n)%nat ->
  cross g a x j = cross g' (p a) x (s j).
Proof.
  intros Ha Hj. unfold cross. rewrite (st_own _ _ _ _ Hs) by exact Hj. rewrite (sd_P _ _ _ HD). symmetry. apply al_lmc; [exact Ha|now apply al_own|reflexivity|].
  intros c Hc. now apply (st_obs _ _ _ _ Hs).
Qed.

Lemma al_dd ad a u b v : group f ad <> [] -> (a < f_D f)%nat -> (b < f_D f)%nat -> dd g' ad (p a) u (p b) v = dd g ad a u b v.
Proof.
  intros Had Ha Hb. unfold dd. change (gp_f g') with f'. change (gp_f g) with f. rewrite al_surplus, al_eqb by assumption. f_equal.
  exact (al_grid_cov ad a b u v Had Ha Hb).
Qed.

Lemma al_gcov ad a u j : group f ad <> [] -> (a < f_D f)%nat -> (j < n)%nat -> gcov g ad a u j = gcov g' ad (p a) u (s j).
Proof.
  intros Had Ha Hj. unfold gcov. rewrite al_pts, (sd_P _ _ _ HD) by exact Had. apply Rsum_ext. intros v _.
  rewrite (st_own _ _ _ _ Hs) by exact Hj. fold lens lens' P Xs Xs'. rewrite al_dd by (try assumption; now apply al_own). f_equal. symmetry.
  apply al_wt; [exact Had|]. intros c Hc. now apply (st_obs _ _ _ _ Hs).
Qed.

Lemma al_prior a : (a < f_D f)%nat -> prior_var f' (p a) = prior_var f a.
Proof.
  intros Ha. unfold prior_var. rewrite (sc_noise _ _ _ HC) by exact Ha. fold f. f_equal.
  rewrite <- (sum_groups f' (mg_P (gp_data g')) (fun ad q => B_of f' q (p a) (p a) * k_doc (kern_of f' q) 0) (rd_ok g' lo hi m HR') (rd_P g' lo hi m HR')).
  rewrite <- (sum_groups f P (fun ad q => B_of f q a a * k_doc (kern_of f q) 0) (rd_ok g lo hi m HR) (rd_P g lo hi m HR)).
  apply al_keyed. intros ad Had. apply (sc_cov _ _ _ HC ad a a 0 Ha Ha). lra.
Qed.

End Same.
