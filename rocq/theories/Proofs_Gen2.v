(** All grids of a model; the SKI covariance of data on the grid. *)

From Coq Require Import Reals List Arith ZArith Lia Lra.
From Verif Require Import Base NDArray PSD Model_Util Proofs_Util Spec_Util Model_Linalg Spec_Linalg Proofs_Linalg Model_Interp Spec_Interp
  Proofs_Sparse Proofs_Interp Proofs_Interp2 Proofs_Bicubic Proofs_Assemble Proofs_Autogrid Properties_Interp
  Model_Kern Spec_Kern Model_FK Spec_FK Proofs_FK Model_Grid Spec_Grid Proofs_Grid Proofs_Grid2 Spec_Lik Proofs_Lik Proofs_Lik6
  Spec_GP Proofs_Gen.
Import ListNotations.
Open Scope R_scope.

Lemma Rsum_nonneg_zero n (F : nat -> R) : (forall i, (i < n)%nat -> 0 <= F i) -> Rsum n F = 0 -> forall i, (i < n)%nat -> F i = 0.
Proof.
  induction n as [|n IH]; intros H E i Hi; [lia|]. cbn [Rsum] in E.
  assert (0 <= Rsum n F) by (apply Rsum_nonneg; intros; apply H; lia). pose proof (H n ltac:(lia)).
  destruct (Nat.eq_dec i n) as [->|N]; [lra|]. apply IH; [intros; apply H; lia|lra|lia].
Qed.

Lemma w1_sum m a h x : (4 <= m)%nat -> 0 < h -> Rsum m (fun j => w1 (m, a, h) x j) = 1.
Proof.
  intros Hm Hh. destruct (C13_interp_rows m a h [x] Hm Hh) as [W [HW [_ [_ [_ H]]]]]; [discriminate|].
  destruct (H 0%nat ltac:(cbn; lia)) as [_ [_ [E _]]]. rewrite <- E. apply Rsum_ext. intros j Hj. symmetry.
  apply (interp_w1 W m a h [x] 0 j Hm Hh HW); [cbn; lia|exact Hj].
Qed.

Lemma wN_sum l x : (length l = 1 \/ length l = 2)%nat -> Forall axis_ok l -> Rsum (axes_points l) (fun u => wN l x u) = 1.
Proof.
  intros Hl HF. destruct l as [|[[m a] h] [|[[m' a'] h'] [|]]]; cbn in Hl; try lia.
  - inversion HF as [|? ? [H1 H2] _]; subst. cbn [fst snd] in *. unfold axes_points. cbn [map nprod fold_right fst]. rewrite Nat.mul_1_r.
    now apply w1_sum.
  - inversion HF as [|? ? [H1 H2] HF']; subst. inversion HF' as [|? ? [H3 H4] _]; subst. cbn [fst snd] in *.
    unfold axes_points. cbn [map nprod fold_right fst]. rewrite Nat.mul_1_r. unfold wN. cbn [fst].
    rewrite Rsum_flatten.
    rewrite (Rsum_ext m _ (fun a0 => w1 (m, a, h) (x 0%nat) a0)); [now apply w1_sum|].
    intros j _. rewrite (Rsum_ext m' _ (fun b0 => w1 (m, a, h) (x 0%nat) j * w1 (m', a', h') (x 1%nat) b0)).
    + rewrite Rsum_scal_l. rewrite w1_sum by assumption. ring.
    + intros b Hb. rewrite Nat.div_add_l, Nat.div_small by lia. rewrite Nat.add_0_r. rewrite Nat.add_comm, Nat.mod_add, Nat.mod_small by lia.
      reflexivity.
Qed.

Lemma dist_on_euclid ad x z : dist_on ad x z = euclid (length ad) (proj ad x) (proj ad z).
Proof. unfold dist_on, euclid. f_equal. symmetry. apply (Rsum_lsum 0%nat (fun p => (x p - z p) ^ 2) ad). Qed.

Lemma euclid_ext L x x' z z' : (forall p, (p < L)%nat -> x p = x' p) -> (forall p, (p < L)%nat -> z p = z' p) ->
  euclid L x z = euclid L x' z'.
Proof. intros H H'. unfold euclid. f_equal. apply Rsum_ext. intros p Hp. now rewrite H, H'. Qed.

Lemma dict_get_map {V U} (F : V -> U) (d : dict V) k : dict_get (map (fun p => (fst p, F (snd p))) d) k = let! v := dict_get d k in Ok (F v).
Proof. induction d as [|[k' v] d IH]; [reflexivity|]. cbn. destruct (dims_eqb k k'); [reflexivity|exact IH]. Qed.

Lemma axes_points_pos l : Forall axis_ok l -> (0 < axes_points l)%nat.
Proof.
  unfold axes_points. induction 1 as [|t l [A B] _ IH]; [cbn; lia|]. cbn [map nprod fold_right].
  fold (nprod (map (fun x : nat * R * R => fst (fst x)) l)). nia.
Qed.

(** An interpolation matrix whose rows [i] and [j] are unit vectors. *)
Lemma ski_entry_unit W D m A K i j a k b e : (0 < m)%nat -> (a < D)%nat -> (k < m)%nat -> (b < D)%nat -> (e < m)%nat ->
  (forall u, (u < D * m)%nat -> sp_get W i u = if Nat.eqb u (a * m + k) then 1 else 0) ->
  (forall u, (u < D * m)%nat -> sp_get W j u = if Nat.eqb u (b * m + e) then 1 else 0) ->
  ski_entry W D m A K i j = A a b * K k e.
Proof.
  intros Hm Ha Hk Hb He Hi Hj. unfold ski_entry.
  rewrite (Rsum_ext (D * m) _ (fun u => if Nat.eqb u (a * m + k) then A (u / m)%nat b * K (u mod m)%nat e else 0)).
  - rewrite Rsum_delta by nia. rewrite Nat.div_add_l, Nat.div_small by lia. rewrite Nat.add_0_r.
    rewrite (Nat.add_comm (a * m)), Nat.mod_add, Nat.mod_small by lia. reflexivity.
  - intros u Hu.
    rewrite (Rsum_ext (D * m) _ (fun v => if Nat.eqb v (b * m + e) then sp_get W i u * (A (u / m)%nat (v / m)%nat * K (u mod m)%nat (v mod m)%nat) else 0)).
    + rewrite Rsum_delta by nia. rewrite Hi by exact Hu. rewrite (Nat.div_add_l b), (Nat.div_small e) by lia. rewrite Nat.add_0_r.
      rewrite (Nat.add_comm (b * m)), Nat.mod_add, (Nat.mod_small e) by lia. destruct (Nat.eqb u (a * m + k)); ring.
    + intros v Hv. rewrite Hj by exact Hv. destruct (Nat.eqb v (b * m + e)); ring.
Qed.

Section Grids.
Variables (f : fkernel) (P : nat) (Xs : list ndarr) (lens : list nat) (lo hi : grid_arg R) (m : grid_arg nat).
Hypothesis Hok : fk_ok f.
Hypothesis DA : data_ok f P Xs lens lo hi m.

(** What is known about the grid of a group. *)
Record group_grid (ad : dims) (a : ad_grid) (l : list (nat * R * R)) : Prop := {
  gg_ag : a = mk_ag (axes_of l) (dists_of l) (ag_W a) (csr_T (ag_W a));
  gg_enc : encloses P Xs lens lo hi m ad l;
  gg_ax : Forall axis_ok l;
  gg_r : c_r (ag_W a) = nsum lens;
  gg_c : c_c (ag_W a) = (f_D f * axes_points l)%nat;
  gg_wf : csr_wf (ag_W a);
  gg_get : forall i u, (i < nsum lens)%nat -> (u < f_D f * axes_points l)%nat ->
    csr_get (ag_W a) i u = if Nat.eqb (u / axes_points l) (owner lens i) then wN l (proj ad (obs P Xs lens i)) (u mod axes_points l) else 0
}.

Lemma da_lens : lens <> [].
Proof. pose proof (da_D _ _ _ _ _ _ _ DA) as H. pose proof (ok_D _ Hok). destruct lens; [cbn in H; lia|discriminate]. Qed.

Lemma da_n : (0 < nsum lens)%nat.
Proof.
  pose proof da_lens as H. pose proof (da_pos _ _ _ _ _ _ _ DA) as H'. destruct lens as [|n l]; [congruence|].
  specialize (H' n (or_introl eq_refl)). unfold nsum. cbn [fold_right]. lia.
Qed.

Lemma generate_grids_ok : exists g, generate_grids f Xs lo hi m = Ok g /\ map fst g = map fst (f_active f) /\
  forall ad, group f ad <> [] -> dict_get g ad = Ok (grid_at g ad) /\ exists l, group_grid ad (grid_at g ad) l.
Proof.
  pose proof (da_P _ _ _ _ _ _ _ DA) as HP. pose proof (da_D _ _ _ _ _ _ _ DA) as HD.
  unfold generate_grids.
  destruct (map_result_ex (fun ad => let! g := generate_grid Xs lo hi m ad in Ok (ad, g))
    (fun ad p => fst p = ad /\ exists l, group_grid ad (snd p) l) (map fst (f_active f))) as [g [E HF]].
  - intros ad Had. apply (keys_group f P Hok HP) in Had.
    destruct (generate_grid_ok P Xs lens lo hi m ad (da_in _ _ _ _ _ _ _ DA) da_lens (da_pos _ _ _ _ _ _ _ DA) (da_args _ _ _ _ _ _ _ DA ad Had))
      as [l [W [E [He [Hax [Wr [Wc [Wf HW]]]]]]]].
    rewrite E. cbn [bind]. eexists. split; [reflexivity|]. cbn [fst snd]. split; [reflexivity|]. exists l.
    rewrite HD in Wc, HW. constructor; cbn [ag_W]; auto.
  - rewrite E. exists g. split; [reflexivity|].
    assert (Ek : map fst g = map fst (f_active f)).
    { clear - HF. induction HF as [|ad p l g [H _] _ IH]; [reflexivity|]. cbn [map]. now rewrite IH, H. }
    split; [exact Ek|]. intros ad Had.
    assert (Hin : In ad (map fst g)) by (rewrite Ek; now apply (keys_group f P Hok HP)).
    apply dict_key in Hin. destruct Hin as [a Ha]. unfold grid_at. rewrite Ha. split; [reflexivity|].
    apply dict_get_in in Ha. clear - HF Ha. induction HF as [|ad' p l g [H H'] _ IH]; [destruct Ha|].
    destruct Ha as [->|Ha]; [cbn in H, H'; now subst ad'|]. now apply IH.
Qed.

Variable g : dict ad_grid.
Hypothesis Hg : generate_grids f Xs lo hi m = Ok g.

Lemma grids_facts ad : group f ad <> [] -> dict_get g ad = Ok (grid_at g ad) /\ exists l, group_grid ad (grid_at g ad) l.
Proof. destruct generate_grids_ok as [g' [E [_ H]]]. rewrite Hg in E. apply Ok_inj in E. subst g'. apply H. Qed.

(** The hypotheses of C26 and C56. *)
Lemma grids_interp ad : group f ad <> [] ->
  dict_get (grids_dists g) ad = Ok (G_of g ad) /\ dists_ok (G_of g ad) /\
  dict_get (grids_interps g) ad = Ok (W_of g ad, sparse_of_csr (ag_WT (grid_at g ad))) /\
  interp_ok (nsum lens) (f_D f * nprod (a_shape (G_of g ad))) (W_of g ad) (sparse_of_csr (ag_WT (grid_at g ad))).
Proof.
  intros Had. destruct (grids_facts ad Had) as [E [l HL]].
  unfold grids_dists, grids_interps. rewrite (dict_get_map ag_dists), (dict_get_map (fun a => (sparse_of_csr (ag_W a), sparse_of_csr (ag_WT a)))), E. cbn [bind].
  split; [reflexivity|].
  assert (EG : G_of g ad = dists_of l) by (unfold G_of; now rewrite (gg_ag _ _ _ HL)).
  assert (EP : nprod (a_shape (G_of g ad)) = axes_points l) by (rewrite EG; reflexivity).
  assert (ET : ag_WT (grid_at g ad) = csr_T (ag_W (grid_at g ad))).
  { rewrite (gg_ag _ _ _ HL) at 1. reflexivity. }
  split; [|split; [reflexivity|]].
  - rewrite EG. split; [|split].
    + cbn. pose proof (proj1 (gg_enc _ _ _ HL)) as Hl. pose proof (ga_dims _ _ _ _ _ _ _ (da_args _ _ _ _ _ _ _ DA ad Had)) as Hd.
      destruct l; [cbn in Hl; lia|discriminate].
    + exact (axes_points_pos l (gg_ax _ _ _ HL)).
    + cbn. apply tab_length.
  - rewrite EP, ET. constructor; unfold W_of, sparse_of_csr; cbn [sp_r sp_c sp_get].
    + apply (gg_r _ _ _ HL).
    + apply (gg_c _ _ _ HL).
    + rewrite <- (gg_c _ _ _ HL). apply csr_of_shape.
    + rewrite <- (gg_r _ _ _ HL). apply csr_of_shape.
    + intros i j. apply csr_T_get. apply (gg_wf _ _ _ HL).
Qed.

Lemma grids_cart ad l : group f ad <> [] -> group_grid ad (grid_at g ad) l ->
  ag_axes (grid_at g ad) = axes_of l /\ length (cart (ag_axes (grid_at g ad))) = axes_points l.
Proof.
  intros Had HL. assert (E : ag_axes (grid_at g ad) = axes_of l) by (rewrite (gg_ag _ _ _ HL); reflexivity).
  split; [exact E|]. rewrite E, cart_length, axes_lengths. reflexivity.
Qed.

(** Data on the grid. *)
Hypothesis OG : on_grid f P Xs lens g.

Lemma on_grid_row ad l i : group f ad <> [] -> group_grid ad (grid_at g ad) l -> (i < nsum lens)%nat ->
  exists k, (k < axes_points l)%nat /\ (forall p, (p < length ad)%nat -> proj ad (obs P Xs lens i) p = grid_pt (axes_of l) k p) /\
    forall u, (u < f_D f * axes_points l)%nat -> sp_get (W_of g ad) i u = if Nat.eqb u (owner lens i * axes_points l + k) then 1 else 0.
Proof.
  intros Had HL Hi. destruct (grids_cart ad l Had HL) as [E EL]. destruct (OG ad i Had Hi) as [k [Hk Hp]]. rewrite EL in Hk. rewrite E in Hp.
  exists k. split; [exact Hk|]. split; [exact Hp|]. intros u Hu. unfold W_of, sparse_of_csr. cbn [sp_get].
  rewrite (gg_get _ _ _ HL) by assumption. pose proof (axes_points_pos l (gg_ax _ _ _ HL)) as Hpp.
  pose proof (proj1 (gg_enc _ _ _ HL)) as Ll. pose proof (ga_dims _ _ _ _ _ _ _ (da_args _ _ _ _ _ _ _ DA ad Had)) as Hd.
  set (mm := axes_points l) in *. assert (Hum : (u mod mm < mm)%nat) by (apply Nat.mod_upper_bound; lia).
  pose proof (Nat.div_mod u mm ltac:(lia)) as Eu.
  destruct (Nat.eqb_spec (u / mm) (owner lens i)) as [Eo|Eo].
  - rewrite (wN_ext l _ (grid_pt (axes_of l) k)) by (intros p Hpl; apply Hp; lia).
    rewrite wN_node; [|lia|apply (gg_ax _ _ _ HL)|exact Hk|exact Hum].
    destruct (Nat.eqb_spec (u mod mm) k); destruct (Nat.eqb_spec u (owner lens i * mm + k)); try reflexivity; exfalso; nia.
  - destruct (Nat.eqb_spec u (owner lens i * mm + k)) as [E'|E']; [|reflexivity]. exfalso. apply Eo. rewrite E'.
    rewrite Nat.div_add_l, Nat.div_small by lia. lia.
Qed.

Lemma on_grid_exact i j : (i < nsum lens)%nat -> (j < nsum lens)%nat ->
  K_ski f (G_of g) (W_of g) lens i j = K_obs f P Xs lens i j.
Proof.
  intros Hi Hj. pose proof (da_P _ _ _ _ _ _ _ DA) as HP. pose proof (da_D _ _ _ _ _ _ _ DA) as HD.
  unfold K_ski, K_obs. f_equal. unfold lmc_cov. apply Rsum_ext. intros q Hq.
  destruct (group_qdims f P Hok HP q Hq) as [_ Had]. set (ad := qdims f q) in *.
  destruct (grids_facts ad Had) as [_ [l HL]].
  destruct (on_grid_row ad l i Had HL Hi) as [k [Hk [Hpk Hrk]]]. destruct (on_grid_row ad l j Had HL Hj) as [e [He [Hpe Hre]]].
  assert (EG : G_of g ad = dists_of l) by (unfold G_of; now rewrite (gg_ag _ _ _ HL)).
  pose proof (axes_points_pos l (gg_ax _ _ _ HL)) as Hpp. pose proof (proj1 (gg_enc _ _ _ HL)) as Ll.
  destruct (owner_lt lens i Hi) as [O1 _]. destruct (owner_lt lens j Hj) as [O2 _]. rewrite HD in O1, O2.
  replace (nprod (a_shape (G_of g ad))) with (axes_points l) by (rewrite EG; reflexivity).
  rewrite (ski_entry_unit (W_of g ad) (f_D f) (axes_points l) _ _ i j (owner lens i) k (owner lens j) e) by assumption.
  f_equal. unfold K_grid. rewrite EG. unfold dists_of. cbn [a_data a_shape].
  rewrite grid_dists_entry; [| |exact Hpp|exact Hk|exact He].
  - f_equal. rewrite dist_on_euclid, Ll. apply euclid_ext; intros p Hp; symmetry; [now apply Hpk|now apply Hpe].
  - pose proof (ga_dims _ _ _ _ _ _ _ (da_args _ _ _ _ _ _ _ DA ad Had)). destruct l; [cbn in Ll; lia|discriminate].
Qed.

(** With all inputs on the grid, a superfluous identity counts the pairs of
    observations of one output at the same place. *)
Lemma on_grid_gram ad i j : group f ad <> [] -> (i < nsum lens)%nat -> (j < nsum lens)%nat ->
  Rsum (f_D f * nprod (a_shape (G_of g ad))) (fun u => sp_get (W_of g ad) i u * sp_get (W_of g ad) j u)
  = (if Nat.eqb (owner lens i) (owner lens j) then
       (if Req_EM_T (dist_on ad (obs P Xs lens i) (obs P Xs lens j)) 0 then 1 else 0) else 0).
Proof.
  intros Had Hi Hj. pose proof (da_D _ _ _ _ _ _ _ DA) as HD. destruct (grids_facts ad Had) as [_ [l HL]].
  destruct (on_grid_row ad l i Had HL Hi) as [k [Hk [Hpk Hrk]]]. destruct (on_grid_row ad l j Had HL Hj) as [e [He [Hpe Hre]]].
  assert (EG : G_of g ad = dists_of l) by (unfold G_of; now rewrite (gg_ag _ _ _ HL)).
  pose proof (axes_points_pos l (gg_ax _ _ _ HL)) as Hpp. pose proof (proj1 (gg_enc _ _ _ HL)) as Ll.
  destruct (owner_lt lens i Hi) as [O1 _]. destruct (owner_lt lens j Hj) as [O2 _]. rewrite HD in O1, O2.
  replace (nprod (a_shape (G_of g ad))) with (axes_points l) by (rewrite EG; reflexivity). set (mm := axes_points l) in *.
  rewrite (Rsum_ext _ _ (fun u => if Nat.eqb u (owner lens i * mm + k) then sp_get (W_of g ad) j u else 0)).
  2:{ intros u Hu. rewrite Hrk by exact Hu. destruct (Nat.eqb u (owner lens i * mm + k)); ring. }
  rewrite Rsum_delta by nia. rewrite Hre by nia.
  assert (HE : dist_on ad (obs P Xs lens i) (obs P Xs lens j) = 0 <-> k = e).
  { rewrite dist_on_euclid, <- Ll. split.
    - intros E0. unfold euclid in E0.
      assert (Z : Rsum (length l) (fun p => (proj ad (obs P Xs lens i) p - proj ad (obs P Xs lens j) p) ^ 2) = 0).
      { apply sqrt_eq_0; [|exact E0]. apply Rsum_nonneg. intros. apply pow2_ge_0. }
      assert (Hc : forall p, (p < length l)%nat -> grid_pt (axes_of l) k p = grid_pt (axes_of l) e p).
      { intros p Hp. rewrite <- Hpk, <- Hpe by lia.
        pose proof (Rsum_nonneg_zero (length l) (fun p => (proj ad (obs P Xs lens i) p - proj ad (obs P Xs lens j) p) ^ 2) (fun p' _ => pow2_ge_0 _) Z p Hp) as Hz. cbv beta in Hz. nra. }
      pose proof (wN_node l k e) as N1. pose proof (wN_node l e e) as N2.
      pose proof (ga_dims _ _ _ _ _ _ _ (da_args _ _ _ _ _ _ _ DA ad Had)) as Hd. rewrite <- Ll in Hd.
      specialize (N1 Hd (gg_ax _ _ _ HL) Hk He). specialize (N2 Hd (gg_ax _ _ _ HL) He He).
      rewrite (wN_ext l _ (grid_pt (axes_of l) e)) in N1 by exact Hc. rewrite N2, Nat.eqb_refl in N1.
      destruct (Nat.eqb_spec e k); [auto|lra].
    - intros ->. unfold euclid. rewrite Rsum_zero; [apply sqrt_0|]. intros p Hp. rewrite Hpk, Hpe by lia. ring. }
  destruct (Nat.eqb_spec (owner lens i) (owner lens j)) as [Eo|Eo].
  - rewrite Eo. destruct (Req_EM_T (dist_on ad (obs P Xs lens i) (obs P Xs lens j)) 0) as [E0|E0].
    + apply HE in E0. subst e. now rewrite Nat.eqb_refl.
    + destruct (Nat.eqb_spec (owner lens j * mm + k) (owner lens j * mm + e)); [|reflexivity]. exfalso. apply E0, HE. lia.
  - destruct (Nat.eqb_spec (owner lens i * mm + k) (owner lens j * mm + e)) as [E0|E0]; [|reflexivity]. exfalso. apply Eo.
    apply (f_equal (fun x => x / mm)%nat) in E0. rewrite !Nat.div_add_l, !Nat.div_small in E0 by lia. lia.
Qed.

End Grids.
