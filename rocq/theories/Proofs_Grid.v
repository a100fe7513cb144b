(** Proofs about the grid kernels. *)

From Coq Require Import Reals List Arith ZArith Lia Lra.
From Verif Require Import Base NDArray Model_Util Spec_Util Model_Fourier Model_Linalg Spec_Linalg Expr_Linalg Proofs_Util
  Proofs_Fourier Proofs_Linalg Model_Interp Model_Kern Model_FK Spec_Kern Spec_FK Proofs_Kern Proofs_FK Model_Grid Spec_Grid.
Import ListNotations.
Open Scope R_scope.

(** ** Constructors succeed on representations of fitting shapes *)

Lemma matrix_init_pos n m : (0 < n)%nat -> (0 < m)%nat -> matrix_init n m = Ok (n, m).
Proof.
  intros Hn Hm. unfold matrix_init. destruct (Nat.ltb_spec n 1), (Nat.ltb_spec m 1); try lia. reflexivity.
Qed.

Lemma kronecker_ok A B da db : represents A da -> represents B db ->
  exists o, kronecker A B = Ok o /\ represents o (d_kron da db).
Proof.
  intros HA HB. assert (E : exists o, kronecker A B = Ok o).
  { unfold kronecker. rewrite (rep_shape _ _ HA), (rep_shape _ _ HB). cbn [fst snd].
    pose proof (rep_r _ _ HA); pose proof (rep_c _ _ HA); pose proof (rep_r _ _ HB); pose proof (rep_c _ _ HB).
    rewrite matrix_init_pos by nia. cbn [bind]. eexists. reflexivity. }
  destruct E as [o E]. exists o. split; [exact E|]. eapply kronecker_rep; eassumption.
Qed.

Lemma sum_matrix_ok Ks ds r c : Forall2 represents Ks ds -> ds <> [] ->
  (forall d, In d ds -> d_r d = r /\ d_c d = c) ->
  exists o, sum_matrix Ks = Ok o /\ represents o (d_sum ds).
Proof.
  intros HF Hne Hall. assert (E : exists o, sum_matrix Ks = Ok o).
  { destruct Ks as [|K Ks]; [inversion HF; subst; congruence|].
    destruct ds as [|d ds]; [congruence|].
    assert (HK : represents K d) by (inversion HF; auto).
    assert (Hs : forall K', In K' (K :: Ks) -> shape K' = (r, c)).
    { clear - HF Hall. revert HF Hall. generalize (K :: Ks) (d :: ds). induction 1 as [|x y l l' Hxy HF IH]; intros Hall K' HK'; [destruct HK'|].
      destruct HK' as [<-|HK'].
      - rewrite (rep_shape _ _ Hxy). destruct (Hall y (or_introl eq_refl)). congruence.
      - apply IH; [intros; apply Hall; now right|assumption]. }
    unfold sum_matrix.
    replace (forallb _ (K :: Ks)) with true.
    2:{ symmetry. apply forallb_forall. intros K' HK'. rewrite (Hs K' HK'), (Hs K (or_introl eq_refl)).
        unfold shape_eqb. cbn [fst snd]. rewrite !Nat.eqb_refl. reflexivity. }
    cbn [negb]. rewrite (rep_shape _ _ HK). cbn [fst snd].
    rewrite matrix_init_pos by (apply HK). cbn [bind]. eexists. reflexivity. }
  destruct E as [o E]. exists o. split; [exact E|]. eapply sum_matrix_rep; eassumption.
Qed.

Lemma block_diag_ok Ks ds : Forall2 represents Ks ds -> ds <> [] ->
  exists o, block_diag Ks = Ok o /\ represents o (d_dsum ds).
Proof.
  intros HF Hne. assert (E : exists o, block_diag Ks = Ok o).
  { unfold block_diag.
    assert (Hpos : (0 < nsum (map (fun b => fst (shape b)) Ks) /\ 0 < nsum (map (fun b => snd (shape b)) Ks))%nat).
    { destruct HF as [|K d Ks ds HK HF]; [congruence|]. unfold nsum. cbn [map fold_right].
      rewrite (rep_shape _ _ HK). cbn [fst snd]. pose proof (rep_r _ _ HK); pose proof (rep_c _ _ HK). lia. }
    rewrite matrix_init_pos by tauto. cbn [bind].
    destruct Ks as [|K Ks]; [inversion HF; subst; congruence|].
    unfold begin_end_indices. cbn [map]. 
    destruct (accumulate (fst (shape K) :: map (fun b => fst (shape b)) Ks)) as [|x l] eqn:E1.
    { apply (f_equal (@length nat)) in E1. rewrite accumulate_length in E1. discriminate. }
    cbn [bind].
    destruct (accumulate (snd (shape K) :: map (fun b => snd (shape b)) Ks)) as [|x' l'] eqn:E2.
    { apply (f_equal (@length nat)) in E2. rewrite accumulate_length in E2. discriminate. }
    cbn [bind]. eexists. reflexivity. }
  destruct E as [o E]. exists o. split; [exact E|]. eapply block_diag_rep; eassumption.
Qed.

Lemma composition_ok Ks ds : Forall2 represents Ks ds -> ds <> [] -> chain ds ->
  exists o, composition Ks = Ok o /\ represents o (d_prod ds).
Proof.
  intros HF Hne Hch. assert (E : exists o, composition Ks = Ok o).
  { destruct HF as [|K d Ks ds HK HF]; [congruence|]. unfold composition.
    assert (HL : exists d', represents (last (K :: Ks) K) d').
    { assert (G : forall Ks ds, Forall2 represents Ks ds -> Ks <> [] -> exists d', represents (last Ks K) d').
      { clear. induction 1 as [|x y l l' Hxy HF IH]; [congruence|]. intros _. destruct l as [|z l]; [exists y; exact Hxy|].
        apply IH. discriminate. }
      apply (G (K :: Ks) (d :: ds)); [constructor; assumption|discriminate]. }
    destruct HL as [d' HL]. rewrite (rep_shape _ _ HK), (rep_shape _ _ HL). cbn [fst snd].
    rewrite matrix_init_pos; [|apply HK|apply HL]. cbn [bind]. eexists. reflexivity. }
  destruct E as [o E]. exists o. split; [exact E|]. eapply composition_rep; eassumption.
Qed.

Lemma identity_ok n : (0 < n)%nat -> exists o, identity n = Ok o /\ represents o (d_id n).
Proof.
  intros Hn. assert (E : exists o, identity n = Ok o).
  { unfold identity. rewrite matrix_init_pos by assumption. cbn [bind]. eexists. reflexivity. }
  destruct E as [o E]. exists o. split; [exact E|]. now apply identity_rep.
Qed.

Lemma bttb_ok sizes top : sizes <> [] -> (0 < nprod sizes)%nat -> length top = nprod sizes ->
  exists o, bttb_of sizes top = Ok o /\ represents o (mk_den (nprod sizes) (nprod sizes) (bttb_entry top sizes)).
Proof.
  intros Hs Hp Hl. assert (E : exists o, bttb_of sizes top = Ok o).
  { unfold bttb_of, bttb, np_len, is_1d, np_size, np1. cbn [a_shape bind length Nat.eqb negb].
    replace (nprod [length top]) with (length top) by (cbn; lia). rewrite Hl.
    destruct (Nat.eqb_spec (nprod sizes) 0); [lia|]. rewrite Nat.eqb_refl. cbn [negb].
    rewrite matrix_init_pos by lia. cbn [bind]. destruct sizes; [congruence|]. eexists. reflexivity. }
  destruct E as [o E]. exists o. split; [exact E|].
  apply (bttb_rep (np1 top)); [cbn; lia|exact E].
Qed.

Lemma concat_mk_get r c F i j : (i < r)%nat -> (j < c)%nat -> vget (concat (mk r c F)) (i * c + j) = F i j.
Proof.
  intros Hi Hj. unfold mk. rewrite concat_tab_tab by lia. unfold vget. rewrite nth_tab by nia.
  rewrite Nat.div_add_l, (Nat.div_small j c), Nat.add_0_r by lia.
  rewrite (Nat.add_comm (i * c)), Nat.mod_add, Nat.mod_small by lia. reflexivity.
Qed.

Lemma np_mat_ok r c F : (0 < r)%nat -> (0 < c)%nat ->
  exists o, np_mat r c (mk r c F) = Ok o /\ represents o (mk_den r c F).
Proof.
  intros Hr Hc. assert (E : exists o, np_mat r c (mk r c F) = Ok o).
  { unfold np_mat, numpy_matrix, np2. cbn [a_shape]. rewrite matrix_init_pos by assumption. cbn [bind]. eexists. reflexivity. }
  destruct E as [o E]. exists o. split; [exact E|].
  destruct (numpy_matrix_rep _ _ E) as [r' [c' [Es Hrep]]]. cbn in Es. injection Es as <- <-.
  eapply represents_ext; [exact Hrep|]. split; [reflexivity|]. split; [reflexivity|]. cbn [d_r d_c d_f np2 a_data].
  intros i j Hi Hj. apply concat_mk_get; assumption.
Qed.

(** ** Lists *)

Lemma map_result_ex {A B} (f : A -> result B) (Rl : A -> B -> Prop) l :
  (forall x, In x l -> exists y, f x = Ok y /\ Rl x y) -> exists ys, map_result f l = Ok ys /\ Forall2 Rl l ys.
Proof.
  induction l as [|x l IH]; intros H; [exists []; split; [reflexivity|constructor]|].
  destruct (H x (or_introl eq_refl)) as [y [E Hy]]. destruct IH as [ys [E' Hys]]; [intros; apply H; now right|].
  exists (y :: ys). cbn. rewrite E. cbn [bind]. rewrite E'. split; [reflexivity|constructor; assumption].
Qed.

Lemma map_result_combine_ex {A A' B C} (g : A' * B -> result C) (a : A -> A') (R1 : A -> B -> Prop) (R2 : A -> C -> Prop) l Ks :
  Forall2 R1 l Ks -> (forall x K, In x l -> R1 x K -> exists y, g (a x, K) = Ok y /\ R2 x y) ->
  exists ys, map_result g (combine (map a l) Ks) = Ok ys /\ Forall2 R2 l ys.
Proof.
  induction 1 as [|x K l Ks HK HF IH]; intros H; [exists []; split; [reflexivity|constructor]|].
  destruct (H x K (or_introl eq_refl) HK) as [y [E Hy]]. destruct IH as [ys [E' Hys]]; [intros; apply H; auto; now right|].
  exists (y :: ys). cbn. rewrite E. cbn [bind]. rewrite E'. split; [reflexivity|constructor; assumption].
Qed.

Lemma map_result_map {A B C} (f : B -> result C) (g : A -> B) l : map_result f (map g l) = map_result (fun x => f (g x)) l.
Proof. induction l as [|x l IH]; [reflexivity|]. cbn. rewrite IH. reflexivity. Qed.

Lemma Forall2_map_l {A A' B} (Rl : A' -> B -> Prop) (g : A -> A') l l' : Forall2 (fun x y => Rl (g x) y) l l' -> Forall2 Rl (map g l) l'.
Proof. induction 1; constructor; assumption. Qed.
Lemma Forall2_map_r {A B B'} (Rl : A -> B' -> Prop) (g : B -> B') l l' : Forall2 (fun x y => Rl x (g y)) l l' -> Forall2 Rl l (map g l').
Proof. induction 1; constructor; assumption. Qed.
Lemma Forall2_flip {A B} (Rl : A -> B -> Prop) l l' : Forall2 Rl l l' -> Forall2 (fun y x => Rl x y) l' l.
Proof. induction 1; constructor; assumption. Qed.
Lemma Forall2_impl_ {A B} (Rl Rl' : A -> B -> Prop) l l' : (forall x y, Rl x y -> Rl' x y) -> Forall2 Rl l l' -> Forall2 Rl' l l'.
Proof. intros H. induction 1; constructor; auto. Qed.
Lemma Forall2_seq_tab {A} (Rl : nat -> A -> Prop) n g : (forall i, (i < n)%nat -> Rl i (g i)) -> Forall2 Rl (seq 0 n) (tab n g).
Proof.
  intros H. assert (G : forall k s, (s + k <= n)%nat -> Forall2 Rl (seq s k) (map g (seq s k))).
  { induction k as [|k IH]; intros s Hk; cbn; [constructor|]. constructor; [apply H; lia|apply IH; lia]. }
  apply (G n 0%nat). lia.
Qed.

Lemma lsum_app l l' : lsum (l ++ l') = lsum l + lsum l'.
Proof. unfold lsum. induction l as [|x l IH]; cbn [app fold_right]; [ring|]. rewrite IH. ring. Qed.

Lemma lsum_map_ext {A} (f g : A -> R) l : (forall x, In x l -> f x = g x) -> lsum (map f l) = lsum (map g l).
Proof. intros H. f_equal. apply map_ext_in. exact H. Qed.

Lemma lsum_map_plus {A} (f g : A -> R) l : lsum (map (fun x => f x + g x) l) = lsum (map f l) + lsum (map g l).
Proof. unfold lsum. induction l as [|x l IH]; cbn [map fold_right]; [ring|]. rewrite IH. ring. Qed.

Lemma lsum_map_scal {A} c (f : A -> R) l : lsum (map (fun x => c * f x) l) = c * lsum (map f l).
Proof. unfold lsum. induction l as [|x l IH]; cbn [map fold_right]; [ring|]. rewrite IH. ring. Qed.

Lemma lsum_map_zero {A} (f : A -> R) l : (forall x, In x l -> f x = 0) -> lsum (map f l) = 0.
Proof.
  unfold lsum. induction l as [|x l IH]; intros H; cbn [map fold_right]; [ring|].
  rewrite IH by (intros; apply H; now right). rewrite H by (left; reflexivity). ring.
Qed.

Lemma lsum_map_filter {A} (p : A -> bool) (f : A -> R) l : (forall x, In x l -> p x = false -> f x = 0) ->
  lsum (map f (filter p l)) = lsum (map f l).
Proof.
  unfold lsum. induction l as [|x l IH]; intros H; cbn [map filter fold_right]; [reflexivity|].
  destruct (p x) eqn:E; cbn [map fold_right]; rewrite IH by (intros; apply H; auto; now right); [reflexivity|].
  rewrite (H x (or_introl eq_refl) E). ring.
Qed.

Lemma Rsum_lsum {A} (d : A) (F : A -> R) l : Rsum (length l) (fun t => F (nth t l d)) = lsum (map F l).
Proof.
  unfold lsum. induction l as [|x l IH]; [reflexivity|]. cbn [length]. rewrite Rsum_S_l. cbn [nth map fold_right].
  rewrite IH. reflexivity.
Qed.

(** ** Direct sums of blocks of one size *)

Lemma dsum_shape m ds : (forall d, In d ds -> d_r d = m /\ d_c d = m) ->
  d_r (d_dsum ds) = (length ds * m)%nat /\ d_c (d_dsum ds) = (length ds * m)%nat.
Proof.
  induction ds as [|d ds IH]; intros H; cbn [d_dsum d_r d_c length]; [auto|].
  destruct (H d (or_introl eq_refl)) as [-> ->]. destruct IH as [-> ->]; [intros; apply H; now right|]. split; reflexivity.
Qed.

Lemma dsum_entry m ds d0 t s t' s' : (forall d, In d ds -> d_r d = m /\ d_c d = m) ->
  (t < length ds)%nat -> (s < m)%nat -> (t' < length ds)%nat -> (s' < m)%nat ->
  d_f (d_dsum ds) (t * m + s) (t' * m + s') = if Nat.eqb t t' then d_f (nth t ds d0) s s' else 0.
Proof.
  revert t t'. induction ds as [|d ds IH]; intros t t' H Ht Hs Ht' Hs'; cbn [length] in *; [lia|].
  cbn [d_dsum d_f]. destruct (H d (or_introl eq_refl)) as [-> ->].
  destruct t as [|t], t' as [|t']; cbn [Nat.eqb nth].
  - destruct (Nat.ltb_spec (0 * m + s) m), (Nat.ltb_spec (0 * m + s') m); try lia. reflexivity.
  - destruct (Nat.ltb_spec (0 * m + s) m), (Nat.ltb_spec (S t' * m + s') m); try lia; reflexivity.
  - destruct (Nat.ltb_spec (S t * m + s) m), (Nat.ltb_spec (0 * m + s') m); try lia; reflexivity.
  - destruct (Nat.ltb_spec (S t * m + s) m), (Nat.ltb_spec (S t' * m + s') m); try lia.
    replace (S t * m + s - m)%nat with (t * m + s)%nat by lia.
    replace (S t' * m + s' - m)%nat with (t' * m + s')%nat by lia.
    apply IH; try lia; auto. intros; apply H; now right.
Qed.

Lemma divmod_eq i m : (0 < m)%nat -> i = (i / m * m + i mod m)%nat.
Proof. intros H. pose proof (Nat.div_mod i m). lia. Qed.

Lemma div_lt i n m : (0 < m)%nat -> (i < n * m)%nat -> (i / m < n)%nat.
Proof. intros Hm H. apply Nat.div_lt_upper_bound; lia. Qed.

(** ** Grids of one group *)

Lemma assert_P_ok f P : f_P f = Some P -> (0 < P)%nat -> assert_P f = Ok tt.
Proof. intros H Hp. unfold assert_P. rewrite H. destruct P; [lia|reflexivity]. Qed.

Section Grid.
Variables (f : fkernel) (P : nat) (ad : dims) (dists : ndarr).
Hypothesis Hok : fk_ok f.
Hypothesis HP : f_P f = Some P.
Hypothesis HPpos : (0 < P)%nat.
Hypothesis Hgrp : group f ad <> [].
Hypothesis Hker : kernels_ok f.
Hypothesis Hdist : dists_ok dists.

Let D := f_D f.
Let sizes := a_shape dists.
Let m := nprod sizes.
Let top q := map (k_doc (kern_of f q)) (a_data dists).
Let slc q := mk_arr sizes (top q).
Let DI : dims_ok f.
Proof. pose proof (ok_dims _ Hok) as H. rewrite HP in H. exact H. Qed.

Lemma active_group : dict_get (f_active f) ad = Ok (group f ad).
Proof. rewrite (do_active _ DI). destruct (group f ad); [congruence|reflexivity]. Qed.

Lemma eval_fixed : eval_kernels_fixed_dim f dists ad = Ok (map slc (group f ad)).
Proof.
  unfold eval_kernels_fixed_dim. rewrite active_group. cbn [bind]. apply map_result_all.
  intros q Hq. apply group_lt in Hq. destruct (Hker q Hq) as [Hpos Ht].
  fold (kern_of f q). rewrite from_dist_arr by (assumption || apply Hdist). reflexivity.
Qed.

Lemma slice_shape_ok : slice_shape (map slc (group f ad)) = sizes.
Proof. destruct (group f ad); [congruence|reflexivity]. Qed.

Lemma top_length q : length (top q) = m.
Proof. unfold top. rewrite map_length. apply Hdist. Qed.

Let Hm : (0 < m)%nat. Proof. apply Hdist. Qed.
Let HD : (0 < D)%nat. Proof. apply Hok. Qed.

Lemma bttb_top q : exists o, bttb_of sizes (top q) = Ok o /\ represents o (mk_den m m (K_grid f dists q)).
Proof. apply bttb_ok; [apply Hdist|exact Hm|apply top_length]. Qed.

Let Dm := (D * m)%nat.

Lemma sum_grid_ok : exists o, gen_sum_grid f (map slc (group f ad)) ad = Ok o /\ represents o (K_UU f dists ad).
Proof.
  unfold gen_sum_grid. rewrite slice_shape_ok, map_result_map. cbn [slc a_data].
  destruct (map_result_ex (fun q => bttb_of sizes (top q)) (fun q o => represents o (mk_den m m (K_grid f dists q))) (group f ad))
    as [Ks [EK HK]]; [intros; apply bttb_top|].
  rewrite EK. cbn [bind]. rewrite (coreg_mats_group f ad P Hok HP Hgrp). cbn [bind].
  destruct (map_result_combine_ex
     (fun AK => let! A := np_mat (f_D f) (f_D f) (fst AK) in kronecker A (snd AK))
     (fun q => mk (f_D f) (f_D f) (B_of f q)) _
     (fun q o => represents o (d_kron (mk_den D D (B_of f q)) (mk_den m m (K_grid f dists q)))) _ _ HK) as [ps [Ep Hp]].
  { intros q K _ HKq. cbn [fst snd]. destruct (np_mat_ok D D (B_of f q) HD HD) as [A [EA RA]]. fold D. rewrite EA. cbn [bind].
    apply kronecker_ok; assumption. }
  rewrite Ep. cbn [bind].
  set (ds := map (fun q => d_kron (mk_den D D (B_of f q)) (mk_den m m (K_grid f dists q))) (group f ad)).
  destruct (sum_matrix_ok ps ds Dm Dm) as [o [Eo Ro]].
  - apply Forall2_map_r, Forall2_flip. exact Hp.
  - unfold ds. destruct (group f ad); [congruence|discriminate].
  - intros d Hd. unfold ds in Hd. apply in_map_iff in Hd. destruct Hd as [q [<- _]]. split; reflexivity.
  - exists o. split; [exact Eo|]. eapply represents_ext; [exact Ro|].
    unfold ds. destruct (group f ad) as [|q0 l] eqn:EG; [congruence|].
    unfold d_eq, K_UU. cbn [map d_sum d_r d_c d_f d_kron]. fold D sizes m. split; [reflexivity|]. split; [reflexivity|].
    intros i j Hi Hj. rewrite EG. cbn [map]. f_equal. f_equal. f_equal. rewrite map_map. reflexivity.
Qed.

Lemma bttb_entry_lin (l : list nat) (c : nat -> R) i j : (i < m)%nat -> (j < m)%nat ->
  bttb_entry (tab m (fun t => lsum (map (fun q => c q * vget (top q) t) l))) sizes i j
  = lsum (map (fun q => c q * K_grid f dists q i j) l).
Proof.
  intros Hi Hj. unfold bttb_entry, K_grid. fold sizes. unfold vget at 1. rewrite nth_tab; [reflexivity|].
  apply ravel_lt, absdiffs_in; now apply unravel_in.
Qed.

Lemma combine_map_map {A B C} (g : A -> B) (h : A -> C) l : combine (map g l) (map h l) = map (fun x => (g x, h x)) l.
Proof. induction l as [|x l IH]; cbn; congruence. Qed.

Lemma B_sym q a b : B_of f q a b = B_of f q b a.
Proof.
  unfold B_of. f_equal; [apply Rsum_ext; intros; ring|].
  rewrite (Nat.eqb_sym b a). destruct (Nat.eqb_spec a b); congruence.
Qed.

Lemma bt_grid_ok : exists o, gen_bt_grid f (map slc (group f ad)) ad = Ok o /\ represents o (K_UU f dists ad).
Proof.
  unfold gen_bt_grid. rewrite (coreg_mats_group f ad P Hok HP Hgrp). cbn [bind]. rewrite slice_shape_ok, map_map.
  cbn [slc a_data]. fold D m. 
  set (bt := tensordot m _ _).
  set (Gd := fun a b => mk_den m m (fun i j => lsum (map (fun q => B_of f q a b * K_grid f dists q i j) (group f ad)))).
  assert (Hbt : forall a b, (a < D)%nat -> (b < D)%nat ->
    exists o, bttb_of sizes (bt a b) = Ok o /\ represents o (Gd a b)).
  { intros a b Ha Hb. destruct (bttb_ok sizes (bt a b)) as [o [Eo Ro]]; [apply Hdist|exact Hm|unfold bt, tensordot; apply tab_length|].
    exists o. split; [exact Eo|]. eapply represents_ext; [exact Ro|]. split; [reflexivity|]. split; [reflexivity|].
    cbn [d_r d_c d_f Gd]. fold m. intros i j Hi Hj. unfold bt, tensordot.
    rewrite combine_map_map.
    rewrite (tab_ext m _ (fun t => lsum (map (fun q => B_of f q a b * vget (top q) t) (group f ad)))).
    - apply bttb_entry_lin; assumption.
    - intros t Ht. rewrite map_map. apply lsum_map_ext. intros q _. cbn [fst snd]. rewrite mget_mk by assumption. reflexivity. }
  destruct (map_result_ex (fun i => map_result (fun j => match symm_2d_list_map (bttb_of sizes) bt D i j with Some r => r | None => Err TypeError end) (seq 0 D))
     (fun i row => Forall2 (fun j o => represents o (Gd i j)) (seq 0 D) row) (seq 0 D)) as [rows [Er Hr]].
  { intros i Hi. apply in_seq in Hi.
    apply map_result_ex. intros j Hj. apply in_seq in Hj. rewrite symm_2d_spec by lia.
    destruct (Hbt (Nat.min i j) (Nat.max i j) ltac:(lia) ltac:(lia)) as [o [Eo Ro]]. exists o. split; [exact Eo|].
    eapply represents_ext; [exact Ro|]. split; [reflexivity|]. split; [reflexivity|]. cbn [Gd d_f]. intros s t Hs Ht.
    apply lsum_map_ext. intros q _. f_equal.
    destruct (Nat.le_gt_cases i j); [rewrite Nat.min_l, Nat.max_r by lia; reflexivity|].
    rewrite Nat.min_r, Nat.max_l by lia. apply B_sym. }
  unfold collect_grid. rewrite Er. cbn [bind].
  set (G := tab D (fun i => tab D (fun j => Gd i j))).
  assert (HF : Forall2 (Forall2 (fun K d => represents K d /\ d_r d = m /\ d_c d = m)) rows G).
  { apply Forall2_flip in Hr. unfold G, tab. apply Forall2_map_r. eapply Forall2_impl_; [|exact Hr].
    intros row i Hrow. cbn beta in Hrow. apply Forall2_map_r. apply Forall2_flip in Hrow. eapply Forall2_impl_; [|exact Hrow].
    intros o j Ho. cbn beta in Ho. auto. }
  assert (E : exists o, symm_block_matrix rows = Ok o).
  { assert (Lr : length rows = D) by (rewrite <- (Forall2_len _ _ _ Hr), seq_length; reflexivity).
    assert (Lrow : forall row, In row rows -> length row = D).
    { intros row Hrow. destruct (In_nth _ _ [] Hrow) as [k [Hk Ek]]. 
      assert (Hkk : Forall2 (fun j o => represents o (Gd k j)) (seq 0 D) row).
      { clear - Hr Hk Ek Lr. rewrite <- Ek.
        assert (Q : forall l l' k d0 d1, Forall2 (fun i row => Forall2 (fun j o => represents o (Gd i j)) (seq 0 D) row) l l' ->
          (k < length l')%nat -> Forall2 (fun j o => represents o (Gd (nth k l d0) j)) (seq 0 D) (nth k l' d1)).
        { induction l as [|x l IH]; intros l' k' d0 d1 H Hk'; inversion H; subst; cbn in *; [lia|].
          destruct k'; [assumption|]. apply IH; [assumption|lia]. }
        specialize (Q _ _ k 0%nat [] Hr Hk). rewrite seq_nth in Q by lia. exact Q. }
      rewrite <- (Forall2_len _ _ _ Hkk), seq_length. reflexivity. }
    unfold symm_block_matrix. destruct rows as [|row0 rows]; [cbn in Lr; lia|].
    replace (forallb _ (row0 :: rows)) with true.
    2:{ symmetry. apply forallb_forall. intros row Hrow. rewrite (Lrow row Hrow), Lr. apply Nat.eqb_refl. }
    cbn [negb]. destruct row0 as [|b00 row0].
    { specialize (Lrow [] (or_introl eq_refl)). cbn in Lrow. lia. }
    assert (Hb : represents b00 (Gd 0%nat 0%nat)).
    { destruct D as [|D']; [lia|]. cbn in Hr. inversion Hr; subst.
      match goal with H : Forall2 _ (_ :: _) (b00 :: row0) |- _ => inversion H; subst; assumption end. }
    rewrite (rep_shape _ _ Hb). cbn [fst snd Gd d_r d_c]. rewrite Lr.
    rewrite matrix_init_pos by nia. cbn [bind]. eexists. reflexivity. }
  destruct E as [o Eo]. exists o. split; [exact Eo|].
  eapply represents_ext; [exact (symm_rep rows G m o HF Eo)|].
  assert (LG : length G = D) by apply tab_length. rewrite LG.
  unfold d_eq, d_blocks, K_UU. cbn [d_r d_c d_f]. fold D sizes m. split; [reflexivity|]. split; [reflexivity|].
  intros i j Hi Hj. unfold G. rewrite nth_tab by (apply div_lt; assumption). rewrite nth_tab by (apply div_lt; assumption).
  reflexivity.
Qed.

Lemma match_ne {A B} (l : list A) (x y : B) : l <> [] -> match l with [] => x | _ :: _ => y end = y.
Proof. destruct l; [congruence|reflexivity]. Qed.

(** *** Separated coregionalization vectors and diagonals *)

Let NI := filter_non_indep f (group f ad).
Let vecs q := nth q (f_vecs f) [].
Let prs := flat_map (fun q => map (fun row => (row, q)) (vecs q)) NI.

Lemma NI_prefix : exists indep, group f ad = NI ++ indep /\ forall q, In q indep -> is_indep f q.
Proof.
  eexists. split; [apply sorted_split, group_sorted|]. intros q Hq. apply filter_In in Hq. destruct Hq as [H1 H2].
  apply in_group in H1. apply Bool.negb_true_iff, Nat.ltb_ge in H2. unfold is_indep. lia.
Qed.

Lemma NI_lt q : In q NI -> (q < f_Q f)%nat.
Proof. intros H. apply filter_In in H. apply (group_lt f ad). apply H. Qed.

Lemma stacked_eq : concat (map vecs NI) = map fst prs.
Proof.
  unfold prs. induction NI as [|q l IH]; [reflexivity|]. cbn [map concat flat_map]. rewrite map_app, map_map, <- IH. cbn [fst].
  rewrite map_id. reflexivity.
Qed.

Lemma stacked_mx : is_mx (length prs) D (concat (map vecs NI)).
Proof.
  rewrite stacked_eq. split; [apply map_length|]. intros row Hrow. apply in_map_iff in Hrow.
  destruct Hrow as [[row' q] [<- Hin]]. cbn [fst]. apply in_flat_map in Hin. destruct Hin as [q' [Hq' Hin]].
  apply in_map_iff in Hin. destruct Hin as [r [E Hr]]. injection E as <- <-.
  destruct (ok_vec _ Hok q' (NI_lt q' Hq')) as [rk [_ Hmx]]. apply (proj2 Hmx). exact Hr.
Qed.

Lemma prs_pos : NI <> [] -> (0 < length prs)%nat.
Proof.
  unfold prs. pose proof NI_lt as HL. destruct NI as [|q l]; [congruence|]. intros _. cbn [flat_map].
  destruct (ok_vec _ Hok q (HL q (or_introl eq_refl))) as [r [Hr Hmx]]. rewrite app_length, map_length.
  fold (vecs q) in Hmx. rewrite (proj1 Hmx). lia.
Qed.

Let row_kernel (t : nat) : nat := snd (nth t prs ([], 0%nat)).
Let row_entry (t a : nat) : R := mget (concat (map vecs NI)) t a.

Lemma np_repeat_prs ded : Forall2 (fun q o => represents o (mk_den m m (K_grid f dists q))) NI ded ->
  Forall2 (fun pr o => represents o (mk_den m m (K_grid f dists (snd pr)))) prs
          (np_repeat ded (map (@length vec) (map vecs NI))).
Proof.
  unfold prs, np_repeat. induction 1 as [|q o l ded Ho HF IH]; [constructor|].
  cbn [map combine concat flat_map fst snd]. apply Forall2_app; [|exact IH].
  induction (vecs q) as [|row rows IHr]; cbn [map length repeat]; [constructor|constructor; [exact Ho|exact IHr]].
Qed.

Lemma coreg_Ks_ok (m' : nat) : NI <> [] ->
  exists o, gen_coreg_Ks f (map slc (group f ad)) m' ad = Ok o /\
    represents o (mk_den Dm Dm (fun i j => Rsum (length prs) (fun t =>
       row_entry t (i / m)%nat * K_grid f dists (row_kernel t) (i mod m)%nat (j mod m)%nat * row_entry t (j / m)%nat))).
Proof.
  intros HNI. unfold gen_coreg_Ks. rewrite active_group. cbn [bind]. fold NI.
  change (map (fun idx => nth idx (f_vecs f) []) NI) with (map vecs NI).
  pose proof (prs_pos HNI) as HR. set (Rk := length prs) in *.
  rewrite (match_ne (map vecs NI)) by (intros E; apply HNI; apply map_eq_nil in E; exact E).
  pose proof stacked_mx as HS. fold Rk in HS. set (S_ := concat (map vecs NI)) in *.
  rewrite (ncols_is_mx _ _ _ HS HR). rewrite (proj1 HS). rewrite slice_shape_ok. fold m.
  destruct (identity_ok m Hm) as [Im [EI RI]]. rewrite EI. cbn [bind].
  unfold np_T at 1. rewrite (proj1 HS).
  destruct (np_mat_ok D Rk (fun j i => mget S_ i j) HD HR) as [A [EA RA]]. rewrite EA. cbn [bind].
  destruct (kronecker_ok _ _ _ _ RA RI) as [lf [El Rl]]. rewrite El. cbn [bind].
  replace (np_T Rk (np_T D S_)) with (mk Rk D (mget S_)).
  2:{ unfold np_T at 2. rewrite (proj1 HS), np_T_mk. reflexivity. }
  destruct (np_mat_ok Rk D (mget S_) HR HD) as [B [EB RB]]. rewrite EB. cbn [bind].
  destruct (kronecker_ok _ _ _ _ RB RI) as [rt [Er Rr]]. rewrite Er. cbn [bind].
  destruct NI_prefix as [ind [EG _]].
  assert (EF : firstn (length (map vecs NI)) (map slc (group f ad)) = map slc NI).
  { rewrite EG, map_length, map_app, firstn_app, map_length, Nat.sub_diag. cbn [firstn]. rewrite app_nil_r.
    rewrite <- (map_length slc NI). apply firstn_all. }
  rewrite EF, map_result_map. cbn [slc a_shape a_data].
  destruct (map_result_ex (fun q => bttb_of sizes (top q)) (fun q o => represents o (mk_den m m (K_grid f dists q))) NI)
    as [ded [Ed Hd]]; [intros; apply bttb_top|]. rewrite Ed. cbn [bind].
  pose proof (np_repeat_prs ded Hd) as Hrp.
  set (ds := map (fun pr : vec * nat => mk_den m m (K_grid f dists (snd pr))) prs).
  assert (Hds : Forall2 represents (np_repeat ded (map (@length vec) (map vecs NI))) ds).
  { unfold ds. apply Forall2_map_r, Forall2_flip. exact Hrp. }
  assert (Hlen : length ds = Rk) by (unfold ds; apply map_length).
  assert (Hsz : forall d, In d ds -> d_r d = m /\ d_c d = m).
  { intros d H. unfold ds in H. apply in_map_iff in H. destruct H as [? [<- _]]. auto. }
  destruct (block_diag_ok _ _ Hds) as [tp [Et Rt]]; [intros E; rewrite E in Hlen; cbn in Hlen; lia|].
  rewrite Et. cbn [bind].
  destruct (dsum_shape m ds Hsz) as [Sr Sc]. rewrite Hlen in Sr, Sc.
  set (L := d_kron (mk_den D Rk (fun j i => mget S_ i j)) (d_id m)) in *.
  set (Rd := d_kron (mk_den Rk D (mget S_)) (d_id m)) in *.
  destruct (composition_ok [lf; tp; rt] [L; d_dsum ds; Rd]) as [o [Eo Ro]].
  - constructor; [exact Rl|]. constructor; [exact Rt|]. constructor; [exact Rr|constructor].
  - discriminate.
  - cbn [chain]. rewrite Sr, Sc. cbn. auto.
  - exists o. split; [exact Eo|]. eapply represents_ext; [exact Ro|].
    cbn [d_prod]. unfold d_eq. split; [reflexivity|]. split; [reflexivity|].
    cbn [d_mul d_r d_c d_f]. intros i j Hi Hj. rewrite Sc.
    change (d_r L) with (D * m)%nat in Hi. change (d_c Rd) with (D * m)%nat in Hj. change (d_c L) with (Rk * m)%nat.
    rewrite Rsum_flatten. apply Rsum_ext. intros t Ht.
    assert (Hdm : forall t s, (s < m)%nat -> ((t * m + s) / m = t /\ (t * m + s) mod m = s)%nat).
    { intros t0 s0 Hs0. split; [rewrite Nat.div_add_l, Nat.div_small by lia; lia|].
      rewrite Nat.add_comm, Nat.mod_add, Nat.mod_small by lia. reflexivity. }
    rewrite (Rsum_ext m _ (fun s => if Nat.eqb s (i mod m) then
       mget S_ t (i / m)%nat * (K_grid f dists (row_kernel t) s (j mod m)%nat * mget S_ t (j / m)%nat) else 0)).
    + rewrite Rsum_delta by (apply Nat.mod_upper_bound; lia). unfold row_entry. fold S_. ring.
    + intros s Hs. destruct (Hdm t s Hs) as [E1 E2]. unfold L at 1. cbn [d_kron d_id d_r d_c d_f]. rewrite E1, E2.
      rewrite (Nat.eqb_sym s). destruct (Nat.eqb_spec (i mod m) s) as [_|_]; [|ring].
      rewrite Rmult_1_r. f_equal. rewrite Rsum_flatten.
      rewrite (Rsum_ext Rk _ (fun t' => if Nat.eqb t t' then K_grid f dists (row_kernel t) s (j mod m)%nat * mget S_ t' (j / m)%nat else 0)).
      * rewrite Rsum_delta' by assumption. reflexivity.
      * intros t' Ht'. destruct (Nat.eqb_spec t t') as [Htt|Htt].
        -- subst t'. rewrite (Rsum_ext m _ (fun s' => if Nat.eqb s' (j mod m) then K_grid f dists (row_kernel t) s s' * mget S_ t (j / m)%nat else 0)).
           ++ rewrite Rsum_delta by (apply Nat.mod_upper_bound; lia). reflexivity.
           ++ intros s' Hs'. rewrite (dsum_entry m ds (mk_den m m (K_grid f dists 0)) t s t s') by (assumption || lia).
              rewrite Nat.eqb_refl. unfold ds at 1.
              change (mk_den m m (K_grid f dists 0)) with ((fun pr : vec * nat => mk_den m m (K_grid f dists (snd pr))) ([], 0%nat)).
              rewrite map_nth. cbn [d_f]. fold (row_kernel t).
              destruct (Hdm t s' Hs') as [E3 E4]. unfold Rd. cbn [d_kron d_id d_r d_c d_f]. rewrite E3, E4.
              unfold row_kernel, vec in *. destruct (Nat.eqb s' (j mod m)); ring.
        -- apply Rsum_zero. intros s' Hs'. rewrite (dsum_entry m ds (mk_den m m (K_grid f dists 0)) t s t' s') by (assumption || lia).
           destruct (Nat.eqb_spec t t'); [congruence|]. ring.
Qed.


Lemma lsum_flat_map {A B} (F : B -> R) (g : A -> list B) l :
  lsum (map F (flat_map g l)) = lsum (map (fun q => lsum (map F (g q))) l).
Proof.
  induction l as [|x l IH]; [reflexivity|]. cbn [flat_map map]. rewrite map_app, lsum_app, IH. reflexivity.
Qed.

Let AA q a b := Rsum (length (vecs q)) (fun r => mget (vecs q) r a * mget (vecs q) r b).

Lemma coreg_sum a b p p' :
  Rsum (length prs) (fun t => row_entry t a * K_grid f dists (row_kernel t) p p' * row_entry t b)
  = lsum (map (fun q => AA q a b * K_grid f dists q p p') (group f ad)).
Proof.
  set (F := fun pr : list R * nat => vget (fst pr) a * K_grid f dists (snd pr) p p' * vget (fst pr) b).
  rewrite (Rsum_ext _ _ (fun t => F (nth t prs ([], 0%nat)))).
  2:{ intros t Ht. unfold F, row_kernel, row_entry, mget. rewrite stacked_eq.
      change ([] : vec) with (fst (([], 0%nat) : list R * nat)). rewrite (map_nth fst). reflexivity. }
  rewrite Rsum_lsum. unfold prs. rewrite lsum_flat_map.
  transitivity (lsum (map (fun q => AA q a b * K_grid f dists q p p') NI)).
  - apply lsum_map_ext. intros q _. rewrite map_map. unfold F. cbn [fst snd]. unfold AA, mget.
    pose proof (Rsum_lsum [] (fun row : vec => vget row a * K_grid f dists q p p' * vget row b) (vecs q)) as E.
    rewrite <- Rsum_scal_r. etransitivity; [symmetry; exact E|]. apply Rsum_ext. intros r Hr. cbn beta. unfold vget, vec in *. ring.
  - unfold NI, filter_non_indep. apply lsum_map_filter. intros q Hq Hf. apply in_group in Hq. apply Nat.ltb_ge in Hf.
    unfold AA, vecs. rewrite (ok_vec_indep _ Hok q) by (unfold is_indep; lia).
    rewrite (proj1 (mk_is_mx _ _ _)). cbn [Rsum]. unfold mget, mk. cbn. 
    assert (Z : forall c, nth c (tab (f_D f) (fun _ => 0)) 0 = 0).
    { intros c. destruct (Nat.lt_ge_cases c (f_D f)); [rewrite nth_tab; auto|rewrite nth_overflow; [reflexivity|rewrite tab_length; lia]]. }
    unfold vget. rewrite Z. ring.
Qed.

Let kap q := nth q (f_diags f) [].

Lemma diag_Ks_ok (m' : nat) : has_diag f ad ->
  exists o, gen_diag_Ks f (map slc (group f ad)) m' ad = Ok o /\
    represents o (mk_den Dm Dm (fun i j =>
      if Nat.eqb (i / m) (j / m) then lsum (map (fun q => vget (kap q) (i / m)%nat * K_grid f dists q (i mod m)%nat (j mod m)%nat) (group f ad)) else 0)).
Proof.
  intros Hdg. unfold gen_diag_Ks. rewrite (do_lmc _ DI ad Hgrp). cbn [bind].
  assert (Eb : (if Nat.eqb (length (filter (fun q => (q <? f_nl f)%nat) (group f ad))) 0
                then let! ni := dict_get (f_indep f) ad in Ok (Nat.eqb ni 0) else Ok false) = Ok false).
  { rewrite (do_indep _ DI ad Hgrp). cbn [bind]. destruct (Nat.eqb_spec (length (filter (fun q => (q <? f_nl f)%nat) (group f ad))) 0) as [E|]; [|reflexivity].
    f_equal. apply Nat.eqb_neq. intros E2. destruct Hdg as [q [Hq [Hl|Hi]]].
    - apply length_zero_iff_nil in E. assert (In q (filter (fun q => (q <? f_nl f)%nat) (group f ad))) as HIn
        by (apply filter_In; split; [assumption|apply Nat.ltb_lt; exact Hl]). rewrite E in HIn. destruct HIn.
    - apply length_zero_iff_nil in E2. assert (In q (filter (fun q => negb (q <? f_nl f + f_ns f)%nat) (group f ad))) as HIn
        by (apply filter_In; split; [assumption|apply Bool.negb_true_iff, Nat.ltb_ge; unfold is_indep in Hi; lia]).
      rewrite E2 in HIn. destruct HIn. }
  rewrite Eb. cbn [bind]. rewrite active_group. cbn [bind]. rewrite map_length, Nat.eqb_refl. cbn [negb].
  rewrite slice_shape_ok. fold m D.
  change (map (fun k => nth k (f_diags f) []) (group f ad)) with (map kap (group f ad)).
  set (tops := tab D _).
  assert (Et : tops = tab D (fun d => tab m (fun t => lsum (map (fun q => vget (kap q) d * vget (top q) t) (group f ad))))).
  { unfold tops. apply tab_ext. intros d Hd. apply tab_ext. intros t Ht. rewrite combine_map_map, map_map. reflexivity. }
  rewrite Et. clear tops Et.
  set (tp := fun d => tab m (fun t => lsum (map (fun q => vget (kap q) d * vget (top q) t) (group f ad)))).
  set (Kd := fun d => mk_den m m (fun i j => lsum (map (fun q => vget (kap q) d * K_grid f dists q i j) (group f ad)))).
  unfold tab at 1. rewrite map_result_map.
  destruct (map_result_ex (fun d => bttb_of sizes (tp d)) (fun d o => represents o (Kd d)) (seq 0 D)) as [bs [Eb' Hb]].
  { intros d Hd. destruct (bttb_ok sizes (tp d)) as [o [Eo Ro]]; [apply Hdist|exact Hm|apply tab_length|].
    exists o. split; [exact Eo|]. eapply represents_ext; [exact Ro|]. split; [reflexivity|]. split; [reflexivity|].
    cbn [d_r d_c d_f Kd]. intros i j Hi Hj. apply (bttb_entry_lin (group f ad) (fun q => vget (kap q) d)); assumption. }
  change (map_result (fun x => bttb_of sizes (tab m _)) (seq 0 D)) with (map_result (fun d => bttb_of sizes (tp d)) (seq 0 D)).
  rewrite Eb'. cbn [bind].
  set (ds := tab D Kd).
  assert (Hds : Forall2 represents bs ds) by (unfold ds, tab; apply Forall2_map_r, Forall2_flip; exact Hb).
  assert (Hsz : forall d, In d ds -> d_r d = m /\ d_c d = m).
  { intros d H. unfold ds, tab in H. apply in_map_iff in H. destruct H as [? [<- _]]. auto. }
  assert (Hlen : length ds = D) by apply tab_length.
  destruct (block_diag_ok _ _ Hds) as [o [Eo Ro]]; [intros E; rewrite E in Hlen; cbn in Hlen; lia|].
  exists o. split; [exact Eo|]. eapply represents_ext; [exact Ro|].
  destruct (dsum_shape m ds Hsz) as [Sr Sc]. rewrite Hlen in Sr, Sc.
  unfold d_eq. rewrite Sr, Sc. cbn [d_r d_c d_f]. split; [reflexivity|]. split; [reflexivity|].
  intros i j Hi Hj. rewrite (divmod_eq i m Hm) at 1. rewrite (divmod_eq j m Hm) at 1.
  rewrite (dsum_entry m ds (mk_den 0 0 (fun _ _ => 0))); try assumption; try (rewrite Hlen; now apply div_lt); try (apply Nat.mod_upper_bound; lia).
  unfold ds. rewrite nth_tab by (now apply div_lt). reflexivity.
Qed.

(** Whether the 'slfm' representation has an identity matrix too many. *)
Definition extra_identity : Prop := ~ has_coreg f ad \/ ~ has_diag f ad.

Lemma NI_empty : NI = [] <-> ~ has_coreg f ad.
Proof.
  split.
  - intros E [q [Hq Hc]]. assert (In q NI) as Hin.
    { apply filter_In. split; [assumption|]. apply Nat.ltb_lt. unfold is_lmc, is_slfm in Hc. lia. }
    rewrite E in Hin. destruct Hin.
  - intros H. destruct NI as [|q l] eqn:E; [reflexivity|]. exfalso. apply H. exists q.
    assert (Hq : In q NI) by (rewrite E; now left). apply filter_In in Hq. destruct Hq as [H1 H2].
    apply Nat.ltb_lt in H2. split; [assumption|]. unfold is_lmc, is_slfm. lia.
Qed.

Lemma has_coreg_dec : has_coreg f ad \/ ~ has_coreg f ad.
Proof. destruct NI as [|q l] eqn:E; [right; now apply NI_empty|]. left. 
  assert (Hq : In q NI) by (rewrite E; now left). apply filter_In in Hq. destruct Hq as [H1 H2].
  apply Nat.ltb_lt in H2. exists q. split; [assumption|]. unfold is_lmc, is_slfm. lia.
Qed.

Lemma has_diag_dec : has_diag f ad \/ ~ has_diag f ad.
Proof.
  destruct (filter (fun q => (Nat.ltb q (f_nl f) || negb (Nat.ltb q (f_nl f + f_ns f)))%bool) (group f ad)) as [|q l] eqn:E.
  - right. intros [q [Hq Hd]].
    assert (Hin : In q (filter (fun q => (Nat.ltb q (f_nl f) || negb (Nat.ltb q (f_nl f + f_ns f)))%bool) (group f ad))).
    { apply filter_In. split; [assumption|]. apply Bool.orb_true_iff. destruct Hd as [Hd|Hd]; [left; apply Nat.ltb_lt; exact Hd|right].
      apply Bool.negb_true_iff, Nat.ltb_ge. unfold is_indep in Hd. lia. }
    rewrite E in Hin. destruct Hin.
  - left. exists q. assert (Hin : In q (q :: l)) by now left. rewrite <- E in Hin. apply filter_In in Hin. destruct Hin as [H1 H2].
    split; [assumption|]. apply in_group in H1. apply Bool.orb_true_iff in H2. unfold is_lmc, is_indep. destruct H2 as [H2|H2].
    + apply Nat.ltb_lt in H2. lia.
    + apply Bool.negb_true_iff, Nat.ltb_ge in H2. lia.
Qed.

Lemma no_diag_Ks (m' : nat) : ~ has_diag f ad -> gen_diag_Ks f (map slc (group f ad)) m' ad = identity m'.
Proof.
  intros Hn. unfold gen_diag_Ks. rewrite (do_lmc _ DI ad Hgrp), (do_indep _ DI ad Hgrp). cbn [bind].
  assert (Z : forall (p : nat -> bool) l, (forall q, In q l -> p q = false) -> filter p l = []).
  { induction l as [|x l IH]; intros H; [reflexivity|]. cbn. rewrite H by (left; reflexivity). apply IH. intros; apply H; now right. }
  rewrite !Z; [reflexivity| |].
  - intros q Hq. apply Bool.negb_false_iff. destruct (Nat.ltb_spec q (f_nl f + f_ns f)); [reflexivity|]. exfalso. apply Hn. exists q.
    split; [assumption|]. right. apply in_group in Hq. unfold is_indep. lia.
  - intros q Hq. destruct (Nat.ltb_spec q (f_nl f)); [|reflexivity]. exfalso. apply Hn. exists q. split; [assumption|]. left. assumption.
Qed.

Lemma no_diag_kappa q d : ~ has_diag f ad -> In q (group f ad) -> vget (kap q) d = 0.
Proof.
  intros Hn Hq. unfold kap. rewrite (ok_diag_slfm _ Hok q).
  - unfold vget. destruct (Nat.lt_ge_cases d (f_D f)); [now apply nth_repeat_in|apply nth_overflow; rewrite repeat_length; lia].
  - unfold is_slfm. pose proof (proj1 (in_group _ _ _) Hq) as [Hlt _].
    split; apply Nat.nlt_ge || apply Nat.nle_gt; intros Hx; apply Hn; exists q; (split; [assumption|]); [left|right]; unfold is_lmc, is_indep; lia.
Qed.

Lemma slfm_grid_ok : exists o, gen_slfm_grid f (map slc (group f ad)) Dm ad = Ok o /\
  (has_coreg f ad -> has_diag f ad -> represents o (K_UU f dists ad)) /\
  (~ has_coreg f ad \/ ~ has_diag f ad -> represents o (d_sum [K_UU f dists ad; d_id Dm])).
Proof.
  assert (HDm : (0 < Dm)%nat) by (unfold Dm; nia).
  assert (KE : forall i j, d_f (K_UU f dists ad) i j =
     lsum (map (fun q => AA q (i / m)%nat (j / m)%nat * K_grid f dists q (i mod m)%nat (j mod m)%nat) (group f ad))
     + if Nat.eqb (i / m) (j / m) then lsum (map (fun q => vget (kap q) (i / m)%nat * K_grid f dists q (i mod m)%nat (j mod m)%nat) (group f ad)) else 0).
  { intros i j. unfold K_UU. cbn [d_f]. fold sizes m. destruct (Nat.eqb_spec (i / m) (j / m)) as [E|E].
    - rewrite <- lsum_map_plus. apply lsum_map_ext. intros q _. unfold B_of. fold (vecs q) (kap q).
      fold (AA q (i / m)%nat (j / m)%nat). rewrite (proj2 (Nat.eqb_eq _ _) E). ring.
    - rewrite Rplus_0_r. apply lsum_map_ext. intros q _. unfold B_of. fold (vecs q) (kap q).
      fold (AA q (i / m)%nat (j / m)%nat). rewrite (proj2 (Nat.eqb_neq _ _) E). ring. }
  assert (C : exists c, gen_coreg_Ks f (map slc (group f ad)) Dm ad = Ok c /\
     ((has_coreg f ad -> represents c (mk_den Dm Dm (fun i j =>
        lsum (map (fun q => AA q (i / m)%nat (j / m)%nat * K_grid f dists q (i mod m)%nat (j mod m)%nat) (group f ad))))) /\
      (~ has_coreg f ad -> represents c (d_id Dm)))).
  { destruct has_coreg_dec as [H|H].
    - destruct (coreg_Ks_ok Dm) as [c [Ec Rc]]; [intros E; apply NI_empty in E; tauto|]. exists c. split; [exact Ec|].
      split; [|tauto]. intros _. eapply represents_ext; [exact Rc|]. split; [reflexivity|]. split; [reflexivity|].
      cbn [d_r d_c d_f]. intros i j Hi Hj. apply coreg_sum.
    - destruct (identity_ok Dm HDm) as [c [Ec Rc]]. exists c. split; [|split; [tauto|auto]].
      unfold gen_coreg_Ks. rewrite active_group. cbn [bind]. fold NI. apply NI_empty in H. rewrite H. exact Ec. }
  assert (Dg : exists c, gen_diag_Ks f (map slc (group f ad)) Dm ad = Ok c /\
     ((has_diag f ad -> represents c (mk_den Dm Dm (fun i j =>
        if Nat.eqb (i / m) (j / m) then lsum (map (fun q => vget (kap q) (i / m)%nat * K_grid f dists q (i mod m)%nat (j mod m)%nat) (group f ad)) else 0))) /\
      (~ has_diag f ad -> represents c (d_id Dm)))).
  { destruct has_diag_dec as [H|H].
    - destruct (diag_Ks_ok Dm H) as [c [Ec Rc]]. exists c. split; [exact Ec|]. split; [auto|tauto].
    - destruct (identity_ok Dm HDm) as [c [Ec Rc]]. exists c. split; [rewrite (no_diag_Ks Dm H); exact Ec|]. split; [tauto|auto]. }
  destruct C as [c [Ec [C1 C2]]]. destruct Dg as [d [Ed [D1 D2]]].
  unfold gen_slfm_grid. rewrite Ec, Ed. cbn [bind].
  destruct has_coreg_dec as [Hc|Hc], has_diag_dec as [Hd|Hd].
  - specialize (C1 Hc). specialize (D1 Hd).
    edestruct (sum_matrix_ok [c; d]) as [o [Eo Ro]];
      [constructor; [exact C1|constructor; [exact D1|constructor]]|discriminate|
       intros x [<-|[<-|[]]]; split; reflexivity|].
    exists o. split; [exact Eo|]. split; [intros _ _|tauto]. eapply represents_ext; [exact Ro|].
    split; [reflexivity|]. split; [reflexivity|]. intros i j Hi Hj. rewrite KE. cbn [d_sum d_f map].
    match goal with |- lsum [?a; ?b] = _ => change (lsum [a; b]) with (a + (b + 0)) end. cbv beta. ring.
  - specialize (C1 Hc). specialize (D2 Hd).
    edestruct (sum_matrix_ok [c; d]) as [o [Eo Ro]];
      [constructor; [exact C1|constructor; [exact D2|constructor]]|discriminate|
       intros x [<-|[<-|[]]]; split; reflexivity|].
    exists o. split; [exact Eo|]. split; [tauto|intros _]. eapply represents_ext; [exact Ro|].
    split; [reflexivity|]. split; [reflexivity|]. intros i j Hi Hj.
    cbn [d_sum d_f map]. match goal with |- lsum [?a; ?b] = lsum [?c; ?d] => change (a + (b + 0) = c + (d + 0)) end.
    rewrite KE. cbv beta.
    rewrite (lsum_map_zero (fun q => vget (kap q) (i / m)%nat * K_grid f dists q (i mod m)%nat (j mod m)%nat))
      by (intros q Hq; rewrite no_diag_kappa by assumption; ring).
    cbn [d_f d_id]. destruct (Nat.eqb (i / m) (j / m)), (Nat.eqb i j); unfold lsum; ring.
  - specialize (C2 Hc). specialize (D1 Hd).
    edestruct (sum_matrix_ok [c; d]) as [o [Eo Ro]];
      [constructor; [exact C2|constructor; [exact D1|constructor]]|discriminate|
       intros x [<-|[<-|[]]]; split; reflexivity|].
    exists o. split; [exact Eo|]. split; [tauto|intros _]. eapply represents_ext; [exact Ro|].
    split; [reflexivity|]. split; [reflexivity|]. intros i j Hi Hj.
    cbn [d_sum d_f map]. match goal with |- lsum [?a; ?b] = lsum [?c; ?d] => change (a + (b + 0) = c + (d + 0)) end.
    rewrite KE. cbv beta.
    assert (Z : lsum (map (fun q => AA q (i / m)%nat (j / m)%nat * K_grid f dists q (i mod m)%nat (j mod m)%nat) (group f ad)) = 0).
    { rewrite <- coreg_sum. unfold prs. apply NI_empty in Hc. rewrite Hc. reflexivity. }
    rewrite Z. cbn [d_f d_id]. destruct (Nat.eqb i j); ring.
  - exfalso. destruct (group f ad) as [|q l] eqn:EG; [congruence|].
    assert (Hq : In q (group f ad)) by (rewrite EG; now left). pose proof (proj1 (in_group _ _ _) Hq) as [Hlt _].
    destruct (Nat.lt_ge_cases q (f_nl f + f_ns f)).
    + apply Hc. exists q. split; [assumption|]. unfold is_lmc, is_slfm. lia.
    + apply Hd. exists q. split; [assumption|]. right. unfold is_indep. lia.
Qed.


Lemma total_rank_eq : total_rank f ad = Ok (coreg_rank f ad).
Proof.
  unfold total_rank. rewrite (assert_P_ok f P HP HPpos). cbn [bind]. rewrite active_group. cbn [bind]. f_equal.
Qed.

Lemma filter_nil_iff {A} (p : A -> bool) l : filter p l = [] <-> forall x, In x l -> p x = false.
Proof.
  induction l as [|x l IH]; cbn; [split; [intros _ ? []|reflexivity]|]. destruct (p x) eqn:E.
  - split; [discriminate|]. intros H. rewrite (H x) in E by auto. discriminate.
  - rewrite IH. split; [intros H y [<-|Hy]; auto|auto].
Qed.

Lemma no_coreg_rank : ~ has_coreg f ad -> coreg_rank f ad = 0%nat.
Proof.
  intros H. unfold coreg_rank. assert (G : forall q, In q (group f ad) -> Nat.ltb q (f_nl f + f_ns f) = false).
  { intros q Hq. destruct (Nat.ltb_spec q (f_nl f + f_ns f)); [|reflexivity]. exfalso. apply H. exists q. split; [assumption|].
    unfold is_lmc, is_slfm. lia. }
  clear - G. revert G. generalize (group f ad) as l. induction l as [|q l IH]; intros G; [reflexivity|]. unfold nsum in *. cbn [map fold_right].
  rewrite G by now left. rewrite IH by (intros; apply G; now right). reflexivity.
Qed.

Lemma no_diag_bool :
  (if Nat.eqb (length (filter (fun q => (q <? f_nl f)%nat) (group f ad))) 0
   then Nat.eqb (length (filter (fun q => negb (q <? f_nl f + f_ns f)%nat) (group f ad))) 0 else false) = true
  <-> ~ has_diag f ad.
Proof.
  split.
  - intros H [q [Hq Hd]].
    destruct (Nat.eqb_spec (length (filter (fun q => (q <? f_nl f)%nat) (group f ad))) 0) as [E|]; [|discriminate].
    apply Nat.eqb_eq in H. apply length_zero_iff_nil in E, H. rewrite filter_nil_iff in E, H.
    specialize (E q Hq). specialize (H q Hq). cbv beta in E, H. apply Nat.ltb_ge in E. apply Bool.negb_false_iff, Nat.ltb_lt in H.
    unfold is_lmc, is_indep in Hd. lia.
  - intros H. assert (E1 : filter (fun q => (q <? f_nl f)%nat) (group f ad) = []).
    { apply filter_nil_iff. intros q Hq. apply Nat.ltb_ge. apply Nat.nlt_ge. intros Hl. apply H. exists q. split; [assumption|]. now left. }
    assert (E2 : filter (fun q => negb (q <? f_nl f + f_ns f)%nat) (group f ad) = []).
    { apply filter_nil_iff. intros q Hq. apply Bool.negb_false_iff, Nat.ltb_lt. apply Nat.nle_gt. intros Hl. apply H. exists q.
      split; [assumption|]. right. apply in_group in Hq. unfold is_indep. lia. }
    rewrite E1, E2. reflexivity.
Qed.

Lemma choose_ok : exists kt, choose_ktype f ad = Ok kt /\
  (kt = KtSlfm /\ (~ has_coreg f ad \/ ~ has_diag f ad) <-> surplus f ad).
Proof.
  unfold choose_ktype, surplus. pose proof (ok_D _ Hok) as Hd.
  destruct (Nat.eqb_spec (f_Q f) 1) as [E|E].
  { exists KtSum. split; [reflexivity|]. split; [intros [H _]; discriminate|tauto]. }
  rewrite total_rank_eq. cbn [bind]. rewrite (do_lmc _ DI ad Hgrp), (do_indep _ DI ad Hgrp). cbn [bind].
  pose proof no_diag_bool as NB.
  destruct (Nat.eqb (length (filter (fun q => (q <? f_nl f)%nat) (group f ad))) 0);
    [destruct (Nat.eqb (length (filter (fun q => negb (q <? f_nl f + f_ns f)%nat) (group f ad))) 0)|]; cbn [bind];
    (eexists; split; [reflexivity|]).
  - assert (Hn : ~ has_diag f ad) by (apply NB; reflexivity).
    assert (Hc : has_coreg f ad).
    { destruct has_coreg_dec as [|Hc]; [assumption|]. exfalso. destruct (group f ad) as [|q l] eqn:EG; [congruence|].
      assert (Hq : In q (group f ad)) by (rewrite EG; now left). pose proof (proj1 (in_group _ _ _) Hq) as [Hlt _].
      destruct (Nat.lt_ge_cases q (f_nl f + f_ns f)).
      + apply Hc. exists q. split; [assumption|]. unfold is_lmc, is_slfm. lia.
      + apply Hn. exists q. split; [assumption|]. right. unfold is_indep. lia. }
    destruct (Nat.ltb_spec (coreg_rank f ad + f_D f) (f_D f * f_D f + f_D f)).
    + split; [intros _; split; [assumption|]; right; split; [assumption|lia]|intros _; split; [reflexivity|tauto]].
    + split; [intros [H1 _]; discriminate|]. intros [_ [[H1 _]|[_ H1]]]; [tauto|lia].
  - assert (Hn : has_diag f ad) by (destruct has_diag_dec as [|Hn]; [assumption|apply NB in Hn; discriminate]).
    destruct (Nat.ltb_spec (coreg_rank f ad + f_D f) (f_D f * f_D f + 0)).
    + split.
      * intros [_ [Hc|Hc]]; [|tauto]. split; [assumption|]. left. split; [assumption|]. rewrite no_coreg_rank in H by assumption. nia.
      * intros [_ [[Hc _]|[Hc _]]]; [|tauto]. split; [reflexivity|tauto].
    + split; [intros [H1 _]; discriminate|]. intros [_ [[H1 H2]|[H1 _]]]; [|tauto]. rewrite no_coreg_rank in H by assumption. nia.
  - assert (Hn : has_diag f ad) by (destruct has_diag_dec as [|Hn]; [assumption|apply NB in Hn; discriminate]).
    destruct (Nat.ltb_spec (coreg_rank f ad + f_D f) (f_D f * f_D f + 0)).
    + split.
      * intros [_ [Hc|Hc]]; [|tauto]. split; [assumption|]. left. split; [assumption|]. rewrite no_coreg_rank in H by assumption. nia.
      * intros [_ [[Hc _]|[Hc _]]]; [|tauto]. split; [reflexivity|tauto].
    + split; [intros [H1 _]; discriminate|]. intros [_ [[H1 H2]|[H1 _]]]; [|tauto]. rewrite no_coreg_rank in H by assumption. nia.
Qed.

Lemma ski_ok K W WT d : represents K d -> (0 < sp_r W)%nat -> sp_c W = d_r d -> d_c d = sp_c W ->
  interp_ok (sp_r W) (sp_c W) W WT ->
  exists o, ski K W WT = Ok o /\ represents o (ski_den W d).
Proof.
  intros HK Hr Hc Hc2 [_ _ I3 I4 I5].
  assert (Hp : (0 < sp_c W)%nat) by (rewrite Hc; exact (rep_r _ _ HK)).
  assert (E : exists o, ski K W WT = Ok o).
  { unfold ski. unfold wrap at 1. cbn [fst snd]. rewrite matrix_init_pos by assumption. cbn [bind].
    unfold wrap at 1. cbn [fst snd]. rewrite matrix_init_pos by (rewrite ?I3, ?I4; assumption). cbn [bind].
    edestruct composition_ok as [o [Eo _]]; [| | |rewrite Eo; cbn [bind]; eexists; reflexivity].
    - constructor; [eapply (wrap_rep _ _ (W_den W)); [reflexivity|intros; reflexivity|unfold wrap; cbn [fst snd]; rewrite matrix_init_pos by assumption; reflexivity]|].
      constructor; [exact HK|]. constructor; [|constructor].
      eapply (wrap_rep (sp_r WT, sp_c WT) (sp_dot1 WT) (W_den WT)); [reflexivity|intros; reflexivity|].
      unfold wrap; cbn [fst snd]; rewrite matrix_init_pos by (rewrite ?I3, ?I4; assumption). reflexivity.
    - discriminate.
    - cbn. rewrite I3. auto. }
  destruct E as [o E]. exists o. split; [exact E|]. eapply ski_rep; try eassumption.
Qed.

Lemma grid_kernel_ok W WT n kt : (0 < n)%nat -> interp_ok n Dm W WT ->
  exists o, grid_kernel f dists W WT kt ad = Ok o /\
    (~ (kt = KtSlfm /\ (~ has_coreg f ad \/ ~ has_diag f ad)) ->
       represents (gk_grid o) (K_UU f dists ad) /\ represents (gk_mat o) (ski_den W (K_UU f dists ad))) /\
    (kt = KtSlfm /\ (~ has_coreg f ad \/ ~ has_diag f ad) ->
       represents (gk_grid o) (d_sum [K_UU f dists ad; d_id Dm]) /\
       represents (gk_mat o) (ski_den W (d_sum [K_UU f dists ad; d_id Dm]))).
Proof.
  intros Hn HI. pose proof HI as [I1 I2 I3 I4 I5]. unfold grid_kernel. rewrite I1, I2. rewrite matrix_init_pos by assumption. cbn [bind].
  rewrite eval_fixed. cbn [bind].
  assert (HI' : interp_ok (sp_r W) (sp_c W) W WT) by (rewrite I1, I2; exact HI).
  assert (G : forall g d, represents g d -> d_r d = Dm -> d_c d = Dm ->
     exists k, ski g W WT = Ok k /\ represents (mk_mat (n, n) (matvec k) (default_matmat n (matvec k))
       (default_as_numpy n (default_matmat n (matvec k))) (Err AttributeError)) (ski_den W d)).
  { intros g d Hg Er Ec. destruct (ski_ok g W WT d) as [k [Ek Rk]]; try assumption; try (rewrite I1; assumption); try congruence.
    exists k. split; [exact Ek|]. assert (S1 : d_r (ski_den W d) = n) by (cbn; exact I1). assert (S2 : d_c (ski_den W d) = n) by (cbn; exact I1).
    pose proof (rep_mv _ _ Rk) as M.
    assert (MM : forall X k0, is_mx (d_c (ski_den W d)) k0 X ->
        default_matmat n (matvec k) X = d_times (ski_den W d) k0 X).
    { intros X k0 HX. rewrite <- S1. apply default_matmat_ok; [exact (rep_c _ _ Rk)|exact M|exact HX]. }
    apply (represents_default2 (ski_den W d) (n, n)); auto; try (rewrite S1, S2; reflexivity); try (rewrite ?S1, ?S2; assumption). }
  destruct kt; cbn [bind].
  - destruct sum_grid_ok as [g [Eg Rg]]. rewrite Eg. cbn [bind].
    destruct (G g _ Rg) as [k [Ek Rk]]; [reflexivity|reflexivity|]. rewrite Ek. cbn [bind fst snd].
    eexists. split; [reflexivity|]. split; [intros _|intros [H _]; discriminate]. split; [exact Rg|exact Rk].
  - destruct bt_grid_ok as [g [Eg Rg]]. rewrite Eg. cbn [bind].
    destruct (G g _ Rg) as [k [Ek Rk]]; [reflexivity|reflexivity|]. rewrite Ek. cbn [bind fst snd].
    eexists. split; [reflexivity|]. split; [intros _|intros [H _]; discriminate]. split; [exact Rg|exact Rk].
  - destruct slfm_grid_ok as [g [Eg [R1 R2]]]. rewrite Eg. cbn [bind].
    destruct has_coreg_dec as [Hc|Hc]; [destruct has_diag_dec as [Hd|Hd]|].
    + specialize (R1 Hc Hd). destruct (G g _ R1) as [k [Ek Rk]]; [reflexivity|reflexivity|]. rewrite Ek. cbn [bind fst snd].
      eexists. split; [reflexivity|]. split; [intros _; split; [exact R1|exact Rk]|tauto].
    + specialize (R2 (or_intror Hd)). destruct (G g _ R2) as [k [Ek Rk]]; [reflexivity|reflexivity|]. rewrite Ek. cbn [bind fst snd].
      eexists. split; [reflexivity|]. split; [tauto|intros _; split; [exact R2|exact Rk]].
    + specialize (R2 (or_introl Hc)). destruct (G g _ R2) as [k [Ek Rk]]; [reflexivity|reflexivity|]. rewrite Ek. cbn [bind fst snd].
      eexists. split; [reflexivity|]. split; [tauto|intros _; split; [exact R2|exact Rk]].
Qed.

End Grid.
