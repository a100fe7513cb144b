(** Every linalg class computes with the matrix it stands for. *)

From Coq Require Import Reals List Arith Lia Lra.
From Verif Require Import Base NDArray Model_Util Spec_Util Model_Fourier Model_Linalg Spec_Linalg
  Expr_Linalg Proofs_Util Proofs_Fourier.
Import ListNotations.
Open Scope R_scope.

(** [o] computes with the matrix [d]. *)
Record represents (o : Mat) (d : den) : Prop := {
  rep_shape : shape o = (d_r d, d_c d);
  rep_r : (0 < d_r d)%nat;
  rep_c : (0 < d_c d)%nat;
  rep_mv : forall x, length x = d_c d -> matvec o x = d_apply d x;
  rep_mm : forall X k, is_mx (d_c d) k X -> matmat o X = d_times d k X;
  rep_np : as_numpy o = d_dense d
}.

(** ** Generalities *)

Lemma matrix_init_ok n m s : matrix_init n m = Ok s -> s = (n, m) /\ (0 < n)%nat /\ (0 < m)%nat.
Proof.
  unfold matrix_init. destruct (Nat.ltb_spec n 1), (Nat.ltb_spec m 1); simpl; try discriminate.
  intros H'. injection H' as <-. repeat split; lia.
Qed.

Lemma bind_ok {A B} (x : result A) (f : A -> result B) b :
  bind x f = Ok b -> exists a, x = Ok a /\ f a = Ok b.
Proof. destruct x; simpl; [eauto|discriminate]. Qed.

Lemma Ok_inj {A} (a b : A) : Ok a = Ok b -> a = b.
Proof. congruence. Qed.

Lemma default_matmat_ok (d : den) mv X k :
  (0 < d_c d)%nat ->
  (forall x, length x = d_c d -> mv x = d_apply d x) ->
  is_mx (d_c d) k X ->
  default_matmat (d_r d) mv X = d_times d k X.
Proof.
  intros Hc Hmv HX. unfold default_matmat, d_times.
  rewrite (ncols_is_mx _ _ _ HX Hc).
  set (XT := np_T k X).
  assert (HXT : XT = mk k (d_c d) (fun j i => mget X i j)).
  { unfold XT, np_T. destruct HX as [-> _]. reflexivity. }
  rewrite HXT. unfold mk at 1. rewrite map_tab.
  rewrite (tab_ext k _ (fun j => tab (d_r d) (fun i =>
     Rsum (d_c d) (fun l => d_f d i l * mget X l j)))).
  - change (np_T (d_r d) (mk k (d_r d) (fun j i => Rsum (d_c d) (fun l => d_f d i l * mget X l j)))
            = mk (d_r d) k (fun i l => Rsum (d_c d) (fun j => d_f d i j * mget X j l))).
    rewrite np_T_mk. reflexivity.
  - intros j Hj. rewrite Hmv by apply tab_length.
    unfold d_apply, mat_apply. apply tab_ext. intros i Hi.
    apply Rsum_ext. intros l Hl. rewrite vget_tab by auto. reflexivity.
Qed.

Lemma np_identity_is n : is_mx n n (np_identity n).
Proof. apply mk_is_mx. Qed.

Lemma d_times_identity d : (0 < d_c d)%nat -> d_times d (d_c d) (np_identity (d_c d)) = d_dense d.
Proof.
  intros Hc. unfold d_times, d_dense. apply mk_ext. intros i j Hi Hj.
  rewrite (Rsum_ext _ _ (fun l => if Nat.eqb l j then d_f d i l else 0)).
  - apply Rsum_delta. auto.
  - intros l Hl. unfold np_identity. rewrite mget_mk by auto.
    destruct (Nat.eqb l j); ring.
Qed.

(** A record filled with the inherited [matmat]. *)
Lemma represents_default d s mv np eb :
  s = (d_r d, d_c d) -> (0 < d_r d)%nat -> (0 < d_c d)%nat ->
  (forall x, length x = d_c d -> mv x = d_apply d x) ->
  np = d_dense d ->
  represents (mk_mat s mv (default_matmat (fst s) mv) np eb) d.
Proof.
  intros -> Hr Hc Hmv Hnp. split; simpl; auto.
  intros X k HX. apply default_matmat_ok; auto.
Qed.

(** ... and the inherited [as_numpy]. *)
Lemma represents_default2 d s mv mm eb :
  s = (d_r d, d_c d) -> (0 < d_r d)%nat -> (0 < d_c d)%nat ->
  (forall x, length x = d_c d -> mv x = d_apply d x) ->
  (forall X k, is_mx (d_c d) k X -> mm X = d_times d k X) ->
  represents (mk_mat s mv mm (default_as_numpy (snd s) mm) eb) d.
Proof.
  intros -> Hr Hc Hmv Hmm. split; simpl; auto.
  unfold default_as_numpy. rewrite (Hmm _ (d_c d)) by apply np_identity_is.
  now apply d_times_identity.
Qed.

Lemma d_apply_length d x : length (d_apply d x) = d_r d.
Proof. apply tab_length. Qed.

Lemma represents_ext o d d' : represents o d -> d_eq d d' -> represents o d'.
Proof.
  intros [Hs Hr Hc Hmv Hmm Hnp] [Er [Ec Ef]].
  split.
  - congruence.
  - now rewrite <- Er.
  - now rewrite <- Ec.
  - rewrite <- Ec. intros x Hx. rewrite Hmv by auto. unfold d_apply, mat_apply.
    rewrite <- Er, <- Ec. apply tab_ext. intros i Hi. apply Rsum_ext. intros j Hj. now rewrite Ef.
  - rewrite <- Ec. intros X k HX. rewrite (Hmm _ k) by auto. unfold d_times. rewrite <- Er, <- Ec.
    apply mk_ext. intros i l Hi Hl. apply Rsum_ext. intros j Hj. now rewrite Ef.
  - rewrite Hnp. unfold d_dense. rewrite <- Er, <- Ec. apply mk_ext. auto.
Qed.

(** ** Leaves *)

Lemma toeplitz_rep top o :
  length (a_data top) = nprod (a_shape top) -> toeplitz top = Ok o ->
  represents o (mk_den (length (a_data top)) (length (a_data top)) (toep_entry (a_data top))).
Proof.
  intros Hd H. unfold toeplitz in H. apply bind_ok in H. destruct H as [n [Hn H]].
  unfold np_len in Hn. unfold is_1d, np_size in H.
  destruct (a_shape top) as [|m sh] eqn:Esh; [discriminate|].
  injection Hn as ->. destruct sh; simpl in H; [|discriminate].
  rewrite Nat.mul_1_r in H. destruct (Nat.eqb_spec n 0); [discriminate|].
  apply bind_ok in H. destruct H as [s [Hs H]]. apply matrix_init_ok in Hs.
  destruct Hs as [-> [Hp _]]. injection H as <-.
  simpl in Hd. rewrite Nat.mul_1_r in Hd.
  apply represents_default; cbn [d_r d_c d_f]; auto; try lia.
  intros x Hx. unfold d_apply. simpl. apply toeplitz_matvec_ok; auto. lia.
Qed.

Lemma bttb_rep top sizes o :
  length (a_data top) = nprod (a_shape top) -> bttb top sizes = Ok o ->
  represents o (mk_den (nprod sizes) (nprod sizes) (bttb_entry (a_data top) sizes)).
Proof.
  intros Hd H. unfold bttb in H. apply bind_ok in H. destruct H as [n [Hn H]].
  unfold np_len in Hn. unfold is_1d, np_size in H.
  destruct (a_shape top) as [|m sh] eqn:Esh; [discriminate|].
  injection Hn as ->. destruct sh; simpl in H; [|discriminate].
  rewrite Nat.mul_1_r in H. destruct (Nat.eqb_spec n 0); [discriminate|].
  destruct (Nat.eqb_spec (nprod sizes) n) as [Hp|]; [|discriminate]. simpl in H.
  apply bind_ok in H. destruct H as [s [Hs H]]. apply matrix_init_ok in Hs.
  destruct Hs as [-> [Hn0 _]].
  destruct sizes as [|z0 zs]; [discriminate|]. set (sizes := z0 :: zs) in *.
  injection H as <-. simpl in Hd. rewrite Nat.mul_1_r in Hd.
  assert (Hpos : forall k, In k sizes -> (0 < k)%nat).
  { intros k Hk. apply (nprod_pos_inv sizes); auto. rewrite Hp. auto. }
  apply (represents_default (mk_den (nprod sizes) (nprod sizes) (bttb_entry (a_data top) sizes))).
  - cbn [d_r d_c]. now rewrite Hp.
  - cbn [d_r]. lia.
  - cbn [d_c]. lia.
  - intros x Hx. unfold d_apply. cbn [d_r d_c d_f]. apply bttb_matvec_ok; [discriminate|auto].
  - unfold d_dense. cbn [d_r d_c d_f]. apply bttb_as_numpy_ok; auto. lia.
Qed.

Lemma diag_rep v o :
  length (a_data v) = nprod (a_shape v) -> diag v = Ok o -> represents o (d_diag (a_data v)).
Proof.
  intros Hd H. unfold diag in H. apply bind_ok in H. destruct H as [n [Hn H]].
  unfold np_len in Hn. unfold is_1d in H.
  destruct (a_shape v) as [|m sh] eqn:Esh; [discriminate|]. injection Hn as ->.
  apply bind_ok in H. destruct H as [s [Hs H]]. apply matrix_init_ok in Hs.
  destruct Hs as [-> [Hn0 _]]. destruct sh; simpl in H; [|discriminate]. injection H as <-.
  simpl in Hd. rewrite Nat.mul_1_r in Hd. set (d := a_data v) in *.
  split; simpl; auto; try lia.
  - intros x Hx. unfold d_apply, mat_apply. simpl.
    rewrite (vec_as_tab x), (vec_as_tab d) at 1. rewrite Hx, combine_tab, map_tab.
    apply tab_ext. intros i Hi. simpl.
    rewrite (Rsum_ext _ _ (fun j => if Nat.eqb j i then vget d i * vget x j else 0)).
    + rewrite (Rsum_delta _ i (fun j => vget d i * vget x j)) by auto. ring.
    + intros j Hj. rewrite (Nat.eqb_sym j i). destruct (Nat.eqb i j); ring.
  - intros X k HX. unfold d_times. simpl.
    rewrite (mx_as_mk _ _ _ HX) at 1. rewrite (vec_as_tab d) at 1. unfold mk.
    rewrite combine_tab, map_tab. apply tab_ext. intros i Hi. simpl. rewrite map_tab.
    apply tab_ext. intros l Hl.
    rewrite (Rsum_ext _ _ (fun j => if Nat.eqb j i then vget d i * mget X j l else 0)).
    + rewrite (Rsum_delta _ i (fun j => vget d i * mget X j l)) by auto. ring.
    + intros j Hj. rewrite (Nat.eqb_sym j i). destruct (Nat.eqb i j); ring.
Qed.

Lemma d_apply_id n x : length x = n -> d_apply (d_id n) x = x.
Proof.
  intros Hx. unfold d_apply, mat_apply. simpl.
  transitivity (tab n (vget x)); [|rewrite <- Hx; symmetry; apply vec_as_tab].
  apply tab_ext. intros i Hi.
  rewrite (Rsum_ext _ _ (fun j => if Nat.eqb i j then vget x j else 0)).
  - apply Rsum_delta'. auto.
  - intros j Hj. destruct (Nat.eqb i j); ring.
Qed.

Lemma d_times_id n k X : is_mx n k X -> d_times (d_id n) k X = X.
Proof.
  intros HX. unfold d_times. simpl.
  transitivity (mk n k (mget X)); [|symmetry; now apply mx_as_mk]. apply mk_ext.
  intros i l Hi Hl.
  rewrite (Rsum_ext _ _ (fun j => if Nat.eqb i j then mget X j l else 0)).
  - apply (Rsum_delta' n i (fun j => mget X j l)). auto.
  - intros j Hj. destruct (Nat.eqb i j); ring.
Qed.

Lemma identity_rep n o : identity n = Ok o -> represents o (d_id n).
Proof.
  intros H. unfold identity in H. apply bind_ok in H. destruct H as [s [Hs H]].
  apply matrix_init_ok in Hs. destruct Hs as [-> [Hn _]]. injection H as <-.
  split; simpl; auto.
  - intros x Hx. symmetry. now apply d_apply_id.
  - intros X k HX. symmetry. now apply d_times_id.
Qed.

Lemma numpy_matrix_rep a o :
  numpy_matrix a = Ok o ->
  exists r c, a_shape a = [r; c] /\
    represents o (mk_den r c (fun i j => vget (a_data a) (i * c + j))).
Proof.
  intros H. unfold numpy_matrix in H. destruct (a_shape a) as [|r [|c [|? ?]]]; try discriminate.
  apply bind_ok in H. destruct H as [s [Hs H]].
  apply matrix_init_ok in Hs. destruct Hs as [-> [Hr Hc]]. injection H as <-.
  exists r, c. split; auto. split; simpl; auto.
  - intros x Hx. unfold arr_rows. rewrite np_dot1_mk. reflexivity.
  - intros X k HX. unfold arr_rows. rewrite (np_dot2_mk r c k) by auto. reflexivity.
Qed.

(** A linear map acts through its values on the standard basis. *)
Lemma linear_map_basis r c f x :
  linear_map r c f -> length x = c ->
  f x = mat_apply r c (fun i j => vget (f (e_vec c j)) i) x.
Proof.
  intros [Hlen [Hadd Hscal]] Hx.
  apply vec_ext; [unfold mat_apply; now rewrite tab_length, Hlen|].
  rewrite Hlen by auto. intros i Hi. unfold mat_apply. rewrite vget_tab by auto.
  assert (H : forall k, (k <= c)%nat ->
     vget (f (tab c (fun j => if Nat.ltb j k then vget x j else 0))) i
     = Rsum k (fun j => vget (f (e_vec c j)) i * vget x j)).
  { induction k as [|k IH]; intros Hk.
    - cbn [Rsum]. specialize (Hscal 0 x i Hx Hi). rewrite Rmult_0_l in Hscal.
      etransitivity; [|exact Hscal].
      do 2 f_equal. apply tab_ext. intros j Hj. destruct (Nat.ltb_spec j 0); [lia|ring].
    - cbn [Rsum]. rewrite <- IH by lia.
      specialize (Hscal (vget x k) (e_vec c k) i (tab_length _ _) Hi).
      rewrite (Rmult_comm _ (vget x k)), <- Hscal.
      rewrite <- Hadd by (rewrite ?tab_length; auto).
      do 2 f_equal. apply tab_ext. intros j Hj. rewrite !vget_tab by auto.
      unfold e_vec. rewrite vget_tab by auto.
      destruct (Nat.ltb_spec j (S k)), (Nat.ltb_spec j k), (Nat.eqb_spec j k); subst; try lia; ring. }
  rewrite <- (H c) by lia. do 2 f_equal. rewrite (vec_as_tab x) at 1. rewrite Hx.
  apply tab_ext. intros j Hj. destruct (Nat.ltb_spec j c); [reflexivity|lia].
Qed.

Lemma wrap_rep sh mvm d o :
  sh = (d_r d, d_c d) ->
  (forall x, length x = d_c d -> mvm x = d_apply d x) ->
  wrap sh mvm = Ok o -> represents o d.
Proof.
  intros -> Hmv H. unfold wrap in H. apply bind_ok in H. destruct H as [s [Hs H]].
  apply matrix_init_ok in Hs. destruct Hs as [-> [Hr Hc]]. simpl in *. injection H as <-.
  apply (represents_default2 d (d_r d, d_c d) mvm (default_matmat (d_r d) mvm)); auto.
  intros X k HX. apply default_matmat_ok; auto.
Qed.

(** ** Kronecker *)

Lemma concat_mk r c F : (0 < c)%nat ->
  concat (mk r c F) = tab (r * c) (fun k => F (k / c) (k mod c))%nat.
Proof. intros. unfold mk. now apply concat_tab_tab. Qed.

Lemma kronecker_rep A B da db o :
  represents A da -> represents B db -> kronecker A B = Ok o -> represents o (d_kron da db).
Proof.
  intros HA HB H. unfold kronecker in H. rewrite (rep_shape _ _ HA), (rep_shape _ _ HB) in H.
  apply bind_ok in H. destruct H as [s [Hs H]].
  apply matrix_init_ok in Hs. simpl in Hs. destruct Hs as [-> [Hr Hc]]. injection H as <-.
  pose proof (rep_r _ _ HA) as Hra. pose proof (rep_c _ _ HA) as Hca.
  pose proof (rep_r _ _ HB) as Hrb. pose proof (rep_c _ _ HB) as Hcb.
  apply represents_default; simpl; auto.
  - intros x Hx. unfold kron_matvec. cbn [fold_left concat]. rewrite app_nil_r.
    unfold kron_pass at 2. rewrite (rep_shape _ _ HB). cbn [snd].
    unfold np_reshape2. rewrite Hx, Nat.div_mul by lia.
    unfold arr_rows. rewrite np_T_mk.
    rewrite (rep_mm _ _ HB _ (d_c da)) by apply mk_is_mx.
    unfold d_times at 1. rewrite concat_mk by lia.
    unfold kron_pass. rewrite (rep_shape _ _ HA). cbn [snd].
    unfold np_reshape2. rewrite tab_length, Nat.div_mul by lia.
    unfold arr_rows. rewrite np_T_mk.
    rewrite (rep_mm _ _ HA _ (d_r db)) by apply mk_is_mx.
    unfold d_times at 1. rewrite concat_mk by lia.
    unfold d_apply, mat_apply. cbn [d_r d_c d_f d_kron].
    apply tab_ext. intros i Hi.
    assert (Hia : (i / d_r db < d_r da)%nat) by (apply Nat.div_lt_upper_bound; lia).
    pose proof (Nat.mod_upper_bound i (d_r db) ltac:(lia)) as Hib.
    rewrite Rsum_flatten. apply Rsum_ext. intros j Hj.
    rewrite mget_mk by auto. rewrite vget_tab by nia.
    replace (((i mod d_r db) * d_c da + j) / d_c da)%nat with (i mod d_r db)%nat
      by (rewrite Nat.div_add_l, Nat.div_small by lia; lia).
    replace (((i mod d_r db) * d_c da + j) mod d_c da)%nat with j
      by (rewrite Nat.add_comm, Nat.mod_add, Nat.mod_small by lia; lia).
    rewrite <- Rsum_scal_l. apply Rsum_ext. intros l Hl.
    rewrite mget_mk by auto.
    replace ((j * d_c db + l) / d_c db)%nat with j
      by (rewrite Nat.div_add_l, Nat.div_small by lia; lia).
    replace ((j * d_c db + l) mod d_c db)%nat with l
      by (rewrite Nat.add_comm, Nat.mod_add, Nat.mod_small by lia; lia).
    ring.
  - rewrite (rep_np _ _ HA), (rep_np _ _ HB). unfold np_kron, d_dense.
    rewrite (ncols_is_mx (d_r da) (d_c da)) by (auto using mk_is_mx).
    rewrite (ncols_is_mx (d_r db) (d_c db)) by (auto using mk_is_mx).
    rewrite !(proj1 (mk_is_mx _ _ _)). cbn [d_r d_c d_f d_kron].
    apply mk_ext. intros i j Hi Hj.
    rewrite !mget_mk; auto; try (apply Nat.mod_upper_bound; lia);
      apply Nat.div_lt_upper_bound; lia.
Qed.

(** ** SumMatrix *)

Lemma fold_vadd n (fs : list (nat -> R)) f0 :
  fold_left vadd (map (tab n) fs) (tab n f0)
  = tab n (fun i => f0 i + lsum (map (fun f => f i) fs)).
Proof.
  revert f0. induction fs as [|f fs IH]; intros f0; simpl.
  - apply tab_ext. intros. unfold lsum. simpl. ring.
  - rewrite vadd_tab, IH. apply tab_ext. intros i Hi.
    unfold lsum. simpl. ring.
Qed.

Lemma fold_madd r c (fs : list (nat -> nat -> R)) f0 :
  fold_left madd (map (mk r c) fs) (mk r c f0)
  = mk r c (fun i j => f0 i j + lsum (map (fun f => f i j) fs)).
Proof.
  revert f0. induction fs as [|f fs IH]; intros f0; simpl.
  - apply mk_ext. intros. unfold lsum. simpl. ring.
  - rewrite madd_mk, IH. apply mk_ext. intros i j Hi Hj.
    unfold lsum. simpl. ring.
Qed.

Lemma sum_matrix_rep Ks ds o :
  Forall2 represents Ks ds -> sum_matrix Ks = Ok o -> represents o (d_sum ds).
Proof.
  intros HF H. unfold sum_matrix in H. destruct Ks as [|K Ks']; [discriminate|].
  set (Ks := K :: Ks') in *.
  destruct (forallb _ Ks) eqn:Hall; simpl in H; [|discriminate].
  apply bind_ok in H. destruct H as [s [Hs H]].
  apply matrix_init_ok in Hs. destruct Hs as [-> [Hr Hc]]. injection H as <-.
  destruct ds as [|d ds']; [inversion HF|]. set (ds := d :: ds') in *.
  assert (HK : represents K d) by (inversion HF; auto).
  rewrite (rep_shape _ _ HK) in *. simpl in Hr, Hc.
  (* all shapes agree *)
  assert (Hd : Forall2 (fun K' d' => represents K' d' /\ d_r d' = d_r d /\ d_c d' = d_c d) Ks ds).
  { rewrite forallb_forall in Hall. clear -HF Hall HK.
    assert (Hall' : forall x, In x Ks -> shape x = (d_r d, d_c d)).
    { intros x Hx. apply Hall in Hx. unfold shape_eqb in Hx.
      apply Bool.andb_true_iff in Hx. destruct Hx as [H1 H2].
      apply Nat.eqb_eq in H1. apply Nat.eqb_eq in H2. simpl in *.
      destruct (shape x). simpl in *. congruence. }
    clear Hall HK. clearbody Ks ds. induction HF as [|K' d' l l' H HF IH]; constructor.
    - split; auto. specialize (Hall' K' (or_introl eq_refl)).
      rewrite (rep_shape _ _ H) in Hall'. injection Hall'. auto.
    - apply IH. intros x Hx. apply Hall'. simpl. auto. }
  cbn [fst snd]. apply (represents_default (d_sum ds)); [reflexivity|exact Hr|exact Hc| |].
  - intros x Hx. change (length x = d_c d) in Hx.
    assert (Hm : map (fun K0 => matvec K0 x) Ks = map (fun d' => tab (d_r d) (fun i =>
                    Rsum (d_c d) (fun j => d_f d' i j * vget x j))) ds).
    { clear HF Hall HK. clearbody Ks ds. induction Hd as [|K' d' l l' [HK' [E1 E2]] Hd IH]; simpl; auto.
      f_equal; auto. rewrite (rep_mv _ _ HK') by congruence.
      unfold d_apply, mat_apply. rewrite E1, E2. reflexivity. }
    change (py_sum_vec (map (fun K0 => matvec K0 x) Ks) = d_apply (d_sum ds) x).
    rewrite Hm. unfold ds at 1. cbn [map py_sum_vec]. rewrite map_tab.
    rewrite <- (map_map (fun d' i => Rsum (d_c d) (fun j => d_f d' i j * vget x j)) (tab (d_r d)) ds').
    rewrite fold_vadd. unfold d_apply, mat_apply.
    change (d_r (d_sum ds)) with (d_r d). change (d_c (d_sum ds)) with (d_c d).
    change (d_f (d_sum ds)) with (fun i j => lsum (map (fun d' => d_f d' i j) ds)). cbv beta.
    apply tab_ext. intros i Hi.
    rewrite map_map.
    clear. change (d :: ds') with ds.
    transitivity (lsum (map (fun d' => Rsum (d_c d) (fun j => d_f d' i j * vget x j)) ds)).
    { unfold ds, lsum. simpl. ring. }
    generalize (d_c d). intros c. clearbody ds. induction ds as [|e es IH]; simpl.
    + unfold lsum. simpl. symmetry. apply Rsum_zero. intros. ring.
    + change (lsum (?a :: ?b)) with (a + lsum b). rewrite IH, <- Rsum_plus.
      apply Rsum_ext. intros. ring.
  - assert (Hm : map as_numpy Ks = map (fun d' => mk (d_r d) (d_c d) (d_f d')) ds).
    { clear HF Hall HK. clearbody Ks ds. induction Hd as [|K' d' l l' [HK' [E1 E2]] Hd IH]; simpl; auto.
      f_equal; auto. rewrite (rep_np _ _ HK'). unfold d_dense. congruence. }
    change (py_sum_mx (map as_numpy Ks) = d_dense (d_sum ds)).
    rewrite Hm. unfold ds at 1. cbn [map py_sum_mx].
    assert (E : map (map (Rplus 0)) (mk (d_r d) (d_c d) (d_f d))
                = mk (d_r d) (d_c d) (fun i j => 0 + d_f d i j)).
    { unfold mk. rewrite map_tab. apply tab_ext. intros. now rewrite map_tab. }
    rewrite E.
    rewrite <- (map_map (fun d' => d_f d') (mk (d_r d) (d_c d)) ds').
    rewrite fold_madd. unfold d_dense.
    change (d_r (d_sum ds)) with (d_r d). change (d_c (d_sum ds)) with (d_c d).
    apply mk_ext. intros i j Hi Hj.
    rewrite map_map, Rplus_0_l. reflexivity.
Qed.

(** ** BlockDiag *)

Fixpoint offs (acc : nat) (lens : list nat) : list nat :=
  match lens with [] => [] | n :: r => acc :: offs (acc + n) r end.

Lemma begins_offs acc lens :
  lens <> [] -> acc :: removelast (accumulate_from acc lens) = offs acc lens.
Proof.
  revert acc. induction lens as [|n lens IH]; intros acc Hne; [congruence|].
  destruct lens as [|m lens]; [reflexivity|].
  change (accumulate_from acc (n :: m :: lens)) with ((acc + n)%nat :: accumulate_from (acc + n) (m :: lens)).
  change (offs acc (n :: m :: lens)) with (acc :: offs (acc + n) (m :: lens)).
  f_equal. rewrite <- IH by discriminate.
  destruct (accumulate_from (acc + n) (m :: lens)) eqn:E; [discriminate|]. reflexivity.
Qed.

Lemma begin_end_offs lens b e :
  begin_end_indices lens = Ok (b, e) -> b = offs 0 lens /\ e = accumulate_from 0 lens.
Proof.
  unfold begin_end_indices. destruct (accumulate lens) eqn:E; [discriminate|].
  intros H. injection H as <- <-. unfold accumulate in E. rewrite <- E. split; auto.
  rewrite <- begins_offs; [now rewrite E|]. intros ->. discriminate.
Qed.

Lemma set_slice_length b v l : length (set_slice b v l) = length l.
Proof. apply tab_length. Qed.

Lemma d_dsum_r ds : d_r (d_dsum ds) = nsum (map d_r ds).
Proof. induction ds as [|d ds IH]; simpl; auto. Qed.
Lemma d_dsum_c ds : d_c (d_dsum ds) = nsum (map d_c ds).
Proof. induction ds as [|d ds IH]; simpl; auto. Qed.

Lemma vget_slice b e (x : vec) i : (i < e - b)%nat -> vget (slice b e x) i = vget x (b + i).
Proof. intros. unfold vget. apply nth_slice. auto. Qed.

Lemma block_diag_fold Ks ds x ra ca res :
  Forall2 represents Ks ds ->
  (ra + nsum (map d_r ds) <= length res)%nat ->
  (ca + nsum (map d_c ds) <= length x)%nat ->
  fold_left (fun res t => let '(rbegin, rend, cbegin, cend, block) := t in
                          set_slice rbegin (matvec block (slice cbegin cend x)) res)
    (zip_all (offs ra (map d_r ds)) (accumulate_from ra (map d_r ds))
             (offs ca (map d_c ds)) (accumulate_from ca (map d_c ds)) Ks) res
  = tab (length res) (fun i =>
      if (Nat.leb ra i && Nat.ltb i (ra + nsum (map d_r ds)))%bool
      then Rsum (d_c (d_dsum ds)) (fun j => d_f (d_dsum ds) (i - ra)%nat j * vget x (ca + j))
      else vget res i).
Proof.
  intros HF. revert ra ca res. induction HF as [|K d Ks ds HK HF IH]; intros ra ca res Hr Hc.
  - simpl. rewrite (vec_as_tab res) at 1. apply tab_ext. intros i Hi.
    destruct (Nat.leb_spec ra i), (Nat.ltb_spec i (ra + 0)); simpl; auto; lia.
  - cbn [map offs accumulate_from zip_all fold_left]. cbn [map nsum fold_right] in Hr, Hc.
    fold (nsum (map d_r ds)) in Hr. fold (nsum (map d_c ds)) in Hc.
    pose proof (rep_c _ _ HK) as Hcp.
    rewrite IH by (rewrite ?set_slice_length; lia).
    rewrite set_slice_length. apply tab_ext. intros i Hi.
    rewrite (rep_mv _ _ HK).
    2:{ rewrite slice_length; lia. }
    unfold set_slice. rewrite vget_tab by auto. rewrite d_apply_length.
    change (nsum (d_r d :: map d_r ds)) with (d_r d + nsum (map d_r ds))%nat.
    cbn [d_dsum d_r d_c d_f].
    rewrite Rsum_split.
    destruct (Nat.leb_spec ra i) as [H1|H1], (Nat.ltb_spec i (ra + (d_r d + nsum (map d_r ds)))) as [H2|H2],
      (Nat.leb_spec (ra + d_r d) i) as [H3|H3], (Nat.ltb_spec i (ra + d_r d + nsum (map d_r ds))) as [H4|H4],
      (Nat.ltb_spec i (ra + d_r d)) as [H5|H5]; cbn [andb]; try lia; auto.
    + (* later block *)
      rewrite (Rsum_zero (d_c d)).
      * rewrite Rplus_0_l. apply Rsum_ext. intros j Hj.
        destruct (Nat.ltb_spec (i - ra) (d_r d)); [lia|].
        destruct (Nat.ltb_spec (d_c d + j) (d_c d)); [lia|].
        f_equal; [f_equal; lia|f_equal; lia].
      * intros j Hj. destruct (Nat.ltb_spec (i - ra) (d_r d)); [lia|].
        destruct (Nat.ltb_spec j (d_c d)); [ring|lia].
    + (* this block *)
      rewrite (Rsum_zero (d_c (d_dsum ds))).
      * rewrite Rplus_0_r. unfold d_apply, mat_apply. rewrite vget_tab by lia.
        apply Rsum_ext. intros j Hj.
        destruct (Nat.ltb_spec (i - ra) (d_r d)); [|lia].
        destruct (Nat.ltb_spec j (d_c d)); [|lia].
        rewrite vget_slice by lia. reflexivity.
      * intros j Hj. destruct (Nat.ltb_spec (i - ra) (d_r d)); [|lia].
        destruct (Nat.ltb_spec (d_c d + j) (d_c d)); [lia|ring].
Qed.

Lemma la_block_diag_ok ds :
  Forall (fun d => (0 < d_r d)%nat) ds ->
  la_block_diag (map d_dense ds) = d_dense (d_dsum ds).
Proof.
  induction 1 as [|d ds Hd HF IH]; [reflexivity|].
  cbn [map la_block_diag]. rewrite IH. clear IH.
  assert (Hc : nsum (map ncols (map d_dense ds)) = d_c (d_dsum ds)).
  { rewrite d_dsum_c. clear d Hd. induction HF as [|d ds Hd HF IH]; simpl; auto.
    rewrite IH. f_equal. apply (ncols_is_mx (d_r d)); auto. apply mk_is_mx. }
  rewrite Hc. rewrite (ncols_is_mx (d_r d) (d_c d) (d_dense d)) by (auto; apply mk_is_mx).
  unfold d_dense, mk. rewrite !map_tab. cbn [d_dsum d_r d_c d_f]. rewrite tab_app. f_equal.
  - apply tab_ext. intros i Hi. rewrite tab_app. f_equal.
    + apply tab_ext. intros j Hj. destruct (Nat.ltb_spec i (d_r d)); [|lia].
      destruct (Nat.ltb_spec j (d_c d)); [auto|lia].
    + apply tab_ext. intros j Hj. destruct (Nat.ltb_spec i (d_r d)); [|lia].
      destruct (Nat.ltb_spec (d_c d + j) (d_c d)); [lia|auto].
  - apply tab_ext. intros i Hi. rewrite tab_app. f_equal.
    + apply tab_ext. intros j Hj. destruct (Nat.ltb_spec (d_r d + i) (d_r d)); [lia|].
      destruct (Nat.ltb_spec j (d_c d)); [auto|lia].
    + apply tab_ext. intros j Hj. destruct (Nat.ltb_spec (d_r d + i) (d_r d)); [lia|].
      destruct (Nat.ltb_spec (d_c d + j) (d_c d)); [lia|]. f_equal; lia.
Qed.

Lemma Forall2_map_eq {A B C} (R : A -> B -> Prop) (f : A -> C) (g : B -> C) l l' :
  (forall a b, R a b -> f a = g b) -> Forall2 R l l' -> map f l = map g l'.
Proof. intros H HF. induction HF; simpl; auto. f_equal; auto. Qed.

Lemma block_diag_rep Ks ds o :
  Forall2 represents Ks ds -> block_diag Ks = Ok o -> represents o (d_dsum ds).
Proof.
  intros HF H. unfold block_diag in H.
  rewrite (Forall2_map_eq _ (fun b => fst (shape b)) d_r _ _) with (2 := HF) in H
    by (intros a b Hab; now rewrite (rep_shape _ _ Hab)).
  rewrite (Forall2_map_eq _ (fun b => snd (shape b)) d_c _ _) with (2 := HF) in H
    by (intros a b Hab; now rewrite (rep_shape _ _ Hab)).
  apply bind_ok in H. destruct H as [s [Hs H]].
  apply matrix_init_ok in Hs. destruct Hs as [-> [Hr Hc]].
  apply bind_ok in H. destruct H as [[rb re] [Hrb H]].
  apply bind_ok in H. destruct H as [[cb ce] [Hcb H]]. injection H as <-.
  apply begin_end_offs in Hrb. destruct Hrb as [-> ->].
  apply begin_end_offs in Hcb. destruct Hcb as [-> ->].
  apply (represents_default (d_dsum ds)).
  - now rewrite d_dsum_r, d_dsum_c.
  - now rewrite d_dsum_r.
  - now rewrite d_dsum_c.
  - intros x Hx. rewrite d_dsum_c in Hx. unfold block_diag_matvec. cbn [fst].
    rewrite (block_diag_fold Ks ds) by (auto; rewrite ?tab_length; lia).
    rewrite tab_length. unfold d_apply, mat_apply. rewrite d_dsum_r. apply tab_ext. intros i Hi.
    destruct (Nat.ltb_spec i (0 + nsum (map d_r ds))); [|lia]. cbn [Nat.leb andb].
    rewrite Nat.sub_0_r. reflexivity.
  - rewrite (Forall2_map_eq _ as_numpy d_dense _ _ (fun a b Hab => rep_np _ _ Hab) HF).
    apply la_block_diag_ok. clear -HF. induction HF as [|K d Ks ds H HF IH]; constructor; auto.
    apply (rep_r _ _ H).
Qed.

(** ** Composition and SKI *)

Lemma d_apply_mul A B x : d_c A = d_r B ->
  d_apply A (d_apply B x) = d_apply (d_mul A B) x.
Proof.
  intros E. unfold d_apply, mat_apply. cbn [d_mul d_r d_c d_f]. apply tab_ext. intros i Hi.
  rewrite (Rsum_ext _ _ (fun k => Rsum (d_c B) (fun j => d_f A i k * d_f B k j * vget x j))).
  - rewrite Rsum_swap. apply Rsum_ext. intros j Hj. rewrite Rsum_scal_r. reflexivity.
  - intros k Hk. rewrite vget_tab by lia. rewrite <- Rsum_scal_l. apply Rsum_ext. intros j Hj. ring.
Qed.

Lemma d_times_is_mx d k X : is_mx (d_r d) k (d_times d k X).
Proof. apply mk_is_mx. Qed.

Lemma d_times_mul A B k X : d_c A = d_r B ->
  d_times A k (d_times B k X) = d_times (d_mul A B) k X.
Proof.
  intros E. unfold d_times. cbn [d_mul d_r d_c d_f]. apply mk_ext. intros i l Hi Hl.
  rewrite (Rsum_ext _ _ (fun m => Rsum (d_c B) (fun j => d_f A i m * d_f B m j * mget X j l))).
  - rewrite Rsum_swap. apply Rsum_ext. intros j Hj. rewrite Rsum_scal_r. reflexivity.
  - intros m Hm. rewrite mget_mk by (auto; lia). rewrite <- Rsum_scal_l. apply Rsum_ext. intros j Hj. ring.
Qed.

Lemma d_prod_cons A l : l <> [] -> d_prod (A :: l) = d_mul A (d_prod l).
Proof. destruct l; [congruence|reflexivity]. Qed.

Lemma d_prod_r d l : d_r (d_prod (d :: l)) = d_r d.
Proof. destruct l; reflexivity. Qed.

Lemma d_prod_c d l : d_c (d_prod (d :: l)) = d_c (last l d).
Proof.
  revert d. induction l as [|e l IH]; intros d; auto.
  rewrite d_prod_cons by discriminate.
  change (d_c (d_prod (e :: l)) = d_c (last (e :: l) d)). rewrite IH. f_equal. clear.
  revert e. induction l as [|a l IH]; intros; auto.
  change (last (e :: a :: l) d) with (last (a :: l) d). rewrite <- IH. clear.
  revert a. induction l as [|b l IH]; intros; auto. simpl in *. destruct l; auto.
Qed.

Lemma comp_ok Ks ds :
  ds <> [] -> Forall2 represents Ks ds -> chain ds ->
  (forall x, length x = d_c (d_prod ds) -> comp_matvec Ks x = d_apply (d_prod ds) x) /\
  (forall X k, is_mx (d_c (d_prod ds)) k X -> comp_matmat Ks X = d_times (d_prod ds) k X).
Proof.
  intros Hne HF. revert Hne. induction HF as [|K d Ks ds HK HF IH]; intros Hne Hch; [congruence|].
  destruct ds as [|e ds].
  - inversion HF; subst. split.
    + intros x Hx. unfold comp_matvec. simpl. now apply (rep_mv _ _ HK).
    + intros X k HX. unfold comp_matmat. simpl. now apply (rep_mm _ _ HK).
  - destruct Hch as [Hc Hch]. specialize (IH ltac:(discriminate) Hch). destruct IH as [IH1 IH2].
    set (l := e :: ds) in *. rewrite d_prod_cons by discriminate.
    assert (E : d_c d = d_r (d_prod l)) by (unfold l; rewrite d_prod_r; auto).
    split.
    + intros x Hx. simpl in Hx. unfold comp_matvec. simpl rev. rewrite fold_left_app. simpl.
      fold (comp_matvec Ks x). rewrite IH1 by auto.
      rewrite (rep_mv _ _ HK) by (rewrite d_apply_length; auto). now apply d_apply_mul.
    + intros X k HX. simpl in HX. unfold comp_matmat. simpl rev. rewrite fold_left_app. simpl.
      fold (comp_matmat Ks X). rewrite (IH2 X k) by auto.
      rewrite (rep_mm _ _ HK _ k) by (rewrite E; apply d_times_is_mx). now apply d_times_mul.
Qed.

Lemma Forall2_last {A B} (R : A -> B -> Prop) l l' a b :
  R a b -> Forall2 R l l' -> R (last l a) (last l' b).
Proof.
  intros Hab HF. revert Hab. induction HF as [|x y l l' H HF IH]; intros; auto.
  destruct HF; simpl in *; auto.
Qed.

Lemma composition_rep Ks ds o :
  Forall2 represents Ks ds -> chain ds -> composition Ks = Ok o -> represents o (d_prod ds).
Proof.
  intros HF Hch H. unfold composition in H. destruct Ks as [|K Ks]; [discriminate|].
  destruct ds as [|d ds]; [inversion HF|].
  assert (HK : represents K d) by (inversion HF; auto).
  assert (HF' : Forall2 represents Ks ds) by (inversion HF; auto).
  apply bind_ok in H. destruct H as [s [Hs H]].
  apply matrix_init_ok in Hs. destruct Hs as [-> [Hr Hc]]. injection H as <-.
  assert (Hlast : last (K :: Ks) K = last Ks K) by (destruct Ks; reflexivity).
  assert (HL : represents (last Ks K) (last ds d)) by now apply Forall2_last.
  destruct (comp_ok (K :: Ks) (d :: ds) ltac:(discriminate) HF Hch) as [H1 H2].
  rewrite Hlast, (rep_shape _ _ HK), (rep_shape _ _ HL) in *. cbn [fst snd] in *.
  replace (match Ks with [] => K | _ :: _ => last Ks K end) with (last Ks K) by (destruct Ks; reflexivity).
  rewrite (rep_shape _ _ HL). cbn [fst snd].
  apply (represents_default2 (d_prod (d :: ds)) (d_r d, d_c (last ds d)));
    rewrite ?d_prod_r, ?d_prod_c; auto; rewrite <- d_prod_c; auto.
Qed.

Lemma sp_dot2_ok W X k : (0 < sp_c W)%nat -> is_mx (sp_c W) k X ->
  sp_dot2 W X = d_times (mk_den (sp_r W) (sp_c W) (sp_get W)) k X.
Proof. intros Hc HX. unfold sp_dot2, d_times. rewrite (ncols_is_mx _ _ _ HX Hc). reflexivity. Qed.

Lemma ski_rep K W WT d o :
  represents K d ->
  sp_c W = d_r d -> d_c d = sp_c W -> sp_r WT = sp_c W -> sp_c WT = sp_r W ->
  (forall i j, sp_get WT i j = sp_get W j i) ->
  ski K W WT = Ok o ->
  let w := mk_den (sp_r W) (sp_c W) (sp_get W) in
  represents o (d_mul w (d_mul d (d_T w))).
Proof.
  intros HK E1 E2 E3 E4 HT H w. unfold ski in H.
  apply bind_ok in H. destruct H as [L [HL H]].
  apply bind_ok in H. destruct H as [Rm [HR H]].
  apply bind_ok in H. destruct H as [C [HC H]]. injection H as <-.
  assert (HLr : represents L w) by (eapply wrap_rep; [| |exact HL]; [reflexivity|intros; reflexivity]).
  assert (HRr : represents Rm (d_T w)).
  { eapply wrap_rep; [| |exact HR].
    - simpl. congruence.
    - intros x Hx. unfold sp_dot1, d_apply, mat_apply. simpl. rewrite E3, E4.
      apply tab_ext. intros i Hi. apply Rsum_ext. intros j Hj. now rewrite HT. }
  assert (HCr : represents C (d_prod [w; d; d_T w])).
  { eapply composition_rep; [| |exact HC].
    - repeat (constructor; auto).
    - simpl. auto. }
  pose proof HCr as [Hs Hr Hc Hmv Hmm _]. simpl d_prod in *.
  split; cbn [shape matvec matmat as_numpy]; auto.
  rewrite (rep_np _ _ HK), (rep_shape _ _ HK). cbn [snd].
  unfold d_dense. rewrite np_T_mk.
  pose proof (rep_c _ _ HLr) as Hwc. simpl in Hwc.
  rewrite (sp_dot2_ok W (mk (d_c d) (d_r d) (fun j i => d_f d i j)) (d_r d)); auto.
  2:{ rewrite E2. apply mk_is_mx. }
  fold w. pose proof (rep_r _ _ HLr) as Hwr. simpl in Hwr.
  rewrite (ncols_is_mx (d_r w) (d_r d)); [|apply d_times_is_mx|simpl; auto].
  unfold d_times at 1. rewrite np_T_mk.
  rewrite (sp_dot2_ok W _ (sp_r W)); auto.
  2:{ rewrite E1. apply mk_is_mx. }
  unfold d_times. cbn [w d_mul d_T d_r d_c d_f].
  apply mk_ext. intros i l Hi Hl. apply Rsum_ext. intros j Hj.
  rewrite mget_mk by (auto; lia). f_equal. rewrite E2. apply Rsum_ext. intros k Hk.
  rewrite mget_mk by (rewrite ?E2; auto; lia). ring.
Qed.

(** ** SymmSquareBlockMatrix *)

Lemma np_arange_ok D m : (0 < m)%nat -> np_arange (D * m) m = tab D (fun i => i * m)%nat.
Proof.
  intros Hm. unfold np_arange.
  replace ((D * m + m - 1) / m)%nat with D; auto.
  replace (D * m + m - 1)%nat with (m - 1 + D * m)%nat by lia.
  rewrite Nat.div_add, Nat.div_small by lia. lia.
Qed.

Lemma add_slice_length b v l : length (add_slice b v l) = length l.
Proof. apply tab_length. Qed.

Lemma zip3_cons {A} b bs e es (x : A) l : zip3 (b :: bs) (e :: es) (x :: l) = (b, e, x) :: zip3 bs es l.
Proof. reflexivity. Qed.

(** Inner loop: block row [R] accumulates its dot product with [x]. *)
Lemma symm_row_fold m (x : vec) (R : nat) (C0 : nat) (row : list Mat) (ds : list den) res :
  (0 < m)%nat ->
  Forall2 (fun K d => represents K d /\ d_r d = m /\ d_c d = m) row ds ->
  (C0 * m + length row * m <= length x)%nat ->
  fold_left (fun res u => let '(cbegin, cend, block) := u in
               add_slice (R * m) (matvec block (slice cbegin cend x)) res)
    (zip3 (tab (length row) (fun i => (C0 + i) * m)%nat)
          (map (fun b => b + m)%nat (tab (length row) (fun i => (C0 + i) * m)%nat)) row) res
  = tab (length res) (fun i =>
      if Nat.eqb (i / m) R
      then vget res i + Rsum (length row) (fun c => Rsum m (fun j =>
             d_f (nth c ds (mk_den 0 0 (fun _ _ => 0))) (i mod m)%nat j * vget x ((C0 + c) * m + j)))
      else vget res i).
Proof.
  intros Hm HF. revert C0 res. induction HF as [|K d row ds [HK [Er Ec]] HF IH]; intros C0 res Hx.
  - simpl. rewrite (vec_as_tab res) at 1. apply tab_ext. intros i Hi.
    destruct (Nat.eqb (i / m) R); [ring|auto].
  - cbn [length] in *. rewrite !tab_S_l. cbn [map]. rewrite zip3_cons. cbn [fold_left].
    rewrite Nat.add_0_r.
    rewrite (tab_ext (length row) (fun i => ((C0 + S i) * m)%nat) (fun i => ((S C0 + i) * m)%nat))
      by (intros; f_equal; lia).
    rewrite IH by lia. rewrite add_slice_length. apply tab_ext. intros i Hi.
    assert (Hmv : matvec K (slice (C0 * m) (C0 * m + m) x)
                  = tab m (fun i => Rsum m (fun j => d_f d i j * vget x (C0 * m + j)))).
    { rewrite (rep_mv _ _ HK) by (rewrite slice_length; lia).
      unfold d_apply, mat_apply. rewrite Er, Ec. apply tab_ext. intros a Ha.
      apply Rsum_ext. intros j Hj. rewrite vget_slice by lia. reflexivity. }
    rewrite Hmv. unfold add_slice. rewrite vget_tab, tab_length by auto.
    rewrite in_block by auto.
    destruct (Nat.eqb_spec (i / m) R) as [<-|]; auto.
    rewrite Rsum_S_l. cbn [nth]. rewrite <- Rplus_assoc. f_equal.
    + f_equal. rewrite vget_tab.
      * apply Rsum_ext. intros j Hj. rewrite Nat.add_0_r. f_equal. f_equal.
        rewrite (Nat.mul_comm _ m). symmetry. apply Nat.mod_eq. lia.
      * pose proof (Nat.mod_upper_bound i m ltac:(lia)).
        pose proof (Nat.div_mod i m ltac:(lia)). rewrite (Nat.mul_comm _ m). lia.
    + apply Rsum_ext. intros c Hc. apply Rsum_ext. intros j Hj. do 2 f_equal.
      lia.
Qed.

Definition grid_rep (m D : nat) (rows : list (list Mat)) (G : list (list den)) : Prop :=
  Forall2 (fun r g => length r = D /\
     Forall2 (fun K d => represents K d /\ d_r d = m /\ d_c d = m) r g) rows G.

Lemma symm_fold m D (x : vec) (R0 : nat) (rows : list (list Mat)) (G : list (list den)) res :
  (0 < m)%nat -> grid_rep m D rows G -> length x = (D * m)%nat ->
  fold_left (fun res t => let '(rbegin, rend, row) := t in
    fold_left (fun res u => let '(cbegin, cend, block) := u in
                 add_slice rbegin (matvec block (slice cbegin cend x)) res)
              (zip3 (tab D (fun i => i * m)%nat) (map (fun b => b + m)%nat (tab D (fun i => i * m)%nat)) row) res)
    (zip3 (tab (length rows) (fun i => (R0 + i) * m)%nat)
          (map (fun b => b + m)%nat (tab (length rows) (fun i => (R0 + i) * m)%nat)) rows) res
  = tab (length res) (fun i =>
      if (Nat.leb R0 (i / m) && Nat.ltb (i / m) (R0 + length rows))%bool
      then vget res i + Rsum D (fun c => Rsum m (fun j =>
             d_f (nth c (nth (i / m - R0) G []) (mk_den 0 0 (fun _ _ => 0))) (i mod m)%nat j
             * vget x (c * m + j)))
      else vget res i).
Proof.
  intros Hm HG Hx. revert R0 res. induction HG as [|r g rows G [Hl HF] HG IH]; intros R0 res.
  - simpl. rewrite (vec_as_tab res) at 1. apply tab_ext. intros i Hi.
    destruct (Nat.leb_spec R0 (i / m)), (Nat.ltb_spec (i / m) (R0 + 0)); simpl; auto; lia.
  - cbn [length]. rewrite !tab_S_l. cbn [map]. rewrite zip3_cons. cbn [fold_left].
    rewrite Nat.add_0_r.
    rewrite (tab_ext (length rows) (fun i => ((R0 + S i) * m)%nat) (fun i => ((S R0 + i) * m)%nat))
      by (intros; f_equal; lia).
    pose proof (symm_row_fold m x R0 0 r g res Hm HF) as Hrow. rewrite Hl in Hrow.
    cbn [Nat.add Nat.mul] in Hrow. specialize (Hrow ltac:(lia)).
    rewrite Hrow. clear Hrow.
    rewrite IH. rewrite tab_length. apply tab_ext. intros i Hi. rewrite vget_tab by auto.
    destruct (Nat.leb_spec R0 (i / m)), (Nat.ltb_spec (i / m) (R0 + S (length rows))),
      (Nat.leb_spec (S R0) (i / m)), (Nat.ltb_spec (i / m) (S R0 + length rows)),
      (Nat.eqb_spec (i / m) R0); cbn [andb]; try lia; auto.
    + f_equal. apply Rsum_ext. intros c Hc. apply Rsum_ext. intros j Hj.
      replace (i / m - R0)%nat with (S (i / m - S R0)) by lia. reflexivity.
    + f_equal. apply Rsum_ext. intros c Hc. apply Rsum_ext. intros j Hj.
      replace (i / m - R0)%nat with O by lia. reflexivity.
Qed.

Lemma set_block_ok m n R C F Z :
  (0 < m)%nat -> (0 < n)%nat ->
  set_block (R * m) (C * m) (mk m m F) (mk n n Z)
  = mk n n (fun i j => if (Nat.eqb (i / m) R && Nat.eqb (j / m) C)%bool
                       then F (i mod m)%nat (j mod m)%nat else Z i j).
Proof.
  intros Hm Hn. unfold set_block. rewrite !(proj1 (mk_is_mx _ _ _)).
  rewrite (ncols_is_mx n n) by (auto using mk_is_mx).
  rewrite (ncols_is_mx m m) by (auto using mk_is_mx).
  apply mk_ext. intros i j Hi Hj.
  rewrite <- Bool.andb_assoc, !in_block by auto.
  destruct (Nat.eqb_spec (i / m) R) as [<-|]; simpl; [|apply mget_mk; auto].
  destruct (Nat.eqb_spec (j / m) C) as [<-|]; simpl; [|apply mget_mk; auto].
  assert (E : forall k, (k - k / m * m = k mod m)%nat).
  { intros k. rewrite (Nat.mul_comm _ m). symmetry. apply Nat.mod_eq. lia. }
  rewrite !E. apply mget_mk; apply Nat.mod_upper_bound; lia.
Qed.

Lemma symm_np_row_fold m n R C0 (row : list Mat) (ds : list den) Z :
  (0 < m)%nat -> (0 < n)%nat ->
  Forall2 (fun K d => represents K d /\ d_r d = m /\ d_c d = m) row ds ->
  fold_left (fun z u => let '(cbegin, cend, block) := u in
               set_block (R * m) cbegin (as_numpy block) z)
    (zip3 (tab (length row) (fun i => (C0 + i) * m)%nat)
          (map (fun b => b + m)%nat (tab (length row) (fun i => (C0 + i) * m)%nat)) row) (mk n n Z)
  = mk n n (fun i j =>
      if (Nat.eqb (i / m) R && (Nat.leb C0 (j / m) && Nat.ltb (j / m) (C0 + length row)))%bool
      then d_f (nth (j / m - C0) ds (mk_den 0 0 (fun _ _ => 0))) (i mod m)%nat (j mod m)%nat
      else Z i j).
Proof.
  intros Hm Hn HF. revert C0 Z. induction HF as [|K d row ds [HK [Er Ec]] HF IH]; intros C0 Z.
  - simpl. apply mk_ext. intros i j Hi Hj.
    destruct (Nat.eqb (i / m) R), (Nat.leb_spec C0 (j / m)), (Nat.ltb_spec (j / m) (C0 + 0)); simpl; auto; lia.
  - cbn [length] in *. rewrite !tab_S_l. cbn [map]. rewrite zip3_cons. cbn [fold_left].
    rewrite Nat.add_0_r.
    rewrite (tab_ext (length row) (fun i => ((C0 + S i) * m)%nat) (fun i => ((S C0 + i) * m)%nat))
      by (intros; f_equal; lia).
    rewrite (rep_np _ _ HK). unfold d_dense. rewrite Er, Ec, set_block_ok by auto.
    rewrite IH. apply mk_ext. intros i j Hi Hj.
    destruct (Nat.eqb (i / m) R); cbn [andb]; auto.
    destruct (Nat.leb_spec C0 (j / m)), (Nat.ltb_spec (j / m) (C0 + S (length row))),
      (Nat.leb_spec (S C0) (j / m)), (Nat.ltb_spec (j / m) (S C0 + length row)),
      (Nat.eqb_spec (j / m) C0); cbn [andb]; try lia; auto.
    + replace (j / m - C0)%nat with (S (j / m - S C0)) by lia. reflexivity.
    + replace (j / m - C0)%nat with O by lia. reflexivity.
Qed.

Lemma symm_np_fold m n D R0 (rows : list (list Mat)) (G : list (list den)) Z :
  (0 < m)%nat -> (0 < n)%nat -> grid_rep m D rows G ->
  fold_left (fun z t => let '(rbegin, rend, row) := t in
    fold_left (fun z u => let '(cbegin, cend, block) := u in
                 set_block rbegin cbegin (as_numpy block) z)
              (zip3 (tab D (fun i => i * m)%nat) (map (fun b => b + m)%nat (tab D (fun i => i * m)%nat)) row) z)
    (zip3 (tab (length rows) (fun i => (R0 + i) * m)%nat)
          (map (fun b => b + m)%nat (tab (length rows) (fun i => (R0 + i) * m)%nat)) rows) (mk n n Z)
  = mk n n (fun i j =>
      if ((Nat.leb R0 (i / m) && Nat.ltb (i / m) (R0 + length rows)) && Nat.ltb (j / m) D)%bool
      then d_f (nth (j / m) (nth (i / m - R0) G []) (mk_den 0 0 (fun _ _ => 0))) (i mod m)%nat (j mod m)%nat
      else Z i j).
Proof.
  intros Hm Hn HG. revert R0 Z. induction HG as [|r g rows G [Hl HF] HG IH]; intros R0 Z.
  - simpl. apply mk_ext. intros i j Hi Hj.
    destruct (Nat.leb_spec R0 (i / m)), (Nat.ltb_spec (i / m) (R0 + 0)); simpl; auto; lia.
  - cbn [length]. rewrite !tab_S_l. cbn [map]. rewrite zip3_cons. cbn [fold_left].
    rewrite Nat.add_0_r.
    rewrite (tab_ext (length rows) (fun i => ((R0 + S i) * m)%nat) (fun i => ((S R0 + i) * m)%nat))
      by (intros; f_equal; lia).
    pose proof (symm_np_row_fold m n R0 0 r g Z Hm Hn HF) as Hrow. rewrite Hl in Hrow.
    cbn [Nat.add Nat.mul] in Hrow.
    rewrite Hrow. clear Hrow.
    rewrite IH. apply mk_ext. intros i j Hi Hj.
    change (Nat.leb 0 (j / m)) with true. cbn [andb]. rewrite Nat.sub_0_r.
    destruct (Nat.leb_spec R0 (i / m)), (Nat.ltb_spec (i / m) (R0 + S (length rows))),
      (Nat.leb_spec (S R0) (i / m)), (Nat.ltb_spec (i / m) (S R0 + length rows)),
      (Nat.eqb_spec (i / m) R0), (Nat.ltb (j / m) D); cbn [andb]; try lia; auto.
    + replace (i / m - R0)%nat with (S (i / m - S R0)) by lia. reflexivity.
    + replace (i / m - R0)%nat with O by lia. reflexivity.
Qed.

Lemma symm_rep rows G m o :
  Forall2 (Forall2 (fun K d => represents K d /\ d_r d = m /\ d_c d = m)) rows G ->
  symm_block_matrix rows = Ok o ->
  represents o (d_blocks (length G) m (fun i j => nth j (nth i G []) (mk_den 0 0 (fun _ _ => 0)))).
Proof.
  intros HF H. unfold symm_block_matrix in H.
  destruct rows as [|row0 rows']; [discriminate|]. set (rows := row0 :: rows') in *.
  destruct (forallb _ rows) eqn:Hall; simpl negb in H; cbv iota in H; [|discriminate].
  destruct row0 as [|b00 row0']; [discriminate|].
  apply bind_ok in H. destruct H as [s [Hs H]].
  apply matrix_init_ok in Hs. destruct Hs as [-> [Hn _]]. apply Ok_inj in H. subst o.
  assert (HlG : length G = length rows).
  { symmetry. clear -HF. clearbody rows. induction HF; simpl; auto. }
  assert (Hb : fst (shape b00) = m).
  { inversion HF as [|? g ? G' Hg HF']; subst. inversion Hg as [|? d ? g' [Hd [E1 E2]] Hg']; subst.
    rewrite (rep_shape _ _ Hd). reflexivity. }
  rewrite Hb in *. rewrite forallb_forall in Hall.
  set (D := length rows) in *.
  assert (Hm : (0 < m)%nat) by (destruct m; lia).
  assert (HG : grid_rep m D rows G).
  { unfold grid_rep. clear -HF Hall. clearbody rows D.
    induction HF as [|r g rows G Hr HF IH]; constructor.
    - split; auto. apply Nat.eqb_eq. apply Hall. simpl. auto.
    - apply IH. intros x Hx. apply Hall. simpl. auto. }
  rewrite HlG. fold D. cbn [fst]. rewrite np_arange_ok by auto.
  apply (represents_default (d_blocks D m (fun i j => nth j (nth i G []) (mk_den 0 0 (fun _ _ => 0))))).
  - reflexivity.
  - cbn. auto.
  - cbn. auto.
  - cbn [d_blocks d_c]. intros x Hx. unfold symm_matvec.
    pose proof (symm_fold m D x 0 rows G (tab (length x) (fun _ => 0)) Hm HG Hx) as Hf.
    fold D in Hf. cbn [Nat.add] in Hf. rewrite Hf. clear Hf.
    rewrite tab_length, Hx. unfold d_apply, mat_apply. cbn [d_blocks d_r d_c d_f].
    apply tab_ext. intros i Hi.
    assert (Hd : (i / m < D)%nat) by (apply Nat.div_lt_upper_bound; lia).
    cbn [Nat.leb andb]. destruct (Nat.ltb_spec (i / m) D); [|lia].
    rewrite vget_tab, Rplus_0_l by auto. rewrite Rsum_flatten. apply Rsum_ext. intros c Hc.
    apply Rsum_ext. intros j Hj. rewrite Nat.sub_0_r.
    assert (E1 : ((c * m + j) / m = c)%nat)
      by (rewrite Nat.div_add_l, (Nat.div_small j) by lia; lia).
    assert (E2 : ((c * m + j) mod m = j)%nat)
      by (rewrite Nat.add_comm, Nat.mod_add, Nat.mod_small by lia; lia).
    rewrite E1, E2. reflexivity.
  - unfold symm_as_numpy.
    pose proof (symm_np_fold m (D * m) D 0 rows G (fun _ _ => 0) Hm Hn HG) as Hf.
    fold D in Hf. cbn [Nat.add] in Hf. rewrite Hf. clear Hf.
    unfold d_dense. cbn [d_blocks d_r d_c d_f]. apply mk_ext. intros i j Hi Hj.
    assert (Hd : (i / m < D)%nat) by (apply Nat.div_lt_upper_bound; lia).
    assert (Hd' : (j / m < D)%nat) by (apply Nat.div_lt_upper_bound; lia).
    cbn [Nat.leb andb]. destruct (Nat.ltb_spec (i / m) D), (Nat.ltb_spec (j / m) D); try lia.
    cbn [andb]. rewrite Nat.sub_0_r. reflexivity.
Qed.

(** ** All expressions *)

Section ExprInd.
  Variable P : expr -> Prop.
  Hypothesis H1 : forall t, P (EToeplitz t).
  Hypothesis H2 : forall t s, P (EBTTB t s).
  Hypothesis H3 : forall a b, P a -> P b -> P (EKron a b).
  Hypothesis H4 : forall l, Forall P l -> P (ESum l).
  Hypothesis H5 : forall l, Forall P l -> P (EBlockDiag l).
  Hypothesis H6 : forall v, P (EDiag v).
  Hypothesis H7 : forall l, Forall (Forall P) l -> P (ESymm l).
  Hypothesis H8 : forall l, Forall P l -> P (EComp l).
  Hypothesis H9 : forall a, P (ENumpy a).
  Hypothesis H10 : forall n, P (EIdentity n).
  Hypothesis H11 : forall r c f, P (EWrap r c f).
  Hypothesis H12 : forall K W WT, P K -> P (ESKI K W WT).

  Fixpoint expr_ind' (e : expr) : P e :=
    let fix go (l : list expr) : Forall P l :=
      match l with [] => Forall_nil _ | x :: r => Forall_cons x (expr_ind' x) (go r) end in
    let fix go2 (l : list (list expr)) : Forall (Forall P) l :=
      match l with [] => Forall_nil _ | x :: r => Forall_cons x (go x) (go2 r) end in
    match e with
    | EToeplitz t => H1 t
    | EBTTB t s => H2 t s
    | EKron a b => H3 a b (expr_ind' a) (expr_ind' b)
    | ESum l => H4 l (go l)
    | EBlockDiag l => H5 l (go l)
    | EDiag v => H6 v
    | ESymm l => H7 l (go2 l)
    | EComp l => H8 l (go l)
    | ENumpy a => H9 a
    | EIdentity n => H10 n
    | EWrap r c f => H11 r c f
    | ESKI K W WT => H12 K W WT (expr_ind' K)
    end.
End ExprInd.

Definition sound (e : expr) : Prop := forall o, wf e -> eval e = Ok o -> represents o (denote e).

Lemma sequence_sound l Ks :
  Forall sound l -> all_p (map wf l) -> sequence (map eval l) = Ok Ks ->
  Forall2 represents Ks (map denote l).
Proof.
  intros HF. revert Ks. induction HF as [|e l He HF IH]; intros Ks Hwf Hs.
  - injection Hs as <-. constructor.
  - simpl in Hs. apply bind_ok in Hs. destruct Hs as [K [HK Hs]].
    apply bind_ok in Hs. destruct Hs as [Ks' [HKs Hs]]. injection Hs as <-.
    destruct Hwf as [Hw Hwf]. constructor; auto.
Qed.

Lemma eval_sound e : sound e.
Proof.
  induction e using expr_ind'; intros o Hwf Hev; simpl in Hwf, Hev |- *.
  - now apply toeplitz_rep.
  - now apply bttb_rep.
  - apply bind_ok in Hev. destruct Hev as [A [HA Hev]].
    apply bind_ok in Hev. destruct Hev as [B [HB Hev]]. destruct Hwf.
    eapply kronecker_rep; eauto.
  - apply bind_ok in Hev. destruct Hev as [Ks [HK Hev]].
    eapply sum_matrix_rep; eauto using sequence_sound.
  - apply bind_ok in Hev. destruct Hev as [Ks [HK Hev]].
    eapply block_diag_rep; eauto using sequence_sound.
  - now apply diag_rep.
  - apply bind_ok in Hev. destruct Hev as [rows [HR Hev]]. destruct Hwf as [Hwf [m Hm]].
    assert (HF : Forall2 (Forall2 (fun K d => represents K d /\ d_r d = m /\ d_c d = m))
                   rows (map (map denote) l)).
    { clear Hev. revert rows HR. induction H as [|r l Hr HF IH]; intros rows HR.
      - injection HR as <-. constructor.
      - simpl in HR. apply bind_ok in HR. destruct HR as [K [HK HR]].
        apply bind_ok in HR. destruct HR as [Ks' [HKs HR]]. injection HR as <-.
        destruct Hwf as [Hw Hwf]. constructor.
        + assert (Hin : forall e', In e' r -> d_r (denote e') = m /\ d_c (denote e') = m)
            by (intros e' He'; apply (Hm r e'); simpl; auto).
          clear -Hr Hw HK Hin. revert K HK. induction Hr as [|e r He Hr IH]; intros K HK.
          * injection HK as <-. constructor.
          * simpl in HK. apply bind_ok in HK. destruct HK as [k [Hk HK]].
            apply bind_ok in HK. destruct HK as [ks [Hks HK]]. injection HK as <-.
            destruct Hw as [Hw1 Hw2]. constructor.
            -- split; [now apply He|]. apply Hin. simpl. auto.
            -- apply IH; auto. intros e' He'. apply Hin. simpl. auto.
        + apply IH; auto. intros r' e' Hr' He'. apply (Hm r' e'); simpl; auto. }
    pose proof (symm_rep rows (map (map denote) l) m o HF Hev) as Hrep.
    replace (d_r (nth 0 (nth 0 (map (map denote) l) []) d_none)) with m; auto.
    unfold symm_block_matrix in Hev. inversion HF as [|r g rows' G Hrg HF' E1 E2]; subst; [discriminate|].
    simpl. destruct (negb _); [discriminate|].
    inversion Hrg as [|K d r' g' [HK [Er Ec]] Hrg' E3 E4]; subst; [discriminate|]. reflexivity.
  - apply bind_ok in Hev. destruct Hev as [Ks [HK Hev]]. destruct Hwf as [Hwf Hch].
    eapply composition_rep; eauto using sequence_sound.
  - destruct (numpy_matrix_rep _ _ Hev) as [r [c [-> Hr]]]. exact Hr.
  - now apply identity_rep.
  - eapply wrap_rep; [| |exact Hev]; [reflexivity|].
    simpl. intros x Hx. now apply linear_map_basis.
  - apply bind_ok in Hev. destruct Hev as [M [HM Hev]].
    destruct Hwf as [Hw [E1 [E2 [E3 [E4 HT]]]]].
    eapply (ski_rep M); eauto.
Qed.
