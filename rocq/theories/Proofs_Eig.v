(** Eigenvalue bounds: toeplitz.py, kronecker.py, sum_matrix.py, diag.py,
    block_matrix.py, identity.py, ski.py. *)

From Coq Require Import Reals List Arith Lia Lra.
From Coq Require Import FunctionalExtensionality.
From Verif Require Import Base NDArray Model_Util Spec_Util Model_Fourier Model_Linalg Spec_Linalg
  Expr_Linalg Proofs_Util Proofs_Fourier Proofs_Linalg PSD Spec_Eig.
Import ListNotations.
Open Scope R_scope.

(** ** Maxima *)

Lemma fold_Rmax_ge l a : a <= fold_left Rmax l a /\ forall x, In x l -> x <= fold_left Rmax l a.
Proof.
  revert a. induction l as [|y l IH]; intros a; simpl; [split; [lra|tauto]|].
  destruct (IH (Rmax a y)) as [H1 H2]. split.
  - eapply Rle_trans; [apply Rmax_l|apply H1].
  - intros x [<-|Hx]; auto. eapply Rle_trans; [apply Rmax_r|apply H1].
Qed.

Lemma fold_Rmax_in l a : In (fold_left Rmax l a) (a :: l).
Proof.
  revert a. induction l as [|y l IH]; intros a; simpl; auto.
  destruct (IH (Rmax a y)) as [H|H]; [|tauto].
  rewrite <- H. unfold Rmax. destruct (Rle_dec a y); tauto.
Qed.

Lemma np_max_ge l x : In x l -> x <= np_max l.
Proof.
  destruct l as [|a l]; [intros []|]. unfold np_max. simpl.
  destruct (fold_Rmax_ge l a) as [H1 H2]. intros [<-|H]; auto.
Qed.

Lemma np_max_in l : l <> [] -> In (np_max l) l.
Proof. destruct l as [|a l]; [congruence|]. intros _. apply fold_Rmax_in. Qed.

Lemma vget_in (l : vec) i : (i < length l)%nat -> In (vget l i) l.
Proof. intros. apply nth_In. auto. Qed.

(** ** Toeplitz *)

Definition row_sum (top : vec) (i : nat) : R := Rsum (length top) (fun j => Rabs (toep_entry top i j)).

Lemma row_sum_S top i : (S i < length top)%nat ->
  row_sum top (S i) = row_sum top i + Rabs (vget top (S i)) - Rabs (vget top (length top - S i)).
Proof.
  intros Hi. unfold row_sum. destruct (length top) as [|n] eqn:E; [lia|].
  rewrite Rsum_S_l. cbn [Rsum].
  rewrite (Rsum_ext n (fun i0 => Rabs (toep_entry top (S i) (S i0))) (fun j => Rabs (toep_entry top i j))).
  - assert (E1 : toep_entry top (S i) 0 = vget top (S i)).
    { unfold toep_entry, absdiff. simpl. reflexivity. }
    assert (E2 : toep_entry top i n = vget top (S n - S i)).
    { unfold toep_entry, absdiff. destruct (Nat.leb_spec n i); f_equal; lia. }
    rewrite E1, E2. ring.
  - intros j Hj. unfold toep_entry, absdiff. reflexivity.
Qed.

Lemma totals_ok top i : (i < length top)%nat -> vget (toeplitz_totals top) i = row_sum top i.
Proof.
  intros Hi. unfold toeplitz_totals. set (abstop := map Rabs top).
  assert (Ha : forall k, vget abstop k = Rabs (vget top k)).
  { intros k. unfold vget, abstop. rewrite <- Rabs_R0 at 1. apply map_nth. }
  set (t := tab (length top) _). unfold prefix_sums.
  assert (Lt : length t = length top) by apply tab_length. rewrite Lt.
  rewrite vget_tab by auto.
  assert (Ht : forall k, (k < length top)%nat ->
    vget t k = if Nat.eqb k 0 then row_sum top 0 else Rabs (vget top k) - Rabs (vget top (length top - k))).
  { intros k Hk. unfold t. rewrite vget_tab by auto. destruct (Nat.eqb_spec k 0) as [->|Hk0].
    - rewrite lsum_Rsum. unfold abstop at 1. rewrite map_length. unfold row_sum. apply Rsum_ext. intros j Hj.
      rewrite Ha. unfold toep_entry, absdiff. destruct j; reflexivity.
    - rewrite Ha. f_equal. unfold vget. rewrite rev_nth.
      + rewrite nth_skipn, skipn_length. change (nth ?a abstop 0) with (vget abstop a). rewrite Ha.
        unfold vget. do 2 f_equal. unfold abstop. rewrite map_length. lia.
      + rewrite skipn_length. unfold abstop. rewrite map_length. lia. }
  clearbody t. clear Ha. induction i as [|i IH].
  - cbn [Rsum]. rewrite Ht by lia. simpl. ring.
  - change (Rsum (S (S i)) (vget t)) with (Rsum (S i) (vget t) + vget t (S i)).
    rewrite IH, Ht, row_sum_S by lia. cbn [Nat.eqb]. ring.
Qed.

Lemma toep_sym top n : sym n (toep_entry top).
Proof.
  intros i j _ _. unfold toep_entry, absdiff.
  destruct (Nat.leb_spec j i), (Nat.leb_spec i j); f_equal; lia.
Qed.

Lemma toeplitz_bound_row top i : (i < length top)%nat -> row_sum top i <= np_max (toeplitz_totals top).
Proof.
  intros Hi. rewrite <- totals_ok by auto. apply np_max_ge, vget_in.
  unfold toeplitz_totals, prefix_sums. rewrite !tab_length. auto.
Qed.

Lemma toeplitz_bound_att top : top <> [] ->
  exists i, (i < length top)%nat /\ np_max (toeplitz_totals top) = row_sum top i.
Proof.
  intros Ht. assert (Hl : length (toeplitz_totals top) = length top).
  { unfold toeplitz_totals, prefix_sums. now rewrite !tab_length. }
  assert (Hne : toeplitz_totals top <> []).
  { intros E. rewrite E in Hl. destruct top; [congruence|discriminate]. }
  pose proof (np_max_in _ Hne) as Hin. apply (In_nth _ _ 0) in Hin.
  destruct Hin as [i [Hi E]]. rewrite Hl in Hi. exists i. split; auto.
  rewrite <- totals_ok by auto. symmetry. exact E.
Qed.

Lemma EPS_pos : 0 < EPS.
Proof. unfold EPS. apply Rinv_0_lt_compat. apply pow_lt. lra. Qed.

Lemma row_sum_nonneg top i : 0 <= row_sum top i.
Proof. apply Rsum_nonneg. intros. apply Rabs_pos. Qed.

Lemma toeplitz_bound_ge top i : (i < length top)%nat -> row_sum top i <= toeplitz_upper_eig_bound top.
Proof.
  intros Hi. unfold toeplitz_upper_eig_bound. pose proof (toeplitz_bound_row top i Hi).
  pose proof (row_sum_nonneg top i). pose proof EPS_pos. pose proof (pos_INR (length top)).
  assert (0 <= EPS * INR (length top)) by (apply Rmult_le_pos; lra). nra.
Qed.

Lemma toeplitz_two_sided top :
  below (length top) (toep_entry top) (toeplitz_upper_eig_bound top) /\
  above (length top) (toep_entry top) (toeplitz_upper_eig_bound top).
Proof.
  apply gershgorin; [apply toep_sym|]. intros i Hi. apply (toeplitz_bound_ge top i Hi).
Qed.

Definition bounded2 (o : Mat) (d : den) : Prop :=
  d_r d = d_c d /\ sym (d_r d) (d_f d) /\
  exists b, upper_eig_bound o = Ok b /\ below (d_r d) (d_f d) b /\ above (d_r d) (d_f d) b.
Definition bounded1 (o : Mat) (d : den) : Prop :=
  d_r d = d_c d /\ sym (d_r d) (d_f d) /\
  exists b, upper_eig_bound o = Ok b /\ below (d_r d) (d_f d) b.

Lemma sequence_F2 {A B} (f : A -> result B) l Ks :
  sequence (map f l) = Ok Ks -> Forall2 (fun K e => f e = Ok K) Ks l.
Proof.
  revert Ks. induction l as [|e l IH]; intros Ks H; simpl in H.
  - injection H as <-. constructor.
  - apply bind_ok in H. destruct H as [K [HK H]]. apply bind_ok in H. destruct H as [Ks' [HKs H]].
    injection H as <-. constructor; auto.
Qed.

Lemma F2_nth {A B} (P : A -> B -> Prop) l l' i da db :
  Forall2 P l l' -> (i < length l)%nat -> P (nth i l da) (nth i l' db).
Proof.
  intros HF. revert i. induction HF as [|a b l l' Hab HF IH]; intros i Hi; simpl in *; [lia|].
  destruct i; auto. apply IH. lia.
Qed.

Lemma F2_length {A B} (P : A -> B -> Prop) l l' : Forall2 P l l' -> length l = length l'.
Proof. induction 1; simpl; auto. Qed.

Lemma all_p_in {A} (P : A -> Prop) l x : all_p (map P l) -> In x l -> P x.
Proof. induction l as [|a l IH]; simpl; [tauto|]. intros [H1 H2] [<-|Hx]; auto. Qed.

Lemma py_sum_result_ok bs : py_sum_result (map Ok bs) = Ok (lsum bs).
Proof.
  unfold py_sum_result.
  assert (H : forall a, fold_left (fun acc r => let! x := acc in let! y := r in Ok (x + y)) (map Ok bs) (Ok a)
              = Ok (a + lsum bs)).
  { induction bs as [|b bs IH]; intros a; simpl; [f_equal; ring|].
    rewrite IH. f_equal. ring. }
  rewrite H. f_equal. ring.
Qed.

Lemma diag_vals v o : length (a_data v) = nprod (a_shape v) -> diag v = Ok o ->
  a_data v <> [] /\ upper_eig_bound o = Ok (np_max (a_data v)).
Proof.
  intros Hd H. unfold diag in H. apply bind_ok in H. destruct H as [n [Hn H]].
  unfold np_len in Hn. unfold is_1d in H.
  destruct (a_shape v) as [|m sh] eqn:Esh; [discriminate|]. injection Hn as ->.
  apply bind_ok in H. destruct H as [s [Hs H]]. apply matrix_init_ok in Hs.
  destruct Hs as [-> [Hn0 _]]. destruct sh; simpl in H; [|discriminate]. injection H as <-.
  simpl in Hd. split; [|reflexivity]. intros E. rewrite E in Hd. simpl in Hd. lia.
Qed.

Lemma diag_below v : below (length v) (d_f (d_diag v)) (np_max v).
Proof.
  intros x. simpl. rewrite (qf_diag (length v) (vget v)). unfold nrm2. rewrite <- Rsum_scal_l.
  apply Rsum_le. intros i Hi. pose proof (np_max_ge v _ (vget_in v i Hi)). nra.
Qed.

Lemma diag_sym v : sym (length v) (d_f (d_diag v)).
Proof. intros i j _ _. simpl. rewrite (Nat.eqb_sym i j). destruct (Nat.eqb_spec j i); subst; auto. Qed.

Lemma id_bounds n : below n (d_f (d_id n)) 1 /\ above n (d_f (d_id n)) 1.
Proof.
  split; intros x; change (d_f (d_id n)) with id_f; rewrite qf_id; pose proof (nrm2_nonneg n x); lra.
Qed.

Lemma sum_bounds (P : nat -> (nat -> nat -> R) -> R -> Prop) n (ds : list den) bs :
  (forall F G b, (forall i j, (i < n)%nat -> (j < n)%nat -> F i j = G i j) -> P n F b -> P n G b) ->
  (forall F G a b, P n F a -> P n G b -> P n (fun i j => F i j + G i j) (a + b)) ->
  P n (fun _ _ => 0) 0 ->
  Forall2 (fun d b => P n (d_f d) b) ds bs ->
  P n (fun i j => lsum (map (fun d => d_f d i j) ds)) (lsum bs).
Proof.
  intros Hext Hplus H0 HF. induction HF as [|d b ds bs H HF IH]; simpl; auto.
Qed.

Lemma below_zero n : below n (fun _ _ => 0) 0.
Proof. intros x. unfold qf, bil. rewrite Rsum_zero; [lra|]. intros. apply Rsum_zero. intros. ring. Qed.
Lemma above_zero n : above n (fun _ _ => 0) 0.
Proof. intros x. unfold qf, bil. rewrite Rsum_zero; [lra|]. intros. apply Rsum_zero. intros. ring. Qed.

Lemma toeplitz_ub top o : toeplitz top = Ok o -> upper_eig_bound o = Ok (toeplitz_upper_eig_bound (a_data top)).
Proof.
  intros H. unfold toeplitz in H. apply bind_ok in H. destruct H as [n [Hn H]].
  destruct (negb (is_1d top)); [discriminate|]. destruct (Nat.eqb (np_size top) 0); [discriminate|].
  apply bind_ok in H. destruct H as [s [Hs H]]. injection H as <-. reflexivity.
Qed.

Lemma identity_ub n o : identity n = Ok o -> upper_eig_bound o = Ok 1.
Proof.
  intros H. unfold identity in H. apply bind_ok in H. destruct H as [s [Hs H]]. injection H as <-. reflexivity.
Qed.

Lemma kronecker_ub A B o a b : kronecker A B = Ok o ->
  upper_eig_bound A = Ok a -> upper_eig_bound B = Ok b -> upper_eig_bound o = Ok (a * b).
Proof.
  intros H Ha Hb. unfold kronecker in H. apply bind_ok in H. destruct H as [s [Hs H]].
  apply Ok_inj in H. subst o. cbn [upper_eig_bound]. rewrite Ha, Hb. reflexivity.
Qed.

Lemma sum_ub Ks o : sum_matrix Ks = Ok o -> Ks <> [] /\
  upper_eig_bound o = py_sum_result (map upper_eig_bound Ks).
Proof.
  intros H. unfold sum_matrix in H. destruct Ks as [|K Ks]; [discriminate|]. split; [discriminate|].
  destruct (negb _); [discriminate|]. apply bind_ok in H. destruct H as [s [Hs H]].
  apply Ok_inj in H. subst o. reflexivity.
Qed.

Lemma sum_shapes Ks ds o : Forall2 represents Ks ds -> sum_matrix Ks = Ok o ->
  forall d, In d ds -> d_r d = d_r (d_sum ds) /\ d_c d = d_c (d_sum ds).
Proof.
  intros HF H d Hd. unfold sum_matrix in H. destruct Ks as [|K Ks']; [discriminate|].
  destruct (forallb _ (K :: Ks')) eqn:Hall; simpl negb in H; cbv iota in H; [|discriminate].
  rewrite forallb_forall in Hall.
  destruct ds as [|d0 ds']; [inversion HF|].
  assert (HK : represents K d0) by (inversion HF; auto).
  cbn [d_sum d_r d_c].
  assert (Hx : exists K', In K' (K :: Ks') /\ represents K' d).
  { clear -HF Hd. induction HF as [|a b l l' Hab HF IH]; [destruct Hd|].
    destruct Hd as [<-|Hd]; [exists a; simpl; auto|]. destruct (IH Hd) as [K' [H1 H2]]. exists K'. simpl. auto. }
  destruct Hx as [K' [Hin HK']]. apply Hall in Hin. unfold shape_eqb in Hin.
  rewrite (rep_shape _ _ HK), (rep_shape _ _ HK') in Hin. simpl in Hin.
  apply Bool.andb_true_iff in Hin. destruct Hin as [H1 H2].
  apply Nat.eqb_eq in H1. apply Nat.eqb_eq in H2. auto.
Qed.

Lemma sum_sym n ds : Forall (fun d => sym n (d_f d)) ds ->
  sym n (fun i j => lsum (map (fun d => d_f d i j) ds)).
Proof.
  intros HF i j Hi Hj. induction HF as [|d ds H HF IH]; simpl; auto.
  change (lsum (?a :: ?b)) with (a + lsum b). rewrite (H i j) by auto. now rewrite IH.
Qed.

(** One lemma for both kinds of sum. *)
Lemma sum_bounded (P : nat -> (nat -> nat -> R) -> R -> Prop) l o Ks :
  (forall n F G b, (forall i j, (i < n)%nat -> (j < n)%nat -> F i j = G i j) -> P n F b -> P n G b) ->
  (forall n F G a b, P n F a -> P n G b -> P n (fun i j => F i j + G i j) (a + b)) ->
  (forall n, P n (fun _ _ => 0) 0) ->
  Forall (fun e => forall K, wf e -> eval e = Ok K ->
     d_r (denote e) = d_c (denote e) /\ sym (d_r (denote e)) (d_f (denote e)) /\
     exists b, upper_eig_bound K = Ok b /\ P (d_r (denote e)) (d_f (denote e)) b) l ->
  all_p (map wf l) -> sequence (map eval l) = Ok Ks -> sum_matrix Ks = Ok o ->
  let d := d_sum (map denote l) in
  d_r d = d_c d /\ sym (d_r d) (d_f d) /\
  exists b, upper_eig_bound o = Ok b /\ P (d_r d) (d_f d) b.
Proof.
  intros Hext Hplus H0 HF Hwf Hseq Ho d.
  assert (HR : Forall2 represents Ks (map denote l)).
  { apply (sequence_sound l Ks); auto. apply Forall_forall. intros e _. apply eval_sound. }
  pose proof (sum_shapes _ _ _ HR Ho) as Hsh. fold d in Hsh.
  destruct (sum_ub _ _ Ho) as [Hne Hub].
  assert (Hl : l <> []) by (intros ->; simpl in Hseq; congruence).
  pose proof (sequence_F2 eval l Ks Hseq) as HE.
  assert (Hbs : exists bs, map upper_eig_bound Ks = map Ok bs /\
                Forall2 (fun e b => P (d_r d) (d_f e) b) (map denote l) bs).
  { clear -HF Hwf HE Hsh. revert Hsh.
    intros Hsh. clearbody d. revert HF Hwf Hsh. induction HE as [|K e Ks l HKe HE IH]; intros HF Hwf Hsh.
    - exists []. split; constructor.
    - inversion HF as [|? ? He HF']; subst. destruct Hwf as [Hw Hwf].
      destruct (He K Hw HKe) as [Hsq [_ [b [Hb HP]]]].
      destruct IH as [bs [H1 H2]]; auto.
      { intros d' Hd'. apply Hsh. simpl. auto. }
      exists (b :: bs). simpl. split; [now rewrite Hb, H1|]. constructor; auto.
      rewrite <- (proj1 (Hsh (denote e) (or_introl eq_refl))). auto. }
  destruct Hbs as [bs [Hb1 Hb2]].
  assert (Hsyms : Forall (fun e => sym (d_r d) (d_f e)) (map denote l)).
  { clear -HF Hwf HE Hsh. clearbody d. revert HF Hwf Hsh.
    induction HE as [|K e Ks l HKe HE IH]; intros HF Hwf Hsh; simpl; constructor.
    - inversion HF as [|? ? He HF']; subst. destruct Hwf as [Hw Hwf].
      destruct (He K Hw HKe) as [Hsq [Hs _]].
      rewrite <- (proj1 (Hsh (denote e) (or_introl eq_refl))). auto.
    - inversion HF as [|? ? He HF']; subst. destruct Hwf as [Hw Hwf]. apply IH; auto.
      intros d' Hd'. apply Hsh. simpl. auto. }
  assert (Hsq : d_r d = d_c d).
  { destruct l as [|e l]; [congruence|]. inversion HE as [|K e' Ks' l' HKe HE']; subst.
    inversion HF as [|? ? He HF']; subst. destruct Hwf as [Hw Hwf].
    destruct (He K Hw HKe) as [Hs _]. exact Hs. }
  split; [exact Hsq|].
  assert (Hf : d_f d = fun i j => lsum (map (fun d' => d_f d' i j) (map denote l))).
  { unfold d. destruct (map denote l) eqn:E; [destruct l; [congruence|discriminate]|]. reflexivity. }
  split.
  - rewrite Hf. apply sum_sym. exact Hsyms.
  - exists (lsum bs). split; [rewrite Hub, Hb1; apply py_sum_result_ok|].
    rewrite Hf. apply (sum_bounds P); eauto.
Qed.

Lemma symm_ub rows o b00 m :
  symm_block_matrix rows = Ok o -> (0 < length rows)%nat ->
  nth 0 (nth 0 rows []) b00 = m ->
  (forall r, In r rows -> length r = length rows) /\
  upper_eig_bound o =
    (let! F := collect2 (length rows) (symm_2d_list_map upper_eig_bound (get2 m rows) (length rows)) in
     Ok (la_norm1 (length rows) F)).
Proof.
  intros H Hl Hm. unfold symm_block_matrix in H. destruct rows as [|row0 rows']; [simpl in Hl; lia|].
  destruct (forallb _ (row0 :: rows')) eqn:Hall; simpl negb in H; cbv iota in H; [|discriminate].
  rewrite forallb_forall in Hall. split; [intros r Hr; apply Nat.eqb_eq, Hall, Hr|].
  destruct row0 as [|b row0']; [discriminate|]. apply bind_ok in H. destruct H as [s [Hs H]].
  apply Ok_inj in H. subst o. simpl in Hm. subst m. reflexivity.
Qed.

Lemma collect2_ok n F (f : nat -> nat -> R) :
  (forall i j, (i < n)%nat -> (j < n)%nat -> F i j = Some (Ok (f i j))) ->
  exists g, collect2 n F = Ok g /\ forall i j, (i < n)%nat -> (j < n)%nat -> g i j = f i j.
Proof.
  intros H. unfold collect2.
  destruct (find _ _) as [ij|] eqn:E.
  - apply find_some in E. destruct E as [Hin E]. apply in_flat_map in Hin.
    destruct Hin as [i [Hi Hin]]. apply in_map_iff in Hin. destruct Hin as [j [<- Hj]].
    apply in_seq in Hi. apply in_seq in Hj. simpl in E. rewrite H in E by lia. discriminate.
  - eexists. split; [reflexivity|]. intros i j Hi Hj. cbv beta. now rewrite H.
Qed.

Lemma norm1_ge n F j : (j < n)%nat -> Rsum n (fun i => Rabs (F i j)) <= la_norm1 n F.
Proof.
  intros Hj. unfold la_norm1. apply np_max_ge.
  rewrite <- (vget_tab n (fun j => Rsum n (fun i => Rabs (F i j))) j Hj). apply vget_in. now rewrite tab_length.
Qed.

Lemma two_sided_ok e : forall o, wf e -> eval e = Ok o -> two_sided e -> bounded2 o (denote e).
Proof.
  induction e using expr_ind'; intros o Hwf Hev Hts; try (now destruct Hts).
  - simpl in Hev, Hwf. pose proof (toeplitz_two_sided (a_data t)) as [H1 H2].
    split; [reflexivity|]. split; [apply toep_sym|]. exists (toeplitz_upper_eig_bound (a_data t)).
    split; [now apply toeplitz_ub|]. split; auto.
  - simpl in Hev, Hwf, Hts. destruct Hwf as [Hwa Hwb], Hts as [Hta Htb].
    apply bind_ok in Hev. destruct Hev as [A [HA Hev]]. apply bind_ok in Hev. destruct Hev as [B [HB Hev]].
    destruct (IHe1 A Hwa HA Hta) as [Sa [Ya [a [Ea [La Ua]]]]].
    destruct (IHe2 B Hwb HB Htb) as [Sb [Yb [b [Eb [Lb Ub]]]]].
    pose proof (rep_r _ _ (eval_sound _ _ Hwb HB)) as Hp.
    assert (Hf : forall i j, kron_f (d_r (denote e2)) (d_f (denote e1)) (d_f (denote e2)) i j
                 = d_f (d_kron (denote e1) (denote e2)) i j).
    { intros i j. simpl. rewrite <- Sb. reflexivity. }
    cbn [denote]. unfold bounded2. cbn [d_kron d_r d_c]. split; [congruence|].
    split.
    { intros i j Hi Hj. rewrite <- !Hf. apply (sym_kron (d_r (denote e1))); auto. }
    exists (a * b). split; [eapply kronecker_ub; eauto|].
    split; [eapply below_ext; [intros; apply Hf|now apply below_kron_two_sided]
           |eapply above_ext; [intros; apply Hf|now apply above_kron_two_sided]].
  - simpl in Hev, Hwf, Hts. apply bind_ok in Hev. destruct Hev as [Ks [HK Hev]].
    apply (sum_bounded (fun n F b => below n F b /\ above n F b) l o Ks); auto.
    + intros n F G b Hx [H1 H2]. split; [eapply below_ext; eauto|eapply above_ext; eauto].
    + intros n F G a b [H1 H2] [H3 H4]. split; [now apply below_plus|now apply above_plus].
    + intros n. split; [apply below_zero|apply above_zero].
    + apply Forall_forall. intros e He K Hw HKe.
      rewrite Forall_forall in H. apply (H e He K Hw HKe). now apply (all_p_in two_sided l).
  - simpl in Hev, Hwf, Hts. destruct (diag_vals _ _ Hwf Hev) as [Hne Hub].
    split; [reflexivity|]. split; [apply diag_sym|].
    exists (np_max (a_data v)). split; auto. split; [apply diag_below|].
    intros x. simpl. rewrite (qf_diag (length (a_data v)) (vget (a_data v))).
    unfold nrm2. rewrite <- Rsum_scal_l, <- Rsum_opp. apply Rsum_le. intros i Hi.
    destruct (Hts _ (vget_in _ i Hi)) as [y [Hy Hyx]].
    pose proof (np_max_ge _ y Hy). nra.
  - cbn [eval wf two_sided] in Hev, Hwf, Hts. apply bind_ok in Hev. destruct Hev as [rows [HR Hev]].
    destruct Hwf as [Hwf [m Hm]]. destruct Hts as [Hts Hgs].
    pose proof (sequence_F2 (fun r => sequence (map eval r)) l rows HR) as HF.
    pose proof (F2_length _ _ _ HF) as HlF.
    assert (HF2 : Forall2 (Forall2 (fun K e => eval e = Ok K)) rows l).
    { clear -HF. induction HF as [|a b rows l Hab HF IH]; constructor; auto. now apply sequence_F2. }
    assert (Hpos : (0 < length rows)%nat).
    { unfold symm_block_matrix in Hev. destruct rows; [discriminate|simpl; lia]. }
    set (none := ENumpy (mk_arr [] [])). set (M0 := nth 0 (nth 0 rows []) (mk_mat (0,0)%nat (fun x => x) (fun X => X) [] (Ok 0))).
    destruct (symm_ub rows o _ M0 Hev Hpos eq_refl) as [Hsq Hub].
    set (D := length rows) in *.
    set (E := fun i j => nth j (nth i l []) none).
    assert (Hrl : forall i, (i < D)%nat -> length (nth i rows []) = D).
    { intros i Hi. apply Hsq. apply nth_In. auto. }
    assert (Hcell : forall i j, (i < D)%nat -> (j < D)%nat -> eval (E i j) = Ok (get2 M0 rows i j)).
    { intros i j Hi Hj. unfold E, get2.
      assert (Hrow : Forall2 (fun K e => eval e = Ok K) (nth i rows []) (nth i l [])).
      { apply (F2_nth (Forall2 (fun K e => eval e = Ok K))); auto. }
      apply (F2_nth (fun K e => eval e = Ok K)); auto. rewrite Hrl; auto. }
    assert (Hin : forall i j, (i < D)%nat -> (j < D)%nat -> In (nth i l []) l /\ In (E i j) (nth i l [])).
    { intros i j Hi Hj. split; [apply nth_In; lia|]. apply nth_In.
      rewrite <- (F2_length _ _ _ (F2_nth _ rows l i [] [] HF2 Hi)), Hrl; auto. }
    assert (Hb : forall i j, (i < D)%nat -> (j < D)%nat -> bounded2 (get2 M0 rows i j) (denote (E i j))).
    { intros i j Hi Hj. destruct (Hin i j Hi Hj) as [H1 H2].
      rewrite Forall_forall in H. specialize (H _ H1). rewrite Forall_forall in H.
      apply (H _ H2); auto.
      - apply (all_p_in wf (nth i l [])); auto. apply (all_p_in (fun r => all_p (map wf r)) l); auto.
      - apply (all_p_in two_sided (nth i l [])); auto. apply (all_p_in (fun r => all_p (map two_sided r)) l); auto. }
    assert (Hdm : forall i j, (i < D)%nat -> (j < D)%nat -> d_r (denote (E i j)) = m /\ d_c (denote (E i j)) = m).
    { intros i j Hi Hj. destruct (Hin i j Hi Hj) as [H1 H2]. apply (Hm _ _ H1 H2). }
    set (bnd := fun i j => match upper_eig_bound (get2 M0 rows i j) with Ok b => b | Err _ => 0 end).
    assert (Hbnd : forall i j, (i < D)%nat -> (j < D)%nat -> upper_eig_bound (get2 M0 rows i j) = Ok (bnd i j)).
    { intros i j Hi Hj. destruct (Hb i j Hi Hj) as [_ [_ [b [E1 _]]]]. unfold bnd. now rewrite E1. }
    set (bs := fun i j => bnd (Nat.min i j) (Nat.max i j)).
    destruct (collect2_ok D (symm_2d_list_map upper_eig_bound (get2 M0 rows) D) bs) as [g [Hg Hg']].
    { intros i j Hi Hj. rewrite symm_2d_spec by auto. unfold bs. rewrite Hbnd by lia. reflexivity. }
    set (G := fun i j => d_f (denote (E i j))).
    assert (Hd : denote (ESymm l) = d_blocks D m (fun i j => denote (E i j))).
    { cbn [denote]. rewrite map_length, <- HlF. fold D.
      assert (Hn : forall i j, nth j (nth i (map (map denote) l) []) d_none
                   = denote (nth j (nth i l []) none)).
      { intros i j. rewrite (map_nth (map denote) l [] i : nth i (map (map denote) l) [] = _).
        
        destruct (Nat.lt_ge_cases j (length (nth i l []))) as [Hj|Hj].
        - rewrite (nth_indep _ d_none (denote none)) by (now rewrite map_length). apply map_nth.
        - rewrite nth_overflow by (now rewrite map_length). rewrite nth_overflow by auto. reflexivity. }
      rewrite Hn. rewrite (proj1 (Hdm 0%nat 0%nat Hpos Hpos) : d_r (denote (nth 0 (nth 0 l []) none)) = m).
      f_equal. unfold d_blocks. f_equal. apply functional_extensionality; intro i; apply functional_extensionality; intro j. apply Hn. }
    rewrite Hd. unfold bounded2. cbn [d_blocks d_r d_c d_f].
    assert (Hsymb : forall i j, (i < D)%nat -> (j < D)%nat -> sym m (G i j)).
    { intros i j Hi Hj. destruct (Hb i j Hi Hj) as [_ [Hs _]]. destruct (Hdm i j Hi Hj) as [E1 _].
      rewrite E1 in Hs. exact Hs. }
    assert (Hgrid : forall i j a b, (i < D)%nat -> (j < D)%nat -> (a < m)%nat -> (b < m)%nat -> G i j a b = G j i a b).
    { intros i j a b Hi Hj Ha Hb'. destruct (Hgs i j ltac:(lia) ltac:(lia)) as [_ [_ Hfe]].
      destruct (Hdm i j Hi Hj) as [E1 E2]. unfold G, E, none in *. apply Hfe; [rewrite E1 | rewrite E2]; auto. }
    split; [reflexivity|]. split.
    { intros i j Hi Hj. assert (m <> 0%nat) by nia.
      assert (i / m < D)%nat by (apply Nat.div_lt_upper_bound; lia).
      assert (j / m < D)%nat by (apply Nat.div_lt_upper_bound; lia).
      pose proof (Nat.mod_upper_bound i m ltac:(auto)). pose proof (Nat.mod_upper_bound j m ltac:(auto)).
      change (G (i / m) (j / m) (i mod m) (j mod m) = G (j / m) (i / m) (j mod m) (i mod m))%nat.
      rewrite (Hsymb (i / m) (j / m))%nat by auto. apply Hgrid; auto. }
    exists (la_norm1 D g). split; [rewrite Hub, Hg; reflexivity|].
    apply (blocks_bound D m G bs); auto.
    + intros i j Hi Hj. unfold bs.
      destruct (Hb (Nat.min i j) (Nat.max i j)) as [_ [_ [b [E1 [L U]]]]]; [lia|lia|].
      rewrite Hbnd in E1 by lia. injection E1 as <-.
      destruct (Hdm (Nat.min i j) (Nat.max i j)) as [E1 _]; [lia|lia|]. rewrite E1 in L, U.
      assert (HG : forall a b, (a < m)%nat -> (b < m)%nat -> G (Nat.min i j) (Nat.max i j) a b = G i j a b).
      { intros a b Ha Hb'. destruct (Nat.le_ge_cases i j).
        - rewrite Nat.min_l, Nat.max_r by lia. reflexivity.
        - rewrite Nat.min_r, Nat.max_l by lia. apply Hgrid; auto. }
      split; [eapply below_ext; [exact HG|exact L]|eapply above_ext; [exact HG|exact U]].
    + intros i j Hi Hj. unfold bs. now rewrite Nat.min_comm, Nat.max_comm.
    + intros j Hj. eapply Rle_trans; [|apply (norm1_ge D g j Hj)].
      apply Req_le. apply Rsum_ext. intros i Hi. now rewrite Hg'.
  - simpl in Hev. split; [reflexivity|]. split; [apply sym_idf|]. exists 1.
    split; [now apply (identity_ub n)|]. apply id_bounds.
Qed.

Lemma bounded2_1 o d : bounded2 o d -> bounded1 o d.
Proof. intros [H1 [H2 [b [H3 [H4 _]]]]]. split; auto. split; auto. eauto. Qed.

Lemma one_sided_ok e : forall o, wf e -> eval e = Ok o -> one_sided e -> bounded1 o (denote e).
Proof.
  induction e using expr_ind'; intros o Hwf Hev Hos;
    destruct Hos as [Hos|Hos]; try (now apply bounded2_1, two_sided_ok); try (now destruct Hos).
  - simpl in Hev, Hwf, Hos. destruct Hwf as [Hwa Hwb], Hos as [Hta [Htb [Pa Pb]]].
    apply bind_ok in Hev. destruct Hev as [A [HA Hev]]. apply bind_ok in Hev. destruct Hev as [B [HB Hev]].
    destruct (IHe1 A Hwa HA Hta) as [Sa [Ya [a [Ea La]]]].
    destruct (IHe2 B Hwb HB Htb) as [Sb [Yb [b [Eb Lb]]]].
    pose proof (rep_r _ _ (eval_sound _ _ Hwb HB)) as Hp.
    assert (Hf : forall i j, kron_f (d_r (denote e2)) (d_f (denote e1)) (d_f (denote e2)) i j
                 = d_f (d_kron (denote e1) (denote e2)) i j).
    { intros i j. simpl. rewrite <- Sb. reflexivity. }
    cbn [denote]. unfold bounded1. cbn [d_kron d_r d_c]. split; [congruence|].
    split.
    { intros i j Hi Hj. rewrite <- !Hf. apply (sym_kron (d_r (denote e1))); auto. }
    exists (a * b). split; [eapply kronecker_ub; eauto|].
    eapply below_ext; [intros; apply Hf|now apply below_kron_psd].
  - simpl in Hev, Hwf, Hos. apply bind_ok in Hev. destruct Hev as [Ks [HK Hev]].
    apply (sum_bounded below l o Ks); auto.
    + intros n F G b Hx H1. eapply below_ext; eauto.
    + intros n F G a b H1 H3. now apply below_plus.
    + apply below_zero.
    + apply Forall_forall. intros e He K Hw HKe.
      rewrite Forall_forall in H. apply (H e He K Hw HKe). now apply (all_p_in one_sided l).
  - simpl in Hev, Hwf. destruct (diag_vals _ _ Hwf Hev) as [Hne Hub].
    split; [reflexivity|]. split; [apply diag_sym|].
    exists (np_max (a_data v)). split; auto. apply diag_below.
Qed.
