(** Proofs about approx/interpolation.py: one-dimensional interpolation. *)

From Coq Require Import Reals List Arith ZArith Lia Lra.
From Verif Require Import Base NDArray Model_Util Proofs_Util Model_Linalg Proofs_Linalg
  Model_Interp Spec_Interp Proofs_Sparse.
Import ListNotations.
Open Scope R_scope.

Lemma add_terms_ok n c term (T : Z -> csr) convs acc :
  c_r acc = n -> c_c acc = c -> convs <> [] ->
  (forall conv, In conv convs -> term conv = Ok (T conv)) ->
  exists F, add_terms term convs acc = Ok (csr_of n c F) /\
    forall i j, (i < n)%nat -> (j < c)%nat ->
      F i j = csr_get acc i j + lsum (map (fun conv => csr_get (T conv) i j) convs).
Proof.
  unfold add_terms. revert acc. induction convs as [|v convs IH]; intros acc Hr Hc Hne HT; [congruence|].
  cbn [fold_left]. rewrite (HT v (or_introl eq_refl)). cbn [bind]. 
  destruct convs as [|v' convs].
  - exists (fun i j => csr_get acc i j + csr_get (T v) i j). cbn [fold_left]. split.
    + unfold csr_add. now rewrite Hr, Hc.
    + intros i j Hi Hj. simpl. ring.
  - destruct (IH (csr_add acc (T v))) as [F [HF HE]].
    + unfold csr_add. rewrite Hr. apply csr_of_shape.
    + unfold csr_add. rewrite Hr, Hc. apply csr_of_shape.
    + discriminate.
    + intros conv Hin. apply HT. simpl in *. tauto.
    + exists F. split; [exact HF|]. intros i j Hi Hj. rewrite HE by auto.
      unfold csr_add. rewrite Hr, Hc, csr_of_get by auto.
      destruct (Nat.ltb_spec j c); [|lia]. cbn [map lsum fold_right]. ring.
Qed.

(** ** The window *)

Lemma floor_bounds x : IZR (np_floor x) <= x < IZR (np_floor x) + 1.
Proof. unfold np_floor. destruct (base_Int_part x) as [H1 H2]. lra. Qed.

Lemma floor_unique x z : IZR z <= x < IZR z + 1 -> np_floor x = z.
Proof.
  intros [H1 H2]. pose proof (floor_bounds x) as [H3 H4].
  assert (np_floor x < z + 1)%Z by (apply lt_IZR; rewrite plus_IZR; lra).
  assert (z < np_floor x + 1)%Z by (apply lt_IZR; rewrite plus_IZR; lra). lia.
Qed.

(** Weight of the window position [conv] at fractional offset [t]. *)
Definition wgt (t : R) (conv : Z) : R := cubic_val (Rabs (t + IZR conv)).

Lemma Rleb_true a b : a <= b -> Rleb a b = true.
Proof. intros. unfold Rleb. destruct (Rle_dec a b); auto; lra. Qed.
Lemma Rleb_false a b : b < a -> Rleb a b = false.
Proof. intros. unfold Rleb. destruct (Rle_dec a b); auto; lra. Qed.
Lemma Rltb_false a b : b <= a -> Rltb a b = false.
Proof. intros. unfold Rltb. destruct (Rlt_dec a b); auto; lra. Qed.

Lemma wgt_m2 t : 0 <= t < 1 -> wgt t (-2) = - (1 / 2) * (1 - t) * (t * t).
Proof.
  intros H. unfold wgt. rewrite Rabs_left by lra. unfold cubic_val. rewrite Rleb_false by lra. field.
Qed.
Lemma wgt_m1 t : 0 <= t < 1 -> wgt t (-1) = 3 / 2 * (1 - t) * (1 - t) * (1 - t) - 5 / 2 * (1 - t) * (1 - t) + 1.
Proof.
  intros H. unfold wgt. rewrite Rabs_left by lra. unfold cubic_val. rewrite Rleb_true by lra. field.
Qed.
Lemma wgt_0 t : 0 <= t < 1 -> wgt t 0 = 3 / 2 * t * t * t - 5 / 2 * t * t + 1.
Proof.
  intros H. unfold wgt. rewrite Rplus_0_r. rewrite Rabs_right by lra. unfold cubic_val. rewrite Rleb_true by lra. field.
Qed.
Lemma wgt_1 t : 0 <= t < 1 -> wgt t 1 = - (1 / 2) * t * ((1 - t) * (1 - t)).
Proof.
  intros H. unfold wgt. rewrite Rabs_right by lra. unfold cubic_val. destruct (Req_dec t 0) as [->|].
  - rewrite Rleb_true by lra. field.
  - rewrite Rleb_false by lra. field.
Qed.

(** Moments of the weights: the values 1, x, x^2 at the nodes. *)
Lemma wgt_moments t a b c : 0 <= t < 1 ->
  lsum (map (fun conv => wgt t conv * (a + b * (IZR (- conv) - t) + c * ((IZR (- conv) - t) * (IZR (- conv) - t)))) conv_window) = a.
Proof.
  intros H. cbn [conv_window map lsum fold_right]. rewrite wgt_m2, wgt_m1, wgt_0, wgt_1 by auto.
  simpl Z.opp. field.
Qed.

Lemma cubic_kernel_ok x : (forall v, In v x -> Rabs v <= 2) ->
  cubic_kernel x = Ok (map (fun v => cubic_val (Rabs v)) x).
Proof.
  intros H. unfold cubic_kernel.
  destruct (existsb (fun v => Rltb 2 v) (map Rabs x)) eqn:E.
  - apply existsb_exists in E. destruct E as [v [Hv E]]. apply in_map_iff in Hv. destruct Hv as [w [<- Hw]].
    specialize (H w Hw). rewrite Rltb_false in E by auto. discriminate.
  - now rewrite map_map.
Qed.

Lemma clamp_lt size z : (0 < size)%nat -> (clamp_idx size z < size)%nat.
Proof.
  intros H. unfold clamp_idx. destruct (Z.ltb_spec z 0).
  - destruct (Z.leb_spec (Z.of_nat size) 0); lia.
  - destruct (Z.leb_spec (Z.of_nat size) z); lia.
Qed.

Lemma clamp_in size z : (0 <= z < Z.of_nat size)%Z -> clamp_idx size z = Z.to_nat z.
Proof.
  intros H. unfold clamp_idx. destruct (Z.ltb_spec z 0); [lia|].
  destruct (Z.leb_spec (Z.of_nat size) z); lia.
Qed.

Lemma frac_window fs d conv : In d (map (fun d => d + IZR conv) (dists_to fs)) -> In conv conv_window -> Rabs d <= 2.
Proof.
  intros H Hc. apply in_map_iff in H. destruct H as [e [<- He]]. apply in_map_iff in He. destruct He as [f [<- Hf]].
  pose proof (floor_bounds f). simpl in Hc. apply Rabs_le.
  destruct Hc as [<-|[<-|[<-|[<-|[]]]]]; simpl; lra.
Qed.

(** The summand for one window position. *)
Definition term_csr (n size : nat) (fs : vec) (conv : Z) : csr :=
  mk_csr n size (seq 0 (n + 1)) (map (fun f => clamp_idx size (np_floor f - conv)) fs)
    (map (fun f => wgt (f - IZR (np_floor f)) conv) fs).

Lemma interp_term_ok n size fs conv : In conv conv_window ->
  interp_term n size (closest fs) (dists_to fs) conv = Ok (term_csr n size fs conv).
Proof.
  intros Hc. unfold interp_term. rewrite cubic_kernel_ok by (intros v Hv; now apply (frac_window fs v conv)).
  cbn [bind]. unfold term_csr, closest, dists_to. rewrite !map_map. reflexivity.
Qed.

Lemma term_get n size fs conv i j : length fs = n -> (i < n)%nat ->
  csr_get (term_csr n size fs conv) i j =
  (let f := vget fs i in if Nat.eqb (clamp_idx size (np_floor f - conv)) j then wgt (f - IZR (np_floor f)) conv else 0).
Proof.
  intros Hl Hi. unfold csr_get, term_csr. rewrite single_row by (rewrite ?map_length; auto).
  cbn [map lsum fold_right fst snd]. rewrite Rplus_0_r. unfold vget.
  rewrite (nth_indep _ 0%nat (clamp_idx size (np_floor 0 - conv))) by (rewrite map_length; lia).
  rewrite (map_nth (fun f => clamp_idx size (np_floor f - conv))).
  rewrite (nth_indep (map (fun f => wgt (f - IZR (np_floor f)) conv) fs) 0 (wgt (0 - IZR (np_floor 0)) conv)) by (rewrite map_length; lia).
  rewrite (map_nth (fun f => wgt (f - IZR (np_floor f)) conv)). reflexivity.
Qed.

(** ** interp_cubic *)

(** Entry and dot-product forms of the result. *)
Record interp_ok (W : csr) (n size : nat) (fs : vec) : Prop := mk_interp_ok {
  io_r : c_r W = n;
  io_c : c_c W = size;
  io_wf : csr_wf W;
  io_get : forall i j, (i < n)%nat -> (j < size)%nat ->
    csr_get W i j = lsum (map (fun conv => let f := vget fs i in
      if Nat.eqb (clamp_idx size (np_floor f - conv)) j then wgt (f - IZR (np_floor f)) conv else 0) conv_window);
  io_cols : forall i, (i < n)%nat -> NoDup (map fst (csr_row W i)) /\
    forall j, In j (map fst (csr_row W i)) ->
      exists conv, In conv conv_window /\ j = clamp_idx size (np_floor (vget fs i) - conv)
}.

Lemma lsum_nonzero {A} (f : A -> R) l : lsum (map f l) <> 0 -> exists x, In x l /\ f x <> 0.
Proof.
  induction l as [|x l IH]; cbn [map lsum fold_right]; intros H; [lra|].
  destruct (Req_dec (f x) 0) as [E|E].
  - destruct IH as [y [Hy Hf]]; [unfold lsum; lra|]. exists y. simpl. auto.
  - exists x. simpl. auto.
Qed.

Lemma csr_of_interp n size F fs :
  (forall i j, (i < n)%nat -> (j < size)%nat ->
    F i j = lsum (map (fun conv => let f := vget fs i in
      if Nat.eqb (clamp_idx size (np_floor f - conv)) j then wgt (f - IZR (np_floor f)) conv else 0) conv_window)) ->
  interp_ok (csr_of n size F) n size fs.
Proof.
  intros HF. constructor.
  - apply csr_of_shape.
  - apply csr_of_shape.
  - apply csr_of_wf.
  - intros i j Hi Hj. rewrite csr_of_get by auto. destruct (Nat.ltb_spec j size); [|lia]. auto.
  - intros i Hi. destruct (csr_of_row_cols n size F i Hi) as [H1 H2]. split; auto.
    intros j Hj. destruct (H2 j Hj) as [Hjs Hnz]. rewrite HF in Hnz by auto.
    apply lsum_nonzero in Hnz. destruct Hnz as [conv [Hc Hn]]. exists conv. split; auto.
    cbv zeta in Hn. destruct (Nat.eqb_spec (clamp_idx size (np_floor (vget fs i) - conv)) j); [auto|lra].
Qed.

Lemma interp_cubic_ok (g s : vec) :
  (4 <= length g)%nat -> s <> [] ->
  exists W, interp_cubic (arr1 g) (arr1 s) = Ok W /\
    interp_ok W (length s) (length g) (factors (vget g 0) (vget g 1 - vget g 0) s).
Proof.
  intros Hg Hs. unfold interp_cubic, np_size. cbn [np_len arr1 a_shape a_data bind].
  replace (nprod [length s]) with (length s) by (simpl; lia).
  destruct (Nat.eqb_spec (length s) 0); [destruct s; simpl in *; [congruence|lia]|].
  cbn [length Nat.eqb negb]. destruct (Nat.ltb_spec (length g) 4); [lia|].
  set (fs := factors _ _ s).
  assert (Hfl : length fs = length s) by (unfold fs, factors; now rewrite map_length).
  destruct (add_terms_ok (length s) (length g) (interp_term (length s) (length g) (closest fs) (dists_to fs))
     (term_csr (length s) (length g) fs) conv_window (csr_zero (length s) (length g))) as [F [HF HE]]; auto.
  - discriminate.
  - intros conv Hc. now apply interp_term_ok.
  - exists (csr_of (length s) (length g) F). split; [exact HF|].
    apply csr_of_interp. intros i j Hi Hj. rewrite HE by auto. rewrite csr_zero_get, Rplus_0_l.
    f_equal. apply map_ext. intros conv. now apply term_get.
Qed.

Lemma interp_ok_dot W n size fs i phi : interp_ok W n size fs -> (0 < size)%nat -> (i < n)%nat ->
  interp_value W i phi =
  lsum (map (fun conv => let f := vget fs i in
    wgt (f - IZR (np_floor f)) conv * phi (clamp_idx size (np_floor f - conv))) conv_window).
Proof.
  intros H Hs Hi. unfold interp_value. rewrite (io_c _ _ _ _ H).
  rewrite (Rsum_ext size _ (fun j => lsum (map (fun conv => let f := vget fs i in
      if Nat.eqb (clamp_idx size (np_floor f - conv)) j then wgt (f - IZR (np_floor f)) conv else 0) conv_window) * phi j)).
  2:{ intros j Hj. now rewrite (io_get _ _ _ _ H). }
  generalize conv_window as convs. induction convs as [|v convs IH]; cbn [map lsum fold_right].
  - apply Rsum_zero. intros. ring.
  - change (fold_right Rplus 0 ?l) with (lsum l). rewrite <- IH. cbv zeta.
    rewrite <- (Rsum_delta' size (clamp_idx size (np_floor (vget fs i) - v))
       (fun j => wgt (vget fs i - IZR (np_floor (vget fs i))) v * phi j)) by (now apply clamp_lt).
    rewrite <- Rsum_plus. apply Rsum_ext. intros j Hj.
    destruct (Nat.eqb (clamp_idx size (np_floor (vget fs i) - v)) j); ring.
Qed.

Lemma interp_nnz W n size fs i : interp_ok W n size fs -> (i < n)%nat -> (length (csr_row W i) <= 4)%nat.
Proof.
  intros H Hi. destruct (io_cols _ _ _ _ H i Hi) as [H1 H2].
  rewrite <- (map_length fst). change 4%nat with (length (map (fun conv => clamp_idx size (np_floor (vget fs i) - conv)) conv_window)).
  apply NoDup_incl_length; auto. intros j Hj. destruct (H2 j Hj) as [conv [Hc ->]]. apply in_map_iff. eauto.
Qed.
