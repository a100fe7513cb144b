(** interp_bicubic is the tensor product of two one-dimensional interpolants. *)

From Coq Require Import Reals List Arith ZArith Lia Lra.
From Verif Require Import Base NDArray Model_Util Proofs_Util Model_Linalg Proofs_Linalg
  Model_Interp Spec_Interp Proofs_Sparse Proofs_Interp.
Import ListNotations.
Open Scope R_scope.

Lemma nth_concat_uniform {A} n (ls : list (list A)) q i d :
  (forall l, In l ls -> length l = n) -> (q < length ls)%nat -> (i < n)%nat ->
  nth (q * n + i) (concat ls) d = nth i (nth q ls []) d.
Proof.
  revert q. induction ls as [|l ls IH]; intros q Hl Hq Hi; [simpl in Hq; lia|].
  assert (length l = n) as Hn by (apply Hl; simpl; auto).
  destruct q as [|q]; cbn [concat nth].
  - rewrite app_nth1 by (simpl; lia). reflexivity.
  - rewrite app_nth2 by (rewrite Hn; nia). rewrite Hn. replace (S q * n + i - n)%nat with (q * n + i)%nat by nia.
    apply IH; auto; [intros; apply Hl; simpl; auto|simpl in Hq; lia].
Qed.

Lemma concat_uniform_length {A} n (ls : list (list A)) :
  (forall l, In l ls -> length l = n) -> length (concat ls) = (length ls * n)%nat.
Proof.
  induction ls as [|l ls IH]; intros Hl; auto. cbn [concat length]. rewrite app_length, IH.
  - rewrite (Hl l) by (simpl; auto). lia.
  - intros; apply Hl; simpl; auto.
Qed.

Lemma csr_vstack_get c n (l : list csr) q i j :
  (forall A, In A l -> c_r A = n) -> (q < length l)%nat -> (i < n)%nat ->
  csr_get (csr_vstack c l) (q * n + i) j = csr_get (nth q l (csr_zero 0 0)) i j.
Proof.
  intros Hl Hq Hi. unfold csr_get, csr_vstack.
  assert (Hu : forall r, In r (map (fun A => tab (c_r A) (csr_row A)) l) -> length r = n).
  { intros r Hr. apply in_map_iff in Hr. destruct Hr as [A [<- HA]]. rewrite tab_length. auto. }
  rewrite csr_row_from_rows.
  - rewrite (nth_concat_uniform n) by (rewrite ?map_length; auto).
    rewrite (nth_indep _ [] (tab (c_r (csr_zero 0 0)) (csr_row (csr_zero 0 0)))) by (rewrite map_length; auto).
    rewrite (map_nth (fun A => tab (c_r A) (csr_row A))).
    rewrite nth_tab; auto. rewrite (Hl (nth q l _)); auto. now apply nth_In.
  - rewrite (concat_uniform_length n), map_length by auto. nia.
Qed.

(** ** xcsr *)

Definition xterm_csr (n mx my : nat) (fx fy : vec) (yconv conv : Z) : csr :=
  mk_csr n (mx * my) (seq 0 (n + 1))
    (tab n (fun i => (clamp_idx mx (np_floor (vget fx i) - conv) * my + clamp_idx my (np_floor (vget fy i) - yconv))%nat))
    (tab n (fun i => wgt (vget fx i - IZR (np_floor (vget fx i))) conv)).

Lemma bicubic_xterm_ok n mx my fx fy yconv conv :
  length fx = n -> length fy = n -> In conv conv_window ->
  bicubic_xterm n mx my (map (fun z => clamp_idx my (z - yconv)) (closest fy)) (closest fx) (dists_to fx) conv
  = Ok (xterm_csr n mx my fx fy yconv conv).
Proof.
  intros Hx Hy Hc. unfold bicubic_xterm. rewrite cubic_kernel_ok by (intros v Hv; now apply (frac_window fx v conv)).
  cbn [bind]. f_equal. unfold xterm_csr, closest, dists_to. rewrite !map_map.
  rewrite (vec_as_tab fx), (vec_as_tab fy) at 1. rewrite Hx, Hy, !map_tab, combine_tab, map_tab. 
  f_equal. rewrite (vec_as_tab fx) at 1. rewrite Hx, map_tab. reflexivity.
Qed.

Lemma xterm_get n mx my fx fy yconv conv i j : (i < n)%nat ->
  csr_get (xterm_csr n mx my fx fy yconv conv) i j =
  if Nat.eqb (clamp_idx mx (np_floor (vget fx i) - conv) * my + clamp_idx my (np_floor (vget fy i) - yconv)) j
  then wgt (vget fx i - IZR (np_floor (vget fx i))) conv else 0.
Proof.
  intros Hi. unfold csr_get, xterm_csr. rewrite single_row by (rewrite ?tab_length; auto).
  cbn [map lsum fold_right fst snd]. rewrite Rplus_0_r. unfold vget. rewrite !nth_tab by auto. reflexivity.
Qed.

Lemma bicubic_xcsr_ok n mx my fx fy yconv :
  length fx = n -> length fy = n ->
  exists F, bicubic_xcsr n mx my (closest fx) (closest fy) (dists_to fx) yconv = Ok (csr_of n (mx * my) F) /\
    forall i j, (i < n)%nat -> (j < mx * my)%nat ->
      F i j = lsum (map (fun conv =>
        if Nat.eqb (clamp_idx mx (np_floor (vget fx i) - conv) * my + clamp_idx my (np_floor (vget fy i) - yconv)) j
        then wgt (vget fx i - IZR (np_floor (vget fx i))) conv else 0) conv_window).
Proof.
  intros Hx Hy. unfold bicubic_xcsr.
  destruct (add_terms_ok n (mx * my) (bicubic_xterm n mx my (map (fun z => clamp_idx my (z - yconv)) (closest fy)) (closest fx) (dists_to fx))
    (xterm_csr n mx my fx fy yconv) conv_window (csr_zero n (mx * my))) as [F [HF HE]]; auto.
  - discriminate.
  - intros conv Hc. now apply bicubic_xterm_ok.
  - exists F. split; auto. intros i j Hi Hj. rewrite HE by auto. rewrite csr_zero_get, Rplus_0_l.
    f_equal. apply map_ext. intros conv. now apply xterm_get.
Qed.

(** ** ycsr *)

Lemma conv_window_range conv : In conv conv_window -> (-2 <= conv <= 1)%Z.
Proof. simpl. intros H. lia. Qed.

Definition yterm_csr (n : nat) (fy : vec) (conv : Z) : csr :=
  mk_csr n (n * 4) (seq 0 (n + 1)) (map (fun i => (i + n * Z.to_nat (conv + 2))%nat) (seq 0 n))
    (tab n (fun i => wgt (vget fy i - IZR (np_floor (vget fy i))) conv)).

Lemma bicubic_yterm_ok n fy conv : length fy = n -> In conv conv_window ->
  bicubic_yterm n (dists_to fy) conv = Ok (yterm_csr n fy conv).
Proof.
  intros Hy Hc. unfold bicubic_yterm. rewrite cubic_kernel_ok by (intros v Hv; now apply (frac_window fy v conv)).
  cbn [bind]. f_equal. unfold yterm_csr, dists_to. rewrite !map_map.
  rewrite (vec_as_tab fy) at 1. rewrite Hy, map_tab. reflexivity.
Qed.

Lemma yterm_get n fy conv i k : (i < n)%nat ->
  csr_get (yterm_csr n fy conv) i k =
  if Nat.eqb (i + n * Z.to_nat (conv + 2)) k then wgt (vget fy i - IZR (np_floor (vget fy i))) conv else 0.
Proof.
  intros Hi. unfold csr_get, yterm_csr. rewrite single_row by (rewrite ?map_length, ?seq_length, ?tab_length; auto).
  cbn [map lsum fold_right fst snd]. rewrite Rplus_0_r. unfold vget. rewrite nth_tab by auto.
  rewrite (nth_indep _ 0%nat (0 + n * Z.to_nat (conv + 2))%nat) by (rewrite map_length, seq_length; auto).
  rewrite (map_nth (fun i => (i + n * Z.to_nat (conv + 2))%nat)), seq_nth by auto. reflexivity.
Qed.

Lemma bicubic_ycsr_ok n fy : length fy = n ->
  exists F, add_terms (bicubic_yterm n (dists_to fy)) conv_window (csr_zero n (n * 4)) = Ok (csr_of n (n * 4) F) /\
    forall i k, (i < n)%nat -> (k < n * 4)%nat ->
      F i k = lsum (map (fun conv =>
        if Nat.eqb (i + n * Z.to_nat (conv + 2)) k then wgt (vget fy i - IZR (np_floor (vget fy i))) conv else 0) conv_window).
Proof.
  intros Hy.
  destruct (add_terms_ok n (n * 4) (bicubic_yterm n (dists_to fy)) (yterm_csr n fy) conv_window (csr_zero n (n * 4)))
    as [F [HF HE]]; auto.
  - discriminate.
  - intros conv Hc. now apply bicubic_yterm_ok.
  - exists F. split; auto. intros i k Hi Hk. rewrite HE by auto. rewrite csr_zero_get, Rplus_0_l.
    f_equal. apply map_ext. intros conv. now apply yterm_get.
Qed.

(** ** The product *)

Lemma flat_eqb my ax ay bx by_ : (ay < my)%nat -> (by_ < my)%nat ->
  Nat.eqb (ax * my + ay) (bx * my + by_) = (Nat.eqb ax bx && Nat.eqb ay by_)%bool.
Proof.
  intros Ha Hb. destruct (Nat.eqb_spec ax bx) as [->|N]; cbn [andb].
  - destruct (Nat.eqb_spec ay by_) as [->|M]; [apply Nat.eqb_refl|]. apply Nat.eqb_neq. lia.
  - apply Nat.eqb_neq. intros E. apply N. nia.
Qed.

Lemma samples_cols n data : (length (arr_col 2 0 (mk_arr [n; 2%nat] data)) = n)%nat /\ (length (arr_col 2 1 (mk_arr [n; 2%nat] data)) = n)%nat.
Proof. unfold arr_col. cbn [a_shape hd]. rewrite !tab_length. auto. Qed.

(** What the bicubic matrix contains: at row [i], column [c], the sum over the
    16 window pairs that land on [c]. *)
Lemma interp_bicubic_ok (gx gy : vec) n (data : vec) :
  (4 <= length gx)%nat -> (4 <= length gy)%nat -> (0 < n)%nat ->
  let S := mk_arr [n; 2%nat] data in
  let fx := factors (vget gx 0) (vget gx 1 - vget gx 0) (arr_col 2 0 S) in
  let fy := factors (vget gy 0) (vget gy 1 - vget gy 0) (arr_col 2 1 S) in
  exists F, interp_bicubic (arr1 gx) (arr1 gy) S = Ok (csr_of n (length gx * length gy) F) /\
    forall i c, (i < n)%nat -> (c < length gx * length gy)%nat ->
      F i c = lsum (map (fun yc => wgt (vget fy i - IZR (np_floor (vget fy i))) yc *
        lsum (map (fun xc =>
          if Nat.eqb (clamp_idx (length gx) (np_floor (vget fx i) - xc) * length gy + clamp_idx (length gy) (np_floor (vget fy i) - yc)) c
          then wgt (vget fx i - IZR (np_floor (vget fx i))) xc else 0) conv_window)) conv_window).
Proof.
  intros Hgx Hgy Hn S fx fy.
  assert (Hfx : length fx = n) by (unfold fx, factors; rewrite map_length; apply samples_cols).
  assert (Hfy : length fy = n) by (unfold fy, factors; rewrite map_length; apply samples_cols).
  unfold interp_bicubic, np_size. change (a_shape S) with [n; 2%nat]. change (a_shape (arr1 gx)) with [length gx]. change (a_shape (arr1 gy)) with [length gy].
  change (a_data (arr1 gx)) with gx. change (a_data (arr1 gy)) with gy. cbv zeta. cbn [length].
  replace (nprod [length gx]) with (length gx) by (simpl; lia).
  replace (nprod [length gy]) with (length gy) by (simpl; lia).
  destruct (Nat.eqb_spec n 0); [lia|]. cbn [Nat.eqb negb].
  destruct (Nat.ltb_spec (length gx) 4); [lia|]. destruct (Nat.ltb_spec (length gy) 4); [lia|].
  fold fx. fold fy.
  set (mx := length gx) in *. set (my := length gy) in *.
  destruct (bicubic_xcsr_ok n mx my fx fy (-2) Hfx Hfy) as [X0 [HX0 EX0]].
  destruct (bicubic_xcsr_ok n mx my fx fy (-1) Hfx Hfy) as [X1 [HX1 EX1]].
  destruct (bicubic_xcsr_ok n mx my fx fy 0 Hfx Hfy) as [X2 [HX2 EX2]].
  destruct (bicubic_xcsr_ok n mx my fx fy 1 Hfx Hfy) as [X3 [HX3 EX3]].
  destruct (bicubic_ycsr_ok n fy Hfy) as [Y [HY EY]].
  unfold conv_window at 1. cbn [map_result].
  rewrite HX0. cbn [bind]. rewrite HX1. cbn [bind]. rewrite HX2. cbn [bind]. rewrite HX3. cbn [bind].
  rewrite HY. cbn [bind].
  set (l := [csr_of n (mx * my) X0; csr_of n (mx * my) X1; csr_of n (mx * my) X2; csr_of n (mx * my) X3]).
  eexists. split.
  { unfold csr_mul. rewrite (proj1 (csr_of_shape n (n * 4) Y)), (proj2 (csr_of_shape n (n * 4) Y)). reflexivity. }
  intros i c Hi Hc. cbv beta.
  assert (Hl : forall A, In A l -> c_r A = n).
  { intros A [<-|[<-|[<-|[<-|[]]]]]; apply csr_of_shape. }
  rewrite Nat.mul_comm, Rsum_flatten.
  rewrite (Rsum_ext 4 _ (fun q => Rsum n (fun k => csr_get (csr_of n (n * 4) Y) i (q * n + k) * csr_get (nth q l (csr_zero 0 0)) k c))).
  2:{ intros q Hq. apply Rsum_ext. intros k Hk. f_equal; [now rewrite (Nat.mul_comm 4 n)|]. apply csr_vstack_get; auto. }
  assert (HYq : forall q k, (q < 4)%nat -> (k < n)%nat -> csr_get (csr_of n (n * 4) Y) i (q * n + k) =
     if Nat.eqb k i then wgt (vget fy i - IZR (np_floor (vget fy i))) (Z.of_nat q - 2) else 0).
  { intros q k Hq Hk. rewrite csr_of_get by auto.
    destruct (Nat.ltb_spec (q * n + k) (n * 4)); [|nia]. rewrite EY by (auto; nia).
    cbn [conv_window map lsum fold_right].
    assert (Hz : forall a, Nat.eqb (i + n * a) (q * n + k) = (Nat.eqb a q && Nat.eqb i k)%bool).
    { intros a. rewrite (Nat.add_comm i), (Nat.mul_comm n a). now apply flat_eqb. }
    rewrite !Hz. rewrite (Nat.eqb_sym k i).
    destruct q as [|[|[|[|q]]]]; [| | | |lia]; simpl; destruct (Nat.eqb i k); simpl; ring. }
  assert (HQ : forall q, (q < 4)%nat ->
    Rsum n (fun k => csr_get (csr_of n (n * 4) Y) i (q * n + k) * csr_get (nth q l (csr_zero 0 0)) k c)
    = wgt (vget fy i - IZR (np_floor (vget fy i))) (Z.of_nat q - 2) * csr_get (nth q l (csr_zero 0 0)) i c).
  { intros q Hq. rewrite <- (Rsum_delta n i (fun k => wgt (vget fy i - IZR (np_floor (vget fy i))) (Z.of_nat q - 2) * csr_get (nth q l (csr_zero 0 0)) k c)) by auto.
    apply Rsum_ext. intros k Hk. rewrite HYq by auto. destruct (Nat.eqb k i); ring. }
  rewrite (Rsum_ext 4 _ (fun q => wgt (vget fy i - IZR (np_floor (vget fy i))) (Z.of_nat q - 2) * csr_get (nth q l (csr_zero 0 0)) i c)) by (intros; now apply HQ).
  cbn [Rsum]. unfold l. cbn [nth]. rewrite !csr_of_get by auto.
  destruct (Nat.ltb_spec c (mx * my)); [|lia].
  rewrite EX0, EX1, EX2, EX3 by auto.
  cbn [Z.of_nat]. simpl Z.sub.
  match goal with |- _ = lsum (map ?f conv_window) =>
    change (lsum (map f conv_window)) with (f (-2)%Z + (f (-1)%Z + (f 0%Z + (f 1%Z + 0)))) end.
  cbv beta. ring.
Qed.

Lemma lsum_lsum_prod {A B} (f : A -> R) (g : B -> R) la lb :
  lsum (map (fun a => f a * lsum (map g lb)) la) = lsum (map f la) * lsum (map g lb).
Proof. induction la as [|a la IH]; cbn [map lsum fold_right]; unfold lsum in *; lra. Qed.

(** The entry at column [ix * my + iy] is the product of the entries of the
    two one-dimensional interpolants. *)
Lemma interp_bicubic_entries (gx gy : vec) n (data : vec) Wx Wy :
  let S := mk_arr [n; 2%nat] data in
  (4 <= length gx)%nat -> (4 <= length gy)%nat -> (0 < n)%nat ->
  interp_cubic (arr1 gx) (arr1 (arr_col 2 0 S)) = Ok Wx ->
  interp_cubic (arr1 gy) (arr1 (arr_col 2 1 S)) = Ok Wy ->
  exists W, interp_bicubic (arr1 gx) (arr1 gy) S = Ok W /\
    c_r W = n /\ c_c W = (length gx * length gy)%nat /\ csr_wf W /\
    (forall i ix iy, (i < n)%nat -> (ix < length gx)%nat -> (iy < length gy)%nat ->
       csr_get W i (ix * length gy + iy) = csr_get Wx i ix * csr_get Wy i iy) /\
    (forall i, (i < n)%nat -> (length (csr_row W i) <= 16)%nat).
Proof.
  intros S Hgx Hgy Hn HWx HWy.
  destruct (samples_cols n data) as [L0 L1]. fold S in L0, L1.
  destruct (interp_cubic_ok gx (arr_col 2 0 S) Hgx) as [Wx' [EWx Hox]]; [intros E; rewrite E in L0; simpl in L0; lia|].
  destruct (interp_cubic_ok gy (arr_col 2 1 S) Hgy) as [Wy' [EWy Hoy]]; [intros E; rewrite E in L1; simpl in L1; lia|].
  rewrite HWx in EWx. apply Ok_inj in EWx. subst Wx'.
  rewrite HWy in EWy. apply Ok_inj in EWy. subst Wy'.
  rewrite L0 in Hox. rewrite L1 in Hoy.
  destruct (interp_bicubic_ok gx gy n data Hgx Hgy Hn) as [F [HF HE]]. fold S in HF, HE.
  set (fx := factors (vget gx 0) _ _) in *. set (fy := factors (vget gy 0) _ _) in *.
  exists (csr_of n (length gx * length gy) F). split; [exact HF|].
  split; [apply csr_of_shape|]. split; [apply csr_of_shape|]. split; [apply csr_of_wf|]. split.
  - intros i ix iy Hi Hx Hy. rewrite csr_of_get by auto.
    assert (Hc : (ix * length gy + iy < length gx * length gy)%nat) by nia.
    destruct (Nat.ltb_spec (ix * length gy + iy) (length gx * length gy)); [|lia].
    rewrite HE by auto. rewrite (io_get _ _ _ _ Hox), (io_get _ _ _ _ Hoy) by auto. cbv zeta.
    rewrite (Rmult_comm (lsum _)), <- lsum_lsum_prod. f_equal. apply map_ext. intros yc.
    assert (Hy2 : (clamp_idx (length gy) (np_floor (vget fy i) - yc) < length gy)%nat) by (apply clamp_lt; lia).
    destruct (Nat.eqb_spec (clamp_idx (length gy) (np_floor (vget fy i) - yc)) iy) as [E|E].
    + f_equal. f_equal. apply map_ext. intros xc. rewrite flat_eqb by auto. rewrite E, Nat.eqb_refl, Bool.andb_true_r.
      reflexivity.
    + rewrite Rmult_0_l. rewrite (map_ext _ (fun _ => 0)).
      * cbn [conv_window map lsum fold_right]. ring.
      * intros xc. rewrite flat_eqb by auto. apply Nat.eqb_neq in E. rewrite E, Bool.andb_false_r. reflexivity.
  - intros i Hi. destruct (csr_of_row_cols n (length gx * length gy) F i Hi) as [N1 N2].
    rewrite <- (map_length fst).
    set (cand := flat_map (fun yc => map (fun xc => (clamp_idx (length gx) (np_floor (vget fx i) - xc) * length gy
      + clamp_idx (length gy) (np_floor (vget fy i) - yc))%nat) conv_window) conv_window).
    change 16%nat with (length cand). apply NoDup_incl_length; auto.
    intros j Hj. destruct (N2 j Hj) as [Hjc Hnz]. rewrite HE in Hnz by auto.
    apply lsum_nonzero in Hnz. destruct Hnz as [yc [Hyc Hz]].
    assert (Hz2 : lsum (map (fun xc : Z =>
          if clamp_idx (length gx) (np_floor (vget fx i) - xc) * length gy +
             clamp_idx (length gy) (np_floor (vget fy i) - yc) =? j
          then wgt (vget fx i - IZR (np_floor (vget fx i))) xc else 0) conv_window) <> 0).
    { intros Z. apply Hz. rewrite Z. ring. }
    apply lsum_nonzero in Hz2. destruct Hz2 as [xc [Hxc Hz2]].
    unfold cand. apply in_flat_map. exists yc. split; auto. apply in_map_iff. exists xc. split; auto.
    destruct (Nat.eqb_spec (clamp_idx (length gx) (np_floor (vget fx i) - xc) * length gy +
             clamp_idx (length gy) (np_floor (vget fy i) - yc)) j); [auto|lra].
Qed.

(** Products of functions factor. *)
Lemma bicubic_product W Wx Wy mx my i (p q : nat -> R) :
  c_c W = (mx * my)%nat -> c_c Wx = mx -> c_c Wy = my ->
  (forall ix iy, (ix < mx)%nat -> (iy < my)%nat -> csr_get W i (ix * my + iy) = csr_get Wx i ix * csr_get Wy i iy) ->
  interp_value W i (fun c => p (c / my)%nat * q (c mod my)%nat) = interp_value Wx i p * interp_value Wy i q.
Proof.
  intros Hc Hx Hy HE. unfold interp_value. rewrite Hc, Hx, Hy, Rsum_flatten, <- Rsum_scal_r.
  apply Rsum_ext. intros ix Hix. rewrite <- Rsum_scal_l. apply Rsum_ext. intros iy Hiy.
  rewrite HE by auto.
  assert (D : ((ix * my + iy) / my)%nat = ix) by (rewrite Nat.div_add_l, Nat.div_small by lia; lia).
  assert (M : ((ix * my + iy) mod my)%nat = iy) by (rewrite Nat.add_comm, Nat.mod_add, Nat.mod_small by lia; lia).
  rewrite D, M. ring.
Qed.
