(** Proofs about linalg/shur.py: the displacement identity. *)

From Coq Require Import Reals List Arith Lia Lra.
From Verif Require Import Base Model_Shur Spec_Linalg PSD.
Import ListNotations.
Open Scope R_scope.

(** The matrix moved one step down the diagonal. *)
Definition shiftm (F : nat -> nat -> R) (a b : nat) : R :=
  match a, b with S a', S b' => F a' b' | _, _ => 0 end.

Definition schur (T C : nat -> nat -> R) (i a b : nat) : R :=
  T a b - Rsum i (fun k => C k a * C k b).

Record inv (n i : nat) (T : nat -> nat -> R) (st : shur_st) : Prop := mk_inv {
  inv_z0 : forall j, (j < i)%nat -> vget (s_g0 st) j = 0;
  inv_z1 : forall j, (j < i)%nat -> vget (s_g1 st) j = 0;
  inv_pos : (i < n)%nat -> 0 < vget (s_g0 st) i;
  inv_mx : is_mx n n (s_C st);
  inv_low : forall r c, (r < n)%nat -> (c < n)%nat -> (c < r \/ i <= r)%nat -> mget (s_C st) r c = 0;
  inv_diag : forall r, (r < i)%nat -> (r < n)%nat -> 0 < mget (s_C st) r r;
  inv_disp : forall a b, (a < n)%nat -> (b < n)%nat ->
    schur T (mget (s_C st)) i a b - shiftm (schur T (mget (s_C st)) i) a b
    = vget (s_g0 st) a * vget (s_g0 st) b - vget (s_g1 st) a * vget (s_g1 st) b
}.

Lemma inv_vanish n i T st : inv n i T st -> forall a b, (a < i)%nat -> (a < n)%nat -> (b < n)%nat ->
  schur T (mget (s_C st)) i a b = 0.
Proof.
  intros HI. induction a as [|a IH]; intros b Ha Han Hb.
  - pose proof (inv_disp _ _ _ _ HI 0%nat b Han Hb) as H. unfold shiftm in H.
    rewrite (inv_z0 _ _ _ _ HI 0%nat), (inv_z1 _ _ _ _ HI 0%nat) in H by auto. lra.
  - pose proof (inv_disp _ _ _ _ HI (S a) b Han Hb) as H.
    rewrite (inv_z0 _ _ _ _ HI (S a)), (inv_z1 _ _ _ _ HI (S a)) in H by auto.
    unfold shiftm in H. destruct b as [|b]; [lra|]. rewrite IH in H by lia. lra.
Qed.

Lemma vget_map_div top t0 j : vget (map (fun t => t / t0) top) j = vget top j / t0.
Proof.
  unfold vget. destruct (Nat.lt_ge_cases j (length top)).
  - rewrite (nth_indep _ 0 (0 / t0)) by (now rewrite map_length). apply (map_nth (fun t => t / t0)).
  - rewrite !nth_overflow; try rewrite map_length; auto. lra.
Qed.

Definition ntoep (top : vec) (a b : nat) : R := vget top (absdiff a b) / vget top 0.

Lemma absdiff_SS a b : absdiff (S a) (S b) = absdiff a b.
Proof. reflexivity. Qed.

Lemma init_inv top : 0 < vget top 0 -> (0 < length top)%nat ->
  inv (length top) 1 (ntoep top) (shur_init (length top) top).
Proof.
  intros Ht Hn. set (n := length top) in *. unfold shur_init.
  set (u := map (fun t => t / vget top 0) top).
  assert (Hu : forall j, vget u j = vget top j / vget top 0) by (intros; apply vget_map_div).
  assert (Hu0 : vget u 0 = 1) by (rewrite Hu; field; lra).
  constructor; cbn [s_g0 s_g1 s_C].
  - intros j Hj. rewrite vget_tab by lia. destruct j; [reflexivity|lia].
  - intros j Hj. rewrite vget_tab by lia. destruct j; [reflexivity|lia].
  - intros H1. rewrite vget_tab by auto. simpl. rewrite Hu0. lra.
  - apply mk_is_mx.
  - intros r c Hr Hc H. rewrite mget_mk by auto. destruct (Nat.eqb_spec r 0); [lia|reflexivity].
  - intros r Hr Hrn. rewrite mget_mk by auto. assert (r = 0%nat) by lia. subst. simpl. rewrite Hu0. lra.
  - intros a b Ha Hb. rewrite !vget_tab by auto.
    assert (HS : forall a b, (a < n)%nat -> (b < n)%nat ->
      schur (ntoep top) (mget (mk n n (fun r c => if Nat.eqb r 0 then vget u c else 0))) 1 a b
      = ntoep top a b - vget u a * vget u b).
    { intros a' b' Ha' Hb'. unfold schur. cbn [Rsum]. rewrite !mget_mk by lia. simpl. ring. }
    rewrite HS by auto. unfold shiftm. destruct a as [|a]; [|destruct b as [|b]].
    + simpl. rewrite Hu0. unfold ntoep. rewrite Hu. replace (absdiff 0 b) with b by (destruct b; reflexivity). lra.
    + simpl. rewrite Hu0. unfold ntoep. rewrite Hu. replace (absdiff (S a) 0) with (S a) by reflexivity. lra.
    + rewrite HS by lia. cbn [Nat.eqb Nat.sub]. rewrite !Nat.sub_0_r. unfold ntoep. rewrite absdiff_SS. ring.
Qed.

Lemma scale_sqr rho : Rabs rho < 1 ->
  0 < sqrt (1 - rho) * sqrt (1 + rho) /\
  (sqrt (1 - rho) * sqrt (1 + rho)) * (sqrt (1 - rho) * sqrt (1 + rho)) = 1 - rho * rho.
Proof.
  intros H. apply Rabs_def2 in H. destruct H as [H1 H2]. split.
  - apply Rmult_lt_0_compat; apply sqrt_lt_R0; lra.
  - replace (sqrt (1 - rho) * sqrt (1 + rho) * (sqrt (1 - rho) * sqrt (1 + rho)))
      with ((sqrt (1 - rho) * sqrt (1 - rho)) * (sqrt (1 + rho) * sqrt (1 + rho))) by ring.
    rewrite !sqrt_sqrt by lra. ring.
Qed.

Lemma step_inv n i T st : (1 <= i < n)%nat -> inv n i T st ->
  let rho := - vget (s_g1 st) i / vget (s_g0 st) i in
  Rabs rho < 1 -> inv n (S i) T (shur_step n i rho st).
Proof.
  intros Hi HI rho Hrho. destruct (scale_sqr rho Hrho) as [Hs Hss].
  destruct st as [g0 g1 C]. pose proof (inv_pos _ _ _ _ HI ltac:(lia)) as Hp.
  cbn [s_g0 s_g1 s_C] in *. unfold shur_step.
  set (sc := sqrt (1 - rho) * sqrt (1 + rho)) in *.
  set (h0 := fun j => (vget g0 j + rho * vget g1 j) / sc).
  set (h1 := fun j => (rho * vget g0 j + vget g1 j) / sc).
  assert (Z0 : forall j, (j < i)%nat -> vget g0 j = 0) by exact (inv_z0 _ _ _ _ HI).
  assert (Z1 : forall j, (j < i)%nat -> vget g1 j = 0) by exact (inv_z1 _ _ _ _ HI).
  assert (H0z : forall j, (j < i)%nat -> h0 j = 0).
  { intros j Hj. unfold h0. rewrite Z0, Z1 by auto. unfold Rdiv. ring. }
  assert (H1z : forall j, (j < i)%nat -> h1 j = 0).
  { intros j Hj. unfold h1. rewrite Z0, Z1 by auto. unfold Rdiv. ring. }
  assert (Hb : forall g (h : nat -> R) j, (j < n)%nat -> (forall k, (k < i)%nat -> vget g k = 0) ->
     (forall k, (k < i)%nat -> h k = 0) ->
     vget (tab n (fun j => if Nat.leb i j then
        vget (tab n (fun j => if Nat.leb i j then sc * h j else vget g j)) j / sc
        else vget (tab n (fun j => if Nat.leb i j then sc * h j else vget g j)) j)) j = h j).
  { intros g h j Hj Hg Hh. rewrite !vget_tab by auto.
    destruct (Nat.leb_spec i j); [field; lra|]. rewrite Hg, Hh by auto. auto. }
  set (b0 := tab n (fun j => if Nat.leb i j then _ / sc else _)).
  set (b1 := tab n (fun j => if Nat.leb i j then vget (tab n (fun j0 => if Nat.leb i j0 then rho * vget g0 j0 + 1 * vget g1 j0 else vget g1 j0)) j / sc else _)).
  assert (B0 : forall j, (j < n)%nat -> vget b0 j = h0 j).
  { intros j Hj. unfold b0. rewrite !vget_tab by auto.
    destruct (Nat.leb_spec i j); [unfold h0; f_equal; ring|]. rewrite Z0, H0z by auto. auto. }
  assert (B1 : forall j, (j < n)%nat -> vget b1 j = h1 j).
  { intros j Hj. unfold b1. rewrite !vget_tab by auto.
    destruct (Nat.leb_spec i j); [unfold h1; f_equal; ring|]. rewrite Z1, H1z by auto. auto. }
  clear Hb. clearbody b0 b1.
  set (C' := mk n n _). set (d0 := tab n (fun j => if Nat.eqb j i then 0 else _)).
  assert (D0 : forall j, (j < n)%nat -> vget d0 j = match j with O => 0 | S j' => h0 j' end).
  { intros j Hj. unfold d0. rewrite vget_tab by auto. destruct (Nat.eqb_spec j i) as [->|Hne].
    - destruct i; [lia|]. rewrite H0z by lia. auto.
    - rewrite vget_tab by auto. destruct (Nat.leb_spec (i + 1) j).
      + destruct j; [lia|]. rewrite B0 by lia. f_equal. lia.
      + rewrite B0 by auto. rewrite H0z by lia. destruct j; auto. rewrite H0z by lia. auto. }
  assert (HC : forall r c, (r < n)%nat -> (c < n)%nat -> mget C' r c = if Nat.eqb r i then h0 c else mget C r c).
  { intros r c Hr Hc. unfold C'. rewrite mget_mk by auto. destruct (Nat.eqb_spec r i) as [->|]; simpl; auto.
    destruct (Nat.leb_spec i c); [now apply B0|]. rewrite H0z by auto.
    apply (inv_low _ _ _ _ HI); auto. }
  assert (Hh0i : h0 i = vget g0 i * sc).
  { unfold h0, rho. replace (vget g0 i + - vget g1 i / vget g0 i * vget g1 i) with (vget g0 i * (1 - rho * rho))
      by (unfold rho; field; lra). rewrite <- Hss. field. lra. }
  assert (Hh1i : h1 i = 0).
  { unfold h1, rho. field. lra. }
  constructor; cbn [s_g0 s_g1 s_C].
  - intros j Hj. destruct (Nat.lt_ge_cases j n); [|apply vget_over; unfold d0; rewrite tab_length; auto].
    rewrite D0 by auto. destruct j; auto. apply H0z. lia.
  - intros j Hj. destruct (Nat.lt_ge_cases j n); [|lia]. rewrite B1 by auto.
    destruct (Nat.eq_dec j i) as [->|]; auto. apply H1z. lia.
  - intros H. rewrite D0 by auto. rewrite Hh0i. apply Rmult_lt_0_compat; auto.
  - apply mk_is_mx.
  - intros r c Hr Hc H. rewrite HC by auto. destruct (Nat.eqb_spec r i) as [->|].
    + apply H0z. lia.
    + apply (inv_low _ _ _ _ HI); auto. lia.
  - intros r Hr Hrn. rewrite HC by auto. destruct (Nat.eqb_spec r i) as [->|].
    + rewrite Hh0i. apply Rmult_lt_0_compat; auto.
    + apply (inv_diag _ _ _ _ HI); auto. lia.
  - intros a b Ha Hb.
    assert (HS : forall a b, (a < n)%nat -> (b < n)%nat ->
       schur T (mget C') (S i) a b = schur T (mget C) i a b - h0 a * h0 b).
    { intros a' b' Ha' Hb'. unfold schur. cbn [Rsum]. rewrite !(HC i) by lia. rewrite Nat.eqb_refl.
      rewrite (Rsum_ext i _ (fun k => mget C k a' * mget C k b')); [ring|].
      intros k Hk. rewrite !HC by lia. destruct (Nat.eqb_spec k i); [lia|auto]. }
    pose proof (inv_disp _ _ _ _ HI a b Ha Hb) as HD. cbn [s_g0 s_g1 s_C] in HD.
    rewrite HS by auto. rewrite !D0, !B1 by auto.
    assert (Hrot : h0 a * h0 b - h1 a * h1 b = vget g0 a * vget g0 b - vget g1 a * vget g1 b).
    { unfold h0, h1.
      replace ((vget g0 a + rho * vget g1 a) / sc * ((vget g0 b + rho * vget g1 b) / sc) -
               (rho * vget g0 a + vget g1 a) / sc * ((rho * vget g0 b + vget g1 b) / sc))
        with ((vget g0 a * vget g0 b - vget g1 a * vget g1 b) * (1 - rho * rho) / (sc * sc)) by (field; lra).
      rewrite <- Hss. field. lra. }
    unfold shiftm in *. destruct a as [|a]; [|destruct b as [|b]]; try lra.
    rewrite HS by lia. lra.
Qed.

Lemma loop_ok n T : forall m i st, (1 <= i)%nat -> (i + m = n)%nat -> inv n i T st ->
  exists C complete i' st', shur_loop n (seq i m) st = Ok (C, complete) /\
    (i' <= n)%nat /\ inv n i' T st' /\ C = s_C st' /\
    (if complete then i' = n else (i' < n)%nat /\ (1 <= i')%nat /\ vget (s_g0 st') i' * vget (s_g0 st') i' <= vget (s_g1 st') i' * vget (s_g1 st') i').
Proof.
  induction m as [|m IH]; intros i st Hi Hm HI; cbn [seq shur_loop].
  - exists (s_C st), true, i, st. split; [reflexivity|]. split; [lia|]. split; [exact HI|]. split; [reflexivity|lia].
  - pose proof (inv_pos _ _ _ _ HI ltac:(lia)) as Hp.
    destruct (Req_EM_T (vget (s_g0 st) i) 0); [lra|].
    destruct (Rle_dec 1 (Rabs (- vget (s_g1 st) i / vget (s_g0 st) i))) as [Hr|Hr].
    + exists (s_C st), false, i, st. split; [reflexivity|]. split; [lia|]. split; [exact HI|]. split; [reflexivity|].
      split; [lia|]. split; [lia|].
      unfold Rdiv in Hr. rewrite Rabs_mult, Rabs_Ropp, Rabs_inv, (Rabs_right (vget (s_g0 st) i)) in Hr by lra.
      assert (H1 : vget (s_g0 st) i <= Rabs (vget (s_g1 st) i)).
      { apply (Rmult_le_compat_r (vget (s_g0 st) i)) in Hr; [|lra].
        rewrite Rmult_assoc, Rinv_l, Rmult_1_r, Rmult_1_l in Hr by lra. exact Hr. }
      replace (vget (s_g1 st) i * vget (s_g1 st) i) with (Rabs (vget (s_g1 st) i) * Rabs (vget (s_g1 st) i)).
      * apply Rmult_le_compat; lra.
      * rewrite <- Rabs_mult. apply Rabs_right. apply Rle_ge. apply Rle_0_sqr.
    + apply Rnot_le_lt in Hr. destruct (scale_sqr _ Hr) as [Hs _].
      destruct (Req_EM_T _ 0); [lra|].
      apply IH; try lia. apply step_inv; auto. lia.
Qed.

(** Back substitution. *)
Lemma back_subst n i (C : nat -> nat -> R) : (i < n)%nat ->
  (forall r c, (r < n)%nat -> (c < n)%nat -> (c < r)%nat -> C r c = 0) ->
  (forall r, (r < i)%nat -> 0 < C r r) ->
  exists x : nat -> R, x i = 1 /\ (forall j, (i < j)%nat -> x j = 0) /\
    forall k, (k < i)%nat -> Rsum n (fun j => C k j * x j) = 0.
Proof.
  intros Hi Hlow Hd.
  assert (H : forall d, (d <= i)%nat -> exists x : nat -> R, x i = 1 /\ (forall j, (i < j)%nat -> x j = 0) /\
    forall k, (i - d <= k < i)%nat -> Rsum n (fun j => C k j * x j) = 0).
  { induction d as [|d IH]; intros Hdi.
    - exists (unitv i). unfold unitv. rewrite Nat.eqb_refl. repeat split; [|lia].
      intros j Hj. destruct (Nat.eqb_spec j i); [lia|auto].
    - destruct IH as [x [H1 [H2 H3]]]; [lia|]. set (m := (i - S d)%nat).
      set (al := - Rsum n (fun j => C m j * x j) / C m m).
      exists (fun j => x j + al * unitv m j). split; [|split].
      + unfold unitv. destruct (Nat.eqb_spec i m); [unfold m in *; lia|]. rewrite H1. ring.
      + intros j Hj. unfold unitv. destruct (Nat.eqb_spec j m); [unfold m in *; lia|]. rewrite H2 by auto. ring.
      + intros k Hk. rewrite (Rsum_ext n _ (fun j => C k j * x j + al * (C k j * unitv m j))) by (intros; ring).
        rewrite Rsum_plus, Rsum_scal_l, sum_unit by (unfold m; lia).
        destruct (Nat.eq_dec k m) as [->|Hne].
        * unfold al. assert (0 < C m m) by (apply Hd; unfold m; lia). field. lra.
        * rewrite H3 by (unfold m in *; lia). rewrite Hlow by (unfold m in *; lia). ring. }
  destruct (H i (le_n i)) as [x [H1 [H2 H3]]]. exists x. repeat split; auto.
  intros k Hk. apply H3. lia.
Qed.

Definition pos_def (n : nat) (F : nat -> nat -> R) : Prop :=
  forall x, (exists i, (i < n)%nat /\ x i <> 0) -> 0 < qf n F x.

Lemma qf_schur n i T C x :
  qf n T x = qf n (schur T C i) x + Rsum i (fun k => (Rsum n (fun j => C k j * x j)) * (Rsum n (fun j => C k j * x j))).
Proof.
  rewrite (qf_ext n T (fun a b => schur T C i a b + Rsum i (fun k => C k a * C k b)) x x) by (intros; unfold schur; auto; ring).
  unfold qf at 1. rewrite bil_plus. fold (qf n (schur T C i) x). f_equal.
  unfold bil.
  transitivity (Rsum n (fun a => Rsum i (fun k => C k a * x a * Rsum n (fun b => C k b * x b)))).
  - apply Rsum_ext. intros a Ha.
    rewrite (Rsum_ext i _ (fun k => Rsum n (fun b => C k a * x a * (C k b * x b)))) by (intros; now rewrite Rsum_scal_l).
    rewrite Rsum_swap. apply Rsum_ext. intros b Hb.
    rewrite <- Rsum_scal_l, <- ?Rsum_scal_r. rewrite ?Rsum_scal_r. 
    rewrite <- !Rsum_scal_r. apply Rsum_ext. intros k Hk. ring.
  - rewrite Rsum_swap. apply Rsum_ext. intros k Hk. rewrite Rsum_scal_r. reflexivity.
Qed.

Lemma break_not_pd n i T st : (i < n)%nat -> (1 <= i)%nat -> inv n i T st ->
  (forall a b, T a b = T b a) ->
  vget (s_g0 st) i * vget (s_g0 st) i <= vget (s_g1 st) i * vget (s_g1 st) i ->
  exists x, (exists k, (k < n)%nat /\ x k <> 0) /\ qf n T x <= 0.
Proof.
  intros Hi H1 HI HT Hle.
  destruct (back_subst n i (mget (s_C st)) Hi) as [x [X1 [X2 X3]]].
  { intros r c Hr Hc Hlt. apply (inv_low _ _ _ _ HI); auto. }
  { intros r Hr. apply (inv_diag _ _ _ _ HI); auto. lia. }
  exists x. split; [exists i; split; auto; lra|].
  rewrite (qf_schur n i T (mget (s_C st)) x).
  rewrite (Rsum_zero i) by (intros k Hk; rewrite X3 by auto; ring).
  set (S := schur T (mget (s_C st)) i).
  assert (HSsym : forall a b, S a b = S b a).
  { intros a b. unfold S, schur. rewrite HT. f_equal. apply Rsum_ext. intros; ring. }
  assert (HSz : forall a b, (a < n)%nat -> (b < n)%nat -> (a < i \/ b < i)%nat -> S a b = 0).
  { intros a b Ha Hb [H|H]; [|rewrite HSsym]; apply (inv_vanish _ _ _ _ HI); auto. }
  assert (Hq : qf n S x = S i i).
  { unfold qf, bil. rewrite (Rsum_ext n _ (fun a => S i i * unitv i a)).
    - now rewrite (sum_unit n (fun _ => S i i)).
    - intros a Ha. unfold unitv. destruct (Nat.eqb_spec a i) as [->|Hne].
      + rewrite (Rsum_ext n _ (fun b => S i b * unitv i b)); [rewrite (sum_unit n (fun b => S i b)) by auto; ring|].
        intros b Hb. unfold unitv. destruct (Nat.eqb_spec b i) as [->|]; [rewrite !X1; ring|].
        destruct (Nat.lt_ge_cases b i); [rewrite HSz by auto; ring|rewrite (X2 b) by lia; ring].
      + rewrite Rmult_0_r. apply Rsum_zero. intros b Hb.
        destruct (Nat.lt_ge_cases a i); [rewrite HSz by auto; ring|rewrite (X2 a) by lia; ring]. }
  rewrite Hq. pose proof (inv_disp _ _ _ _ HI i i Hi Hi) as HD. fold S in HD.
  assert (Hsh : shiftm S i i = 0).
  { destruct i; [lia|]. unfold shiftm. apply HSz; lia. }
  rewrite Hsh in HD. lra.
Qed.

(** Positive diagonal and triangular: C^T C is positive definite. *)
Lemma tri_pd n C : (forall r c, (r < n)%nat -> (c < n)%nat -> (c < r)%nat -> C r c = 0) ->
  (forall r, (r < n)%nat -> 0 < C r r) ->
  pos_def n (fun a b => Rsum n (fun k => C k a * C k b)).
Proof.
  intros Hlow Hd x Hx.
  assert (Hlast : exists i, (i < n)%nat /\ x i <> 0 /\ forall j, (i < j)%nat -> (j < n)%nat -> x j = 0).
  { clear Hlow Hd. induction n as [|n IH]; [destruct Hx as [i [Hi _]]; lia|].
    destruct (Req_dec (x n) 0) as [E|E].
    - destruct IH as [i [H1 [H2 H3]]].
      + destruct Hx as [i [Hi Hxi]]. exists i. split; auto. destruct (Nat.eq_dec i n); [congruence|lia].
      + exists i. repeat split; auto. intros j Hj Hjn. destruct (Nat.eq_dec j n); [congruence|apply H3; lia].
    - exists n. repeat split; auto. intros; lia. }
  destruct Hlast as [i [Hi [Hxi Hz]]].
  assert (Hq : qf n (fun a b => Rsum n (fun k => C k a * C k b)) x
               = Rsum n (fun k => (Rsum n (fun j => C k j * x j)) * (Rsum n (fun j => C k j * x j)))).
  { rewrite (qf_schur n n _ C x). unfold schur at 1.
    rewrite (qf_ext n _ (fun _ _ => 0) x x) by (intros; auto; ring).
    unfold qf, bil. rewrite (Rsum_zero n (fun i0 => Rsum n (fun j => x i0 * 0 * x j))); [ring|].
    intros. apply Rsum_zero. intros. ring. }
  rewrite Hq.
  assert (Hci : Rsum n (fun j => C i j * x j) = C i i * x i).
  { rewrite (Rsum_ext n _ (fun j => (fun _ => C i i * x i) j * unitv i j)); [now rewrite (sum_unit n (fun _ => C i i * x i))|].
    intros j Hj. unfold unitv. destruct (Nat.eqb_spec j i) as [->|]; [ring|].
    destruct (Nat.lt_ge_cases j i); [rewrite Hlow by auto; ring|rewrite (Hz j) by lia; ring]. }
  assert (Hsq : forall t : R, 0 <= t * t) by (intros; apply Rle_0_sqr).
  apply Rlt_le_trans with ((C i i * x i) * (C i i * x i)).
  - assert (C i i * x i <> 0) by (apply Rmult_integral_contrapositive_currified; auto; specialize (Hd i Hi); lra).
    specialize (Hsq (C i i * x i)). destruct Hsq as [|E]; auto. symmetry in E. apply Rmult_integral in E. tauto.
  - rewrite <- Hci. clear Hci Hq.
    set (f := fun k => Rsum n (fun j => C k j * x j) * Rsum n (fun j => C k j * x j)).
    change (f i <= Rsum n f).
    assert (Hf : forall k, 0 <= f k) by (intros; apply Hsq). clearbody f. clear - Hi Hf.
    induction n as [|n IH]; [lia|]. cbn [Rsum]. destruct (Nat.eq_dec i n) as [->|].
    + assert (0 <= Rsum n f) by (apply Rsum_nonneg; auto). lra.
    + pose proof (Hf n). assert (f i <= Rsum n f) by (apply IH; lia). lra.
Qed.
