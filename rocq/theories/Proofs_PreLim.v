(** How precomputed variances approach those of the exact Gaussian process. *)

From Coq Require Import Reals List Arith ZArith Lia Lra.
From Coquelicot Require Import Coquelicot.
From Verif Require Import Base NDArray PSD Model_Util Proofs_Util Spec_Util Model_Linalg Spec_Linalg Proofs_Linalg Model_Interp Spec_Interp
  Proofs_Sparse Proofs_Interp Proofs_Interp2 Proofs_Bicubic Proofs_Assemble Proofs_Autogrid Properties_Interp Model_Kern Spec_Kern Proofs_Kern Proofs_KernPSD Model_FK Spec_FK Proofs_FK
  Properties_FK Model_Grid Spec_Grid Proofs_Grid Proofs_Grid2 Det Proofs_Det Model_Lik Spec_Lik Proofs_Lik Proofs_Lik2 Proofs_Lik3 Proofs_Lik4 Proofs_Lik5 Proofs_Lik6 Proofs_Lik7 Properties_Lik
  Properties_Lik2 Spec_GP Proofs_Gen Proofs_Gen2 Properties_Gen Model_GP Spec_Pred Proofs_Pred Proofs_Pred2 Proofs_Pred3 Proofs_Pred4 Proofs_Init Proofs_Pred6 Properties_Pred
  Spec_Opt Spec_Acc Proofs_Acc Proofs_Acc2 Properties_Acc Spec_Ski Proofs_Ski Proofs_Ski2 Proofs_Ski3 Properties_Ski Proofs_State5 Spec_Limit Properties_Limit Proofs_GradSm Proofs_GradLim.
Import ListNotations.
Open Scope R_scope.

(** ** Functions of one variable with bounds on all derivatives up to the second *)

Definition bk (C : R) (f : R -> R) : Prop :=
  exists f1 f2 : R -> R, (forall t, is_derive f t (f1 t) /\ is_derive f1 t (f2 t)) /\
    (forall t, Rabs (f t) <= C /\ Rabs (f1 t) <= C /\ Rabs (f2 t) <= C) /\ forall t u, Rabs (f2 t - f2 u) <= C * Rabs (t - u).

Lemma bk_pos C f : bk C f -> 0 <= C.
Proof. intros [f1 [f2 [_ [H _]]]]. eapply Rle_trans; [apply Rabs_pos|apply (proj1 (H 0))]. Qed.

Lemma bk_lip2 C f : bk C f -> lip2 f C.
Proof. intros [f1 [f2 [D [_ L]]]]. exists f1, f2. auto. Qed.

Lemma bk_ext C f h : (forall t, f t = h t) -> bk C f -> bk C h.
Proof.
  intros E [f1 [f2 [D [B L]]]]. exists f1, f2. split; [|split; [|exact L]].
  - intros t. destruct (D t) as [D1 D2]. split; [|exact D2]. now apply (is_derive_ext f).
  - intros t. rewrite <- E. apply B.
Qed.

Lemma bk_le C C' f : C <= C' -> bk C f -> bk C' f.
Proof.
  intros H [f1 [f2 [D [B L]]]]. exists f1, f2. split; [exact D|]. split.
  - intros t. destruct (B t) as (B0 & B1 & B2). repeat split; lra.
  - intros t u. eapply Rle_trans; [apply L|]. apply Rmult_le_compat_r; [apply Rabs_pos|exact H].
Qed.

Lemma bk_const c C : Rabs c <= C -> bk C (fun _ => c).
Proof.
  intros H. assert (0 <= C) by (eapply Rle_trans; [apply Rabs_pos|exact H]). exists (fun _ => 0), (fun _ => 0). split.
  - intros t. split; auto_derive; auto.
  - rewrite Rabs_R0. split; [intros t; repeat split; lra|]. intros t u. rewrite Rminus_0_r, Rabs_R0. apply Rmult_le_pos; [lra|apply Rabs_pos].
Qed.

Lemma bk_scal c C f : bk C f -> bk (Rabs c * C) (fun t => c * f t).
Proof.
  intros [f1 [f2 [D [B L]]]]. exists (fun t => c * f1 t), (fun t => c * f2 t). split; [|split].
  - intros t. destruct (D t) as [D1 D2]. split; now apply is_derive_scal.
  - intros t. destruct (B t) as (B0 & B1 & B2). rewrite !Rabs_mult. repeat split; apply Rmult_le_compat_l; auto using Rabs_pos.
  - intros t u. replace (c * f2 t - c * f2 u) with (c * (f2 t - f2 u)) by ring. rewrite Rabs_mult, Rmult_assoc. apply Rmult_le_compat_l; [apply Rabs_pos|apply L].
Qed.

Lemma bk_plus C C' f h : bk C f -> bk C' h -> bk (C + C') (fun t => f t + h t).
Proof.
  intros [f1 [f2 [D [B L]]]] [h1 [h2 [D' [B' L']]]]. exists (fun t => f1 t + h1 t), (fun t => f2 t + h2 t). split; [|split].
  - intros t. destruct (D t) as [D1 D2]. destruct (D' t) as [E1 E2]. split; now apply derive_plus.
  - intros t. destruct (B t) as (B0 & B1 & B2). destruct (B' t) as (B0' & B1' & B2').
    repeat split; (eapply Rle_trans; [apply Rabs_triang|]); now apply Rplus_le_compat.
  - intros t u. replace (f2 t + h2 t - (f2 u + h2 u)) with ((f2 t - f2 u) + (h2 t - h2 u)) by ring. rewrite Rmult_plus_distr_r.
    eapply Rle_trans; [apply Rabs_triang|]. apply Rplus_le_compat; auto.
Qed.

Lemma bk_sum n (C : nat -> R) (f : nat -> R -> R) : (forall i, (i < n)%nat -> bk (C i) (f i)) -> bk (Rsum n C) (fun t => Rsum n (fun i => f i t)).
Proof.
  induction n as [|n IH]; intros H; [cbn [Rsum]; apply bk_const; rewrite Rabs_R0; lra|].
  cbn [Rsum]. apply (bk_plus (Rsum n C) (C n) (fun t => Rsum n (fun i => f i t)) (f n)); [apply IH; intros; apply H; lia|apply H; lia].
Qed.

Lemma bk_lips C f f1 f2 : (forall t, is_derive f t (f1 t) /\ is_derive f1 t (f2 t)) ->
  (forall t, Rabs (f t) <= C /\ Rabs (f1 t) <= C /\ Rabs (f2 t) <= C) ->
  (forall t u, Rabs (f t - f u) <= C * Rabs (t - u)) /\ forall t u, Rabs (f1 t - f1 u) <= C * Rabs (t - u).
Proof.
  intros D B. split; [apply (lip_of_deriv f f1)|apply (lip_of_deriv f1 f2)]; intros t; destruct (D t); destruct (B t) as (B0 & B1 & B2); assumption.
Qed.

Lemma prod_lip (f h : R -> R) C D t u : (forall t, Rabs (f t) <= C) -> (forall t, Rabs (h t) <= D) ->
  Rabs (f t - f u) <= C * Rabs (t - u) -> Rabs (h t - h u) <= D * Rabs (t - u) ->
  Rabs (f t * h t - f u * h u) <= 2 * C * D * Rabs (t - u).
Proof.
  intros Bf Bh Lf Lh. replace (f t * h t - f u * h u) with ((f t - f u) * h t + f u * (h t - h u)) by ring.
  eapply Rle_trans; [apply Rabs_triang|]. rewrite !Rabs_mult.
  pose proof (Rmult_le_compat _ _ _ _ (Rabs_pos _) (Rabs_pos (h t)) Lf (Bh t)). pose proof (Rmult_le_compat _ _ _ _ (Rabs_pos (f u)) (Rabs_pos _) (Bf u) Lh). lra.
Qed.

Lemma bk_mult C D f h : bk C f -> bk D h -> bk (8 * C * D) (fun t => f t * h t).
Proof.
  intros Hf Hh. pose proof (bk_pos _ _ Hf) as C0. pose proof (bk_pos _ _ Hh) as D0. assert (CD : 0 <= C * D) by now apply Rmult_le_pos.
  destruct Hf as [f1 [f2 [Df [Bf Lf]]]]. destruct Hh as [h1 [h2 [Dh [Bh Lh]]]].
  destruct (bk_lips C f f1 f2 Df Bf) as [Lf0 Lf1]. destruct (bk_lips D h h1 h2 Dh Bh) as [Lh0 Lh1].
  assert (M : forall a b, Rabs a <= C -> Rabs b <= D -> Rabs (a * b) <= C * D) by (intros a b Ha Hb; rewrite Rabs_mult; apply Rmult_le_compat; auto using Rabs_pos).
  exists (fun t => f1 t * h t + f t * h1 t), (fun t => (f2 t * h t + f1 t * h1 t) + (f1 t * h1 t + f t * h2 t)). split; [|split].
  - intros t. destruct (Df t) as [D1 D2]. destruct (Dh t) as [E1 E2]. split; [now apply derive_mult|].
    apply derive_plus; now apply derive_mult.
  - intros t. destruct (Bf t) as (F0 & F1 & F2). destruct (Bh t) as (H0 & H1 & H2).
    pose proof (M _ _ F0 H0). pose proof (M _ _ F1 H0). pose proof (M _ _ F0 H1). pose proof (M _ _ F2 H0). pose proof (M _ _ F1 H1). pose proof (M _ _ F0 H2).
    pose proof (Rabs_triang (f1 t * h t) (f t * h1 t)). pose proof (Rabs_triang (f2 t * h t + f1 t * h1 t) (f1 t * h1 t + f t * h2 t)).
    pose proof (Rabs_triang (f2 t * h t) (f1 t * h1 t)). pose proof (Rabs_triang (f1 t * h1 t) (f t * h2 t)). repeat split; lra.
  - intros t u.
    pose proof (prod_lip f2 h C D t u ltac:(apply Bf) ltac:(apply Bh) (Lf t u) (Lh0 t u)) as P1.
    pose proof (prod_lip f1 h1 C D t u ltac:(apply Bf) ltac:(apply Bh) (Lf1 t u) (Lh1 t u)) as P2.
    pose proof (prod_lip f h2 C D t u ltac:(apply Bf) ltac:(apply Bh) (Lf0 t u) (Lh t u)) as P3.
    match goal with |- Rabs ?e <= _ => replace e with ((f2 t * h t - f2 u * h u) + ((f1 t * h1 t - f1 u * h1 u) + ((f1 t * h1 t - f1 u * h1 u) + (f t * h2 t - f u * h2 u)))) by ring end.
    eapply Rle_trans; [apply Rabs_triang|].
    match goal with |- _ + Rabs (?a + ?b) <= _ => pose proof (Rabs_triang a b) end.
    match goal with H : Rabs (?a + (?b + ?c)) <= _ |- _ => pose proof (Rabs_triang b c) end. lra.
Qed.

(** Bounds on a function and on the Lipschitz constant of its second derivative
    bound the derivatives in between. *)
Lemma bk_of_lip2 f B M : lip2 f B -> (forall t, Rabs (f t) <= M) -> bk (4 * M + B) f.
Proof.
  intros [f1 [f2 HL]] HM. change (lipd f f1 f2 B) in HL. pose proof (lip_nonneg _ _ _ _ HL) as B0.
  assert (M0 : 0 <= M) by (eapply Rle_trans; [apply Rabs_pos|apply (HM 0)]).
  exists f1, f2. split; [apply HL|]. split.
  - intros t. pose proof (taylor_lip f f1 f2 t (t + 1) B HL) as T1. pose proof (taylor_lip f f1 f2 t (t - 1) B HL) as T2.
    replace (t + 1 - t) with 1 in T1 by ring. replace (t - 1 - t) with (-1) in T2 by ring.
    replace (Rabs (-1)) with 1 in T2 by (rewrite Rabs_left; lra). rewrite Rabs_R1 in T1.
    pose proof (HM t) as H0. pose proof (HM (t + 1)) as H1. pose proof (HM (t - 1)) as H2.
    apply Rabs_le_between in T1. apply Rabs_le_between in T2. apply Rabs_le_between in H0. apply Rabs_le_between in H1. apply Rabs_le_between in H2.
    repeat split; apply Rabs_le_between; lra.
  - intros t u. eapply Rle_trans; [apply HL|]. apply Rmult_le_compat_r; [apply Rabs_pos|lra].
Qed.

Lemma bk_shift C f c : bk C f -> bk C (fun t => f (t + c)).
Proof.
  intros [f1 [f2 [D [B L]]]]. exists (fun t => f1 (t + c)), (fun t => f2 (t + c)).
  assert (S : forall (g : R -> R) (t d : R), is_derive g (t + c) d -> is_derive (fun u => g (u + c)) t d).
  { intros g t d H. assert (E : is_derive (fun u => u + c) t 1) by (auto_derive; [trivial|reflexivity]).
    pose proof (is_derive_comp g (fun u => u + c) t d 1 H E) as X. rewrite <- (Rmult_1_l d). exact X. }
  split; [|split].
  - intros t. split; apply S; apply D.
  - intros t. apply B.
  - intros t u. eapply Rle_trans; [apply L|]. right. do 2 f_equal. ring.
Qed.

(** ** Functions of a point *)

Definition upd (x : nat -> R) (p : nat) (s : R) : nat -> R := fun p' => if Nat.eqb p' p then s else x p'.

Definition smb (nd : nat) (C : R) (F : (nat -> R) -> R) : Prop :=
  (forall x y, (forall p, (p < nd)%nat -> x p = y p) -> F x = F y) /\
  forall p x, (p < nd)%nat -> bk C (fun s => F (upd x p s)).

Lemma smb_scal nd c C F : smb nd C F -> smb nd (Rabs c * C) (fun x => c * F x).
Proof. intros [H1 H2]. split; [intros x y H; now rewrite (H1 x y H)|]. intros p x Hp. apply (bk_scal c C (fun s => F (upd x p s))). auto. Qed.

Lemma smb_sum nd n (C : nat -> R) F : (forall i, (i < n)%nat -> smb nd (C i) (F i)) -> smb nd (Rsum n C) (fun x => Rsum n (fun i => F i x)).
Proof.
  intros H. split; [intros x y E; apply Rsum_ext; intros i Hi; now apply (H i Hi)|].
  intros p x Hp. apply (bk_sum n C (fun i s => F i (upd x p s))). intros i Hi. now apply (H i Hi).
Qed.

Lemma smb_mult nd C D F H : smb nd C F -> smb nd D H -> smb nd (8 * C * D) (fun x => F x * H x).
Proof.
  intros [F1 F2] [H1 H2]. split; [intros x y E; now rewrite (F1 x y E), (H1 x y E)|].
  intros p x Hp. apply (bk_mult C D (fun s => F (upd x p s)) (fun s => H (upd x p s))); auto.
Qed.

Lemma smb_le nd C D F : C <= D -> smb nd C F -> smb nd D F.
Proof. intros L [F1 F2]. split; [exact F1|]. intros p x Hp. apply (bk_le C D); auto. Qed.

Lemma Rsum_pick n p (F : nat -> R) : (p < n)%nat -> Rsum n F = F p + Rsum n (fun i => if Nat.eqb i p then 0 else F i).
Proof.
  intros Hp. rewrite <- (Rsum_delta n p F Hp). rewrite <- Rsum_plus. apply Rsum_ext. intros i _. destruct (Nat.eqb i p); ring.
Qed.

(** A smooth function of the distance from a point. *)
Lemma smb_dist nd h B M z : smooth_fn h nd B -> (forall r, 0 <= r -> Rabs (h r) <= M) -> smb nd (4 * M + B) (fun y => h (euclid nd z y)).
Proof.
  intros Hk HM. split; [intros x y E; f_equal; apply euclid_ext; auto|].
  intros p x Hp. set (c := Rsum nd (fun i => if Nat.eqb i p then 0 else (z i - x i) ^ 2)).
  assert (c0 : 0 <= c) by (apply Rsum_nonneg; intros i _; destruct (Nat.eqb i p); [lra|apply pow2_ge_0]).
  assert (c1 : nd = 1%nat -> c = 0).
  { intros E. unfold c. rewrite E. cbn [Rsum]. replace p with 0%nat by lia. cbn. ring. }
  apply (bk_ext _ (fun s => (fun t => h (sqrt (t ^ 2 + c))) (s + - z p))).
  - intros s. cbv beta. f_equal. unfold euclid. f_equal. rewrite (Rsum_pick nd p (fun i => (z i - upd x p s i) ^ 2) Hp). unfold upd at 1. rewrite Nat.eqb_refl.
    f_equal; [ring|]. apply Rsum_ext. intros i _. unfold upd. destruct (Nat.eqb i p); reflexivity.
  - apply (bk_shift _ (fun t => h (sqrt (t ^ 2 + c)))). apply bk_of_lip2; [now apply Hk|]. intros t. apply HM, sqrt_pos.
Qed.

(** ** Interpolation of smooth functions of a point *)

Lemma w1_abs t x : axis_ok t -> Rsum (fst (fst t)) (fun j => Rabs (w1 t x j)) <= 5 / 4.
Proof.
  intros Ht. unfold w1. set (f := (x - snd (fst t)) / snd t). set (s := f - IZR (np_floor f)).
  assert (Hs : 0 <= s < 1) by (unfold s; pose proof (floor_bounds f); lra).
  apply Rle_trans with (Rsum (fst (fst t)) (fun j => lsum (map (fun conv => if Nat.eqb (clamp_idx (fst (fst t)) (np_floor f - conv)) j then Rabs (wgt s conv) else 0) conv_window))).
  - apply Rsum_le. intros j _. eapply Rle_trans; [apply lsum_abs_le|]. apply lsum_le. intros conv _. destruct (Nat.eqb _ j); [lra|rewrite Rabs_R0; lra].
  - eapply Rle_trans; [|apply (wgt_abs s Hs)]. set (m := fst (fst t)).
    assert (D : forall a c, 0 <= c -> Rsum m (fun j => if Nat.eqb a j then c else 0) <= c).
    { intros a c Hc. destruct (Nat.lt_ge_cases a m) as [L|L].
      - right. rewrite (Rsum_ext m _ (fun j => if Nat.eqb j a then c else 0)) by (intros j _; now rewrite Nat.eqb_sym). apply (Rsum_delta m a (fun _ => c) L).
      - rewrite (Rsum_ext m _ (fun _ => 0)); [rewrite Rsum_const; lra|]. intros j Hj. destruct (Nat.eqb_spec a j); [lia|reflexivity]. }
    cbn [conv_window map lsum fold_right]. unfold lsum. cbn [fold_right]. rewrite !Rsum_plus. rewrite Rsum_const.
    repeat apply Rplus_le_compat; try (apply D, Rabs_pos); lra.
Qed.

Lemma wN_abs l x (e : nat -> R) b : (length l = 1 \/ length l = 2)%nat -> List.Forall axis_ok l -> (forall u, (u < axes_points l)%nat -> Rabs (e u) <= b) -> 0 <= b ->
  Rabs (Rsum (axes_points l) (fun u => wN l x u * e u)) <= 25 / 16 * b.
Proof.
  intros Hl HF He Hb. eapply Rle_trans; [apply Rsum_abs|].
  apply Rle_trans with (Rsum (axes_points l) (fun u => Rabs (wN l x u)) * b).
  - rewrite <- Rsum_scal_r. apply Rsum_le. intros u Hu. rewrite Rabs_mult. apply Rmult_le_compat_l; [apply Rabs_pos|auto].
  - apply Rmult_le_compat_r; [exact Hb|]. destruct l as [|t [|t' [|]]]; cbn in Hl; try lia.
    + inversion HF as [|? ? H1 _]; subst. replace (axes_points [t]) with (fst (fst t)) by (unfold axes_points; cbn; lia).
      pose proof (w1_abs t (x 0%nat) H1). cbn [wN]. lra.
    + inversion HF as [|? ? H1 HF']; subst. inversion HF' as [|? ? H2 _]; subst.
      replace (axes_points [t; t']) with (fst (fst t) * fst (fst t'))%nat by (unfold axes_points; cbn; lia). rewrite Rsum_flatten.
      rewrite (Rsum_ext _ _ (fun j => Rabs (w1 t (x 0%nat) j) * Rsum (fst (fst t')) (fun k => Rabs (w1 t' (x 1%nat) k)))).
      * rewrite Rsum_scal_r. pose proof (w1_abs t (x 0%nat) H1) as A1. pose proof (w1_abs t' (x 1%nat) H2) as A2.
        replace (25 / 16) with (5 / 4 * (5 / 4)) by lra. apply Rmult_le_compat; try assumption; apply Rsum_nonneg; intros; apply Rabs_pos.
      * intros j _. rewrite <- Rsum_scal_l. apply Rsum_ext. intros k Hk. cbn [wN]. rewrite div_block, mod_block by exact Hk. apply Rabs_mult.
Qed.

Lemma interp_err l x F C : (length l = 1 \/ length l = 2)%nat -> List.Forall axis_ok l ->
  (forall p, (p < length l)%nat -> within (nth p l (0%nat, 0, 0)) (x p)) -> smb (length l) C F ->
  Rabs (Rsum (axes_points l) (fun u => wN l x u * F (grid_pt (axes_of l) u)) - F x) <= C * Rsum (length l) (fun p => snd (nth p l (0%nat, 0, 0)) ^ 3).
Proof.
  intros Hl HF Hx [H1 H2]. destruct l as [|t [|t' [|]]]; cbn in Hl; try lia.
  - inversion HF as [|? ? Ht _]; subst. cbn [length] in *.
    set (G := fun r => F (upd x 0 r)).
    rewrite (Rsum_ext _ _ (fun u => wN [t] x u * G (grid_pt (axes_of [t]) u 0%nat))).
    2:{ intros u _. f_equal. apply H1. intros p Hp. unfold upd. now replace p with 0%nat by lia. }
    rewrite (lam_grid1 t x G). replace (F x) with (G (x 0%nat)).
    2:{ apply H1. intros p Hp. unfold upd. now replace p with 0%nat by lia. }
    cbn [Rsum nth]. specialize (H2 0%nat x ltac:(lia)). pose proof (bk_pos _ _ H2) as C0.
    pose proof (lam_err t (x 0%nat) G C Ht (Hx 0%nat ltac:(lia)) (bk_lip2 _ _ H2)) as E. assert (0 < snd t ^ 3) by (apply pow_lt, Ht).
    assert (0 <= C * snd t ^ 3) by (apply Rmult_le_pos; lra). lra.
  - inversion HF as [|? ? Ht HF']; subst. inversion HF' as [|? ? Ht' _]; subst. cbn [length] in *.
    assert (U : forall p, (p < 2)%nat -> p = 0%nat \/ p = 1%nat) by (intros; lia).
    set (G := fun r r' => F (upd (upd x 0 r) 1 r')).
    rewrite (Rsum_ext _ _ (fun u => wN [t; t'] x u * G (grid_pt (axes_of [t; t']) u 0%nat) (grid_pt (axes_of [t; t']) u 1%nat))).
    2:{ intros u _. f_equal. apply H1. intros p Hp. unfold upd. destruct (U p Hp) as [->| ->]; reflexivity. }
    rewrite (lam_grid2 t t' x G). replace (F x) with (G (x 0%nat) (x 1%nat)).
    2:{ apply H1. intros p Hp. unfold upd. destruct (U p Hp) as [->| ->]; reflexivity. }
    cbn [Rsum nth]. assert (L2 : forall r, lip2 (fun r' => G r r') C) by (intros r; apply bk_lip2, (H2 1%nat (upd x 0 r)); lia).
    assert (L1 : forall r', lip2 (fun r => G r r') C).
    { intros r'. apply (lip2_ext (fun r => F (upd (upd x 1 r') 0 r))); [|apply bk_lip2, H2; lia].
      intros r. apply H1. intros p Hp. unfold upd. destruct (U p Hp) as [->| ->]; reflexivity. }
    pose proof (bk_pos _ _ (H2 0%nat x ltac:(lia))) as C0.
    assert (0 < snd t ^ 3) by (apply pow_lt, Ht). assert (0 < snd t' ^ 3) by (apply pow_lt, Ht').
    assert (0 <= C * snd t ^ 3) by (apply Rmult_le_pos; lra). assert (0 <= C * snd t' ^ 3) by (apply Rmult_le_pos; lra).
    pose proof (Hx 0%nat ltac:(lia)) as X0. pose proof (Hx 1%nat ltac:(lia)) as X1. cbn [nth] in X0, X1.
    pose proof (lam_abs_diff t (x 0%nat) (fun r => lam t' (x 1%nat) (fun r' => G r r')) (fun r => G r (x 1%nat)) _ Ht X0
      (fun r => lam_err t' (x 1%nat) (fun r' => G r r') C Ht' X1 (L2 r))) as E1.
    pose proof (lam_err t (x 0%nat) (fun r => G r (x 1%nat)) C Ht X0 (L1 (x 1%nat))) as E2.
    eapply Rle_trans; [apply (Rabs_chain _ (lam t (x 0%nat) (fun r => G r (x 1%nat))))|]. cbv beta in *. lra.
Qed.

(** ** Products of approximate covariances and approximate solutions *)

Lemma quad_err n (Kf K : nat -> nat -> R) s E eps G (ct c zt z z1 : nat -> R) : 0 < s -> (forall x, s * nrm2 n x <= qf n Kf x) -> (forall x, s * nrm2 n x <= qf n K x) ->
  0 <= E -> (forall i j, (i < n)%nat -> (j < n)%nat -> Rabs (Kf i j - K i j) <= E) -> (forall i, (i < n)%nat -> Rabs (ct i - c i) <= E) ->
  norm2 n c <= G -> 0 <= eps ->
  (forall i, (i < n)%nat -> Rsum n (fun j => Kf i j * z1 j) = ct i) -> (forall i, (i < n)%nat -> Rsum n (fun j => K i j * z j) = c i) ->
  (exists z2, forall i, (i < n)%nat -> Rsum n (fun j => K i j * z2 j) = ct i) ->
  norm2 n (fun i => zt i - z1 i) <= eps / s ->
  let r := sqrt (INR n) * E in
  Rabs (Rsum n (fun j => ct j * zt j) - Rsum n (fun j => c j * z j))
  <= (G + r) * (eps / s) + (G + r) * (INR n * E * (G + r) / s ^ 2) + (G + r) * (r / s) + r * (G / s).
Proof.
  intros Hs F1 F2 E0 HD Hc HG He H1 Hz [z2 H2] Ht r.
  assert (r0 : 0 <= r) by (apply Rmult_le_pos; [apply sqrt_pos|exact E0]).
  assert (is0 : 0 < / s) by now apply Rinv_0_lt_compat.
  assert (Nd : norm2 n (fun j => ct j - c j) <= r) by (unfold r; rewrite <- norm2_const by exact E0; now apply norm2_le).
  assert (Nc : norm2 n ct <= G + r).
  { rewrite (norm2_ext n ct (fun j => c j + (ct j - c j))) by (intros; ring). eapply Rle_trans; [apply norm2_triangle|]. lra. }
  pose proof (norm2_nonneg n ct) as C0. pose proof (norm2_nonneg n c) as C1.
  pose proof (perturbed n Kf K s E ct z1 z2 Hs F1 F2 E0 HD H1 H2) as Pz.
  pose proof (solution_size n K s Hs F2 c z Hz) as Sz.
  assert (Sd : norm2 n (fun j => z2 j - z j) <= norm2 n (fun j => ct j - c j) / s).
  { apply (solution_size n K s Hs F2). intros i Hi. rewrite <- H2, <- Hz by exact Hi. rewrite <- Rsum_minus. apply Rsum_ext. intros. ring. }
  replace (Rsum n (fun j => ct j * zt j) - Rsum n (fun j => c j * z j))
    with (Rsum n (fun j => ct j * (zt j - z1 j)) + Rsum n (fun j => ct j * (z1 j - z2 j)) + Rsum n (fun j => ct j * (z2 j - z j)) + Rsum n (fun j => (ct j - c j) * z j))
    by (rewrite <- Rsum_minus, <- !Rsum_plus; apply Rsum_ext; intros; ring).
  assert (Q : forall u v bu bv, norm2 n u <= bu -> norm2 n v <= bv -> Rabs (Rsum n (fun j => u j * v j)) <= bu * bv).
  { intros u v bu bv Hu Hv. eapply Rle_trans; [apply cauchy|]. apply Rmult_le_compat; auto using norm2_nonneg. }
  eapply Rle_trans; [apply Rabs_triang|]. apply Rplus_le_compat.
  - eapply Rle_trans; [apply Rabs_triang|]. apply Rplus_le_compat.
    + eapply Rle_trans; [apply Rabs_triang|]. apply Rplus_le_compat; [now apply (Q ct (fun j => zt j - z1 j))|].
      apply (Q ct (fun j => z1 j - z2 j)); [exact Nc|]. eapply Rle_trans; [exact Pz|].
      apply Rmult_le_compat_r; [left; apply Rinv_0_lt_compat, pow_lt, Hs|]. apply Rmult_le_compat_l; [|exact Nc].
      apply Rmult_le_pos; [apply pos_INR|exact E0].
    + apply (Q ct (fun j => z2 j - z j)); [exact Nc|]. eapply Rle_trans; [exact Sd|]. apply Rmult_le_compat_r; lra.
  - apply (Q (fun j => ct j - c j) z); [exact Nd|]. eapply Rle_trans; [exact Sz|]. apply Rmult_le_compat_r; lra.
Qed.

(** ** Covariances as functions of a point *)

Lemma smb_ext nd C F H : (forall x, F x = H x) -> smb nd C F -> smb nd C H.
Proof.
  intros E [F1 F2]. split; [intros x y e; rewrite <- !E; now apply F1|]. intros p x Hp. apply (bk_ext C (fun s => F (upd x p s))); [intros; apply E|auto].
Qed.

Definition cov_sm (f : fkernel) : R := Rsum (f_D f) (fun a => Rsum (f_D f) (fun b => Rsum (f_Q f) (fun q =>
  Rabs (B_of f q a b) * (4 * k_max (kern_of f q) + Rabs (smooth_const (kern_of f q)))))).

Lemma k_max_pos f q : kernels_ok f -> (q < f_Q f)%nat -> 0 <= k_max (kern_of f q).
Proof. intros Hk Hq. apply (k_doc_max (kern_of f q) 0); [apply (Hk q Hq)|lra]. Qed.

Lemma cov_sm_term f a b q : kernels_ok f -> (q < f_Q f)%nat -> 0 <= Rabs (B_of f q a b) * (4 * k_max (kern_of f q) + Rabs (smooth_const (kern_of f q))).
Proof.
  intros Hk Hq. apply Rmult_le_pos; [apply Rabs_pos|]. pose proof (k_max_pos f q Hk Hq). pose proof (Rabs_pos (smooth_const (kern_of f q))). lra.
Qed.

Lemma cov_sm_pos f : kernels_ok f -> 0 <= cov_sm f.
Proof. intros Hk. apply Rsum_nonneg. intros. apply Rsum_nonneg. intros. apply Rsum_nonneg. intros. now apply cov_sm_term. Qed.

Lemma proj_all P x p : (p < P)%nat -> proj (seq 0 P) x p = x p.
Proof. intros Hp. unfold proj. now rewrite seq_nth. Qed.

Lemma dist_all P x y : dist_on (seq 0 P) x y = euclid P x y.
Proof. rewrite dist_on_euclid, seq_length. apply euclid_ext; intros p Hp; now apply proj_all. Qed.

Lemma euclid_swap P x y : euclid P x y = euclid P y x.
Proof. unfold euclid. f_equal. apply Rsum_ext. intros. ring. Qed.

Section Cov.
Variables (f : fkernel) (P : nat).
Hypothesis Hk : kernels_ok f.
Hypothesis Hid : no_identity f.
Hypothesis Hp : proper f.
Hypothesis Hq : forall q, (q < f_Q f)%nat -> qdims f q = seq 0 P.

Lemma kern_smb q z : (q < f_Q f)%nat ->
  smb P (4 * k_max (kern_of f q) + Rabs (smooth_const (kern_of f q))) (fun y => k_doc (kern_of f q) (dist_on (qdims f q) z y)).
Proof.
  intros H. apply (smb_ext P _ (fun y => k_doc (kern_of f q) (euclid P z y))); [intros y; now rewrite (Hq q H), dist_all|].
  apply (smb_le P (4 * k_max (kern_of f q) + smooth_const (kern_of f q))); [pose proof (Rle_abs (smooth_const (kern_of f q))); lra|].
  apply smb_dist.
  - rewrite <- (seq_length P 0), <- (Hq q H). apply smooth_all; [apply (Hk q H)|now apply Hid|now apply Hp].
  - intros r Hr. apply k_doc_max; [apply (Hk q H)|exact Hr].
Qed.

Lemma cov_smb2 a b z : (a < f_D f)%nat -> (b < f_D f)%nat -> smb P (cov_sm f) (fun y => lmc_cov f a z b y).
Proof.
  intros Ha Hb. set (T := fun a b q => Rabs (B_of f q a b) * (4 * k_max (kern_of f q) + Rabs (smooth_const (kern_of f q)))).
  apply (smb_le P (Rsum (f_Q f) (T a b))).
  - eapply Rle_trans; [apply (Rsum_term (f_D f) (fun b => Rsum (f_Q f) (T a b)) b Hb); intros; apply Rsum_nonneg; intros; now apply cov_sm_term|].
    apply (Rsum_term (f_D f) (fun a => Rsum (f_D f) (fun b => Rsum (f_Q f) (T a b))) a Ha).
    intros. apply Rsum_nonneg. intros. apply Rsum_nonneg. intros. now apply cov_sm_term.
  - unfold lmc_cov. apply (smb_sum P (f_Q f) (T a b) (fun q y => B_of f q a b * k_doc (kern_of f q) (dist_on (qdims f q) z y))).
    intros q H. apply (smb_scal P (B_of f q a b) _ (fun y => k_doc (kern_of f q) (dist_on (qdims f q) z y))). now apply kern_smb.
Qed.

Lemma lmc_swap a x b z : lmc_cov f a x b z = Rsum (f_Q f) (fun q => B_of f q a b * k_doc (kern_of f q) (dist_on (qdims f q) z x)).
Proof. apply Rsum_ext. intros q H. rewrite (Hq q H), !dist_all. now rewrite euclid_swap. Qed.

Lemma cov_smb1 a b z : (a < f_D f)%nat -> (b < f_D f)%nat -> smb P (cov_sm f) (fun y => lmc_cov f a y b z).
Proof.
  intros Ha Hb. apply (smb_ext P _ (fun y => lmc_cov f a z b y)); [|now apply cov_smb2]. intros y. now rewrite (lmc_swap a y b z).
Qed.
End Cov.

(** ** The grid *)

Section Grid.
Variables (g : gp) (lo hi : grid_arg R) (m : grid_arg nat).
Hypothesis HR : gp_ready g lo hi m.
Let f := gp_f g.
Let P := mg_P (gp_data g).
Let Xs := mg_Xs (gp_data g).
Let lens := map (@length R) (mg_Ys (gp_data g)).
Let n := nsum lens.
Let ad := seq 0 P.
Hypothesis Hq : forall q, (q < f_Q f)%nat -> qdims f q = ad.
Let Hok : fk_ok f := rd_ok g lo hi m HR.
Let HP : f_P f = Some P := rd_P g lo hi m HR.

Definition gpt (u : nat) : nat -> R := grid_pt (ag_axes (grid_at (gp_grids g) (seq 0 (mg_P (gp_data g))))) u.

Lemma ad_group : group f ad <> [].
Proof. apply (keys_group f P Hok HP). pose proof (keys_single g lo hi m HR ad Hq) as Ek. fold f in Ek. rewrite Ek. now left. Qed.

Lemma grid_facts : exists l, ag_axes (grid_at (gp_grids g) ad) = axes_of l /\ pts g ad = axes_points l /\ length l = P /\ (length l = 1 \/ length l = 2)%nat /\
  List.Forall axis_ok l /\ G_of (gp_grids g) ad = dists_of l /\ l <> [] /\
  (forall p, (p < P)%nat -> spacing g ad p = snd (nth p l (0%nat, 0, 0))) /\
  forall y, inside g y -> (forall p, (p < length l)%nat -> within (nth p l (0%nat, 0, 0)) (y p)) /\
    forall u, (u < axes_points l)%nat -> wt g ad y u = wN l y u.
Proof.
  pose proof ad_group as Had. destruct (rd_grid g lo hi m HR ad Had) as [_ [l [HL [E1 [E2 [E3 [El [Hl Hax]]]]]]]].
  assert (EP : length l = P) by (rewrite El; apply seq_length).
  exists l. split; [exact E1|]. split; [exact E3|]. split; [exact EP|]. split; [exact Hl|]. split; [exact Hax|].
  split; [unfold G_of; now rewrite (gg_ag _ _ _ _ _ _ _ _ _ _ HL)|]. split; [destruct l; [cbn in Hl; lia|discriminate]|].
  split; [intros p Hp; now destruct (axis_desc g ad l p E1 Hax ltac:(lia)) as [_ [_ [_ [_ [_ A]]]]]|].
  assert (Hin : forall y, inside g y -> forall p, (p < length l)%nat -> let t := nth p l (0%nat, 0, 0) in
     snd (fst t) + snd t <= y p < snd (fst t) + INR (fst (fst t) - 2) * snd t).
  { intros y Hy p Hp. specialize (Hy ad p Had ltac:(lia)). destruct (axis_desc g ad l p E1 Hax Hp) as [_ [_ [A1 [A2 _]]]]. cbv zeta.
    rewrite A1, A2 in Hy. replace (nth p ad 0%nat) with p in Hy by (unfold ad; rewrite seq_nth by lia; reflexivity). exact Hy. }
  intros y Hy. split; [intros p Hp; pose proof (Hin y Hy p Hp) as T; cbv zeta in T; unfold within; lra|].
  intros u Hu. rewrite (we_cubic g (wt g) (wt_weights g lo hi m HR) ad y u Had); [|now rewrite E3|intros p Hp; exact (Hy ad p Had Hp)].
  rewrite wN_keys; [|exact Hl|exact Hax|exact Hu|apply Hin, Hy]. rewrite El. f_equal. unfold tab. apply map_ext_in. intros p Hp. apply in_seq in Hp.
  destruct (axis_desc g ad l p E1 Hax ltac:(lia)) as [_ [_ [_ [_ [_ A]]]]]. unfold spacing, axis in A. rewrite A, E1.
  replace (nth p ad 0%nat) with p by (unfold ad; rewrite seq_nth by (unfold ad in *; rewrite seq_length in *; lia); reflexivity). reflexivity.
Qed.

Lemma wt_interp y F C : inside g y -> smb P C F ->
  Rabs (Rsum (pts g ad) (fun u => wt g ad y u * F (gpt u)) - F y) <= C * Rsum P (fun p => spacing g ad p ^ 3).
Proof.
  intros Hy HF. destruct grid_facts as [l (E1 & E3 & EP & Hl & Hax & _ & _ & HS & HW)]. destruct (HW y Hy) as [Hin W].
  rewrite E3. rewrite (Rsum_ext _ _ (fun u => wN l y u * F (grid_pt (axes_of l) u))).
  2:{ intros u Hu. unfold gpt. fold P ad. now rewrite (W u Hu), E1. }
  rewrite (Rsum_ext P _ (fun p => snd (nth p l (0%nat, 0, 0)) ^ 3)) by (intros p Hp; now rewrite HS).
  rewrite <- EP. rewrite <- EP in HF. now apply interp_err.
Qed.

Lemma wt_abs y (e : nat -> R) b : inside g y -> (forall u, (u < pts g ad)%nat -> Rabs (e u) <= b) -> 0 <= b ->
  Rabs (Rsum (pts g ad) (fun u => wt g ad y u * e u)) <= 25 / 16 * b.
Proof.
  intros Hy He Hb. destruct grid_facts as [l (E1 & E3 & EP & Hl & Hax & _ & _ & HS & HW)]. destruct (HW y Hy) as [_ W].
  rewrite E3 in *. rewrite (Rsum_ext _ _ (fun u => wN l y u * e u)) by (intros u Hu; now rewrite W). now apply wN_abs.
Qed.

Hypothesis Hid : no_identity f.
Hypothesis Hp : proper f.
Hypothesis HS : forall ad, group f ad <> [] -> ~ surplus f ad.

Lemma dd_point a u b v : (u < pts g ad)%nat -> (v < pts g ad)%nat -> dd g ad a u b v = lmc_cov f a (gpt u) b (gpt v).
Proof.
  intros Hu Hv. destruct grid_facts as [l (E1 & E3 & EP & Hl & Hax & EG & Hn & _ & _)]. unfold dd. fold f.
  replace (surplus_b f ad) with false.
  2:{ destruct (surplus_b f ad) eqn:E; [|reflexivity]. exfalso. apply (HS ad ad_group). now apply surplus_b_ok in E. }
  rewrite Rplus_0_r.
  transitivity (Rsum (f_Q f) (fun q => B_of f q a b * K_grid f (G_of (gp_grids g) ad) q u v)).
  - pose proof (sum_groups f P (fun ad' q => B_of f q a b * K_grid f (G_of (gp_grids g) ad) q u v) Hok HP) as SG.
    pose proof (keys_single g lo hi m HR ad Hq) as Ek. fold f in Ek. rewrite Ek in SG. cbn [map] in SG. unfold lsum at 1 in SG. cbn [fold_right] in SG. rewrite Rplus_0_r in SG. exact SG.
  - apply Rsum_ext. intros q H. f_equal. unfold K_grid. rewrite EG. unfold dists_of. cbn [a_data a_shape].
    rewrite grid_dists_entry; [|exact Hn|now apply axes_points_pos|now rewrite <- E3|now rewrite <- E3].
    rewrite (Hq q H). unfold ad. rewrite dist_all. fold P. rewrite EP. unfold gpt. fold P. fold ad. now rewrite E1.
Qed.

(** Covariances of grid points and observations. *)
Lemma gcov_err a u j : (a < f_D f)%nat -> (u < pts g ad)%nat -> (j < n)%nat ->
  Rabs (gcov g ad a u j - lmc_cov f a (gpt u) (owner lens j) (obs P Xs lens j)) <= cov_sm f * Rsum P (fun p => spacing g ad p ^ 3).
Proof.
  intros Ha Hu Hj. pose proof (rd_D g lo hi m HR : length lens = f_D f) as HDl.
  assert (Ow : (owner lens j < f_D f)%nat) by (rewrite <- HDl; now apply owner_lt).
  unfold gcov. fold P Xs lens.
  rewrite (Rsum_ext _ _ (fun v => wt g ad (obs P Xs lens j) v * (fun y => lmc_cov f a (gpt u) (owner lens j) y) (gpt v))).
  2:{ intros v Hv. rewrite dd_point by assumption. ring. }
  apply (wt_interp _ (fun y => lmc_cov f a (gpt u) (owner lens j) y)); [now apply (obs_inside g lo hi m HR)|].
  apply cov_smb2; auto. exact (gr_kern _ _ _ _ HR).
Qed.
End Grid.
