(** Claims about continuity of predictions (C80). *)

From Coq Require Import Reals List Arith ZArith Lia Lra.
From Verif Require Import Base NDArray PSD Model_Util Proofs_Util Spec_Util Model_Linalg Spec_Linalg Proofs_Linalg Model_Interp Spec_Interp
  Properties_Interp Model_Kern Spec_Kern Proofs_Kern Proofs_KernPSD Model_FK Spec_FK Proofs_FK
  Properties_FK Model_Grid Spec_Grid Proofs_Grid Proofs_Grid2 Properties_Grid Det Proofs_Det Model_Lik Spec_Lik Proofs_Lik Proofs_Lik2 Proofs_Lik3 Proofs_Lik4 Proofs_Lik5 Proofs_Lik6 Proofs_Lik7 Properties_Lik
  Properties_Lik2 Spec_GP Proofs_Gen Proofs_Gen2 Properties_Gen Model_GP Spec_Pred Proofs_Pred Proofs_Pred2 Proofs_Pred3 Proofs_Pred4 Proofs_Init Proofs_Pred5 Proofs_Pred6 Properties_Pred
  Spec_Order Proofs_Order Proofs_Order2 Proofs_Order3 Properties_Order Spec_Depend Proofs_Depend Properties_Alike Spec_Lip Proofs_Lip Proofs_Lip2.
Import ListNotations.
Open Scope R_scope.

(** Predictions do not jump: what [predict] returns for an output changes by at
    most a constant times the distance between the requested points, wherever
    they are -- inside the grid, across its cells, outside it, far from the
    data -- and whatever else is requested with them.  Means stay bounded. *)
Theorem C80_lipschitz :
  forall g lo hi m solve bits n_it k, gp_ready g lo hi m -> fitted solve bits n_it g k -> exact_solver (n_obs g) (K_fit g) solve ->
  proper (gp_f g) -> no_identity (gp_f g) -> mode_ready g ->
  exists L B, 0 <= L /\ 0 <= B /\
    forall Zs zl Zs' zl', requests (mg_P (gp_data g)) Zs zl -> length zl = f_D (gp_f g) -> (0 < nsum zl)%nat ->
      requests (mg_P (gp_data g)) Zs' zl' -> length zl' = f_D (gp_f g) -> (0 < nsum zl')%nat ->
    exists mu var mu' var', gp_predict solve g k Zs = Ok (mu, var) /\ gp_predict solve g k Zs' = Ok (mu', var') /\
      forall a i j, (a < f_D (gp_f g))%nat -> (i < nth a zl 0)%nat -> (j < nth a zl' 0)%nat ->
        let d := apart (mg_P (gp_data g)) (point (mg_P (gp_data g)) Zs a i) (point (mg_P (gp_data g)) Zs' a j) in
        Rabs (vget (nth a mu []) i - vget (nth a mu' []) j) <= L * d /\ Rabs (vget (nth a var []) i - vget (nth a var' []) j) <= L * d /\
        Rabs (vget (nth a mu []) i) <= B.
Proof.
  intros g lo hi m solve bits n_it k HR Hf Hs Hp Hid Hm.
  destruct (fit_solver g lo hi m HR _ _ _ _ Hf Hs) as [He [Hr _]]. destruct Hf as [old [st Hf]]. destruct (fitted_of g _ _ _ _ _ _ Hf) as [HK _].
  set (P := mg_P (gp_data g)).
  assert (U : forall D, exists L B, 0 <= L /\ 0 <= B /\ forall a, (a < D)%nat -> forall x y,
    Rabs (unnorm_mean g a (mean_at g k a x) - unnorm_mean g a (mean_at g k a y)) <= L * apart P x y /\
    Rabs (unnorm_var g a (var_at g k solve a x) - unnorm_var g a (var_at g k solve a y)) <= L * apart P x y /\
    Rabs (unnorm_mean g a (mean_at g k a x)) <= B).
  { induction D as [|D [L [B (HL & HB & H)]]]; [exists 0, 0; repeat split; try lra; intros; lia|].
    destruct (mean_lip g lo hi m HR k D) as [M1 M2]. destruct (unnorm_lip P g D _ M1) as [L1 [HL1 H1]]. destruct (unnorm_bnd g D _ M2) as [B1 [HB1 H1']].
    destruct (unnorm_var_lip P g D _ (var_lip g lo hi m HR Hid solve k Hp He D Hm)) as [L2 [HL2 H2]].
    exists (L + L1 + L2), (B + B1). split; [lra|]. split; [lra|]. intros a Ha x y. pose proof (apart_nonneg P x y) as HA.
    pose proof (Rmult_le_pos _ _ HL HA). pose proof (Rmult_le_pos _ _ HL1 HA). pose proof (Rmult_le_pos _ _ HL2 HA).
    destruct (Nat.eq_dec a D) as [->|Hn].
    - specialize (H1 x y). specialize (H2 x y). specialize (H1' x). repeat split; lra.
    - destruct (H a ltac:(lia) x y) as (Q1 & Q2 & Q3). repeat split; lra. }
  destruct (U (f_D (gp_f g))) as [L [B (HL & HB & H)]]. exists L, B. split; [exact HL|]. split; [exact HB|].
  intros Zs zl Zs' zl' HZ Hz Ht HZ' Hz' Ht'. eexists _, _, _, _.
  split; [exact (predict_ok g lo hi m HR k HK solve Hr Zs zl Hid Hm HZ Hz (fun _ => Ht))|].
  split; [exact (predict_ok g lo hi m HR k HK solve Hr Zs' zl' Hid Hm HZ' Hz' (fun _ => Ht'))|].
  intros a i j Ha Hi Hj d. rewrite !nth_tab by exact Ha. rewrite !vget_tab by assumption. now apply H.
Qed.
Print Assumptions C80_lipschitz.

(** The hypotheses: a fitted model of two outputs in any mode, two requests. *)
Example C80_lipschitz_ex : forall md, exists f g s b k,
  gp_init ex1_Xs ex1_Ys true (GNum 0) (GNum 10) (GNum 2%nat) (Some md) (Some f) = Ok g /\ gp_ready g (GNum 0) (GNum 10) (GNum 2%nat) /\
  fitted s b 1 g k /\ exact_solver (n_obs g) (K_fit g) s /\ proper (gp_f g) /\ no_identity (gp_f g) /\ mode_ready g /\ f_D (gp_f g) = 2%nat /\
  requests (mg_P (gp_data g)) ex1_Zs [3; 0]%nat.
Proof.
  intros md. destruct alike_three as [f [f' (_ & T & _)]].
  destruct (two_models f f' true md (th_reach _ _ T) (th_ok _ _ T) (th_D _ _ T) (th_set _ _ T) (th_active _ _ T) (th_P _ _ T) _ _ ex1_good) as [g (E & HR & F & M & G)].
  assert (Hp : proper (gp_f g)) by (rewrite F; exact (th_proper _ _ T)).
  destruct (fit_exists g _ _ _ HR Hp) as [s [b [k [Hs Hf]]]]. exists f, g, s, b, k. repeat (split; [assumption|]). split; [rewrite F; exact (th_id _ _ T)|]. split.
  { unfold mode_ready. rewrite F, M. destruct md; [exact I| |].
    - rewrite G. intros q Hq. unfold qdims. now rewrite (th_qdims _ _ T q Hq).
    - rewrite <- F. exact (K_obs_pdR g _ _ _ HR Hp). }
  split; [now rewrite F, (th_D' _ _ T)|]. rewrite G. exact ex1_requests.
Qed.
