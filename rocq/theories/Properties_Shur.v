(** Property C08. *)

From Coq Require Import Reals List Arith Lia Lra.
From Verif Require Import Base Model_Shur Spec_Linalg PSD Proofs_Shur.
Import ListNotations.
Open Scope R_scope.

Lemma shur_unfold top : 0 < vget top 0 ->
  shur top = let! (C, complete) := shur_loop (length top) (seq 1 (length top - 1)) (shur_init (length top) top) in
             Ok (map (map (fun c => c * sqrt (vget top 0))) C, complete).
Proof.
  destruct top as [|t0 top']; intros H; unfold vget in H; cbn [nth] in H; [lra|].
  unfold shur. destruct (Req_EM_T t0 0); [lra|reflexivity].
Qed.

(** C08: for every [top] with a positive first entry the recurrence runs
    without dividing by zero; it goes through all steps exactly when the
    Toeplitz matrix is positive definite, and then returns its upper Cholesky
    factor.  Otherwise the rows computed before the break factor the leading
    rows. *)
Theorem C08_shur :
  forall top : vec, 0 < vget top 0 ->
    let n := length top in
    let T a b := vget top (absdiff a b) in
    exists C complete, shur top = Ok (C, complete) /\
      is_mx n n C /\
      (forall r c, (r < n)%nat -> (c < r)%nat -> mget C r c = 0) /\
      (complete = true ->
         (forall r, (r < n)%nat -> 0 < mget C r r) /\
         (forall a b, (a < n)%nat -> (b < n)%nat -> Rsum n (fun k => mget C k a * mget C k b) = T a b)) /\
      (complete = false ->
         exists i, (1 <= i < n)%nat /\
           (forall r c, (i <= r < n)%nat -> (c < n)%nat -> mget C r c = 0) /\
           (forall a b, (a < i)%nat -> (b < n)%nat -> Rsum n (fun k => mget C k a * mget C k b) = T a b)) /\
      (complete = true <-> pos_def n T).
Proof.
  intros top Ht n T.
  assert (Hn : (0 < n)%nat) by (destruct top; [unfold vget in Ht; simpl in Ht; lra|unfold n; simpl; lia]).
  destruct (loop_ok n (ntoep top) (n - 1) 1 (shur_init n top)) as [C0 [cm [i [st [HL [Hin [HI [-> Hc]]]]]]]];
    [lia|lia|apply init_inv; auto|].
  set (q := sqrt (vget top 0)).
  assert (Hq : 0 < q) by (apply sqrt_lt_R0; auto).
  assert (Hqq : q * q = vget top 0) by (apply sqrt_sqrt; lra).
  exists (map (map (fun c => c * q)) (s_C st)), cm.
  assert (Hs : shur top = Ok (map (map (fun c => c * q)) (s_C st), cm)).
  { rewrite shur_unfold by auto. fold n. rewrite HL. reflexivity. }
  split; [exact Hs|]. pose proof (inv_mx _ _ _ _ HI) as Hmx.
  assert (HC : forall r c, (r < n)%nat -> (c < n)%nat -> mget (map (map (fun c => c * q)) (s_C st)) r c = mget (s_C st) r c * q).
  { intros r c Hr Hcn. rewrite (mx_as_mk n n _ Hmx) at 1. unfold mk. rewrite map_tab. unfold mget at 1.
    rewrite nth_tab by auto. rewrite map_tab. now rewrite nth_tab. }
  split.
  { rewrite (mx_as_mk n n _ Hmx). unfold mk. rewrite map_tab.
    replace (tab n _) with (mk n n (fun r c => mget (s_C st) r c * q)); [apply mk_is_mx|].
    unfold mk. apply tab_ext. intros. now rewrite map_tab. }
  split. { intros r c Hr Hlt. rewrite HC by lia. rewrite (inv_low _ _ _ _ HI) by lia. ring. }
  assert (Hfac : forall a b, (a < i)%nat -> (a < n)%nat -> (b < n)%nat ->
     Rsum n (fun k => mget (map (map (fun c => c * q)) (s_C st)) k a * mget (map (map (fun c => c * q)) (s_C st)) k b) = T a b).
  { intros a b Hai Ha Hb.
    pose proof (inv_vanish _ _ _ _ HI a b Hai Ha Hb) as Hv. unfold schur, ntoep in Hv.
    rewrite (Rsum_ext n _ (fun k => vget top 0 * (mget (s_C st) k a * mget (s_C st) k b)))
      by (intros k Hk; rewrite !HC by auto; rewrite <- Hqq; ring).
    rewrite Rsum_scal_l. replace n with (i + (n - i))%nat at 1 by lia. rewrite Rsum_split.
    rewrite (Rsum_zero (n - i)).
    - apply Rminus_diag_uniq in Hv. rewrite <- Hv. unfold T. field. lra.
    - intros k Hk. rewrite (inv_low _ _ _ _ HI) by lia. ring. }
  assert (Hcomp : cm = true ->
         (forall r, (r < n)%nat -> 0 < mget (map (map (fun c => c * q)) (s_C st)) r r) /\
         (forall a b, (a < n)%nat -> (b < n)%nat ->
           Rsum n (fun k => mget (map (map (fun c => c * q)) (s_C st)) k a * mget (map (map (fun c => c * q)) (s_C st)) k b) = T a b)).
  { intros ->. subst i. split.
    - intros r Hr. rewrite HC by auto. apply Rmult_lt_0_compat; auto. now apply (inv_diag _ _ _ _ HI).
    - intros a b Ha Hb. now apply Hfac. }
  split; [exact Hcomp|]. split.
  { intros ->. destruct Hc as [H1 [H2 _]]. exists i. split; [lia|]. split.
    - intros r c Hr Hcn. rewrite HC by lia. rewrite (inv_low _ _ _ _ HI) by lia. ring.
    - intros a b Ha Hb. apply Hfac; auto. lia. }
  split.
  - intros Hcm. destruct (Hcomp Hcm) as [Hd Hf]. intros x Hx.
    rewrite (qf_ext n T (fun a b => Rsum n (fun k => mget (map (map (fun c => c * q)) (s_C st)) k a * mget (map (map (fun c => c * q)) (s_C st)) k b)) x x)
      by (intros; auto; now rewrite Hf).
    apply tri_pd; auto. intros r c Hr Hcn Hlt. rewrite HC by auto. rewrite (inv_low _ _ _ _ HI) by lia. ring.
  - intros Hpd. destruct cm; auto. destruct Hc as [H1 [H2 H3]].
    destruct (break_not_pd n i (ntoep top) st H1 H2 HI) as [x [Hx Hq0]]; auto.
    { intros a b. unfold ntoep. f_equal. f_equal. unfold absdiff.
      destruct (Nat.leb_spec b a), (Nat.leb_spec a b); lia. }
    specialize (Hpd x Hx).
    assert (qf n T x = vget top 0 * qf n (ntoep top) x).
    { unfold qf. rewrite <- bil_scal. apply bil_ext; auto. intros. unfold ntoep, T. field. lra. }
    nra.
Qed.
Print Assumptions C08_shur.

(** The hypotheses are met by a positive definite and by an indefinite example;
    the answer distinguishes them. *)
Example C08_ex_pd : exists C, shur [2; 1] = Ok (C, true).
Proof.
  assert (Ht : 0 < vget [2; 1] 0) by (unfold vget; simpl; lra).
  destruct (C08_shur [2; 1] Ht) as [C [cm [H [_ [_ [_ [_ Hpd]]]]]]].
  exists C. rewrite H. do 2 f_equal. apply Hpd.
  intros x [i [Hi Hx]]. simpl in Hi. unfold qf, bil. cbv -[Rmult Rplus IZR Ropp Rlt].
  match goal with |- 0 < ?E => replace E with ((x 0%nat)² + (x 1%nat)² + (x 0%nat + x 1%nat)²) by (unfold Rsqr; ring) end.
  pose proof (Rle_0_sqr (x 0%nat)). pose proof (Rle_0_sqr (x 1%nat)). pose proof (Rle_0_sqr (x 0%nat + x 1%nat)).
  destruct i as [|[|i]]; [| |lia]; apply Rlt_0_sqr in Hx; lra.
Qed.
Example C08_ex_indefinite : exists C, shur [1; 2] = Ok (C, false).
Proof.
  assert (Ht : 0 < vget [1; 2] 0) by (unfold vget; simpl; lra).
  destruct (C08_shur [1; 2] Ht) as [C [cm [H [_ [_ [_ [_ Hpd]]]]]]].
  exists C. rewrite H. do 2 f_equal. destruct cm; auto. exfalso.
  assert (Hp : pos_def 2 (fun a b => vget [1; 2] (absdiff a b))) by (apply Hpd; reflexivity).
  specialize (Hp (fun i => if Nat.eqb i 0 then 1 else -1)).
  assert (Hx : exists i, (i < 2)%nat /\ (fun i => if Nat.eqb i 0 then 1 else -1) i <> 0) by (exists 0%nat; simpl; split; [lia|lra]).
  specialize (Hp Hx). unfold qf, bil in Hp. cbv -[Rmult Rplus IZR Ropp Rlt] in Hp. lra.
Qed.
