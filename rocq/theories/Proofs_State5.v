(** Examples of histories, and histories in which an update raises. *)

From Coq Require Import Reals List Arith ZArith Lia Lra Bool.
From Verif Require Import Base NDArray PSD Model_Util Proofs_Util Spec_Util Model_Linalg Spec_Linalg Proofs_Linalg Model_Interp Spec_Interp
  Proofs_Sparse Proofs_Interp Proofs_Interp2 Proofs_Bicubic Proofs_Assemble Proofs_Autogrid Properties_Interp Model_Kern Spec_Kern Proofs_Kern Proofs_KernPSD Model_FK Spec_FK Proofs_FK Properties_FK
  Model_Grid Spec_Grid Proofs_Grid Proofs_Grid2 Det Proofs_Det Model_Lik Spec_Lik Proofs_Lik Proofs_Lik2 Proofs_Lik3 Proofs_Lik4 Proofs_Lik5 Proofs_Lik6 Proofs_Lik7 Properties_Lik Properties_Lik2
  Spec_GP Proofs_Gen Proofs_Gen2 Model_GP Spec_Pred Proofs_Pred Proofs_Pred2 Proofs_Pred3 Proofs_Pred4 Proofs_Pred5 Proofs_Init Properties_Pred
  Model_State Spec_State Proofs_State Proofs_State2 Proofs_State3 Proofs_State4.
Import ListNotations.
Open Scope R_scope.

(** New values for the kernels and the noise, all else as it was. *)
Definition revalue (f : fkernel) (ks : list kern) (noise : vec) : fkernel := set_values f ks (f_vecs f) (f_diags f) noise.
Definition some_slots (f : fkernel) : grad_slots := mk_slots (repeat [] (f_Q f)) (repeat [] (f_Q f)) (repeat KIdentity (f_Q f)) [].
Definition one_draw (g : gp) : list (list bool) := [repeat true (n_obs g)].

Lemma one_draw_ok g : In (one_draw g) (draws 1 (n_obs g)).
Proof. apply draws_in. split; [reflexivity|]. intros r [<-|[]]. apply repeat_length. Qed.
Lemma some_slots_ok f : slots_fit (some_slots f) f.
Proof. repeat split; apply repeat_length. Qed.

Lemma revalue_ok f ks noise : fk_ok f -> Forall2 same_class (map fst (f_kernels f)) ks -> length noise = f_D f ->
  update_ok f ks (f_vecs f) (f_diags f) noise.
Proof.
  intros Hok Hk Hn. pose proof (ok_ln _ Hok). split; auto.
  - intros q Hq. destruct (ok_vec _ Hok q) as [r [_ Hr]]; [lia|]. now rewrite (proj1 Hr).
  - intros q Hq. apply (ok_diag _ Hok). lia.
Qed.

(** A model in one dimension, with metrics. *)
Definition ex_new (f : fkernel) (g : gp) (wm : bool) : event :=
  New ex1_Xs ex1_Ys true (GNum 0) (GNum 10) (GNum 2%nat) (Some OnTheFly) (Some f) wm (some_slots (gp_f g)) (one_draw g).

Lemma ex_new_sound f g wm h : gp_init ex1_Xs ex1_Ys true (GNum 0) (GNum 10) (GNum 2%nat) (Some OnTheFly) (Some f) = Ok g ->
  gp_ready g (GNum 0) (GNum 10) (GNum 2%nat) -> proper (gp_f g) -> sound_event direct_solve 1 h (ex_new f g wm).
Proof.
  intros E HR Hp g' E'. rewrite E in E'. injection E' as <-. split; [exact HR|]. split; [exact Hp|]. split; [apply some_slots_ok|].
  split; [apply one_draw_ok|exact (ready_direct _ _ _ _ HR Hp)].
Qed.

(** Two objects; queries on both around an update of the first. *)
Definition ex_history (f : fkernel) (g : gp) (f' : fkernel) : list event :=
  [AskPredict 1 ex1_Zs (one_draw g); Update 0 f' (one_draw g); AskLogLik 1; AskK 0; Begin 0; AskLogLik 0; ex_new f g false; AskK 0; ex_new f g true].

Lemma ex_history_ok : exists f g f', f' <> gp_f g /\
  sound direct_solve 1 (ex_history f g f') /\ linked_only (ex_history f g f') /\
  nth_error (models (ex_history f g f')) 0 = Some (with_params g f') /\ nth_error (models (ex_history f g f')) 1 = Some g /\
  has_metrics (ex_history f g f') 0 = true /\ has_metrics (ex_history f g f') 1 = false /\
  updates_since (ex_history f g f') 0 = 1%nat.
Proof.
  destruct pos_rbf as [H1 [H2 _]].
  destruct (ex1_model (RBF 1) (Matern32 2) OnTheFly H1 H2 I I) as
    (f & g & _ & _ & _ & _ & Eg & HR & _ & _ & _ & Hp & HQ & HD & K0 & K1 & _ & HQd & _ & _).
  pose proof (rd_ok g _ _ _ HR) as Hok.
  set (f' := revalue (gp_f g) [RBF 3; Matern32 (1/2)] [1; 2]).
  assert (Hks : map fst (f_kernels (gp_f g)) = [RBF 1; Matern32 2]).
  { unfold kern_of, f_Q in *. destruct (f_kernels (gp_f g)) as [|a [|b [|c l]]]; try discriminate HQ. cbn in *. now rewrite K0, K1. }
  assert (U : update_ok (gp_f g) [RBF 3; Matern32 (1/2)] (f_vecs (gp_f g)) (f_diags (gp_f g)) [1; 2]).
  { apply revalue_ok; auto. rewrite Hks. repeat constructor. }
  assert (Hq' : forall q, kern_of f' q = nth q [RBF 3; Matern32 (1/2)] KIdentity).
  { intros q. unfold kern_of, f', revalue, set_values. cbn [f_kernels]. unfold f_Q in *. destruct (f_kernels (gp_f g)) as [|a [|b [|c l]]]; try discriminate HQ.
    destruct q as [|[|q]]; cbn; auto. now destruct q. }
  assert (HQ' : f_Q f' = 2%nat) by (unfold f', revalue; now rewrite set_values_Q).
  assert (Hk' : kernels_ok f').
  { intros q Hq. rewrite HQ' in Hq. rewrite Hq'. destruct q as [|[|q]]; [| |lia]; (split; [intros v H; cbn in H; repeat destruct H as [<-|H]; try destruct H; lra|exact Logic.I]). }
  assert (Hp' : proper f').
  { split.
    - intros q Hq. rewrite HQ' in Hq. rewrite Hq'. destruct q as [|[|q]]; [| |lia]; cbn; discriminate.
    - intros q a Hq Ha. apply (pr_diag _ Hp q a); [|exact Ha]. rewrite HQ. lia.
    - intros a Ha. change (f_D f') with (f_D (gp_f g)) in Ha. rewrite HD in Ha. destruct a as [|[|a]]; cbn; try lra. lia. }
  exists f, g, f'. assert (Em : models (ex_history f g f') = [with_params g f'; g]).
  { unfold ex_history, ex_new. cbn [models]. rewrite Eg. reflexivity. }
  split.
  { intros E. apply (f_equal (fun x => kern_of x 0)) in E. rewrite Hq', K0 in E. cbn in E. injection E. lra. }
  split; [|split; [|rewrite Em; repeat split]].
  - cbn [ex_history sound]. split; [exact Logic.I|]. split; [|repeat (split; [first [exact Logic.I|apply ex_new_sound; assumption]|]); exact Logic.I].
    intros g0 E0. unfold ex_new in E0. cbn [models] in E0. rewrite Eg in E0. cbn in E0. injection E0 as <-.
    split; [eexists _, _, _, _; split; [exact U|reflexivity]|]. split; [exact Hk'|]. split; [exact Hp'|]. split; [apply one_draw_ok|].
    change (exact_solver (n_obs (with_params g f')) (K_fit (with_params g f')) direct_solve).
    apply (ready_direct _ (GNum 0) (GNum 10) (GNum 2%nat)); [now apply ready_update|exact Hp'].
  - intros i q s H. unfold ex_history, ex_new in H. cbn in H. intuition discriminate.
  - unfold ex_history, ex_new. cbn [has_metrics models]. rewrite Eg. reflexivity.
  - unfold ex_history, ex_new. cbn [has_metrics models]. rewrite Eg. reflexivity.
Qed.

Lemma ex1_indep k1 k2 f g md : ex_f k1 k2 None None = Ok f ->
  gp_init ex1_Xs ex1_Ys true (GNum 0) (GNum 10) (GNum 2%nat) (Some md) (Some f) = Ok g -> mg_P (gp_data g) = 1%nat ->
  f_nl (gp_f g) = 1%nat /\ f_ns (gp_f g) = 0%nat.
Proof.
  intros E Eg EP. unfold gp_init in Eg. destruct (multigp_init _ _ _) as [d|]; [|discriminate Eg]. cbn [bind] in Eg.
  destruct (set_input_dim f (mg_P d)) as [f'|] eqn:Ef; [|discriminate Eg]. cbn [bind] in Eg.
  destruct (generate_grids _ _ _ _ _); [|discriminate Eg]. cbn [bind] in Eg. apply Ok_inj in Eg. subst g. cbn [gp_data gp_f] in *.
  rewrite EP in Ef. cbv -[IZR Rmult Rinv Rplus Rdiv Ropp] in E. apply Ok_inj in E. rewrite <- E in Ef.
  assert (E2 : f' = match set_input_dim f 1 with Ok x => x | _ => f' end) by (rewrite <- E, Ef; reflexivity).
  rewrite <- E in E2. cbv -[IZR Rmult Rinv Rplus Rdiv Ropp] in E2. rewrite E2. split; reflexivity.
Qed.

Lemma gp_K_entry g lo hi m e a : gp_ready g lo hi m -> gp_dense g = Ok e -> (a < f_D (gp_f g))%nat ->
  let lens := map (@length R) (mg_Ys (gp_data g)) in (0 < nth a lens 0)%nat ->
  vget (a_data (el_K e)) ((nsum (firstn a lens) + 0) * nsum lens + (nsum (firstn a lens) + 0)) =
  Rsum (f_Q (gp_f g)) (fun q => B_of (gp_f g) q a a * k_doc (kern_of (gp_f g) q) 0) + vget (f_noise (gp_f g)) a.
Proof.
  intros HR E Ha lens H0. assert (HY : length (mg_Ys (gp_data g)) = f_D (gp_f g)) by exact (eq_trans (eq_sym (map_length _ _)) (rd_D g lo hi m HR)).
  destruct (C25_exact_kernel (gp_f g) (mg_P (gp_data g)) (mg_Xs (gp_data g)) (mg_Ys (gp_data g)) e (gr_reach _ _ _ _ HR) (rd_P g lo hi m HR) (rd_Pp g lo hi m HR)
    (gr_kern _ _ _ _ HR) (dims_rangeR g lo hi m HR) (da_in _ _ _ _ _ _ _ (gr_data _ _ _ _ HR)) HY E) as [_ [H _]].
  fold lens in H. rewrite (H a a 0%nat 0%nat Ha Ha H0 H0), Nat.eqb_refl. cbn [andb Nat.eqb]. f_equal. apply Rsum_ext. intros q Hq. do 2 f_equal.
  unfold dist_on. rewrite <- sqrt_0. f_equal. induction (qdims (gp_f g) q) as [|p l IH]; [reflexivity|]. cbn [map]. unfold lsum in *. cbn [fold_right]. rewrite IH. ring.
Qed.

Lemma lru_dense i w w1 e : st_dense i w = (w1, Ok e) -> c_dense w1 = Some (i, e).
Proof.
  unfold st_dense, lru. destruct (c_dense w) as [[j a]|] eqn:E.
  - destruct (Nat.eqb_spec i j) as [->|N].
    + intros H. injection H as <- <-. exact E.
    + unfold mbind at 1. destruct (snd _) as [x|]; intros H; [injection H as <- <-; reflexivity|discriminate H].
  - unfold mbind at 1. destruct (snd _) as [x|]; intros H; [injection H as <- <-; reflexivity|discriminate H].
Qed.

(** Assigning to a scale leaves the cached covariance matrix in place. *)
Lemma stale solve info n_it debug ppf h i g q s e :
  linked_only h -> nth_error (models h) i = Some g -> gp_dense g = Ok e ->
  answer solve info n_it debug ppf (Rescale i q s :: AskK i :: h) (AskK i) = Ok (RArr (el_K e)).
Proof.
  intros L Hi He. pose proof (run_inv solve info n_it debug ppf h L) as Iv. set (w := run solve info n_it debug ppf h) in *.
  pose proof (i_gp _ _ _ _ _ _ _ Iv i) as Eo. fold w in Eo. rewrite Hi in Eo. destruct (w_inst w i) as [o|] eqn:Ho; [|discriminate Eo]. injection Eo as Eg.
  destruct (y_dense solve i o w (i_cons _ _ _ _ _ _ _ Iv) Ho) as [w1 [E1 [[Q1 _] _]]]. rewrite Eg, He in E1.
  pose proof (lru_dense _ _ _ _ E1) as Ec.
  assert (EA : fst (step solve info n_it debug ppf (AskK i) w) = w1).
  { cbn [step]. unfold as_reply. rewrite (mbind_eq _ _ w w1 (Ok (el_K e))); [reflexivity|]. unfold st_K. now rewrite (mbind_eq _ _ _ _ _ E1). }
  unfold answer. cbn [run]. fold w. rewrite EA. cbn [step].
  assert (Ho1 : w_inst w1 i = Some o) by now rewrite Q1.
  rewrite (mbind_eq _ _ w1 w1 (Ok o)) by (unfold self_; now rewrite Ho1).
  match goal with |- context [mbind (set_self i ?x) _ w1] => rewrite (mbind_eq _ _ w1 (fst (set_self i x w1)) (Ok tt)) by reflexivity end.
  cbn [fst ret]. unfold as_reply, st_K.
  match goal with |- context [set_self i ?x w1] => set (w2 := fst (set_self i x w1)) end.
  assert (E2 : st_dense i w2 = (w2, Ok e)) by (unfold st_dense, lru; change (c_dense w2) with (c_dense w1); rewrite Ec, Nat.eqb_refl; reflexivity).
  rewrite (mbind_eq _ _ w2 w2 (Ok (el_K e))); [reflexivity|]. now rewrite (mbind_eq _ _ _ _ _ E2).
Qed.

(** A model whose second kernel is scaled, before and after a change of the
    scale. *)
Lemma ex_rescaled : exists f g e e', 
  gp_init ex1_Xs ex1_Ys true (GNum 0) (GNum 10) (GNum 2%nat) (Some OnTheFly) (Some f) = Ok g /\
  gp_ready g (GNum 0) (GNum 10) (GNum 2%nat) /\ proper (gp_f g) /\
  gp_dense g = Ok e /\ gp_dense (with_params g (rescale 1 2 (gp_f g))) = Ok e' /\ el_K e <> el_K e'.
Proof.
  destruct pos_rbf as [H1 _]. assert (H2 : positive (Scaled (RBF 1) 1)) by (intros v H; cbn in H; repeat destruct H as [<-|H]; try destruct H; lra).
  destruct (ex1_model (RBF 1) (Scaled (RBF 1) 1) OnTheFly H1 H2 Logic.I Logic.I) as
    (f & g & _ & _ & _ & Ef & Eg & HR & _ & _ & _ & Hp & HQ & HD & K0 & K1 & EP & HQd & _ & Em).
  destruct (ex1_indep _ _ _ _ _ Ef Eg EP) as [N1 N2]. pose proof (rd_ok g _ _ _ HR) as Hok.
  set (f' := rescale 1 2 (gp_f g)).
  assert (Ef' : f' = revalue (gp_f g) [RBF 1; Scaled (RBF 1) 2] (f_noise (gp_f g)) /\ map fst (f_kernels (gp_f g)) = [RBF 1; Scaled (RBF 1) 1]).
  { unfold f', rescale, revalue, set_values, kern_of, f_Q in *. destruct (f_kernels (gp_f g)) as [|[a da] [|[b db] [|c l]]]; try discriminate HQ.
    cbn in K0, K1. subst a b. split; reflexivity. }
  destruct Ef' as [Ef' Hks].
  assert (U : update_ok (gp_f g) [RBF 1; Scaled (RBF 1) 2] (f_vecs (gp_f g)) (f_diags (gp_f g)) (f_noise (gp_f g))).
  { apply revalue_ok; auto; [|apply (ok_noise _ Hok)]. rewrite Hks. repeat constructor. }
  assert (Hq' : forall q, kern_of f' q = nth q [RBF 1; Scaled (RBF 1) 2] KIdentity).
  { intros q. rewrite Ef'. unfold kern_of, revalue, set_values. cbn [f_kernels]. unfold f_Q in *. destruct (f_kernels (gp_f g)) as [|a [|b [|c l]]]; try discriminate HQ.
    destruct q as [|[|q]]; cbn; auto. now destruct q. }
  assert (HQ' : f_Q f' = 2%nat) by (rewrite Ef'; unfold revalue; now rewrite set_values_Q).
  assert (Hk' : kernels_ok f').
  { intros q Hq. rewrite HQ' in Hq. rewrite Hq'. destruct q as [|[|q]]; [| |lia]; (split; [intros v H; cbn in H; repeat destruct H as [<-|H]; try destruct H; lra|exact Logic.I]). }
  assert (Hp' : proper f').
  { split.
    - intros q Hq. rewrite HQ' in Hq. rewrite Hq'. destruct q as [|[|q]]; [| |lia]; cbn; discriminate.
    - intros q a Hq Ha. apply (pr_diag _ Hp q a); [|exact Ha]. rewrite HQ. lia.
    - intros a Ha. apply (pr_noise _ Hp a Ha). }
  assert (HR' : gp_ready (with_params g f') (GNum 0) (GNum 10) (GNum 2%nat)).
  { rewrite Ef'. apply ready_update; [exact HR|exact U|]. unfold revalue in Ef'. now rewrite <- Ef'. }
  destruct (dense_ok g _ _ _ HR (K_obs_pdR g _ _ _ HR Hp)) as [e [He _]].
  destruct (dense_ok _ _ _ _ HR' (K_obs_pdR _ _ _ _ HR' Hp')) as [e' [He' _]].
  exists f, g, e, e'. repeat (split; [assumption|]). intros EK.
  assert (HI : is_indep (gp_f g) 1) by (unfold is_indep; lia).
  destruct (ok_diag_indep _ Hok 1%nat HI) as [d [Hd Ed]]. pose proof (ok_vec_indep _ Hok 1%nat HI) as Ev.
  assert (HB : B_of (gp_f g) 1 d d = 1).
  { unfold B_of. rewrite Ev, Ed, vget_tab, !Nat.eqb_refl by exact Hd. rewrite (proj1 (mk_is_mx _ _ _)). cbn [Rsum]. rewrite mget_mk by lia. ring. }
  assert (Hl : (0 < nth d (map (@length R) (mg_Ys (gp_data g))) 0)%nat).
  { pose proof (ex1_multi _ Em) as Ed'. rewrite Ed'. rewrite HD in Hd. destruct d as [|[|d]]; [| |lia]; cbn; lia. }
  assert (Hd' : (d < f_D (gp_f (with_params g f')))%nat) by exact Hd.
  pose proof (gp_K_entry g _ _ _ e d HR He Hd Hl) as V1. pose proof (gp_K_entry _ _ _ _ e' d HR' He' Hd' Hl) as V2.
  cbv zeta in V1, V2. cbn [with_params gp_data gp_f] in V2. rewrite EK in V1. rewrite V1 in V2. clear V1.
  rewrite HQ, HQ' in V2. cbn [Rsum] in V2. rewrite K0, K1, !Hq' in V2. cbn [nth] in V2.
  change (B_of f' 0 d d) with (B_of (gp_f g) 0 d d) in V2. change (B_of f' 1 d d) with (B_of (gp_f g) 1 d d) in V2. change (f_noise f') with (f_noise (gp_f g)) in V2.
  rewrite HB in V2. cbn [k_doc] in V2.
  pose proof (exp_pos (- (1) * 0 ^ 2 / 2)). lra.
Qed.

(** ** Updates that raise *)

(** Subtracting enough on the diagonal makes a matrix negative definite. *)
Lemma Rsum_term n F i : (i < n)%nat -> (forall j, (j < n)%nat -> 0 <= F j) -> F i <= Rsum n F.
Proof.
  induction n as [|n IH]; intros Hi H; [lia|]. cbn [Rsum]. pose proof (H n (Nat.lt_succ_diag_r n)) as Hn'.
  destruct (Nat.eq_dec i n) as [->|N].
  - assert (0 <= Rsum n F) by (apply Rsum_nonneg; intros; apply H; lia). lra.
  - assert (F i <= Rsum n F) by (apply IH; [lia|intros; apply H; lia]). lra.
Qed.

Lemma big_shift n (F : nat -> nat -> R) : exists c, 0 < c /\ forall d, c <= d -> pos_definite n (fun i j => (if Nat.eqb i j then d else 0) - F i j).
Proof.
  set (S := Rsum n (fun i => Rsum n (fun j => Rabs (F i j)))).
  assert (S0 : 0 <= S) by (apply Rsum_nonneg; intros; apply Rsum_nonneg; intros; apply Rabs_pos).
  exists (1 + S). split; [lra|]. intros c Hc x [i0 [Hi0 Hx]].
  set (N := Rsum n (fun i => x i * x i)).
  assert (HN : forall i, (i < n)%nat -> x i * x i <= N) by (intros i Hi; apply (Rsum_term n (fun i => x i * x i) i Hi); intros j _; apply Rle_0_sqr).
  assert (N0 : 0 < N) by (apply Rlt_le_trans with (x i0 * x i0); [apply Rsqr_pos_lt; exact Hx|now apply HN]).
  assert (E : Rsum n (fun i => Rsum n (fun j => x i * ((if Nat.eqb i j then c else 0) - F i j) * x j)) = c * N - Rsum n (fun i => Rsum n (fun j => x i * F i j * x j))).
  { unfold N. rewrite <- Rsum_scal_l, <- Rsum_minus. apply Rsum_ext. intros i Hi.
    rewrite (Rsum_ext n _ (fun j => (if Nat.eqb j i then x i * c * x j else 0) - x i * F i j * x j)).
    2:{ intros j _. rewrite (Nat.eqb_sym i j). destruct (Nat.eqb j i); ring. }
    rewrite Rsum_minus. f_equal. rewrite (Rsum_delta n i (fun j => x i * c * x j)) by exact Hi. ring. }
  rewrite E. assert (B : Rsum n (fun i => Rsum n (fun j => x i * F i j * x j)) <= S * N).
  { unfold S. rewrite <- Rsum_scal_r. apply Rsum_le. intros i Hi. rewrite <- Rsum_scal_r. apply Rsum_le. intros j Hj.
    apply Rle_trans with (Rabs (x i * F i j * x j)); [apply Rle_abs|]. rewrite !Rabs_mult.
    pose proof (Rabs_pos (F i j)). assert (Rabs (x i) * Rabs (x j) <= N).
    { pose proof (Rle_0_sqr (Rabs (x i) - Rabs (x j))) as Q. unfold Rsqr in Q.
      assert (A1 : Rabs (x i) * Rabs (x i) = x i * x i) by (rewrite <- Rabs_mult; apply Rabs_right, Rle_ge, Rle_0_sqr).
      assert (A2 : Rabs (x j) * Rabs (x j) = x j * x j) by (rewrite <- Rabs_mult; apply Rabs_right, Rle_ge, Rle_0_sqr).
      pose proof (HN i Hi). pose proof (HN j Hj). lra. }
    replace (Rabs (x i) * Rabs (F i j) * Rabs (x j)) with (Rabs (F i j) * (Rabs (x i) * Rabs (x j))) by ring. now apply Rmult_le_compat_l. }
  assert (S * N < c * N) by (apply Rmult_lt_compat_r; lra). lra.
Qed.

(** A direct solver for definite matrices, positive or negative. *)
Definition definite_solve (Ko : Mat) (b : vec) : result vec :=
  match direct_solve Ko b with
  | Ok x => Ok x
  | Err _ =>
    match chol (length b) (fun i j => - mget (as_numpy Ko) i j) with
    | Some U => Ok (tab (length b) (fun i => - potrs (length b) U (vget b) i))
    | None => Err LinAlgError
    end
  end.
Lemma definite_pos n K : sym n K -> pos_definite n K -> exact_solver n K definite_solve.
Proof.
  intros Hs Hp Ko HK b Hb. destruct (direct_exact n K Hs Hp Ko HK b Hb) as [x [E X]]. exists x. unfold definite_solve. rewrite E. auto.
Qed.
Lemma definite_neg n K : sym n K -> pos_definite n (fun i j => - K i j) -> exact_solver n K definite_solve.
Proof.
  intros Hs Hp Ko HK b Hb. unfold definite_solve.
  assert (Hag : agree n K (mget (as_numpy Ko))).
  { intros i j Hi Hj. rewrite (rep_np _ _ HK). unfold d_dense. cbn [d_r d_c d_f]. now rewrite mget_mk. }
  assert (Hs' : sym n (fun i j => - K i j)) by (intros i j Hi Hj; now rewrite (Hs i j Hi Hj)).
  pose proof (proj1 (pos_definite_pivots n _ Hs') Hp) as HPv.
  destruct (direct_solve Ko b) as [x|] eqn:ED.
  - pose proof ED as ED'. unfold direct_solve in ED'. rewrite Hb in ED'. destruct (chol n (mget (as_numpy Ko))) as [U|] eqn:EC; [|discriminate ED'].
    pose proof (chol_conv n K _ U Hs Hag EC) as HPv'. destruct (direct_exact n K Hs (proj2 (pos_definite_pivots n K Hs) HPv') Ko HK b Hb) as [x' [E X]].
    rewrite ED in E. injection E as <-. exists x. auto.
  - rewrite Hb. destruct (chol_ok n (fun i j => - K i j) (fun i j => - mget (as_numpy Ko) i j) Hs') as [U [EU [_ [_ [_ [_ Hso]]]]]]; [|exact HPv|].
    + intros i j Hi Hj. now rewrite (Hag i j Hi Hj).
    + rewrite EU. eexists. split; [reflexivity|]. split; [apply tab_length|]. intros i Hi. rewrite <- (Hso (vget b) i Hi). apply Rsum_ext. intros j Hj. rewrite vget_tab by exact Hj. ring.
Qed.

(** A fit with an invertible covariance. *)
Lemma invertible_fit g lo hi m solve n_it bits old X : (0 < n_it)%nat -> gp_ready g lo hi m -> exact_solver (n_obs g) (K_fit g) solve ->
  is_inv (n_obs g) (K_fit g) X -> slots_fit old (gp_f g) -> In bits (draws n_it (n_obs g)) ->
  exists k s, parameters_changed solve bits n_it g old = Ok (k, s).
Proof.
  intros Hn HR Hs HX (O1 & O2 & O3) Hb.
  set (f := gp_f g) in *. set (P := mg_P (gp_data g)). set (Ys := mg_Ys (gp_data g)). set (lens := map (@length R) Ys).
  pose proof (rd_ok g lo hi m HR) as Hok. pose proof (rd_P g lo hi m HR) as HP. fold f in Hok, HP.
  destruct (gen_K_op f P _ _ (G_of (gp_grids g)) (W_of (gp_grids g)) _ lens Hok HP (rd_Pp g lo hi m HR) (gr_kern _ _ _ _ HR)
     (rd_D g lo hi m HR) (rd_n g lo hi m HR) (kr_interp g lo hi m HR)) as [Ko [gks [EK RK]]].
  assert (HY : length Ys = f_D f) by exact (eq_trans (eq_sym (map_length _ _)) (rd_D g lo hi m HR)).
  pose proof (K_op_sym f P _ _ _ _ _ lens Hok HP (kr_interp g lo hi m HR)) as Hsym.
  pose proof (rd_n g lo hi m HR) as Hn0. fold Ys lens in Hn0. change (0 < nsum lens)%nat in Hn0.
  assert (HA : exists a, solves (nsum lens) (K_fit g) a (vget (concat Ys))).
  { destruct (Hs Ko RK (concat Ys) (length_concat Ys)) as [x [_ [_ Hx]]]. now exists (vget x). }
  destruct HA as [a Ha].
  destruct (np_mat_ok (nsum lens) (nsum lens) (fun _ _ => 0) Hn0 Hn0) as [z [_ Hz]].
  destruct (generate_ok (nsum lens) n_it (K_fit g) X (fun _ _ => 0) Ko z solve (concat Ys) a Hn Hsym HX Hz (Hs Ko RK) (length_concat Ys) Ha bits Hb) as [s [Es _]].
  destruct (approx_init_ok f P _ _ (G_of (gp_grids g)) (W_of (gp_grids g)) _ Ys Hok HP (rd_Pp g lo hi m HR) (gr_kern _ _ _ _ HR) HY Hn0 (kr_interp g lo hi m HR) solve bits n_it Ko s Es) as [l [El Hl]].
  pose proof (approx_gradients_ok f P _ _ (G_of (gp_grids g)) (W_of (gp_grids g)) _ Ys Hok HP (rd_Pp g lo hi m HR) HY Hn0 (kr_interp g lo hi m HR) n_it solve Ko X
    (spurious f (G_of (gp_grids g)) (W_of (gp_grids g))) a Hn (Hs Ko RK) Hsym HX Ha bits Hb l s Es Hl) as Eg.
  match type of Eg with _ = Ok ?x => set (dg := x) in * end.
  destruct (C54_update_gradient f P dg old (gr_reach _ _ _ _ HR) HP (rd_Pp g lo hi m HR)) as [new [En _]];
    [apply tab_length|apply tab_length|apply tab_length| |exact O1|exact O2|exact O3|].
  - intros q Hq. cbn [dg g_kernels]. rewrite nth_tab by exact Hq. apply tab_length.
  - exists (mk_gpk l gks), new. unfold parameters_changed. fold f Ys lens. rewrite EK. cbn [bind]. rewrite El. cbn [bind]. rewrite Eg. cbn [bind]. rewrite En. reflexivity.
Qed.

Lemma pos_def_ext n F F' : (forall i j, (i < n)%nat -> (j < n)%nat -> F i j = F' i j) -> pos_definite n F -> pos_definite n F'.
Proof.
  intros H Hp x Hx. specialize (Hp x Hx). replace (Rsum n (fun i => Rsum n (fun j => x i * F' i j * x j))) with (Rsum n (fun i => Rsum n (fun j => x i * F i j * x j))); [exact Hp|].
  apply Rsum_ext. intros i Hi. apply Rsum_ext. intros j Hj. now rewrite H.
Qed.
Lemma neg_not_pos n F : (0 < n)%nat -> pos_definite n (fun i j => - F i j) -> ~ pos_definite n F.
Proof.
  intros Hn H1 H2. assert (E : exists i, (i < n)%nat /\ (fun _ : nat => 1) i <> 0) by (exists 0%nat; split; [exact Hn|lra]).
  specialize (H1 _ E). specialize (H2 _ E). cbv beta in H1, H2.
  rewrite (Rsum_ext n _ (fun i => - Rsum n (fun j => 1 * F i j * 1))) in H1.
  2:{ intros i _. rewrite <- Rsum_opp. apply Rsum_ext. intros j _. ring. }
  rewrite Rsum_opp in H1. lra.
Qed.
Lemma neg_inv n F : sym n F -> pos_definite n (fun i j => - F i j) -> exists X, is_inv n F X.
Proof.
  intros Hs Hp. assert (Hs' : sym n (fun i j => - F i j)) by (intros i j Hi Hj; now rewrite (Hs i j Hi Hj)).
  destruct (inv_ex n _ (proj1 (pos_definite_pivots n _ Hs') Hp)) as [Y HY]. exists (fun i j => - Y i j). intros i j Hi Hj.
  rewrite <- (HY i j Hi Hj). apply Rsum_ext. intros. ring.
Qed.

(** A negative noise below all other variances. *)
Lemma ex_negative : exists f g f', 
  gp_init ex1_Xs ex1_Ys true (GNum 0) (GNum 10) (GNum 2%nat) (Some OnTheFly) (Some f) = Ok g /\
  gp_ready g (GNum 0) (GNum 10) (GNum 2%nat) /\ proper (gp_f g) /\
  (exists ks vecs diags noise, update_ok (gp_f g) ks vecs diags noise /\ f' = set_values (gp_f g) ks vecs diags noise) /\
  kernels_ok f' /\ gp_ready (with_params g f') (GNum 0) (GNum 10) (GNum 2%nat) /\ (0 < n_obs g)%nat /\
  pos_definite (n_obs g) (fun i j => - K_fit (with_params g f') i j) /\ gp_dense (with_params g f') = Err LinAlgError.
Proof.
  destruct pos_rbf as [H1 [H2 _]].
  destruct (ex1_model (RBF 1) (Matern32 2) OnTheFly H1 H2 Logic.I Logic.I) as
    (f & g & _ & _ & _ & _ & Eg & HR & _ & _ & _ & Hp & HQ & HD & K0 & K1 & _ & HQd & _ & _).
  pose proof (rd_ok g _ _ _ HR) as Hok. pose proof (rd_n g _ _ _ HR) as Hn. change (0 < n_obs g)%nat in Hn. pose proof (rd_D g _ _ _ HR) as HL.
  assert (Hks : map fst (f_kernels (gp_f g)) = [RBF 1; Matern32 2]).
  { unfold kern_of, f_Q in *. destruct (f_kernels (gp_f g)) as [|a [|b [|c l]]]; try discriminate HQ. cbn in *. now rewrite K0, K1. }
  pose (fc c := revalue (gp_f g) [RBF 1; Matern32 2] [-c; -c]).
  destruct (big_shift (n_obs g) (K_fit (with_params g (fc 0)))) as [c1 [P1 B1]].
  destruct (big_shift (n_obs g) (K_obs (fc 0) (mg_P (gp_data g)) (mg_Xs (gp_data g)) (map (@length R) (mg_Ys (gp_data g))))) as [c2 [P2 B2]].
  set (c := Rmax c1 c2). specialize (B1 c (Rmax_l _ _)). specialize (B2 c (Rmax_r _ _)).
  assert (U : update_ok (gp_f g) [RBF 1; Matern32 2] (f_vecs (gp_f g)) (f_diags (gp_f g)) [-c; -c]).
  { apply revalue_ok; auto. rewrite Hks. repeat constructor. }
  assert (Hq' : forall q, kern_of (fc c) q = nth q [RBF 1; Matern32 2] KIdentity).
  { intros q. unfold kern_of, fc, revalue, set_values. cbn [f_kernels]. unfold f_Q in *. destruct (f_kernels (gp_f g)) as [|a [|b [|cc l]]]; try discriminate HQ.
    destruct q as [|[|q]]; cbn; auto. now destruct q. }
  assert (HQ' : f_Q (fc c) = 2%nat) by (unfold fc, revalue; now rewrite set_values_Q).
  assert (Hk' : kernels_ok (fc c)).
  { intros q Hq. rewrite HQ' in Hq. rewrite Hq'. destruct q as [|[|q]]; [| |lia]; (split; [assumption|exact Logic.I]). }
  assert (HR' : gp_ready (with_params g (fc c)) (GNum 0) (GNum 10) (GNum 2%nat)) by now apply ready_update.
  assert (Hno : forall i, (i < n_obs g)%nat -> vget [-c; -c] (owner (map (@length R) (mg_Ys (gp_data g))) i) = - c /\ vget [-0; -0] (owner (map (@length R) (mg_Ys (gp_data g))) i) = 0).
  { intros i Hi. destruct (owner_lt _ _ Hi) as [Ho _]. rewrite HL, HD in Ho. destruct (owner _ i) as [|[|o]]; [| |lia]; cbn; split; ring. }
  exists f, g, (fc c). repeat (split; [assumption|]). split; [eexists _, _, _, _; split; [exact U|reflexivity]|].
  split; [exact Hk'|]. split; [exact HR'|]. split; [exact Hn|]. split.
  - refine (pos_def_ext _ _ _ _ B1). intros i j Hi Hj. unfold K_fit. cbn [with_params gp_f gp_grids gp_data]. unfold K_op, K_ski.
    destruct (Hno i Hi) as [E1 E2]. change (f_noise (fc c)) with [-c; -c]. change (f_noise (fc 0)) with [-0; -0]. rewrite E1, E2.
    change (spurious (fc c)) with (spurious (fc 0)).
    match goal with |- _ = - (?a + _ + _) => match goal with |- _ - (?b + _ + _) = _ => change a with b; set (S := b) end end.
    destruct (Nat.eqb i j); ring.
  - assert (HN : ~ pos_definite (n_obs g) (K_obs (fc c) (mg_P (gp_data g)) (mg_Xs (gp_data g)) (map (@length R) (mg_Ys (gp_data g))))).
    { apply neg_not_pos; [exact Hn|]. refine (pos_def_ext _ _ _ _ B2). intros i j Hi Hj. unfold K_obs.
      destruct (Hno i Hi) as [E1 E2]. change (f_noise (fc c)) with [-c; -c]. change (f_noise (fc 0)) with [-0; -0]. rewrite E1, E2.
      change (lmc_cov (fc c)) with (lmc_cov (fc 0)). destruct (Nat.eqb i j); ring. }
    apply (exact_init_ok (fc c) (mg_P (gp_data g)) (mg_Xs (gp_data g)) (mg_Ys (gp_data g)) (rd_ok _ _ _ _ HR') (rd_P _ _ _ _ HR')
      (rd_Pp _ _ _ _ HR') (gr_kern _ _ _ _ HR') (dims_rangeR _ _ _ _ HR') (da_in _ _ _ _ _ _ _ (gr_data _ _ _ _ HR'))
      (eq_trans (eq_sym (map_length _ _)) (rd_D _ _ _ _ HR'))).
    intros HPv. apply HN. apply pos_definite_pivots; [apply K_obs_sym|exact HPv].
Qed.
