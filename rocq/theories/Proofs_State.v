(** The caches of InterpolatedLLGP always hold current values. *)

From Coq Require Import Reals List Arith ZArith Lia Lra.
From Verif Require Import Base NDArray Model_Util Model_Linalg Model_Interp Model_Kern Model_FK Model_Grid Model_Lik Model_GP Spec_Pred Model_State Spec_State.
Import ListNotations.
Open Scope R_scope.

Lemma bindE {A B} (x : result A) (k : A -> result B) : (let! a := x in k a) = match x with Ok a => k a | Err e => Err e end.
Proof. reflexivity. Qed.

Section S.
  Variable solve : Mat -> vec -> result vec.
  Variable info : Mat -> vec -> R * R.
  Variable n_it : nat.
  Variable debug : bool.
  Variable ppf : R -> R.

  (** Every cache entry is the value of its computation in the present state. *)
  Record consistent (w : world) : Prop := {
    k_dense : forall i e, c_dense w = Some (i, e) -> exists o, w_inst w i = Some o /\ gp_dense (in_gp o) = Ok e;
    k_alpha : forall i a, c_alpha w = Some (i, a) -> exists o k, w_inst w i = Some o /\ in_kernel o = Some k /\ grid_alpha (in_gp o) k = Ok a;
    k_native : forall i v, c_native w = Some (i, v) -> exists o, w_inst w i = Some o /\ native_variance (gp_f (in_gp o)) = Ok v;
    k_nu : forall i v, c_nu w = Some (i, v) -> exists o k, w_inst w i = Some o /\ in_kernel o = Some k /\ precomputed_nu solve (in_gp o) k = Ok v
  }.

  Definition quiet (w w' : world) : Prop :=
    w_inst w' = w_inst w /\ w_count w' = w_count w /\ w_heap w' = w_heap w /\ w_next w' = w_next w.
  Lemma quiet_refl w : quiet w w. Proof. repeat split. Qed.
  Lemma quiet_trans w1 w2 w3 : quiet w1 w2 -> quiet w2 w3 -> quiet w1 w3.
  Proof. unfold quiet. intuition congruence. Qed.

  (** Whatever the state of the caches, [m] called on object [i] in state [o] gives [r]. *)
  Definition yields (i : nat) (o : inst) {A} (m : M A) (r : result A) : Prop :=
    forall w, consistent w -> w_inst w i = Some o -> exists w', m w = (w', r) /\ quiet w w' /\ consistent w'.

  Section Y.
    Variable i : nat. Variable o : inst.
    Notation Y := (yields i o).

    Lemma y_ret {A} (a : A) : Y (ret a) (Ok a).
    Proof. intros w C H. exists w. repeat split; auto; apply C. Qed.
    Lemma y_lift {A} (r : result A) : Y (lift r) r.
    Proof. intros w C H. exists w. repeat split; auto; apply C. Qed.
    Lemma y_self : Y (self_ i) (Ok o).
    Proof. intros w C H. exists w. unfold self_. rewrite H. repeat split; auto; apply C. Qed.
    Lemma y_bind {A B} (m : M A) (k : A -> M B) rm (f : A -> result B) :
      Y m rm -> (forall a, rm = Ok a -> Y (k a) (f a)) -> Y (mbind m k) (bind rm f).
    Proof.
      intros Hm Hk w C H. destruct (Hm w C H) as [w1 [E [Q C1]]]. unfold mbind. rewrite E. cbn [fst snd].
      destruct rm as [a|e]; cbn [bind]; [|now exists w1].
      destruct (Hk a eq_refl w1 C1) as [w2 [E2 [Q2 C2]]]; [destruct Q as [Q _]; now rewrite Q|].
      exists w2. split; [exact E2|]. split; [eapply quiet_trans; eassumption|exact C2].
    Qed.
    (** As [y_bind], for a computation without a counterpart. *)
    Lemma y_bind' {A B} (m : M A) (k : A -> M B) a (r : result B) : Y m (Ok a) -> Y (k a) r -> Y (mbind m k) r.
    Proof. intros Hm Hk. apply (y_bind m k (Ok a) (fun _ => r) Hm). intros a' E. injection E as <-. exact Hk. Qed.
    Lemma y_eq {A} (m : M A) r r' : Y m r -> r = r' -> Y m r'. Proof. now intros H <-. Qed.
    Lemma y_kernel k : in_kernel o = Some k -> Y (kernel_ i) (Ok k).
    Proof. intros H. unfold kernel_. apply (y_bind' _ _ o); [apply y_self|]. rewrite H. apply y_ret. Qed.

    (** A cached method. *)
    Lemma y_lru {A} (get : world -> option (nat * A)) put (m : M A) r :
      Y m r ->
      (forall w a, consistent w -> w_inst w i = Some o -> get w = Some (i, a) -> r = Ok a) ->
      (forall w a, consistent w -> w_inst w i = Some o -> r = Ok a -> quiet w (put (Some (i, a)) w) /\ consistent (put (Some (i, a)) w)) ->
      Y (lru get put i m) r.
    Proof.
      intros Hm Hg Hp w C H.
      assert (HN : exists w', mbind m (fun a w => (put (Some (i, a)) w, Ok a)) w = (w', r) /\ quiet w w' /\ consistent w').
      { destruct (Hm w C H) as [w1 [E [Q C1]]]. unfold mbind. rewrite E. cbn [fst snd]. destruct r as [a|e]; [|now exists w1].
        assert (H1 : w_inst w1 i = Some o) by (destruct Q as [Q _]; now rewrite Q).
        destruct (Hp w1 a C1 H1 eq_refl) as [Q2 C2]. exists (put (Some (i, a)) w1). split; [reflexivity|]. split; [eapply quiet_trans; eassumption|exact C2]. }
      unfold lru. destruct (get w) as [[j a]|] eqn:E; [|exact HN]. destruct (Nat.eqb_spec i j) as [<-|_]; [|exact HN].
      exists w. rewrite (Hg w a C H E). split; [reflexivity|]. split; [apply quiet_refl|exact C].
    Qed.

    Lemma y_dense : Y (st_dense i) (gp_dense (in_gp o)).
    Proof.
      apply y_lru.
      - apply (y_bind' _ _ o); [apply y_self|apply y_lift].
      - intros w a C H E. destruct (k_dense w C _ _ E) as [o' [H' H2]]. rewrite H in H'. now injection H' as <-.
      - intros w a C H E. split; [repeat split|]. split; try apply C. cbn. intros j e Hj. injection Hj as <- <-. now exists o.
    Qed.
    Lemma y_native : Y (st_native_variance i) (native_variance (gp_f (in_gp o))).
    Proof.
      apply y_lru.
      - apply (y_bind' _ _ o); [apply y_self|apply y_lift].
      - intros w a C H E. destruct (k_native w C _ _ E) as [o' [H' H2]]. rewrite H in H'. now injection H' as <-.
      - intros w a C H E. split; [repeat split|]. split; try apply C. cbn. intros j e Hj. injection Hj as <- <-. now exists o.
    Qed.
    Lemma y_K : Y (st_K i) (gp_K (in_gp o)).
    Proof. apply y_bind; [apply y_dense|]. intros e _. apply y_ret. Qed.
    Lemma y_log_det : Y (st_log_det_K i) (gp_log_det_K (in_gp o)).
    Proof. apply y_bind; [apply y_dense|]. intros e _. cbv zeta. destruct (Rle_dec _ 0); apply y_ret. Qed.

    Variable k : gp_kernel.
    Hypothesis Hk : in_kernel o = Some k.
    Lemma y_quadratic : Y (st_normal_quadratic i) (Ok (gp_normal_quadratic (in_gp o) k)).
    Proof. apply (y_bind' _ _ o); [apply y_self|]. apply (y_bind' _ _ k); [now apply y_kernel|]. apply y_ret. Qed.
    Lemma y_log_lik : Y (st_log_likelihood i) (gp_log_likelihood (in_gp o) k).
    Proof.
      apply y_bind; [apply y_log_det|]. intros d _. apply (y_bind' _ _ _ _ y_quadratic).
      apply (y_bind' _ _ o); [apply y_self|]. destruct d; apply y_ret.
    Qed.
    Lemma y_alpha : Y (st_grid_alpha i) (grid_alpha (in_gp o) k).
    Proof.
      apply y_lru.
      - apply (y_bind' _ _ o); [apply y_self|]. apply (y_bind' _ _ k); [now apply y_kernel|]. apply y_lift.
      - intros w a C H E. destruct (k_alpha w C _ _ E) as [o' [k' [H' [H2 H3]]]]. rewrite H in H'. injection H' as <-. rewrite Hk in H2. now injection H2 as <-.
      - intros w a C H E. split; [repeat split|]. split; try apply C. cbn. intros j e Hj. injection Hj as <- <-. now exists o, k.
    Qed.
    Lemma y_nu : Y (st_precomputed_nu solve i) (precomputed_nu solve (in_gp o) k).
    Proof.
      apply y_lru.
      - apply (y_bind' _ _ o); [apply y_self|]. apply (y_bind' _ _ k); [now apply y_kernel|]. apply y_lift.
      - intros w a C H E. destruct (k_nu w C _ _ E) as [o' [k' [H' [H2 H3]]]]. rewrite H in H'. injection H' as <-. rewrite Hk in H2. now injection H2 as <-.
      - intros w a C H E. split; [repeat split|]. split; try apply C. cbn. intros j e Hj. injection Hj as <- <-. now exists o, k.
    Qed.
    Lemma y_rest Xs lens : exists r, Y (st_raw_rest solve i Xs lens) r /\ (map_result np_len Xs = Ok lens -> raw_predict solve (in_gp o) k Xs = r).
    Proof.
      eexists. split.
      - apply y_bind; [apply y_alpha|]. intros ga _. apply y_bind; [apply y_native|]. intros nv _.
        apply (y_bind' _ _ o); [apply y_self|]. cbv zeta.
        apply y_bind; [apply y_lift|]. intros Ws _. apply y_bind; [apply y_lift|]. intros mean _.
        apply y_bind; [apply y_lift|]. intros nv' _. apply (y_bind _ _ (match gp_mode (in_gp o) with
                     | OnTheFly => var_on_the_fly solve (in_gp o) k Xs
                     | Precompute => var_precompute solve (in_gp o) k (map fst Ws)
                     | Exact => var_exact (in_gp o) Xs
                     end) (fun explained => if negb (Nat.eqb (length nv') (length explained)) then Err ValueError
  else
    let var := clip0 (vsub nv' explained) in
    let endpoints := removelast (accumulate lens) in
    Ok (np_split mean endpoints, np_split var endpoints))).
        + destruct (gp_mode (in_gp o)).
          * apply (y_bind' _ _ o); [apply y_self|]. apply (y_bind' _ _ k); [now apply y_kernel|]. apply y_lift.
          * apply y_bind; [apply y_nu|]. intros nu _. destruct (negb _); [apply y_lift|]. destruct (map fst Ws) as [|[ad W] l]; apply y_lift.
          * apply y_bind; [apply y_dense|]. intros e _. apply (y_bind' _ _ o); [apply y_self|].
            apply y_bind; [apply y_lift|]. intros Kt _. apply y_bind; [apply y_lift|]. intros [rc rows] _.
            apply y_bind; [apply y_lift|]. intros sol _. apply y_ret.
        + intros ex _. destruct (negb _); [apply y_lift|apply y_ret].
      - intros E. unfold raw_predict. rewrite E. reflexivity.
    Qed.
    Lemma y_raw bits Xs : Y (st_raw_predict solve info n_it debug i bits Xs) (raw_predict solve (in_gp o) k Xs).
    Proof.
      unfold st_raw_predict. destruct (map_result np_len Xs) as [lens|e] eqn:EL.
      - apply (y_bind' _ _ lens); [apply y_lift|]. apply (y_bind' _ _ o); [apply y_self|].
        rewrite Hk. apply (y_bind' _ _ tt); [apply y_ret|]. destruct (y_rest Xs lens) as [r [Hr E]]. now rewrite (E EL).
      - unfold raw_predict. rewrite EL. apply y_bind; [apply y_lift|]. discriminate.
    Qed.
    Lemma y_norm bits Xs un : Y (st_predict_norm solve info n_it debug i bits Xs un) (gp_predict_norm solve (in_gp o) k Xs un).
    Proof.
      apply (y_bind' _ _ o); [apply y_self|]. unfold gp_predict_norm. cbv zeta.
      destruct (negb _); [apply y_lift|]. destruct (negb _); [apply y_lift|].
      apply y_bind; [apply y_raw|]. intros [mu var] _. destruct (mg_norm _), un; apply y_ret.
    Qed.
    Lemma y_predict bits Xs : Y (st_predict solve info n_it debug i bits Xs) (gp_predict solve (in_gp o) k Xs).
    Proof. apply (y_bind' _ _ o); [apply y_self|]. apply y_bind; [apply y_lift|]. intros Zs _. apply y_norm. Qed.
    Lemma y_quantiles bits Xs qs : Y (st_predict_quantiles solve info n_it debug ppf i bits Xs qs) (gp_predict_quantiles ppf solve (in_gp o) k Xs qs).
    Proof.
      apply (y_bind' _ _ o); [apply y_self|]. apply y_bind; [apply y_lift|]. intros Zs _.
      apply y_bind; [apply y_norm|]. intros [mu var] _. cbv zeta. destruct (mg_norm _); apply y_ret.
    Qed.
  End Y.

  Lemma mbind_eq {A B} (m : M A) (k : A -> M B) w w1 r :
    m w = (w1, r) -> mbind m k w = match r with Ok a => k a w1 | Err e => (w1, Err e) end.
  Proof. intros E. unfold mbind. now rewrite E. Qed.

  (** [w'] differs from [w] in metrics objects [rs] only. *)
  Definition heap_only (rs : list (option nat)) (w w' : world) : Prop :=
    w_next w' = w_next w /\ forall r, ~ In (Some r) rs -> w_heap w' r = w_heap w r.
  Lemma heap_only_refl rs w : heap_only rs w w. Proof. split; auto. Qed.
  Lemma heap_only_trans rs w1 w2 w3 : heap_only rs w1 w2 -> heap_only rs w2 w3 -> heap_only rs w1 w3.
  Proof. intros [A B] [C D]. split; [congruence|]. intros r Hr. now rewrite D, B. Qed.

  Definition same_caches (w w' : world) : Prop :=
    c_dense w' = c_dense w /\ c_alpha w' = c_alpha w /\ c_native w' = c_native w /\ c_nu w' = c_nu w.

  (** Lengths of the series. *)
  Definition adds (a b c d e : nat) (m m' : metrics) : Prop :=
    length (iterations m') = (a + length (iterations m))%nat /\ length (grad_norms m') = (b + length (grad_norms m))%nat /\
    length (grad_error m') = (c + length (grad_error m))%nat /\ length (solv_error m') = (d + length (solv_error m))%nat /\
    length (log_likely m') = (e + length (log_likely m))%nat.
  Lemma adds0 m : adds 0 0 0 0 0 m m. Proof. repeat split. Qed.

  Lemma approx_init_step i o bits K w : w_inst w i = Some o ->
    let g := in_gp o in
    let r := approx_init solve bits n_it (gp_f g) K (grids_dists (gp_grids g)) (grids_interps (gp_grids g)) (mg_Ys (gp_data g)) in
    exists w1, st_approx_init solve info n_it i bits K w = (w1, r) /\ w_inst w1 = w_inst w /\ w_count w1 = w_count w /\
      same_caches w w1 /\ heap_only [in_service o] w w1 /\
      ((exists l, r = Ok l) -> forall ref, in_service o = Some ref -> adds 1 0 0 1 0 (w_heap w ref) (w_heap w1 ref)).
  Proof.
    intros H g r. unfold st_approx_init. rewrite (mbind_eq _ _ w w (Ok o)) by (unfold self_; now rewrite H). cbv zeta. fold g.
    rewrite (mbind_eq _ _ w w (eval_kernels (gp_f g) (as_args (grids_dists (gp_grids g))))) by reflexivity.
    unfold r, approx_init. destruct (eval_kernels (gp_f g) _) as [Kqs|e]; cbn [bind].
    2:{ exists w. split; [reflexivity|]. split; [reflexivity|]. split; [reflexivity|]. split; [now repeat split|]. split; [apply heap_only_refl|]. intros [l E]. discriminate E. }
    rewrite (mbind_eq _ _ w w (map_result bttb_of_value Kqs)) by reflexivity.
    destruct (map_result bttb_of_value Kqs) as [ms|e]; cbn [bind].
    2:{ exists w. split; [reflexivity|]. split; [reflexivity|]. split; [reflexivity|]. split; [now repeat split|]. split; [apply heap_only_refl|]. intros [l E]. discriminate E. }
    assert (HG : exists w1, st_generate solve info n_it i bits K (concat (mg_Ys (gp_data g))) w = (w1, sd_generate solve bits n_it K (concat (mg_Ys (gp_data g)))) /\
       w_inst w1 = w_inst w /\ w_count w1 = w_count w /\ same_caches w w1 /\ heap_only [in_service o] w w1 /\
      ((exists l, sd_generate solve bits n_it K (concat (mg_Ys (gp_data g))) = Ok l) -> forall ref, in_service o = Some ref -> adds 1 0 0 1 0 (w_heap w ref) (w_heap w1 ref))).
    { unfold st_generate. rewrite (mbind_eq _ _ w w (sd_generate solve bits n_it K (concat (mg_Ys (gp_data g))))) by reflexivity.
      destruct (sd_generate _ _ _ _ _) as [d|e].
      2:{ exists w. split; [reflexivity|]. split; [reflexivity|]. split; [reflexivity|]. split; [now repeat split|]. split; [apply heap_only_refl|]. intros [l E]. discriminate E. }
      rewrite (mbind_eq _ _ w w (Ok o)) by (unfold self_; now rewrite H).
      destruct (in_service o) as [rf|].
      - eexists. split; [unfold mbind, on_metrics; cbn [fst snd]; reflexivity|]. cbn. split; [reflexivity|]. split; [reflexivity|]. split; [now repeat split|].
        split. { split; [reflexivity|]. intros r' Hr. cbn. unfold at_key. destruct (Nat.eqb_spec r' rf) as [->|]; [|reflexivity]. exfalso. apply Hr. now left. }
        intros _ ref E. injection E as <-. unfold at_key. rewrite Nat.eqb_refl. unfold adds. cbn. rewrite !app_length. cbn. lia.
      - exists w. split; [reflexivity|]. split; [reflexivity|]. split; [reflexivity|]. split; [now repeat split|]. split; [apply heap_only_refl|]. discriminate. }
    destruct HG as [w1 [E1 [I1 [N1 [C1 [O1 A1]]]]]]. rewrite (mbind_eq _ _ w w1 _ E1). 
    destruct (sd_generate _ _ _ _ _) as [d|e]; cbn [bind].
    2:{ exists w1. repeat (split; [assumption||reflexivity|]). intros [l E]. discriminate E. }
    rewrite (mbind_eq _ _ w1 w1 (eval_kernel_gradients (gp_f g) (grids_dists (gp_grids g)))) by reflexivity.
    destruct (eval_kernel_gradients _ _) as [gr|e]; cbn [bind].
    - exists w1. repeat (split; [assumption||reflexivity|]). intros _. apply A1. eauto.
    - exists w1. repeat (split; [assumption||reflexivity|]). intros [l E]. discriminate E.
  Qed.

  (** The last part of parameters_changed. *)
  Lemma record_step i o k w : w_inst w i = Some o -> in_kernel o = Some k -> consistent w ->
    exists w1 r, st_record i w = (w1, r) /\ w_inst w1 = w_inst w /\ w_count w1 = w_count w /\ consistent w1 /\ heap_only [in_metrics o] w w1 /\
      (r = Ok tt -> forall ref, in_metrics o = Some ref -> adds 0 1 1 0 1 (w_heap w ref) (w_heap w1 ref)).
  Proof.
    intros H Hk C. unfold st_record. rewrite (mbind_eq _ _ w w (Ok o)) by (unfold self_; now rewrite H).
    destruct (in_metrics o) as [rf|].
    2:{ exists w, (Ok tt). split; [reflexivity|]. split; [reflexivity|]. split; [reflexivity|]. split; [exact C|]. split; [apply heap_only_refl|]. discriminate. }
    cbv zeta. destruct (y_kernel i o k Hk w C H) as [w0 [E0 [[Q0 [N0 [H0 X0]]] C0]]]. rewrite (mbind_eq _ _ _ _ _ E0).
    assert (I0 : w_inst w0 i = Some o) by now rewrite Q0.
    destruct (y_dense i o w0 C0 I0) as [w1 [E1 [[Q1 [N1 [H1 X1]]] C1]]]. rewrite (mbind_eq _ _ _ _ _ E1).
    assert (HO : heap_only [Some rf] w w1) by (split; [congruence|intros r _; congruence]).
    assert (F : forall e, exists w2 r, (w1, Err e : result unit) = (w2, r) /\ w_inst w2 = w_inst w /\ w_count w2 = w_count w /\ consistent w2 /\ heap_only [Some rf] w w2 /\
      (r = Ok tt -> forall ref, Some rf = Some ref -> adds 0 1 1 0 1 (w_heap w ref) (w_heap w2 ref))).
    { intros e. exists w1, (Err e). split; [reflexivity|]. split; [congruence|]. split; [congruence|]. split; [exact C1|]. split; [exact HO|]. discriminate. }
    destruct (gp_dense (in_gp o)) as [e|e]; [|apply F].
    rewrite (mbind_eq _ _ w1 w1 _ eq_refl). destruct (flat_gradient _ _) as [ga|er]; [|apply F].
    rewrite (mbind_eq _ _ w1 w1 _ eq_refl). destruct (flat_gradient _ _) as [ge|er]; [|apply F].
    rewrite (mbind_eq _ _ w1 w1 _ eq_refl). destruct (inf_norm ga) as [na|er]; [|apply F].
    rewrite (mbind_eq _ _ w1 w1 _ eq_refl). destruct (inf_norm ge) as [ne|er]; [|apply F].
    rewrite (mbind_eq _ _ w1 w1 _ eq_refl). destruct (if Nat.eqb (length ga) (length ge) then inf_norm (vsub ga ge) else Err ValueError) as [nd|er]; [|apply F].
    clear F.
    match goal with |- context [mbind (on_metrics rf ?u) _ w1] => pose (w2 := fst (on_metrics rf u w1)); rewrite (mbind_eq _ _ w1 w2 (Ok tt)) by reflexivity end.
    match goal with |- context [mbind (on_metrics rf ?u) _ w2] => pose (w3 := fst (on_metrics rf u w2)); rewrite (mbind_eq _ _ w2 w3 (Ok tt)) by reflexivity end.
    assert (C3 : consistent w3) by (split; apply C1). assert (I3 : w_inst w3 i = Some o) by (change (w_inst w3) with (w_inst w1); now rewrite Q1).
    assert (HO3 : heap_only [Some rf] w w3).
    { split; [change (w_next w3) with (w_next w1); congruence|]. intros r Hr. cbn. unfold at_key. destruct (Nat.eqb_spec r rf) as [->|]; [exfalso; apply Hr; now left|]. congruence. }
    assert (A3 : adds 0 1 1 0 0 (w_heap w rf) (w_heap w3 rf)).
    { unfold adds. cbn. unfold at_key. rewrite !Nat.eqb_refl. cbn. rewrite !app_length. cbn. rewrite H1, H0. lia. }
    destruct (y_log_lik i o k Hk w3 C3 I3) as [w4 [E4 [[Q4 [N4 [H4 X4]]] C4]]]. rewrite (mbind_eq _ _ _ _ _ E4).
    assert (QQ : w_inst w4 = w_inst w /\ w_count w4 = w_count w) by (rewrite Q4, N4; split; [change (w_inst w3) with (w_inst w1)|change (w_count w3) with (w_count w1)]; congruence).
    destruct QQ as [Qi Qc].
    assert (HO4 : heap_only [Some rf] w w4) by (destruct HO3 as [Ha Hb]; split; [congruence|]; intros r Hr; rewrite H4; now apply Hb).
    destruct (gp_log_likelihood (in_gp o) k) as [ll|er].
    2:{ exists w4, (Err er). split; [reflexivity|]. split; [exact Qi|]. split; [exact Qc|]. split; [exact C4|]. split; [exact HO4|]. discriminate. }
    unfold on_metrics. eexists _, _. split; [reflexivity|]. cbn. split; [exact Qi|]. split; [exact Qc|]. split; [split; apply C4|].
    split. { destruct HO4 as [Ha Hb]. split; [exact Ha|]. intros r Hr. cbn. unfold at_key. destruct (Nat.eqb_spec r rf) as [->|]; [exfalso; apply Hr; now left|]. now apply Hb. }
    intros _ ref E. injection E as <-. unfold at_key. rewrite Nat.eqb_refl. unfold adds in *. cbn. rewrite app_length. cbn. rewrite H4. lia.
  Qed.

  (** parameters_changed *)
  Lemma pc_step i o bits w : w_inst w i = Some o ->
    exists w1 r, st_parameters_changed solve info n_it debug i bits w = (w1, r) /\
      consistent w1 /\ w_count w1 = w_count w /\ (forall j, j <> i -> w_inst w1 j = w_inst w j) /\
      heap_only [in_metrics o; in_service o] w w1 /\
      exists o1, w_inst w1 i = Some o1 /\ in_gp o1 = in_gp o /\ in_metrics o1 = in_metrics o /\ in_service o1 = in_service o /\
      (r = Ok tt ->
        (exists k s, parameters_changed solve bits n_it (in_gp o) (in_slots o) = Ok (k, s) /\ in_kernel o1 = Some k) /\
        forall ref, in_metrics o = Some ref -> in_service o = Some ref -> adds 1 1 1 1 1 (w_heap w ref) (w_heap w1 ref)).
  Proof.
    intros H. unfold st_parameters_changed. rewrite (mbind_eq _ _ w (fst (clear_caches w)) (Ok tt)) by reflexivity.
    set (w0 := fst (clear_caches w)). assert (H0 : w_inst w0 i = Some o) by exact H.
    assert (C0 : forall wx, same_caches w0 wx -> consistent wx).
    { intros wx (A & B & C & D). split; intros j v E; rewrite ?A, ?B, ?C, ?D in E; discriminate E. }
    assert (W0 : w_count w0 = w_count w /\ w_inst w0 = w_inst w /\ w_next w0 = w_next w /\ w_heap w0 = w_heap w) by repeat split.
    destruct W0 as (Wc & Wi & Wn & Wh).
    rewrite (mbind_eq _ _ w0 w0 (Ok o)) by (unfold self_; now rewrite H0). cbv zeta. set (g := in_gp o).
    (* an exception before the kernel is set *)
    assert (FE : forall wx e, w_inst wx = w_inst w0 -> w_count wx = w_count w0 -> consistent wx -> heap_only [in_service o] w0 wx ->
      exists w1 r, (wx, Err e : result unit) = (w1, r) /\
      consistent w1 /\ w_count w1 = w_count w /\ (forall j, j <> i -> w_inst w1 j = w_inst w j) /\
      heap_only [in_metrics o; in_service o] w w1 /\
      exists o1, w_inst w1 i = Some o1 /\ in_gp o1 = g /\ in_metrics o1 = in_metrics o /\ in_service o1 = in_service o /\
      (r = Ok tt ->
        (exists k s, parameters_changed solve bits n_it g (in_slots o) = Ok (k, s) /\ in_kernel o1 = Some k) /\
        forall ref, in_metrics o = Some ref -> in_service o = Some ref -> adds 1 1 1 1 1 (w_heap w ref) (w_heap w1 ref))).
    { intros wx e A B C [D D']. exists wx, (Err e). split; [reflexivity|]. split; [exact C|]. split; [congruence|]. split; [intros j _; congruence|].
      split; [split; [congruence|intros r Hr; rewrite D' by (cbn in *; tauto); now rewrite Wh]|]. exists o. rewrite A, Wi. repeat (split; [trivial; fail || reflexivity|]). discriminate. }
    rewrite (mbind_eq _ _ w0 w0 _ eq_refl).
    unfold parameters_changed in FE |- *.
    destruct (gen_grid_kernel (gp_f g) _ _ _) as [[K gks]|e] eqn:EK.
    2:{ apply FE; auto. apply C0. repeat split. apply heap_only_refl. }
    destruct (approx_init_step i o bits K w0 H0) as [w1 [E1 [I1 [N1 [S1 [O1 A1]]]]]]. fold g in E1, A1. rewrite (mbind_eq _ _ _ _ _ E1).
    cbn [bind] in FE |- *.
    destruct (approx_init solve bits n_it (gp_f g) K _ _ _) as [l|e].
    2:{ apply FE; auto. }
    cbn [bind] in FE |- *.
    specialize (A1 (ex_intro _ l eq_refl)).
    (* the kernel is set *)
    rewrite (mbind_eq _ _ w1 (fst (set_self i (mk_inst g (Some (mk_gpk l gks)) (in_slots o) (in_metrics o) (in_service o)) w1)) (Ok tt)) by reflexivity.
    set (o2 := mk_inst g (Some (mk_gpk l gks)) (in_slots o) (in_metrics o) (in_service o)). set (w2 := fst (set_self i o2 w1)).
    assert (C2 : consistent w2) by (apply C0; exact S1).
    assert (I2 : w_inst w2 i = Some o2) by (cbn; unfold at_key; now rewrite Nat.eqb_refl).
    assert (J2 : forall j, j <> i -> w_inst w2 j = w_inst w j) by (intros j Hj; cbn; unfold at_key; apply Nat.eqb_neq in Hj; rewrite Hj; congruence).
    (* invariant from here on *)
    assert (FX : forall wx e o3, consistent wx -> w_count wx = w_count w2 -> (forall j, j <> i -> w_inst wx j = w_inst w j) -> w_inst wx i = Some o3 ->
       in_gp o3 = g -> in_metrics o3 = in_metrics o -> in_service o3 = in_service o -> heap_only [in_metrics o; in_service o] w wx ->
       exists w1 r, (wx, Err e : result unit) = (w1, r) /\
      consistent w1 /\ w_count w1 = w_count w /\ (forall j, j <> i -> w_inst w1 j = w_inst w j) /\
      heap_only [in_metrics o; in_service o] w w1 /\
      exists o1, w_inst w1 i = Some o1 /\ in_gp o1 = g /\ in_metrics o1 = in_metrics o /\ in_service o1 = in_service o /\
      (r = Ok tt ->
        (exists k s, (let! dg := all_gradients (approx_ops (gp_f g) l) (gp_f g) in let! s0 := fk_update_gradient (gp_f g) dg (in_slots o) in Ok (mk_gpk l gks, s0)) = Ok (k, s) /\ in_kernel o1 = Some k) /\
        forall ref, in_metrics o = Some ref -> in_service o = Some ref -> adds 1 1 1 1 1 (w_heap w ref) (w_heap w1 ref))).
    { intros wx e o3 A B C D E F G I. exists wx, (Err e). split; [reflexivity|]. split; [exact A|]. split; [rewrite B; cbn; congruence|]. split; [exact C|]. split; [exact I|].
      exists o3. repeat (split; [assumption|]). discriminate. }
    assert (HO2 : heap_only [in_metrics o; in_service o] w w2).
    { destruct O1 as [Oa Ob]. split; [cbn; congruence|]. intros r Hr. cbn. rewrite Ob by (cbn in *; tauto). now rewrite Wh. }
    (* debug output *)
    assert (HD : exists w3 rd, (if debug then do! _ := st_log_likelihood i in do! _ := st_normal_quadratic i in do! _ := st_log_det_K i in ret tt else ret tt) w2 = (w3, rd) /\ quiet w2 w3 /\ consistent w3).
    { destruct debug; [|exists w2, (Ok tt); split; [reflexivity|]; split; [apply quiet_refl|exact C2]].
      assert (Hk2 : in_kernel o2 = Some (mk_gpk l gks)) by reflexivity.
      edestruct (y_bind i o2 (st_log_likelihood i) (fun _ => do! _ := st_normal_quadratic i in do! _ := st_log_det_K i in ret tt) _ (fun _ => bind (Ok (gp_normal_quadratic (in_gp o2) (mk_gpk l gks))) (fun _ => bind (gp_log_det_K (in_gp o2)) (fun _ => Ok tt))) (y_log_lik i o2 _ Hk2)) as [w3 [E3 [Q3 C3]]]; [|exact C2|exact I2|].
      - intros _ _. apply y_bind; [apply (y_quadratic i o2 _ Hk2)|]. intros _ _. apply y_bind; [apply y_log_det|]. intros _ _. apply y_ret.
      - eexists _, _. split; [exact E3|]. auto. }
    destruct HD as [w3 [rd [E3 [[Q3 [N3 [H3 X3]]] C3]]]]. rewrite (mbind_eq _ _ _ _ _ E3).
    assert (I3 : w_inst w3 i = Some o2) by now rewrite Q3.
    assert (J3 : forall j, j <> i -> w_inst w3 j = w_inst w j) by (intros j Hj; rewrite Q3; now apply J2).
    assert (HO3 : heap_only [in_metrics o; in_service o] w w3) by (destruct HO2 as [Ha Hb]; split; [congruence|intros r Hr; rewrite H3; now apply Hb]).
    destruct rd as [[]|e]; [|eapply (FX w3 e o2); eauto].
    rewrite (mbind_eq _ _ w3 w3 _ eq_refl).
    destruct (all_gradients (approx_ops (gp_f g) l) (gp_f g)) as [dg|e]; [|eapply (FX w3 e o2); eauto]. cbn [bind] in FX |- *.
    rewrite (mbind_eq _ _ w3 w3 _ eq_refl).
    destruct (fk_update_gradient (gp_f g) dg (in_slots o)) as [s|e]; [|eapply (FX w3 e o2); eauto]. cbn [bind] in FX |- *.
    set (o4 := mk_inst g (Some (mk_gpk l gks)) s (in_metrics o) (in_service o)). set (w4 := fst (set_self i o4 w3)).
    rewrite (mbind_eq _ _ w3 w4 (Ok tt)) by reflexivity.
    assert (I4 : w_inst w4 i = Some o4) by (cbn; unfold at_key; now rewrite Nat.eqb_refl).
    assert (J4 : forall j, j <> i -> w_inst w4 j = w_inst w3 j) by (intros j Hj; cbn; unfold at_key; apply Nat.eqb_neq in Hj; now rewrite Hj).
    assert (C4 : consistent w4).
    { destruct C3 as [D1 D2 D3 D4]. split; intros j v E; cbn in E.
      - destruct (D1 j v E) as [oj [Ej Gj]]. destruct (Nat.eq_dec j i) as [->|Nj]; [|exists oj; rewrite J4 by exact Nj; auto]. rewrite I3 in Ej. injection Ej as <-. now exists o4.
      - destruct (D2 j v E) as [oj [kj [Ej [Gj Lj]]]]. destruct (Nat.eq_dec j i) as [->|Nj]; [|exists oj, kj; rewrite J4 by exact Nj; auto]. rewrite I3 in Ej. injection Ej as <-. now exists o4, kj.
      - destruct (D3 j v E) as [oj [Ej Gj]]. destruct (Nat.eq_dec j i) as [->|Nj]; [|exists oj; rewrite J4 by exact Nj; auto]. rewrite I3 in Ej. injection Ej as <-. now exists o4.
      - destruct (D4 j v E) as [oj [kj [Ej [Gj Lj]]]]. destruct (Nat.eq_dec j i) as [->|Nj]; [|exists oj, kj; rewrite J4 by exact Nj; auto]. rewrite I3 in Ej. injection Ej as <-. now exists o4, kj. }
    destruct (record_step i o4 (mk_gpk l gks) w4 I4 eq_refl C4) as [w5 [r [E5 [Q5 [N5 [C5 [O5 A5]]]]]]].
    exists w5, r. split; [exact E5|]. split; [exact C5|]. split; [rewrite N5; cbn; rewrite N3; cbn; congruence|].
    split; [intros j Hj; rewrite Q5, J4 by exact Hj; now apply J3|].
    split. { destruct HO3 as [Ha Hb]. destruct O5 as [Oa Ob]. split; [rewrite Oa; cbn; congruence|]. intros rr Hr. rewrite Ob by (cbn in *; tauto). now apply Hb. }
    exists o4. rewrite Q5. repeat (split; [assumption||reflexivity|]). intros ->. split; [eauto|].
    intros ref Em Es. specialize (A5 eq_refl ref Em). specialize (A1 ref Es). change (w_heap w4) with (w_heap w3) in A5.
    rewrite H3 in A5. change (w_heap w2) with (w_heap w1) in A5. rewrite Wh in A1. unfold adds in *. lia.
  Qed.

  (** ** One event *)

  (** Events that do not build objects or assign to anything. *)
  Definition asks (e : event) (i : nat) : Prop :=
    match e with
    | AskK j | AskLogDet j | AskQuadratic j | AskLogLik j | AskPredict j _ _ | AskQuantiles j _ _ _ => j = i
    | _ => False
    end.

  (** What a computation on object [i] may change. *)
  Definition mild (i : nat) (w w' : world) : Prop :=
    consistent w' /\ w_count w' = w_count w /\ (forall j, j <> i -> w_inst w' j = w_inst w j) /\
    match w_inst w i with
    | None => w_inst w' i = None /\ heap_only [] w w'
    | Some o =>
      (exists o', w_inst w' i = Some o' /\ in_gp o' = in_gp o /\ in_metrics o' = in_metrics o /\ in_service o' = in_service o) /\
      heap_only [in_metrics o; in_service o] w w' /\
      (in_kernel o <> None -> w_inst w' i = Some o /\ heap_only [] w w')
    end.

  Lemma quiet_mild i w w' : quiet w w' -> consistent w' -> mild i w w'.
  Proof.
    intros (A & B & C & D) K. split; [exact K|]. split; [exact B|]. split; [now intros j _; rewrite A|]. rewrite A.
    assert (HO : heap_only [] w w') by (split; [exact D|intros r _; now rewrite C]).
    destruct (w_inst w i) as [o|] eqn:E; [|auto]. split; [now exists o|]. split; [|auto]. destruct HO as [Ha Hb]. split; [exact Ha|]. intros r _. now apply Hb.
  Qed.

  Definition mildly {A} (i : nat) (m : M A) : Prop := forall w, consistent w -> mild i w (fst (m w)).
  Lemma y_mild i o {A} (m : M A) r w : yields i o m r -> consistent w -> w_inst w i = Some o -> mild i w (fst (m w)).
  Proof. intros H C E. destruct (H w C E) as [w' [E' [Q C']]]. rewrite E'. now apply quiet_mild. Qed.

  Lemma missing i {A} (k : inst -> M A) w : w_inst w i = None -> mbind (self_ i) k w = (w, Err AttributeError).
  Proof. intros H. apply (mbind_eq _ _ w w (Err AttributeError)). unfold self_. now rewrite H. Qed.
  Lemma missing_dense i w : consistent w -> w_inst w i = None -> st_dense i w = (w, Err AttributeError).
  Proof.
    intros C H. unfold st_dense, lru. assert (E : forall {B} (k : exact_lik -> M B), mbind (do! o := self_ i in lift (gp_dense (in_gp o))) k w = (w, Err AttributeError)).
    { intros B k. apply (mbind_eq _ _ w w (Err AttributeError)). now apply missing. }
    destruct (c_dense w) as [[j e]|] eqn:Ec; [|apply E]. destruct (Nat.eqb_spec i j) as [<-|]; [|apply E].
    destruct (k_dense w C _ _ Ec) as [o [Ho _]]. congruence.
  Qed.

  Lemma y_no_kernel i o : in_kernel o = None -> yields i o (kernel_ i) (Err AttributeError).
  Proof. intros H. unfold kernel_. apply (y_bind' _ _ _ _ o); [apply y_self|]. rewrite H. apply y_lift. Qed.
  Lemma y_quadratic_none i o : in_kernel o = None -> yields i o (st_normal_quadratic i) (Err AttributeError).
  Proof.
    intros H. apply (y_bind' _ _ _ _ o); [apply y_self|].
    apply (y_eq _ _ _ (bind (Err AttributeError) (fun _ : gp_kernel => Err AttributeError))); [|reflexivity].
    apply y_bind; [now apply y_no_kernel|]. intros a E; discriminate E.
  Qed.

  Lemma mild_reply i {A} (c : A -> reply) (m : M A) : mildly i m -> mildly i (as_reply c m).
  Proof.
    intros H w C. unfold as_reply, mbind. specialize (H w C). destruct (snd (m w)); exact H.
  Qed.
  Lemma mild_K i : mildly i (st_K i).
  Proof.
    intros w C. destruct (w_inst w i) as [o|] eqn:E; [eapply y_mild; eauto; apply y_K|].
    unfold st_K. rewrite (mbind_eq _ _ _ _ _ (missing_dense i w C E)). cbn [fst]. apply quiet_mild; [apply quiet_refl|exact C].
  Qed.
  Lemma mild_log_det i : mildly i (st_log_det_K i).
  Proof.
    intros w C. destruct (w_inst w i) as [o|] eqn:E; [eapply y_mild; eauto; apply y_log_det|].
    unfold st_log_det_K. rewrite (mbind_eq _ _ _ _ _ (missing_dense i w C E)). cbn [fst]. apply quiet_mild; [apply quiet_refl|exact C].
  Qed.
  Lemma mild_quadratic i : mildly i (st_normal_quadratic i).
  Proof.
    intros w C. destruct (w_inst w i) as [o|] eqn:E.
    - destruct (in_kernel o) as [k|] eqn:Ek; eapply y_mild; eauto; [now apply (y_quadratic i o k)|now apply y_quadratic_none].
    - unfold st_normal_quadratic. rewrite missing by exact E. cbn [fst]. apply quiet_mild; [apply quiet_refl|exact C].
  Qed.
  Lemma mild_log_lik i : mildly i (st_log_likelihood i).
  Proof.
    intros w C. destruct (w_inst w i) as [o|] eqn:E.
    - destruct (in_kernel o) as [k|] eqn:Ek; [eapply y_mild; eauto; now apply (y_log_lik i o k)|].
      apply (y_mild i o _ (bind (gp_log_det_K (in_gp o)) (fun _ => bind (Err AttributeError) (fun _ : R => Err AttributeError)))); auto.
      apply y_bind; [apply y_log_det|]. intros d _. apply y_bind; [now apply y_quadratic_none|]. intros a Ea; discriminate Ea.
    - unfold st_log_likelihood, st_log_det_K.
      rewrite (mbind_eq _ _ w w (Err AttributeError)); [cbn [fst]; apply quiet_mild; [apply quiet_refl|exact C]|].
      now rewrite (mbind_eq _ _ _ _ _ (missing_dense i w C E)).
  Qed.

  Lemma mild_trans i w1 w2 w3 o2 : mild i w1 w2 -> w_inst w2 i = Some o2 -> quiet w2 w3 -> consistent w3 -> mild i w1 w3.
  Proof.
    intros (A & B & C & D) E (Q1 & Q2 & Q3 & Q4) K. split; [exact K|]. split; [congruence|]. split; [intros j Hj; rewrite Q1; now apply C|]. rewrite Q1.
    destruct (w_inst w1 i) as [o|]; [|destruct D as [D _]; congruence]. destruct D as (D1 & [D2 D3] & D4). split; [exact D1|]. split.
    - split; [congruence|]. intros r Hr. rewrite Q3. now apply D3.
    - intros Hk. destruct (D4 Hk) as [F [G1 G2]]. split; [exact F|]. split; [congruence|]. intros r Hr. rewrite Q3. now apply G2.
  Qed.

  Lemma mild_raw i bits Xs : mildly i (st_raw_predict solve info n_it debug i bits Xs).
  Proof.
    intros w C. destruct (w_inst w i) as [o|] eqn:E.
    - destruct (in_kernel o) as [k|] eqn:Ek; [eapply y_mild; eauto; now apply (y_raw i o k)|].
      unfold st_raw_predict. destruct (map_result np_len Xs) as [lens|e].
      2:{ unfold mbind, lift. cbn [fst snd]. apply quiet_mild; [apply quiet_refl|exact C]. }
      rewrite (mbind_eq _ _ w w (Ok lens)) by reflexivity. rewrite (mbind_eq _ _ w w (Ok o)) by (unfold self_; now rewrite E). rewrite Ek.
      destruct (pc_step i o bits w E) as (w1 & r & E1 & C1 & N1 & J1 & O1 & o1 & I1 & G1 & M1 & S1 & F1). rewrite (mbind_eq _ _ _ _ _ E1).
      assert (MI : mild i w w1).
      { split; [exact C1|]. split; [exact N1|]. split; [exact J1|]. rewrite E. split; [now exists o1|]. split; [exact O1|]. intros N. congruence. }
      destruct r as [[]|er]; [|exact MI]. destruct (F1 eq_refl) as [[k [s [_ K1]]] _].
      destruct (y_rest i o1 k K1 Xs lens) as [r [Yr _]]. destruct (Yr w1 C1 I1) as [w2 [E2 [Q2 C2]]]. rewrite E2. cbn [fst].
      eapply mild_trans; eauto.
    - unfold st_raw_predict, mbind, lift. cbn [fst snd]. destruct (map_result np_len Xs); [|apply quiet_mild; [apply quiet_refl|exact C]].
      unfold self_. rewrite E. cbn [fst snd]. apply quiet_mild; [apply quiet_refl|exact C].
  Qed.
  Lemma mild_norm i bits Xs un : mildly i (st_predict_norm solve info n_it debug i bits Xs un).
  Proof.
    intros w C. unfold st_predict_norm. destruct (w_inst w i) as [o|] eqn:E.
    - rewrite (mbind_eq _ _ w w (Ok o)) by (unfold self_; now rewrite E). cbv zeta.
      destruct (negb _); [apply quiet_mild; [apply quiet_refl|exact C]|]. destruct (negb _); [apply quiet_mild; [apply quiet_refl|exact C]|].
      pose proof (mild_raw i bits Xs w C) as H. unfold mbind. destruct (snd (st_raw_predict _ _ _ _ _ _ _ w)) as [[mu var]|]; [|exact H].
      destruct (mg_norm _), un; exact H.
    - rewrite missing by exact E. apply quiet_mild; [apply quiet_refl|exact C].
  Qed.
  Lemma mild_predict i bits Xs : mildly i (st_predict solve info n_it debug i bits Xs).
  Proof.
    intros w C. unfold st_predict. destruct (w_inst w i) as [o|] eqn:E; [|rewrite missing by exact E; apply quiet_mild; [apply quiet_refl|exact C]].
    rewrite (mbind_eq _ _ w w (Ok o)) by (unfold self_; now rewrite E). rewrite (mbind_eq _ _ w w _ eq_refl).
    destruct (pad_dims _ _); [now apply mild_norm|apply quiet_mild; [apply quiet_refl|exact C]].
  Qed.
  Lemma mild_quantiles i bits Xs qs : mildly i (st_predict_quantiles solve info n_it debug ppf i bits Xs qs).
  Proof.
    intros w C. unfold st_predict_quantiles. destruct (w_inst w i) as [o|] eqn:E; [|rewrite missing by exact E; apply quiet_mild; [apply quiet_refl|exact C]].
    rewrite (mbind_eq _ _ w w (Ok o)) by (unfold self_; now rewrite E). rewrite (mbind_eq _ _ w w _ eq_refl).
    destruct (pad_dims _ _) as [Zs|]; [|apply quiet_mild; [apply quiet_refl|exact C]].
    pose proof (mild_norm i bits Zs false w C) as H. unfold mbind. destruct (snd (st_predict_norm _ _ _ _ _ _ _ _ w)) as [[mu var]|]; [|exact H].
    cbv zeta. destruct (mg_norm _); exact H.
  Qed.

  Lemma asks_mild e i w : asks e i -> consistent w -> mild i w (fst (step solve info n_it debug ppf e w)).
  Proof.
    intros H C. destruct e; cbn in H; try destruct H; cbn [step]; apply mild_reply; auto.
    - apply mild_K.
    - apply mild_log_det.
    - apply mild_quadratic.
    - apply mild_log_lik.
    - apply mild_predict.
    - apply mild_quantiles.
  Qed.
End S.
