(** Properties of histories of InterpolatedLLGP objects. *)

From Coq Require Import Reals List Arith ZArith Lia Lra Bool.
From Verif Require Import Base NDArray PSD Model_Util Proofs_Util Spec_Util Model_Linalg Spec_Linalg Proofs_Linalg Model_Interp Spec_Interp
  Proofs_Sparse Proofs_Interp Proofs_Interp2 Proofs_Bicubic Proofs_Assemble Proofs_Autogrid Properties_Interp Model_Kern Spec_Kern Proofs_Kern Proofs_KernPSD Model_FK Spec_FK Proofs_FK Properties_FK
  Model_Grid Spec_Grid Proofs_Grid Proofs_Grid2 Det Proofs_Det Model_Lik Spec_Lik Proofs_Lik Proofs_Lik2 Proofs_Lik3 Proofs_Lik4 Proofs_Lik5 Proofs_Lik6 Proofs_Lik7 Properties_Lik Properties_Lik2
  Spec_GP Proofs_Gen Proofs_Gen2 Model_GP Spec_Pred Proofs_Pred Proofs_Pred2 Proofs_Pred3 Proofs_Pred4 Proofs_Pred5 Proofs_Init Properties_Pred
  Model_State Spec_State Proofs_State Proofs_State2 Proofs_State3 Proofs_State4 Proofs_State5.
Import ListNotations.
Open Scope R_scope.

(** ** C39: caches are never stale *)

(** A reply that carries the outcome of a computation. *)
Definition gives {A} (c : A -> reply) (x : result A) : result reply := let! a := x in Ok (c a).

(** In any history over any number of objects, without assignments to
    parameters that paramz does not know of, every query on an object whose
    latest update returned gives what a computation from scratch with its
    current parameters gives, whatever the draws of that computation.  [K] and
    [log_det_K] do so even if the latest update raised.  Missing: the other
    queries after an update that raised, and scales of Scaled kernels (see
    [C39_stale_refuted]). *)
Theorem C39_fresh_partial :
  forall solve info n_it debug ppf h i g,
    linked_only h -> nth_error (models h) i = Some g ->
    answer solve info n_it debug ppf h (AskK i) = gives RArr (gp_K g) /\
    answer solve info n_it debug ppf h (AskLogDet i) = gives RExt (gp_log_det_K g) /\
    (settled solve info n_it debug ppf h i ->
     (exists bits old k s, parameters_changed solve bits n_it g old = Ok (k, s)) /\
     forall bits old k s, parameters_changed solve bits n_it g old = Ok (k, s) ->
       answer solve info n_it debug ppf h (AskQuadratic i) = Ok (RNum (gp_normal_quadratic g k)) /\
       answer solve info n_it debug ppf h (AskLogLik i) = gives RExt (gp_log_likelihood g k) /\
       (forall Xs b, answer solve info n_it debug ppf h (AskPredict i Xs b) = gives RPred (gp_predict solve g k Xs)) /\
       (forall Xs qs b, answer solve info n_it debug ppf h (AskQuantiles i Xs qs b) = gives RQuant (gp_predict_quantiles ppf solve g k Xs qs))).
Proof.
  intros solve info n_it debug ppf h i g L Hi. pose proof (run_inv solve info n_it debug ppf h L) as I.
  set (w := run solve info n_it debug ppf h) in *.
  assert (Ho : exists o, w_inst w i = Some o /\ in_gp o = g).
  { pose proof (i_gp _ _ _ _ _ _ _ I i) as E. fold w in E. rewrite Hi in E. destruct (w_inst w i) as [o|]; [|discriminate E]. exists o. now injection E. }
  destruct Ho as [o [Ho Eg]].
  assert (R : forall A (c : A -> reply) (m : M A) r, yields solve i o m r -> snd (as_reply c m w) = gives c r).
  { intros A c m r Y. destruct (Y w (i_cons _ _ _ _ _ _ _ I) Ho) as [w' [E _]]. unfold as_reply, gives. rewrite (mbind_eq _ _ _ _ _ E). destruct r; reflexivity. }
  split; [|split].
  - unfold answer. cbn [step]. fold w. rewrite (R _ RArr _ _ (y_K solve i o)). now rewrite Eg.
  - unfold answer. cbn [step]. fold w. rewrite (R _ RExt _ _ (y_log_det solve i o)). now rewrite Eg.
  - intros Hs. destruct (i_settled _ _ _ _ _ _ _ I i Hs) as (o' & k0 & b0 & old0 & s0 & Ho' & Hk & Epc).
    fold w in Ho'. rewrite Ho in Ho'. injection Ho' as <-. rewrite Eg in Epc. split; [exists b0, old0, k0, s0; exact Epc|].
    intros bits old k s Ek. destruct (pc_parts solve n_it _ _ _ _ _ _ _ _ _ Epc Ek) as (P1 & P2 & P3).
    destruct (same_replies solve g k0 k P1 P2 P3) as (Q1 & Q2 & Q3).
    split; [|split; [|split]].
    + unfold answer. cbn [step]. fold w. rewrite (R _ RNum _ _ (y_quadratic solve i o k0 Hk)), Eg, Q1. reflexivity.
    + unfold answer. cbn [step]. fold w. rewrite (R _ RExt _ _ (y_log_lik solve i o k0 Hk)), Eg, Q2. reflexivity.
    + intros Xs b. unfold answer. cbn [step]. fold w. rewrite (R _ RPred _ _ (y_predict solve info n_it debug i o k0 Hk b Xs)), Eg. f_equal.
      unfold gp_predict. destruct (pad_dims _ Xs); [|reflexivity]. cbn [bind]. apply Q3.
    + intros Xs qs b. unfold answer. cbn [step]. fold w. rewrite (R _ RQuant _ _ (y_quantiles solve info n_it debug ppf i o k0 Hk b Xs qs)), Eg. f_equal.
      unfold gp_predict_quantiles. destruct (pad_dims _ Xs); [|reflexivity]. cbn [bind]. now rewrite Q3.
Qed.
Print Assumptions C39_fresh_partial.

(** Objects built from valid data and updated within the domain of their
    parameters never raise on an update when systems are solved exactly, so
    that all queries are as in [C39_fresh_partial]. *)
Theorem C39_sound :
  forall solve info n_it debug ppf h i g,
    (0 < n_it)%nat -> sound solve n_it h -> linked_only h -> nth_error (models h) i = Some g ->
    settled solve info n_it debug ppf h i.
Proof. intros solve info n_it debug ppf h i g Hn HS L Hi. apply (sound_alive solve info n_it debug ppf Hn h HS L i g Hi). Qed.
Print Assumptions C39_sound.

(** Two objects sharing the caches, with queries on both around an update. *)
Example C39_ex : exists f g f', f' <> gp_f g /\ let h := ex_history f g f' in
  sound direct_solve 1 h /\ linked_only h /\ nth_error (models h) 0 = Some (with_params g f') /\ nth_error (models h) 1 = Some g /\
  (forall info debug ppf, settled direct_solve info 1 debug ppf h 0 /\ settled direct_solve info 1 debug ppf h 1).
Proof.
  destruct ex_history_ok as (f & g & f' & N & HS & L & M0 & M1 & _). exists f, g, f'. cbv zeta. repeat (split; [assumption|]).
  intros info debug ppf. split; eapply C39_sound; try eassumption; lia.
Qed.

(** An assignment to the scale of a Scaled kernel, which is not linked
    (scaled.py:22), leaves stale values. *)
Theorem C39_stale_refuted :
  exists h i g K, (forall info debug ppf, settled direct_solve info 1 debug ppf (tl h) i) /\
    nth_error (models h) i = Some g /\ gp_K g = Ok K /\
    forall info debug ppf, answer direct_solve info 1 debug ppf h (AskK i) <> Ok (RArr K) /\
      exists K', answer direct_solve info 1 debug ppf h (AskK i) = Ok (RArr K').
Proof.
  destruct ex_rescaled as (f & g & e & e' & Eg & HR & Hp & He & He' & NE).
  set (h := [ex_new f g false]).
  assert (Em : models h = [g]) by (unfold h, ex_new; cbn; now rewrite Eg).
  assert (L : linked_only h) by (intros i q s H; unfold h, ex_new in H; cbn in H; intuition discriminate).
  assert (HS : sound direct_solve 1 h) by (split; [now apply ex_new_sound|exact I]).
  assert (Hi : nth_error (models h) 0 = Some g) by now rewrite Em.
  exists (Rescale 0 1 2 :: AskK 0 :: h), 0%nat, (with_params g (rescale 1 2 (gp_f g))), (el_K e').
  split; [|split; [|split]].
  - intros info debug ppf. apply (C39_sound direct_solve info 1 debug ppf (AskK 0 :: h) 0 g (le_n 1)); [split; [exact I|exact HS]| |exact Hi].
    intros i q s [H|H]; [discriminate H|now apply (L i q s)].
  - cbn [models]. change (models h) with (models h). rewrite Em. reflexivity.
  - unfold gp_K. now rewrite He'.
  - intros info debug ppf. rewrite (stale direct_solve info 1 debug ppf h 0 g 1 2 e L Hi He). split; [congruence|eauto].
Qed.
Print Assumptions C39_stale_refuted.

(** ** C40: the metrics *)

(** If no update of object [i] raised, the five series have one entry per
    update since the latest [optimize].  Missing: updates that raise (see
    [C40_raising_refuted]). *)
Theorem C40_series_partial :
  forall solve info n_it debug ppf h i n,
    linked_only h -> has_metrics h i = true -> updated solve info n_it debug ppf h i n ->
    exists m, metrics_of (run solve info n_it debug ppf h) i = Some m /\ series_length m n.
Proof.
  intros solve info n_it debug ppf h i n L Hm U. pose proof (run_inv solve info n_it debug ppf h L) as I.
  destruct (i_updated _ _ _ _ _ _ _ I i n U) as [o [Ho [_ H]]]. apply (i_has _ _ _ _ _ _ _ I i o Ho) in Hm.
  unfold metrics_of. rewrite Ho. destruct (in_metrics o) as [r|]; [|congruence]. eexists. split; [reflexivity|]. now apply H.
Qed.
Print Assumptions C40_series_partial.

(** In histories of sound objects no update raises. *)
Theorem C40_sound :
  forall solve info n_it debug ppf h i g,
    (0 < n_it)%nat -> sound solve n_it h -> linked_only h -> nth_error (models h) i = Some g -> has_metrics h i = true ->
    exists m, metrics_of (run solve info n_it debug ppf h) i = Some m /\ series_length m (updates_since h i).
Proof.
  intros solve info n_it debug ppf h i g Hn HS L Hi Hm. apply C40_series_partial; auto. apply (sound_alive solve info n_it debug ppf Hn h HS L i g Hi).
Qed.
Print Assumptions C40_sound.

(** A model without metrics keeps none. *)
Theorem C40_none :
  forall solve info n_it debug ppf h i, linked_only h -> has_metrics h i = false -> metrics_of (run solve info n_it debug ppf h) i = None.
Proof.
  intros solve info n_it debug ppf h i L Hm. pose proof (run_inv solve info n_it debug ppf h L) as I. unfold metrics_of.
  destruct (w_inst _ i) as [o|] eqn:Ho; [|reflexivity]. pose proof (i_has _ _ _ _ _ _ _ I i o Ho) as H.
  destruct (in_metrics o) as [r|]; [|reflexivity]. exfalso. rewrite (proj2 H) in Hm; [discriminate Hm|discriminate].
Qed.
Print Assumptions C40_none.

(** In this history the first object begins to optimize and makes one step. *)
Example C40_ex : exists f g f', let h := ex_history f g f' in
  sound direct_solve 1 h /\ linked_only h /\ (exists g', nth_error (models h) 0 = Some g') /\ has_metrics h 0 = true /\ updates_since h 0 = 1%nat /\
  has_metrics h 1 = false /\
  (forall info debug ppf, updated direct_solve info 1 debug ppf h 0 1 /\ exists m, metrics_of (run direct_solve info 1 debug ppf h) 0 = Some m /\ series_length m 1) /\
  updates_since (tl (tl h)) 0 = 0%nat.
Proof.
  destruct ex_history_ok as (f & g & f' & N & HS & L & M0 & M1 & Hm0 & Hm1 & Eu). exists f, g, f'. cbv zeta. split; [exact HS|]. split; [exact L|]. split; [eauto|]. repeat (split; [assumption|]).
  split; [|reflexivity]. intros info debug ppf. split.
  - destruct (sound_alive direct_solve info 1 debug ppf (le_n 1) _ HS L 0%nat _ M0) as [_ [_ H]]. now rewrite Eu in H.
  - destruct (C40_sound direct_solve info 1 debug ppf _ 0%nat _ (le_n 1) HS L M0 Hm0) as [m H]. rewrite Eu in H. now exists m.
Qed.

(** If the exact covariance of an update is not positive definite, e.g. after a
    negative value was assigned to the noise, the exact likelihood raises when
    two of the series have grown and three have not; they differ from there
    on until the next [optimize]. *)
Theorem C40_raising_refuted :
  exists solve h i g, linked_only h /\ has_metrics h i = true /\ updates_since h i = 2%nat /\ nth_error (models h) i = Some g /\
    exact_solver (n_obs g) (K_fit g) solve /\
    forall info ppf, exists m, metrics_of (run solve info 1 false ppf h) i = Some m /\
      length (iterations m) = 2%nat /\ length (solv_error m) = 2%nat /\
      length (grad_norms m) = 1%nat /\ length (grad_error m) = 1%nat /\ length (log_likely m) = 1%nat.
Proof.
  destruct ex_negative as (f & g & f' & Eg & HR & Hp & (ks & vecs & diags & noise & U & Ef) & Hk & HR' & Hn & Hneg & Hd).
  set (h := [ex_new f g true]). set (u := Update 0 f' (one_draw g)).
  assert (Em : models h = [g]) by (unfold h, ex_new; cbn; now rewrite Eg).
  assert (Hi : nth_error (models h) 0 = Some g) by now rewrite Em.
  assert (L : linked_only h) by (intros i q s H; unfold h, ex_new in H; cbn in H; intuition discriminate).
  assert (Hm : has_metrics h 0 = true) by (unfold h, ex_new; cbn; now rewrite Eg).
  assert (Eu : updates_since h 0 = 1%nat) by (unfold h, ex_new; cbn; now rewrite Eg).
  assert (Hs1 : exact_solver (n_obs g) (K_fit g) definite_solve).
  { apply definite_pos; [|exact (K_fit_pd g _ _ _ HR Hp)]. exact (K_op_sym _ _ _ _ _ _ _ _ (rd_ok g _ _ _ HR) (rd_P g _ _ _ HR) (kr_interp g _ _ _ HR)). }
  assert (Hsym : sym (n_obs g) (K_fit (with_params g f'))) by exact (K_op_sym _ _ _ _ _ _ _ _ (rd_ok _ _ _ _ HR') (rd_P _ _ _ _ HR') (kr_interp _ _ _ _ HR')).
  assert (Hs2 : exact_solver (n_obs g) (K_fit (with_params g f')) definite_solve) by now apply definite_neg.
  assert (HS : sound definite_solve 1 h).
  { split; [|exact I]. intros g' E'. rewrite Eg in E'. injection E' as <-. split; [exact HR|]. split; [exact Hp|]. split; [apply some_slots_ok|]. split; [apply one_draw_ok|exact Hs1]. }
  exists definite_solve, (u :: h), 0%nat, (with_params g f').
  split; [intros i q s [H|H]; [discriminate H|now apply (L i q s)]|]. split; [exact Hm|]. split; [unfold u; cbn [updates_since Nat.eqb]; now rewrite Eu|].
  split; [unfold u; cbn [models]; rewrite Em; reflexivity|]. split; [exact Hs2|].
  intros info ppf. destruct (C40_sound definite_solve info 1 false ppf h 0%nat g (le_n 1) HS L Hi Hm) as [m1 [Hm1 HL1]]. rewrite Eu in HL1.
  destruct (sound_alive definite_solve info 1 false ppf (le_n 1) h HS L 0%nat g Hi) as [(o & _ & _ & _ & Ho & _ & _ & Hsl & Hkn) _].
  pose proof (run_inv definite_solve info 1 false ppf h L) as Iv.
  set (w := run definite_solve info 1 false ppf h) in *.
  change (run definite_solve info 1 false ppf (u :: h)) with (fst (step definite_solve info 1 false ppf u w)).
  pose proof (i_gp _ _ _ _ _ _ _ Iv 0%nat) as Egp. fold w in Egp. rewrite Hi, Ho in Egp. injection Egp as Egp.
  unfold metrics_of in Hm1. rewrite Ho in Hm1. destruct (in_metrics o) as [r|] eqn:Er; [|discriminate Hm1]. injection Hm1 as Hm1.
  assert (Esv : in_service o = Some r) by (rewrite (proj1 (i_ref _ _ _ _ _ _ _ Iv 0%nat o Ho)); exact Er).
  set (o2 := set_f o f'). set (w2 := fst (set_self 0 o2 w)).
  assert (ES : step definite_solve info 1 false ppf u w = mbind (st_parameters_changed definite_solve info 1 false 0 (one_draw g)) (fun _ => ret RUnit) w2).
  { cbn [step u]. rewrite (mbind_eq _ _ w w (Ok o)) by (unfold self_; now rewrite Ho). rewrite (mbind_eq _ _ w w2 (Ok tt)) by reflexivity. reflexivity. }
  assert (W2 : w_inst w2 0%nat = Some o2) by reflexivity.
  assert (G2 : in_gp o2 = with_params g f') by (unfold o2, set_f; cbn [in_gp]; now rewrite Egp).
  destruct (neg_inv _ _ Hsym Hneg) as [X HX].
  destruct (invertible_fit (with_params g f') _ _ _ definite_solve 1 (one_draw g) (in_slots o2) X (le_n 1) HR' Hs2 HX) as [k [s Epc]].
  { unfold slots_fit. cbn [with_params gp_f]. rewrite Ef, set_values_Q by exact U. exact Hsl. }
  { apply (one_draw_ok g). }
  rewrite <- G2 in Epc.
  destruct (pc_run definite_solve info 1 false 0 o2 (one_draw g) w2 k s W2 Epc (or_introl eq_refl)) as [w4 [E4 [C4 [I4 A4]]]].
  specialize (A4 r Esv).
  assert (Hd' : gp_dense (in_gp o2) = Err LinAlgError) by now rewrite G2.
  destruct (record_err definite_solve 0 _ k w4 LinAlgError r I4 eq_refl C4 Er Hd') as [w5 [E5 [H5 I5]]].
  rewrite ES, unit_state, E4, E5. cbn [fst]. unfold metrics_of. rewrite I5, I4. cbn [in_metrics]. change (in_metrics o2) with (in_metrics o). rewrite Er. cbn [option_map]. rewrite H5.
  eexists. split; [reflexivity|]. destruct A4 as (A & B & C & D & E). change (w_heap w2) with (w_heap w) in *. rewrite Hm1 in *.
  destruct HL1 as (L1 & L2 & L3 & L4 & L5). repeat split; congruence || lia.
Qed.
Print Assumptions C40_raising_refuted.
