(** C64: what the metrics hold. *)

From Coq Require Import Reals List Arith ZArith Lia Lra Bool.
From Verif Require Import Base NDArray PSD Model_Util Proofs_Util Spec_Util Model_Linalg Spec_Linalg Proofs_Linalg Model_Interp Spec_Interp
  Proofs_Sparse Proofs_Interp Proofs_Interp2 Proofs_Bicubic Proofs_Assemble Proofs_Autogrid Properties_Interp Model_Kern Spec_Kern Proofs_Kern Proofs_KernPSD Model_FK Spec_FK Proofs_FK Properties_FK
  Model_Grid Spec_Grid Proofs_Grid Proofs_Grid2 Det Proofs_Det Model_Lik Spec_Lik Proofs_Lik Proofs_Lik2 Proofs_Lik3 Proofs_Lik4 Proofs_Lik5 Proofs_Lik6 Proofs_Lik7 Properties_Lik Properties_Lik2
  Spec_GP Proofs_Gen Proofs_Gen2 Model_GP Spec_Pred Proofs_Pred Proofs_Pred2 Proofs_Pred3 Proofs_Pred4 Proofs_Pred5 Proofs_Pred6 Proofs_Init Properties_Pred Model_State Spec_State Proofs_State Proofs_State2 Proofs_State3 Proofs_State4 Spec_Met Proofs_Met Proofs_Met2 Proofs_State5.
Import ListNotations.
Open Scope R_scope.

(** In histories of sound objects the series hold one entry per update since
    the latest [optimize], in order, with the values for the parameters, draws
    and gradients of that update. *)
Theorem C64_series :
  forall solve info n_it debug ppf h i g, (0 < n_it)%nat -> sound solve n_it h -> linked_only h ->
  nth_error (models h) i = Some g -> has_metrics h i = true ->
  exists es, metrics_of (run solve info n_it debug ppf h) i = Some (collected es) /\
    Forall2 (fun p e => exists s old k, parameters_changed solve (snd p) n_it (fst p) old = Ok (k, s) /\ recorded info (fst p) (snd p) s e) (log_since h i) es.
Proof. intros. now apply (series solve info n_it debug ppf H h i g). Qed.
Print Assumptions C64_series.

(** An update appends one entry to each series; its gradient norm and error
    are those of the gradients that the object then holds. *)
Theorem C64_update :
  forall solve info n_it debug ppf h i f bits g, (0 < n_it)%nat -> sound solve n_it (Update i f bits :: h) -> linked_only h ->
  nth_error (models h) i = Some g -> has_metrics h i = true ->
  let before := run solve info n_it debug ppf h in
  let after := run solve info n_it debug ppf (Update i f bits :: h) in
  exists m e s, metrics_of before i = Some m /\ slots_of after i = Some s /\ recorded info (with_params g f) bits s e /\
    metrics_of after i = Some (mk_metrics (iterations m ++ [e_iterations e]) (grad_norms m ++ [e_grad_norm e]) (grad_error m ++ [e_grad_error e])
                                          (solv_error m ++ [e_solv_error e]) (log_likely m ++ [Fin (e_log_likely e)])).
Proof.
  intros solve info n_it debug ppf h i f bits g Hn HS L Hi Hm before after.
  destruct (update_val solve info n_it debug ppf Hn h i f bits g HS L Hi Hm) as (m & e & s & _ & _ & M & S & _ & R & A). exists m, e, s. auto.
Qed.
Print Assumptions C64_update.

Example C64_ex : exists f g f', let h := ex_history f g f' in
  sound direct_solve 1 h /\ linked_only h /\ nth_error (models h) 0 = Some (with_params g f') /\ has_metrics h 0 = true /\
  log_since h 0 = [(with_params g f', one_draw g)] /\ log_since (skipn 8 h) 0 = [(g, one_draw g)] /\
  exists h', tl h = Update 0 f' (one_draw g) :: h' /\ sound direct_solve 1 (tl h) /\ linked_only h' /\ nth_error (models h') 0 = Some g /\ has_metrics h' 0 = true.
Proof.
  destruct ex_history_ok as (f & g & f' & N & HS & L & M0 & M1 & Hm0 & Hm1 & Eu). exists f, g, f'. cbv zeta.
  split; [exact HS|]. split; [exact L|]. split; [exact M0|]. split; [exact Hm0|].
  assert (EG : gp_init ex1_Xs ex1_Ys true (GNum 0) (GNum 10) (GNum 2%nat) (Some OnTheFly) (Some f) = Ok g).
  { unfold ex_history, ex_new in M1. cbn [models] in M1. destruct (gp_init ex1_Xs ex1_Ys true (GNum 0) (GNum 10) (GNum 2%nat) (Some OnTheFly) (Some f)) as [g1|]; cbn in M1; [now injection M1 as ->|discriminate M1]. }
  split. { unfold ex_history, ex_new. cbn [log_since models Nat.eqb nth_error]. rewrite EG. reflexivity. }
  split. { unfold ex_history, ex_new. cbn [skipn log_since models]. rewrite EG. reflexivity. }
  eexists. split; [reflexivity|]. split; [exact (proj2 HS)|]. split; [intros i q s H; apply (L i q s); right; right; exact H|].
  unfold ex_new. cbn [models has_metrics nth_error]. rewrite EG. split; reflexivity.
Qed.
