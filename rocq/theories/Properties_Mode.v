(** Properties of switching the mode of prediction. *)

From Coq Require Import Reals List Arith ZArith Lia Lra Bool.
From Verif Require Import Base NDArray PSD Model_Util Proofs_Util Spec_Util Model_Linalg Spec_Linalg Proofs_Linalg Model_Interp Spec_Interp
  Proofs_Sparse Proofs_Interp Proofs_Interp2 Proofs_Bicubic Proofs_Assemble Proofs_Autogrid Properties_Interp Model_Kern Spec_Kern Proofs_Kern Proofs_KernPSD Model_FK Spec_FK Proofs_FK Properties_FK
  Model_Grid Spec_Grid Proofs_Grid Proofs_Grid2 Det Proofs_Det Model_Lik Spec_Lik Proofs_Lik Proofs_Lik2 Proofs_Lik3 Proofs_Lik4 Proofs_Lik5 Proofs_Lik6 Proofs_Lik7 Properties_Lik Properties_Lik2
  Spec_GP Proofs_Gen Proofs_Gen2 Model_GP Spec_Pred Proofs_Pred Proofs_Pred2 Proofs_Pred3 Proofs_Pred4 Proofs_Pred5 Proofs_Pred6 Proofs_Init Properties_Pred
  Model_State Spec_State Proofs_State Proofs_State2 Proofs_State3 Proofs_State4 Proofs_State5 Properties_State Spec_Mode.
Import ListNotations.
Open Scope R_scope.

(** ** Lists *)

Lemma on_nth_app {A} (u : A -> A) l a i :
  on_nth i u (l ++ [a]) = (if Nat.eqb i (length l) then l ++ [u a] else on_nth i u l ++ [a]).
Proof.
  revert i. induction l as [|b l IH]; intros [|i]; try reflexivity; cbn; [now destruct i|]. rewrite IH. now destruct (Nat.eqb i (length l)).
Qed.
Lemma on_nth_comm {A} (u v : A -> A) l i j : (forall a, u (v a) = v (u a)) -> on_nth i u (on_nth j v l) = on_nth j v (on_nth i u l).
Proof. intros H. revert i j. induction l as [|b l IH]; intros [|i] [|j]; cbn; auto; now rewrite ?H, ?IH. Qed.
Lemma on_nth_twice {A} (u v : A -> A) l i : (forall a, u (v a) = u a) -> on_nth i u (on_nth i v l) = on_nth i u l.
Proof. intros H. revert i. induction l as [|b l IH]; intros [|i]; cbn; auto; now rewrite ?H, ?IH. Qed.
Lemma on_nth_at {A} (u : A -> A) l i a : nth_error l i = Some a -> u a = a -> on_nth i u l = l.
Proof. revert i. induction l as [|b l IH]; intros [|i] H E; cbn in *; try discriminate H; [injection H as ->; now rewrite E|now rewrite IH]. Qed.

Lemma init_mode Xs Ys nrm lo hi m pred md fk g : gp_init Xs Ys nrm lo hi m pred fk = Ok g ->
  gp_init Xs Ys nrm lo hi m (Some md) fk = Ok (with_mode g md).
Proof.
  unfold gp_init. destruct (multigp_init Xs Ys nrm) as [d|]; [|discriminate]. cbn [bind]. destruct fk as [f|]; [|discriminate].
  destruct pred as [md'|]; [|discriminate]. destruct (set_input_dim f (mg_P d)) as [f'|]; [|discriminate]. cbn [bind].
  destruct (generate_grids _ _ _ _ _) as [G|]; [|discriminate]. cbn [bind]. intros E. apply Ok_inj in E. subst g. reflexivity.
Qed.

Lemma models_as_if i md h : models (as_if i md h) = on_nth i (fun g => with_mode g md) (models h).
Proof.
  induction h as [|e h IH]; [now destruct i|].
  destruct e as [Xs Ys nrm lo hi m pred fk wm slots bits|j f bits|j q s|j|j md'|j|j|j|j|j Xs bits|j Xs qs bits]; cbn [as_if models]; try exact IH.
  - destruct (gp_init Xs Ys nrm lo hi m pred fk) as [g|er] eqn:EG.
    + rewrite on_nth_app. destruct (Nat.eqb_spec i (length (models h))) as [Ei|Ni]; cbn [models].
      * rewrite (init_mode _ _ _ _ _ _ _ md _ _ EG), IH. f_equal. clear IH. subst i. generalize (models h) as l. intros l.
        induction l as [|b l IHl]; cbn; auto. now rewrite IHl.
      * now rewrite EG, IH.
    + cbn [models]. now rewrite EG.
  - rewrite IH. now rewrite on_nth_comm.
  - rewrite IH. now rewrite on_nth_comm.
  - destruct (Nat.eqb_spec i j) as [<-|Nj].
    + rewrite IH. now rewrite on_nth_twice.
    + cbn [models]. rewrite IH. clear IH. revert i j Nj. generalize (models h) as l. induction l as [|b l IHl]; intros [|i] [|j] Nj; cbn; auto; try congruence. now rewrite IHl by congruence.
Qed.

Lemma linked_as_if i md h : linked_only h -> linked_only (as_if i md h).
Proof.
  intros L j q s. revert L. induction h as [|e h IH]; intros L H; [exact H|].
  assert (Lh : linked_only h) by (intros a b c X; apply (L a b c); now right). specialize (IH Lh).
  destruct e as [Xs Ys nrm lo hi m pred fk wm slots bits|j' f bits|j' q' s'|j'|j' md'|j'|j'|j'|j'|j' Xs bits|j' Xs qs bits]; cbn [as_if] in H;
    try (destruct H as [H|H]; [discriminate H|exact (IH H)]).
  - destruct H as [H|H]; [|exact (IH H)]. destruct (gp_init Xs Ys nrm lo hi m pred fk); [|discriminate H]. destruct (Nat.eqb i (length (models h))); discriminate H.
  - apply (L j' q' s'). now left.
  - destruct (Nat.eqb i j'); [exact (IH H)|]. destruct H as [H|H]; [discriminate H|exact (IH H)].
Qed.

Lemma ready_mode g md lo hi m : gp_ready g lo hi m -> gp_ready (with_mode g md) lo hi m.
Proof. intros [R1 R2 [D1 D2 D3 D4 D5 D6] R4 R5 R6]. split; auto. split; auto. Qed.

Lemma sound_as_if solve n_it i md h : sound solve n_it h -> sound solve n_it (as_if i md h).
Proof.
  induction h as [|e h IH]; intros HS; [exact HS|]. destruct HS as [SE HS]. specialize (IH HS).
  destruct e as [Xs Ys nrm lo hi m pred fk wm slots bits|j f bits|j q s|j|j md'|j|j|j|j|j Xs bits|j Xs qs bits]; cbn [as_if];
    try (split; [exact I|exact IH]).
  - split; [|exact IH]. cbn [sound_event] in SE. destruct (gp_init Xs Ys nrm lo hi m pred fk) as [g|er] eqn:EG.
    + destruct (SE g eq_refl) as (HR & H). destruct (Nat.eqb i (length (models h))).
      * intros g' Eg'. rewrite (init_mode _ _ _ _ _ _ _ md _ _ EG) in Eg'. apply Ok_inj in Eg'. subst g'. split; [now apply ready_mode|exact H].
      * intros g' Eg'. rewrite EG in Eg'. apply Ok_inj in Eg'. subst g'. split; [exact HR|exact H].
    + intros g' Eg'. rewrite EG in Eg'. discriminate Eg'.
  - split; [|exact IH]. intros g' Hj. rewrite models_as_if, nth_on_nth in Hj. destruct (Nat.eqb j i); [|exact (SE g' Hj)].
    destruct (nth_error (models h) j) as [g|] eqn:E; [|discriminate Hj]. cbn in Hj. injection Hj as <-. exact (SE g E).
  - destruct (Nat.eqb i j); [exact IH|]. split; [exact I|exact IH].
Qed.

(** ** C94: the mode of prediction can be switched at any time *)

(** Replies depend on the present values of the parameters and modes only:
    two histories that led to the same ones cannot be told apart. *)
Theorem C94_state :
  forall solve info n_it debug ppf h h' i g e, (0 < n_it)%nat -> sound solve n_it h -> linked_only h -> sound solve n_it h' -> linked_only h' ->
  nth_error (models h) i = Some g -> nth_error (models h') i = Some g -> question e i ->
  answer solve info n_it debug ppf h e = answer solve info n_it debug ppf h' e.
Proof.
  intros solve info n_it debug ppf h h' i g e Hn HS L HS' L' Hi Hi' Q.
  destruct (C39_fresh_partial solve info n_it debug ppf h i g L Hi) as (A1 & A2 & A3).
  destruct (C39_fresh_partial solve info n_it debug ppf h' i g L' Hi') as (B1 & B2 & B3).
  destruct (A3 (C39_sound solve info n_it debug ppf h i g Hn HS L Hi)) as [(bits & old & k & s & Ek) A4]. specialize (A4 _ _ _ _ Ek).
  destruct (B3 (C39_sound solve info n_it debug ppf h' i g Hn HS' L' Hi')) as [_ B4]. specialize (B4 _ _ _ _ Ek).
  destruct A4 as (A4 & A5 & A6 & A7). destruct B4 as (B4 & B5 & B6 & B7).
  destruct e; cbn [question] in Q; try destruct Q; congruence.
Qed.
Print Assumptions C94_state.

(** After a switch of the mode every question is answered as if the model had
    been built with the new mode, whatever was asked and cached before, with
    several models sharing the caches. *)
Theorem C94_switch :
  forall solve info n_it debug ppf h i j md e, (0 < n_it)%nat -> sound solve n_it h -> linked_only h ->
  (i < length (models h))%nat -> (j < length (models h))%nat -> question e j ->
  answer solve info n_it debug ppf (Switch i md :: h) e = answer solve info n_it debug ppf (as_if i md h) e.
Proof.
  intros solve info n_it debug ppf h i j md e Hn HS L Hi Hj Q.
  assert (EM : models (Switch i md :: h) = models (as_if i md h)) by now rewrite models_as_if.
  assert (HX : exists g, nth_error (models (Switch i md :: h)) j = Some g).
  { destruct (nth_error (models (Switch i md :: h)) j) as [g|] eqn:E; [eauto|]. apply nth_error_None in E. cbn [models] in E. rewrite on_nth_length in E. lia. }
  destruct HX as [g Hg].
  apply (C94_state solve info n_it debug ppf _ _ j g e Hn); auto.
  - split; [exact I|exact HS].
  - intros a b c [H|H]; [discriminate H|exact (L a b c H)].
  - now apply sound_as_if.
  - now apply linked_as_if.
  - now rewrite <- EM.
Qed.
Print Assumptions C94_switch.

(** Likelihoods do not change, nor do replies of other models, nor the means;
    switching back restores all. *)
Theorem C94_keeps :
  forall solve info n_it debug ppf h i g md, (0 < n_it)%nat -> sound solve n_it h -> linked_only h -> nth_error (models h) i = Some g ->
  let h' := Switch i md :: h in
  let reply := answer solve info n_it debug ppf in
  (forall j e, (j < length (models h))%nat -> question e j -> j <> i \/ of_fit e -> reply h' e = reply h e) /\
  (forall Xs b mu var mu' var', reply h (AskPredict i Xs b) = Ok (RPred (mu, var)) -> reply h' (AskPredict i Xs b) = Ok (RPred (mu', var')) -> mu' = mu) /\
  (forall e, question e i -> reply (Switch i (gp_mode g) :: h') e = reply h e).
Proof.
  intros solve info n_it debug ppf h i g md Hn HS L Hi h' reply.
  assert (HS' : sound solve n_it h') by (split; [exact I|exact HS]).
  assert (L' : linked_only h') by (intros a b c [H|H]; [discriminate H|exact (L a b c H)]).
  assert (Hi' : nth_error (models h') i = Some (with_mode g md)) by (cbn [h' models]; now rewrite nth_on_nth, Nat.eqb_refl, Hi).
  destruct (C39_fresh_partial solve info n_it debug ppf h i g L Hi) as (A1 & A2 & A3).
  destruct (C39_fresh_partial solve info n_it debug ppf h' i _ L' Hi') as (B1 & B2 & B3).
  destruct (A3 (C39_sound solve info n_it debug ppf h i g Hn HS L Hi)) as [(bits & old & k & s & Ek) A4]. specialize (A4 _ _ _ _ Ek).
  destruct (B3 (C39_sound solve info n_it debug ppf h' i _ Hn HS' L' Hi')) as [_ B4].
  specialize (B4 bits old k s Ek). destruct A4 as (A4 & A5 & A6 & A7). destruct B4 as (B4 & B5 & B6 & B7).
  split; [|split].
  - intros j e Hj Q [N|O].
    + assert (HX : exists gj, nth_error (models h) j = Some gj).
      { destruct (nth_error (models h) j) as [gj|] eqn:E; [eauto|]. apply nth_error_None in E. lia. }
      destruct HX as [gj Hgj]. apply (C94_state solve info n_it debug ppf h' h j gj e Hn); auto.
      cbn [h' models]. rewrite nth_on_nth. apply Nat.eqb_neq in N. now rewrite N.
    + destruct (Nat.eq_dec j i) as [->|N].
      * unfold reply. destruct e; try destruct O; cbn [question] in Q; subst; [rewrite A1, B1|rewrite A2, B2|rewrite A4, B4|rewrite A5, B5]; reflexivity.
      * assert (HX : exists gj, nth_error (models h) j = Some gj).
        { destruct (nth_error (models h) j) as [gj|] eqn:E; [eauto|]. apply nth_error_None in E. lia. }
        destruct HX as [gj Hgj]. apply (C94_state solve info n_it debug ppf h' h j gj e Hn); auto.
        cbn [h' models]. rewrite nth_on_nth. apply Nat.eqb_neq in N. now rewrite N.
  - intros Xs b mu var mu' var' E E'. unfold reply in E, E'. rewrite A6 in E. rewrite B6 in E'. unfold gives in E, E'.
    destruct (gp_predict solve g k Xs) as [[a v]|] eqn:P; [|discriminate E]. destruct (gp_predict solve (with_mode g md) k Xs) as [[a' v']|] eqn:P'; [|discriminate E'].
    cbn [bind] in E, E'. injection E as -> ->. injection E' as -> ->. clear - P P'.
    unfold gp_predict, gp_predict_norm, raw_predict in P, P'. cbn [with_mode gp_data gp_f gp_grids gp_mode] in P'.
    change (grid_alpha (with_mode g md) k) with (grid_alpha g k) in P'.
    destruct (pad_dims (mg_P (gp_data g)) Xs) as [Zs|]; [|discriminate P]. cbn [bind] in P, P'.
    destruct (negb (Nat.eqb (length Zs) (mg_D (gp_data g)))); [discriminate P|]. destruct (negb (forallb _ Zs)); [discriminate P|].
    destruct (map_result np_len Zs) as [lens|]; [|discriminate P]. cbn [bind] in P, P'.
    destruct (grid_alpha g k) as [ga|]; [|discriminate P]. cbn [bind] in P, P'.
    destruct (native_variance (gp_f g)) as [nv|]; [|discriminate P]. cbn [bind] in P, P'.
    match type of P with context [map_result ?F ga] => destruct (map_result F ga) as [Ws|]; [|discriminate P] end. cbn [bind] in P, P'.
    match type of P with context [fold_left ?F Ws ?a0] => destruct (fold_left F Ws a0) as [mean|]; [|discriminate P] end. cbn [bind] in P, P'.
    destruct (repeat_counts nv lens) as [nvl|]; [|discriminate P]. cbn [bind] in P, P'.
    match type of P with (bind (bind ?x _) _) = _ => destruct x as [ex|]; [|discriminate P] end.
    match type of P' with (bind (bind ?x _) _) = _ => destruct x as [ex'|]; [|discriminate P'] end. cbn [bind] in P, P'.
    destruct (negb (Nat.eqb (length nvl) (length ex))); [discriminate P|]. destruct (negb (Nat.eqb (length nvl) (length ex'))); [discriminate P'|]. cbn [bind] in P, P'.
    destruct (mg_norm (gp_data g)); apply Ok_inj in P; apply Ok_inj in P'; injection P as <- _; injection P' as <- _; reflexivity.
  - intros e Q. apply (C94_state solve info n_it debug ppf (Switch i (gp_mode g) :: h') h i g e Hn); auto.
    + split; [exact I|exact HS'].
    + intros a b c [H|H]; [discriminate H|exact (L' a b c H)].
    + cbn [h' models]. rewrite nth_on_nth, Nat.eqb_refl, nth_on_nth, Nat.eqb_refl, Hi. cbn. now destruct g.
Qed.
Print Assumptions C94_keeps.

(** A model with kernels on different dimensions, built to predict with
    precomputed variances, which it cannot; after a switch it predicts. *)
Example C94_ex : exists h g, sound direct_solve 1 h /\ linked_only h /\ nth_error (models h) 0 = Some g /\
  forall info debug ppf, let reply := answer direct_solve info 1 debug ppf in
    reply h (AskPredict 0 ex2_Zs []) = Err ValueError /\
    (exists mu var, reply (Switch 0 OnTheFly :: h) (AskPredict 0 ex2_Zs []) = Ok (RPred (mu, var))) /\
    reply (Switch 0 Precompute :: Switch 0 OnTheFly :: h) (AskPredict 0 ex2_Zs []) = Err ValueError.
Proof.
  destruct (ex2_model None (or_introl eq_refl)) as [f [g [solve [bits [k0 (E & Eg & HR & Em & Hs & Hf & EQ & ED & Hid & EP & Q0 & Q1 & Hp)]]]]].
  set (h := [AskPredict 0 ex2_Zs (one_draw g);
             New ex2_Xs ex1_Ys true GNone GNone (GArr [2%nat; 2%nat]) (Some Precompute) (Some f) false (some_slots (gp_f g)) (one_draw g)]).
  assert (HX : exact_solver (n_obs g) (K_fit g) direct_solve) by exact (ready_direct _ _ _ _ HR Hp).
  assert (HS : sound direct_solve 1 h).
  { split; [exact I|]. split; [|exact I]. intros g' E'. rewrite Eg in E'. injection E' as <-. split; [exact HR|]. split; [exact Hp|]. split; [apply some_slots_ok|].
    split; [apply one_draw_ok|exact HX]. }
  assert (L : linked_only h) by (intros a b c H; cbn in H; intuition discriminate).
  assert (Hi : nth_error (models h) 0 = Some g) by (cbn; rewrite Eg; reflexivity).
  exists h, g. repeat (split; [assumption|]). intros info debug ppf reply.
  destruct (C94_keeps direct_solve info 1 debug ppf h 0 g OnTheFly (le_n 1) HS L Hi) as (_ & _ & Back). rewrite Em in Back.
  destruct (C39_fresh_partial direct_solve info 1 debug ppf h 0 g L Hi) as (_ & _ & A3).
  destruct (A3 (C39_sound direct_solve info 1 debug ppf h 0 g (le_n 1) HS L Hi)) as [(bits' & old & k & s & Ek) A4]. specialize (A4 _ _ _ _ Ek).
  destruct A4 as (_ & _ & A6 & _).
  assert (RQ : requests (mg_P (gp_data g)) ex2_Zs [1; 1]%nat) by (rewrite EP; apply ex2_requests).
  assert (LZ : length [1; 1]%nat = f_D (gp_f g)) by now rewrite ED.
  assert (R1 : reply h (AskPredict 0 ex2_Zs []) = Err ValueError).
  { unfold reply. rewrite A6. rewrite (C44_split_rejected g _ _ _ direct_solve bits' 1 k ex2_Zs [1; 1]%nat 0 1 HR); auto.
    - exists old, s. exact Ek.
    - rewrite EQ. lia.
    - rewrite EQ. lia.
    - rewrite Q0, Q1. discriminate. }
  split; [exact R1|]. split; [|unfold reply in *; rewrite Back by reflexivity; exact R1].
  set (h' := Switch 0 OnTheFly :: h). assert (HS' : sound direct_solve 1 h') by (split; [exact I|exact HS]).
  assert (L' : linked_only h') by (intros a b c [H|H]; [discriminate H|exact (L a b c H)]).
  assert (Hi' : nth_error (models h') 0 = Some (with_mode g OnTheFly)) by (unfold h'; cbn [models]; now rewrite nth_on_nth, Nat.eqb_refl, Hi).
  destruct (C39_fresh_partial direct_solve info 1 debug ppf h' 0 _ L' Hi') as (_ & _ & B3).
  destruct (B3 (C39_sound direct_solve info 1 debug ppf h' 0 _ (le_n 1) HS' L' Hi')) as [_ B4].
  specialize (B4 bits' old k s Ek). destruct B4 as (_ & _ & B6 & _).
  assert (HR' : gp_ready (with_mode g OnTheFly) GNone GNone (GArr [2%nat; 2%nat])) by now apply ready_mode.
  assert (Hf' : fitted direct_solve bits' 1 (with_mode g OnTheFly) k) by (exists old, s; exact Ek).
  destruct (fit_solver _ _ _ _ HR' _ _ _ _ Hf' HX) as [_ [Hr _]].
  destruct (fitted_of (with_mode g OnTheFly) _ _ _ _ _ _ Ek) as [HK _].
  unfold reply. rewrite B6, (predict_ok (with_mode g OnTheFly) _ _ _ HR' k HK direct_solve Hr ex2_Zs [1; 1]%nat Hid I RQ LZ).
  - eexists _, _. reflexivity.
  - intros _. cbn. lia.
Qed.
