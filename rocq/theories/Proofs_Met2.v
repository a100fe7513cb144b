(** The metrics of whole histories. *)

From Coq Require Import Reals List Arith ZArith Lia Lra Bool.
From Verif Require Import Base NDArray PSD Model_Util Proofs_Util Spec_Util Model_Linalg Spec_Linalg Proofs_Linalg Model_Interp Spec_Interp
  Proofs_Sparse Proofs_Interp Proofs_Interp2 Proofs_Bicubic Proofs_Assemble Proofs_Autogrid Properties_Interp Model_Kern Spec_Kern Proofs_Kern Proofs_KernPSD Model_FK Spec_FK Proofs_FK Properties_FK
  Model_Grid Spec_Grid Proofs_Grid Proofs_Grid2 Det Proofs_Det Model_Lik Spec_Lik Proofs_Lik Proofs_Lik2 Proofs_Lik3 Proofs_Lik4 Proofs_Lik5 Proofs_Lik6 Proofs_Lik7 Properties_Lik Properties_Lik2
  Spec_GP Proofs_Gen Proofs_Gen2 Model_GP Spec_Pred Proofs_Pred Proofs_Pred2 Proofs_Pred3 Proofs_Pred4 Proofs_Pred5 Proofs_Pred6 Proofs_Init Properties_Pred Model_State Spec_State Proofs_State Proofs_State2 Proofs_State3 Proofs_State4 Spec_Met Proofs_Met.
Import ListNotations.
Open Scope R_scope.

Section S.
  Variable solve : Mat -> vec -> result vec.
  Variable info : Mat -> vec -> R * R.
  Variable n_it : nat.
  Variable debug : bool.
  Variable ppf : R -> R.
  Notation step := (step solve info n_it debug ppf).
  Notation run := (run solve info n_it debug ppf).
  Notation st_pc := (st_parameters_changed solve info n_it debug).
  Notation pc := (parameters_changed solve).
  Notation sound := (sound solve n_it).
  Notation inv := (inv solve info n_it debug ppf).
  Hypothesis Hn : (0 < n_it)%nat.

  Definition grown (m : metrics) (e : entry) : metrics :=
    mk_metrics (iterations m ++ [e_iterations e]) (grad_norms m ++ [e_grad_norm e]) (grad_error m ++ [e_grad_error e])
               (solv_error m ++ [e_solv_error e]) (log_likely m ++ [Fin (e_log_likely e)]).

  (** An update of object [i]. *)
  Lemma update_val h i f bits g : sound (Update i f bits :: h) -> linked_only h -> nth_error (models h) i = Some g -> has_metrics h i = true ->
    exists m e s old k, metrics_of (run h) i = Some m /\ slots_of (run (Update i f bits :: h)) i = Some s /\
      pc bits n_it (with_params g f) old = Ok (k, s) /\
      recorded info (with_params g f) bits s e /\ metrics_of (run (Update i f bits :: h)) i = Some (grown m e).
  Proof.
    intros [SE HS] L Hi Hm. pose proof (run_inv solve info n_it debug ppf h L) as I.
    destruct (sound_alive solve info n_it debug ppf Hn h HS L i g Hi) as [(o & lo & hi & mm & Ho & HR & Hp & Hsl & Hk) _].
    set (w := run h) in *. set (e := Update i f bits). change (run (e :: h)) with (fst (step e w)).
    pose proof (i_gp _ _ _ _ _ _ _ I i) as Gi. rewrite Ho, Hi in Gi. injection Gi as Gi.
    pose proof (proj1 (i_has _ _ _ _ _ _ _ I i o Ho) Hm) as Hr. destruct (in_metrics o) as [ref|] eqn:Er; [|congruence].
    destruct (i_ref _ _ _ _ _ _ _ I i o Ho) as [Es _]. rewrite Er in Es.
    destruct (SE g Hi) as ((ks & vecs & diags & noise & U & Ef) & HK & Hp' & Hb & Hso).
    set (o2 := set_f o f). set (w2 := fst (set_self i o2 w)).
    assert (G2 : in_gp o2 = with_params g f) by (unfold o2, set_f; cbn [in_gp]; now rewrite Gi).
    assert (HR' : gp_ready (with_params g f) lo hi mm) by (rewrite Ef in *; now apply ready_update).
    assert (ES : step e w = mbind (st_pc i bits) (fun _ => ret RUnit) w2).
    { cbn [Model_State.step e]. rewrite (mbind_eq _ _ w w (Ok o)) by (unfold self_; now rewrite Ho). rewrite (mbind_eq _ _ w w2 (Ok tt)) by reflexivity. reflexivity. }
    assert (W2i : w_inst w2 i = Some o2) by (cbn; unfold at_key; now rewrite Nat.eqb_refl).
    assert (Hsl' : slots_fit (in_slots o2) f) by (unfold slots_fit; rewrite Ef, set_values_Q by exact U; exact Hsl).
    destruct (met_sound solve info n_it debug i o2 bits w2 lo hi mm ref Hn W2i) as (w3 & o3 & en & E3 & I3 & M3 & R3 & [k Ek] & H3);
      rewrite ?G2; try assumption.
    rewrite G2 in R3, Ek. exists (w_heap w ref), en, (in_slots o3), (in_slots o2), k.
    split; [unfold metrics_of; rewrite Ho, Er; reflexivity|]. rewrite ES, unit_state, E3. cbn [fst].
    split; [unfold slots_of; now rewrite I3|]. split; [exact Ek|]. split; [exact R3|]. unfold metrics_of. rewrite I3, M3. cbn [option_map]. now rewrite H3.
  Qed.

  (** A new object. *)
  Lemma new_val h Xs Ys nrm lo hi m pred fk slots bits g : let e := New Xs Ys nrm lo hi m pred fk true slots bits in
    sound (e :: h) -> linked_only h -> gp_init Xs Ys nrm lo hi m pred fk = Ok g ->
    exists en s old k, slots_of (run (e :: h)) (length (models h)) = Some s /\ pc bits n_it g old = Ok (k, s) /\
      recorded info g bits s en /\ metrics_of (run (e :: h)) (length (models h)) = Some (collected [en]).
  Proof.
    intros e [SE HS] L EG. pose proof (run_inv solve info n_it debug ppf h L) as I. set (w := run h) in *. change (run (e :: h)) with (fst (step e w)).
    destruct (SE g EG) as (HR & Hp & Hsl & Hb & Hso).
    set (i0 := w_count w). pose (r := Some (w_next w)). pose (w1 := fst (new_metrics w)).
    pose (o0 := mk_inst g None slots r r). pose (w2 := fst (add_inst o0 w1)).
    assert (ES : step e w = mbind (st_pc i0 bits) (fun _ => ret RUnit) w2).
    { cbn [Model_State.step e]. rewrite (mbind_eq _ _ w w _ eq_refl), EG. rewrite (mbind_eq _ _ w w1 (Ok r)) by reflexivity.
      rewrite (mbind_eq _ _ w1 w2 (Ok i0)) by reflexivity. reflexivity. }
    assert (W2i : w_inst w2 i0 = Some o0) by (unfold w2, add_inst, i0, w1; cbn; unfold at_key; now rewrite Nat.eqb_refl).
    assert (Hi0 : i0 = length (models h)) by (unfold i0; apply I). rewrite <- Hi0.
    destruct (met_sound solve info n_it debug i0 o0 bits w2 lo hi m (w_next w) Hn W2i HR Hp Hso Hsl Hb eq_refl eq_refl) as (w3 & o3 & en & E3 & I3 & M3 & R3 & [k Ek] & H3).
    exists en, (in_slots o3), slots, k. rewrite ES, unit_state, E3. cbn [fst].
    split; [unfold slots_of; now rewrite I3|]. split; [exact Ek|]. split; [exact R3|]. unfold metrics_of. rewrite I3, M3. cbn [option_map]. rewrite H3.
    assert (W2h : w_heap w2 (w_next w) = no_metrics) by (unfold w2, add_inst, w1; cbn; unfold at_key; now rewrite Nat.eqb_refl). rewrite W2h. reflexivity.
  Qed.

  (** Everything else leaves the metrics of object [i] alone. *)
  Lemma kept h e i g : sound (e :: h) -> linked_only (e :: h) -> nth_error (models h) i = Some g -> ~ updates e i -> e <> Begin i ->
    metrics_of (run (e :: h)) i = metrics_of (run h) i.
  Proof.
    intros [SE HS] Le Hi NU NB. assert (L : linked_only h) by (intros j q s H; apply (Le j q s); now right).
    pose proof (run_inv solve info n_it debug ppf h L) as I. destruct (sound_alive solve info n_it debug ppf Hn h HS L i g Hi) as [(o & lo & hi & mm & Ho & _ & _ & _ & Hk) _].
    set (w := run h) in *. change (run (e :: h)) with (fst (step e w)). unfold metrics_of. rewrite Ho.
    assert (Ri : forall q, in_metrics o = Some q -> (q < w_next w)%nat) by apply (i_ref _ _ _ _ _ _ _ I i o Ho).
    assert (Di : forall j oj q, j <> i -> w_inst w j = Some oj -> in_metrics o = Some q -> ~ In (Some q) [in_metrics oj; in_service oj]).
    { intros j oj q Nj Hj Hq. rewrite (proj1 (i_ref _ _ _ _ _ _ _ I j oj Hj)). cbn. intros [E|[E|[]]]; exact (i_distinct _ _ _ _ _ _ _ I i j o oj q (not_eq_sym Nj) Ho Hj Hq E). }
    assert (Asks : forall j, asks e j -> match w_inst (fst (step e w)) i with Some o => option_map (w_heap (fst (step e w))) (in_metrics o) | None => None end = option_map (w_heap w) (in_metrics o)).
    { intros j A. destruct (asks_mild solve info n_it debug ppf e j w A (i_cons _ _ _ _ _ _ _ I)) as (C & N & J & D).
      destruct (Nat.eq_dec i j) as [->|Nj].
      - rewrite Ho in D. destruct D as (_ & _ & D). destruct (D Hk) as [-> [_ D']]. destruct (in_metrics o) as [q|]; [|reflexivity]. cbn. rewrite D' by (cbn; tauto). reflexivity.
      - rewrite J, Ho by exact Nj. destruct (in_metrics o) as [q|] eqn:Eq; [|reflexivity]. cbn. f_equal.
        destruct (w_inst w j) as [oj|] eqn:Ej; [|destruct D as [_ [_ D]]; apply D; cbn; tauto]. destruct D as (_ & [_ D] & _). apply D. exact (Di j oj q (not_eq_sym Nj) Ej eq_refl). }
    destruct e as [Xs Ys nrm lo' hi' m' pred fk wm slots bits|j f bits|j q s|j|j md|j|j|j|j|j Xs bits|j Xs qs bits]; try (apply (Asks j); reflexivity).
    - clear Asks. set (e := New Xs Ys nrm lo' hi' m' pred fk wm slots bits) in *.
      destruct (gp_init Xs Ys nrm lo' hi' m' pred fk) as [g'|er] eqn:EG.
      2:{ assert (ES : step e w = (w, Err er)) by (cbn [Model_State.step e]; rewrite (mbind_eq _ _ w w _ eq_refl), EG; reflexivity). rewrite ES. cbn [fst]. now rewrite Ho. }
      set (i0 := w_count w). pose (r := if wm then Some (w_next w) else None). pose (w1 := if wm then fst (new_metrics w) else w).
      pose (w2 := fst (add_inst (mk_inst g' None slots r r) w1)).
      assert (ES : step e w = mbind (st_pc i0 bits) (fun _ => ret RUnit) w2).
      { cbn [Model_State.step e]. rewrite (mbind_eq _ _ w w _ eq_refl), EG.
        rewrite (mbind_eq _ _ w w1 (Ok r)) by (unfold r, w1; destruct wm; reflexivity).
        rewrite (mbind_eq _ _ w1 w2 (Ok i0)); [reflexivity|]. unfold w2, add_inst, i0, w1. destruct wm; reflexivity. }
      assert (W2i : w_inst w2 i0 = Some (mk_inst g' None slots r r)) by (unfold w2, add_inst, i0, w1; destruct wm; cbn; unfold at_key; now rewrite Nat.eqb_refl).
      assert (W2j : forall j, j <> i0 -> w_inst w2 j = w_inst w j) by (intros j Hj; apply Nat.eqb_neq in Hj; unfold w2, add_inst, w1; destruct wm; cbn; unfold at_key; fold i0; now rewrite Hj).
      assert (W2h : forall q, (q < w_next w)%nat -> w_heap w2 q = w_heap w q).
      { intros q Hq. unfold w2, add_inst, w1. destruct wm; [|reflexivity]. cbn. unfold at_key. destruct (Nat.eqb_spec q (w_next w)); [lia|reflexivity]. }
      destruct (pc_step solve info n_it debug i0 _ bits w2 W2i) as (w3 & rr & E3 & C3 & N3 & J3 & [O3 O3'] & _). cbn [in_metrics in_service] in O3'.
      rewrite ES, unit_state, E3. cbn [fst].
      assert (Ni : i <> i0). { intros ->. unfold i0 in Hi. rewrite (i_count _ _ _ _ _ _ _ I), (proj2 (nth_error_None (models h) _)) in Hi by lia. discriminate Hi. }
      rewrite J3, W2j, Ho by exact Ni. destruct (in_metrics o) as [q|]; [|reflexivity]. cbn. f_equal. specialize (Ri q eq_refl).
      rewrite O3'; [now apply W2h|]. unfold r. destruct wm; cbn; [intros [E|[E|[]]]; injection E; lia|intros [E|[E|[]]]; discriminate E].
    - assert (Nj : i <> j) by (intros ->; apply NU; reflexivity). set (e := Update j f bits) in *.
      destruct (w_inst w j) as [oj|] eqn:Ej.
      2:{ assert (ES : step e w = (w, Err AttributeError)) by (cbn [Model_State.step e]; now apply missing). rewrite ES. cbn [fst]. now rewrite Ho. }
      set (o2 := set_f oj f). set (w2 := fst (set_self j o2 w)).
      assert (ES : step e w = mbind (st_pc j bits) (fun _ => ret RUnit) w2).
      { cbn [Model_State.step e]. rewrite (mbind_eq _ _ w w (Ok oj)) by (unfold self_; now rewrite Ej). rewrite (mbind_eq _ _ w w2 (Ok tt)) by reflexivity. reflexivity. }
      assert (W2i : w_inst w2 j = Some o2) by (cbn; unfold at_key; now rewrite Nat.eqb_refl).
      assert (W2j : forall k, k <> j -> w_inst w2 k = w_inst w k) by (intros k Hj; apply Nat.eqb_neq in Hj; cbn; unfold at_key; now rewrite Hj).
      destruct (pc_step solve info n_it debug j _ bits w2 W2i) as (w3 & rr & E3 & C3 & N3 & J3 & [O3 O3'] & _).
      rewrite ES, unit_state, E3. cbn [fst]. rewrite J3, W2j, Ho by exact Nj. destruct (in_metrics o) as [q|]; [|reflexivity]. cbn. f_equal.
      rewrite O3'; [reflexivity|]. exact (Di j oj q (not_eq_sym Nj) Ej eq_refl).
    - exfalso. apply (Le j q s). now left.
    - assert (Nj : i <> j) by congruence. cbn [Model_State.step]. destruct (w_inst w j) as [oj|] eqn:Ej; [|rewrite missing by exact Ej; cbn [fst]; now rewrite Ho].
      rewrite (mbind_eq _ _ w w (Ok oj)) by (unfold self_; now rewrite Ej). destruct (in_metrics oj) as [r0|]; [|cbn [fst ret]; now rewrite Ho].
      rewrite (mbind_eq _ _ w (fst (new_metrics w)) (Ok (w_next w))) by reflexivity.
      match goal with |- context [mbind (set_self j ?x) _ ?y] => rewrite (mbind_eq _ _ y (fst (set_self j x y)) (Ok tt)) by reflexivity end.
      cbn [fst ret set_self new_metrics w_inst w_heap]. unfold at_key at 1. apply Nat.eqb_neq in Nj. rewrite Nj, Ho.
      destruct (in_metrics o) as [q|]; [|reflexivity]. cbn. f_equal. unfold at_key. specialize (Ri q eq_refl). destruct (Nat.eqb_spec q (w_next w)); [lia|reflexivity].
    - cbn [Model_State.step]. destruct (w_inst w j) as [oj|] eqn:Ej; [|rewrite missing by exact Ej; cbn [fst]; now rewrite Ho].
      rewrite (mbind_eq _ _ w w (Ok oj)) by (unfold self_; now rewrite Ej).
      match goal with |- context [mbind (set_self j ?x) _ ?y] => rewrite (mbind_eq _ _ y (fst (set_self j x y)) (Ok tt)) by reflexivity end.
      cbn [fst ret set_self w_inst w_heap]. unfold at_key. destruct (Nat.eqb_spec i j) as [->|Nj]; [|now rewrite Ho].
      rewrite Ej in Ho. injection Ho as ->. reflexivity.
  Qed.

  Lemma begin_val h i g : linked_only h -> nth_error (models h) i = Some g -> has_metrics h i = true -> metrics_of (run (Begin i :: h)) i = Some no_metrics.
  Proof.
    intros L Hi Hm. pose proof (run_inv solve info n_it debug ppf h L) as I. set (w := run h) in *. change (run (Begin i :: h)) with (fst (step (Begin i) w)).
    pose proof (i_gp _ _ _ _ _ _ _ I i) as Gi. fold w in Gi. rewrite Hi in Gi. destruct (w_inst w i) as [o|] eqn:Ho; [|discriminate Gi].
    pose proof (proj1 (i_has _ _ _ _ _ _ _ I i o Ho) Hm) as Hr. cbn [Model_State.step].
    rewrite (mbind_eq _ _ w w (Ok o)) by (unfold self_; now rewrite Ho). destruct (in_metrics o) as [r0|]; [|congruence].
    rewrite (mbind_eq _ _ w (fst (new_metrics w)) (Ok (w_next w))) by reflexivity.
    match goal with |- context [mbind (set_self i ?x) _ ?y] => rewrite (mbind_eq _ _ y (fst (set_self i x y)) (Ok tt)) by reflexivity end.
    unfold metrics_of. cbn. unfold at_key. rewrite Nat.eqb_refl. cbn. now rewrite Nat.eqb_refl.
  Qed.

  Lemma grown_collected l e : grown (collected l) e = collected (l ++ [e]).
  Proof. unfold grown, collected. cbn. now rewrite !map_app. Qed.

  Lemma series h i g : sound h -> linked_only h -> nth_error (models h) i = Some g -> has_metrics h i = true ->
    exists es, metrics_of (run h) i = Some (collected es) /\
      Forall2 (fun p e => exists s old k, pc (snd p) n_it (fst p) old = Ok (k, s) /\ recorded info (fst p) (snd p) s e) (log_since h i) es.
  Proof.
    revert g. induction h as [|e h IH]; intros g HS L Hi Hm; [destruct i; discriminate Hi|].
    assert (Lh : linked_only h) by (intros j q s H; apply (L j q s); now right). pose proof HS as [SE HSh].
    assert (Keep : forall g', nth_error (models h) i = Some g' -> has_metrics h i = true -> ~ updates e i -> e <> Begin i -> log_since (e :: h) i = log_since h i ->
      exists es, metrics_of (run (e :: h)) i = Some (collected es) /\
      Forall2 (fun p e => exists s old k, pc (snd p) n_it (fst p) old = Ok (k, s) /\ recorded info (fst p) (snd p) s e) (log_since (e :: h) i) es).
    { intros g' Hg Hm' NU NB El. rewrite El, (kept h e i g' HS L Hg NU NB). exact (IH g' HSh Lh Hg Hm'). }
    destruct e as [Xs Ys nrm lo hi m pred fk wm slots bits|j f bits|j q s|j|j md|j|j|j|j|j Xs bits|j Xs qs bits];
      try (apply (Keep g Hi Hm); [intros []|discriminate|reflexivity]).
    - cbn [models has_metrics log_since] in *. destruct (gp_init Xs Ys nrm lo hi m pred fk) as [g'|er] eqn:EG; [|apply (Keep g Hi Hm); [intros []|discriminate|reflexivity]].
      destruct (Nat.eqb_spec i (length (models h))) as [->|Ni].
      + subst wm. destruct (new_val h Xs Ys nrm lo hi m pred fk slots bits g' HS Lh EG) as (en & s & old & k & _ & Ek & R1 & R2).
        exists [en]. split; [exact R2|]. constructor; [|constructor]. exists s, old, k. auto.
      + assert (Hi' : nth_error (models h) i = Some g).
        { destruct (lt_dec i (length (models h))) as [Hlt|Hge]; [now rewrite nth_error_app1 in Hi|].
          rewrite nth_error_app2 in Hi by lia. destruct (i - length (models h))%nat as [|z] eqn:Ez; [lia|]. cbn in Hi. destruct z; discriminate Hi. }
        apply (Keep g Hi' Hm); [intros []|discriminate|reflexivity].
    - cbn [models has_metrics log_since] in *. rewrite nth_on_nth in Hi. destruct (Nat.eqb_spec i j) as [<-|Nj].
      + destruct (nth_error (models h) i) as [g0|] eqn:E0; [|discriminate Hi].
        destruct (update_val h i f bits g0 HS Lh E0 Hm) as (m & en & s & old & k & M1 & _ & Ek & R1 & R2).
        destruct (IH g0 HSh Lh eq_refl Hm) as [es [E1 F1]]. rewrite M1 in E1. injection E1 as ->. exists (es ++ [en]). rewrite R2, grown_collected. split; [reflexivity|].
        apply Forall2_app; [exact F1|]. constructor; [|constructor]. exists s, old, k. auto.
      + apply (Keep g Hi Hm); [cbn; congruence|discriminate|reflexivity].
    - exfalso. apply (L j q s). now left.
    - cbn [models has_metrics log_since] in *. destruct (Nat.eqb_spec i j) as [<-|Nj].
      + exists []. split; [exact (begin_val h i g Lh Hi Hm)|constructor].
      + apply (Keep g Hi Hm); [intros []|congruence|reflexivity].
    - cbn [models] in Hi. rewrite nth_on_nth in Hi. assert (HX : exists g0, nth_error (models h) i = Some g0).
      { destruct (nth_error (models h) i) as [g0|]; [eauto|]. destruct (Nat.eqb i j); discriminate Hi. }
      destruct HX as [g0 Hg0]. apply (Keep g0 Hg0 Hm); [intros []|discriminate|reflexivity].
  Qed.
End S.
