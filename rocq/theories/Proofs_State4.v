(** Histories of sound objects. *)

From Coq Require Import Reals List Arith ZArith Lia Lra Bool.
From Verif Require Import Base NDArray PSD Model_Util Proofs_Util Spec_Util Model_Linalg Spec_Linalg Proofs_Linalg Model_Interp Spec_Interp
  Proofs_Sparse Proofs_Interp Proofs_Interp2 Proofs_Bicubic Proofs_Assemble Proofs_Autogrid Properties_Interp Model_Kern Spec_Kern Proofs_Kern Proofs_KernPSD Model_FK Spec_FK Proofs_FK Properties_FK
  Model_Grid Spec_Grid Proofs_Grid Proofs_Grid2 Det Proofs_Det Model_Lik Spec_Lik Proofs_Lik Proofs_Lik2 Proofs_Lik3 Proofs_Lik4 Proofs_Lik5 Proofs_Lik6 Proofs_Lik7 Properties_Lik Properties_Lik2
  Spec_GP Proofs_Gen Proofs_Gen2 Model_GP Spec_Pred Proofs_Pred Proofs_Pred2 Proofs_Pred3 Proofs_Pred4 Proofs_Pred5 Proofs_Init Model_State Spec_State Proofs_State Proofs_State2 Proofs_State3.
Import ListNotations.
Open Scope R_scope.

Lemma ready_update g lo hi m ks vecs diags noise :
  gp_ready g lo hi m -> update_ok (gp_f g) ks vecs diags noise -> kernels_ok (set_values (gp_f g) ks vecs diags noise) ->
  gp_ready (with_params g (set_values (gp_f g) ks vecs diags noise)) lo hi m.
Proof.
  intros HR U HK. assert (EG : forall ad, group (set_values (gp_f g) ks vecs diags noise) ad = group (gp_f g) ad).
  { intros ad. apply group_ext; [now apply set_values_Q|intros; now apply set_values_dims]. }
  destruct HR as [R1 R2 [D1 D2 D3 D4 D5 D6] R4 R5 R6]. split; cbn [with_params gp_f gp_data gp_grids]; auto.
  - now apply reach_update.
  - split; auto. intros ad. rewrite EG. apply D6.
Qed.

(** A direct solver is exact on every positive definite matrix. *)
Definition direct_solve (Ko : Mat) (b : vec) : result vec :=
  match chol (length b) (mget (as_numpy Ko)) with
  | Some U => Ok (tab (length b) (potrs (length b) U (vget b)))
  | None => Err LinAlgError
  end.
Lemma direct_exact n K : sym n K -> pos_definite n K -> exact_solver n K direct_solve.
Proof.
  intros Hs Hp Ko HK b Hb. unfold direct_solve. rewrite Hb. pose proof (proj1 (pos_definite_pivots n K Hs) Hp) as HPv.
  assert (Hag : agree n K (mget (as_numpy Ko))).
  { intros i j Hi Hj. rewrite (rep_np _ _ HK). unfold d_dense. cbn [d_r d_c d_f]. now rewrite mget_mk. }
  destruct (chol_ok n K _ Hs Hag HPv) as [U [EU [_ [_ [_ [_ Hso]]]]]]. rewrite EU. eexists. split; [reflexivity|]. split; [apply tab_length|].
  intros i Hi. rewrite <- (Hso (vget b) i Hi). apply Rsum_ext. intros j Hj. now rewrite vget_tab.
Qed.
Lemma ready_direct g lo hi m : gp_ready g lo hi m -> proper (gp_f g) -> exact_solver (n_obs g) (K_fit g) direct_solve.
Proof.
  intros HR Hp. apply direct_exact; [|exact (K_fit_pd g lo hi m HR Hp)].
  exact (K_op_sym _ _ _ _ _ _ _ _ (rd_ok g lo hi m HR) (rd_P g lo hi m HR) (kr_interp g lo hi m HR)).
Qed.

Section S.
  Variable solve : Mat -> vec -> result vec.
  Variable info : Mat -> vec -> R * R.
  Variable n_it : nat.
  Variable debug : bool.
  Variable ppf : R -> R.
  Notation step := (step solve info n_it debug ppf).
  Notation run := (run solve info n_it debug ppf).
  Notation answer := (answer solve info n_it debug ppf).
  Notation settled := (settled solve info n_it debug ppf).
  Notation updated := (updated solve info n_it debug ppf).
  Notation consistent := (consistent solve).
  Notation sound := (sound solve n_it).
  Notation inv := (inv solve info n_it debug ppf).
  Hypothesis Hn : (0 < n_it)%nat.

  Definition alive (h : list event) (w : world) : Prop :=
    forall i g, nth_error (models h) i = Some g ->
      (exists o lo hi m, w_inst w i = Some o /\ gp_ready g lo hi m /\ proper (gp_f g) /\ slots_fit (in_slots o) (gp_f g) /\ in_kernel o <> None) /\
      settled h i /\ updated h i (updates_since h i).

  Lemma alive_asks h e j : inv h (run h) -> asks e j -> alive h (run h) -> alive (e :: h) (run (e :: h)).
  Proof.
    intros I A H i g Hi. destruct (asks_mild solve info n_it debug ppf e j (run h) A (i_cons _ _ _ _ _ _ _ I)) as (C & N & J & D).
    assert (Em : models (e :: h) = models h) by (destruct e; try destruct A; reflexivity).
    assert (Eu : updates_since (e :: h) i = updates_since h i) by (destruct e; try destruct A; reflexivity).
    assert (NB : ~ builds h e i /\ ~ updates e i /\ e <> Begin i) by (destruct e; try destruct A; repeat split; cbn; try tauto; discriminate).
    rewrite Em in Hi. destruct (H i g Hi) as [(o & lo & hi & m & Ho & HR & Hp & Hs & Hk) [S1 U1]]. destruct NB as (B1 & B2 & B3).
    split; [|split; [now apply settled_before|rewrite Eu; now apply upd_other]].
    exists o, lo, hi, m. split; [|auto]. cbn [Model_State.run]. destruct (Nat.eq_dec i j) as [->|Nj]; [|now rewrite J].
    rewrite Ho in D. destruct D as (_ & _ & D). now destruct (D Hk).
  Qed.

  Lemma alive_new h Xs Ys nrm lo hi m pred fk wm slots bits : inv h (run h) -> alive h (run h) ->
    sound_event solve n_it h (New Xs Ys nrm lo hi m pred fk wm slots bits) ->
    alive (New Xs Ys nrm lo hi m pred fk wm slots bits :: h) (run (New Xs Ys nrm lo hi m pred fk wm slots bits :: h)).
  Proof.
    intros I H SE. set (e := New Xs Ys nrm lo hi m pred fk wm slots bits). set (w := run h) in *.
    change (run (e :: h)) with (fst (step e w)).
    destruct (gp_init Xs Ys nrm lo hi m pred fk) as [g|er] eqn:EG.
    2:{ assert (ES : step e w = (w, Err er)) by (cbn [Model_State.step e]; rewrite (mbind_eq _ _ w w _ eq_refl), EG; reflexivity).
      rewrite ES. cbn [fst]. intros i g Hi. assert (Em : models (e :: h) = models h) by (cbn; now rewrite EG). rewrite Em in Hi.
      destruct (H i g Hi) as [A [S1 U1]]. split; [exact A|].
      assert (NB : ~ builds h e i) by (cbn; intros [_ [g' H']]; congruence).
      split; [now apply settled_before|]. cbn [updates_since e]. rewrite EG. apply upd_other; auto. discriminate. }
    destruct (SE g EG) as (HR & Hp & Hsl & Hb & Hso).
    set (i0 := w_count w).
    pose (r := if wm then Some (w_next w) else None).
    pose (w1 := if wm then fst (new_metrics w) else w).
    pose (o0 := mk_inst g None slots r r). pose (w2 := fst (add_inst o0 w1)).
    assert (ES : step e w = mbind (st_parameters_changed solve info n_it debug i0 bits) (fun _ => ret RUnit) w2).
    { cbn [Model_State.step e]. rewrite (mbind_eq _ _ w w _ eq_refl), EG.
      rewrite (mbind_eq _ _ w w1 (Ok r)) by (unfold r, w1; destruct wm; reflexivity).
      rewrite (mbind_eq _ _ w1 w2 (Ok i0)); [reflexivity|]. unfold w2, add_inst, i0, w1. destruct wm; reflexivity. }
    assert (W2i : w_inst w2 i0 = Some o0) by (unfold w2, add_inst, i0, w1; destruct wm; cbn; unfold at_key; now rewrite Nat.eqb_refl).
    assert (W2j : forall j, j <> i0 -> w_inst w2 j = w_inst w j) by (intros j Hj; apply Nat.eqb_neq in Hj; unfold w2, add_inst, w1; destruct wm; cbn; unfold at_key; fold i0; now rewrite Hj).
    destruct (pc_sound solve info n_it debug i0 o0 bits w2 lo hi m Hn W2i HR Hp Hso Hsl Hb) as (w3 & o3 & E3 & I3 & G3 & S3 & K3 & J3). cbn [in_gp o0] in *.
    assert (Hi0 : i0 = length (models h)) by (unfold i0; apply I).
    assert (EA : exists rr, answer h e = Ok rr) by (exists RUnit; unfold Model_State.answer; fold w; rewrite ES; unfold mbind; now rewrite E3).
    assert (B : forall j, builds h e j <-> j = i0) by (intros j; cbn; rewrite <- Hi0; split; [tauto|]; intros ->; eauto).
    rewrite ES, unit_state, E3. cbn [fst].
    intros i g' Hi. assert (Em : models (e :: h) = models h ++ [g]) by (cbn; now rewrite EG). rewrite Em in Hi.
    assert (Eu : updates_since (e :: h) i = if Nat.eqb i i0 then 1%nat else updates_since h i) by (cbn [updates_since e]; rewrite EG, <- Hi0; reflexivity).
    destruct (Nat.eqb_spec i i0) as [->|Ni].
    - rewrite nth_error_app2, <- Hi0, Nat.sub_diag in Hi by lia. cbn in Hi. injection Hi as <-.
      split; [exists o3, lo, hi, m; auto|]. rewrite Eu. split; [apply settled_now; [left; now apply B|exact EA]|apply upd_new; [now apply B|exact EA]].
    - assert (Hlt : (i < length (models h))%nat). { pose proof (proj1 (nth_error_Some (models h ++ [g]) i)) as X. rewrite Hi in X. specialize (X ltac:(discriminate)). rewrite app_length in X. cbn in X. lia. }
      rewrite nth_error_app1 in Hi by exact Hlt. destruct (H i g' Hi) as [(o & lo' & hi' & m' & Ho & X) [S1 U1]].
      split; [exists o, lo', hi', m'; split; [now rewrite J3, W2j|exact X]|]. rewrite Eu.
      split; [apply settled_before; auto; now rewrite B|apply upd_other; auto; [now rewrite B|discriminate]].
  Qed.

  Lemma alive_update h j f bits : inv h (run h) -> alive h (run h) -> sound_event solve n_it h (Update j f bits) ->
    alive (Update j f bits :: h) (run (Update j f bits :: h)).
  Proof.
    intros I H SE. set (e := Update j f bits). set (w := run h) in *. change (run (e :: h)) with (fst (step e w)).
    intros i g' Hi. assert (Em : models (e :: h) = on_nth j (fun g => with_params g f) (models h)) by reflexivity. rewrite Em, nth_on_nth in Hi.
    assert (Eu : updates_since (e :: h) i = if Nat.eqb i j then S (updates_since h i) else updates_since h i) by reflexivity.
    destruct (w_inst w j) as [o|] eqn:Eo.
    2:{ pose proof (i_gp _ _ _ _ _ _ _ I j) as Gj. fold w in Gj. rewrite Eo in Gj. cbn in Gj.
      assert (ES : step e w = (w, Err AttributeError)) by (cbn [Model_State.step e]; now apply missing). rewrite ES. cbn [fst].
      destruct (Nat.eqb_spec i j) as [->|Ni]; [rewrite <- Gj in Hi; discriminate Hi|].
      destruct (H i g' Hi) as [A [S1 U1]]. split; [exact A|]. rewrite Eu. split; [apply settled_before|apply upd_other]; auto; cbn; auto; discriminate. }
    pose proof (i_gp _ _ _ _ _ _ _ I j) as Gj. fold w in Gj. rewrite Eo in Gj. cbn in Gj. symmetry in Gj.
    destruct (H j (in_gp o) Gj) as [(o' & lo & hi & m & Ho & HR & Hp & Hsl & Hk) [S1 U1]]. rewrite Eo in Ho. injection Ho as <-.
    destruct (SE (in_gp o) Gj) as ((ks & vecs & diags & noise & U & Ef) & HK & Hp' & Hb & Hso).
    assert (HR' : gp_ready (with_params (in_gp o) f) lo hi m) by (rewrite Ef in *; now apply ready_update).
    set (o2 := set_f o f). set (w2 := fst (set_self j o2 w)).
    assert (ES : step e w = mbind (st_parameters_changed solve info n_it debug j bits) (fun _ => ret RUnit) w2).
    { cbn [Model_State.step e]. rewrite (mbind_eq _ _ w w (Ok o)) by (unfold self_; now rewrite Eo). rewrite (mbind_eq _ _ w w2 (Ok tt)) by reflexivity. reflexivity. }
    assert (W2i : w_inst w2 j = Some o2) by (cbn; unfold at_key; now rewrite Nat.eqb_refl).
    assert (W2j : forall k, k <> j -> w_inst w2 k = w_inst w k) by (intros k Hj; apply Nat.eqb_neq in Hj; cbn; unfold at_key; now rewrite Hj).
    assert (Hsl' : slots_fit (in_slots o2) f) by (unfold slots_fit; rewrite Ef, set_values_Q by exact U; exact Hsl).
    destruct (pc_sound solve info n_it debug j o2 bits w2 lo hi m Hn W2i HR' Hp' Hso Hsl' Hb) as (w3 & o3 & E3 & I3 & G3 & S3 & K3 & J3).
    assert (EA : exists rr, answer h e = Ok rr) by (exists RUnit; unfold Model_State.answer; fold w; rewrite ES; unfold mbind; now rewrite E3).
    rewrite ES, unit_state, E3. cbn [fst]. rewrite Eu.
    destruct (Nat.eqb_spec i j) as [->|Ni].
    - rewrite Gj in Hi. cbn in Hi. injection Hi as <-. split; [exists o3, lo, hi, m; repeat (split; [assumption|]); assumption|].
      split; [apply settled_now; [right; reflexivity|exact EA]|apply upd_update; [reflexivity|exact EA|exact U1]].
    - destruct (H i g' Hi) as [(oi & lo' & hi' & m' & Hoi & X) [S1' U1']].
      split; [exists oi, lo', hi', m'; split; [now rewrite J3, W2j|exact X]|].
      split; [apply settled_before|apply upd_other]; auto; cbn; auto; discriminate.
  Qed.

  Lemma alive_begin h j : inv h (run h) -> alive h (run h) -> alive (Begin j :: h) (run (Begin j :: h)).
  Proof.
    intros I H i g Hi. cbn [models] in Hi. destruct (H i g Hi) as [(o & lo & hi & m & Ho & HR & Hp & Hs & Hk) [S1 U1]].
    assert (Eu : updates_since (Begin j :: h) i = if Nat.eqb i j then 0%nat else updates_since h i) by reflexivity.
    split; [|split; [apply settled_before; auto|]].
    - set (w := run h) in *. change (run (Begin j :: h)) with (fst (step (Begin j) w)). cbn [Model_State.step].
      destruct (w_inst w j) as [oj|] eqn:Eo; [|rewrite missing by exact Eo; exists o, lo, hi, m; auto].
      rewrite (mbind_eq _ _ w w (Ok oj)) by (unfold self_; now rewrite Eo).
      destruct (in_metrics oj) as [r0|]; [|exists o, lo, hi, m; auto].
      rewrite (mbind_eq _ _ w (fst (new_metrics w)) (Ok (w_next w))) by reflexivity.
      match goal with |- context [mbind (set_self j ?x) _ ?y] => rewrite (mbind_eq _ _ y (fst (set_self j x y)) (Ok tt)) by reflexivity end.
      cbn [fst ret set_self new_metrics w_inst]. unfold at_key. destruct (Nat.eqb_spec i j) as [->|Ni]; [|exists o, lo, hi, m; auto].
      rewrite Eo in Ho. injection Ho as ->. eexists _, lo, hi, m. split; [reflexivity|]. auto.
    - rewrite Eu. destruct (Nat.eqb_spec i j) as [->|Ni]; [eapply upd_begin; exact U1|]. apply upd_other; auto. intros E. injection E. congruence.
  Qed.

  Lemma alive_switch h j md : inv h (run h) -> alive h (run h) -> alive (Switch j md :: h) (run (Switch j md :: h)).
  Proof.
    intros I H i g' Hi. set (e := Switch j md). set (w := run h) in *. change (run (e :: h)) with (fst (step e w)).
    assert (Em : models (e :: h) = on_nth j (fun g => with_mode g md) (models h)) by reflexivity. unfold e in *. rewrite Em, nth_on_nth in Hi.
    assert (HX : exists g, nth_error (models h) i = Some g /\ g' = if Nat.eqb i j then with_mode g md else g).
    { destruct (Nat.eqb i j); [|eauto]. destruct (nth_error (models h) i) as [g|]; [|discriminate Hi]. cbn in Hi. injection Hi as <-. eauto. }
    clear Hi. destruct HX as [g [Hi Eg]]. destruct (H i g Hi) as [(o & lo & hi & m & Ho & HR & Hp & Hs & Hk) [S1 U1]].
    split; [|split; [apply settled_before; auto|change (updates_since (Switch j md :: h) i) with (updates_since h i); apply upd_other; auto; discriminate]].
    cbn [Model_State.step].
    destruct (w_inst w j) as [oj|] eqn:Eo.
    2:{ rewrite missing by exact Eo. destruct (Nat.eqb_spec i j) as [->|Ni]; [congruence|]. subst g'. exists o, lo, hi, m. auto. }
    rewrite (mbind_eq _ _ w w (Ok oj)) by (unfold self_; now rewrite Eo).
    match goal with |- context [mbind (set_self j ?x) _ ?y] => rewrite (mbind_eq _ _ y (fst (set_self j x y)) (Ok tt)) by reflexivity end.
    cbn [fst ret set_self w_inst]. unfold at_key. destruct (Nat.eqb_spec i j) as [->|Ni]; [|subst g'; exists o, lo, hi, m; auto].
    rewrite Eo in Ho. injection Ho as ->. subst g'. exists (set_mode o md), lo, hi, m. split; [reflexivity|].
    split; [destruct HR as [R1 R2 [D1 D2 D3 D4 D5 D6] R4 R5 R6]; split; auto; split; auto|auto].
  Qed.

  Theorem sound_alive h : sound h -> linked_only h -> alive h (run h).
  Proof.
    induction h as [|e h IH]; intros HS L; [intros [|i] g Hi; discriminate Hi|].
    assert (Lh : linked_only h) by (intros i q s H; apply (L i q s); now right). destruct HS as [SE HS]. specialize (IH HS Lh).
    pose proof (run_inv solve info n_it debug ppf h Lh) as I.
    destruct e as [Xs Ys nrm lo hi m pred fk wm slots bits|i f bits|i q s|i|i md|i|i|i|i|i Xs bits|i Xs qs bits];
      try (apply (alive_asks h _ i I); [reflexivity|exact IH]).
    - now apply alive_new.
    - now apply alive_update.
    - exfalso. apply (L i q s). now left.
    - now apply alive_begin.
    - now apply alive_switch.
  Qed.
End S.
