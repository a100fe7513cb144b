(** Invariants of histories of InterpolatedLLGP objects. *)

From Coq Require Import Reals List Arith ZArith Lia Lra.
From Verif Require Import Base NDArray Model_Util Model_Linalg Model_Interp Model_Kern Model_FK Model_Grid Model_Lik Model_GP Spec_Pred Model_State Spec_State Proofs_State.
Import ListNotations.
Open Scope R_scope.

Lemma nth_on_nth {A} (u : A -> A) l i j : nth_error (on_nth i u l) j = if Nat.eqb j i then option_map u (nth_error l j) else nth_error l j.
Proof.
  revert i j. induction l as [|a l IH]; intros [|i] [|j]; cbn; auto. now destruct (Nat.eqb j i).
Qed.
Lemma on_nth_length {A} (u : A -> A) l i : length (on_nth i u l) = length l.
Proof. revert i. induction l as [|a l IH]; intros [|i]; cbn; auto. Qed.

Section S.
  Variable solve : Mat -> vec -> result vec.
  Variable info : Mat -> vec -> R * R.
  Variable n_it : nat.
  Variable debug : bool.
  Variable ppf : R -> R.
  Notation step := (step solve info n_it debug ppf).
  Notation run := (run solve info n_it debug ppf).
  Notation answer := (answer solve info n_it debug ppf).
  Notation settled := (settled solve info n_it debug ppf).
  Notation updated := (updated solve info n_it debug ppf).
  Notation consistent := (consistent solve).
  Notation mild := (mild solve).

  Record inv (h : list event) (w : world) : Prop := {
    i_cons : consistent w;
    i_count : w_count w = length (models h);
    i_gp : forall i, option_map in_gp (w_inst w i) = nth_error (models h) i;
    i_ref : forall i o, w_inst w i = Some o -> in_service o = in_metrics o /\ forall r, in_metrics o = Some r -> (r < w_next w)%nat;
    i_distinct : forall i j oi oj r, i <> j -> w_inst w i = Some oi -> w_inst w j = Some oj -> in_metrics oi = Some r -> in_metrics oj = Some r -> False;
    i_has : forall i o, w_inst w i = Some o -> (has_metrics h i = true <-> in_metrics o <> None);
    i_settled : forall i, settled h i -> exists o k bits old s, w_inst w i = Some o /\ in_kernel o = Some k /\
      parameters_changed solve bits n_it (in_gp o) old = Ok (k, s);
    i_updated : forall i n, updated h i n -> exists o, w_inst w i = Some o /\ in_kernel o <> None /\
      forall r, in_metrics o = Some r -> series_length (w_heap w r) n
  }.

  Lemma inv_nil : inv [] no_world.
  Proof.
    split; try (cbn; congruence); cbn.
    - split; discriminate.
    - now intros [|i].
    - intros i H. inversion H.
    - intros i n H. inversion H.
  Qed.

  (** An event that only asks. *)
  Lemma inv_asks h e i w : inv h w -> asks e i -> inv (e :: h) (fst (step e w)).
  Proof.
    intros I A. destruct (asks_mild solve info n_it debug ppf e i w A (i_cons _ _ I)) as (C & N & J & D).
    set (w' := fst (step e w)) in *.
    assert (Em : models (e :: h) = models h) by (destruct e; try destruct A; reflexivity).
    assert (Eh : forall j, has_metrics (e :: h) j = has_metrics h j) by (destruct e; try destruct A; reflexivity).
    assert (NB : forall j, ~ builds h e j /\ ~ updates e j /\ e <> Begin j) by (intros j; destruct e; try destruct A; repeat split; cbn; try tauto; discriminate).
    (* every object is as before, up to its kernel *)
    assert (OB : forall j o', w_inst w' j = Some o' -> exists o, w_inst w j = Some o /\ in_gp o' = in_gp o /\ in_metrics o' = in_metrics o /\ in_service o' = in_service o).
    { intros j o' Ho. destruct (Nat.eq_dec j i) as [->|Nj]; [|rewrite J in Ho by exact Nj; now exists o'].
      destruct (w_inst w i) as [o|]; [|destruct D as [D _]; congruence]. destruct D as ((o1 & E1 & E2 & E3 & E4) & _). rewrite E1 in Ho. injection Ho as <-. now exists o. }
    assert (OK : forall j o, w_inst w j = Some o -> in_kernel o <> None -> w_inst w' j = Some o).
    { intros j o Ho Hk. destruct (Nat.eq_dec j i) as [->|Nj]; [|now rewrite J by exact Nj]. rewrite Ho in D. destruct D as (_ & _ & D). now destruct (D Hk). }
    assert (NX : w_next w' = w_next w) by (destruct (w_inst w i); [destruct D as (_ & [D _] & _)|destruct D as [_ [D _]]]; exact D).
    split.
    - exact C.
    - rewrite Em, N. apply I.
    - intros j. rewrite Em, <- (i_gp _ _ I j). destruct (Nat.eq_dec j i) as [->|Nj]; [|now rewrite J].
      destruct (w_inst w i) as [o|]; [destruct D as ((o1 & E1 & E2 & _) & _); rewrite E1; cbn; congruence|destruct D as [D _]; now rewrite D].
    - intros j o' Ho. destruct (OB j o' Ho) as (o & E & _ & E1 & E2). rewrite E1, E2, NX. exact (i_ref _ _ I j o E).
    - intros j k oj ok r Njk Hj Hk Rj Rk. destruct (OB j oj Hj) as (o1 & F1 & _ & G1 & _). destruct (OB k ok Hk) as (o2 & F2 & _ & G2 & _).
      apply (i_distinct _ _ I j k o1 o2 r Njk F1 F2); congruence.
    - intros j o' Ho. destruct (OB j o' Ho) as (o & E & _ & E1 & _). rewrite Eh, E1. exact (i_has _ _ I j o E).
    - intros j Hs. destruct (NB j) as (B1 & B2 & _). inversion Hs as [? ? ? X|? ? ? X1 X2 X3]; subst; [tauto|].
      destruct (i_settled _ _ I j X3) as (o & k & bits & old & s & E1 & E2 & E3). exists o, k, bits, old, s. split; [|auto]. apply OK; [exact E1|]. congruence.
    - intros j n Hu. destruct (NB j) as (B1 & B2 & B3). inversion Hu as [? ? ? X|? ? ? ? X|? ? ? X|? ? ? ? X1 X2 X3 X4]; subst; try tauto.
      destruct (i_updated _ _ I j n X4) as (o & E1 & E2 & E3). exists o. split; [now apply OK|]. split; [exact E2|]. intros r Er.
      replace (w_heap w' r) with (w_heap w r); [now apply E3|]. symmetry.
      destruct (Nat.eq_dec j i) as [->|Nj].
      + rewrite E1 in D. destruct D as (_ & _ & D). destruct (D E2) as [_ [_ D']]. apply D'. intros [].
      + destruct (w_inst w i) as [oi|] eqn:Ei; [|destruct D as [_ [_ D]]; apply D; intros []].
        destruct D as (_ & [_ D] & _). apply D. destruct (i_ref _ _ I i oi Ei) as [Sr _]. rewrite Sr. cbn. intros HF.
        assert (Em' : in_metrics oi = Some r) by tauto. exact (i_distinct _ _ I i j oi o r (not_eq_sym Nj) Ei E1 Em' Er).
  Qed.

  Lemma unit_reply (m : M unit) w : (exists r, snd (mbind m (fun _ => ret RUnit) w) = Ok r) -> snd (m w) = Ok tt.
  Proof. unfold mbind. destruct (snd (m w)) as [[]|]; [reflexivity|]. intros [r H]. discriminate H. Qed.
  Lemma unit_state (m : M unit) w : fst (mbind m (fun _ => ret RUnit) w) = fst (m w).
  Proof. unfold mbind. now destruct (snd (m w)). Qed.

  (** Construction. *)
  Lemma inv_new h w Xs Ys nrm lo hi m pred fk wm slots bits : inv h w -> w = run h -> inv (New Xs Ys nrm lo hi m pred fk wm slots bits :: h)
    (fst (step (New Xs Ys nrm lo hi m pred fk wm slots bits) w)).
  Proof.
    intros I Ew. set (e := New Xs Ys nrm lo hi m pred fk wm slots bits).
    destruct (gp_init Xs Ys nrm lo hi m pred fk) as [g|er] eqn:EG.
    2:{ assert (ES : step e w = (w, Err er)) by (cbn [Model_State.step e]; rewrite (mbind_eq _ _ w w _ eq_refl), EG; reflexivity).
      rewrite ES. cbn [fst].
      assert (NB : forall j, ~ builds h e j /\ ~ updates e j /\ e <> Begin j) by (intros j; repeat split; cbn; [intros [_ [g H]]; congruence|tauto|discriminate]).
      assert (Em : models (e :: h) = models h) by (cbn; now rewrite EG).
      destruct I as [I1 I2 I3 I4 I5 I6 I7 I8]. split; auto.
      - now rewrite Em.
      - intros i. now rewrite Em.
      - intros i o Ho. cbn [has_metrics]. cbn [e]. rewrite EG. auto.
      - intros j Hs. destruct (NB j) as (B1 & B2 & _). inversion Hs; subst; [tauto|auto].
      - intros j n Hu. destruct (NB j) as (B1 & B2 & B3). inversion Hu; subst; try tauto; auto. }
    assert (Em : models (e :: h) = models h ++ [g]) by (cbn; now rewrite EG).
    set (i := w_count w).
    pose (r := if wm then Some (w_next w) else None).
    pose (w1 := if wm then fst (new_metrics w) else w).
    pose (w2 := fst (add_inst (mk_inst g None slots r r) w1)).
    assert (ES : step e w = mbind (st_parameters_changed solve info n_it debug i bits) (fun _ => ret RUnit) w2).
    { cbn [Model_State.step e]. rewrite (mbind_eq _ _ w w _ eq_refl), EG.
      rewrite (mbind_eq _ _ w w1 (Ok r)) by (unfold r, w1; destruct wm; reflexivity).
      rewrite (mbind_eq _ _ w1 w2 (Ok i)); [reflexivity|]. unfold w2, add_inst, i, w1. destruct wm; reflexivity. }
    assert (Hi : i = length (models h)) by (unfold i; apply I).
    assert (W2i : w_inst w2 i = Some (mk_inst g None slots r r)) by (unfold w2, add_inst, i, w1; destruct wm; cbn; unfold at_key; now rewrite Nat.eqb_refl).
    assert (W2j : forall j, j <> i -> w_inst w2 j = w_inst w j) by (intros j Hj; apply Nat.eqb_neq in Hj; unfold w2, add_inst, w1; destruct wm; cbn; unfold at_key; fold i; now rewrite Hj).
    assert (W2c : w_count w2 = S i) by (unfold w2, add_inst, w1, i; destruct wm; reflexivity).
    assert (W2h : forall q, (q < w_next w)%nat -> w_heap w2 q = w_heap w q).
    { intros q Hq. unfold w2, add_inst, w1. destruct wm; [|reflexivity]. cbn. unfold at_key. destruct (Nat.eqb_spec q (w_next w)); [lia|reflexivity]. }
    assert (W2n : (w_next w <= w_next w2)%nat /\ (forall q, r = Some q -> q = w_next w /\ w_next w2 = S (w_next w) /\ w_heap w2 q = no_metrics)).
    { unfold w2, add_inst, w1, r. destruct wm; cbn; (split; [lia|]); [|discriminate]. intros q E. injection E as <-. repeat split. unfold at_key. now rewrite Nat.eqb_refl. }
    destruct W2n as [W2n W2r].
    destruct (pc_step solve info n_it debug i _ bits w2 W2i) as (w3 & rr & E3 & C3 & N3 & J3 & [O3 O3'] & o3 & I3 & G3 & M3 & S3 & F3).
    cbn [in_gp in_metrics in_service in_slots] in *.
    assert (NI : w_inst w i = None).
    { pose proof (i_gp _ _ I i) as H. rewrite Hi in H at 2. rewrite (proj2 (nth_error_None (models h) _)) in H by lia. destruct (w_inst w i); [discriminate H|reflexivity]. }
    assert (B : forall j, builds h e j <-> j = i) by (intros j; cbn; rewrite <- Hi; split; [tauto|]; intros ->; eauto).
    assert (UR : (exists r, answer h e = Ok r) -> rr = Ok tt).
    { intros H. unfold Model_State.answer in H. rewrite <- Ew, ES in H. apply unit_reply in H. rewrite E3 in H. exact H. }
    rewrite ES, unit_state, E3. cbn [fst].
    assert (HO : forall j o, j <> i -> w_inst w3 j = Some o -> w_inst w j = Some o) by (intros j o Hj Ho; now rewrite J3, W2j in Ho).
    assert (HE : forall q, (q < w_next w)%nat -> w_heap w3 q = w_heap w q).
    { intros q Hq. rewrite O3'; [now apply W2h|]. cbn. intros HF. assert (r = Some q) as Hr by tauto. apply W2r in Hr. lia. }
    split.
    - exact C3.
    - rewrite Em, app_length, N3, W2c. cbn. lia.
    - intros j. rewrite Em. destruct (Nat.eq_dec j i) as [->|Nj].
      + rewrite I3. cbn. rewrite G3, nth_error_app2 by lia. rewrite Hi, Nat.sub_diag. reflexivity.
      + rewrite J3, W2j by exact Nj. rewrite (i_gp _ _ I j). destruct (Nat.lt_ge_cases j (length (models h))).
        * now rewrite nth_error_app1.
        * rewrite (proj2 (nth_error_None _ _)) by lia. symmetry. apply nth_error_None. rewrite app_length. cbn. lia.
    - intros j o Ho. rewrite O3. destruct (Nat.eq_dec j i) as [->|Nj].
      + rewrite I3 in Ho. injection Ho as <-. rewrite M3, S3. split; [reflexivity|]. intros q Hq. destruct (W2r q Hq) as (-> & -> & _). lia.
      + destruct (i_ref _ _ I j o (HO j o Nj Ho)) as [A D]. split; [exact A|]. intros q Hq. specialize (D q Hq). lia.
    - assert (X : forall j o q, j <> i -> w_inst w3 j = Some o -> in_metrics o = Some q -> in_metrics o3 = Some q -> False).
      { intros j o q Nj Ho Eq E3q. rewrite M3 in E3q. apply W2r in E3q. destruct (i_ref _ _ I j o (HO j o Nj Ho)) as [_ D]. specialize (D q Eq). lia. }
      intros j k oj ok q Njk Hj Hk Rj Rk. destruct (Nat.eq_dec j i) as [->|Nj].
      + rewrite I3 in Hj. injection Hj as <-. apply (X k ok q); auto.
      + destruct (Nat.eq_dec k i) as [->|Nk]; [rewrite I3 in Hk; injection Hk as <-; apply (X j oj q); auto|].
        apply (i_distinct _ _ I j k oj ok q Njk); auto.
    - intros j o Ho. cbn [has_metrics e]. rewrite EG, <- Hi. destruct (Nat.eqb_spec j i) as [->|Nj].
      + rewrite I3 in Ho. injection Ho as <-. rewrite M3. unfold r. destruct wm; split; congruence.
      + apply (i_has _ _ I j o). auto.
    - intros j Hs. inversion Hs as [? ? ? X Y|? ? ? X1 X2 X3]; subst.
      + destruct X as [X|[]]. apply B in X. subst j. destruct (F3 (UR Y)) as [[k [s [P K]]] _]. exists o3, k, bits, slots, s. auto.
      + assert (Nj : j <> i) by (intros ->; apply X1; now apply B).
        destruct (i_settled _ _ I j X3) as (o & k & bs & old & s & E1 & E2 & E4). exists o, k, bs, old, s. split; [|auto]. now rewrite J3, W2j.
    - intros j n Hu. inversion Hu as [? ? ? X Y|? ? ? ? X|? ? ? X|? ? ? ? X1 X2 X3 X4]; subst.
      + apply B in X. subst j. destruct (F3 (UR Y)) as [[k [s [P K]]] AD]. exists o3. split; [exact I3|]. split; [congruence|]. intros q Hq.
        rewrite M3 in Hq. specialize (AD q Hq Hq). destruct (W2r q Hq) as (_ & _ & H0). rewrite H0 in AD. unfold adds in AD. unfold series_length. cbn in AD. lia.
      + destruct X.
      + assert (Nj : j <> i) by (intros ->; apply X1; now apply B).
        destruct (i_updated _ _ I j n X4) as (o & E1 & E2 & E4). exists o. split; [now rewrite J3, W2j|]. split; [exact E2|]. intros q Hq.
        destruct (i_ref _ _ I j o E1) as [_ D]. rewrite HE by exact (D q Hq). now apply E4.
  Qed.

  (** Assignment to linked parameters. *)
  Lemma inv_update h w i f bits : inv h w -> w = run h -> inv (Update i f bits :: h) (fst (step (Update i f bits) w)).
  Proof.
    intros I Ew. set (e := Update i f bits). set (u := fun g => with_params g f).
    assert (Em : models (e :: h) = on_nth i u (models h)) by reflexivity.
    assert (NB : forall j, ~ builds h e j /\ e <> Begin j) by (intros j; split; [intros []|discriminate]).
    destruct (w_inst w i) as [o|] eqn:Eo.
    2:{ assert (ES : step e w = (w, Err AttributeError)) by (cbn [Model_State.step e]; now apply missing).
      rewrite ES. cbn [fst].
      assert (NO : ~ exists r, answer h e = Ok r) by (unfold Model_State.answer; rewrite <- Ew, ES; intros [r H]; discriminate H).
      pose proof (i_gp _ _ I i) as Gi. rewrite Eo in Gi. cbn in Gi. destruct I as [I1 I2 I3 I4 I5 I6 I7 I8].
      split; auto.
      - now rewrite Em, on_nth_length.
      - intros j. rewrite Em, nth_on_nth, I3. destruct (Nat.eqb_spec j i) as [->|]; [|reflexivity]. now rewrite <- Gi.
      - intros j Hs. destruct (NB j) as (B1 & _). inversion Hs; subst; [tauto|auto].
      - intros j n Hu. destruct (NB j) as (B1 & B3). inversion Hu; subst; try tauto; auto. }
    set (o2 := set_f o f). set (w2 := fst (set_self i o2 w)).
    assert (ES : step e w = mbind (st_parameters_changed solve info n_it debug i bits) (fun _ => ret RUnit) w2).
    { cbn [Model_State.step e]. rewrite (mbind_eq _ _ w w (Ok o)) by (unfold self_; now rewrite Eo). rewrite (mbind_eq _ _ w w2 (Ok tt)) by reflexivity. reflexivity. }
    assert (W2i : w_inst w2 i = Some o2) by (cbn; unfold at_key; now rewrite Nat.eqb_refl).
    assert (W2j : forall j, j <> i -> w_inst w2 j = w_inst w j) by (intros j Hj; apply Nat.eqb_neq in Hj; cbn; unfold at_key; now rewrite Hj).
    destruct (pc_step solve info n_it debug i _ bits w2 W2i) as (w3 & rr & E3 & C3 & N3 & J3 & [O3 O3'] & o3 & I3 & G3 & M3 & S3 & F3).
    change (in_metrics o2) with (in_metrics o) in *. change (in_service o2) with (in_service o) in *. change (w_heap w2) with (w_heap w) in *.
    change (w_next w2) with (w_next w) in *. change (w_count w2) with (w_count w) in *.
    assert (UR : (exists r, answer h e = Ok r) -> rr = Ok tt).
    { intros H. unfold Model_State.answer in H. rewrite <- Ew, ES in H. apply unit_reply in H. rewrite E3 in H. exact H. }
    rewrite ES, unit_state, E3. cbn [fst].
    assert (HO : forall j oj, j <> i -> w_inst w3 j = Some oj -> w_inst w j = Some oj) by (intros j oj Hj Ho; now rewrite J3, W2j in Ho).
    destruct (i_ref _ _ I i o Eo) as [Sm Rm].
    split.
    - exact C3.
    - rewrite Em, on_nth_length, N3. apply I.
    - intros j. rewrite Em, nth_on_nth, <- (i_gp _ _ I j). destruct (Nat.eqb_spec j i) as [->|Nj].
      + rewrite I3, Eo. cbn. rewrite G3. reflexivity.
      + now rewrite J3, W2j.
    - intros j oj Ho. rewrite O3. destruct (Nat.eq_dec j i) as [->|Nj].
      + rewrite I3 in Ho. injection Ho as <-. rewrite M3, S3. auto.
      + exact (i_ref _ _ I j oj (HO j oj Nj Ho)).
    - assert (X : forall j oj q, j <> i -> w_inst w3 j = Some oj -> in_metrics oj = Some q -> in_metrics o3 = Some q -> False).
      { intros j oj q Nj Ho Eq E3q. rewrite M3 in E3q. exact (i_distinct _ _ I i j o oj q (not_eq_sym Nj) Eo (HO j oj Nj Ho) E3q Eq). }
      intros j k oj ok q Njk Hj Hk Rj Rk. destruct (Nat.eq_dec j i) as [->|Nj].
      + rewrite I3 in Hj. injection Hj as <-. apply (X k ok q); auto.
      + destruct (Nat.eq_dec k i) as [->|Nk]; [rewrite I3 in Hk; injection Hk as <-; apply (X j oj q); auto|].
        apply (i_distinct _ _ I j k oj ok q Njk); auto.
    - intros j oj Ho. cbn [has_metrics e]. destruct (Nat.eq_dec j i) as [->|Nj].
      + rewrite I3 in Ho. injection Ho as <-. rewrite M3. exact (i_has _ _ I i o Eo).
      + exact (i_has _ _ I j oj (HO j oj Nj Ho)).
    - intros j Hs. inversion Hs as [? ? ? X Y|? ? ? X1 X2 X3]; subst.
      + destruct X as [[]|X]. cbn in X. subst j. destruct (F3 (UR Y)) as [[k [s [P K]]] _]. exists o3, k, bits, (in_slots o2), s. rewrite G3. auto.
      + assert (Nj : j <> i) by (intros ->; now apply X2).
        destruct (i_settled _ _ I j X3) as (oj & k & bs & old & s & E1 & E2 & E4). exists oj, k, bs, old, s. split; [|auto]. now rewrite J3, W2j.
    - intros j n Hu. inversion Hu as [? ? ? X Y|? ? ? n' X Y Z|? ? ? X|? ? ? ? X1 X2 X3 X4]; subst.
      + destruct X.
      + cbn in X. subst j. destruct (F3 (UR Y)) as [[k [s [P K]]] AD]. exists o3. split; [exact I3|]. split; [congruence|]. intros q Hq.
        rewrite M3 in Hq. assert (Sq : in_service o = Some q) by congruence. specialize (AD q Hq Sq).
        destruct (i_updated _ _ I i n' Z) as (oo & E1 & _ & E4). rewrite Eo in E1. injection E1 as <-. specialize (E4 q Hq).
        unfold adds in AD. unfold series_length in *. lia.
      + assert (Nj : j <> i) by (intros ->; now apply X2).
        destruct (i_updated _ _ I j n X4) as (oj & E1 & E2 & E4). exists oj. split; [now rewrite J3, W2j|]. split; [exact E2|]. intros q Hq.
        rewrite O3'; [now apply E4|]. rewrite Sm. cbn. intros HF. assert (Hq' : in_metrics o = Some q) by tauto.
        exact (i_distinct _ _ I i j o oj q (not_eq_sym Nj) Eo E1 Hq' Hq).
  Qed.

  (** The start of optimize. *)
  Lemma inv_begin h w i : inv h w -> inv (Begin i :: h) (fst (step (Begin i) w)).
  Proof.
    intros I. set (e := Begin i).
    assert (NB : forall j, ~ builds h e j /\ ~ updates e j) by (intros j; split; intros []).
    assert (BE : forall j, e = Begin j -> j = i) by (intros j E; now injection E).
    assert (Same : (forall o, w_inst w i = Some o -> in_metrics o = None) -> inv (e :: h) w).
    { intros Hn. pose proof I as I'. destruct I as [I1 I2 I3 I4 I5 I6 I7 I8]. split; auto.
      - intros j Hs. destruct (NB j) as (B1 & B2). inversion Hs; subst; [tauto|auto].
      - intros j n Hu. destruct (NB j) as (B1 & B2). inversion Hu as [? ? ? X Y|? ? ? n' X Y Z|? ? n' X|? ? ? ? X1 X2 X3 X4]; subst; try tauto; [|auto].
        destruct (I8 _ _ X) as (o & E1 & E2 & E3). exists o. split; [exact E1|]. split; [exact E2|]. intros r Hr. rewrite (Hn o E1) in Hr. discriminate Hr. }
    cbn [Model_State.step e]. destruct (w_inst w i) as [o|] eqn:Eo.
    2:{ rewrite missing by exact Eo. apply Same. discriminate. }
    rewrite (mbind_eq _ _ w w (Ok o)) by (unfold self_; now rewrite Eo).
    destruct (in_metrics o) as [r0|] eqn:Er.
    2:{ apply Same. congruence. }
    clear Same. set (r := w_next w). set (w1 := fst (new_metrics w)). rewrite (mbind_eq _ _ w w1 (Ok r)) by reflexivity.
    set (o2 := mk_inst (in_gp o) (in_kernel o) (in_slots o) (Some r) (Some r)). set (w2 := fst (set_self i o2 w1)).
    rewrite (mbind_eq _ _ w1 w2 (Ok tt)) by reflexivity. cbn [fst ret].
    assert (W2i : w_inst w2 i = Some o2) by (cbn; unfold at_key; now rewrite Nat.eqb_refl).
    assert (W2j : forall j, j <> i -> w_inst w2 j = w_inst w j) by (intros j Hj; apply Nat.eqb_neq in Hj; cbn; unfold at_key; now rewrite Hj).
    assert (OB : forall j oj, w_inst w j = Some oj -> exists oj', w_inst w2 j = Some oj' /\ in_gp oj' = in_gp oj /\ in_kernel oj' = in_kernel oj).
    { intros j oj Hj. destruct (Nat.eq_dec j i) as [->|Nj]; [|rewrite W2j by exact Nj; now exists oj]. rewrite Eo in Hj. injection Hj as <-. exists o2. auto. }
    assert (HE : forall q, (q < w_next w)%nat -> w_heap w2 q = w_heap w q).
    { intros q Hq. cbn. unfold at_key. destruct (Nat.eqb_spec q (w_next w)); [lia|reflexivity]. }
    split.
    - pose proof (i_cons _ _ I) as [D1 D2 D3 D4]. split; intros j v E; cbn in E.
      + destruct (D1 j v E) as [oj [Ej Gj]]. destruct (OB j oj Ej) as (oj' & A & B & _). exists oj'. rewrite B. auto.
      + destruct (D2 j v E) as [oj [kj [Ej [Gj Lj]]]]. destruct (OB j oj Ej) as (oj' & A & B & D). exists oj', kj. rewrite B, D. auto.
      + destruct (D3 j v E) as [oj [Ej Gj]]. destruct (OB j oj Ej) as (oj' & A & B & _). exists oj'. rewrite B. auto.
      + destruct (D4 j v E) as [oj [kj [Ej [Gj Lj]]]]. destruct (OB j oj Ej) as (oj' & A & B & D). exists oj', kj. rewrite B, D. auto.
    - cbn. apply I.
    - intros j. cbn [models e]. rewrite <- (i_gp _ _ I j). destruct (Nat.eq_dec j i) as [->|Nj]; [now rewrite W2i, Eo|now rewrite W2j].
    - intros j oj Ho. change (w_next w2) with (S r). destruct (Nat.eq_dec j i) as [->|Nj].
      + rewrite W2i in Ho. injection Ho as <-. split; [reflexivity|]. intros q Hq. injection Hq as <-. lia.
      + rewrite W2j in Ho by exact Nj. destruct (i_ref _ _ I j oj Ho) as [A D]. split; [exact A|]. intros q Hq. specialize (D q Hq). fold r in D. lia.
    - assert (X : forall j oj q, j <> i -> w_inst w2 j = Some oj -> in_metrics oj = Some q -> Some r = Some q -> False).
      { intros j oj q Nj Ho Eq E. injection E as <-. rewrite W2j in Ho by exact Nj. destruct (i_ref _ _ I j oj Ho) as [_ D]. specialize (D r Eq). unfold r in D. lia. }
      intros j k oj ok q Njk Hj Hk Rj Rk. destruct (Nat.eq_dec j i) as [->|Nj].
      + rewrite W2i in Hj. injection Hj as <-. apply (X k ok q); auto.
      + destruct (Nat.eq_dec k i) as [->|Nk]; [rewrite W2i in Hk; injection Hk as <-; apply (X j oj q); auto|].
        rewrite W2j in Hj by exact Nj. rewrite W2j in Hk by exact Nk. apply (i_distinct _ _ I j k oj ok q Njk); auto.
    - intros j oj Ho. cbn [has_metrics e]. destruct (Nat.eq_dec j i) as [->|Nj].
      + rewrite W2i in Ho. injection Ho as <-. rewrite (i_has _ _ I i o Eo), Er. cbn. split; intros; discriminate.
      + rewrite W2j in Ho by exact Nj. exact (i_has _ _ I j oj Ho).
    - intros j Hs. destruct (NB j) as (B1 & B2). inversion Hs as [? ? ? X Y|? ? ? X1 X2 X3]; subst; [tauto|].
      destruct (i_settled _ _ I j X3) as (oj & k & bs & old & s & E1 & E2 & E4). destruct (OB j oj E1) as (oj' & A & B & D).
      exists oj', k, bs, old, s. rewrite B, D. auto.
    - intros j n Hu. destruct (NB j) as (B1 & B2). inversion Hu as [? ? ? X Y|? ? ? n' X Y Z|? ? n' X|? ? ? ? X1 X2 X3 X4]; subst; try tauto.
      + destruct (i_updated _ _ I j n' X) as (oo & E1 & E2 & _). rewrite Eo in E1. injection E1 as <-. exists o2. split; [exact W2i|]. split; [exact E2|].
        intros q Hq. injection Hq as <-. cbn. unfold at_key. fold r. rewrite Nat.eqb_refl. repeat split.
      + assert (Nj : j <> i) by (intros ->; now apply X3). destruct (i_updated _ _ I j n X4) as (oj & E1 & E2 & E4). exists oj. split; [now rewrite W2j|]. split; [exact E2|].
        intros q Hq. destruct (i_ref _ _ I j oj E1) as [_ D]. rewrite HE by exact (D q Hq). now apply E4.
  Qed.

  (** Assignment to the mode of prediction. *)
  Lemma inv_switch h w i md : inv h w -> inv (Switch i md :: h) (fst (step (Switch i md) w)).
  Proof.
    intros I. set (e := Switch i md). set (u := fun g => with_mode g md).
    assert (Em : models (e :: h) = on_nth i u (models h)) by reflexivity.
    assert (NB : forall j, ~ builds h e j /\ ~ updates e j /\ e <> Begin j) by (intros j; split; [intros []|split; [intros []|discriminate]]).
    cbn [Model_State.step e]. destruct (w_inst w i) as [o|] eqn:Eo.
    2:{ rewrite missing by exact Eo. cbn [fst]. pose proof (i_gp _ _ I i) as Gi. rewrite Eo in Gi. cbn in Gi. destruct I as [I1 I2 I3 I4 I5 I6 I7 I8].
      split; auto.
      - now rewrite Em, on_nth_length.
      - intros j. rewrite Em, nth_on_nth, I3. destruct (Nat.eqb_spec j i) as [->|]; [|reflexivity]. now rewrite <- Gi.
      - intros j Hs. destruct (NB j) as (B1 & B2 & _). inversion Hs; subst; [tauto|auto].
      - intros j n Hu. destruct (NB j) as (B1 & B2 & B3). inversion Hu; subst; try tauto; auto. }
    rewrite (mbind_eq _ _ w w (Ok o)) by (unfold self_; now rewrite Eo).
    set (o2 := set_mode o md). set (w2 := fst (set_self i o2 w)). rewrite (mbind_eq _ _ w w2 (Ok tt)) by reflexivity. cbn [fst ret].
    assert (W2i : w_inst w2 i = Some o2) by (cbn; unfold at_key; now rewrite Nat.eqb_refl).
    assert (W2j : forall j, j <> i -> w_inst w2 j = w_inst w j) by (intros j Hj; apply Nat.eqb_neq in Hj; cbn; unfold at_key; now rewrite Hj).
    (* every object is as before, up to its mode *)
    assert (OB : forall j oj, w_inst w j = Some oj -> exists oj', w_inst w2 j = Some oj' /\ (oj' = oj \/ oj' = set_mode oj md)).
    { intros j oj Hj. destruct (Nat.eq_dec j i) as [->|Nj]; [|rewrite W2j by exact Nj; exists oj; auto]. rewrite Eo in Hj. injection Hj as <-. exists o2. auto. }
    assert (BO : forall j oj', w_inst w2 j = Some oj' -> exists oj, w_inst w j = Some oj /\ in_metrics oj' = in_metrics oj /\ in_service oj' = in_service oj).
    { intros j oj Hj. destruct (Nat.eq_dec j i) as [->|Nj]; [|rewrite W2j in Hj by exact Nj; exists oj; auto]. rewrite W2i in Hj. injection Hj as <-. exists o. auto. }
    split.
    - pose proof (i_cons _ _ I) as [D1 D2 D3 D4]. split; intros j v E; cbn in E.
      + destruct (D1 j v E) as [oj [Ej Gj]]. destruct (OB j oj Ej) as (oj' & A & [->| ->]); eauto.
      + destruct (D2 j v E) as [oj [kj [Ej [Gj Lj]]]]. destruct (OB j oj Ej) as (oj' & A & [->| ->]); eauto.
      + destruct (D3 j v E) as [oj [Ej Gj]]. destruct (OB j oj Ej) as (oj' & A & [->| ->]); eauto.
      + destruct (D4 j v E) as [oj [kj [Ej [Gj Lj]]]]. destruct (OB j oj Ej) as (oj' & A & [->| ->]); eauto.
    - rewrite Em, on_nth_length. cbn. apply I.
    - intros j. rewrite Em, nth_on_nth, <- (i_gp _ _ I j). destruct (Nat.eqb_spec j i) as [->|Nj]; [now rewrite W2i, Eo|now rewrite W2j].
    - intros j oj Ho. change (w_next w2) with (w_next w). destruct (BO j oj Ho) as (o1 & E & E1 & E2). rewrite E1, E2. exact (i_ref _ _ I j o1 E).
    - intros j k oj ok r Njk Hj Hk Rj Rk. destruct (BO j oj Hj) as (o1 & F1 & G1 & _). destruct (BO k ok Hk) as (o3 & F2 & G2 & _).
      apply (i_distinct _ _ I j k o1 o3 r Njk F1 F2); congruence.
    - intros j oj Ho. destruct (BO j oj Ho) as (o1 & E & E1 & _). cbn [has_metrics e]. rewrite E1. exact (i_has _ _ I j o1 E).
    - intros j Hs. destruct (NB j) as (B1 & B2 & _). inversion Hs as [? ? ? X|? ? ? X1 X2 X3]; subst; [tauto|].
      destruct (i_settled _ _ I j X3) as (oj & k & bits & old & s & E1 & E2 & E3). destruct (OB j oj E1) as (oj' & A & [->| ->]).
      + exists oj, k, bits, old, s. auto.
      + exists (set_mode oj md), k, bits, old, s. auto.
    - intros j n Hu. destruct (NB j) as (B1 & B2 & B3). inversion Hu as [? ? ? X|? ? ? ? X|? ? ? X|? ? ? ? X1 X2 X3 X4]; subst; try tauto.
      destruct (i_updated _ _ I j n X4) as (oj & E1 & E2 & E3). destruct (OB j oj E1) as (oj' & A & [->| ->]); [exists oj|exists (set_mode oj md)]; auto.
  Qed.

  Theorem run_inv h : linked_only h -> inv h (run h).
  Proof.
    induction h as [|e h IH]; intros L; [apply inv_nil|].
    assert (Lh : linked_only h) by (intros i q s H; apply (L i q s); now right). specialize (IH Lh). cbn [Model_State.run].
    destruct e as [Xs Ys nrm lo hi m pred fk wm slots bits|i f bits|i q s|i|i md|i|i|i|i|i Xs bits|i Xs qs bits];
      try (apply (inv_asks h _ i); [exact IH|reflexivity]).
    - now apply inv_new.
    - now apply inv_update.
    - exfalso. apply (L i q s). now left.
    - now apply inv_begin.
    - now apply inv_switch.
  Qed.

  (** Replies depend on the parameters only, not on the draws of the probes. *)
  Lemma pc_parts bits bits' g old old' k k' s s' :
    parameters_changed solve bits n_it g old = Ok (k, s) -> parameters_changed solve bits' n_it g old' = Ok (k', s') ->
    al_K (gpk_lik k) = al_K (gpk_lik k') /\ sd_alpha (al_deriv (gpk_lik k)) = sd_alpha (al_deriv (gpk_lik k')) /\ gpk_grids k = gpk_grids k'.
  Proof.
    unfold parameters_changed. destruct (gen_grid_kernel _ _ _ _) as [[K gks]|]; [|discriminate]. cbn [bind].
    unfold approx_init. destruct (eval_kernels _ _) as [Kqs|]; [|discriminate]. cbn [bind]. destruct (map_result bttb_of_value Kqs) as [ms|]; [|discriminate]. cbn [bind].
    unfold sd_generate. cbn [map_result]. destruct (solve K (concat (mg_Ys (gp_data g)))) as [a|]; [|discriminate]. cbn [bind].
    do 2 match goal with |- context [map_result (solve K) ?l] => destruct (map_result (solve K) l); cbn [bind]; [|first [discriminate|intros _ HH; discriminate HH]] end.
    destruct (eval_kernel_gradients _ _) as [gr|]; [|discriminate]. cbn [bind].
    do 2 match goal with |- context [all_gradients ?l ?f] => destruct (all_gradients l f); cbn [bind]; [|first [discriminate|intros _ HH; discriminate HH]] end.
    do 2 match goal with |- context [fk_update_gradient ?l ?f ?d] => destruct (fk_update_gradient l f d); cbn [bind]; [|first [discriminate|intros _ HH; discriminate HH]] end.
    intros E1 E2. assert (F1 := f_equal (fun r => match r with Ok (x, _) => x | Err _ => k end) E1). assert (F2 := f_equal (fun r => match r with Ok (x, _) => x | Err _ => k end) E2).
    cbn beta iota in F1, F2. subst k k'. auto.
  Qed.

  Lemma same_replies g k k' : al_K (gpk_lik k) = al_K (gpk_lik k') -> sd_alpha (al_deriv (gpk_lik k)) = sd_alpha (al_deriv (gpk_lik k')) -> gpk_grids k = gpk_grids k' ->
    gp_normal_quadratic g k = gp_normal_quadratic g k' /\ gp_log_likelihood g k = gp_log_likelihood g k' /\ forall Xs un, gp_predict_norm solve g k Xs un = gp_predict_norm solve g k' Xs un.
  Proof.
    intros EK Ea Eg. assert (Q : gp_normal_quadratic g k = gp_normal_quadratic g k') by (unfold gp_normal_quadratic; now rewrite Ea).
    split; [exact Q|]. split; [unfold gp_log_likelihood; now rewrite Q|]. intros Xs un. unfold gp_predict_norm, raw_predict, grid_alpha, var_precompute, var_on_the_fly, precomputed_nu.
    now rewrite EK, Ea, Eg.
  Qed.
End S.
