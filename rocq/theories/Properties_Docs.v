(** Properties of inherit_doc. *)

From Coq Require Import String List Arith Lia Bool.
From Verif Require Import Base Model_Docs.
Import ListNotations.

(** ** C51 *)

Definition documented (d : option string) : Prop := exists s, d = Some s /\ s <> ""%string.

(** [b] is the first base class with property [P]. *)
Definition first_base_is (P : base -> Prop) (bases : list base) (b : base) : Prop :=
  exists pre post, bases = pre ++ b :: post /\ P b /\ forall b', In b' pre -> ~ P b'.

(** A base documents the name: with an attribute that has documentation; for a
    property, with a property whose getter has. *)
Definition documents (h : docs) (name : string) (s : string) (b : base) : Prop :=
  exists a, b name = Some a /\ truth a = true /\ attr_doc h a = Some s /\ s <> ""%string.
Definition documents_prop (h : docs) (name : string) (s : string) (b : base) : Prop :=
  exists pg ps pd d, b name = Some (Property (Some pg) ps pd d) /\ h pg = Some s /\ s <> ""%string.
Definition not_a_property (name : string) (b : base) : Prop :=
  exists a, b name = Some a /\ truth a = true /\ forall g s d doc, a <> Property g s d doc.

Definition funcs (items : list (string * attr)) : list addr := flat_map (fun i => match snd i with Func f => [f] | _ => [] end) items.
Definition touches (a : attr) (f : addr) : Prop := match a with Func g => g = f | Property (Some g) _ _ _ => g = f | _ => False end.
(** The functions defined in the class body are different objects, not the
    getters of its properties and not found in the bases. *)
Definition separate (items : list (string * attr)) (bases : list base) : Prop :=
  NoDup (funcs items) /\
  (forall name g s d doc, In (name, Property (Some g) s d doc) items -> ~ In g (funcs items)) /\
  (forall name a b a' f, In (name, a) items -> In b bases -> b name = Some a' -> touches a' f -> ~ In f (funcs items)).

Lemma no_doc_true d : no_doc d = true <-> ~ documented d.
Proof.
  unfold no_doc, documented. destruct d as [s|].
  - rewrite String.eqb_eq. split.
    + intros -> [s' [E N]]. injection E as <-. now apply N.
    + intros H. destruct (string_dec s "") as [E|E]; [exact E|]. destruct H. now exists s.
  - split; [intros _ [s [E _]]; discriminate E|reflexivity].
Qed.
Lemma no_doc_false d : no_doc d = false <-> documented d.
Proof.
  destruct (no_doc d) eqn:E; split; intros H; try reflexivity; try discriminate H.
  - apply no_doc_true in E. contradiction.
  - destruct d as [s|]; [|discriminate E]. exists s. split; [reflexivity|]. intros ->. discriminate E.
Qed.

(** What one function becomes, and what one property becomes. *)
Definition func_result (h : docs) (name : string) (bases : list base) (d d' : option string) : Prop :=
  (documented d -> d' = d) /\
  (~ documented d ->
    (forall b s, first_base_is (fun b => exists s, documents h name s b) bases b -> documents h name s b -> d' = Some s) /\
    ((forall b s, In b bases -> ~ documents h name s b) -> d' = d)).
Definition prop_result (h : docs) (name : string) (bases : list base) (fget fset fdel : option addr) (doc : option string) (a : attr) : Prop :=
  (documented (fget_doc h fget) -> a = Property fget fset fdel doc) /\
  (~ documented (fget_doc h fget) ->
    (forall b s, first_base_is (fun b => exists s, documents_prop h name s b) bases b -> documents_prop h name s b -> a = Property fget fset fdel (Some s)) /\
    ((forall b s, In b bases -> ~ documents_prop h name s b) -> a = Property fget fset fdel doc)).
Definition item_result (h h' : docs) (bases : list base) (i i' : string * attr) : Prop :=
  fst i' = fst i /\
  match snd i with
  | Func f => snd i' = Func f /\ func_result h (fst i) bases (h f) (h' f)
  | Property g s d doc => prop_result h (fst i) bases g s d doc (snd i')
  | Other t d => snd i' = Other t d
  end.

Lemma first_cons (P : base -> Prop) b0 bases b : first_base_is P (b0 :: bases) b -> (b = b0 /\ P b0) \/ (~ P b0 /\ first_base_is P bases b).
Proof.
  intros (pre & post & E & Hb & Hn). destruct pre as [|x pre]; cbn [app] in E; injection E as E1 E2.
  - left. now subst.
  - right. subst x. split; [apply Hn; now left|]. exists pre, post. split; [exact E2|]. split; [exact Hb|]. intros b' Hb'. apply Hn. now right.
Qed.

(** [h] is the current state and [h0] the initial one; they agree on what the
    bases show under [name]. *)
Lemma inherit_func_spec h h0 f name bases :
  (forall b a, In b bases -> b name = Some a -> attr_doc h a = attr_doc h0 a) ->
  (forall g, g <> f -> inherit_func h f name bases g = h g) /\
  (forall b s, first_base_is (fun b => exists s, documents h0 name s b) bases b -> documents h0 name s b -> inherit_func h f name bases f = Some s) /\
  ((forall b s, In b bases -> ~ documents h0 name s b) -> inherit_func h f name bases f = h f).
Proof.
  induction bases as [|b0 bases IH]; intros Hh.
  - split; [reflexivity|]. split; [|reflexivity]. intros b s (pre & post & E & _). destruct pre; discriminate E.
  - cbn [inherit_func]. destruct IH as (I1 & I2 & I3); [intros b a Hb; apply Hh; now right|].
    assert (Sk : (forall s, ~ documents h0 name s b0) ->
      (forall g, g <> f -> inherit_func h f name bases g = h g) /\
      (forall b s, first_base_is (fun b => exists s, documents h0 name s b) (b0 :: bases) b -> documents h0 name s b -> inherit_func h f name bases f = Some s) /\
      ((forall b s, In b (b0 :: bases) -> ~ documents h0 name s b) -> inherit_func h f name bases f = h f)).
    { intros N. split; [exact I1|]. split.
      - intros b s Hf Hd. apply first_cons in Hf as [[-> [s' Hs']]|[_ Hf]]; [now destruct (N s')|]. now apply (I2 b).
      - intros H. apply I3. intros b s Hb. apply H. now right. }
    destruct (b0 name) as [a|] eqn:E0.
    2:{ apply Sk. intros s (a & E & _). congruence. }
    pose proof (Hh b0 a (or_introl eq_refl) E0) as Ha.
    destruct (truth a && negb (no_doc (attr_doc h a)))%bool eqn:C.
    + apply andb_true_iff in C as [C1 C2]. apply negb_true_iff, no_doc_false in C2. destruct C2 as [s0 [Es0 Ns0]].
      assert (Hd0 : documents h0 name s0 b0) by (exists a; rewrite <- Ha; auto).
      split; [|split].
      * intros g Hg. destruct (Nat.eqb_spec g f); [contradiction|reflexivity].
      * intros b s Hf Hd. rewrite Nat.eqb_refl. apply first_cons in Hf as [[-> _]|[N _]]; [|destruct N; now exists s0].
        destruct Hd as (a' & E' & _ & Es & _). rewrite E0 in E'. injection E' as <-. now rewrite Ha.
      * intros H. destruct (H b0 s0 (or_introl eq_refl) Hd0).
    + apply Sk. intros s (a' & E' & Ht & Es & Ns). rewrite E0 in E'. injection E' as <-. rewrite Ht in C. cbn [andb] in C. apply negb_false_iff, no_doc_true in C.
      apply C. exists s. rewrite Ha. auto.
Qed.

Lemma inherit_prop_spec h h0 g s d doc name bases :
  (forall b pg ps pd pdoc, In b bases -> b name = Some (Property (Some pg) ps pd pdoc) -> h pg = h0 pg) ->
  match inherit_prop h g s d doc name bases with
  | Ok a =>
    (forall b t, first_base_is (fun b => exists t, documents_prop h0 name t b) bases b -> documents_prop h0 name t b -> a = Property g s d (Some t)) /\
    ((forall b t, In b bases -> ~ documents_prop h0 name t b) -> a = Property g s d doc)
  | Err e => e = AttributeError
  end.
Proof.
  induction bases as [|b0 bases IH]; intros Hh; cbn [inherit_prop].
  - split; [|reflexivity]. intros b t (pre & post & E & _). destruct pre; discriminate E.
  - specialize (IH (fun b pg ps pd pdoc Hb => Hh b pg ps pd pdoc (or_intror Hb))).
    assert (Sk : (forall t, ~ documents_prop h0 name t b0) ->
      match inherit_prop h g s d doc name bases with
      | Ok a =>
        (forall b t, first_base_is (fun b => exists t, documents_prop h0 name t b) (b0 :: bases) b -> documents_prop h0 name t b -> a = Property g s d (Some t)) /\
        ((forall b t, In b (b0 :: bases) -> ~ documents_prop h0 name t b) -> a = Property g s d doc)
      | Err e => e = AttributeError
      end).
    { intros N. destruct (inherit_prop h g s d doc name bases) as [a|e]; [|exact IH]. destruct IH as [I1 I2]. split.
      - intros b t Hf Hd. apply first_cons in Hf as [[-> [t' Ht']]|[_ Hf]]; [now destruct (N t')|]. now apply (I1 b).
      - intros H. apply I2. intros b t Hb. apply H. now right. }
    destruct (b0 name) as [a0|] eqn:E0; [|apply Sk; intros t (pg & ps & pd & pdoc & E & _); congruence].
    destruct (truth a0) eqn:T0; [|apply Sk; intros t (pg & ps & pd & pdoc & E & _); rewrite E0 in E; injection E as ->; discriminate T0].
    destruct a0 as [f0|pg ps pd pdoc|t0 d0]; [reflexivity| |reflexivity].
    destruct (no_doc (fget_doc h pg)) eqn:N.
    + apply no_doc_true in N. apply Sk. intros t (pg' & ps' & pd' & pdoc' & E & Et & Nt). rewrite E0 in E. injection E as -> -> -> ->. cbn [fget_doc] in N.
      apply N. exists t. rewrite (Hh b0 pg' ps' pd' pdoc' (or_introl eq_refl) E0). auto.
    + apply no_doc_false in N. destruct N as [t0 [Et0 Nt0]]. destruct pg as [pg|]; [|discriminate Et0]. cbn [fget_doc] in *.
      pose proof (Hh b0 pg ps pd pdoc (or_introl eq_refl) E0) as Hp.
      assert (Hd0 : documents_prop h0 name t0 b0) by (exists pg, ps, pd, pdoc; rewrite <- Hp; auto). split.
      * intros b t Hf Hd. apply first_cons in Hf as [[-> _]|[Nd _]]; [|destruct Nd; now exists t0].
        destruct Hd as (pg' & ps' & pd' & pdoc' & E & Et & Nt). rewrite E0 in E. injection E as <- <- <- <-. rewrite Et0, <- Et, <- Hp, Et0. reflexivity.
      * intros H. destruct (H b0 t0 (or_introl eq_refl) Hd0).
Qed.

Lemma inherit_doc_spec h0 bases : forall items h h' items',
  separate items bases ->
  (forall f, In f (funcs items) -> h f = h0 f) ->
  (forall name g s d doc, In (name, Property (Some g) s d doc) items -> h g = h0 g) ->
  (forall name a b a' f, In (name, a) items -> In b bases -> b name = Some a' -> touches a' f -> h f = h0 f) ->
  inherit_doc h items bases = Ok (h', items') ->
  Forall2 (item_result h0 h' bases) items items' /\ forall g, ~ In g (funcs items) -> h' g = h g.
Proof.
  induction items as [|[name a] items IH]; intros h h' items' Hs H1 H2 H3 E; cbn [inherit_doc] in E.
  - injection E as <- <-. split; [constructor|reflexivity].
  - destruct Hs as (S1 & S2 & S3).
    match type of E with bind ?x _ = _ => destruct x as [[h1 a1]|e] eqn:Ea; [|discriminate E] end. cbn [bind] in E.
    destruct (inherit_doc h1 items bases) as [[h2 rest]|e] eqn:Er; [|discriminate E]. cbn [bind] in E. injection E as <- <-.
    assert (Sub : forall g, In g (funcs items) -> In g (funcs ((name, a) :: items))) by (intros g Hg; unfold funcs; cbn [flat_map]; apply in_or_app; now right).
    assert (Sep : separate items bases).
    { split; [|split].
      - unfold funcs in S1. cbn [flat_map] in S1. destruct a; cbn [snd app] in S1; [now apply NoDup_cons_iff in S1 as [_ S1]|exact S1|exact S1].
      - intros n g s d doc Hi Hg. apply (S2 n g s d doc); [now right|now apply Sub].
      - intros n x b a' f Hi Hb Hn Ht Hf. apply (S3 n x b a' f); auto; now right. }
    (* what the first item did *)
    assert (Step : (forall g, ~ (exists f, a = Func f /\ g = f) -> h1 g = h g) /\
      match a with
      | Func f => a1 = Func f /\ func_result h0 name bases (h0 f) (h1 f)
      | Property g s d doc => prop_result h0 name bases g s d doc a1 /\ h1 = h
      | Other t d => a1 = Other t d /\ h1 = h
      end).
    { destruct a as [f|g s d doc|t d].
      - assert (Ef : h f = h0 f) by (apply H1; unfold funcs; cbn; now left).
        assert (Hb : forall b a', In b bases -> b name = Some a' -> attr_doc h a' = attr_doc h0 a').
        { intros b a' Hb Hn. destruct a' as [f'|g' s' d' doc'|t' d']; cbn [attr_doc]; [|reflexivity|reflexivity]. apply (H3 name (Func f) b (Func f') f'); auto; [now left|reflexivity]. }
        pose proof (inherit_func_spec h h0 f name bases Hb) as (F1 & F2 & F3).
        destruct (no_doc (h f)) eqn:N; injection Ea as <- <-.
        + split; [intros g Hg; apply F1; intros ->; apply Hg; eauto|]. split; [reflexivity|]. apply no_doc_true in N. rewrite Ef in N. split; [intros Hd; contradiction|].
          intros _. split; [exact F2|]. intros Hn. now rewrite F3.
        + split; [reflexivity|]. split; [reflexivity|]. apply no_doc_false in N. rewrite Ef in N. split; [intros _; exact Ef|intros Hn; contradiction].
      - assert (Eg : fget_doc h g = fget_doc h0 g) by (destruct g as [g|]; [apply (H2 name g s d doc); now left|reflexivity]).
        destruct (no_doc (fget_doc h g)) eqn:N.
        + destruct (inherit_prop h g s d doc name bases) as [a'|e] eqn:Ep; [|discriminate Ea]. cbn [bind] in Ea. injection Ea as <- <-. split; [reflexivity|]. split; [|reflexivity].
          apply no_doc_true in N. rewrite Eg in N. split; [intros Hd; contradiction|]. intros _.
          pose proof (inherit_prop_spec h h0 g s d doc name bases) as P. rewrite Ep in P. apply P.
          intros b pg ps pd pdoc Hb Hn. apply (H3 name (Property g s d doc) b (Property (Some pg) ps pd pdoc) pg); auto; [now left|reflexivity].
        + injection Ea as <- <-. split; [reflexivity|]. split; [|reflexivity]. apply no_doc_false in N. rewrite Eg in N. split; [reflexivity|intros Hn; contradiction].
      - injection Ea as <- <-. auto. }
    destruct Step as [St1 St2].
    assert (Keep : forall g, (forall f, a = Func f -> g <> f) -> h1 g = h g) by (intros g Hg; apply St1; intros [f [Ef ->]]; now apply (Hg f)).
    destruct (IH h1 h2 rest Sep) as [R1 R2].
    + intros f Hf. rewrite Keep; [apply H1; now apply Sub|]. intros f' -> ->. unfold funcs in S1. cbn [flat_map snd app] in S1. apply NoDup_cons_iff in S1 as [S1 _]. now apply S1.
    + intros n g s d doc Hi. rewrite Keep; [apply (H2 n g s d doc); now right|]. intros f -> ->. apply (S2 n f s d doc); [now right|]. unfold funcs. cbn. now left.
    + intros n x b a' f Hi Hb Hn Ht. rewrite Keep; [apply (H3 n x b a' f); auto; now right|]. intros f' -> ->. apply (S3 n x b a' f'); auto; [now right|]. unfold funcs. cbn. now left.
    + exact Er.
    + split.
      * constructor; [|exact R1]. split; [reflexivity|]. cbn [fst snd]. destruct a as [f|g s d doc|t d].
        -- destruct St2 as [-> Fr]. split; [reflexivity|]. rewrite R2; [exact Fr|]. unfold funcs in S1. cbn [flat_map snd app] in S1. now apply NoDup_cons_iff in S1 as [S1 _].
        -- apply St2.
        -- apply St2.
      * intros g Hg. rewrite R2; [|intros Hi; apply Hg, Sub, Hi]. apply Keep. intros f -> ->. apply Hg. unfold funcs. cbn. now left.
Qed.

(** When [inherit_doc] returns, every function with documentation keeps it;
    one without has that of the first base class that documents the name, if
    there is one; a property whose getter has documentation is unchanged, one
    whose getter has none is replaced by a property with the same functions
    and the documentation of the first base class with a property of that name
    whose getter is documented, if there is one; names, order and all other
    attributes and functions are unchanged.
    Missing: a property documented otherwise than by its getter, see
    [C51_property_refuted], and properties that override something else, see
    [C51_raises]. *)
Theorem C51_inherit_partial :
  forall h items bases h' items', separate items bases -> inherit_doc h items bases = Ok (h', items') ->
    length items' = length items /\
    (forall i d, (i < length items)%nat -> item_result h h' bases (nth i items d) (nth i items' d)) /\
    (forall g, ~ In g (funcs items) -> h' g = h g).
Proof.
  intros h items bases h' items' Hs E. destruct (inherit_doc_spec h bases items h h' items' Hs) as [F G]; auto.
  split; [symmetry; clear -F; induction F; cbn; auto|]. split; [|exact G].
  intros i d. revert i. clear -F. induction F as [|x y l l' Hxy _ IH]; intros i Hi; [cbn in Hi; lia|]. destruct i as [|i]; [exact Hxy|]. cbn [nth]. apply IH. cbn in Hi. lia.
Qed.
Print Assumptions C51_inherit_partial.

(** The only exception is AttributeError; classes without undocumented
    properties never raise, and neither do classes whose bases have, under the
    names of properties, only properties (or false values). *)
Theorem C51_returns :
  forall h items bases,
    (forall e, inherit_doc h items bases = Err e -> e = AttributeError) /\
    ((forall name g s d doc b, In (name, Property g s d doc) items -> In b bases -> ~ not_a_property name b) ->
     exists r, inherit_doc h items bases = Ok r).
Proof.
  intros h items bases. revert h. induction items as [|[name a] items IH]; intros h.
  - split; [discriminate|]. intros _. eexists. reflexivity.
  - cbn [inherit_doc]. split.
    + intros e E. match type of E with bind ?x _ = _ => destruct x as [[h1 a1]|e1] eqn:Ea end; cbn [bind] in E.
      * destruct (inherit_doc h1 items bases) as [[h2 r]|e2] eqn:Er; cbn [bind] in E; [discriminate E|]. injection E as ->. now apply (proj1 (IH h1)).
      * injection E as ->. destruct a as [f|g s d doc|t d]; [destruct (no_doc _); discriminate Ea| |discriminate Ea].
        destruct (no_doc _); [|discriminate Ea]. destruct (inherit_prop h g s d doc name bases) as [a'|e'] eqn:Ep; cbn [bind] in Ea; [discriminate Ea|]. injection Ea as ->.
        pose proof (inherit_prop_spec h h g s d doc name bases) as P. rewrite Ep in P. apply P. reflexivity.
    + intros H. assert (Hr : forall h, exists r, inherit_doc h items bases = Ok r).
      { intros h1. apply IH. intros n g s d doc b Hi. apply (H n g s d doc). now right. }
      assert (Ha : exists h1 a1, match a with
        | Func f => if no_doc (h f) then Ok (inherit_func h f name bases, a) else Ok (h, a)
        | Property fget fset fdel doc => if no_doc (fget_doc h fget) then let! a := inherit_prop h fget fset fdel doc name bases in Ok (h, a) else Ok (h, a)
        | Other _ _ => Ok (h, a) end = Ok (h1, a1)).
      { destruct a as [f|g s d doc|t d]; [destruct (no_doc _); eauto| |eauto]. destruct (no_doc _); [|eauto].
        assert (exists a', inherit_prop h g s d doc name bases = Ok a') as [a' ->]; [|cbn [bind]; eauto].
        assert (Hb : forall b, In b bases -> ~ not_a_property name b) by (intros b Hb; apply (H name g s d doc b); [now left|exact Hb]).
        clear -Hb. induction bases as [|b bases IHb]; [cbn; eauto|]. cbn [inherit_prop].
        destruct (b name) as [a0|] eqn:E0; [|apply IHb; intros; apply Hb; now right]. destruct (truth a0) eqn:T; [|apply IHb; intros; apply Hb; now right].
        destruct a0 as [f|pg ps pd pdoc|t0 d0].
        - destruct (Hb b (or_introl eq_refl)). exists (Func f). repeat split; auto; discriminate.
        - destruct (no_doc _); [apply IHb; intros; apply Hb; now right|eauto].
        - destruct (Hb b (or_introl eq_refl)). exists (Other t0 d0). repeat split; auto; discriminate. }
      destruct Ha as (h1 & a1 & Ea). rewrite Ea. cbn [bind]. destruct (Hr h1) as [[h2 r] Er]. rewrite Er. cbn [bind]. eauto.
Qed.
Print Assumptions C51_returns.

(** A property that was given documentation of its own, as in
    [property(getter, doc='own')], loses it. *)
Theorem C51_property_refuted :
  exists h items bases h' items' g, separate items bases /\ inherit_doc h items bases = Ok (h', items') /\
    items = [("x", Property (Some g) None None (Some "own"))]%string /\ items' = [("x", Property (Some g) None None (Some "parent"))]%string.
Proof.
  exists (fun a => if Nat.eqb a 7 then Some "parent"%string else None), [("x", Property (Some 1) None None (Some "own"))]%string,
    [fun name => if String.eqb name "x" then Some (Property (Some 7) None None (Some "parent"%string)) else None].
  eexists. eexists. exists 1%nat. split; [|split; [reflexivity|split; reflexivity]].
  split; [constructor|]. split; intros; intros [].
Qed.
Print Assumptions C51_property_refuted.

(** A class whose property without documentation overrides a method cannot be
    decorated. *)
Theorem C51_raises :
  forall h name g s d doc items bases b post, bases = b :: post -> ~ documented (fget_doc h g) -> not_a_property name b ->
    inherit_doc h ((name, Property g s d doc) :: items) bases = Err AttributeError.
Proof.
  intros h name g s d doc items bases b post -> Hd (a & E & T & Ha). cbn [inherit_doc inherit_prop]. apply no_doc_true in Hd. rewrite Hd, E, T.
  destruct a as [f|pg ps pd pdoc|t0 d0]; [reflexivity| |reflexivity]. now destruct (Ha pg ps pd pdoc).
Qed.
Print Assumptions C51_raises.

(** Two bases; [f] is documented by the second only, [g] has documentation,
    [p] is a property. *)
Definition ex_heap : docs := fun a => nth a [None; Some "own g"; None; None; Some "second f"; Some "second p"]%string None.
Definition ex_bases : list base :=
  [fun n => if String.eqb n "f" then Some (Func 3) else None;
   fun n => if String.eqb n "f" then Some (Func 4) else if String.eqb n "p" then Some (Property (Some 5) None None (Some "second p"%string)) else
            if String.eqb n "g" then Some (Other true (Some "other"%string)) else None].
Definition ex_items : list (string * attr) := [("f", Func 0); ("g", Func 1); ("p", Property (Some 2) None None None); ("z", Other false None)]%string.
Example C51_ex :
  separate ex_items ex_bases /\
  exists h', inherit_doc ex_heap ex_items ex_bases = Ok (h', [("f", Func 0); ("g", Func 1); ("p", Property (Some 2) None None (Some "second p")); ("z", Other false None)]%string) /\
    h' 0 = Some "second f"%string /\ h' 1 = Some "own g"%string /\ h' 2 = None.
Proof.
  split.
  - split; [repeat constructor; cbn; intuition discriminate|]. split.
    + intros n g s d doc Hi. cbn in Hi. destruct Hi as [E|[E|[E|[E|[]]]]]; try discriminate E. injection E as <- <- <- <- <-. cbn. intuition discriminate.
    + intros n a b a' f _ Hb Hn Ht. cbn in Hb. destruct Hb as [<-|[<-|[]]]; cbv beta in Hn.
      * destruct (String.eqb n "f"); [|discriminate Hn]. injection Hn as <-. cbn in Ht. subst f. cbn. intuition discriminate.
      * destruct (String.eqb n "f"); [injection Hn as <-; cbn in Ht; subst f; cbn; intuition discriminate|].
        destruct (String.eqb n "p"); [injection Hn as <-; cbn in Ht; subst f; cbn; intuition discriminate|].
        destruct (String.eqb n "g"); [injection Hn as <-; destruct Ht|discriminate Hn].
  - eexists. split; [reflexivity|]. repeat split; reflexivity.
Qed.
