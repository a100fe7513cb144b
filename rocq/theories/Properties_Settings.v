(** Properties of the settings of the optimiser and of the options of
    [optimize]. *)

From Coq Require Import Reals List Arith ZArith Lia Lra Bool String.
From Verif Require Import Base NDArray Model_Opt Spec_Opt Proofs_Opt Properties_Opt Model_Settings.
Import ListNotations.
Open Scope R_scope.

(** ** What the settings should be *)

(** [v] is what the dictionary holds under [k] *)
Definition holds (d : settings) (k : string) (v : sval) : Prop := In (k, v) d.

(** A dictionary has each key once. *)
Definition dict (d : settings) : Prop := NoDup (map fst d).

Definition given (kwargs : settings) (k : string) : Prop := exists v, In (k, v) kwargs.

(** ** Lemmas on dictionaries *)

Lemma get_in d k v : s_get d k = Some v -> In (k, v) d.
Proof.
  induction d as [|[k' v'] d IH]; cbn; [discriminate|]. destruct (String.eqb_spec k' k) as [->|N]; [intros [= ->]; now left|right; auto].
Qed.

Lemma in_get d k v : dict d -> In (k, v) d -> s_get d k = Some v.
Proof.
  unfold dict. induction d as [|[k' v'] d IH]; cbn; [easy|]. intros D H. inversion D as [|? ? D1 D2]; subst.
  destruct H as [[= -> ->]|H]; [now rewrite String.eqb_refl|].
  destruct (String.eqb_spec k' k) as [->|N]; [|auto]. destruct D1. change k with (fst (k, v)). now apply in_map.
Qed.

Lemma get_none d k : s_get d k = None <-> ~ In k (map fst d).
Proof.
  induction d as [|[k' v'] d IH]; cbn; [now split|]. destruct (String.eqb_spec k' k) as [->|N]; [split; [discriminate|intros H; destruct H; now left]|].
  rewrite IH. tauto.
Qed.

Lemma get_put d k v j : s_get (s_put d k v) j = if String.eqb k j then Some v else s_get d j.
Proof.
  induction d as [|[k' v'] d IH]; cbn; [reflexivity|].
  destruct (String.eqb_spec k' k) as [->|N]; cbn; [now destruct (String.eqb k j)|]. rewrite IH.
  destruct (String.eqb_spec k' j) as [->|N2]; [|reflexivity]. destruct (String.eqb_spec k j) as [->|]; [now destruct N|reflexivity].
Qed.

Lemma put_keys d k v j : In j (map fst (s_put d k v)) <-> In j (map fst d) \/ j = k.
Proof.
  induction d as [|[k' v'] d IH]; cbn; [intuition|]. destruct (String.eqb_spec k' k) as [->|N]; cbn; [intuition|rewrite IH; intuition].
Qed.

Lemma put_dict d k v : dict d -> dict (s_put d k v).
Proof.
  unfold dict. induction d as [|[k' v'] d IH]; cbn; intros D; [repeat constructor; easy|]. inversion D as [|? ? D1 D2]; subst.
  destruct (String.eqb_spec k' k) as [->|N]; cbn; constructor; auto. rewrite put_keys. intros [H| ->]; auto.
Qed.

Lemma update_dict kw : forall d, dict d -> dict (s_update d kw).
Proof. induction kw as [|[k v] kw IH]; intros d D; cbn; [exact D|]. apply IH. now apply put_dict. Qed.

Lemma get_update kw : forall d j, dict kw -> s_get (s_update d kw) j = match s_get kw j with Some v => Some v | None => s_get d j end.
Proof.
  induction kw as [|[k v] kw IH]; intros d j D; [reflexivity|]. inversion D as [|? ? D1 D2]; subst.
  unfold s_update. cbn [fold_left fst snd]. fold (s_update (s_put d k v) kw). rewrite IH, get_put by exact D2. cbn [s_get].
  destruct (String.eqb_spec k j) as [->|N]; [|reflexivity]. cbn in D1. apply get_none in D1. now rewrite D1.
Qed.

Lemma update_holds d kw j v : dict d -> dict kw -> (holds (s_update d kw) j v <-> holds kw j v \/ (~ given kw j /\ holds d j v)).
Proof.
  intros D K. pose proof (update_dict kw d D) as U. unfold holds, given. split.
  - intros H. apply (in_get _ _ _ U) in H. rewrite get_update in H by exact K. destruct (s_get kw j) as [w|] eqn:E.
    + injection H as ->. left. now apply get_in.
    + right. split; [|now apply get_in]. intros [w W]. apply in_get in W; [congruence|exact K].
  - intros H. apply get_in. rewrite get_update by exact K. destruct H as [H|[N H]].
    + now rewrite (in_get _ _ _ K H).
    + destruct (s_get kw j) as [w|] eqn:E; [destruct N; exists w; now apply get_in|]. now apply in_get.
Qed.

Lemma defaults_dict : dict ada_defaults.
Proof. unfold dict, ada_defaults. cbn. repeat constructor; cbn; intuition discriminate. Qed.

Lemma opt_defaults_dict : dict optimize_defaults.
Proof. unfold dict, optimize_defaults. cbn. repeat constructor; cbn; intuition discriminate. Qed.

Lemma s_in_spec l k : s_in l k = true <-> In k l.
Proof.
  unfold s_in. rewrite existsb_exists. split; [intros (x & H & E); apply String.eqb_eq in E; now subst|].
  intros H. exists k. split; [exact H|apply String.eqb_refl].
Qed.

(** ** C102: the settings *)

(** Whatever keyword arguments are given, the optimiser's settings are a
    dictionary that holds each given value under its name, and under every name
    not given the documented default, nothing else. *)
Theorem C102_settings :
  forall kwargs, dict kwargs ->
    dict (ada_init kwargs) /\
    forall k v, holds (ada_init kwargs) k v <->
      holds kwargs k v \/
      (~ given kwargs k /\
       ((k, v) = ("step_rate", SInt 1) \/ (k, v) = ("decay", SNum (9 / 10)) \/ (k, v) = ("momentum", SNum (1 / 2)) \/
        (k, v) = ("offset", SNum (1 / 10000)) \/ (k, v) = ("max_it", SInt 100) \/ (k, v) = ("verbosity", SInt 0) \/
        (k, v) = ("min_grad_ratio", SNum (1 / 10)) \/ (k, v) = ("permitted_drops", SInt 5) \/ (k, v) = ("callback", SObj 0)))%string.
Proof.
  intros kw K. split; [apply update_dict, defaults_dict|]. intros k v. unfold ada_init.
  rewrite update_holds by (exact K || exact defaults_dict). unfold holds at 2, ada_defaults, noop. cbn [In]. intuition.
Qed.
Print Assumptions C102_settings.

(** The names that are understood *)
Definition control (k : string) : Prop :=
  (k = "verbosity" \/ k = "min_grad_ratio" \/ k = "max_it" \/ k = "permitted_drops" \/ k = "callback")%string.
Definition step_setting (k : string) : Prop :=
  (k = "step_rate" \/ k = "decay" \/ k = "momentum" \/ k = "offset" \/ k = "args")%string.

Lemma exclude_spec k : s_in exclude k = true <-> control k.
Proof. rewrite s_in_spec. unfold exclude, control. cbn [In]. intuition. Qed.

Lemma names_spec k : s_in climin_names k = true <-> step_setting k.
Proof. rewrite s_in_spec. unfold climin_names, step_setting. cbn [In]. intuition. Qed.

Lemma defaults_known k v : holds ada_defaults k v -> control k \/ step_setting k.
Proof.
  unfold holds, ada_defaults, control, step_setting. cbn [In]. intros H.
  repeat (destruct H as [H|H]; [injection H as <- _; tauto|]). easy.
Qed.

Lemma control_step k : control k -> step_setting k -> False.
Proof. unfold control, step_setting. intros C S. repeat destruct C as [C|C]; subst k; intuition discriminate. Qed.

(** The step rule is handed every setting of its own and no other; a name that
    is not understood is not ignored but raises TypeError, and nothing else
    does. *)
Theorem C102_handed :
  forall kwargs, dict kwargs ->
    ((forall k, given kwargs k -> control k \/ step_setting k) ->
     exists d, prepare_adadelta (ada_init kwargs) = Ok d /\
       forall k v, holds d k v <-> step_setting k /\ holds (ada_init kwargs) k v) /\
    ((exists k, given kwargs k /\ ~ control k /\ ~ step_setting k) ->
     prepare_adadelta (ada_init kwargs) = Err TypeError).
Proof.
  intros kw K. pose proof (fun j v => update_holds ada_defaults kw j v defaults_dict K) as U. fold (ada_init kw) in U. split.
  - intros A. unfold prepare_adadelta. cbv zeta.
    assert (KN : forall k v, holds (ada_init kw) k v -> control k \/ step_setting k).
    { intros k v H. apply U in H. destruct H as [H|[_ H]]; [apply A; now exists v|now apply defaults_known in H]. }
    match goal with |- context [if ?b then _ else _] => destruct b eqn:E end.
    + eexists. split; [reflexivity|]. intros k v. unfold holds at 1. rewrite filter_In. cbn [fst]. split.
      * intros [H N]. split; [|exact H]. destruct (KN k v H) as [C|S]; [|exact S]. apply exclude_spec in C. rewrite C in N. discriminate.
      * intros [S H]. split; [exact H|]. destruct (s_in exclude k) eqn:X; [|reflexivity]. apply exclude_spec in X. destruct (control_step k X S).
    + exfalso. apply Bool.not_true_iff_false in E. apply E. apply forallb_forall. intros [k v] H. apply filter_In in H. destruct H as [H N].
      cbn [fst] in *. apply names_spec. destruct (KN k v H) as [C|S]; [|exact S]. apply exclude_spec in C. rewrite C in N. discriminate.
  - intros (k & [v G] & NC & NS). unfold prepare_adadelta. cbv zeta.
    match goal with |- context [if ?b then _ else _] => destruct b eqn:E end; [|reflexivity]. exfalso.
    rewrite forallb_forall in E. apply NS, names_spec. apply (E (k, v)). apply filter_In. split; [apply U; now left|].
    cbn [fst]. destruct (s_in exclude k) eqn:X; [|reflexivity]. apply exclude_spec in X. contradiction.
Qed.
Print Assumptions C102_handed.

(** A run with given or default settings: it ends after the first iteration at
    which it is to stop under them, with [max_it] at least 1 after at most
    [max_it] iterations, 100 unless given. *)
Theorem C102_run :
  forall kwargs n r p grad norm, dict kwargs ->
    (forall k, given kwargs k -> control k \/ step_setting k) ->
    (holds kwargs "max_it" (SInt n) \/ (~ given kwargs "max_it" /\ n = 100%Z)) ->
    (holds kwargs "min_grad_ratio" (SNum r) \/ (~ given kwargs "min_grad_ratio" /\ r = 1 / 10)) ->
    (holds kwargs "permitted_drops" (SInt p) \/ (~ given kwargs "permitted_drops" /\ p = 5%Z)) ->
    (forall i, (1 <= i)%nat -> is_max_abs (grad i) (norm i)) ->
    exists k, (1 <= k)%nat /\ stop (mk_ada n r p) norm k /\ (forall j, (1 <= j < k)%nat -> ~ stop (mk_ada n r p) norm j) /\
      ((1 <= n)%Z -> (Z.of_nat k <= n)%Z) /\
      (forall fuel, (k <= fuel)%nat -> ada_run kwargs grad fuel = Some (ada_trace k, Ok tt)).
Proof.
  intros kw n r p grad norm K A Hn Hr Hp Hg. destruct (C41_stops_partial (mk_ada n r p) grad norm Hg) as (k & K1 & S & N & M & _ & F & _).
  exists k. split; [exact K1|]. split; [exact S|]. split; [exact N|]. split; [exact M|]. intros fuel Hf. rewrite <- (F fuel Hf).
  pose proof (update_dict kw _ defaults_dict) as D. pose proof (fun j v => update_holds ada_defaults kw j v defaults_dict K) as U.
  destruct (proj1 (C102_handed kw K) A) as (d & E & _). unfold ada_run. cbv zeta. rewrite E. unfold read_ada.
  assert (G : forall k v, holds kw k v \/ (~ given kw k /\ holds ada_defaults k v) -> s_get (ada_init kw) k = Some v).
  { intros j v H. apply in_get; [exact D|]. now apply U. }
  rewrite (G "max_it"%string (SInt n)), (G "min_grad_ratio"%string (SNum r)), (G "permitted_drops"%string (SInt p)); [reflexivity| | |].
  - destruct Hp as [H|[H ->]]; [now left|right; split; [exact H|unfold holds, ada_defaults; cbn [In]; tauto]].
  - destruct Hr as [H|[H ->]]; [now left|right; split; [exact H|unfold holds, ada_defaults; cbn [In]; tauto]].
  - destruct Hn as [H|[H ->]]; [now left|right; split; [exact H|unfold holds, ada_defaults; cbn [In]; tauto]].
Qed.
Print Assumptions C102_run.

(** With a name that is not understood, the run raises before any iteration. *)
Theorem C102_misspelt :
  forall kwargs k grad fuel, dict kwargs -> given kwargs k -> ~ control k -> ~ step_setting k ->
    ada_run kwargs grad fuel = Some ([], Err TypeError).
Proof.
  intros kw k grad fuel K G NC NS. unfold ada_run. cbv zeta. rewrite (proj2 (C102_handed kw K)); [reflexivity|now exists k].
Qed.
Print Assumptions C102_misspelt.

(** [optimize] hands every option it is given on, and defaults for the others. *)
Theorem C102_optimize :
  forall kwargs, dict kwargs ->
    dict (optimize_options kwargs) /\
    forall k v, holds (optimize_options kwargs) k v <->
      holds kwargs k v \/
      (~ given kwargs k /\
       ((k, v) = ("optimizer", SNone) \/ (k, v) = ("start", SNone) \/ (k, v) = ("messages", SBool false) \/
        (k, v) = ("max_iters", SInt 1) \/ (k, v) = ("ipython_notebook", SBool true) \/ (k, v) = ("clear_after_finish", SBool false)))%string.
Proof.
  intros kw K. split; [apply update_dict, opt_defaults_dict|]. intros k v. unfold optimize_options.
  rewrite update_holds by (exact K || exact opt_defaults_dict). unfold holds at 2, optimize_defaults. cbn [In]. intuition.
Qed.
Print Assumptions C102_optimize.

(** ** Instances *)

(** [AdaDelta(max_it=2, momentum=0)] on a constant gradient of two entries. *)
Example C102_run_ex :
  let kw := [("max_it", SInt 2); ("momentum", SInt 0)]%string in
  dict kw /\ prepare_adadelta (ada_init kw) = Ok [("step_rate", SInt 1); ("decay", SNum (9 / 10)); ("momentum", SInt 0); ("offset", SNum (1 / 10000))]%string /\
  exists k, (1 <= k <= 2)%nat /\ forall fuel, (k <= fuel)%nat -> ada_run kw (fun _ => [1; -2]) fuel = Some (ada_trace k, Ok tt).
Proof.
  cbv zeta. assert (D : dict [("max_it", SInt 2); ("momentum", SInt 0)]%string) by (unfold dict; cbn; repeat constructor; cbn; intuition discriminate).
  split; [exact D|]. split; [reflexivity|].
  destruct (C102_run _ 2 (1 / 10) 5 (fun _ => [1; -2]) (fun _ => 2) D) as (k & K1 & _ & _ & M & F).
  - intros k [v H]. unfold control, step_setting. cbn in H. destruct H as [[= <- _]|[[= <- _]|[]]]; tauto.
  - left. unfold holds. cbn. tauto.
  - right. split; [|reflexivity]. intros [v H]. cbn in H. destruct H as [[=]|[[=]|[]]].
  - right. split; [|reflexivity]. intros [v H]. cbn in H. destruct H as [[=]|[[=]|[]]].
  - intros i _. split.
    + intros x [<-|[<-|[]]]; apply Rabs_le; lra.
    + exists (-2). split; [cbn; tauto|]. rewrite Rabs_left; lra.
  - exists k. split; [|exact F]. specialize (M ltac:(lia)). lia.
Qed.

(** [AdaDelta(max_iter=2)] raises at the run. *)
Example C102_misspelt_ex : ada_run [("max_iter", SInt 2)]%string (fun _ => [1; -2]) 3 = Some ([], Err TypeError).
Proof. reflexivity. Qed.
