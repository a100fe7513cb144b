(** Proofs about priors and the objective. *)

From Coq Require Import Reals List Arith Lia Lra Bool.
From Coquelicot Require Import Coquelicot.
From Verif Require Import Base Model_Prior Spec_Prior.
Import ListNotations.
Open Scope R_scope.

(** ** Log densities *)

Lemma exp_pos_neq x : exp x <> 0.
Proof. pose proof (exp_pos x). lra. Qed.

Lemma ln_quot a b : 0 < a -> 0 < b -> ln (a / b) = ln a - ln b.
Proof. intros Ha Hb. unfold Rdiv. rewrite ln_mult by auto using Rinv_0_lt_compat. rewrite ln_Rinv by exact Hb. ring. Qed.
Lemma lnpdf_density gammaln G p x : valid p -> in_domain p x -> (forall a, 0 < a -> 0 < G a /\ gammaln a = ln (G a)) ->
  0 < density G p x /\ lnpdf gammaln p x = ln (density G p x).
Proof.
  intros Hv Hd HG. pose proof PI_RGT_0 as Hpi. destruct p as [mu var|a b|a b|b]; cbn [valid in_domain] in *; cbn [lnpdf density].
  - assert (S0 : 0 < 2 * PI * var) by (apply Rmult_lt_0_compat; [apply Rmult_lt_0_compat; lra|lra]). pose proof (sqrt_lt_R0 _ S0) as S1. split; [apply Rdiv_lt_0_compat; [apply exp_pos|exact S1]|].
    rewrite (ln_quot (exp _)) by auto using exp_pos. rewrite ln_exp.
    assert (E : ln (sqrt (2 * PI * var)) = 1 / 2 * ln (2 * PI * var)).
    { rewrite <- Rpower_sqrt by exact S0. unfold Rpower. rewrite ln_exp. field. }
    rewrite E. field. lra.
  - destruct Hv as [Ha Hb]. destruct (HG a Ha) as [G0 ->]. unfold Rpower.
    assert (P1 : 0 < exp (a * ln b) / G a) by (apply Rdiv_lt_0_compat; [apply exp_pos|exact G0]).
    split; [apply Rmult_lt_0_compat; [apply Rmult_lt_0_compat|]; auto using exp_pos|].
    rewrite (ln_mult (_ * _)), (ln_mult (_ / _)) by auto using exp_pos, Rmult_lt_0_compat. rewrite ln_quot by auto using exp_pos. rewrite !ln_exp. ring.
  - destruct Hv as [Ha Hb]. destruct (HG a Ha) as [G0 ->]. unfold Rpower.
    assert (P1 : 0 < exp (a * ln b) / G a) by (apply Rdiv_lt_0_compat; [apply exp_pos|exact G0]).
    split; [apply Rmult_lt_0_compat; [apply Rmult_lt_0_compat|]; auto using exp_pos|].
    rewrite (ln_mult (_ * _)), (ln_mult (_ / _)) by auto using exp_pos, Rmult_lt_0_compat. rewrite ln_quot by auto using exp_pos. rewrite !ln_exp. field. lra.
  - split; [apply Rdiv_lt_0_compat; [apply exp_pos|exact Hv]|].
    rewrite ln_quot by auto using exp_pos. rewrite ln_exp. field. lra.
Qed.

(** The derivative of [lnpdf] at one point. *)
Definition dlnpdf (p : prior) (x : R) : R :=
  match p with
  | Gaussian mu var => - (x - mu) / var
  | Gamma a b => (a - 1) / x - b
  | InverseGamma a b => - (a + 1) / x + b / (x * x)
  | HalfLaplace b => - 1 / b
  end.
Lemma dlnpdf_ok gammaln p x : valid p -> in_domain p x -> is_derive (lnpdf gammaln p) x (dlnpdf p x).
Proof.
  intros Hv Hd. destruct p as [mu var|a b|a b|b]; cbn [valid in_domain] in *; cbn [dlnpdf]; unfold lnpdf.
  - auto_derive; [lra|]. field. lra.
  - auto_derive; [lra|]. field. lra.
  - auto_derive; [lra|]. field. lra.
  - auto_derive; [lra|]. field. lra.
Qed.

(** ** Index lists *)

Lemma lsum_cons x l : lsum (x :: l) = x + lsum l.
Proof. reflexivity. Qed.

Definition pairs {A} (l : list (A * list nat)) : list (A * nat) := flat_map (fun q => map (pair (fst q)) (snd q)) l.
Lemma pairs_snd {A} (l : list (A * list nat)) : map snd (pairs l) = flat_map snd l.
Proof. unfold pairs. induction l as [|q l IH]; [reflexivity|]. cbn [flat_map]. rewrite map_app, IH, map_map. cbn [snd]. now rewrite map_id. Qed.
Lemma pairs_In {A} (l : list (A * list nat)) a i : In (a, i) (pairs l) <-> exists idx, In (a, idx) l /\ In i idx.
Proof.
  unfold pairs. rewrite in_flat_map. split.
  - intros [[a' idx] [H1 H2]]. apply in_map_iff in H2 as [j [E Hj]]. cbn [fst snd] in *. injection E as -> ->. eauto.
  - intros [idx [H1 H2]]. exists (a, idx). split; [exact H1|]. apply in_map_iff. exists i. auto.
Qed.
Lemma lsum_flat {A B} (f : B -> R) (g : A -> list B) l : lsum (map f (flat_map g l)) = lsum (map (fun a => lsum (map f (g a))) l).
Proof. induction l as [|a l IH]; [reflexivity|]. cbn [flat_map map]. rewrite map_app, lsum_app, IH. reflexivity. Qed.

(** The value attached to index [k]. *)
Definition at_idx {A} (f : A -> R) (l : list (A * nat)) (k : nat) : R := lsum (map (fun q => if Nat.eqb (snd q) k then f (fst q) else 0) l).
Lemma at_idx_none {A} (f : A -> R) l k : ~ In k (map snd l) -> at_idx f l k = 0.
Proof.
  unfold at_idx. induction l as [|[a i] l IH]; intros H; [reflexivity|]. cbn [map lsum fold_right fst snd] in *. unfold lsum in *. cbn [fold_right].
  destruct (Nat.eqb_spec i k) as [->|_]; [destruct H; now left|]. rewrite IH by (intros H'; apply H; now right). lra.
Qed.
Lemma at_idx_in {A} (f : A -> R) l a k : NoDup (map snd l) -> In (a, k) l -> at_idx f l k = f a.
Proof.
  unfold at_idx. induction l as [|[a' i] l IH]; intros N H; [destruct H|]. cbn [map snd] in N. apply NoDup_cons_iff in N as [N1 N2]. cbn [map fst snd]. unfold lsum in *. cbn [fold_right].
  destruct H as [E|H].
  - injection E as -> ->. rewrite Nat.eqb_refl. change (fold_right Rplus 0 _) with (at_idx f l k). rewrite at_idx_none by exact N1. lra.
  - destruct (Nat.eqb_spec i k) as [->|_]; [destruct N1; apply in_map_iff; exists (a, k); auto|]. rewrite IH by auto. lra.
Qed.

(** ** The fold of np.put *)

Lemma vset_length a i x : length (vset a i x) = length a.
Proof. apply tab_length. Qed.
Lemma vget_vset a i x k : (k < length a)%nat -> vget (vset a i x) k = if Nat.eqb k i then x else vget a k.
Proof. intros H. unfold vset. now rewrite vget_tab. Qed.

Lemma np_put_gen (g : nat -> R) (v : vec) (idx : list nat) : forall off a,
  (forall j, (j < length idx)%nat -> vget v ((off + j) mod length v) = g (nth j idx 0%nat)) ->
  fold_left (fun a p => vset a (snd p) (vget v (fst p mod length v))) (combine (seq off (length idx)) idx) a
  = fold_left (fun a i => vset a i (g i)) idx a.
Proof.
  induction idx as [|i idx IH]; intros off a H; [reflexivity|]. cbn [length seq combine fold_left fst snd].
  pose proof (H 0%nat ltac:(cbn; lia)) as H0. rewrite Nat.add_0_r in H0. cbn [nth] in H0. rewrite H0. apply IH.
  intros j Hj. replace (S off + j)%nat with (off + S j)%nat by lia. apply (H (S j)). cbn [length]. lia.
Qed.
Lemma np_put_prior p th idx a : np_put a idx (lnpdf_grad p (take th idx)) = fold_left (fun a i => vset a i (dlnpdf p (vget th i))) idx a.
Proof.
  unfold np_put. apply (np_put_gen (fun i => dlnpdf p (vget th i))). intros j Hj. rewrite Nat.add_0_l.
  assert (G : forall f : R -> R, vget (map f (take th idx)) (j mod length (map f (take th idx))) = f (vget th (nth j idx 0%nat))).
  { intros f. unfold take. rewrite !map_length, Nat.mod_small by exact Hj. unfold vget at 1. rewrite map_map.
    rewrite (nth_indep _ _ (f (vget th 0%nat))) by (now rewrite map_length). now rewrite (map_nth (fun i => f (vget th i))). }
  destruct p; cbn [lnpdf_grad dlnpdf]; try apply G. cbn [length]. now rewrite Nat.mod_1_r.
Qed.

Lemma put_fold {A} (h : A -> nat -> R) (l : list (A * nat)) : forall a, 
  length (fold_left (fun a q => vset a (snd q) (h (fst q) (snd q))) l a) = length a /\
  forall k, (k < length a)%nat -> NoDup (map snd l) ->
    vget (fold_left (fun a q => vset a (snd q) (h (fst q) (snd q))) l a) k =
    if mem k (map snd l) then at_idx (fun p => h p k) l k else vget a k.
Proof.
  induction l as [|[p i] l IH]; intros a; [split; reflexivity|]. cbn [fold_left map fst snd].
  destruct (IH (vset a i (h p i))) as [I1 I2]. split; [rewrite I1; apply vset_length|].
  intros k Hk N. apply NoDup_cons_iff in N as [N1 N2]. rewrite I2 by (auto; now rewrite vset_length).
  unfold mem, at_idx. cbn [existsb map fst snd]. unfold lsum. cbn [fold_right]. fold (mem k (map snd l)).
  rewrite (Nat.eqb_sym k i). rewrite vget_vset by exact Hk. rewrite (Nat.eqb_sym k i).
  change (fold_right Rplus 0 _) with (at_idx (fun p => h p k) l k).
  destruct (Nat.eqb_spec i k) as [->|Ne]; cbn [orb].
  - assert (M : mem k (map snd l) = false).
    { apply not_true_is_false. intros M. apply existsb_exists in M as [x [Hx E]]. apply Nat.eqb_eq in E. now subst. }
    rewrite M. rewrite at_idx_none by exact N1. lra.
  - destruct (mem k (map snd l)); lra.
Qed.

(** ** The objective *)

Definition lj_of (c : constr) : R -> R := match c with Transformation lj _ => lj | Fixed => fun _ => 0 end.
Definition ljg_of (c : constr) : R -> R := match c with Transformation _ ljg => ljg | Fixed => fun _ => 0 end.

Lemma mem_In k l : mem k l = true <-> In k l.
Proof.
  unfold mem. rewrite existsb_exists. split.
  - intros [x [Hx E]]. apply Nat.eqb_eq in E. now subst.
  - intros H. exists k. split; [exact H|apply Nat.eqb_refl].
Qed.
Lemma size0 {A} (l : list (A * list nat)) : pio_size l = 0%nat -> flat_map snd l = [] /\ pairs l = [].
Proof.
  unfold pio_size, pairs. induction l as [|[a idx] l IH]; [split; reflexivity|]. cbn [map list_sum fold_right snd flat_map fst]. unfold list_sum. cbn [fold_right].
  intros H. destruct idx as [|i idx]; [|cbn in H; discriminate H]. destruct IH as [I1 I2]; [exact H|]. rewrite I1, I2. split; reflexivity.
Qed.
Lemma lsum_filter {A} (f : A -> R) p l : lsum (map f (filter p l)) = lsum (map (fun x => if p x then f x else 0) l).
Proof.
  induction l as [|x l IH]; [reflexivity|]. cbn [filter map]. unfold lsum in *. cbn [fold_right]. destruct (p x); cbn [map fold_right]; rewrite IH; lra.
Qed.

Section Objective.
  Variable gammaln : R -> R.

  Lemma log_prior_pairs s : log_prior gammaln s =
    lsum (map (fun q => lnpdf gammaln (fst q) (vget (theta s) (snd q))) (pairs (priors s))) +
    lsum (map (fun q => (if mem (snd q) (flat_map snd (priors s)) then lj_of (fst q) else fun _ => 0) (vget (theta s) (snd q))) (pairs (constraints s))).
  Proof.
    unfold log_prior. destruct (Nat.eqb_spec (pio_size (priors s)) 0) as [E|_].
    - destruct (size0 _ E) as [E1 E2]. rewrite E1, E2. cbn [mem existsb map]. unfold lsum at 1. cbn [fold_right].
      rewrite Rplus_0_l. induction (pairs (constraints s)) as [|q l IH]; [reflexivity|]. cbn [map]. unfold lsum in *. cbn [fold_right]. rewrite <- IH. lra.
    - f_equal.
      + unfold pairs. rewrite lsum_flat. apply f_equal, map_ext. intros q. unfold take. now rewrite !map_map.
      + set (IP := flat_map snd (priors s)). unfold pairs. rewrite lsum_flat.
        enough (G : forall l a, fold_left (fun acc c => match fst c with
            | Transformation lj _ => acc + lsum (map (fun i => lj (vget (theta s) i)) (filter (fun i => mem i IP) (snd c)))
            | Fixed => acc end) l a =
          a + lsum (map (fun q => lsum (map (fun q0 => (if mem (snd q0) IP then lj_of (fst q0) else fun _ => 0) (vget (theta s) (snd q0))) (map (pair (fst q)) (snd q)))) l)) by (rewrite G; lra).
        induction l as [|[c idx] l IH]; intros a; [cbn; unfold lsum; cbn; lra|]. cbn [fold_left map fst snd].
        rewrite IH, lsum_cons.
        rewrite <- Rplus_assoc. f_equal. rewrite map_map. cbn [fst snd]. destruct c as [lj ljg|].
        * rewrite lsum_filter. f_equal. apply f_equal, map_ext. intros i. now destruct (mem i IP).
        * symmetry. replace (map _ idx) with (map (fun _ : nat => 0) idx) by (apply map_ext; intros i; now destruct (mem i IP)).
          enough (lsum (map (fun _ : nat => 0) idx) = 0) by lra. induction idx as [|i idx IHi]; [reflexivity|]. cbn [map]. unfold lsum in *. cbn [fold_right]. lra.
  Qed.

  Lemma vget_with s k t i : (k < length (theta s))%nat -> (i < length (theta s))%nat -> vget (theta (with_theta s k t)) i = if Nat.eqb i k then t else vget (theta s) i.
  Proof. intros Hk Hi. cbn [with_theta theta]. now rewrite vget_tab. Qed.

  Lemma derive_pairs {A} s k (f : A -> nat -> R -> R) (d : A -> R) (l : list (A * nat)) :
    (k < length (theta s))%nat -> (forall i, In i (map snd l) -> (i < length (theta s))%nat) ->
    (forall a, In (a, k) l -> is_derive (f a k) (vget (theta s) k) (d a)) ->
    is_derive (fun t => lsum (map (fun q => f (fst q) (snd q) (vget (theta (with_theta s k t)) (snd q))) l)) (vget (theta s) k) (at_idx d l k).
  Proof.
    intros Hk. induction l as [|[a i] l IH]; intros Hr Hd.
    - unfold at_idx, lsum. cbn [map fold_right]. apply (is_derive_const 0).
    - unfold at_idx. cbn [map fst snd]. unfold lsum. cbn [fold_right].
      apply (is_derive_plus (fun t => f a i (vget (theta (with_theta s k t)) i)) (fun t => lsum (map (fun q => f (fst q) (snd q) (vget (theta (with_theta s k t)) (snd q))) l))).
      + assert (Hi : (i < length (theta s))%nat) by (apply Hr; now left).
        destruct (Nat.eqb_spec i k) as [->|Ne].
        * eapply is_derive_ext; [|apply (Hd a); now left]. intros t. cbv beta. rewrite vget_with by assumption. now rewrite Nat.eqb_refl.
        * eapply is_derive_ext; [|apply (is_derive_const (f a i (vget (theta s) i)))]. intros t. cbv beta. rewrite vget_with by assumption.
          destruct (Nat.eqb_spec i k); [contradiction|reflexivity].
      + apply IH; [intros j Hj; apply Hr; now right|]. intros b Hb. apply Hd. now right.
  Qed.

  Variables (s : params) (k : nat).
  Hypothesis Hk : (k < length (theta s))%nat.
  Hypothesis Hpr : tidy (length (theta s)) (priors s).
  Hypothesis Hco : tidy (length (theta s)) (constraints s).
  Hypothesis Hval : forall p, has_prior s p k -> valid p /\ in_domain p (vget (theta s) k).
  Hypothesis Htr : forall lj ljg, constrained s (Transformation lj ljg) k -> is_derive lj (vget (theta s) k) (ljg (vget (theta s) k)).

  Definition dprior : R := at_idx (fun p => dlnpdf p (vget (theta s) k)) (pairs (priors s)) k.
  Definition djac : R := at_idx (fun c => ljg_of c (vget (theta s) k)) (pairs (constraints s)) k.

  Lemma log_prior_derive : is_derive (fun t => log_prior gammaln (with_theta s k t)) (vget (theta s) k)
    (dprior + if mem k (flat_map snd (priors s)) then djac else 0).
  Proof.
    eapply is_derive_ext; [intros t; symmetry; apply log_prior_pairs|].
    apply (is_derive_plus (fun t => lsum (map (fun q => lnpdf gammaln (fst q) (vget (theta (with_theta s k t)) (snd q))) (pairs (priors s))))
       (fun t => lsum (map (fun q => (if mem (snd q) (flat_map snd (priors s)) then lj_of (fst q) else fun _ => 0) (vget (theta (with_theta s k t)) (snd q))) (pairs (constraints s))))).
    - apply (derive_pairs s k (fun p _ => lnpdf gammaln p)); [exact Hk|rewrite pairs_snd; apply Hpr|].
      intros p Hp. apply pairs_In in Hp. destruct (Hval p Hp) as [V D]. now apply dlnpdf_ok.
    - assert (E : (if mem k (flat_map snd (priors s)) then djac else 0) =
        at_idx (fun c => if mem k (flat_map snd (priors s)) then ljg_of c (vget (theta s) k) else 0) (pairs (constraints s)) k).
      { destruct (mem k (flat_map snd (priors s))); [reflexivity|]. unfold at_idx. symmetry. induction (pairs (constraints s)) as [|q l IH]; [reflexivity|].
        cbn [map]. unfold lsum in *. cbn [fold_right]. rewrite IH. destruct (Nat.eqb _ _); lra. }
      rewrite E. apply (derive_pairs s k (fun c i => if mem i (flat_map snd (priors s)) then lj_of c else fun _ => 0)); [exact Hk|rewrite pairs_snd; apply Hco|].
      intros c Hc. apply pairs_In in Hc. destruct (mem k (flat_map snd (priors s))); [|apply (is_derive_const 0)].
      destruct c as [lj ljg|]; cbn [lj_of ljg_of]; [now apply Htr|apply (is_derive_const 0)].
  Qed.

  Definition last_indices : list nat := last (map snd (priors s)) [].

  Lemma fold_priors (l : list (prior * list nat)) : forall a idx,
    fold_left (fun g q => (np_put (fst g) (snd q) (lnpdf_grad (fst q) (take (theta s) (snd q))), snd q)) l (a, idx) =
    (fold_left (fun a q => vset a (snd q) (dlnpdf (fst q) (vget (theta s) (snd q)))) (pairs l) a, last (map snd l) idx).
  Proof.
    induction l as [|[p i] l IH]; intros a idx; [reflexivity|]. cbn [fold_left fst snd]. rewrite IH, np_put_prior. f_equal.
    - unfold pairs. cbn [flat_map fst snd]. rewrite fold_left_app. f_equal.
      clear IH idx. revert a. induction i as [|j i IHi]; intros a; [reflexivity|]. cbn [map fold_left fst snd]. apply IHi.
    - cbn [map snd]. destruct (map snd l) as [|x m] eqn:E; [reflexivity|]. rewrite <- E. clear E. cbn [last]. assert (G : forall (A : Type) (x : A) m d d', last (x :: m) d = last (x :: m) d').
      { clear. intros A x m. revert x. induction m as [|y m IH]; intros x d d'; [reflexivity|]. change (last (y :: m) d = last (y :: m) d'). apply IH. }
      destruct (map snd l); [reflexivity|]. apply G.
  Qed.
  Lemma fold_constraints (IP : list nat) (l : list (constr * list nat)) : forall a,
    fold_left (fun grad c => match fst c with
      | Transformation _ ljg => fold_left (fun grad i => if mem i IP then vset grad i (vget grad i + ljg (vget (theta s) i)) else grad) (snd c) grad
      | Fixed => grad end) l a =
    fold_left (fun grad q => match fst q with Transformation _ ljg => if mem (snd q) IP then vset grad (snd q) (vget grad (snd q) + ljg (vget (theta s) (snd q))) else grad | Fixed => grad end) (pairs l) a.
  Proof.
    induction l as [|[c i] l IH]; intros a; [reflexivity|]. unfold pairs. cbn [fold_left flat_map fst snd]. fold (pairs l). rewrite fold_left_app, <- IH. f_equal.
    clear IH. destruct c as [lj ljg|].
    - revert a. induction i as [|j i IHi]; intros a; [reflexivity|]. cbn [map fold_left fst snd]. apply IHi.
    - induction i as [|j i IHi]; [reflexivity|]. cbn [map fold_left fst snd]. exact IHi.
  Qed.
  Lemma add_fold (IP : list nat) (l : list (constr * nat)) : forall a, length a = length (theta s) ->
    let r := fold_left (fun grad q => match fst q with Transformation _ ljg => if mem (snd q) IP then vset grad (snd q) (vget grad (snd q) + ljg (vget (theta s) (snd q))) else grad | Fixed => grad end) l a in
    length r = length (theta s) /\ vget r k = vget a k + if mem k IP then at_idx (fun c => ljg_of c (vget (theta s) k)) l k else 0.
  Proof.
    induction l as [|[c i] l IH]; intros a La; cbn [fold_left fst snd].
    - split; [exact La|]. unfold at_idx, lsum. cbn. destruct (mem k IP); lra.
    - unfold at_idx. cbn [map fst snd]. unfold lsum. cbn [fold_right]. fold (lsum (map (fun q => if (snd q =? k)%nat then ljg_of (fst q) (vget (theta s) k) else 0) l)). fold (at_idx (fun c => ljg_of c (vget (theta s) k)) l k).
      destruct c as [lj ljg|]; [destruct (mem i IP) eqn:M|].
      + destruct (IH (vset a i (vget a i + ljg (vget (theta s) i)))) as [I1 I2]; [now rewrite vset_length|]. split; [exact I1|]. rewrite I2, vget_vset by (now rewrite La).
        cbn [ljg_of]. rewrite (Nat.eqb_sym k i). destruct (Nat.eqb_spec i k) as [->|Ne]; [rewrite M; lra|]. destruct (mem k IP); lra.
      + destruct (IH a La) as [I1 I2]. split; [exact I1|]. rewrite I2. cbn [ljg_of]. destruct (Nat.eqb_spec i k) as [->|Ne]; [rewrite M; lra|]. destruct (mem k IP); lra.
      + destruct (IH a La) as [I1 I2]. split; [exact I1|]. rewrite I2. cbn [ljg_of]. destruct (Nat.eqb i k), (mem k IP); lra.
  Qed.

  Lemma gradient_code gradient : length gradient = length (theta s) ->
    vget (objective_gradients gradient s) k = - (vget gradient k + (dprior + if mem k last_indices then djac else 0)).
  Proof.
    intros Lg. unfold objective_gradients, log_prior_gradients. destruct (Nat.eqb_spec (pio_size (priors s)) 0) as [E|E].
    - unfold vget. rewrite (nth_indep _ _ (- (0 + 0))) by (rewrite map_length; unfold vec in *; lia). rewrite (map_nth (fun x => - (x + 0))).
      destruct (size0 _ E) as [E1 E2]. unfold dprior. rewrite E2. cbn [at_idx map lsum fold_right].
      assert (M : mem k last_indices = false).
      { apply not_true_is_false. rewrite mem_In. unfold last_indices. intros H.
        assert (G : forall l : list (prior * list nat), flat_map snd l = [] -> ~ In k (last (map snd l) [])).
        { clear. induction l as [|[p i] l IH]; [intros _ []|]. cbn [flat_map map snd]. intros E. apply app_eq_nil in E as [-> E].
          destruct (map snd l) eqn:El; [intros []|]. rewrite <- El in *. destruct (map snd l) eqn:El2; [congruence|]. change (~ In k (last (l2 :: l3) [])). apply IH, E. }
        exact (G _ E1 H). }
      rewrite M. unfold at_idx, lsum. cbn. unfold vget. lra.
    - rewrite fold_priors. cbv zeta. rewrite fold_constraints.
      assert (HM : mem k (flat_map (fun idx => map (fun _ => idx) (priors s)) last_indices) = mem k last_indices).
      { apply eq_true_iff_eq. rewrite !mem_In, in_flat_map. split.
        - intros [x [Hx Hi]]. apply in_map_iff in Hi as [q [<- _]]. exact Hx.
        - intros H. exists k. split; [exact H|]. apply in_map_iff. destruct (priors s) as [|q l] eqn:El; [exfalso; apply E; reflexivity|]. exists q. split; [reflexivity|now left]. }
      set (a0 := fold_left _ (pairs (priors s)) _).
      destruct (put_fold (fun p i => dlnpdf p (vget (theta s) i)) (pairs (priors s)) (tab (length (theta s)) (fun _ => 0))) as [L0 V0]. fold a0 in L0, V0. rewrite tab_length in *.
      destruct (add_fold (flat_map (fun idx => map (fun _ => idx) (priors s)) (last (map snd (priors s)) [])) (pairs (constraints s)) a0 L0) as [L1 V1].
      set (r := fold_left _ (pairs (constraints s)) a0) in *. cbv zeta in L1, V1.
      assert (C : vget (map (fun p => - (fst p + snd p)) (combine gradient r)) k = - (vget gradient k + vget r k)).
      { unfold vget. rewrite (nth_indep _ _ ((fun p : R * R => - (fst p + snd p)) (0, 0))) by (rewrite map_length, combine_length; unfold vec in *; lia).
        rewrite (map_nth (fun p : R * R => - (fst p + snd p))), combine_nth by (unfold vec in *; lia). reflexivity. }
      rewrite C, V1, V0 by (auto; rewrite pairs_snd; apply Hpr). fold last_indices. rewrite HM. fold djac.
      rewrite vget_tab by exact Hk. fold dprior. destruct (mem k (map snd (pairs (priors s)))) eqn:M; [lra|].
      assert (dprior = 0); [|lra]. apply at_idx_none. rewrite <- mem_In. congruence.
  Qed.

  Lemma last_in : In k last_indices -> In k (flat_map snd (priors s)).
  Proof.
    unfold last_indices. intros H. assert (G : forall l : list (prior * list nat), In k (last (map snd l) []) -> In k (flat_map snd l)).
    { clear. induction l as [|[p i] l IH]; [intros []|]. cbn [flat_map map snd]. intros H. apply in_or_app. destruct (map snd l) eqn:El; [left; exact H|]. right. apply IH. exact H. }
    now apply G.
  Qed.
End Objective.
