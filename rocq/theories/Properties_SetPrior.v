(** Claims about setting priors (C67). *)

From Coq Require Import Reals List Arith Lia Lra.
From Verif Require Import Base Proofs_Linalg Model_Prior Model_SetPrior Spec_SetPrior Proofs_SetPrior.
Import ListNotations.
Open Scope R_scope.

(** Whatever was done before, [set_prior] gives exactly the indices of the leaf
    the new prior instead of the ones they had and leaves all others alone; it
    does so even when it raises, which it does only for a prior without a
    domain.  A prior on the positive (negative) numbers makes the values of the
    leaf non-negative (non-positive) by changing their signs and replaces all
    its constraints, [__fixed__] included, by the one for that domain.
    [unset_prior] removes the priors of the leaf and nothing else. *)
Theorem C67_set_prior_partial :
  forall dom s l p, history dom s ->
  let s' := fst (set_prior s l dom p) in
  (forall i q, has (ps_priors s') i q <-> (in_leaf l i /\ q = p) \/ (~ in_leaf l i /\ has (ps_priors s) i q)) /\
  (snd (set_prior s l dom p) = Ok tt <-> dom p <> DNone) /\
  (forall i, (i < length (ps_theta s))%nat -> vget (ps_theta s') i =
     match dom p with DPositive => if mem i (raveled l) then Rabs (vget (ps_theta s) i) else vget (ps_theta s) i
                    | DNegative => if mem i (raveled l) then - Rabs (vget (ps_theta s) i) else vget (ps_theta s) i
                    | _ => vget (ps_theta s) i end) /\
  (forall i c, has (ps_cons s') i c <->
     match dom p with DPositive => (in_leaf l i /\ c = c_positive) \/ (~ in_leaf l i /\ has (ps_cons s) i c)
                    | DNegative => (in_leaf l i /\ c = c_negative) \/ (~ in_leaf l i /\ has (ps_cons s) i c)
                    | _ => has (ps_cons s) i c end) /\
  let s'' := unset_prior s l in
  ps_theta s'' = ps_theta s /\ ps_cons s'' = ps_cons s /\ forall i q, has (ps_priors s'') i q <-> ~ in_leaf l i /\ has (ps_priors s) i q.
Proof.
  intros dom s l p H. destruct (history_inv dom s H) as [[K1 K2] _]. cbv zeta.
  split. { intros i q. rewrite set_prior_priors, add_has, remove_all_has by (try apply remove_all_nodup; easy). rewrite !raveled_in. tauto. }
  split. { rewrite set_prior_result. destruct (dom p); split; congruence. }
  split. { intros i Hi. rewrite set_prior_state. cbv zeta. destruct (dom p); try reflexivity; cbn [constrain ps_theta]; rewrite vget_tab; destruct (Nat.ltb_spec i (length (ps_theta s))); try lia; destruct (mem i (raveled l)); reflexivity. }
  split.
  { intros i c. rewrite set_prior_state. cbv zeta. destruct (dom p); try reflexivity; cbn [constrain ps_cons];
      rewrite add_has, remove_all_has by (try apply remove_all_nodup; easy); rewrite !raveled_in; tauto. }
  split; [reflexivity|]. split; [reflexivity|]. intros i q. cbn [unset_prior ps_priors]. rewrite remove_all_has, raveled_in by easy. tauto.
Qed.
Print Assumptions C67_set_prior_partial.

(** In every history of setting and removing priors, constraining, fixing and
    assigning, an index has at most one prior, so [log_prior] counts each
    parameter once. *)
Theorem C67_one_prior :
  forall dom s i p q, history dom s -> has (ps_priors s) i p -> has (ps_priors s) i q -> p = q.
Proof. intros dom s i p q H. now apply (history_inv dom s H). Qed.
Print Assumptions C67_one_prior.

(** The checks do not work: a prior on the whole real line is accepted for a
    parameter constrained to be positive (so the density is that of another
    variable) and for a fixed one, and a prior on the positive numbers is
    accepted for a fixed parameter, which it releases; and a value of 0 stays
    where a positive prior has no density. *)
Definition ex_dom (p : nat) : domain := match p with 0%nat => DReal | 1%nat => DPositive | 2%nat => DNegative | _ => DNone end.
Definition ex_leaf : leaf := mk_leaf 1 2.
Definition ex_s0 : pstate := mk_ps [5; 0; -3; 2] [] [].
Theorem C67_refuted :
  (exists s l p, history ex_dom s /\ ex_dom p = DReal /\ (forall i, in_leaf l i -> has (ps_cons s) i c_positive) /\ (0 < lf_size l)%nat /\
     snd (set_prior s l ex_dom p) = Ok tt) /\
  (exists s l p, history ex_dom s /\ ex_dom p = DReal /\ (0 < lf_size l)%nat /\
     snd (set_prior s l ex_dom p) = Ok tt /\ forall i, in_leaf l i -> has (ps_cons (fst (set_prior s l ex_dom p))) i c_fixed) /\
  (exists s l p, history ex_dom s /\ ex_dom p = DPositive /\ (0 < lf_size l)%nat /\ (forall i, in_leaf l i -> has (ps_cons s) i c_fixed) /\
     snd (set_prior s l ex_dom p) = Ok tt /\ forall i, in_leaf l i -> ~ has (ps_cons (fst (set_prior s l ex_dom p))) i c_fixed) /\
  (exists s l p i, history ex_dom s /\ in_leaf l i /\ snd (set_prior s l ex_dom p) = Ok tt /\
     ~ in_domain (ex_dom p) (vget (ps_theta (fst (set_prior s l ex_dom p))) i)).
Proof.
  assert (L : forall i, in_leaf ex_leaf i -> i = 1%nat \/ i = 2%nat) by (intros i [A B]; cbn in *; lia).
  assert (H0 : history ex_dom ex_s0) by apply h_new.
  assert (HC : history ex_dom (constrain ex_s0 ex_leaf c_positive)) by exact (h_step _ _ (PConstrain ex_leaf c_positive) H0).
  assert (HF : history ex_dom (pstep ex_dom ex_s0 (PFix ex_leaf))) by exact (h_step _ _ (PFix ex_leaf) H0).
  split; [|split; [|split]].
  - exists (constrain ex_s0 ex_leaf c_positive), ex_leaf, 0%nat. split; [exact HC|]. split; [reflexivity|]. split; [|split; [cbn; lia|reflexivity]].
    intros i Hi. exists [1; 2]%nat. split; [now left|]. destruct (L i Hi); subst; cbn; auto.
  - exists (pstep ex_dom ex_s0 (PFix ex_leaf)), ex_leaf, 0%nat. split; [exact HF|]. split; [reflexivity|]. split; [cbn; lia|]. split; [reflexivity|].
    intros i Hi. exists [1; 2]%nat. split; [now left|]. destruct (L i Hi); subst; cbn; auto.
  - exists (pstep ex_dom ex_s0 (PFix ex_leaf)), ex_leaf, 1%nat. split; [exact HF|]. split; [reflexivity|]. split; [cbn; lia|].
    split. { intros i Hi. exists [1; 2]%nat. split; [now left|]. destruct (L i Hi); subst; cbn; auto. }
    split; [reflexivity|]. intros i Hi [idx [[E|[]] _]]. injection E as E _. discriminate E.
  - exists ex_s0, ex_leaf, 1%nat, 1%nat. split; [exact H0|]. split; [unfold in_leaf; cbn; lia|]. split; [reflexivity|]. cbn. rewrite Rabs_R0. lra.
Qed.
Print Assumptions C67_refuted.

(** Two overlapping leaves: the second prior takes over the shared index. *)
Example C67_set_prior_partial_ex :
  let s := pstep ex_dom ex_s0 (PSet ex_leaf 1) in
  history ex_dom s /\ ps_priors s = [(1, [1; 2])]%nat /\ map Rabs [0; -3] = [vget (ps_theta s) 1; vget (ps_theta s) 2] /\
  ps_priors (fst (set_prior s (mk_leaf 2 2) ex_dom 2)) = [(1, [1]); (2, [2; 3])]%nat /\
  ps_cons (fst (set_prior s (mk_leaf 2 2) ex_dom 2)) = [(1, [1]); (2, [2; 3])]%nat /\
  snd (set_prior s (mk_leaf 2 2) ex_dom 7) = Err KeyError /\ ps_priors (fst (set_prior s (mk_leaf 2 2) ex_dom 7)) = [(1, [1]); (7, [2; 3])]%nat.
Proof. cbv zeta. split; [apply h_step, h_new|]. repeat split; cbn; try reflexivity. Qed.

Example C67_one_prior_ex :
  exists s, history ex_dom s /\ ps_priors s = [(1, [1]); (2, [2; 3])]%nat /\ has (ps_priors s) 2 2.
Proof.
  exists (pstep ex_dom (pstep ex_dom ex_s0 (PSet ex_leaf 1)) (PSet (mk_leaf 2 2) 2)). split; [apply h_step, h_step, h_new|]. split; [reflexivity|].
  exists [2; 3]%nat. split; [right; now left|now left].
Qed.
