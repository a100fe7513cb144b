(** Proofs about index operations. *)

From Coq Require Import Reals List Arith Lia Lra.
From Verif Require Import Base Model_Prior Model_SetPrior Spec_SetPrior.
Import ListNotations.
Open Scope R_scope.

Lemma mem_In i l : mem i l = true <-> In i l.
Proof. unfold mem. rewrite existsb_exists. split; [intros [x [H E]]; apply Nat.eqb_eq in E; now subst|intros H; exists i; split; [exact H|apply Nat.eqb_refl]]. Qed.
Lemma mem_notIn i l : mem i l = false <-> ~ In i l.
Proof. rewrite <- mem_In. destruct (mem i l); split; congruence. Qed.

Lemma list_max_ge l i : In i l -> (i <= list_max l)%nat.
Proof. intros H. pose proof (proj1 (list_max_le l (list_max l)) (le_n _)) as F. rewrite Forall_forall in F. now apply F. Qed.

Lemma union_in a b i : In i (np_union1d a b) <-> In i a \/ In i b.
Proof.
  unfold np_union1d. rewrite filter_In, in_seq, Bool.orb_true_iff, !mem_In. split; [tauto|]. intros H. split; [|exact H].
  assert (In i (a ++ b)) by (apply in_or_app; tauto). pose proof (list_max_ge _ _ H0). lia.
Qed.
Lemma diff_in a b i : In i (np_setdiff1d a b) <-> In i a /\ ~ In i b.
Proof. unfold np_setdiff1d. rewrite filter_In, Bool.negb_true_iff, mem_notIn. tauto. Qed.
Lemma raveled_in l i : In i (raveled l) <-> in_leaf l i.
Proof. unfold raveled, in_leaf. now rewrite in_seq. Qed.

Lemma add_keys d k idx k' : In k' (map fst (io_add d k idx)) <-> In k' (map fst d) \/ k' = k.
Proof.
  induction d as [|[k0 old] d IH]; cbn; [intuition|]. destruct (Nat.eqb_spec k k0) as [E|E]; cbn; [subst; intuition congruence|]. rewrite IH. tauto.
Qed.
Lemma add_nodup d k idx : NoDup (map fst d) -> NoDup (map fst (io_add d k idx)).
Proof.
  induction d as [|[k0 old] d IH]; cbn; intros H; [repeat constructor; easy|]. inversion H as [|? ? N H']; subst. destruct (Nat.eqb_spec k k0) as [E|E]; cbn.
  - now constructor.
  - constructor; [|now apply IH]. rewrite add_keys. intros [C|C]; [easy|congruence].
Qed.
Lemma has_cons k0 old (d : index_ops) i k : has ((k0, old) :: d) i k <-> (k = k0 /\ In i old) \/ has d i k.
Proof.
  unfold has. split.
  - intros [idx [[E|H] J]]; [injection E as <- <-; left; auto|right; eauto].
  - intros [[-> H]|[idx [H J]]]; [exists old; split; [now left|exact H]|exists idx; split; [now right|exact J]].
Qed.
Lemma has_nil i k : ~ has [] i k.
Proof. intros [idx [[] _]]. Qed.

Lemma add_has d k idx i q : NoDup (map fst d) -> has (io_add d k idx) i q <-> has d i q \/ (q = k /\ In i idx).
Proof.
  induction d as [|[k0 old] d IH]; cbn [io_add map fst]; intros H.
  - rewrite has_cons, union_in. pose proof (has_nil i q). cbn. tauto.
  - inversion H as [|? ? N H']; subst. destruct (Nat.eqb_spec k k0) as [E|E]; rewrite !has_cons; [subst; rewrite union_in; tauto|]. rewrite IH by easy. tauto.
Qed.

Lemma remove_keys d k idx k' : In k' (map fst (io_remove d k idx)) -> In k' (map fst d).
Proof.
  induction d as [|[k0 old] d IH]; cbn; [easy|]. destruct (Nat.eqb k k0); [|cbn; tauto]. destruct (np_setdiff1d old idx); cbn; tauto.
Qed.
Lemma remove_nodup d k idx : NoDup (map fst d) -> NoDup (map fst (io_remove d k idx)).
Proof.
  induction d as [|[k0 old] d IH]; cbn; intros H; [constructor|]. inversion H as [|? ? N H']; subst. destruct (Nat.eqb k k0).
  - destruct (np_setdiff1d old idx); cbn; [easy|now constructor].
  - cbn. constructor; [|now apply IH]. intros C. apply N. exact (remove_keys _ _ _ _ C).
Qed.
Lemma has_key d i k : has d i k -> In k (map fst d).
Proof. intros [idx [H _]]. now apply (in_map fst) in H. Qed.
Lemma remove_has d k idx i q : NoDup (map fst d) -> has (io_remove d k idx) i q <-> has d i q /\ ~ (q = k /\ In i idx).
Proof.
  induction d as [|[k0 old] d IH]; cbn [io_remove map fst]; intros H.
  - pose proof (has_nil i q). tauto.
  - inversion H as [|? ? N H']; subst. destruct (Nat.eqb_spec k k0) as [E|E].
    + subst k0. assert (R : has (match np_setdiff1d old idx with [] => d | rest => (k, rest) :: d end) i q <-> (q = k /\ In i (np_setdiff1d old idx)) \/ has d i q).
      { destruct (np_setdiff1d old idx) eqn:D; [cbn; tauto|]. rewrite has_cons. tauto. }
      rewrite R, diff_in, has_cons. split.
      * intros [[-> [A B]]|A]; [split; [now left|tauto]|]. split; [now right|]. intros [-> _]. apply N. exact (has_key _ _ _ A).
      * intros [[[-> A]|A] B]; [left; tauto|now right].
    + rewrite !has_cons, IH by easy. split; [intros [[-> A]|[A B]]; [split; [now left|intros [C _]; congruence]|split; [now right|exact B]]|tauto].
Qed.

Lemma fold_remove ks idx : forall d, NoDup (map fst d) ->
  NoDup (map fst (fold_left (fun d k => io_remove d k idx) ks d)) /\
  forall i q, has (fold_left (fun d k => io_remove d k idx) ks d) i q <-> has d i q /\ ~ (In q ks /\ In i idx).
Proof.
  induction ks as [|k ks IH]; intros d H; cbn [fold_left].
  - split; [exact H|]. intros. cbn. tauto.
  - destruct (IH (io_remove d k idx) (remove_nodup d k idx H)) as [A B]. split; [exact A|]. intros i q. rewrite B, remove_has by easy. cbn. intuition (subst; auto).
Qed.
Lemma remove_all_nodup d idx : NoDup (map fst d) -> NoDup (map fst (io_remove_all d idx)).
Proof. intros H. now apply fold_remove. Qed.
Lemma remove_all_has d idx i q : NoDup (map fst d) -> has (io_remove_all d idx) i q <-> has d i q /\ ~ In i idx.
Proof.
  intros H. unfold io_remove_all. destruct (fold_remove (map fst d) idx d H) as [_ B]. rewrite B. split; [|tauto]. intros [A C]. split; [exact A|]. intros D. apply C. split; [exact (has_key _ _ _ A)|exact D].
Qed.

Definition keys_ok (s : pstate) : Prop := NoDup (map fst (ps_priors s)) /\ NoDup (map fst (ps_cons s)).
Definition one_each (s : pstate) : Prop := forall i p q, has (ps_priors s) i p -> has (ps_priors s) i q -> p = q.

Lemma set_prior_state s l dom p : fst (set_prior s l dom p) =
  let s2 := mk_ps (ps_theta s) (io_add (io_remove_all (ps_priors s) (raveled l)) p (raveled l)) (ps_cons s) in
  match dom p with DPositive => constrain s2 l c_positive | DNegative => constrain s2 l c_negative | _ => s2 end.
Proof. unfold set_prior. cbv zeta. destruct (dom p); reflexivity. Qed.
Lemma set_prior_result s l dom p : snd (set_prior s l dom p) = match dom p with DNone => Err KeyError | _ => Ok tt end.
Proof. unfold set_prior. cbv zeta. destruct (dom p); reflexivity. Qed.
Lemma set_prior_priors s l dom p : ps_priors (fst (set_prior s l dom p)) = io_add (io_remove_all (ps_priors s) (raveled l)) p (raveled l).
Proof. rewrite set_prior_state. cbv zeta. destruct (dom p); reflexivity. Qed.

Lemma step_keys dom s o : keys_ok s -> keys_ok (pstep dom s o).
Proof.
  intros [H1 H2]. destruct o; cbn [pstep].
  - unfold keys_ok. rewrite set_prior_priors. split; [now apply add_nodup, remove_all_nodup|]. rewrite set_prior_state. cbv zeta.
    destruct (dom p); cbn [ps_cons constrain]; try exact H2; now apply add_nodup, remove_all_nodup.
  - split; [now apply remove_all_nodup|exact H2].
  - split; [exact H1|now apply add_nodup, remove_all_nodup].
  - split; [exact H1|now apply remove_all_nodup].
  - split; [exact H1|now apply add_nodup].
  - now split.
Qed.

Lemma step_one dom s o : keys_ok s -> one_each s -> one_each (pstep dom s o).
Proof.
  intros [H1 H2] U. destruct o; cbn [pstep]; try exact U.
  - intros i a b. rewrite set_prior_priors, !add_has, !remove_all_has by (try apply remove_all_nodup; easy). intros [[A A']|[A A']] [[B B']|[B B']]; try tauto; [now apply (U i)|congruence].
  - intros i a b. cbn [unset_prior ps_priors]. rewrite !remove_all_has by easy. intros [A _] [B _]. now apply (U i).
Qed.

Lemma history_inv dom s : history dom s -> keys_ok s /\ one_each s.
Proof.
  induction 1 as [v|s o _ [IH1 IH2]].
  - split; [split; constructor|]. intros i p q H. destruct (has_nil _ _ H).
  - split; [now apply step_keys|now apply step_one].
Qed.
