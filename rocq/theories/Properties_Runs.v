(** Claims about the statistics over repeated runs (C76). *)

From Coq Require Import Reals List Arith Bool Lia Lra.
From Verif Require Import Base PSD Model_Linalg Model_Util Model_Bench Model_Table Properties_Table Spec_Best Proofs_Best Spec_Truth Proofs_Truth.
Import ListNotations.
Open Scope R_scope.

(** For uncorrelated runs with mean [mu] and variance [s2] the printed mean is
    right on average and has variance [s2 / n]; the square of the printed
    standard error is on average [(n - 1) / n] times that. *)
Theorem C76_expected :
  forall (W : Type) (L : (W -> R) -> Prop) E n (X : W -> nat -> R) mu s2 m se, expected L E -> (0 < n)%nat ->
    random_values L E n (fun i j => if Nat.eqb i j then s2 else 0) (fun o i => X o i - mu) ->
    (forall o, run_stats (tab n (X o)) = (Some (m o), Some (se o))) ->
    has_mean L E m mu /\ has_mean L E (fun o => (m o - mu) ^ 2) (s2 / INR n) /\
    has_mean L E (fun o => se o ^ 2) ((INR n - 1) / INR n * (s2 / INR n)).
Proof.
  intros W L E n X mu s2 m se HE Hn HX HS. set (z := fun o i => X o i - mu) in *. assert (Pn : 0 < INR n) by now apply lt_0_INR.
  assert (NZ : forall o, tab n (X o) <> []).
  { intros o C. apply (f_equal (@length R)) in C. rewrite tab_length in C. cbn in C. lia. }
  assert (Em : forall o, m o = mu + Rsum n (fun i => z o i) / INR n).
  { intros o. specialize (HS o). rewrite (C76_stats _ (NZ o)) in HS. injection HS as <- _. rewrite tab_length, lsum_tab. unfold z.
    rewrite Rsum_minus, Rsum_const. field. lra. }
  assert (Es : forall o, se o ^ 2 = / (INR n * INR n) * Rsum n (fun i => Rsum n (fun j => ((if Nat.eqb i j then 1 else 0) - / INR n) * (z o i * z o j)))).
  { intros o. pose proof (HS o) as H. rewrite (C76_stats _ (NZ o)) in H. injection H as Hm <-. rewrite Hm, tab_length.
    assert (ES : lsum (map (fun y => (y - m o) ^ 2) (tab n (X o))) = Rsum n (fun i => Rsum n (fun j => ((if Nat.eqb i j then 1 else 0) - / INR n) * (z o i * z o j)))).
    { unfold tab. rewrite map_map. change (map ?f (seq 0 n)) with (tab n f). rewrite lsum_tab. rewrite Em.
      transitivity (Rsum n (fun i => z o i ^ 2) - Rsum n (fun i => z o i) * Rsum n (fun i => z o i) / INR n).
      - rewrite (Rsum_ext n _ (fun i => z o i ^ 2 - 2 * (Rsum n (fun i => z o i) / INR n) * z o i + (Rsum n (fun i => z o i) / INR n) ^ 2)) by (intros i _; unfold z; ring).
        rewrite Rsum_plus, Rsum_minus, Rsum_scal_l, Rsum_const. change (Rsum n (z o)) with (Rsum n (fun i => z o i)). set (s := Rsum n (fun i => z o i)). field. lra.
      - rewrite (Rsum_ext n (fun i => Rsum n (fun j => ((if Nat.eqb i j then 1 else 0) - / INR n) * (z o i * z o j)))
          (fun i => z o i ^ 2 - (Rsum n (fun j => z o j) / INR n) * z o i)).
        + rewrite Rsum_minus, Rsum_scal_l. change (Rsum n (z o)) with (Rsum n (fun i => z o i)). field. lra.
        + intros i Hi. rewrite (Rsum_ext n _ (fun j => (if Nat.eqb i j then z o j * z o i else 0) - z o j * (z o i / INR n))) by (intros j _; destruct (Nat.eqb_spec i j); [subst|]; field; lra).
          rewrite Rsum_minus, Rsum_scal_r, (Rsum_delta' n i (fun j => z o j * z o i) Hi). change (Rsum n (z o)) with (Rsum n (fun i => z o i)). field. lra. }
    change (fun y => (y - m o) * ((y - m o) * 1)) with (fun y => (y - m o) ^ 2). rewrite ES. assert (P : 0 <= Rsum n (fun i => Rsum n (fun j => ((if Nat.eqb i j then 1 else 0) - / INR n) * (z o i * z o j)))).
    { rewrite <- ES. unfold tab. rewrite map_map. change (map ?f (seq 0 n)) with (tab n f). rewrite lsum_tab. apply Rsum_nonneg. intros i _. apply pow2_ge_0. }
    set (t := Rsum n _) in *. unfold Rdiv. rewrite Rpow_mult_distr. rewrite <- Rsqr_pow2, Rsqr_sqrt by exact P. rewrite pow_inv. field. lra. }
  pose proof (rv_form L E HE n _ z HX) as QF.
  assert (S1 : has_mean L E (fun o => Rsum n (fun i => z o i)) 0).
  { destruct HX as [H1 _]. destruct (ex_sum L E HE n (fun i o => z o i) (fun i Hi => proj1 (H1 i Hi))) as [A B]. split; [exact A|]. rewrite B.
    apply Rsum_zero. intros i Hi. exact (proj2 (H1 i Hi)). }
  split; [|split].
  - pose proof (mean_affine L E HE (/ INR n) mu _ _ S1) as H. replace (/ INR n * 0 + mu) with mu in H by ring.
    refine (mean_ext L E HE _ _ _ _ H). intros o. rewrite Em. field. lra.
  - pose proof (mean_affine L E HE (/ (INR n * INR n)) 0 _ _ (QF (fun _ _ => 1))) as H.
    replace (/ (INR n * INR n) * _ + 0) with (s2 / INR n) in H.
    + refine (mean_ext L E HE _ _ _ _ H). intros o. rewrite Em.
      rewrite (Rsum_ext n _ (fun i => z o i * Rsum n (fun j => z o j))) by (intros i _; rewrite <- Rsum_scal_l; apply Rsum_ext; intros; ring).
      rewrite Rsum_scal_r. change (Rsum n (z o)) with (Rsum n (fun i => z o i)). field. lra.
    + rewrite (Rsum_ext n _ (fun _ => s2)); [rewrite Rsum_const; field; lra|]. intros i Hi.
      rewrite (Rsum_ext n _ (fun j => if Nat.eqb i j then s2 else 0)) by (intros; ring). exact (Rsum_delta' n i (fun _ => s2) Hi).
  - pose proof (mean_affine L E HE (/ (INR n * INR n)) 0 _ _ (QF (fun i j => (if Nat.eqb i j then 1 else 0) - / INR n))) as H.
    replace (/ (INR n * INR n) * _ + 0) with ((INR n - 1) / INR n * (s2 / INR n)) in H.
    + refine (mean_ext L E HE _ _ _ _ H). intros o. rewrite Es. ring.
    + rewrite (Rsum_ext n _ (fun _ => (1 - / INR n) * s2)); [rewrite Rsum_const; field; lra|]. intros i Hi.
      rewrite (Rsum_ext n _ (fun j => if Nat.eqb i j then (1 - / INR n) * s2 else 0)) by (intros j _; destruct (Nat.eqb i j); ring).
      exact (Rsum_delta' n i (fun _ => (1 - / INR n) * s2) Hi).
Qed.
Print Assumptions C76_expected.

(** Two runs of variance 4 about 3. *)
Example C76_expected_ex : exists (W : Type) (L : (W -> R) -> Prop) E (X : W -> nat -> R) m se, expected L E /\
  random_values L E 2 (fun i j => if Nat.eqb i j then 4 else 0) (fun o i => X o i - 3) /\
  (forall o, run_stats (tab 2 (X o)) = (Some (m o), Some (se o))).
Proof.
  set (l := fun i k : nat => if Nat.eqb i k then 2 else 0).
  set (X := fun (o : nat * bool) i => coin_var 2 (l i) o + 3).
  exists (nat * bool)%type, (fun _ => True), (coin 2), X.
  exists (fun o => match fst (run_stats (tab 2 (X o))) with Some x => x | None => 0 end), (fun o => match snd (run_stats (tab 2 (X o))) with Some x => x | None => 0 end).
  split; [apply coin_expected; lia|]. split.
  - assert (EX : forall i o, X o i - 3 = coin_var 2 (l i) o) by (intros; unfold X; ring).
    assert (E1 : forall i, coin 2 (fun o => X o i - 3) = 0).
    { intros i. rewrite <- (coin_mean 2 (l i)). unfold coin. f_equal. apply Rsum_ext. intros k _. now rewrite !EX. }
    split; [intros i _; split; [exact I|apply E1]|]. intros i j Hi Hj. split; [exact I|]. unfold cov_of. rewrite !E1.
    transitivity (coin 2 (fun o => coin_var 2 (l i) o * coin_var 2 (l j) o)).
    + rewrite Rmult_0_l, Rminus_0_r. unfold coin. f_equal. apply Rsum_ext. intros k _. now rewrite !EX.
    + rewrite (coin_prod 2 (l i) (l j)) by lia. unfold l. destruct i as [|[|i]]; [| |lia]; (destruct j as [|[|j]]; [| |lia]); cbn; ring.
  - intros o. rewrite (C76_stats (tab 2 (X o))) by discriminate. reflexivity.
Qed.
