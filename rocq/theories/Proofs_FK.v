(** Proofs about the functional kernel. *)

From Coq Require Import Reals List Arith ZArith Lia Lra Sorted Permutation.
From Verif Require Import Base NDArray Model_Util Model_Linalg Model_Kern Model_FK Spec_Kern Spec_FK
  Proofs_Util Proofs_Linalg Proofs_Kern.
Import ListNotations.
Open Scope R_scope.

(** ** Dictionaries *)

Lemma dims_eqb_true a b : dims_eqb a b = true <-> a = b.
Proof. unfold dims_eqb. destruct list_eq_dec; split; congruence. Qed.

Lemma dims_eqb_refl a : dims_eqb a a = true.
Proof. now apply dims_eqb_true. Qed.

Lemma dict_get_set {V} (d : dict V) k v k' :
  dict_get (dict_set d k v) k' = if dims_eqb k' k then Ok v else dict_get d k'.
Proof.
  induction d as [|[k0 v0] d IH]; cbn [dict_set].
  - cbn. destruct (dims_eqb k' k); reflexivity.
  - destruct (dims_eqb k k0) eqn:E.
    + apply dims_eqb_true in E. subst k0. cbn. destruct (dims_eqb k' k); reflexivity.
    + cbn. rewrite IH. destruct (dims_eqb k' k0) eqn:E1; [|reflexivity].
      apply dims_eqb_true in E1. subst k0. destruct (dims_eqb k' k) eqn:E2; [|reflexivity].
      apply dims_eqb_true in E2. subst k'. rewrite dims_eqb_refl in E. discriminate.
Qed.

Lemma dict_get_err {V} (d : dict V) k e : dict_get d k = Err e -> e = KeyError.
Proof. induction d as [|[k0 v0] d IH]; cbn; [congruence|]. destruct (dims_eqb k k0); [discriminate|auto]. Qed.

Lemma dict_get_in {V} (d : dict V) k v : dict_get d k = Ok v -> In (k, v) d.
Proof.
  induction d as [|[k0 v0] d IH]; cbn; [discriminate|]. destruct (dims_eqb k k0) eqn:E; [|auto].
  apply dims_eqb_true in E. intros H. left. congruence.
Qed.

Lemma dict_in_get {V} (d : dict V) k v : NoDup (map fst d) -> In (k, v) d -> dict_get d k = Ok v.
Proof.
  induction d as [|[k0 v0] d IH]; cbn; [tauto|]. intros Hn [H|H].
  - injection H as -> ->. now rewrite dims_eqb_refl.
  - inversion Hn; subst. destruct (dims_eqb k k0) eqn:E; [|auto].
    apply dims_eqb_true in E. subst. exfalso. apply H2. apply in_map_iff. exists (k0, v). auto.
Qed.

Lemma dict_key {V} (d : dict V) k : In k (map fst d) <-> exists v, dict_get d k = Ok v.
Proof.
  induction d as [|[k0 v0] d IH]; cbn.
  - split; [tauto|intros [v H]; discriminate].
  - destruct (dims_eqb k k0) eqn:E.
    + apply dims_eqb_true in E. subst. split; eauto.
    + rewrite <- IH. split; [intros [->|H]; [rewrite dims_eqb_refl in E; discriminate|auto]|auto].
Qed.

Lemma dict_set_keys {V} (d : dict V) k v :
  map fst (dict_set d k v) = if dict_mem d k then map fst d else map fst d ++ [k].
Proof.
  unfold dict_mem. induction d as [|[k0 v0] d IH]; cbn; [reflexivity|].
  destruct (dims_eqb k k0) eqn:E; cbn; [reflexivity|]. rewrite IH.
  destruct (dict_get d k); reflexivity.
Qed.

Lemma dict_set_nodup {V} (d : dict V) k v : NoDup (map fst d) -> NoDup (map fst (dict_set d k v)).
Proof.
  intros H. rewrite dict_set_keys. unfold dict_mem. destruct (dict_get d k) eqn:E; [assumption|].

  rewrite <- (rev_involutive (map fst d ++ [k])). apply NoDup_rev. rewrite rev_app_distr. cbn.
  constructor; [|apply NoDup_rev; assumption].
  rewrite <- in_rev. intros Hin. apply dict_key in Hin. destruct Hin as [v' Hv]. congruence.
Qed.

(** ** Sorting *)

Lemma insert_nat_perm x l : Permutation (insert_nat x l) (x :: l).
Proof.
  induction l as [|y l IH]; cbn; [reflexivity|]. destruct (Nat.leb x y); [reflexivity|].
  rewrite IH. apply perm_swap.
Qed.

Lemma py_sorted_perm l : Permutation (py_sorted l) l.
Proof. induction l as [|x l IH]; cbn; [reflexivity|]. rewrite insert_nat_perm. now constructor. Qed.

Lemma insert_nat_sorted x l : StronglySorted le l -> StronglySorted le (insert_nat x l).
Proof.
  induction 1 as [|y l Hl IH Hy]; cbn; [repeat constructor|].
  destruct (Nat.leb_spec x y).
  - constructor; [constructor; assumption|]. constructor; [assumption|].
    eapply Forall_impl; [|exact Hy]. intros; lia.
  - constructor; [assumption|]. apply Forall_forall. intros z Hz.
    apply (Permutation_in _ (insert_nat_perm x l)) in Hz. destruct Hz as [<-|Hz]; [lia|].
    rewrite Forall_forall in Hy. auto.
Qed.

Lemma py_sorted_sorted l : StronglySorted le (py_sorted l).
Proof. induction l; cbn; [constructor|now apply insert_nat_sorted]. Qed.

(** ** set_input_dim *)

Definition norm_dims (P : nat) (o : option dims) : dims :=
  match o with None => seq 0 P | Some l => py_sorted l end.

Definition eqd (a b : dims) : bool := if list_eq_dec Nat.eq_dec a b then true else false.

Lemma filter_seq_snoc (p : nat -> bool) n :
  filter p (seq 0 (S n)) = filter p (seq 0 n) ++ (if p n then [n] else []).
Proof. rewrite seq_S, filter_app. cbn. reflexivity. Qed.

Section SetDim.
Variable P : nat.
Variable f0 : fkernel.
Let ado q := norm_dims P (dims_of f0 q).
Let Q := length (f_kernels f0).

Definition cnt (p : nat -> bool) (n : nat) (ad : dims) : nat :=
  length (filter (fun q => (p q && eqd (ado q) ad)%bool) (seq 0 n)).

Definition opt_cnt (c : nat) : result nat := match c with O => Err KeyError | _ => Ok c end.

Record dim_inv (n : nat) (f : fkernel) : Prop := {
  di_D : f_D f = f_D f0;
  di_vecs : f_vecs f = f_vecs f0;
  di_diags : f_diags f = f_diags f0;
  di_noise : f_noise f = f_noise f0;
  di_nl : f_nl f = f_nl f0;
  di_ns : f_ns f = f_ns f0;
  di_P : f_P f = f_P f0;
  di_len : length (f_kernels f) = Q;
  di_k : forall q, (q < Q)%nat -> nth q (f_kernels f) (KIdentity, None) =
    (kern_of f0 q, if Nat.ltb q n then Some (ado q) else dims_of f0 q);
  di_nodup : NoDup (map fst (f_active f));
  di_active : forall ad, dict_get (f_active f) ad =
    match filter (fun q => eqd (ado q) ad) (seq 0 n) with [] => Err KeyError | l => Ok l end;
  di_lmc : forall ad, dict_get (f_lmc f) ad = opt_cnt (cnt (fun q => Nat.ltb q (f_nl f0)) n ad);
  di_slfm : forall ad, dict_get (f_slfm f) ad =
    opt_cnt (cnt (fun q => (negb (Nat.ltb q (f_nl f0)) && Nat.ltb q (f_nl f0 + f_ns f0))%bool) n ad);
  di_indep : forall ad, dict_get (f_indep f) ad =
    opt_cnt (cnt (fun q => negb (Nat.ltb q (f_nl f0 + f_ns f0))) n ad)
}.

Lemma cnt_S p n ad : cnt p (S n) ad = (cnt p n ad + if (p n && eqd (ado n) ad)%bool then 1 else 0)%nat.
Proof.
  unfold cnt. rewrite filter_seq_snoc, app_length. destruct (p n && eqd (ado n) ad)%bool; reflexivity.
Qed.

Lemma get_count (d : dict nat) c k ad :
  (forall ad, dict_get d ad = opt_cnt (c ad)) ->
  dict_get (count d k) ad = opt_cnt (c ad + if eqd k ad then 1 else 0).
Proof.
  intros H. unfold count, setdefault. rewrite dict_get_set, !H.
  unfold eqd, dims_eqb. destruct (list_eq_dec Nat.eq_dec ad k) as [->|N], (list_eq_dec Nat.eq_dec k _) as [E|N']; try congruence.
  - rewrite Nat.add_comm. cbn. destruct (c k); reflexivity.
  - rewrite Nat.add_0_r. reflexivity.
Qed.

Lemma step_inv n f : (n < Q)%nat -> dim_inv n f -> dim_inv (S n) (set_dim_step P f n).
Proof.
  intros Hn I. unfold set_dim_step.
  rewrite (di_k _ _ I n Hn), Nat.ltb_irrefl.
  fold (norm_dims P (dims_of f0 n)). fold (ado n).
  assert (Hlt : Nat.leb (f_nl f0) (f_nl f0 + f_ns f0) = true) by (apply Nat.leb_le; lia).
  assert (Ek : forall q, (q < Q)%nat ->
    nth q (map (fun p => if Nat.eqb (fst p) n then (kern_of f0 n, Some (ado n)) else snd p)
             (combine (seq 0 (length (f_kernels f))) (f_kernels f))) (KIdentity, None)
    = (kern_of f0 q, if Nat.ltb q (S n) then Some (ado q) else dims_of f0 q)).
  { intros q Hq. rewrite (di_len _ _ I).
    rewrite (nth_indep _ _ ((fun p => if Nat.eqb (fst p) n then (kern_of f0 n, Some (ado n)) else snd p) (0%nat, (KIdentity, None))))
      by (rewrite map_length, combine_length, seq_length, (di_len _ _ I); lia).
    rewrite (map_nth (fun p => if Nat.eqb (fst p) n then (kern_of f0 n, Some (ado n)) else snd p)).
    rewrite combine_nth by (rewrite seq_length, (di_len _ _ I); reflexivity).
    rewrite seq_nth by assumption. cbn [fst snd Nat.add].
    destruct (Nat.eqb_spec q n) as [->|N].
    - replace (Nat.ltb n (S n)) with true by (symmetry; apply Nat.ltb_lt; lia). reflexivity.
    - rewrite (di_k _ _ I q Hq). f_equal.
      destruct (Nat.ltb_spec q n), (Nat.ltb_spec q (S n)); try lia; reflexivity. }
  assert (EA : forall ad, dict_get (dict_set (f_active f) (ado n) (setdefault (f_active f) (ado n) [] ++ [n])) ad
     = match filter (fun q => eqd (ado q) ad) (seq 0 (S n)) with [] => Err KeyError | l => Ok l end).
  { intros ad. rewrite dict_get_set. unfold setdefault. rewrite !(di_active _ _ I), filter_seq_snoc.
    unfold eqd at 4. unfold dims_eqb. destruct (list_eq_dec Nat.eq_dec ad (ado n)) as [->|N].
    - destruct (list_eq_dec Nat.eq_dec (ado n) (ado n)) as [_|]; [|congruence].
      destruct (filter (fun q => eqd (ado q) (ado n)) (seq 0 n)); reflexivity.
    - destruct (list_eq_dec Nat.eq_dec (ado n) ad) as [|_]; [congruence|]. rewrite app_nil_r. reflexivity. }
  rewrite (di_nl _ _ I), (di_ns _ _ I).
  assert (L := di_lmc _ _ I). assert (S' := di_slfm _ _ I). assert (N' := di_indep _ _ I).
  destruct (Nat.ltb_spec n (f_nl f0)) as [H1|H1];
    [|destruct (Nat.ltb_spec n (f_nl f0 + f_ns f0)) as [H2|H2]]; split;
    cbn [f_D f_kernels f_vecs f_diags f_noise f_nl f_ns f_P f_active f_lmc f_slfm f_indep]; try reflexivity; try apply I;
    try exact Ek; try exact EA; try (apply dict_set_nodup; apply I);
    try (rewrite map_length, combine_length, seq_length, (di_len _ _ I); lia);
    intros ad; rewrite cnt_S.
  - rewrite (get_count _ _ _ _ L). apply Nat.ltb_lt in H1. rewrite H1. reflexivity.
  - apply Nat.ltb_lt in H1. rewrite H1. cbn. rewrite Nat.add_0_r. apply S'.
  - replace (Nat.ltb n (f_nl f0 + f_ns f0)) with true by (symmetry; apply Nat.ltb_lt; lia).
    cbn. rewrite Nat.add_0_r. apply N'.
  - apply Nat.ltb_ge in H1. rewrite H1. cbn. rewrite Nat.add_0_r. apply L.
  - rewrite (get_count _ _ _ _ S'). apply Nat.ltb_ge in H1. apply Nat.ltb_lt in H2. rewrite H1, H2. reflexivity.
  - apply Nat.ltb_lt in H2. rewrite H2. cbn. rewrite Nat.add_0_r. apply N'.
  - apply Nat.ltb_ge in H1. rewrite H1. cbn. rewrite Nat.add_0_r. apply L.
  - apply Nat.ltb_ge in H1. apply Nat.ltb_ge in H2. rewrite H1, H2. cbn. rewrite Nat.add_0_r. apply S'.
  - rewrite (get_count _ _ _ _ N'). apply Nat.ltb_ge in H2. rewrite H2. reflexivity.
Qed.

Lemma fold_inv f : dim_inv 0 f -> dim_inv Q (fold_left (set_dim_step P) (seq 0 Q) f).
Proof.
  intros I. assert (G : forall n, (n <= Q)%nat -> dim_inv n (fold_left (set_dim_step P) (seq 0 n) f)).
  { induction n as [|n IH]; intros Hn; [exact I|]. rewrite seq_S, fold_left_app. cbn [fold_left Nat.add].
    apply step_inv; [lia|]. apply IH. lia. }
  apply G. lia.
Qed.

Lemma fill_zeros_get (keys : list dims) (d : dict nat) ad :
  dict_get (fold_left (fun d ad => if dict_mem d ad then d else dict_set d ad 0%nat) keys d) ad
  = match dict_get d ad with
    | Ok c => Ok c
    | Err e => if existsb (dims_eqb ad) keys then Ok 0%nat else Err e
    end.
Proof.
  revert d. induction keys as [|k keys IH]; intros d; cbn.
  - destruct (dict_get d ad); reflexivity.
  - rewrite IH. unfold dict_mem. destruct (dict_get d k) as [v|e] eqn:E.
    + destruct (dims_eqb ad k) eqn:Ek; [|reflexivity]. apply dims_eqb_true in Ek. subst. rewrite E. reflexivity.
    + rewrite dict_get_set. destruct (dims_eqb ad k) eqn:Ek; [|reflexivity].
      apply dims_eqb_true in Ek. subst. rewrite E. reflexivity.
Qed.

End SetDim.

(** What a FunctionalKernel with input dimension set looks like. *)
Record dims_ok (f : fkernel) : Prop := {
  do_some : forall q, (q < f_Q f)%nat -> exists ad, dims_of f q = Some ad;
  do_nodup : NoDup (map fst (f_active f));
  do_active : forall ad, dict_get (f_active f) ad =
    match group f ad with [] => Err KeyError | l => Ok l end;
  do_lmc : forall ad, group f ad <> [] ->
    dict_get (f_lmc f) ad = Ok (length (filter (fun q => Nat.ltb q (f_nl f)) (group f ad)));
  do_slfm : forall ad, group f ad <> [] ->
    dict_get (f_slfm f) ad =
      Ok (length (filter (fun q => (negb (Nat.ltb q (f_nl f)) && Nat.ltb q (f_nl f + f_ns f))%bool) (group f ad)));
  do_indep : forall ad, group f ad <> [] ->
    dict_get (f_indep f) ad = Ok (length (filter (fun q => negb (Nat.ltb q (f_nl f + f_ns f))) (group f ad)))
}.

Definition fresh_dims (f : fkernel) : Prop :=
  f_P f = None /\ f_active f = [] /\ f_lmc f = [] /\ f_slfm f = [] /\ f_indep f = [].

Lemma filter_filter {A} (p q : A -> bool) l : filter p (filter q l) = filter (fun x => (p x && q x)%bool) l.
Proof.
  induction l as [|x l IH]; cbn; [reflexivity|]. destruct (q x); cbn; rewrite IH, ?Bool.andb_true_r, ?Bool.andb_false_r; reflexivity.
Qed.

Lemma set_input_dim_fresh f P f' :
  fresh_dims f -> set_input_dim f P = Ok f' ->
  f_D f' = f_D f /\ f_vecs f' = f_vecs f /\ f_diags f' = f_diags f /\ f_noise f' = f_noise f /\
  f_nl f' = f_nl f /\ f_ns f' = f_ns f /\ f_P f' = Some P /\ f_Q f' = f_Q f /\
  (forall q, (q < f_Q f)%nat -> kern_of f' q = kern_of f q /\ dims_of f' q = Some (norm_dims P (dims_of f q))) /\
  dims_ok f'.
Proof.
  intros (HP & HA & HL & HS & HI) E. unfold set_input_dim in E. rewrite HP in E. cbv zeta in E.
  cbn [f_kernels] in E.
  set (f0 := mk_fk (f_D f) (f_kernels f) (f_vecs f) (f_diags f) (f_noise f) (f_nl f) (f_ns f)
                   (Some P) (f_active f) (f_lmc f) (f_slfm f) (f_indep f)) in E.
  assert (I0 : dim_inv P f0 0 f0).
  { split; try reflexivity.
    - intros q Hq. unfold kern_of, dims_of. destruct (nth q (f_kernels f0) _); reflexivity.
    - cbn. rewrite HA. constructor.
    - intros ad. cbn. rewrite HA. reflexivity.
    - intros ad. cbn. rewrite HL. reflexivity.
    - intros ad. cbn. rewrite HS. reflexivity.
    - intros ad. cbn. rewrite HI. reflexivity. }
  pose proof (fold_inv P f0 f0 I0) as I. change (length (f_kernels f0)) with (length (f_kernels f)) in I.
  set (g := fold_left (set_dim_step P) (seq 0 (length (f_kernels f))) f0) in *.
  apply Ok_inj in E. subst f'.
  assert (EK : forall q, (q < length (f_kernels f))%nat ->
     nth q (f_kernels g) (KIdentity, None) = (kern_of f q, Some (norm_dims P (dims_of f q)))).
  { intros q Hq. rewrite (di_k _ _ _ _ I q Hq).
    replace (Nat.ltb q (length (f_kernels f))) with true by (symmetry; apply Nat.ltb_lt; assumption).
    reflexivity. }
  split; [apply I|]. split; [apply I|]. split; [apply I|]. split; [apply I|]. split; [apply I|].
  split; [apply I|]. split; [cbn; rewrite (di_P _ _ _ _ I); reflexivity|].
  split; [apply (di_len _ _ _ _ I)|]. split.
  { intros q Hq. unfold kern_of at 1, dims_of at 1. cbn [f_kernels]. rewrite EK by assumption. auto. }
  set (f' := mk_fk _ _ _ _ _ _ _ _ _ _ _ _).
  assert (EG : forall ad, group f' ad = filter (fun q => eqd (norm_dims P (dims_of f q)) ad) (seq 0 (length (f_kernels f)))).
  { intros ad. unfold group. change (f_Q f') with (length (f_kernels g)). rewrite (di_len _ _ _ _ I).
    apply filter_ext_in. intros q Hq. apply in_seq in Hq. unfold dims_of at 1. cbn [f_kernels f'].
    rewrite EK by (cbn in Hq; lia). reflexivity. }
  assert (EAct : forall ad, dict_get (f_active g) ad = match group f' ad with [] => Err KeyError | l => Ok l end).
  { intros ad. rewrite (di_active _ _ _ _ I), EG. reflexivity. }
  assert (CNT : forall p ad, cnt P f0 p (length (f_kernels f)) ad = length (filter p (group f' ad))).
  { intros p ad. unfold cnt. rewrite EG, filter_filter. reflexivity. }
  assert (ZERO : forall d p ad, (forall ad, dict_get d ad = opt_cnt (cnt P f0 p (length (f_kernels f)) ad)) ->
     group f' ad <> [] -> dict_get (fill_zeros (f_active g) d) ad = Ok (length (filter p (group f' ad)))).
  { intros d p ad Hd Hg. unfold fill_zeros. rewrite fill_zeros_get, Hd, CNT.
    destruct (length (filter p (group f' ad))) eqn:El; cbn [opt_cnt]; [|reflexivity].
    replace (existsb (dims_eqb ad) (map fst (f_active g))) with true; [reflexivity|].
    symmetry. apply existsb_exists. exists ad. split; [|apply dims_eqb_refl].
    apply dict_key. rewrite EAct. destruct (group f' ad); [congruence|eauto]. }
  split.
  - intros q Hq. change (f_Q f') with (length (f_kernels g)) in Hq. rewrite (di_len _ _ _ _ I) in Hq.
    unfold dims_of. cbn [f_kernels f']. rewrite EK by assumption. eexists. reflexivity.
  - apply (di_nodup _ _ _ _ I).
  - exact EAct.
  - intros ad Hg. cbn [f_lmc f' f_nl f_ns]. rewrite (di_nl _ _ _ _ I).
    apply (ZERO _ (fun q => Nat.ltb q (f_nl f0))); [apply I|assumption].
  - intros ad Hg. cbn [f_slfm f' f_nl f_ns]. rewrite (di_nl _ _ _ _ I), (di_ns _ _ _ _ I).
    apply (ZERO _ (fun q => (negb (Nat.ltb q (f_nl f0)) && Nat.ltb q (f_nl f0 + f_ns f0))%bool)); [apply I|assumption].
  - intros ad Hg. cbn [f_indep f' f_nl f_ns]. rewrite (di_nl _ _ _ _ I), (di_ns _ _ _ _ I).
    apply (ZERO _ (fun q => negb (Nat.ltb q (f_nl f0 + f_ns f0)))); [apply I|assumption].
Qed.

(** ** Invariant of reachable kernels *)

Record fk_ok (f : fkernel) : Prop := {
  ok_D : (0 < f_D f)%nat;
  ok_Q : (0 < f_Q f)%nat;
  ok_nvecs : length (f_vecs f) = f_Q f;
  ok_ndiags : length (f_diags f) = f_Q f;
  ok_ln : (f_nl f + f_ns f <= f_Q f)%nat;
  ok_vec : forall q, (q < f_Q f)%nat -> exists r, (0 < r)%nat /\ is_mx r (f_D f) (nth q (f_vecs f) []);
  ok_vec_slfm : forall q, is_slfm f q -> length (nth q (f_vecs f) []) = 1%nat;
  ok_vec_indep : forall q, is_indep f q -> nth q (f_vecs f) [] = mk 1 (f_D f) (fun _ _ => 0);
  ok_diag : forall q, (q < f_Q f)%nat -> length (nth q (f_diags f) []) = f_D f;
  ok_diag_slfm : forall q, is_slfm f q -> nth q (f_diags f) [] = repeat 0 (f_D f);
  ok_diag_indep : forall q, is_indep f q ->
    exists d, (d < f_D f)%nat /\ nth q (f_diags f) [] = tab (f_D f) (fun i => if Nat.eqb i d then 1 else 0);
  ok_noise : length (f_noise f) = f_D f;
  ok_dims : match f_P f with None => fresh_dims f | Some _ => dims_ok f end
}.

Lemma nth_repeat_in {A} (x d : A) n i : (i < n)%nat -> nth i (repeat x n) d = x.
Proof. revert i; induction n as [|n IH]; intros [|i] H; cbn; try lia; auto. apply IH. lia. Qed.

Lemma map_result_forall {A B} (f : A -> result B) l l' :
  map_result f l = Ok l' -> length l' = length l /\
  forall i a b, (i < length l)%nat -> f (nth i l a) = Ok (nth i l' b).
Proof.
  revert l'. induction l as [|x l IH]; intros l' E; cbn in E.
  - apply Ok_inj in E. subst. split; [reflexivity|]. cbn. lia.
  - apply bind_ok in E. destruct E as [y [Ey E]]. apply bind_ok in E. destruct E as [ys [Eys E]].
    apply Ok_inj in E. subst l'. destruct (IH _ Eys) as [L N]. split; [cbn; lia|].
    intros [|i] a b Hi; cbn; [assumption|]. apply N. cbn in Hi. lia.
Qed.

Lemma set_at_ok d v a b : set_at d v a = Ok b ->
  exists k, (k < length a)%nat /\ (d = Z.of_nat k \/ d = (Z.of_nat k - Z.of_nat (length a))%Z) /\
    b = tab (length a) (fun i => if Nat.eqb i k then v else vget a i).
Proof.
  unfold set_at. destruct (Z.leb_spec (- Z.of_nat (length a)) d), (Z.ltb_spec d (Z.of_nat (length a)));
    cbn [andb]; try discriminate.
  intros E. apply Ok_inj in E. subst b.
  destruct (Z.ltb_spec d 0).
  - exists (Z.to_nat (d + Z.of_nat (length a))). split; [lia|]. split; [right; lia|reflexivity].
  - exists (Z.to_nat d). split; [lia|]. split; [left; lia|reflexivity].
Qed.

(** Everything the constructor establishes. *)
Lemma fk_init_ok rand D lmc ranks slfm indep index f :
  fk_init rand D lmc ranks slfm indep index = Ok f ->
  exists d, D = Some d /\ (0 < d)%nat /\ f_D f = d /\
    f_kernels f = given lmc ++ given slfm ++ given indep /\
    f_nl f = length (given lmc) /\ f_ns f = length (given slfm) /\
    lmc <> None /\ ranks <> None /\ ranks_ok (given lmc) (given ranks) /\
    f_noise f = repeat (1 / 10) d /\ fresh_dims f /\ (0 < f_Q f)%nat /\
    f_vecs f = initialize_Aq rand d (map Z.to_nat (given ranks)) (length (given slfm)) (length (given indep)) /\
    exists idx, idx = (if falsy index then tab (length (given indep)) Z.of_nat else given index) /\
      length idx = length (given indep) /\
      initialize_kq d (length (given lmc)) (length (given slfm)) idx = Ok (f_diags f).
Proof.
  unfold fk_init. destruct D as [[|d]|]; try discriminate. remember (S d) as dd eqn:Ed.
  destruct (falsy lmc && falsy slfm && falsy indep)%bool eqn:Ef; [discriminate|].
  intros H. apply bind_ok in H. destruct H as [n1 [H1 H]]. apply bind_ok in H. destruct H as [n2 [H2 H]].
  destruct lmc as [lmc|]; [|discriminate]. destruct ranks as [ranks|]; [|discriminate].
  cbn in H1, H2. apply Ok_inj in H1. apply Ok_inj in H2. subst n1 n2.
  destruct (Nat.eqb_spec (length lmc) (length ranks)) as [El|]; [|discriminate]. cbn [negb] in H.
  cbn [or_empty] in H. destruct (forallb (fun r => (0 <? r)%Z) ranks) eqn:Er; [|discriminate]. cbn [negb] in H.
  set (idx := if falsy index then _ else _) in H.
  destruct (Nat.eqb_spec (length (or_empty indep)) (length idx)) as [Ei|]; [|discriminate]. cbn [negb] in H.
  apply bind_ok in H. destruct H as [diags [Hd H]]. apply Ok_inj in H. subst f.
  exists dd. cbn [f_D f_kernels f_vecs f_diags f_noise f_nl f_ns].
  split; [reflexivity|]. split; [lia|]. split; [reflexivity|]. split; [reflexivity|]. split; [reflexivity|].
  split; [reflexivity|]. split; [discriminate|]. split; [discriminate|]. split.
  { split; [exact El|]. intros r Hr. cbn in Hr. rewrite forallb_forall in Er. apply Z.ltb_lt. auto. }
  split; [reflexivity|]. split; [repeat split; reflexivity|]. split.
  { unfold f_Q. cbn [f_kernels]. rewrite !app_length.
    destruct lmc as [|? ?], slfm as [[|? ?]|], indep as [[|? ?]|]; cbn in *; try lia; discriminate. }
  split; [reflexivity|]. exists idx. split; [reflexivity|]. split; [symmetry; exact Ei|exact Hd].
Qed.

Lemma initialize_Aq_nth rand D ranks ns ni q :
  nth q (initialize_Aq rand D ranks ns ni) [] =
  if Nat.ltb q (length ranks) then mk (nth q ranks 0%nat) D (rand q)
  else if Nat.ltb q (length ranks + ns) then mk 1 D (rand q)
  else if Nat.ltb q (length ranks + ns + ni) then mk 1 D (fun _ _ => 0) else [].
Proof.
  unfold initialize_Aq. set (ini := ranks ++ repeat 1%nat ns).
  assert (L : length ini = (length ranks + ns)%nat) by (unfold ini; rewrite app_length, repeat_length; reflexivity).
  destruct (Nat.ltb_spec q (length ranks + ns)) as [H|H].
  - rewrite app_nth1 by (rewrite tab_length; lia). rewrite nth_tab by lia. unfold ini.
    destruct (Nat.ltb_spec q (length ranks)).
    + rewrite app_nth1 by assumption. reflexivity.
    + rewrite app_nth2 by assumption. rewrite nth_repeat_in by lia. reflexivity.
  - destruct (Nat.ltb_spec q (length ranks)); [lia|].
    rewrite app_nth2 by (rewrite tab_length; lia). rewrite tab_length, L.
    destruct (Nat.ltb_spec q (length ranks + ns + ni)).
    + rewrite nth_repeat_in by lia. reflexivity.
    + apply nth_overflow. rewrite repeat_length. lia.
Qed.

Lemma initialize_kq_nth D nl ns idx diags :
  initialize_kq D nl ns idx = Ok diags ->
  length diags = (nl + ns + length idx)%nat /\
  (forall q, (q < nl)%nat -> nth q diags [] = repeat 1 D) /\
  (forall q, (nl <= q < nl + ns)%nat -> nth q diags [] = repeat 0 D) /\
  (forall i, (i < length idx)%nat -> exists k, (k < D)%nat /\
     (nth i idx 0%Z = Z.of_nat k \/ nth i idx 0%Z = (Z.of_nat k - Z.of_nat D)%Z) /\
     nth (nl + ns + i) diags [] = tab D (fun j => if Nat.eqb j k then 1 else 0)).
Proof.
  unfold initialize_kq. intros E. apply bind_ok in E. destruct E as [ind [Ei E]]. apply Ok_inj in E. subst diags.
  destruct (map_result_forall _ _ _ Ei) as [L N]. unfold vec in *.
  split; [rewrite !app_length, !repeat_length; lia|]. split; [|split].
  - intros q Hq. rewrite app_nth1 by (rewrite repeat_length; lia). apply nth_repeat_in; lia.
  - intros q Hq. rewrite app_nth2, repeat_length by (rewrite repeat_length; lia).
    rewrite app_nth1 by (rewrite repeat_length; lia). apply nth_repeat_in; lia.
  - intros i Hi. specialize (N i 0%Z [] Hi). apply set_at_ok in N. rewrite repeat_length in N.
    destruct N as [k [Hk [Hd Hn]]]. exists k. split; [assumption|]. split; [assumption|].
    rewrite app_nth2, repeat_length by (rewrite repeat_length; lia).
    rewrite app_nth2, repeat_length by (rewrite repeat_length; lia).
    replace (nl + ns + i - nl - ns)%nat with i by lia. rewrite Hn.
    apply tab_ext. intros j Hj. destruct (Nat.eqb j k); [reflexivity|].
    unfold vget. apply nth_repeat_in. assumption.
Qed.

Lemma init_ok rand D lmc ranks slfm indep index f :
  fk_init rand D lmc ranks slfm indep index = Ok f -> fk_ok f.
Proof.
  intros H. apply fk_init_ok in H.
  destruct H as (d & ED & Hd & EfD & EK & Enl & Ens & _ & _ & (Elen & Erk) & En & Efr & HQ & EV & idx & _ & Li & EQ).
  apply initialize_kq_nth in EQ. destruct EQ as (Ld & D1 & D2 & D3).
  assert (LQ : f_Q f = (length (given lmc) + length (given slfm) + length (given indep))%nat).
  { unfold f_Q. rewrite EK, !app_length. lia. }
  assert (NV : forall q, nth q (f_vecs f) [] = _) by (intros q; rewrite EV; apply initialize_Aq_nth).
  rewrite map_length in NV.
  split.
  - lia.
  - assumption.
  - rewrite EV. unfold initialize_Aq. rewrite app_length, tab_length, repeat_length, app_length, map_length, repeat_length. lia.
  - lia.
  - lia.
  - intros q Hq. rewrite NV, EfD. destruct (Nat.ltb_spec q (length (given ranks))).
    + exists (nth q (map Z.to_nat (given ranks)) 0%nat). split; [|apply mk_is_mx].
      change 0%nat with (Z.to_nat 0) at 2. rewrite map_nth.
      specialize (Erk (nth q (given ranks) 0%Z) (nth_In _ _ H)). lia.
    + destruct (Nat.ltb_spec q (length (given ranks) + length (given slfm))); [exists 1%nat; split; [lia|apply mk_is_mx]|].
      destruct (Nat.ltb_spec q (length (given ranks) + length (given slfm) + length (given indep))); [|lia].
      exists 1%nat; split; [lia|apply mk_is_mx].
  - intros q [H1 H2]. rewrite NV. rewrite Enl, Ens in *.
    destruct (Nat.ltb_spec q (length (given ranks))); [lia|].
    destruct (Nat.ltb_spec q (length (given ranks) + length (given slfm))); [reflexivity|lia].
  - intros q [H1 H2]. rewrite NV, EfD. rewrite Enl, Ens in *.
    destruct (Nat.ltb_spec q (length (given ranks))); [lia|].
    destruct (Nat.ltb_spec q (length (given ranks) + length (given slfm))); [lia|].
    destruct (Nat.ltb_spec q (length (given ranks) + length (given slfm) + length (given indep))); [reflexivity|lia].
  - intros q Hq. rewrite EfD. destruct (Nat.lt_ge_cases q (length (given lmc))).
    { rewrite D1 by assumption. apply repeat_length. }
    destruct (Nat.lt_ge_cases q (length (given lmc) + length (given slfm))).
    { rewrite D2 by lia. apply repeat_length. }
    destruct (D3 (q - length (given lmc) - length (given slfm))%nat) as [k [_ [_ Hk]]]; [lia|].
    replace (length (given lmc) + length (given slfm) + (q - length (given lmc) - length (given slfm)))%nat with q in Hk by lia.
    rewrite Hk. apply tab_length.
  - intros q [H1 H2]. rewrite EfD. apply D2. lia.
  - intros q [H1 H2]. rewrite EfD.
    destruct (D3 (q - length (given lmc) - length (given slfm))%nat) as [k [Hk [_ Hn]]]; [lia|].
    replace (length (given lmc) + length (given slfm) + (q - length (given lmc) - length (given slfm)))%nat with q in Hn by lia.
    exists k. auto.
  - rewrite En, EfD. apply repeat_length.
  - destruct Efr as (HP & Hr). rewrite HP. split; auto.
Qed.

Lemma map_snd_combine {A B} (l : list A) (l' : list B) : length l = length l' -> map snd (combine l l') = l'.
Proof. revert l'. induction l as [|x l IH]; intros [|y l'] H; cbn in *; try lia; f_equal; auto. Qed.
Lemma map_fst_combine {A B} (l : list A) (l' : list B) : length l = length l' -> map fst (combine l l') = l.
Proof. revert l'. induction l as [|x l IH]; intros [|y l'] H; cbn in *; try lia; f_equal; auto. Qed.

Lemma Forall2_len {A B} (Rl : A -> B -> Prop) l l' : Forall2 Rl l l' -> length l = length l'.
Proof. induction 1; cbn; auto. Qed.

Lemma set_values_Q f ks vecs diags noise :
  update_ok f ks vecs diags noise -> f_Q (set_values f ks vecs diags noise) = f_Q f.
Proof.
  intros U. unfold f_Q, set_values. cbn [f_kernels]. rewrite combine_length, map_length.
  pose proof (Forall2_len _ _ _ (u_ks _ _ _ _ _ U)) as L. rewrite map_length in L. lia.
Qed.

Lemma set_values_dims f ks vecs diags noise q :
  update_ok f ks vecs diags noise -> dims_of (set_values f ks vecs diags noise) q = dims_of f q.
Proof.
  intros U. pose proof (Forall2_len _ _ _ (u_ks _ _ _ _ _ U)) as L. rewrite map_length in L.
  unfold dims_of, set_values. cbn [f_kernels].
  change (snd (nth q (combine ks (map snd (f_kernels f))) (KIdentity, None)))
    with (snd (nth q (combine ks (map snd (f_kernels f))) (KIdentity, None))).
  rewrite <- !(map_nth snd). rewrite map_snd_combine by (rewrite map_length; lia). reflexivity.
Qed.

Lemma group_ext f g ad : f_Q g = f_Q f -> (forall q, dims_of g q = dims_of f q) -> group g ad = group f ad.
Proof. intros EQ ED. unfold group. rewrite EQ. apply filter_ext. intros q. rewrite ED. reflexivity. Qed.

Lemma update_fk_ok f ks vecs diags noise :
  fk_ok f -> update_ok f ks vecs diags noise -> fk_ok (set_values f ks vecs diags noise).
Proof.
  intros I U. pose proof (set_values_Q _ _ _ _ _ U) as EQ.
  assert (EG : forall ad, group (set_values f ks vecs diags noise) ad = group f ad)
    by (intros ad; apply group_ext; [assumption|intros; now apply set_values_dims]).
  split; rewrite ?EQ; cbn [set_values f_D f_vecs f_diags f_noise f_nl f_ns f_P].
  - apply I.
  - apply I.
  - rewrite (u_vecs _ _ _ _ _ U). apply I.
  - rewrite (u_diags _ _ _ _ _ U). apply I.
  - apply I.
  - intros q Hq. destruct (ok_vec _ I q Hq) as [r [Hr M]]. exists r. split; [assumption|].
    destruct (Nat.lt_ge_cases q (f_nl f + f_ns f)).
    + pose proof (u_vec _ _ _ _ _ U q H) as V. rewrite (proj1 M) in V. exact V.
    + rewrite (u_vec_indep _ _ _ _ _ U q H). exact M.
  - intros q [H1 H2]. cbn in H1, H2.
    rewrite (proj1 (u_vec _ _ _ _ _ U q H2)). apply (ok_vec_slfm _ I). split; assumption.
  - intros q [H1 H2]. rewrite EQ in H2. cbn in H1, H2. rewrite (u_vec_indep _ _ _ _ _ U q H1). apply (ok_vec_indep _ I). split; assumption.
  - intros q Hq. destruct (Nat.lt_ge_cases q (f_nl f)).
    + apply (u_diag _ _ _ _ _ U). assumption.
    + rewrite (u_diag_fixed _ _ _ _ _ U q H). apply I. assumption.
  - intros q [H1 H2]. cbn in H1, H2. rewrite (u_diag_fixed _ _ _ _ _ U q) by lia. apply (ok_diag_slfm _ I). split; assumption.
  - intros q [H1 H2]. rewrite EQ in H2. cbn in H1, H2. rewrite (u_diag_fixed _ _ _ _ _ U q) by lia.
    apply (ok_diag_indep _ I). split; assumption.
  - apply (u_noise _ _ _ _ _ U).
  - pose proof (ok_dims _ I) as DI. destruct (f_P f) eqn:EP.
    + split; cbn [set_values f_active f_lmc f_slfm f_indep f_nl f_ns].
      * rewrite EQ. intros q Hq. rewrite set_values_dims by assumption. apply DI. assumption.
      * apply DI.
      * intros ad. rewrite EG. apply DI.
      * intros ad. rewrite EG. apply DI.
      * intros ad. rewrite EG. apply DI.
      * intros ad. rewrite EG. apply DI.
    + unfold fresh_dims in *. cbn. tauto.
Qed.

Lemma dim_fk_ok f P f' : fk_ok f -> set_input_dim f P = Ok f' -> fk_ok f' /\ f_P f' = Some P.
Proof.
  intros I E. pose proof (ok_dims _ I) as DI. destruct (f_P f) as [P'|] eqn:EP.
  - unfold set_input_dim in E. rewrite EP in E. destruct (Nat.eqb_spec P' P) as [Hpp|]; [subst P'|discriminate].
    apply Ok_inj in E. subst f'. auto.
  - destruct (set_input_dim_fresh f P f' DI E) as (E1 & E2 & E3 & E4 & E5 & E6 & E7 & E8 & E9 & DO).
    split; [|assumption]. destruct I.
    split; unfold is_slfm, is_indep in *; rewrite ?E1, ?E2, ?E3, ?E4, ?E5, ?E6, ?E7, ?E8; assumption.
Qed.

Lemma reach_ok f : reach f -> fk_ok f.
Proof.
  induction 1; [eapply init_ok; eassumption|eapply dim_fk_ok; eassumption|apply update_fk_ok; assumption].
Qed.

(** ** Coregionalization matrices *)

Lemma coreg_mat_ok r D a k : (0 < r)%nat -> (0 < D)%nat -> is_mx r D a -> length k = D ->
  coreg_mat a k = mk D D (fun i j => Rsum r (fun t => mget a t i * mget a t j) + if Nat.eqb i j then vget k i else 0).
Proof.
  intros Hr HD Ha Hk. unfold coreg_mat. rewrite (ncols_is_mx r D a Ha Hr).
  unfold np_T. rewrite (proj1 Ha), (np_dot2_mk D r D _ a Ha Hr). unfold np_diag. rewrite Hk.
  rewrite madd_mk. reflexivity.
Qed.

Lemma coreg_mat_of f q : fk_ok f -> (q < f_Q f)%nat ->
  coreg_mat (nth q (f_vecs f) []) (nth q (f_diags f) []) = mk (f_D f) (f_D f) (B_of f q).
Proof.
  intros I Hq. destruct (ok_vec _ I q Hq) as [r [Hr Hm]].
  rewrite (coreg_mat_ok r (f_D f)); auto; [|apply I|apply I; assumption].
  apply mk_ext. intros i j Hi Hj. unfold B_of. rewrite (proj1 Hm). reflexivity.
Qed.

Lemma combine_map_nth {A B} (l : list A) (l' : list B) a b idxs :
  combine (map (fun i => nth i l a) idxs) (map (fun i => nth i l' b) idxs)
  = map (fun i => (nth i l a, nth i l' b)) idxs.
Proof. induction idxs as [|x idxs IH]; cbn; congruence. Qed.

Lemma coreg_mats_all f : fk_ok f ->
  coreg_mats f None = Ok (tab (f_Q f) (fun q => mk (f_D f) (f_D f) (B_of f q))).
Proof.
  intros I. unfold coreg_mats. cbn [bind fst snd]. f_equal.
  rewrite (@list_as_tab mx [] (f_vecs f)), (@list_as_tab vec [] (f_diags f)).
  rewrite (ok_nvecs _ I), (ok_ndiags _ I), combine_tab, map_tab. apply tab_ext.
  intros q Hq. cbn [fst snd]. apply coreg_mat_of; assumption.
Qed.

Lemma group_lt f ad q : In q (group f ad) -> (q < f_Q f)%nat.
Proof. unfold group. intros H. apply filter_In in H. destruct H as [H _]. apply in_seq in H. lia. Qed.

Lemma coreg_mats_group f ad P : fk_ok f -> f_P f = Some P -> group f ad <> [] ->
  coreg_mats f (Some ad) = Ok (map (fun q => mk (f_D f) (f_D f) (B_of f q)) (group f ad)).
Proof.
  intros I HP Hg. pose proof (ok_dims _ I) as DI. rewrite HP in DI.
  unfold coreg_mats. rewrite (do_active _ DI). destruct (group f ad) as [|q0 l] eqn:E; [congruence|].
  rewrite <- E. cbn [bind fst snd]. f_equal. rewrite combine_map_nth, map_map. apply map_ext_in.
  intros q Hq. cbn [fst snd]. apply coreg_mat_of; [assumption|]. apply (group_lt f ad). assumption.
Qed.

(** [set_at] accepts exactly the indices of numpy. *)
Lemma set_at_accepts d v a : (- Z.of_nat (length a) <= d < Z.of_nat (length a))%Z ->
  set_at d v a = Ok (tab (length a) (fun i => if Nat.eqb i (Z.to_nat (if Z.ltb d 0 then d + Z.of_nat (length a) else d)%Z) then v else vget a i)).
Proof.
  intros H. unfold set_at. destruct (Z.leb_spec (- Z.of_nat (length a)) d), (Z.ltb_spec d (Z.of_nat (length a))); try lia.
  cbn [andb]. reflexivity.
Qed.

Lemma map_result_all {A B} (f : A -> result B) g l :
  (forall x, In x l -> f x = Ok (g x)) -> map_result f l = Ok (map g l).
Proof.
  induction l as [|x l IH]; intros H; [reflexivity|]. cbn. rewrite H by (left; reflexivity). cbn [bind].
  rewrite IH by (intros; apply H; now right). reflexivity.
Qed.

Definition unit_vec (D : nat) (d : Z) : vec :=
  tab D (fun i => if Nat.eqb i (Z.to_nat (if Z.ltb d 0 then d + Z.of_nat D else d)%Z) then 1 else 0).

Lemma initialize_kq_ok D nl ns idx : (forall d, In d idx -> (- Z.of_nat D <= d < Z.of_nat D)%Z) ->
  initialize_kq D nl ns idx = Ok (repeat (repeat 1 D) nl ++ repeat (repeat 0 D) ns ++ map (unit_vec D) idx).
Proof.
  intros H. unfold initialize_kq. rewrite (map_result_all _ (unit_vec D)); [reflexivity|].
  intros d Hd. rewrite set_at_accepts by (rewrite repeat_length; auto). rewrite repeat_length. unfold unit_vec. f_equal.
  apply tab_ext. intros i Hi. destruct (Nat.eqb_spec i (Z.to_nat (if Z.ltb d 0 then d + Z.of_nat D else d)%Z)); [reflexivity|].
  unfold vget. rewrite nth_repeat_in; auto.
Qed.

(** ** Gradients *)

Lemma zip_assign_same {A} (old new : list A) : length old = length new -> zip_assign old new = new.
Proof. intros H. unfold zip_assign. rewrite H, firstn_all, <- H, skipn_all, app_nil_r. reflexivity. Qed.

Lemma zip_update_ok ks dks old :
  length dks = length ks -> length old = length ks ->
  (forall q, (q < length ks)%nat -> length (nth q dks []) = length (params (nth q ks KIdentity))) ->
  exists gs, zip_update ks dks old = Ok gs /\ length gs = length ks /\
    forall q, (q < length ks)%nat -> same_class (nth q ks KIdentity) (nth q gs KIdentity) /\
                                     params (nth q gs KIdentity) = nth q dks [].
Proof.
  revert dks old. induction ks as [|k ks IH]; intros [|dk dks] [|o old] L1 L2 H; cbn in L1, L2; try lia.
  - exists []. cbn. repeat split; cbn in *; lia.
  - destruct (update_gradient_ok k dk (H 0%nat ltac:(cbn; lia))) as [k' [E [C P]]].
    destruct (IH dks old ltac:(lia) ltac:(lia)) as [gs [E' [L' H']]].
    { intros q Hq. apply (H (S q)). cbn. lia. }
    exists (k' :: gs). cbn. rewrite E. cbn [bind]. rewrite E'. cbn [bind]. split; [reflexivity|]. split; [lia|].
    intros [|q] Hq; [auto|]. apply H'. lia.
Qed.

(** ** Groups *)

Lemma in_group f ad q : In q (group f ad) <-> (q < f_Q f)%nat /\ dims_of f q = Some ad.
Proof.
  unfold group. rewrite filter_In, in_seq. split.
  - intros [H1 H2]. split; [lia|]. destruct (dims_of f q) as [a|]; [|discriminate].
    destruct list_eq_dec; [congruence|discriminate].
  - intros [H1 H2]. split; [lia|]. rewrite H2. destruct list_eq_dec; [reflexivity|congruence].
Qed.

Lemma sorted_seq a n : StronglySorted lt (seq a n).
Proof.
  revert a; induction n as [|n IH]; intros a; cbn; constructor; [apply IH|].
  apply Forall_forall. intros x Hx. apply in_seq in Hx. lia.
Qed.

Lemma sorted_filter (p : nat -> bool) l : StronglySorted lt l -> StronglySorted lt (filter p l).
Proof.
  induction 1 as [|x l Hl IH Hx]; cbn; [constructor|]. destruct (p x); [|assumption].
  constructor; [assumption|]. apply Forall_forall. intros y Hy. apply filter_In in Hy.
  rewrite Forall_forall in Hx. apply Hx. apply Hy.
Qed.

Lemma group_sorted f ad : StronglySorted lt (group f ad).
Proof. apply sorted_filter, sorted_seq. Qed.

Lemma sorted_split (c : nat) l : StronglySorted lt l ->
  l = filter (fun q => Nat.ltb q c) l ++ filter (fun q => negb (Nat.ltb q c)) l.
Proof.
  induction 1 as [|x l Hl IH Hx]; [reflexivity|]. cbn [filter]. destruct (Nat.ltb_spec x c) as [H|H]; cbn [negb app].
  - f_equal. exact IH.
  - assert (E : filter (fun q => (q <? c)%nat) l = []).
    { rewrite Forall_forall in Hx. clear - Hx H. induction l as [|y l IHl]; cbn [filter]; [reflexivity|].
      pose proof (Hx y (or_introl eq_refl)). destruct (Nat.ltb_spec y c); [lia|]. apply IHl. intros z Hz. apply Hx. now right. }
    rewrite E in *. cbn [app] in *. f_equal. exact IH.
Qed.
