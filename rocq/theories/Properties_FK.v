(** Properties of runlmc/lmc/functional_kernel.py (C21, C22, C54). *)

From Coq Require Import Reals List Arith ZArith Lia Lra Sorted Permutation.
From Verif Require Import Base NDArray Model_Util Model_Linalg Model_Kern Model_FK Spec_Kern Spec_FK
  Proofs_Util Proofs_Linalg Proofs_Kern Proofs_FK.
Import ListNotations.
Open Scope R_scope.

(** ** C21: construction *)

Lemma indep_index_eq index ni :
  (if falsy index then tab ni Z.of_nat else given index) = indep_index index ni.
Proof. unfold indep_index, given. destruct index as [[|i l]|]; reflexivity. Qed.

(** Accepted arguments, and the matrices B_q that result. *)
Theorem C21_accepts :
  forall rand D lmc ranks slfm indep index,
    let nl := length lmc in
    let ns := length (given slfm) in
    let ni := length (given indep) in
    let idx := indep_index index ni in
    (0 < D)%nat -> (0 < nl + ns + ni)%nat -> ranks_ok lmc ranks -> length idx = ni ->
    (forall d, In d idx -> (- Z.of_nat D <= d < Z.of_nat D)%Z) ->
    exists f, fk_init rand (Some D) (Some lmc) (Some ranks) slfm indep index = Ok f /\
      f_Q f = (nl + ns + ni)%nat /\ f_D f = D /\
      f_kernels f = lmc ++ given slfm ++ given indep /\
      coreg_mats f None = Ok (tab (f_Q f) (fun q => mk D D (B_doc rand D ranks nl ns idx q))).
Proof.
  intros rand D lmc ranks slfm indep index nl ns ni idx HD HQ [Hlen Hpos] Hidx Hrange.
  assert (E : exists f, fk_init rand (Some D) (Some lmc) (Some ranks) slfm indep index = Ok f).
  { unfold fk_init. destruct D as [|D']; [lia|]. remember (S D') as D eqn:ED.
    replace (falsy (Some lmc) && falsy slfm && falsy indep)%bool with false.
    2:{ unfold nl, ns, ni in HQ. destruct lmc, slfm as [[|? ?]|], indep as [[|? ?]|]; cbn in *; try reflexivity; lia. }
    cbn [py_len bind]. rewrite Hlen, Nat.eqb_refl. cbn [negb or_empty].
    replace (forallb (fun r => (0 <? r)%Z) ranks) with true.
    2:{ symmetry. apply forallb_forall. intros r Hr. apply Z.ltb_lt. auto. }
    cbn [negb]. change (@or_empty Z) with (@given Z). change (@or_empty (kern * option dims)) with (@given (kern * option dims)).
    rewrite indep_index_eq. fold ni idx. rewrite Hidx, Nat.eqb_refl. cbn [negb].
    rewrite initialize_kq_ok by assumption. cbn [bind]. eexists. reflexivity. }
  destruct E as [f E]. exists f. split; [exact E|].
  pose proof (init_ok _ _ _ _ _ _ _ _ E) as I.
  destruct (fk_init_ok _ _ _ _ _ _ _ _ E) as (d & Ed & Hd & EfD & EK & Enl & Ens & _ & _ & _ & _ & _ & _ & EV & idx' & Ei & Li & Eq).
  injection Ed as <-. cbn [given] in *. rewrite indep_index_eq in Ei. fold ni idx in Ei. subst idx'.
  assert (LQ : f_Q f = (nl + ns + ni)%nat) by (unfold f_Q; rewrite EK, !app_length; unfold nl, ns, ni; lia).
  rewrite initialize_kq_ok in Eq by assumption. apply Ok_inj in Eq. fold nl ns in Eq.
  split; [exact LQ|]. split; [exact EfD|]. split; [exact EK|].
  rewrite (coreg_mats_all _ I). f_equal. apply tab_ext. intros q Hq. rewrite EfD. apply mk_ext. intros a b Ha Hb.
  unfold B_of, B_doc. rewrite EV, initialize_Aq_nth, map_length, <- Eq, <- Hlen. fold nl ns ni.
  destruct (Nat.ltb_spec q nl) as [H1|H1].
  - rewrite (nth_indep (map _ _) _ (Z.to_nat 0)) by (rewrite map_length; unfold nl in H1; lia).
    rewrite map_nth, app_nth1 by (rewrite repeat_length; lia). rewrite nth_repeat_in by lia.
    rewrite (proj1 (mk_is_mx _ _ _)). f_equal.
    + apply Rsum_ext. intros r Hr. rewrite !mget_mk by lia. reflexivity.
    + unfold vget. rewrite nth_repeat_in by lia. reflexivity.
  - destruct (Nat.ltb_spec q (nl + ns)) as [H2|H2].
    + rewrite (proj1 (mk_is_mx _ _ _)). cbn [Rsum]. rewrite !mget_mk by lia.
      rewrite app_nth2 by (rewrite repeat_length; lia). rewrite app_nth1 by (rewrite !repeat_length; lia).
      rewrite nth_repeat_in by (rewrite repeat_length; lia). unfold vget. rewrite nth_repeat_in by lia.
      destruct (Nat.eqb a b); ring.
    + destruct (Nat.ltb_spec q (nl + ns + ni)) as [H3|H3]; [|lia].
      rewrite (proj1 (mk_is_mx _ _ _)). cbn [Rsum]. rewrite !mget_mk by lia.
      rewrite app_nth2 by (rewrite repeat_length; lia). rewrite app_nth2 by (rewrite !repeat_length; lia).
      rewrite !repeat_length. replace (q - nl - ns)%nat with (q - (nl + ns))%nat by lia.
      rewrite (nth_indep (map _ _) _ (unit_vec D 0%Z)) by (rewrite map_length; lia).
      rewrite map_nth. unfold unit_vec, vget. cbv zeta. rewrite nth_tab by lia.
      set (dd := Z.to_nat _).
      destruct (Nat.eqb_spec a b); destruct (Nat.eqb_spec a dd); destruct (Nat.eqb_spec b dd); try lra; lia.
Qed.
Print Assumptions C21_accepts.

(** Rejected arguments (when the two LMC lists are given). *)
Theorem C21_rejects :
  forall rand D lmc ranks slfm indep index,
    D = None \/ D = Some 0%nat \/ (length lmc + length (given slfm) + length (given indep) = 0)%nat \/
    ~ ranks_ok lmc ranks \/ length (indep_index index (length (given indep))) <> length (given indep) ->
    fk_init rand D (Some lmc) (Some ranks) slfm indep index = Err ValueError.
Proof.
  intros rand D lmc ranks slfm indep index H. unfold fk_init. destruct D as [[|D]|]; try reflexivity.
  destruct (falsy (Some lmc) && falsy slfm && falsy indep)%bool eqn:Ef; [reflexivity|].
  cbn [py_len bind]. destruct (Nat.eqb_spec (length lmc) (length ranks)) as [El|]; [|reflexivity].
  cbn [negb or_empty]. destruct (forallb (fun r => (0 <? r)%Z) ranks) eqn:Er; [|reflexivity]. cbn [negb].
  change (@or_empty Z) with (@given Z). change (@or_empty (kern * option dims)) with (@given (kern * option dims)).
  rewrite indep_index_eq.
  destruct (Nat.eqb_spec (length (given indep)) (length (indep_index index (length (given indep))))) as [Ei|]; [|reflexivity].
  exfalso. destruct H as [H|[H|[H|[H|H]]]]; [discriminate|discriminate| | |congruence].
  - destruct lmc, slfm as [[|? ?]|], indep as [[|? ?]|]; cbn in *; try discriminate; lia.
  - apply H. split; [assumption|]. intros r Hr. apply Z.ltb_lt. rewrite forallb_forall in Er. auto.
Qed.
Print Assumptions C21_rejects.

(** B_q keeps its documented form in every state the parameters can reach. *)
Theorem C21_coreg_forms :
  forall f, reach f ->
    coreg_mats f None = Ok (tab (f_Q f) (fun q => mk (f_D f) (f_D f) (B_of f q))) /\
    (forall q a b, is_slfm f q -> (a < f_D f)%nat -> (b < f_D f)%nat ->
       B_of f q a b = mget (nth q (f_vecs f) []) 0 a * mget (nth q (f_vecs f) []) 0 b) /\
    (forall q, is_indep f q -> exists d, (d < f_D f)%nat /\
       forall a b, (a < f_D f)%nat -> (b < f_D f)%nat ->
         B_of f q a b = if (Nat.eqb a d && Nat.eqb b d)%bool then 1 else 0).
Proof.
  intros f Hf. pose proof (reach_ok _ Hf) as I. split; [exact (coreg_mats_all _ I)|]. split.
  - intros q a b Hq Ha Hb. unfold B_of. rewrite (ok_vec_slfm _ I q Hq), (ok_diag_slfm _ I q Hq). cbn [Rsum].
    unfold vget. rewrite nth_repeat_in by assumption. destruct (Nat.eqb a b); ring.
  - intros q Hq. destruct (ok_diag_indep _ I q Hq) as [d [Hd E]]. exists d. split; [assumption|].
    intros a b Ha Hb. unfold B_of. rewrite (ok_vec_indep _ I q Hq), E, (proj1 (mk_is_mx _ _ _)). cbn [Rsum].
    rewrite !mget_mk by lia. unfold vget. rewrite nth_tab by assumption.
    destruct (Nat.eqb_spec a b); destruct (Nat.eqb_spec a d); destruct (Nat.eqb_spec b d); cbn [andb]; try lra; lia.
Qed.
Print Assumptions C21_coreg_forms.

Definition ex_rand : nat -> nat -> nat -> R := fun i r d => INR i + INR r - INR d.
Definition ex_fk : result fkernel :=
  fk_init ex_rand (Some 3%nat) (Some [(RBF 1, None); (Matern32 2, Some [1%nat; 0%nat])]) (Some [2%Z; 1%Z])
          (Some [(RBF 3, None)]) (Some [(RBF 4, None); (RBF 5, None)]) (Some [2%Z; (-2)%Z]).
Example C21_ex : exists f,
  ex_fk = Ok f /\ f_Q f = 5%nat /\ reach f /\ is_slfm f 2 /\ is_indep f 4 /\ B_of f 4 1 1 = 1 /\ B_of f 4 2 2 = 0.
Proof.
  destruct ex_fk as [f|] eqn:E; [|discriminate E]. exists f. split; [reflexivity|].
  assert (Hr : reach f) by (eapply reach_init; exact E).
  vm_compute in E. apply Ok_inj in E. subst f.
  split; [reflexivity|]. split; [exact Hr|].
  unfold is_slfm, is_indep. cbn. split; [lia|]. split; [lia|].
  unfold B_of, mget, vget. cbn. split; ring.
Qed.

(** The optional LMC lists cannot be omitted, although the code goes on to
    default them: lines 98 and 101 take their length first. *)
Theorem C21_omitted_lists_refuted :
  exists rand D slfm, (0 < D)%nat /\ slfm <> [] /\
    fk_init rand (Some D) None None (Some slfm) None None = Err TypeError /\
    (exists f, fk_init rand (Some D) (Some []) (Some []) (Some slfm) None None = Ok f).
Proof.
  exists ex_rand, 2%nat, [(RBF 1, None)]. split; [lia|]. split; [discriminate|]. split; [reflexivity|].
  eexists. reflexivity.
Qed.
Print Assumptions C21_omitted_lists_refuted.

(** Output indices are not checked: an independent GP for an output that does
    not exist, or more of them than outputs, is an IndexError, not the
    documented ValueError. *)
Theorem C21_index_refuted :
  (exists rand D indep index, length indep = length index /\
     fk_init rand (Some D) (Some []) (Some []) None (Some indep) (Some index) = Err IndexError) /\
  (exists rand D indep,
     fk_init rand (Some D) (Some []) (Some []) None (Some indep) None = Err IndexError).
Proof.
  split.
  - exists ex_rand, 2%nat, [(RBF 1, None)], [2%Z]. split; reflexivity.
  - exists ex_rand, 1%nat, [(RBF 1, None); (RBF 2, None)]. reflexivity.
Qed.
Print Assumptions C21_index_refuted.

(** ** C22: grouping by active dimensions *)

Lemma count_split {A} (p : A -> bool) l : (length (filter p l) + length (filter (fun x => negb (p x)) l) = length l)%nat.
Proof. induction l as [|x l IH]; cbn; [reflexivity|]. destruct (p x); cbn; lia. Qed.

Theorem C22_groups :
  forall f P, reach f -> f_P f = Some P ->
    NoDup (map fst (f_active f)) /\
    (* every kernel is in exactly one group, that of its dimensions *)
    (forall q, (q < f_Q f)%nat -> exists ad l, dims_of f q = Some ad /\ dict_get (f_active f) ad = Ok l /\ In q l /\
       forall ad' l', In (ad', l') (f_active f) -> In q l' -> ad' = ad /\ l' = l) /\
    (* the groups *)
    (forall ad l, In (ad, l) (f_active f) ->
       l <> [] /\ StronglySorted lt l /\
       (forall q, In q l <-> (q < f_Q f)%nat /\ dims_of f q = Some ad) /\
       (exists indep, l = filter_non_indep f l ++ indep /\
          (forall q, In q (filter_non_indep f l) -> is_lmc f q \/ is_slfm f q) /\
          (forall q, In q indep -> is_indep f q)) /\
       exists nl ns ni, dict_get (f_lmc f) ad = Ok nl /\ dict_get (f_slfm f) ad = Ok ns /\ dict_get (f_indep f) ad = Ok ni /\
         (nl + ns + ni = length l)%nat /\ ((nl + ns)%nat = length (filter_non_indep f l)) /\
         (exists ls, NoDup ls /\ length ls = nl /\ forall q, In q ls <-> In q l /\ is_lmc f q)).
Proof.
  intros f P Hf HP. pose proof (reach_ok _ Hf) as I. pose proof (ok_dims _ I) as DI. rewrite HP in DI.
  assert (G : forall ad l, In (ad, l) (f_active f) -> l = group f ad /\ group f ad <> []).
  { intros ad l H. apply (dict_in_get _ _ _ (do_nodup _ DI)) in H. rewrite (do_active _ DI) in H.
    destruct (group f ad); [discriminate|]. apply Ok_inj in H. split; [congruence|discriminate]. }
  split; [apply DI|]. split.
  - intros q Hq. destruct (do_some _ DI q Hq) as [ad Ead].
    assert (Hin : In q (group f ad)) by (apply in_group; auto).
    exists ad, (group f ad). split; [assumption|]. split.
    { rewrite (do_active _ DI). destruct (group f ad); [destruct Hin|reflexivity]. }
    split; [assumption|]. intros ad' l' H' Hq'. apply G in H'. destruct H' as [-> _].
    apply in_group in Hq'. destruct Hq' as [_ Hq']. assert (ad' = ad) by congruence. subst. auto.
  - intros ad l H. apply G in H. destruct H as [-> Hne]. split; [assumption|]. split; [apply group_sorted|].
    split; [intros q; apply in_group|]. split.
    + eexists. split; [exact (sorted_split (f_nl f + f_ns f) _ (group_sorted f ad))|]. split.
      * intros q Hq. apply filter_In in Hq. destruct Hq as [_ Hq]. apply Nat.ltb_lt in Hq. unfold is_lmc, is_slfm. lia.
      * intros q Hq. apply filter_In in Hq. destruct Hq as [Hin Hq]. apply in_group in Hin.
        apply Bool.negb_true_iff, Nat.ltb_ge in Hq. unfold is_indep. lia.
    + pose proof (do_lmc _ DI ad Hne) as El. pose proof (do_slfm _ DI ad Hne) as Es. pose proof (do_indep _ DI ad Hne) as Ei.
      do 3 eexists. split; [exact El|]. split; [exact Es|]. split; [exact Ei|].
      set (g := group f ad).
      assert (E1 : length (filter_non_indep f g) =
         (length (filter (fun q => (q <? f_nl f)%nat) g) +
          length (filter (fun q => (negb (q <? f_nl f) && (q <? f_nl f + f_ns f))%nat%bool) g))%nat).
      { unfold filter_non_indep. rewrite <- (count_split (fun q => (q <? f_nl f)%nat) (filter (fun q => (q <? f_nl f + f_ns f)%nat) g)).
        rewrite !filter_filter. f_equal. f_equal. apply filter_ext. intros q.
        destruct (Nat.ltb_spec q (f_nl f)), (Nat.ltb_spec q (f_nl f + f_ns f)); cbn; try reflexivity; lia. }
      split; [rewrite <- E1; unfold filter_non_indep; apply count_split|]. split; [symmetry; exact E1|].
      exists (filter (fun q => (q <? f_nl f)%nat) g). split; [apply NoDup_filter; unfold g, group; apply NoDup_filter, seq_NoDup|].
      split; [reflexivity|]. intros q. rewrite filter_In, Nat.ltb_lt. unfold is_lmc. tauto.
Qed.
Print Assumptions C22_groups.

(** Total rank of a group: the rows of its coregionalization vectors, a row per
    LMC rank or SLFM kernel and none for independent kernels. *)
Theorem C22_total_rank :
  forall f P ad l, reach f -> f_P f = Some P -> (0 < P)%nat -> In (ad, l) (f_active f) ->
    total_rank f ad = Ok (nsum (map (fun q => length (nth q (f_vecs f) [])) (filter_non_indep f l))).
Proof.
  intros f P ad l Hf HP Hpos Hin. pose proof (reach_ok _ Hf) as I. pose proof (ok_dims _ I) as DI. rewrite HP in DI.
  unfold total_rank, assert_P. rewrite HP. destruct P; [lia|]. cbn [bind].
  rewrite (dict_in_get _ _ _ (do_nodup _ DI) Hin). cbn [bind]. f_equal. unfold filter_non_indep.
  clear. induction l as [|q l IH]; [reflexivity|]. unfold nsum in *. cbn [map fold_right filter]. rewrite IH.
  destruct (Nat.ltb q (f_nl f + f_ns f)); cbn; reflexivity.
Qed.
Print Assumptions C22_total_rank.

(** The first call gives kernels without dimensions all of them and sorts the
    rest; it changes nothing else. *)
Theorem C22_first_call :
  forall f P f', reach f -> f_P f = None -> set_input_dim f P = Ok f' ->
    f_P f' = Some P /\ f_Q f' = f_Q f /\ f_D f' = f_D f /\ f_vecs f' = f_vecs f /\ f_diags f' = f_diags f /\
    f_noise f' = f_noise f /\
    forall q, (q < f_Q f)%nat -> kern_of f' q = kern_of f q /\
      match dims_of f q with
      | None => dims_of f' q = Some (seq 0 P)
      | Some l => exists l', dims_of f' q = Some l' /\ Permutation l l' /\ StronglySorted le l'
      end.
Proof.
  intros f P f' Hf HP E. pose proof (reach_ok _ Hf) as I. pose proof (ok_dims _ I) as DI. rewrite HP in DI.
  destruct (set_input_dim_fresh f P f' DI E) as (E1 & E2 & E3 & E4 & E5 & E6 & E7 & E8 & E9 & _).
  split; [assumption|]. split; [assumption|]. split; [assumption|]. split; [assumption|]. split; [assumption|].
  split; [assumption|]. intros q Hq. destruct (E9 q Hq) as [Ek Ed]. split; [assumption|].
  destruct (dims_of f q) as [l|]; [|exact Ed]. exists (py_sorted l). split; [exact Ed|].
  split; [apply Permutation_sym, py_sorted_perm|apply py_sorted_sorted].
Qed.
Print Assumptions C22_first_call.

(** Later calls, whatever happened in between. *)
Theorem C22_later_calls :
  forall f P f', reach f -> set_input_dim f P = Ok f' ->
    forall g, clos f' g ->
      f_P g = Some P /\ set_input_dim g P = Ok g /\ (forall P', P' <> P -> set_input_dim g P' = Err ValueError).
Proof.
  intros f P f' Hf E g Hg.
  assert (HP : f_P g = Some P).
  { induction Hg as [|g P' g' Hg IH E'|g ks vecs diags noise Hg IH U].
    - apply (dim_fk_ok _ _ _ (reach_ok _ Hf) E).
    - unfold set_input_dim in E'. rewrite IH in E'. destruct (Nat.eqb P P'); [|discriminate].
      apply Ok_inj in E'. subst g'. exact IH.
    - exact IH. }
  split; [exact HP|]. unfold set_input_dim. rewrite HP. split; [rewrite Nat.eqb_refl; reflexivity|].
  intros P' N. destruct (Nat.eqb_spec P P'); [congruence|reflexivity].
Qed.
Print Assumptions C22_later_calls.

Definition ex_fk2 : result fkernel :=
  fk_init ex_rand (Some 2%nat) (Some [(RBF 1, None); (Matern32 2, Some [2%nat; 0%nat])]) (Some [2%Z; 1%Z])
          (Some [(RBF 3, Some [0%nat; 2%nat])]) (Some [(RBF 4, Some [0; 1; 2]%nat); (RBF 5, Some [1%nat])]) None.
Example C22_ex : exists f f',
  ex_fk2 = Ok f /\ set_input_dim f 3 = Ok f' /\ reach f' /\
  f_active f' = [([0; 1; 2], [0; 3]); ([0; 2], [1; 2]); ([1], [4])]%nat /\
  dict_get (f_indep f') [0; 2]%nat = Ok 0%nat /\ total_rank f' [0; 2]%nat = Ok 2%nat /\
  set_input_dim f' 2 = Err ValueError.
Proof.
  destruct ex_fk2 as [f|] eqn:E; [|discriminate E]. destruct (set_input_dim f 3) as [f'|] eqn:E'.
  2:{ apply Ok_inj in E. subst f. discriminate E'. }
  exists f, f'. split; [reflexivity|]. split; [exact E'|]. split.
  { eapply reach_dim; [eapply reach_init; exact E|exact E']. }
  apply Ok_inj in E. subst f. apply Ok_inj in E'. subst f'. repeat split.
Qed.

(** ** C54: delivery of gradients *)

Theorem C54_update_gradient :
  forall f P (g : gradients) (old : grad_slots),
    reach f -> f_P f = Some P -> (0 < P)%nat ->
    (* one gradient per parameter, of the parameter's shape *)
    length (g_vecs g) = f_Q f -> length (g_diags g) = f_Q f -> length (g_kernels g) = f_Q f ->
    (forall q, (q < f_Q f)%nat -> length (nth q (g_kernels g) []) = length (params (kern_of f q))) ->
    length (s_vecs old) = f_Q f -> length (s_diags old) = f_Q f -> length (s_kernels old) = f_Q f ->
    exists new, fk_update_gradient f g old = Ok new /\
      s_noise new = g_noise g /\
      length (s_vecs new) = f_Q f /\ length (s_diags new) = f_Q f /\ length (s_kernels new) = f_Q f /\
      forall q, (q < f_Q f)%nat ->
        nth q (s_vecs new) [] = nth q (g_vecs g) [] /\
        nth q (s_diags new) [] = nth q (g_diags g) [] /\
        same_class (kern_of f q) (nth q (s_kernels new) KIdentity) /\
        params (nth q (s_kernels new) KIdentity) = nth q (g_kernels g) [].
Proof.
  intros f P g old Hf HP Hpos L1 L2 L3 HL O1 O2 O3. unfold fk_update_gradient, assert_P. rewrite HP.
  destruct P; [lia|]. cbn [bind].
  destruct (zip_update_ok (map fst (f_kernels f)) (g_kernels g) (s_kernels old)) as [gs [E [Lg Hg]]].
  - rewrite map_length. exact L3.
  - rewrite map_length. exact O3.
  - intros q Hq. rewrite map_length in Hq. rewrite (HL q Hq). unfold kern_of.
    rewrite <- (map_nth fst). reflexivity.
  - rewrite E. cbn [bind]. eexists. split; [reflexivity|]. cbn [s_vecs s_diags s_kernels s_noise].
    rewrite !zip_assign_same by congruence. rewrite map_length in Lg, Hg.
    split; [reflexivity|]. split; [assumption|]. split; [assumption|]. split; [exact Lg|].
    intros q Hq. split; [reflexivity|]. split; [reflexivity|].
    specialize (Hg q Hq). unfold kern_of. rewrite <- (map_nth fst). exact Hg.
Qed.
Print Assumptions C54_update_gradient.

Example C54_ex : exists f f' g old new,
  ex_fk2 = Ok f /\ set_input_dim f 3 = Ok f' /\ reach f' /\ f_Q f' = 5%nat /\
  fk_update_gradient f' g old = Ok new /\ nth 1 (s_kernels new) KIdentity = Matern32 8 /\ nth 2 (s_diags new) [] = [3; 3].
Proof.
  destruct ex_fk2 as [f|] eqn:E; [|discriminate E]. destruct (set_input_dim f 3) as [f'|] eqn:E'.
  2:{ apply Ok_inj in E. subst f. discriminate E'. }
  exists f, f'.
  exists (mk_grads (repeat [[1; 2]] 5) [[1; 1]; [2; 2]; [3; 3]; [4; 4]; [5; 5]] [[7]; [8]; [9]; [10]; [11]] [1; 2]).
  exists (mk_slots (repeat [[0; 0]] 5) (repeat [0; 0] 5) (repeat (RBF 0) 5) [0; 0]).
  eexists. split; [reflexivity|]. split; [exact E'|]. split.
  { eapply reach_dim; [eapply reach_init; exact E|exact E']. }
  apply Ok_inj in E. subst f. apply Ok_inj in E'. subst f'. repeat split; reflexivity.
Qed.
