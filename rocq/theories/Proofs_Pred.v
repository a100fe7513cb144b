(** Prediction: prior variance, interpolated means. *)

From Coq Require Import Reals List Arith ZArith Lia Lra.
From Verif Require Import Base NDArray PSD Model_Util Proofs_Util Spec_Util Model_Linalg Spec_Linalg Proofs_Linalg Model_Interp Spec_Interp
  Proofs_Sparse Proofs_Interp Properties_Interp Model_Kern Spec_Kern Proofs_Kern Model_FK Spec_FK Proofs_FK Model_Grid Spec_Grid Proofs_Grid
  Proofs_Grid2 Model_Lik Spec_Lik Proofs_Lik Proofs_Lik2 Proofs_Lik7 Spec_GP Proofs_Gen Proofs_Gen2 Model_GP Spec_Pred.
Import ListNotations.
Open Scope R_scope.

(** ** Prior variance *)

Lemma length_mk r c F : length (mk r c F) = r.
Proof. apply tab_length. Qed.
Lemma ncols_mk' r c F : (0 < r)%nat -> ncols (mk r c F) = c.
Proof. intros H. apply (ncols_is_mx r); [apply mk_is_mx|exact H]. Qed.


Lemma identity_based_eq k : identity_based k = has_identity k.
Proof. induction k; auto. Qed.

Lemma column_stack_ok n k (F : nat -> nat -> R) : (0 < k)%nat ->
  column_stack (tab k (fun q => tab n (fun a => F q a))) = Ok (mk n k (fun a q => F q a)).
Proof.
  intros Hk. unfold column_stack. set (T := tab k (fun q => tab n (fun a => F q a))).
  assert (HT : forall q, (q < k)%nat -> nth q T [] = tab n (F q)) by (intros q Hq; unfold T; now rewrite nth_tab).
  assert (HL : length T = k) by apply tab_length.
  destruct T as [|v l] eqn:ET; [cbn in HL; lia|].
  assert (Hv : length v = n) by (specialize (HT 0%nat Hk); cbn in HT; subst v; apply tab_length).
  replace (forallb (fun w => Nat.eqb (length w) (length v)) (v :: l)) with true.
  - f_equal. unfold vec in *. rewrite HL, Hv. apply mk_ext. intros i j Hi Hj. rewrite HT by assumption. now rewrite vget_tab.
  - symmetry. apply forallb_forall. intros x Hx. apply (In_nth _ _ []) in Hx. destruct Hx as [q [Hq <-]]. rewrite HL in Hq.
    rewrite HT by assumption. rewrite tab_length, Hv. apply Nat.eqb_refl.
Qed.

Lemma square_sum0_ok r D a : (0 < r)%nat -> is_mx r D a ->
  square_sum0 a = tab D (fun d => Rsum (length a) (fun i => mget a i d * mget a i d)).
Proof.
  intros Hr [Hl Hrow]. unfold square_sum0. rewrite (ncols_is_mx r D a) by (auto; split; auto). apply tab_ext. intros d Hd.
  rewrite (list_as_tab [] a) at 1. rewrite map_tab, lsum_tab. reflexivity.
Qed.

Lemma native_ok f P : fk_ok f -> f_P f = Some P -> (0 < P)%nat -> kernels_ok f ->
  native_variance f =
    if existsb (fun q => identity_based (kern_of f q)) (seq 0 (f_Q f)) then Err AttributeError
    else Ok (tab (f_D f) (prior_var f)).
Proof.
  intros Hok HP HPp Hk. pose proof (ok_Q _ Hok) as HQ. pose proof (ok_D _ Hok) as HD. unfold native_variance.
  assert (E1 : map square_sum0 (f_vecs f) = tab (f_Q f) (fun q => tab (f_D f) (fun d =>
     Rsum (length (nth q (f_vecs f) [])) (fun i => mget (nth q (f_vecs f) []) i d * mget (nth q (f_vecs f) []) i d)))).
  { rewrite (@list_as_tab mx [] (f_vecs f)) at 1. rewrite map_tab, (ok_nvecs _ Hok). apply tab_ext. intros q Hq.
    destruct (ok_vec _ Hok q Hq) as [r [Hr Hm]]. now apply (square_sum0_ok r). }
  rewrite E1, column_stack_ok by exact HQ. cbn [bind].
  assert (E2 : f_diags f = tab (f_Q f) (fun q => tab (f_D f) (fun d => vget (nth q (f_diags f) []) d))).
  { rewrite (@list_as_tab vec [] (f_diags f)) at 1. rewrite (ok_ndiags _ Hok). apply tab_ext. intros q Hq.
    rewrite (list_as_tab 0 (nth q (f_diags f) [])) at 1. now rewrite (ok_diag _ Hok q Hq). }
  rewrite E2 at 1. rewrite column_stack_ok by exact HQ. cbn [bind].
  rewrite !length_mk, !ncols_mk', !Nat.eqb_refl by exact HD. cbn [andb negb]. rewrite madd_mk.
  assert (E3 : eval_kernels f (map (fun p => (fst p, PyNum 0)) (f_active f)) =
    if existsb (fun q => identity_based (kern_of f q)) (seq 0 (f_Q f)) then Err AttributeError
    else Ok (tab (f_Q f) (fun q => KArr (mk_arr [1%nat] [k_doc (kern_of f q) 0])))).
  { unfold eval_kernels. rewrite (assert_P_ok f P HP HPp). cbn [bind].
    rewrite (list_as_tab (KIdentity, None) (f_kernels f)). change (length (f_kernels f)) with (f_Q f). unfold tab.
    rewrite map_result_map.
    assert (G : forall l, (forall q, In q l -> (q < f_Q f)%nat) ->
      map_result (fun q => let! d := get_ad (map (fun p => (fst p, PyNum 0)) (f_active f)) (snd (nth q (f_kernels f) (KIdentity, None))) in
                           from_dist (fst (nth q (f_kernels f) (KIdentity, None))) d) l =
      if existsb (fun q => identity_based (kern_of f q)) l then Err AttributeError
      else Ok (map (fun q => KArr (mk_arr [1%nat] [k_doc (kern_of f q) 0])) l)).
    { induction l as [|q l IH]; intros Hl; [reflexivity|]. cbn [map_result existsb map].
      assert (Hq : (q < f_Q f)%nat) by (apply Hl; now left).
      assert (Ed : get_ad (map (fun p => (fst p, PyNum 0)) (f_active f)) (snd (nth q (f_kernels f) (KIdentity, None))) = Ok (PyNum 0)).
      { destruct (dims_key f P Hok HP q Hq) as [ad [Ed [_ Had]]]. unfold dims_of in Ed. rewrite Ed. cbn [get_ad].
        rewrite (dict_get_map (fun _ => PyNum 0)). apply dict_key in Had. destruct Had as [v ->]. reflexivity. }
      rewrite Ed. cbn [bind]. fold (kern_of f q). destruct (Hk q Hq) as [K1 K2]. rewrite from_dist_num by assumption.
      change has_identity with identity_based. destruct (identity_based (kern_of f q)); [reflexivity|]. cbn [bind orb].
      rewrite IH by (intros q' Hq'; apply Hl; now right).
      destruct (existsb _ l); reflexivity. }
    apply G. intros q Hq. apply in_seq in Hq. lia. }
  rewrite E3. destruct (existsb _ (seq 0 (f_Q f))); [reflexivity|]. cbn [bind].
  unfold tab at 1. rewrite map_result_map.
  rewrite (map_result_all _ (fun q => k_doc (kern_of f q) 0)) by (intros; reflexivity). cbn [bind].
  rewrite ncols_mk' by exact HD. rewrite map_length, seq_length, Nat.eqb_refl. cbn [negb].
  assert (EV : np_dot1 (mk (f_D f) (f_Q f) (fun i j => Rsum (length (nth j (f_vecs f) []))
       (fun i0 => mget (nth j (f_vecs f) []) i0 i * mget (nth j (f_vecs f) []) i0 i) + vget (nth j (f_diags f) []) i))
       (map (fun q => k_doc (kern_of f q) 0) (seq 0 (f_Q f)))
     = tab (f_D f) (fun a => Rsum (f_Q f) (fun q => B_of f q a a * k_doc (kern_of f q) 0))).
  { rewrite np_dot1_mk. apply tab_ext. intros a Ha. apply Rsum_ext. intros q Hq.
    change (map (fun q => k_doc (kern_of f q) 0) (seq 0 (f_Q f))) with (tab (f_Q f) (fun q => k_doc (kern_of f q) 0)).
    rewrite vget_tab by exact Hq. unfold B_of. now rewrite Nat.eqb_refl. }
  rewrite EV, tab_length, (ok_noise _ Hok), Nat.eqb_refl. cbn [negb]. f_equal.
  rewrite (list_as_tab 0 (f_noise f)), (ok_noise _ Hok). rewrite vadd_tab. apply tab_ext. intros a Ha. unfold prior_var. unfold vget. ring.
Qed.
