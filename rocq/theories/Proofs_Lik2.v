(** The exact likelihood object and its gradients. *)

From Coq Require Import Reals List Arith Lia Lra ZArith.
From Coquelicot Require Import Coquelicot.
From Verif Require Import Base NDArray PSD Det Proofs_Shur Proofs_Det Model_Util Proofs_Util Model_Linalg Spec_Linalg Proofs_Linalg
  Model_Interp Model_Kern Spec_Kern Proofs_Kern Model_FK Spec_FK Proofs_FK Model_Grid Spec_Grid Proofs_Grid Proofs_Grid2
  Model_Lik Spec_Lik Proofs_Lik.
Import ListNotations.
Open Scope R_scope.

Lemma dist_on_sym ad x z : dist_on ad x z = dist_on ad z x.
Proof. unfold dist_on. f_equal. apply lsum_map_ext. intros p _. ring. Qed.

Lemma lmc_cov_sym f a x b z : lmc_cov f a x b z = lmc_cov f b z a x.
Proof. unfold lmc_cov. apply Rsum_ext. intros q _. rewrite (B_of_sym f q a b), (dist_on_sym _ x z). reflexivity. Qed.

Lemma K_obs_sym f P Xs lens n : sym n (K_obs f P Xs lens).
Proof.
  intros i j _ _. unfold K_obs. rewrite lmc_cov_sym. f_equal.
  rewrite (Nat.eqb_sym i j). destruct (Nat.eqb_spec j i); [subst; reflexivity|reflexivity].
Qed.

Lemma length_concat (Ys : list vec) : length (concat Ys) = nsum (map (@length R) Ys).
Proof. induction Ys as [|y Ys IH]; [reflexivity|]. cbn [concat map]. rewrite app_length, IH. reflexivity. Qed.

(** The gradient of the log density along a family of covariances. *)
Lemma gradient_gen n (Kt : R -> nat -> nat -> R) t F X a y :
  (forall s, sym n (Kt s)) -> pivots n (Kt t) -> mderive n Kt t F -> sym n F ->
  is_inv n (Kt t) X -> solves n (Kt t) a y ->
  is_gradient n Kt y t (1 / 2 * (Rsum n (fun i => Rsum n (fun j => a i * F i j * a j)) - Rsum n (fun i => Rsum n (fun j => X i j * F i j)))).
Proof.
  intros Hsym HPt Hm HsF HX' Ha.
  exists (fun s => - (1 / 2) * (ln (det n (Kt s)) + quad n (Kt s) y + INR n * ln (2 * PI))).
  split.
  - apply (filter_imp (fun s => pivots n (Kt s))); [|apply (pivots_locally n Kt t F Hm HPt)].
    intros s Hs. split; [apply det_pos; exact Hs|].
    destruct (solves_ex n (Kt s) y Hs) as [b Hb]. exists b. split; [exact Hb|].
    rewrite (quad_solves n (Kt s) _ b (Hsym s) Hs Hb). reflexivity.
  - assert (D1 := logdet_derive n Kt t F _ Hm (Hsym t) HsF HPt HX').
    assert (D2 := quad_derive n Kt (fun _ => y) t F (fun _ => 0) a Hm
                    ltac:(intros i Hi; apply (is_derive_const (y i))) (Hsym t) HsF HPt Ha).
    assert (D3 := is_derive_plus _ _ t _ _ D1 D2).
    assert (D4 := is_derive_plus _ (fun _ => INR n * ln (2 * PI)) t _ _ D3 (is_derive_const (INR n * ln (2 * PI)) t)).
    assert (D5 := is_derive_scal _ t (- (1 / 2)) _ D4).
    eapply is_derive_ext; [|match goal with |- is_derive _ _ ?v => replace v with (- (1 / 2) *
      (Rsum n (fun i => Rsum n (fun j => X i j * F i j)) +
       (2 * Rsum n (fun i => a i * 0) - Rsum n (fun i => Rsum n (fun j => a i * F i j * a j))) + 0)) end; [exact D5|]].
    + intros s. reflexivity.
    + rewrite (Rsum_zero n (fun i => a i * 0)) by (intros; ring). field.
Qed.

Lemma map_result_tab {A} (g : nat -> result A) (h : nat -> A) k :
  (forall i, (i < k)%nat -> g i = Ok (h i)) -> map_result g (seq 0 k) = Ok (tab k h).
Proof. intros H. apply map_result_all. intros i Hi. apply in_seq in Hi. apply H. lia. Qed.

Lemma combine_seq {A} (l : list A) d : combine (seq 0 (length l)) l = map (fun i => (i, nth i l d)) (seq 0 (length l)).
Proof. rewrite (list_as_tab d l) at 2. unfold tab. rewrite <- (map_id (seq 0 (length l))) at 1. rewrite combine_map_map. reflexivity. Qed.

Section Exact.
Variables (f : fkernel) (P : nat) (Xs : list ndarr) (Ys : list vec).
Let lens := map (@length R) Ys.
Let n := nsum lens.
Let K := K_obs f P Xs lens.
Let pt := obs P Xs lens.
Let own := owner lens.
Hypothesis Hok : fk_ok f.
Hypothesis HP : f_P f = Some P.
Hypothesis HPp : (0 < P)%nat.
Hypothesis Hker : kernels_ok f.
Hypothesis Hdr : dims_in_range f P.
Hypothesis HX : inputs P Xs lens.
Hypothesis HY : length Ys = f_D f.

Record exact_rep (e : exact_lik) : Prop := {
  er_y : el_y e = concat Ys;
  er_lens : el_lens e = lens;
  er_K : dense n n (el_K e) K;
  er_kern : forall q, (q < f_Q f)%nat -> exists a, nth_error (el_kernels e) q = Some (KArr a) /\
    dense n n a (fun i j => k_doc (kern_of f q) (dist_on (qdims f q) (pt i) (pt j)));
  er_grads : forall q, (q < f_Q f)%nat -> exists gs, nth_error (el_grads e) q = Some gs /\
    Forall2 (fun j v => exists a, v = KArr a /\ dense n n a (fun i l => nth j (k_grad (kern_of f q) (dist_on (qdims f q) (pt i) (pt l))) 0))
      (seq 0 (length (params (kern_of f q)))) gs;
  er_L : is_mx n n (el_L e);
  er_Lpos : forall i, (i < n)%nat -> 0 < mget (el_L e) i i;
  er_Llow : forall i j, (i < n)%nat -> (j < n)%nat -> (j < i)%nat -> mget (el_L e) i j = 0;
  er_LTL : forall i j, (i < n)%nat -> (j < n)%nat -> Rsum n (fun k => mget (el_L e) k i * mget (el_L e) k j) = K i j;
  er_logdet : ln (det n K) = 2 * Rsum n (fun i => ln (mget (el_L e) i i));
  er_Kinv : is_mx n n (el_Kinv e);
  er_inv : is_inv n K (mget (el_Kinv e));
  er_alpha : length (el_alpha e) = n;
  er_solve : solves n K (vget (el_alpha e)) (vget (concat Ys));
  er_potrs : forall b, solves n K (potrs n (mget (el_L e)) b) b
}.

Lemma nth_error_tab {A} k (g : nat -> A) i : (i < k)%nat -> nth_error (tab k g) i = Some (g i).
Proof. intros H. unfold tab. rewrite nth_error_map. rewrite (nth_error_nth' (seq 0 k) 0%nat) by now rewrite seq_length. cbn. now rewrite seq_nth. Qed.

Lemma exact_init_ok :
  (pivots n K -> exists e, exact_init f Xs Ys = Ok e /\ exact_rep e) /\
  (~ pivots n K -> exact_init f Xs Ys = Err LinAlgError).
Proof.
  assert (HD := ok_D _ Hok).
  assert (NX : Xs <> []) by (intros E; pose proof HX as H; rewrite E in H; apply Forall2_len in H; unfold lens in H; rewrite map_length in H; cbn in H; unfold vec in *; lia).
  assert (Hl : length lens = f_D f) by (unfold lens; now rewrite map_length).
  unfold exact_init. fold lens.
  destruct (vstack_ok P Xs lens HX NX) as [X [EX DX]]. rewrite EX. cbn [bind].
  destruct (gen_dists_ok (map fst (f_active f)) _ _ P X X _ _ DX DX) as [d [Ed [_ Hd]]].
  { intros ad p. apply keys_in_range; assumption. }
  rewrite Ed. cbn [bind].
  rewrite (eval_kernels_ok f P d _ _ _ Hok HP HPp Hker Hd). cbn [bind].
  destruct (sum_scaled_ok f P d _ _ _ Hok HP HPp Hd lens lens Hl Hl eq_refl eq_refl) as [K0 [EK0 HK0]].
  rewrite EK0. cbn [bind]. unfold repeat_counts at 1 2. rewrite Hl, (ok_noise _ Hok), Nat.eqb_refl. cbn [bind].
  assert (Hrl : length (np_repeat (f_noise f) lens) = n) by (apply np_repeat_length; rewrite (ok_noise _ Hok); exact Hl).
  assert (HE : dense n n (arr_diag (np_repeat (f_noise f) lens)) (fun i j => if Nat.eqb i j then vget (f_noise f) (own i) else 0)).
  { unfold arr_diag. rewrite Hrl. unfold np_diag. rewrite Hrl. eapply dense_ext; [|apply dense_np2].
    intros i j Hi Hj. cbv beta. destruct (Nat.eqb_spec i j); [|reflexivity].
    apply vget_repeat_owner; [rewrite (ok_noise _ Hok); exact Hl|exact Hi]. }
  destruct (dense_add n n _ _ _ _ HK0 HE) as [K1 [EK1 HK1]]. rewrite EK1. cbn [bind].
  assert (HK : dense n n K1 K) by (eapply dense_ext; [|exact HK1]; intros; reflexivity).
  assert (Hs : sym n K) by apply K_obs_sym.
  assert (Hag : agree n K (fun i j => vget (a_data K1) (i * n + j))).
  { intros i j Hi Hj. symmetry. apply HK; assumption. }
  unfold cho_factor. rewrite (proj1 HK), Nat.eqb_refl.
  split.
  - intros HPv. destruct (chol_ok n K _ Hs Hag HPv) as [U [EU [HU [Hld [Hlow [Hgr Hso]]]]]]. rewrite EU. cbn [bind].
    assert (LL : length (mk n n U) = n) by apply mk_is_mx.
    assert (HU' : agree n (mget (mk n n U)) U) by (intros i j Hi Hj; apply mget_mk; assumption).
    unfold cho_solve_mat, cho_solve. rewrite LL.
    assert (LI : length (np_identity n) = n) by apply mk_is_mx. rewrite LI, Nat.eqb_refl. cbn [bind].
    rewrite length_concat. fold lens. fold n. rewrite Nat.eqb_refl. cbn [bind].
    rewrite (eval_grads_ok f P d _ _ _ Hok HP HPp Hker Hd). cbn [bind].
    eexists. split; [reflexivity|]. split; cbn [el_y el_lens el_K el_kernels el_grads el_L el_Kinv el_alpha].
    + reflexivity.
    + reflexivity.
    + exact HK.
    + intros q Hq. rewrite nth_error_tab by exact Hq. eexists. split; [reflexivity|].
      apply (kval_dense f P d n n _ Hok HP Hd q (k_doc (kern_of f q)) Hq).
    + intros q Hq. rewrite nth_error_tab by exact Hq. eexists. split; [reflexivity|].
      apply Forall2_seq_tab. intros j Hj. eexists. split; [reflexivity|].
      apply (kval_dense f P d n n _ Hok HP Hd q (fun r => nth j (k_grad (kern_of f q) r) 0) Hq).
    + apply mk_is_mx.
    + intros i Hi. rewrite HU' by assumption. apply HU. exact Hi.
    + intros i j Hi Hj Hij. rewrite HU' by assumption. apply Hlow; assumption.
    + intros i j Hi Hj. rewrite <- Hgr by assumption. apply Rsum_ext. intros k Hk. rewrite !HU' by assumption. reflexivity.
    + rewrite Hld. f_equal. apply Rsum_ext. intros i Hi. rewrite HU' by assumption. reflexivity.
    + apply mk_is_mx.
    + intros i j Hi Hj.
      assert (S1 := Hso (fun r => id_f r j) i Hi). rewrite <- S1. apply Rsum_ext. intros k Hk. f_equal.
      rewrite mget_mk by assumption. apply potrs_ext; [exact HU'| |exact Hk].
      intros r Hr. unfold np_identity. rewrite mget_mk by assumption. reflexivity.
    + apply tab_length.
    + intros i Hi. rewrite <- (Hso (vget (concat Ys)) i Hi). apply Rsum_ext. intros k Hk. f_equal.
      rewrite vget_tab by exact Hk. apply potrs_ext; [exact HU'|reflexivity|exact Hk].
    + intros b i Hi. rewrite <- (Hso b i Hi). apply Rsum_ext. intros k Hk. f_equal.
      apply potrs_ext; [exact HU'|reflexivity|exact Hk].
  - intros HN. destruct (chol n _) as [U|] eqn:EU; [|reflexivity]. exfalso. apply HN. exact (chol_conv n K _ U Hs Hag EU).
Qed.

(** ** Gradients *)

Section Grads.
Variable e : exact_lik.
Hypothesis He : exact_rep e.

Definition grad_val (F : nat -> nat -> R) : R :=
  1 / 2 * (Rsum n (fun i => Rsum n (fun j => vget (el_alpha e) i * F i j * vget (el_alpha e) j))
           - Rsum n (fun i => Rsum n (fun j => mget (el_Kinv e) i j * F i j))).

Lemma dL_ok dK F : dense n n dK F -> dL_dK (exact_ops f e) dK = Ok (grad_val F).
Proof.
  intros H. unfold exact_ops. cbn [dL_dK]. unfold exact_d_quadratic, exact_d_logdet.
  rewrite (er_alpha e He), (proj1 (er_Kinv e He)), (proj1 H), !dims_eqb_refl. cbn [bind]. unfold derivative. f_equal.
  unfold grad_val. f_equal. f_equal.
  - rewrite (dense_rows n n dK F H), np_dot1_mk. unfold np_vdot. rewrite (er_alpha e He). apply Rsum_ext. intros i Hi.
    rewrite vget_tab by exact Hi. rewrite <- Rsum_scal_l. apply Rsum_ext. intros; ring.
  - destruct H as [H1 [H2 H3]].
    assert (EK : concat (el_Kinv e) = a_data (np2 n n (mk n n (mget (el_Kinv e))))).
    { unfold np2. cbn [a_data]. rewrite <- (mx_as_mk n n (el_Kinv e) (er_Kinv e He)). reflexivity. }
    destruct (dense_np2 n n (mget (el_Kinv e))) as [_ [D2 D3]]. rewrite EK. set (v := a_data (np2 n n (mk n n (mget (el_Kinv e))))) in *.
    rewrite (vec_as_tab (a_data dK)), (vec_as_tab v), H2, D2, combine_tab, map_tab, lsum_tab. cbn [fst snd].
    rewrite Rsum_flatten. apply Rsum_ext. intros i Hi. apply Rsum_ext. intros j Hj.
    rewrite H3, D3 by assumption. ring.
Qed.

Definition kq (q i j : nat) : R := k_doc (kern_of f q) (dist_on (qdims f q) (pt i) (pt j)).

Lemma lens_ne : lens <> [].
Proof. intros E. pose proof (ok_D _ Hok). assert (length lens = f_D f) by (unfold lens; now rewrite map_length). rewrite E in H0. cbn in H0. lia. Qed.

Lemma lens_D : length lens = f_D f.
Proof. unfold lens. now rewrite map_length. Qed.

Lemma dA_ok dA q : (q < f_Q f)%nat ->
  exists o, dK_dA (exact_ops f e) dA q = Ok o /\ dense n n o (fun i j => kq q i j * mget dA (own i) (own j)).
Proof.
  intros Hq. unfold exact_ops. cbn [dK_dA]. destruct (er_kern e He q Hq) as [a [Ea Ha]].
  unfold py_item, py_index. rewrite Ea. cbn [bind]. rewrite (er_lens e He).
  apply (coreg_scale_ok dA a lens lens (f_D f) _ lens_ne lens_D lens_D Ha).
Qed.

Lemma dEps_ok eps : length eps = f_D f ->
  exists o, dK_dEps (exact_ops f e) eps = Ok o /\ dense n n o (fun i j => if Nat.eqb i j then vget eps (own i) else 0).
Proof.
  intros Hl. unfold exact_ops. cbn [dK_dEps]. unfold repeat_counts. rewrite (er_lens e He), lens_D, Hl, Nat.eqb_refl. cbn [bind].
  eexists. split; [reflexivity|].
  assert (Hrl : length (np_repeat eps lens) = n) by (apply np_repeat_length; rewrite lens_D; auto).
  unfold arr_diag. rewrite Hrl. unfold np_diag. rewrite Hrl. eapply dense_ext; [|apply dense_np2].
  intros i j Hi Hj. cbv beta. destruct (Nat.eqb_spec i j); [|reflexivity].
  apply vget_repeat_owner; [rewrite lens_D; auto|exact Hi].
Qed.

Lemma dKq_ok A q : (q < f_Q f)%nat ->
  exists os, dKs_dKq (exact_ops f e) A q = Ok os /\
    Forall2 (fun j o => dense n n o (fun i l => nth j (k_grad (kern_of f q) (dist_on (qdims f q) (pt i) (pt l))) 0 * mget A (own i) (own l)))
      (seq 0 (length (params (kern_of f q)))) os.
Proof.
  intros Hq. unfold exact_ops. cbn [dKs_dKq]. destruct (er_grads e He q Hq) as [gs [Eg Hg]].
  unfold py_item, py_index. rewrite Eg. cbn [bind]. rewrite (er_lens e He). clear Eg.
  induction Hg as [|j v js gs [a [-> Ha]] _ IH].
  - exists []. split; [reflexivity|constructor].
  - cbn [map_result]. destruct (coreg_scale_ok A a lens lens (f_D f) _ lens_ne lens_D lens_D Ha) as [o [Eo Ho]].
    rewrite Eo. cbn [bind]. destruct IH as [os [Eos Hos]]. rewrite Eos. cbn [bind].
    eexists. split; [reflexivity|]. constructor; [exact Ho|exact Hos].
Qed.


Lemma vec_gradients_ok : coreg_vec_gradients (exact_ops f e) f =
  Ok (tab (f_Q f) (fun q => tab (length (nth q (f_vecs f) [])) (fun r => tab (f_D f) (fun j =>
       grad_val (fun i l => kq q i l * mget (dA_vec (f_D f) (nth r (nth q (f_vecs f) []) []) j) (own i) (own l)))))).
Proof.
  unfold coreg_vec_gradients. rewrite (@combine_seq mx _ []), map_result_map, (ok_nvecs _ Hok). cbn [fst snd].
  apply map_result_tab. intros q Hq.
  rewrite (list_as_tab [] (nth q (f_vecs f) [])) at 1. unfold tab at 1. rewrite map_result_map.
  apply map_result_tab. intros r Hr. apply map_result_tab. intros j Hj.
  destruct (dA_ok (dA_vec (f_D f) (nth r (nth q (f_vecs f) []) []) j) q Hq) as [o [Eo Ho]].
  rewrite Eo. cbn [bind]. apply dL_ok. exact Ho.
Qed.

Lemma diags_gradients_ok : coreg_diags_gradients (exact_ops f e) f =
  Ok (tab (f_Q f) (fun q => tab (f_D f) (fun d => grad_val (fun i l => kq q i l * mget (dA_diag (f_D f) d) (own i) (own l))))).
Proof.
  unfold coreg_diags_gradients. apply map_result_tab. intros q Hq. apply map_result_tab. intros d Hd.
  destruct (dA_ok (dA_diag (f_D f) d) q Hq) as [o [Eo Ho]]. rewrite Eo. cbn [bind]. apply dL_ok. exact Ho.
Qed.

Lemma kernel_gradients_ok : kernel_gradients (exact_ops f e) f =
  Ok (tab (f_Q f) (fun q => tab (length (params (kern_of f q))) (fun j =>
        grad_val (fun i l => nth j (k_grad (kern_of f q) (dist_on (qdims f q) (pt i) (pt l))) 0 * B_of f q (own i) (own l))))).
Proof.
  unfold kernel_gradients. rewrite (coreg_mats_all f Hok). cbn [bind].
  rewrite (@combine_seq mx _ []), map_result_map, tab_length. cbn [fst snd].
  apply map_result_tab. intros q Hq. rewrite nth_tab by exact Hq.
  destruct (dKq_ok (mk (f_D f) (f_D f) (B_of f q)) q Hq) as [os [Eos Hos]]. rewrite Eos. cbn [bind].
  clear Eos. unfold tab. induction Hos as [|j o js os Ho _ IH]; [reflexivity|].
  cbn [map_result]. rewrite (dL_ok o (fun i l => nth j (k_grad (kern_of f q) (dist_on (qdims f q) (pt i) (pt l))) 0 * B_of f q (own i) (own l))).
  - cbn [bind]. rewrite IH. reflexivity.
  - eapply dense_ext; [|exact Ho]. intros i l Hi Hl. cbv beta. rewrite mget_mk; [reflexivity| |];
    rewrite <- lens_D; apply owner_lt; assumption.
Qed.

Lemma noise_gradient_ok : noise_gradient (exact_ops f e) f =
  Ok (tab (f_D f) (fun d => grad_val (fun i l => if Nat.eqb i l then vget (d_noise (f_D f) d) (own i) else 0))).
Proof.
  unfold noise_gradient. rewrite (ok_noise _ Hok).
  rewrite (map_result_tab _ (fun d => grad_val (fun i l => if Nat.eqb i l then vget (d_noise (f_D f) d) (own i) else 0))).
  - cbn [bind]. rewrite Nat.sub_diag. cbn [repeat]. rewrite app_nil_r. reflexivity.
  - intros d Hd. destruct (dEps_ok (d_noise (f_D f) d)) as [o [Eo Ho]]; [apply tab_length|].
    rewrite Eo. cbn [bind]. rewrite (dL_ok o _ Ho). cbn [bind]. destruct (Nat.ltb_spec d (f_D f)); [reflexivity|lia].
Qed.

Lemma gradient_ok (Kt : R -> nat -> nat -> R) t F :
  (forall s, sym n (Kt s)) -> (forall i j, (i < n)%nat -> (j < n)%nat -> Kt t i j = K i j) ->
  pivots n K -> mderive n Kt t F -> sym n F ->
  is_gradient n Kt (vget (concat Ys)) t (grad_val F).
Proof.
  intros Hsym Ht HPv Hm HsF.
  apply (gradient_gen n Kt t F (mget (el_Kinv e)) (vget (el_alpha e))); try assumption.
  - apply (pivots_ext n K); [intros; symmetry; apply Ht; assumption|exact HPv].
  - intros i j Hi Hj. rewrite <- (er_inv e He i j Hi Hj). apply Rsum_ext. intros k Hk. rewrite Ht by assumption. reflexivity.
  - apply (solves_ext n K (Kt t) (vget (el_alpha e)) (vget (el_alpha e)) (vget (concat Ys))); auto; [|apply (er_solve e He)].
    intros; symmetry; apply Ht; assumption.
Qed.

End Grads.
End Exact.
