(** The approximate likelihood: its operators and their derivatives. *)

From Coq Require Import Reals List Arith Lia Lra ZArith.
From Coquelicot Require Import Coquelicot.
From Verif Require Import Base NDArray PSD Det Proofs_Shur Proofs_Det Model_Util Proofs_Util Model_Linalg Spec_Linalg Proofs_Linalg
  Model_Interp Model_Kern Spec_Kern Proofs_Kern Model_FK Spec_FK Proofs_FK Model_Grid Spec_Grid Proofs_Grid Proofs_Grid2
  Model_Lik Spec_Lik Proofs_Lik Proofs_Lik2 Proofs_Lik3 Proofs_Lik4.
Import ListNotations.
Open Scope R_scope.

Lemma ski_kron_ok X W WT D m n A K : represents X (d_kron (mk_den D D A) (mk_den m m K)) -> (0 < n)%nat ->
  interp_ok n (D * m) W WT -> exists o, ski X W WT = Ok o /\ represents o (mk_den n n (ski_entry W D m A K)).
Proof.
  intros HX Hn HI. destruct HI as [I1 I2 I3 I4 I5].
  destruct (ski_ok X W WT _ HX) as [o [E Ho]].
  - now rewrite I1.
  - cbn. exact I2.
  - cbn. now rewrite I2.
  - rewrite I1, I2. now split.
  - exists o. split; [exact E|]. eapply represents_ext; [exact Ho|]. 
    unfold ski_den. split; [cbn; now rewrite I1|]. split; [cbn; now rewrite I1|].
    intros i j Hi Hj. cbn [d_mul d_f d_c d_T W_den d_r d_kron]. rewrite I2. unfold ski_entry.
    apply Rsum_ext. intros u Hu. rewrite <- Rsum_scal_l. apply Rsum_ext. intros v Hv. ring.
Qed.

Lemma ski_entry_derive W D m (A K : R -> nat -> nat -> R) (t : R) (dA dK : nat -> nat -> R) i j :
  (0 < m)%nat ->
  (forall a b, (a < D)%nat -> (b < D)%nat -> is_derive (fun s => A s a b) t (dA a b)) -> (forall a b, is_derive (fun s => K s a b) t (dK a b)) ->
  is_derive (fun s => ski_entry W D m (A s) (K s) i j) t (ski_entry W D m dA (K t) i j + ski_entry W D m (A t) dK i j).
Proof.
  intros Hm HA HK. unfold ski_entry.
  match goal with |- is_derive _ _ ?zz => replace zz with (Rsum (D * m) (fun u => Rsum (D * m) (fun v =>
    sp_get W i u * (dA (u / m)%nat (v / m)%nat * K t (u mod m)%nat (v mod m)%nat + A t (u / m)%nat (v / m)%nat * dK (u mod m)%nat (v mod m)%nat) * sp_get W j v))) end.
  2:{ rewrite <- Rsum_plus. apply Rsum_ext. intros u _. rewrite <- Rsum_plus. apply Rsum_ext. intros v _. ring. }
  apply (is_derive_Rsum (D * m) (fun u s => Rsum (D * m) (fun v => _))). intros u Hu.
  apply (is_derive_Rsum (D * m) (fun v s => sp_get W i u * (A s (u / m)%nat (v / m)%nat * K s (u mod m)%nat (v mod m)%nat) * sp_get W j v)). intros v Hv.
  assert (Lu : (u / m < D)%nat) by (apply Nat.div_lt_upper_bound; lia).
  assert (Lv : (v / m < D)%nat) by (apply Nat.div_lt_upper_bound; lia).
  pose proof (is_derive_prod _ _ t _ _ (HA _ _ Lu Lv) (HK (u mod m)%nat (v mod m)%nat)) as H.
  set (w := sp_get W i u) in *. set (z := sp_get W j v) in *.
  apply (is_derive_ext (fun s => (w * z) * (A s (u / m)%nat (v / m)%nat * K s (u mod m)%nat (v mod m)%nat))); [intros x; match goal with |- ?l = ?r => change (@eq R l r) end; ring|].
  match goal with |- is_derive _ _ ?x => replace x with ((w * z) * (dA (u / m)%nat (v / m)%nat * K t (u mod m)%nat (v mod m)%nat
     + A t (u / m)%nat (v / m)%nat * dK (u mod m)%nat (v mod m)%nat)) by ring end.
  apply (is_derive_scal _ t (w * z) _ H).
Qed.

Lemma ski_entry_ext W D m A A' K K' i j : (0 < m)%nat -> (forall a b, (a < D)%nat -> (b < D)%nat -> A a b = A' a b) ->
  (forall a b, (a < m)%nat -> (b < m)%nat -> K a b = K' a b) -> ski_entry W D m A K i j = ski_entry W D m A' K' i j.
Proof.
  intros Hm HA HK. unfold ski_entry. apply Rsum_ext. intros u Hu. apply Rsum_ext. intros v Hv.
  rewrite HA, HK; [reflexivity| | | |]; try (apply Nat.mod_upper_bound; lia); apply Nat.div_lt_upper_bound; lia.
Qed.

Lemma ski_entry_zero_l W D m K i j : ski_entry W D m (fun _ _ => 0) K i j = 0.
Proof. unfold ski_entry. apply Rsum_zero. intros. apply Rsum_zero. intros. ring. Qed.
Lemma ski_entry_zero_r W D m A i j : ski_entry W D m A (fun _ _ => 0) i j = 0.
Proof. unfold ski_entry. apply Rsum_zero. intros. apply Rsum_zero. intros. ring. Qed.

Lemma ski_entry_sym W D m A K i j : (0 < m)%nat -> (forall a b, (a < D)%nat -> (b < D)%nat -> A a b = A b a) -> (forall a b, K a b = K b a) ->
  ski_entry W D m A K i j = ski_entry W D m A K j i.
Proof.
  intros Hm HA HK. unfold ski_entry. rewrite Rsum_swap. apply Rsum_ext. intros u Hu. apply Rsum_ext. intros v Hv.
  rewrite (HA (v / m)%nat (u / m)%nat), (HK (v mod m)%nat); [ring| |]; apply Nat.div_lt_upper_bound; lia.
Qed.

Lemma vget_map_derive (g : R -> R -> R) (dg : R -> R) data k (t : R) :
  (forall r, is_derive (fun s => g s r) t (dg r)) -> is_derive (fun s => vget (map (g s) data) k) t (vget (map dg data) k).
Proof.
  intros H. revert k. induction data as [|r data IH]; intros [|k]; unfold vget; cbn [map nth]; try apply derive_const.
  - apply H.
  - apply IH.
Qed.

Lemma absdiffs_sym a : forall b, absdiffs a b = absdiffs b a.
Proof.
  unfold absdiffs. induction a as [|x a IH]; intros [|y b]; cbn; try reflexivity. f_equal; [|apply IH].
  unfold absdiff. destruct (Nat.leb_spec x y), (Nat.leb_spec y x); lia.
Qed.

Lemma bttb_entry_sym top sizes i j : bttb_entry top sizes i j = bttb_entry top sizes j i.
Proof. unfold bttb_entry. now rewrite absdiffs_sym. Qed.

Section Approx.
Variables (f : fkernel) (P : nat) (dists : dict ndarr) (interps : interpolants) (G : dims -> ndarr) (W WT : dims -> sparse) (Ys : list vec).
Let lens := map (@length R) Ys.
Let n := nsum lens.
Hypothesis Hok : fk_ok f.
Hypothesis HP : f_P f = Some P.
Hypothesis HPp : (0 < P)%nat.
Hypothesis Hker : kernels_ok f.
Hypothesis HY : length Ys = f_D f.
Hypothesis Hn : (0 < n)%nat.
Hypothesis HG : forall ad, group f ad <> [] -> dict_get dists ad = Ok (G ad) /\ dists_ok (G ad) /\
  dict_get interps ad = Ok (W ad, WT ad) /\ interp_ok n (f_D f * nprod (a_shape (G ad))) (W ad) (WT ad).

Let Gq q := G (qdims f q).
Let mq q := nprod (a_shape (Gq q)).

Lemma group_qdims q : (q < f_Q f)%nat -> dims_of f q = Some (qdims f q) /\ group f (qdims f q) <> [].
Proof.
  intros Hq. pose proof (ok_dims _ Hok) as DI. rewrite HP in DI.
  destruct (do_some _ DI q Hq) as [ad Had]. unfold qdims. rewrite Had. split; [reflexivity|].
  intros E. assert (HI : In q (group f ad)) by (apply in_group; auto). rewrite E in HI. destruct HI.
Qed.

Definition kvals (q : nat) (g : R -> R) : kvalue := KArr (mk_arr (a_shape (Gq q)) (map g (a_data (Gq q)))).

Lemma eval_kernels_grid : eval_kernels f (as_args dists) = Ok (tab (f_Q f) (fun q => kvals q (k_doc (kern_of f q)))).
Proof.
  unfold eval_kernels. rewrite (assert_P_ok f P HP HPp). cbn [bind].
  rewrite (list_as_tab (KIdentity, None) (f_kernels f)).
  change (length (f_kernels f)) with (f_Q f). unfold tab at 1. rewrite map_result_map.
  rewrite (map_result_all _ (fun q => kvals q (k_doc (kern_of f q)))); [reflexivity|].
  intros q Hq. apply in_seq in Hq. destruct (group_qdims q) as [Eq Hg]; [lia|]. destruct (HG _ Hg) as [E [[S1 _] _]]. destruct (Hker q) as [Hp Ht]; [lia|].
  fold (dims_of f q). fold (kern_of f q). rewrite Eq. cbn [get_ad]. rewrite dict_get_args, E. cbn [bind].
  rewrite from_dist_arr; [reflexivity|exact Hp|exact Ht|exact S1].
Qed.

Lemma eval_grads_grid : eval_kernel_gradients f dists =
  Ok (tab (f_Q f) (fun q => tab (length (params (kern_of f q))) (fun j => kvals q (fun r => nth j (k_grad (kern_of f q) r) 0)))).
Proof.
  unfold eval_kernel_gradients. rewrite (assert_P_ok f P HP HPp). cbn [bind].
  rewrite (list_as_tab (KIdentity, None) (f_kernels f)).
  change (length (f_kernels f)) with (f_Q f). unfold tab at 1. rewrite map_result_map.
  rewrite (map_result_all _ (fun q => tab (length (params (kern_of f q))) (fun j => kvals q (fun r => nth j (k_grad (kern_of f q) r) 0)))); [reflexivity|].
  intros q Hq. apply in_seq in Hq. destruct (group_qdims q) as [Eq Hg]; [lia|]. destruct (HG _ Hg) as [E [[S1 _] _]]. destruct (Hker q) as [Hp Ht]; [lia|].
  fold (dims_of f q). fold (kern_of f q). rewrite Eq. cbn [get_ad]. rewrite E. cbn [bind].
  rewrite kernel_gradient_arr; [reflexivity|exact Hp|exact Ht|exact S1].
Qed.

Lemma mq_pos q : (q < f_Q f)%nat -> (0 < mq q)%nat.
Proof. intros Hq. destruct (group_qdims q Hq) as [_ Hg]. destruct (HG _ Hg) as [_ [[_ [H _]] _]]. exact H. Qed.

Lemma bttb_value q g : (q < f_Q f)%nat ->
  exists o, bttb_of_value (kvals q g) = Ok o /\ represents o (mk_den (mq q) (mq q) (bttb_entry (map g (a_data (Gq q))) (a_shape (Gq q)))).
Proof.
  intros Hq. destruct (group_qdims q Hq) as [_ Hg]. destruct (HG _ Hg) as [_ [[S1 [S2 S3]] _]].
  unfold kvals, bttb_of_value. cbn [a_shape a_data]. apply bttb_ok; [exact S1|exact S2|]. rewrite map_length. exact S3.
Qed.

Record approx_rep (l : approx_lik) (s : stoch_deriv) (Ko : Mat) : Prop := {
  ar_lens : al_lens l = lens;
  ar_K : al_K l = Ko;
  ar_deriv : al_deriv l = s;
  ar_interps : al_interps l = interps;
  ar_kern : forall q, (q < f_Q f)%nat -> exists o, nth_error (al_kernels l) q = Some o /\ represents o (mk_den (mq q) (mq q) (K_grid f (Gq q) q));
  ar_grads : forall q, (q < f_Q f)%nat -> nth_error (al_grads l) q =
     Some (tab (length (params (kern_of f q))) (fun j => kvals q (fun r => nth j (k_grad (kern_of f q) r) 0)))
}.

Lemma map_result_nth {A B} (g : A -> result B) l l' i a : map_result g l = Ok l' -> (i < length l)%nat -> nth_error l i = Some a ->
  exists b, nth_error l' i = Some b /\ g a = Ok b.
Proof.
  revert l' i. induction l as [|x l IH]; intros l' i E Hi Ha; [cbn in Hi; lia|]. cbn [map_result] in E.
  apply bind_ok in E. destruct E as [y [Ey E]]. apply bind_ok in E. destruct E as [ys [Eys E]]. apply Ok_inj in E. subst l'.
  destruct i as [|i]; cbn in *; [injection Ha as ->; eauto|]. apply (IH ys i Eys); [lia|exact Ha].
Qed.

Lemma approx_init_ok solve bits k Ko s : sd_generate solve bits k Ko (concat Ys) = Ok s ->
  exists l, approx_init solve bits k f Ko dists interps Ys = Ok l /\ approx_rep l s Ko.
Proof.
  intros Es. unfold approx_init. rewrite eval_kernels_grid. cbn [bind].
  destruct (map_result_ex bttb_of_value (fun _ _ => True) (tab (f_Q f) (fun q => kvals q (k_doc (kern_of f q))))) as [ms [Ems _]].
  { intros v Hv. apply in_map_iff in Hv. destruct Hv as [q [<- Hq]]. apply in_seq in Hq.
    destruct (bttb_value q (k_doc (kern_of f q))) as [o [Eo _]]; [lia|]. eauto. }
  rewrite Ems. cbn [bind]. rewrite Es. cbn [bind]. rewrite eval_grads_grid. cbn [bind].
  eexists. split; [reflexivity|]. split; cbn [al_lens al_K al_deriv al_interps al_kernels al_grads]; try reflexivity.
  - intros q Hq. destruct (map_result_nth _ _ _ q (kvals q (k_doc (kern_of f q))) Ems) as [o [E1 E2]].
    + rewrite tab_length. exact Hq.
    + now rewrite nth_error_tab.
    + exists o. split; [exact E1|]. destruct (bttb_value q (k_doc (kern_of f q)) Hq) as [o' [E' R']]. rewrite E2 in E'.
      apply Ok_inj in E'. subst o'. exact R'.
  - intros q Hq. now rewrite nth_error_tab.
Qed.

Section Ops.
Variables (l : approx_lik) (s : stoch_deriv) (Ko : Mat).
Hypothesis Hl : approx_rep l s Ko.

Lemma approx_ski_ok q A K X : (q < f_Q f)%nat -> represents X (d_kron (mk_den (f_D f) (f_D f) A) (mk_den (mq q) (mq q) K)) ->
  exists o, approx_ski f l q X = Ok o /\ represents o (mk_den n n (ski_entry (W (qdims f q)) (f_D f) (mq q) A K)).
Proof.
  intros Hq HX. unfold approx_ski, py_item, py_index.
  rewrite (nth_error_nth' (f_kernels f) (KIdentity, None) Hq). cbn [bind]. fold (dims_of f q).
  destruct (group_qdims q Hq) as [Eq Hg]. destruct (HG _ Hg) as [_ [_ [E HI]]]. rewrite Eq. cbn [get_ad]. rewrite (ar_interps _ _ _ Hl), E. cbn [bind fst snd].
  now apply ski_kron_ok.
Qed.

Lemma approx_dA_ok A q : (q < f_Q f)%nat ->
  exists o, dK_dA (approx_ops f l) (mk (f_D f) (f_D f) A) q = Ok o /\
    represents o (mk_den n n (ski_entry (W (qdims f q)) (f_D f) (mq q) A (K_grid f (Gq q) q))).
Proof.
  intros Hq. unfold approx_ops. cbn [dK_dA]. destruct (ar_kern _ _ _ Hl q Hq) as [k [Ek Hk]].
  unfold py_item at 1, py_index. rewrite Ek. cbn [bind].
  destruct (np_mat_ok (f_D f) (f_D f) A (ok_D _ Hok) (ok_D _ Hok)) as [a [Ea Ha]]. rewrite Ea. cbn [bind].
  destruct (kronecker_ok _ _ _ _ Ha Hk) as [X [EX HX]]. rewrite EX. cbn [bind]. now apply approx_ski_ok.
Qed.

Lemma approx_dKq_ok A q : (q < f_Q f)%nat ->
  exists os, dKs_dKq (approx_ops f l) (mk (f_D f) (f_D f) A) q = Ok os /\
    Forall2 (fun j o => represents o (mk_den n n (ski_entry (W (qdims f q)) (f_D f) (mq q) A
        (bttb_entry (map (fun r => nth j (k_grad (kern_of f q) r) 0) (a_data (Gq q))) (a_shape (Gq q))))))
      (seq 0 (length (params (kern_of f q)))) os.
Proof.
  intros Hq. unfold approx_ops. cbn [dKs_dKq]. unfold py_item at 1, py_index. rewrite (ar_grads _ _ _ Hl q Hq). cbn [bind].
  unfold tab. induction (seq 0 (length (params (kern_of f q)))) as [|j js IH].
  - exists []. split; [reflexivity|constructor].
  - cbn [map map_result]. destruct (bttb_value q (fun r => nth j (k_grad (kern_of f q) r) 0) Hq) as [k [Ek Hk]]. rewrite Ek. cbn [bind].
    destruct (np_mat_ok (f_D f) (f_D f) A (ok_D _ Hok) (ok_D _ Hok)) as [a [Ea Ha]]. rewrite Ea. cbn [bind].
    destruct (kronecker_ok _ _ _ _ Ha Hk) as [X [EX HX]]. rewrite EX. cbn [bind].
    destruct (approx_ski_ok q _ _ X Hq HX) as [o [Eo Ho]]. rewrite Eo. cbn [bind].
    destruct IH as [os [Eos Hos]]. rewrite Ea in Eos. cbn [bind] in Eos. rewrite Eos. cbn [bind]. exists (o :: os). split; [reflexivity|].
    constructor; assumption.
Qed.

Let lens_D' : length lens = f_D f.
Proof. unfold lens. now rewrite map_length. Qed.

Lemma approx_dEps_ok eps : length eps = f_D f ->
  exists o, dK_dEps (approx_ops f l) eps = Ok o /\ represents o (mk_den n n (fun i j => if Nat.eqb i j then vget eps (owner lens i) else 0)).
Proof.
  intros He. unfold approx_ops. cbn [dK_dEps]. unfold repeat_counts. rewrite (ar_lens _ _ _ Hl), lens_D', He, Nat.eqb_refl. cbn [bind].
  assert (Hrl : length (np_repeat eps lens) = n) by (apply np_repeat_length; rewrite lens_D'; auto).
  destruct (diag_ok (np_repeat eps lens)) as [o [Eo Ho]]; [rewrite Hrl; exact Hn|]. exists o. split; [exact Eo|].
  eapply represents_ext; [exact Ho|]. unfold d_diag. rewrite Hrl. split; [reflexivity|]. split; [reflexivity|].
  intros i j Hi Hj. cbn [d_f d_r] in *. destruct (Nat.eqb i j); [|reflexivity]. apply vget_repeat_owner; [rewrite lens_D'; auto|exact Hi].
Qed.

End Ops.

(** *** Expected gradients *)

Section Mean.
Variables (k : nat) (solve : Mat -> vec -> result vec) (Ko : Mat) (X E : nat -> nat -> R) (a : nat -> R).
Let K i j := K_ski f G W lens i j + E i j.
Hypothesis HE : sym n E.
Hypothesis Hk : (0 < k)%nat.
Hypothesis Hsol : solves_exactly n K (solve Ko).
Hypothesis Hsym : sym n K.
Hypothesis HPv : pivots n K.
Hypothesis HX : is_inv n K X.
Hypothesis Ha : solves n K a (vget (concat Ys)).

Definition gval (bits : list (list bool)) (F : nat -> nat -> R) : R :=
  derivative (quad_term n F a) (lsum (map (trace_term n X F) bits) / INR k).

Lemma concat_len : length (concat Ys) = n.
Proof. apply length_concat. Qed.

Section Bits.
Variable bits : list (list bool).
Hypothesis Hb : In bits (draws k n).
Variables (l : approx_lik) (s : stoch_deriv).
Hypothesis Es : sd_generate solve bits k Ko (concat Ys) = Ok s.
Hypothesis Hl : approx_rep l s Ko.

Lemma approx_dL_ok o F : represents o (mk_den n n F) -> dL_dK (approx_ops f l) o = Ok (gval bits F).
Proof.
  intros Ho. unfold approx_ops. cbn [dL_dK]. rewrite (ar_deriv _ _ _ Hl).
  destruct (generate_ok n k K X F Ko o solve (concat Ys) a Hk Hsym HX Ho Hsol concat_len Ha bits Hb) as [s' [E1 [E2 E3]]].
  rewrite Es in E1. apply Ok_inj in E1. subst s'. rewrite E2. cbn [bind]. rewrite E3. reflexivity.
Qed.

Definition F_vec q r d := ski_entry (W (qdims f q)) (f_D f) (mq q) (mget (dA_vec (f_D f) (nth r (nth q (f_vecs f) []) []) d)) (K_grid f (Gq q) q).
Definition F_diag q d := ski_entry (W (qdims f q)) (f_D f) (mq q) (mget (dA_diag (f_D f) d)) (K_grid f (Gq q) q).
Definition F_kparam q j := ski_entry (W (qdims f q)) (f_D f) (mq q) (B_of f q)
   (bttb_entry (map (fun r => nth j (k_grad (kern_of f q) r) 0) (a_data (Gq q))) (a_shape (Gq q))).
Definition F_noise d i j := if Nat.eqb i j then vget (d_noise (f_D f) d) (owner lens i) else 0.

Lemma mx_self r c A : is_mx r c A -> A = mk r c (mget A).
Proof. apply mx_as_mk. Qed.

Lemma rep_ski_ext o q A A' K' : (q < f_Q f)%nat -> (forall x y, (x < f_D f)%nat -> (y < f_D f)%nat -> A x y = A' x y) ->
  represents o (mk_den n n (ski_entry (W (qdims f q)) (f_D f) (mq q) A K')) -> represents o (mk_den n n (ski_entry (W (qdims f q)) (f_D f) (mq q) A' K')).
Proof.
  intros Hq HA H. eapply represents_ext; [exact H|]. split; [reflexivity|]. split; [reflexivity|]. intros i j _ _.
  apply ski_entry_ext; [now apply mq_pos|exact HA|reflexivity].
Qed.

Lemma approx_gradients_ok : all_gradients (approx_ops f l) f = Ok (mk_grads
  (tab (f_Q f) (fun q => mk (length (nth q (f_vecs f) [])) (f_D f) (fun r d => gval bits (F_vec q r d))))
  (tab (f_Q f) (fun q => tab (f_D f) (fun d => gval bits (F_diag q d))))
  (tab (f_Q f) (fun q => tab (length (params (kern_of f q))) (fun j => gval bits (F_kparam q j))))
  (tab (f_D f) (fun d => gval bits (F_noise d)))).
Proof.
  unfold all_gradients.
  assert (E1 : coreg_vec_gradients (approx_ops f l) f = Ok (tab (f_Q f) (fun q => mk (length (nth q (f_vecs f) [])) (f_D f) (fun r d => gval bits (F_vec q r d))))).
  { unfold coreg_vec_gradients. rewrite (@combine_seq mx _ []), map_result_map, (ok_nvecs _ Hok). cbn [fst snd].
    apply map_result_tab. intros q Hq.
    rewrite (list_as_tab [] (nth q (f_vecs f) [])) at 1. unfold tab at 1. rewrite map_result_map.
    apply map_result_tab. intros r Hr. apply map_result_tab. intros j Hj.
    rewrite (mx_self (f_D f) (f_D f) (dA_vec (f_D f) (nth r (nth q (f_vecs f) []) []) j)) by apply mk_is_mx.
    destruct (approx_dA_ok l s Ko Hl (mget (dA_vec (f_D f) (nth r (nth q (f_vecs f) []) []) j)) q Hq) as [o [Eo Ho]].
    rewrite Eo. cbn [bind]. apply approx_dL_ok. exact Ho. }
  assert (E2 : coreg_diags_gradients (approx_ops f l) f = Ok (tab (f_Q f) (fun q => tab (f_D f) (fun d => gval bits (F_diag q d))))).
  { unfold coreg_diags_gradients. apply map_result_tab. intros q Hq. apply map_result_tab. intros d Hd.
    rewrite (mx_self (f_D f) (f_D f) (dA_diag (f_D f) d)) by apply mk_is_mx.
    destruct (approx_dA_ok l s Ko Hl (mget (dA_diag (f_D f) d)) q Hq) as [o [Eo Ho]]. rewrite Eo. cbn [bind]. apply approx_dL_ok. exact Ho. }
  assert (E3 : kernel_gradients (approx_ops f l) f = Ok (tab (f_Q f) (fun q => tab (length (params (kern_of f q))) (fun j => gval bits (F_kparam q j))))).
  { unfold kernel_gradients. rewrite (coreg_mats_all f Hok). cbn [bind].
    rewrite (@combine_seq mx _ []), map_result_map, tab_length. cbn [fst snd].
    apply map_result_tab. intros q Hq. rewrite nth_tab by exact Hq.
    destruct (approx_dKq_ok l s Ko Hl (B_of f q) q Hq) as [os [Eos Hos]]. rewrite Eos. cbn [bind].
    clear Eos. unfold tab. induction Hos as [|j o js os Ho _ IH]; [reflexivity|].
    cbn [map_result]. rewrite (approx_dL_ok o _ Ho). cbn [bind]. rewrite IH. reflexivity. }
  assert (E4 : noise_gradient (approx_ops f l) f = Ok (tab (f_D f) (fun d => gval bits (F_noise d)))).
  { unfold noise_gradient. rewrite (ok_noise _ Hok).
    rewrite (map_result_tab _ (fun d => gval bits (F_noise d))).
    - cbn [bind]. rewrite Nat.sub_diag. cbn [repeat]. rewrite app_nil_r. reflexivity.
    - intros d Hd. destruct (approx_dEps_ok l s Ko Hl (d_noise (f_D f) d)) as [o [Eo Ho]]; [apply tab_length|].
      rewrite Eo. cbn [bind]. rewrite (approx_dL_ok o _ Ho). cbn [bind]. destruct (Nat.ltb_spec d (f_D f)); [reflexivity|lia]. }
  rewrite E1. cbn [bind]. rewrite E2. cbn [bind]. rewrite E3. cbn [bind]. rewrite E4. reflexivity.
Qed.
End Bits.

Lemma gval_mean F : mean (draws k n) (fun bits => gval bits F) =
  1 / 2 * (Rsum n (fun i => Rsum n (fun j => a i * F i j * a j)) - Rsum n (fun i => Rsum n (fun j => X i j * F i j))).
Proof.
  transitivity (mean (draws k n) (fun bits => 1 / 2 * quad_term n F a + - (1 / 2) * (lsum (map (trace_term n X F) bits) / INR k))).
  - unfold mean. f_equal. apply lsum_map_ext. intros bits _. unfold gval, derivative. field. apply not_0_INR. lia.
  - rewrite mean_affine.
    + rewrite (trace_mean_k n k X F Hk). unfold quad_term. field.
    + intros C. assert (L : length (draws k n) = 0%nat) by now rewrite C. rewrite draws_length in L.
      apply Nat.pow_nonzero in L; [exact L|lia].
Qed.

Let own_lt : forall i, (i < n)%nat -> (owner lens i < f_D f)%nat.
Proof. intros i Hi. rewrite <- HY. replace (length Ys) with (length lens) by (unfold lens; apply map_length). now apply owner_lt. Qed.

Lemma K_ski_sym g : (forall q, (q < f_Q g)%nat -> (0 < nprod (a_shape (G (qdims g q))))%nat) -> sym n (K_ski g G W lens).
Proof.
  intros Hm i j Hi Hj. unfold K_ski. f_equal.
  - apply Rsum_ext. intros q Hq. apply ski_entry_sym; [now apply Hm|intros; apply B_of_sym|intros; apply bttb_entry_sym].
  - rewrite (Nat.eqb_sym j i). destruct (Nat.eqb_spec i j); [now subst|reflexivity].
Qed.

Lemma ski_gradient fam t dB dk dn F : family f fam t dB dk dn -> (forall s, f_D (fam s) = f_D f) ->
  (forall i j, (i < n)%nat -> (j < n)%nat -> F i j =
    Rsum (f_Q f) (fun q => ski_entry (W (qdims f q)) (f_D f) (mq q) (dB q) (K_grid f (Gq q) q) i j
        + ski_entry (W (qdims f q)) (f_D f) (mq q) (B_of f q) (bttb_entry (map (dk q) (a_data (Gq q))) (a_shape (Gq q))) i j)
    + (if Nat.eqb i j then dn (owner lens i) else 0)) ->
  sym n F ->
  is_gradient n (fun s i j => K_ski (fam s) G W lens i j + E i j) (vget (concat Ys)) t (mean (draws k n) (fun bits => gval bits F)).
Proof.
  intros [F1 F2 F3 F4 F5 F6] FD HF Hs. rewrite gval_mean.
  assert (Kt : (fun i j => K_ski (fam t) G W lens i j + E i j) = K) by (rewrite F3; reflexivity).
  apply gradient_gen; try (rewrite ?Kt; assumption).
  - intros s i j Hi Hj. rewrite (HE i j Hi Hj). f_equal. apply K_ski_sym; [|exact Hi|exact Hj].
    intros q Hq. rewrite F1 in Hq. rewrite F2. now apply mq_pos.
  - intros i j Hi Hj. rewrite HF by assumption. rewrite <- (Rplus_0_r (_ + _)).
    apply (is_derive_plus (fun s => K_ski (fam s) G W lens i j) (fun _ => E i j)); [|apply derive_const]. unfold K_ski.
    apply (is_derive_plus (fun s => Rsum (f_Q (fam s)) _) (fun s => if Nat.eqb i j then vget (f_noise (fam s)) (owner lens i) else 0)).
    + apply (is_derive_ext (fun s => Rsum (f_Q f) (fun q => ski_entry (W (qdims f q)) (f_D f) (mq q) (B_of (fam s) q) (K_grid (fam s) (Gq q) q) i j))).
      { intros s. rewrite F1. apply Rsum_ext. intros q _. rewrite F2, FD. reflexivity. }
      apply (is_derive_Rsum (f_Q f) (fun q s => ski_entry (W (qdims f q)) (f_D f) (mq q) (B_of (fam s) q) (K_grid (fam s) (Gq q) q) i j)).
      intros q Hq.
      pose proof (ski_entry_derive (W (qdims f q)) (f_D f) (mq q) (fun s => B_of (fam s) q) (fun s => K_grid (fam s) (Gq q) q) t
                    (dB q) (bttb_entry (map (dk q) (a_data (Gq q))) (a_shape (Gq q))) i j (mq_pos q Hq)) as H.
      cbv beta in H. rewrite F3 in H. apply H.
      * intros x y Hx Hy. now apply F4.
      * intros x y. unfold K_grid, bttb_entry. apply (vget_map_derive (fun s r => k_doc (kern_of (fam s) q) r) (dk q)). intros r. now apply F5.
    + destruct (Nat.eqb i j); [apply F6|apply derive_const].
Qed.

Lemma one_term (g : nat -> R) q : (q < f_Q f)%nat -> (forall q', (q' < f_Q f)%nat -> q' <> q -> g q' = 0) -> Rsum (f_Q f) g = g q.
Proof.
  intros Hq H. rewrite <- (Rsum_delta (f_Q f) q g Hq). apply Rsum_ext. intros q' Hq'. destruct (Nat.eqb_spec q' q); [reflexivity|auto].
Qed.

Lemma K_grid_sym d q i j : K_grid f d q i j = K_grid f d q j i.
Proof. apply bttb_entry_sym. Qed.

Lemma map_zero (l : vec) sizes i j : bttb_entry (map (fun _ : R => 0) l) sizes i j = 0.
Proof.
  unfold bttb_entry. set (x := ravel_idx _ _). clearbody x. revert x. induction l as [|y l IH]; intros [|x]; unfold vget; cbn; auto. apply IH.
Qed.

Lemma ski_zero_bttb W' D m A (l : vec) sizes i j : (0 < m)%nat -> ski_entry W' D m A (bttb_entry (map (fun _ : R => 0) l) sizes) i j = 0.
Proof. intros Hm. rewrite (ski_entry_ext _ _ _ A A _ (fun _ _ => 0)); auto; [apply ski_entry_zero_r|intros; apply map_zero]. Qed.

Lemma vec_mean q r d : (q < f_Q f)%nat -> (r < length (nth q (f_vecs f) []))%nat -> (d < f_D f)%nat ->
  is_gradient n (fun s i' j' => K_ski (with_vec f q r d s) G W lens i' j' + E i' j') (vget (concat Ys)) (mget (nth q (f_vecs f) []) r d)
    (mean (draws k n) (fun bits => gval bits (F_vec q r d))).
Proof.
  intros Hq Hr Hd. apply (ski_gradient _ _ _ _ _ _ (vec_family f Hok q r d Hq Hr Hd)); [reflexivity| |].
  - intros i j Hi Hj. rewrite (one_term _ q Hq).
    + rewrite Nat.eqb_refl. rewrite ski_zero_bttb by now apply mq_pos. unfold F_vec.
      rewrite (ski_entry_ext _ _ _ _ (fun a0 b => (if Nat.eqb a0 d then mget (nth q (f_vecs f) []) r b else 0) + (if Nat.eqb b d then mget (nth q (f_vecs f) []) r a0 else 0)) _ (K_grid f (Gq q) q)); auto.
      * destruct (Nat.eqb i j); ring.
      * now apply mq_pos.
      * intros x y Hx Hy. rewrite dA_vec_entry by assumption. reflexivity.
    + intros q' Hq' Hne. rewrite ski_zero_bttb by now apply mq_pos. destruct (Nat.eqb_spec q' q); [contradiction|].
      rewrite ski_entry_zero_l. ring.
  - intros i j Hi Hj. apply ski_entry_sym; [now apply mq_pos| |intros; apply K_grid_sym].
    intros x y Hx Hy. rewrite !dA_vec_entry by assumption. ring.
Qed.

Lemma diag_mean q d : (q < f_Q f)%nat -> (d < f_D f)%nat ->
  is_gradient n (fun s i' j' => K_ski (with_diag f q d s) G W lens i' j' + E i' j') (vget (concat Ys)) (vget (nth q (f_diags f) []) d)
    (mean (draws k n) (fun bits => gval bits (F_diag q d))).
Proof.
  intros Hq Hd. apply (ski_gradient _ _ _ _ _ _ (diag_family f Hok q d Hq Hd)); [reflexivity| |].
  - intros i j Hi Hj. rewrite (one_term _ q Hq).
    + rewrite Nat.eqb_refl. rewrite ski_zero_bttb by now apply mq_pos. unfold F_diag.
      rewrite (ski_entry_ext _ _ _ _ (fun a0 b => if (Nat.eqb a0 d && Nat.eqb b d)%bool then 1 else 0) _ (K_grid f (Gq q) q)); auto.
      * destruct (Nat.eqb i j); ring.
      * now apply mq_pos.
      * intros x y Hx Hy. unfold dA_diag. now rewrite mget_mk.
    + intros q' Hq' Hne. rewrite ski_zero_bttb by now apply mq_pos. destruct (Nat.eqb_spec q' q); [contradiction|].
      rewrite ski_entry_zero_l. ring.
  - intros i j Hi Hj. apply ski_entry_sym; [now apply mq_pos| |intros; apply K_grid_sym].
    intros x y Hx Hy. unfold dA_diag. rewrite !mget_mk by assumption. now rewrite Bool.andb_comm.
Qed.

Lemma kparam_mean q j : (q < f_Q f)%nat -> (j < length (params (kern_of f q)))%nat ->
  is_gradient n (fun s i' j' => K_ski (with_kparam f q j s) G W lens i' j' + E i' j') (vget (concat Ys)) (nth j (params (kern_of f q)) 0)
    (mean (draws k n) (fun bits => gval bits (F_kparam q j))).
Proof.
  intros Hq Hj. apply (ski_gradient _ _ _ _ _ _ (kparam_family f Hok q j (proj1 (Hker q Hq)) Hq Hj)); [reflexivity| |].
  - intros i l Hi Hl. rewrite (one_term _ q Hq).
    + rewrite Nat.eqb_refl, ski_entry_zero_l. unfold F_kparam. destruct (Nat.eqb i l); ring.
    + intros q' Hq' Hne. destruct (Nat.eqb_spec q' q); [contradiction|]. rewrite ski_zero_bttb by now apply mq_pos.
      rewrite ski_entry_zero_l. ring.
  - intros i l Hi Hl. apply ski_entry_sym; [now apply mq_pos|intros; apply B_of_sym|intros; apply bttb_entry_sym].
Qed.

Lemma noise_mean d : (d < f_D f)%nat ->
  is_gradient n (fun s i' j' => K_ski (with_noise f d s) G W lens i' j' + E i' j') (vget (concat Ys)) (vget (f_noise f) d)
    (mean (draws k n) (fun bits => gval bits (F_noise d))).
Proof.
  intros Hd. apply (ski_gradient _ _ _ _ _ _ (noise_family f Hok d Hd)); [reflexivity| |].
  - intros i j Hi Hj. rewrite Rsum_zero.
    + unfold F_noise, d_noise. destruct (Nat.eqb i j); [|ring]. rewrite vget_tab by auto. ring.
    + intros q Hq. rewrite ski_entry_zero_l, ski_zero_bttb by now apply mq_pos. ring.
  - intros i j Hi Hj. unfold F_noise. rewrite (Nat.eqb_sym j i). destruct (Nat.eqb_spec i j); [now subst|reflexivity].
Qed.

End Mean.
End Approx.
