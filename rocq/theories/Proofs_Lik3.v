(** Partial derivatives of the covariance of the observations, and the exact
    gradients as partial derivatives of the log density. *)

From Coq Require Import Reals List Arith Lia Lra ZArith.
From Coquelicot Require Import Coquelicot.
From Verif Require Import Base NDArray PSD Det Proofs_Shur Proofs_Det Model_Util Proofs_Util Model_Linalg Spec_Linalg Proofs_Linalg
  Model_Interp Model_Kern Spec_Kern Proofs_Kern Model_FK Spec_FK Proofs_FK Model_Grid Spec_Grid Proofs_Grid Proofs_Grid2
  Model_Lik Spec_Lik Proofs_Lik Proofs_Lik2.
Import ListNotations.
Open Scope R_scope.

Lemma upd_length {A} (l : list A) k v : length (upd l k v) = length l.
Proof. unfold upd. rewrite map_length, combine_length, seq_length. apply Nat.min_id. Qed.

Lemma upd_nth {A} (l : list A) k v i d : (k < length l)%nat -> nth i (upd l k v) d = if Nat.eqb i k then v else nth i l d.
Proof.
  intros Hk. destruct (Nat.lt_ge_cases i (length l)) as [Hi|Hi].
  - unfold upd. rewrite (combine_seq l d), map_map. cbn [fst snd].
    rewrite (nth_indep _ d (if Nat.eqb 0 k then v else nth 0 l d)) by now rewrite map_length, seq_length.
    rewrite (map_nth (fun x => if Nat.eqb x k then v else nth x l d) (seq 0 (length l)) 0%nat i), seq_nth by exact Hi. reflexivity.
  - rewrite !nth_overflow by (rewrite ?upd_length; exact Hi). destruct (Nat.eqb_spec i k); [lia|reflexivity].
Qed.

Lemma upd_same {A} (l : list A) k d : (k < length l)%nat -> upd l k (nth k l d) = l.
Proof.
  intros Hk. apply (nth_ext _ _ d d); [apply upd_length|]. intros i _. rewrite upd_nth by exact Hk.
  destruct (Nat.eqb_spec i k); [now subst|reflexivity].
Qed.

Lemma is_derive_Rsum n (g : nat -> R -> R) (t : R) (dg : nat -> R) :
  (forall i, (i < n)%nat -> is_derive (g i) t (dg i)) -> is_derive (fun s => Rsum n (fun i => g i s)) t (Rsum n dg).
Proof.
  induction n as [|n IH]; intros H.
  - cbn [Rsum]. apply (is_derive_const 0).
  - cbn [Rsum]. apply (is_derive_plus (fun s => Rsum n (fun i => g i s)) (g n)); [apply IH; intros; apply H; lia|apply H; lia].
Qed.

Lemma is_derive_prod (g h : R -> R) (t dg dh : R) : is_derive g t dg -> is_derive h t dh ->
  is_derive (fun s => g s * h s) t (dg * h t + g t * dh).
Proof. intros H1 H2. apply (is_derive_mult g h t dg dh H1 H2). intros; apply Rmult_comm. Qed.

(** A family of kernels through [f]. *)
Record family (f : fkernel) (fam : R -> fkernel) (t : R) (dB : nat -> nat -> nat -> R) (dk : nat -> R -> R) (dn : nat -> R) : Prop := {
  fa_Q : forall s, f_Q (fam s) = f_Q f;
  fa_dims : forall s q, qdims (fam s) q = qdims f q;
  fa_at : fam t = f;
  fa_B : forall q a b, (q < f_Q f)%nat -> (a < f_D f)%nat -> (b < f_D f)%nat -> is_derive (fun s => B_of (fam s) q a b) t (dB q a b);
  fa_k : forall q r, (q < f_Q f)%nat -> is_derive (fun s => k_doc (kern_of (fam s) q) r) t (dk q r);
  fa_n : forall a, is_derive (fun s => vget (f_noise (fam s)) a) t (dn a)
}.

Lemma family_derive f fam t dB dk dn P Xs lens : family f fam t dB dk dn -> length lens = f_D f ->
  mderive (nsum lens) (fun s => K_obs (fam s) P Xs lens) t (fun i j =>
    Rsum (f_Q f) (fun q => dB q (owner lens i) (owner lens j) * k_doc (kern_of f q) (dist_on (qdims f q) (obs P Xs lens i) (obs P Xs lens j))
                         + B_of f q (owner lens i) (owner lens j) * dk q (dist_on (qdims f q) (obs P Xs lens i) (obs P Xs lens j)))
    + (if Nat.eqb i j then dn (owner lens i) else 0)).
Proof.
  intros [F1 F2 F3 F4 F5 F6] HL i j Hi Hj. unfold K_obs, lmc_cov.
  assert (Oi : (owner lens i < f_D f)%nat) by (rewrite <- HL; apply owner_lt; exact Hi).
  assert (Oj : (owner lens j < f_D f)%nat) by (rewrite <- HL; apply owner_lt; exact Hj).
  apply (is_derive_plus (fun s => Rsum (f_Q (fam s)) _) (fun s => if Nat.eqb i j then vget (f_noise (fam s)) (owner lens i) else 0)).
  - apply (is_derive_ext (fun s => Rsum (f_Q f) (fun q => B_of (fam s) q (owner lens i) (owner lens j) *
             k_doc (kern_of (fam s) q) (dist_on (qdims f q) (obs P Xs lens i) (obs P Xs lens j))))).
    { intros s. rewrite F1. apply Rsum_ext. intros q _. rewrite F2. reflexivity. }
    apply (is_derive_Rsum (f_Q f) (fun q s => B_of (fam s) q (owner lens i) (owner lens j) *
             k_doc (kern_of (fam s) q) (dist_on (qdims f q) (obs P Xs lens i) (obs P Xs lens j)))).
    intros q Hq.
    pose proof (is_derive_prod _ _ t _ _ (F4 q _ _ Hq Oi Oj) (F5 q (dist_on (qdims f q) (obs P Xs lens i) (obs P Xs lens j)) Hq)) as H.
    cbv beta in H. rewrite F3 in H. exact H.
  - destruct (Nat.eqb i j); [apply F6|apply (is_derive_const 0)].
Qed.

Lemma derive_const (c t : R) : is_derive (fun _ => c) t 0.
Proof. apply (is_derive_const c). Qed.

Lemma derive_id (t : R) : is_derive (fun s : R => s) t 1.
Proof. apply (@is_derive_id R_AbsRing). Qed.

Ltac cst := match goal with |- is_derive ?g ?t 0 => apply (is_derive_ext (fun _ : R => g t)); [intros; reflexivity|apply derive_const] end.

Section Params.
Variable f : fkernel.
Hypothesis Hok : fk_ok f.

Lemma mget_upd A r (row : vec) a b : (r < length A)%nat -> mget (upd A r row) a b = if Nat.eqb a r then vget row b else mget A a b.
Proof. intros H. unfold mget. rewrite upd_nth by exact H. destruct (Nat.eqb a r); reflexivity. Qed.

Lemma vget_upd (v : vec) k x i : (k < length v)%nat -> vget (upd v k x) i = if Nat.eqb i k then x else vget v i.
Proof. intros H. unfold vget. now rewrite upd_nth. Qed.

Definition one_q {A} (q : nat) (x y : A) (q' : nat) : A := if Nat.eqb q' q then x else y.

Lemma noise_family d : (d < f_D f)%nat -> family f (with_noise f d) (vget (f_noise f) d) (fun _ _ _ => 0) (fun _ _ => 0)
  (fun a => if Nat.eqb a d then 1 else 0).
Proof.
  intros Hd. assert (Hn : (d < length (f_noise f))%nat) by now rewrite (ok_noise _ Hok).
  split; intros; try reflexivity.
  - unfold with_noise, vget. rewrite upd_same by exact Hn. destruct f; reflexivity.
  - cst.
  - cst.
  - unfold with_noise. cbn [f_noise]. apply (is_derive_ext (fun s => if Nat.eqb a d then s else vget (f_noise f) a)).
    { intros s. now rewrite vget_upd. }
    destruct (Nat.eqb a d); [apply derive_id|apply derive_const].
Qed.

Lemma diag_family q d : (q < f_Q f)%nat -> (d < f_D f)%nat ->
  family f (with_diag f q d) (vget (nth q (f_diags f) []) d)
    (fun q' a b => if Nat.eqb q' q then if (Nat.eqb a d && Nat.eqb b d)%bool then 1 else 0 else 0) (fun _ _ => 0) (fun _ => 0).
Proof.
  intros Hq Hd.
  assert (Hl : (q < @length vec (f_diags f))%nat) by now rewrite (ok_ndiags _ Hok).
  assert (Hl2 : (d < length (nth q (f_diags f) []))%nat) by now rewrite (ok_diag _ Hok).
  split; intros; try reflexivity; try cst.
  - unfold with_diag, vget. rewrite upd_same by exact Hl2. rewrite upd_same by exact Hl. destruct f; reflexivity.
  - unfold B_of, with_diag. cbn [f_vecs f_diags].
    set (c := Rsum _ _).
    apply (is_derive_ext (fun s => c + (if Nat.eqb a b then if Nat.eqb q0 q then if Nat.eqb a d then s else vget (nth q (f_diags f) []) a
                                                            else vget (nth q0 (f_diags f) []) a else 0))).
    { intros s. f_equal. destruct (Nat.eqb a b); [|reflexivity]. rewrite upd_nth by exact Hl.
      destruct (Nat.eqb q0 q); [|reflexivity]. now rewrite vget_upd. }
    destruct (Nat.eqb_spec a b); destruct (Nat.eqb_spec q0 q); destruct (Nat.eqb_spec a d); destruct (Nat.eqb_spec b d);
      cbn [andb]; try (exfalso; congruence); auto_derive; auto; ring.
Qed.

Lemma kparam_family q j : positive (kern_of f q) -> (q < f_Q f)%nat -> (j < length (params (kern_of f q)))%nat ->
  family f (with_kparam f q j) (nth j (params (kern_of f q)) 0) (fun _ _ _ => 0)
    (fun q' r => if Nat.eqb q' q then nth j (k_grad (kern_of f q) r) 0 else 0) (fun _ => 0).
Proof.
  intros Hp Hq Hj. unfold f_Q in Hq.
  split; intros; try cst.
  - unfold with_kparam, f_Q. cbn [f_kernels]. apply upd_length.
  - unfold with_kparam, qdims, dims_of. cbn [f_kernels]. rewrite upd_nth by exact Hq. destruct (Nat.eqb_spec q0 q); [now subst|reflexivity].
  - unfold with_kparam. rewrite with_param_same by exact Hj.
    replace (kern_of f q, dims_of f q) with (nth q (f_kernels f) (KIdentity, None)) by (unfold kern_of, dims_of; destruct (nth q _ _); reflexivity).
    rewrite upd_same by exact Hq. destruct f; reflexivity.
  - apply (is_derive_ext (fun s => if Nat.eqb q0 q then k_doc (with_param (kern_of f q) j s) r else k_doc (kern_of f q0) r)).
    { intros s. unfold with_kparam, kern_of at 3. cbn [f_kernels]. rewrite upd_nth by exact Hq. destruct (Nat.eqb q0 q); reflexivity. }
    destruct (Nat.eqb q0 q); [apply k_grad_derive; assumption|apply derive_const].
Qed.

Lemma vec_family q r d : (q < f_Q f)%nat -> (r < length (nth q (f_vecs f) []))%nat -> (d < f_D f)%nat ->
  family f (with_vec f q r d) (mget (nth q (f_vecs f) []) r d)
    (fun q' a b => if Nat.eqb q' q then (if Nat.eqb a d then mget (nth q (f_vecs f) []) r b else 0) + (if Nat.eqb b d then mget (nth q (f_vecs f) []) r a else 0) else 0)
    (fun _ _ => 0) (fun _ => 0).
Proof.
  intros Hq Hr Hd. destruct (ok_vec _ Hok q Hq) as [k [Hk [Hm1 Hm2]]].
  assert (Hl : (q < @length mx (f_vecs f))%nat) by now rewrite (ok_nvecs _ Hok).
  set (A := nth q (f_vecs f) []) in *.
  assert (Hl2 : (d < length (nth r A []))%nat).
  { rewrite (Hm2 (nth r A [])); [exact Hd|apply nth_In; exact Hr]. }
  assert (AT : upd (f_vecs f) q (upd A r (upd (nth r A []) d (mget A r d))) = f_vecs f).
  { unfold mget, vget. rewrite upd_same by exact Hl2. rewrite upd_same by exact Hr. apply upd_same. exact Hl. }
  split; intros; try reflexivity; try cst.
  - unfold with_vec. fold A. rewrite AT. destruct f; reflexivity.
  - destruct (Nat.eqb_spec q0 q) as [->|Hne].
    2:{ apply (is_derive_ext (fun _ => B_of f q0 a b)); [|apply derive_const].
        intros s. unfold B_of, with_vec. cbn [f_vecs f_diags]. rewrite upd_nth by exact Hl.
        destruct (Nat.eqb_spec q0 q); [contradiction|reflexivity]. }
    set (c := if Nat.eqb a b then vget (nth q (f_diags f) []) a else 0).
    set (v := fun r' x (s : R) => if Nat.eqb r' r then if Nat.eqb x d then s else mget A r x else mget A r' x).
    apply (is_derive_ext (fun s => Rsum (length A) (fun r' => v r' a s * v r' b s) + c)).
    { intros s. unfold B_of, with_vec. cbn [f_vecs f_diags]. rewrite upd_nth by exact Hl. rewrite Nat.eqb_refl. fold A. fold c. rewrite upd_length.
      f_equal. apply Rsum_ext. intros r' Hr'. rewrite !mget_upd by exact Hr. unfold v.
      destruct (Nat.eqb r' r); [|reflexivity]. rewrite !vget_upd by exact Hl2. reflexivity. }
    assert (Dv : forall r' x, is_derive (v r' x) (mget A r d) (if Nat.eqb r' r then if Nat.eqb x d then 1 else 0 else 0)).
    { intros r' x. unfold v. destruct (Nat.eqb r' r); [|apply derive_const]. destruct (Nat.eqb x d); [apply derive_id|apply derive_const]. }
    assert (Vt : forall r' x, v r' x (mget A r d) = mget A r' x).
    { intros r' x. unfold v. destruct (Nat.eqb_spec r' r); [subst|reflexivity]. destruct (Nat.eqb_spec x d); [now subst|reflexivity]. }
    pose proof (is_derive_Rsum (length A) (fun r' s => v r' a s * v r' b s) (mget A r d) _
                  (fun r' _ => is_derive_prod _ _ _ _ _ (Dv r' a) (Dv r' b))) as H2.
    pose proof (is_derive_plus _ (fun _ => c) _ _ _ H2 (derive_const c (mget A r d))) as H3.
    match type of H3 with is_derive _ _ ?dd => replace dd with
      ((if Nat.eqb a d then mget A r b else 0) + (if Nat.eqb b d then mget A r a else 0)) in H3 end.
    { exact H3. }
    change (plus ?x ?y) with (x + y). rewrite Rplus_0_r.
    rewrite (Rsum_ext _ _ (fun r' => if Nat.eqb r' r then (if Nat.eqb a d then mget A r b else 0) + (if Nat.eqb b d then mget A r a else 0) else 0)).
    { rewrite Rsum_delta by exact Hr. reflexivity. }
    intros r' _. rewrite !Vt. destruct (Nat.eqb_spec r' r); [subst|ring]. destruct (Nat.eqb a d), (Nat.eqb b d); ring.
Qed.

Lemma one_kernel (g : nat -> R) q : (q < f_Q f)%nat -> Rsum (f_Q f) (fun q' => if Nat.eqb q' q then g q' else 0) = g q.
Proof. intros Hq. exact (Rsum_delta (f_Q f) q g Hq). Qed.

End Params.

Lemma mderive_ext n F t dF dG : (forall i j, (i < n)%nat -> (j < n)%nat -> dF i j = dG i j) -> mderive n F t dF -> mderive n F t dG.
Proof. intros H H1 i j Hi Hj. rewrite <- H by assumption. now apply H1. Qed.

Lemma dA_vec_entry D ai j a b : (a < D)%nat -> (b < D)%nat ->
  mget (dA_vec D ai j) a b = (if Nat.eqb a j then vget ai b else 0) + (if Nat.eqb b j then vget ai a else 0).
Proof.
  intros Ha Hb. unfold dA_vec. rewrite !mget_mk by assumption.
  destruct (Nat.eqb a j), (Nat.eqb b j); ring.
Qed.

Lemma pivots_dec n : forall F, {pivots n F} + {~ pivots n F}.
Proof.
  induction n as [|n IH]; intros F; cbn [pivots]; [left; exact I|].
  destruct (Rlt_dec 0 (F O O)); [|right; tauto]. destruct (IH (schur1 F)); [left; tauto|right; tauto].
Qed.

Section Main.
Variables (f : fkernel) (P : nat) (Xs : list ndarr) (Ys : list vec) (e : exact_lik).
Let lens := map (@length R) Ys.
Let n := nsum lens.
Let K := K_obs f P Xs lens.
Hypothesis Hok : fk_ok f.
Hypothesis HP : f_P f = Some P.
Hypothesis HPp : (0 < P)%nat.
Hypothesis Hker : kernels_ok f.
Hypothesis Hdr : dims_in_range f P.
Hypothesis HX : inputs P Xs lens.
Hypothesis HY : length Ys = f_D f.
Hypothesis Ee : exact_init f Xs Ys = Ok e.

Lemma exact_pivots : pivots n K /\ exact_rep f P Xs Ys e.
Proof.
  destruct (exact_init_ok f P Xs Ys Hok HP HPp Hker Hdr HX HY) as [H1 H2].
  destruct (pivots_dec n K) as [HPv|HPv].
  - split; [exact HPv|]. destruct (H1 HPv) as [e' [E' H']]. rewrite Ee in E'. apply Ok_inj in E'. subst e'. exact H'.
  - rewrite (H2 HPv) in Ee. discriminate Ee.
Qed.

Let gv := grad_val Ys e.

Lemma fam_gradient fam t dB dk dn F : family f fam t dB dk dn ->
  (forall i j, (i < n)%nat -> (j < n)%nat -> F i j =
    Rsum (f_Q f) (fun q => dB q (owner lens i) (owner lens j) * k_doc (kern_of f q) (dist_on (qdims f q) (obs P Xs lens i) (obs P Xs lens j))
                         + B_of f q (owner lens i) (owner lens j) * dk q (dist_on (qdims f q) (obs P Xs lens i) (obs P Xs lens j)))
    + (if Nat.eqb i j then dn (owner lens i) else 0)) ->
  sym n F ->
  is_gradient n (fun s => K_obs (fam s) P Xs lens) (vget (concat Ys)) t (gv F).
Proof.
  intros Hf HF Hs. destruct exact_pivots as [HPv Hr].
  assert (HL : length lens = f_D f) by (unfold lens; rewrite map_length; exact HY).
  apply (gradient_ok f P Xs Ys e Hr).
  - intros s. apply K_obs_sym.
  - intros i j _ _. rewrite (fa_at _ _ _ _ _ _ Hf). reflexivity.
  - exact HPv.
  - eapply mderive_ext; [|apply (family_derive f fam t dB dk dn P Xs lens Hf HL)].
    intros i j Hi Hj. symmetry. apply HF; assumption.
  - exact Hs.
Qed.

Let own_lt : forall i, (i < n)%nat -> (owner lens i < f_D f)%nat.
Proof. intros i Hi. rewrite <- HY. replace (length Ys) with (length lens) by (unfold lens; apply map_length). now apply owner_lt. Qed.

Lemma vec_gradient q r d : (q < f_Q f)%nat -> (r < length (nth q (f_vecs f) []))%nat -> (d < f_D f)%nat ->
  is_gradient n (fun s => K_obs (with_vec f q r d s) P Xs lens) (vget (concat Ys)) (mget (nth q (f_vecs f) []) r d)
    (gv (fun i l => kq f P Xs Ys q i l * mget (dA_vec (f_D f) (nth r (nth q (f_vecs f) []) []) d) (owner lens i) (owner lens l))).
Proof.
  intros Hq Hr Hd. apply (fam_gradient _ _ _ _ _ _ (vec_family f Hok q r d Hq Hr Hd)).
  - intros i j Hi Hj.
    rewrite (Rsum_ext _ _ (fun q' => if Nat.eqb q' q then kq f P Xs Ys q' i j * mget (dA_vec (f_D f) (nth r (nth q (f_vecs f) []) []) d) (owner lens i) (owner lens j) else 0)).
    + rewrite (one_kernel f (fun q' => kq f P Xs Ys q' i j * mget (dA_vec (f_D f) (nth r (nth q (f_vecs f) []) []) d) (owner lens i) (owner lens j)) q Hq).
      destruct (Nat.eqb i j); ring.
    + intros q' _. destruct (Nat.eqb_spec q' q); [|ring]. rewrite dA_vec_entry by auto. change (mget (nth q (f_vecs f) []) r) with (vget (nth r (nth q (f_vecs f) []) [])). unfold kq. fold lens. ring.
  - intros i j Hi Hj. rewrite !dA_vec_entry by auto. unfold kq. rewrite dist_on_sym. ring.
Qed.

Lemma diag_gradient q d : (q < f_Q f)%nat -> (d < f_D f)%nat ->
  is_gradient n (fun s => K_obs (with_diag f q d s) P Xs lens) (vget (concat Ys)) (vget (nth q (f_diags f) []) d)
    (gv (fun i l => kq f P Xs Ys q i l * mget (dA_diag (f_D f) d) (owner lens i) (owner lens l))).
Proof.
  intros Hq Hd. apply (fam_gradient _ _ _ _ _ _ (diag_family f Hok q d Hq Hd)).
  - intros i j Hi Hj.
    rewrite (Rsum_ext _ _ (fun q' => if Nat.eqb q' q then kq f P Xs Ys q' i j * mget (dA_diag (f_D f) d) (owner lens i) (owner lens j) else 0)).
    + rewrite (one_kernel f (fun q' => kq f P Xs Ys q' i j * mget (dA_diag (f_D f) d) (owner lens i) (owner lens j)) q Hq).
      destruct (Nat.eqb i j); ring.
    + intros q' _. destruct (Nat.eqb_spec q' q); [|ring]. unfold dA_diag. rewrite mget_mk by auto. unfold kq. fold lens. ring.
  - intros i j Hi Hj. unfold dA_diag. rewrite !mget_mk by auto. unfold kq. rewrite dist_on_sym, Bool.andb_comm. reflexivity.
Qed.

Lemma kparam_gradient q j : (q < f_Q f)%nat -> (j < length (params (kern_of f q)))%nat ->
  is_gradient n (fun s => K_obs (with_kparam f q j s) P Xs lens) (vget (concat Ys)) (nth j (params (kern_of f q)) 0)
    (gv (fun i l => nth j (k_grad (kern_of f q) (dist_on (qdims f q) (obs P Xs lens i) (obs P Xs lens l))) 0 * B_of f q (owner lens i) (owner lens l))).
Proof.
  intros Hq Hj. apply (fam_gradient _ _ _ _ _ _ (kparam_family f Hok q j (proj1 (Hker q Hq)) Hq Hj)).
  - intros i l Hi Hl.
    rewrite (Rsum_ext _ _ (fun q' => if Nat.eqb q' q then nth j (k_grad (kern_of f q') (dist_on (qdims f q') (obs P Xs lens i) (obs P Xs lens l))) 0 * B_of f q' (owner lens i) (owner lens l) else 0)).
    + rewrite (one_kernel f (fun q' => nth j (k_grad (kern_of f q') (dist_on (qdims f q') (obs P Xs lens i) (obs P Xs lens l))) 0 * B_of f q' (owner lens i) (owner lens l)) q Hq).
      destruct (Nat.eqb i l); ring.
    + intros q' _. destruct (Nat.eqb_spec q' q); [subst; ring|ring].
  - intros i l Hi Hl. rewrite dist_on_sym, B_of_sym. reflexivity.
Qed.

Lemma noise_gradient' d : (d < f_D f)%nat ->
  is_gradient n (fun s => K_obs (with_noise f d s) P Xs lens) (vget (concat Ys)) (vget (f_noise f) d)
    (gv (fun i l => if Nat.eqb i l then vget (d_noise (f_D f) d) (owner lens i) else 0)).
Proof.
  intros Hd. apply (fam_gradient _ _ _ _ _ _ (noise_family f Hok d Hd)).
  - intros i j Hi Hj. rewrite Rsum_zero by (intros; ring). unfold d_noise. destruct (Nat.eqb i j); [|ring].
    rewrite vget_tab by auto. ring.
  - intros i j Hi Hj. rewrite (Nat.eqb_sym j i). destruct (Nat.eqb_spec i j); [now subst|reflexivity].
Qed.

End Main.
