(** Change of the units of the inputs: gradients. *)

From Coq Require Import Reals List Arith ZArith Lia Lra.
From Verif Require Import Base NDArray Model_Util Model_Fourier Model_Linalg Model_Interp Model_Kern Model_FK Model_Grid Model_Lik Model_GP.
From Verif Require Import Spec_Linalg Proofs_Fourier Proofs_Grid Spec_Units Proofs_Eig Proofs_Ski3 Proofs_Linalg Proofs_Units Proofs_Units2 Proofs_Units3.
Import ListNotations.
Open Scope R_scope.

Definition vsc (c : R) (v : vec) : vec := map (Rmult c) v.
Definition msc (c : R) (M : mx) : mx := map (map (Rmult c)) M.

Lemma vsc_get c v i : vget (vsc c v) i = c * vget v i.
Proof. unfold vget, vsc. rewrite <- (Rmult_0_r c) at 1. apply (map_nth (Rmult c)). Qed.
Lemma vsc_len c v : length (vsc c v) = length v.
Proof. apply map_length. Qed.
Lemma msc_get c M i j : mget (msc c M) i j = c * mget M i j.
Proof.
  unfold mget, msc. change (nth i (map (map (Rmult c)) M) []) with (nth i (map (vsc c) M) (vsc c [])). rewrite map_nth. apply vsc_get.
Qed.
Lemma msc_len c M : length (msc c M) = length M.
Proof. apply map_length. Qed.
Lemma msc_ncols c M : ncols (msc c M) = ncols M.
Proof. destruct M; [reflexivity|]. apply map_length. Qed.
Lemma vsc_tab c n F : vsc c (tab n F) = tab n (fun i => c * F i).
Proof. apply map_tab. Qed.
Lemma msc_mk c r k F : msc c (mk r k F) = mk r k (fun i j => c * F i j).
Proof. unfold msc, mk. rewrite map_tab. apply tab_ext. intros i _. apply map_tab. Qed.
Lemma msc_concat c M : concat (msc c M) = vsc c (concat M).
Proof. symmetry. apply concat_map. Qed.

Lemma np_T_msc c k M : np_T k (msc c M) = msc c (np_T k M).
Proof. unfold np_T. rewrite msc_mk, msc_len. apply tab_ext. intros j _. apply tab_ext. intros i _. apply msc_get. Qed.

Lemma default_matmat_sc c rows mv mv' X : (forall x, mv' x = vsc c (mv x)) -> default_matmat rows mv' X = msc c (default_matmat rows mv X).
Proof.
  intros H. unfold default_matmat. rewrite <- np_T_msc. f_equal. unfold msc. rewrite map_map. apply map_ext. exact H.
Qed.
Lemma default_matmat_hom c rows mv X : (forall x, mv (vsc c x) = vsc c (mv x)) -> default_matmat rows mv (msc c X) = msc c (default_matmat rows mv X).
Proof.
  intros H. unfold default_matmat. rewrite msc_ncols, np_T_msc. generalize (np_T (ncols X) X). intros Y. rewrite <- np_T_msc. f_equal. unfold msc. rewrite !map_map. apply map_ext. exact H.
Qed.
Lemma np_vdot_sc c u v : np_vdot u (vsc c v) = c * np_vdot u v.
Proof. unfold np_vdot. rewrite <- Rsum_scal_l. apply Rsum_ext. intros i _. rewrite vsc_get. ring. Qed.
Lemma np_dot2_hom c A X : np_dot2 A (msc c X) = msc c (np_dot2 A X).
Proof.
  unfold np_dot2. rewrite msc_ncols. unfold msc at 2. rewrite map_map. apply map_ext. intros row. rewrite map_tab. apply tab_ext. intros l _.
  rewrite <- Rsum_scal_l. apply Rsum_ext. intros j _. rewrite msc_get. ring.
Qed.
Lemma sp_dot1_hom c W x : sp_dot1 W (vsc c x) = vsc c (sp_dot1 W x).
Proof. unfold sp_dot1. rewrite vsc_tab. apply tab_ext. intros i _. rewrite <- Rsum_scal_l. apply Rsum_ext. intros j _. rewrite vsc_get. ring. Qed.

(** [M'] is [c] times [M]. *)
Definition msc_of (c : R) (M M' : Mat) : Prop :=
  shape M' = shape M /\ (forall x, matvec M' x = vsc c (matvec M x)) /\ (forall X, matmat M' X = msc c (matmat M X)).

(** Both fail alike, or both succeed with related values. *)
Definition rrel {A B} (P : A -> B -> Prop) (r : result A) (r' : result B) : Prop :=
  match r, r' with Ok x, Ok y => P x y | Err e, Err e' => e = e' | _, _ => False end.

Lemma rrel_bind {A B A' B'} (P : A -> A' -> Prop) (Q : B -> B' -> Prop) r r' k k' :
  rrel P r r' -> (forall x x', r = Ok x -> P x x' -> rrel Q (k x) (k' x')) -> rrel Q (bind r k) (bind r' k').
Proof. destruct r, r'; cbn; try easy. intros H G. now apply G. Qed.
Lemma rrel_refl {A B} (Q : B -> B -> Prop) (r : result A) k k' :
  (forall x, r = Ok x -> rrel Q (k x) (k' x)) -> rrel Q (bind r k) (bind r k').
Proof. destruct r; cbn; [intros H; now apply H|easy]. Qed.

Lemma bttb_entry_sc c top sizes i j : bttb_entry (vsc c top) sizes i j = c * bttb_entry top sizes i j.
Proof. unfold bttb_entry. apply vsc_get. Qed.

Lemma bttb_sc c sizes top : rrel (msc_of c) (bttb_of sizes top) (bttb_of sizes (vsc c top)).
Proof.
  unfold bttb_of, bttb, np1, np_len, is_1d, np_size. cbn [a_shape a_data bind length Nat.eqb negb]. rewrite vsc_len.
  destruct (Nat.eqb (nprod [length top]) 0) eqn:Z; [reflexivity|]. destruct (negb _) eqn:E; [reflexivity|].
  apply Bool.negb_false_iff, Nat.eqb_eq in E. apply Nat.eqb_neq in Z. rewrite <- E in Z.
  destruct (matrix_init (length top) (length top)) as [s|]; [|reflexivity]. cbn [bind]. destruct sizes as [|n sizes]; [reflexivity|]. cbn [rrel].
  assert (HP : List.Forall (fun k => 0 < k)%nat (n :: sizes)).
  { revert Z. generalize (n :: sizes). clear. induction l as [|k l IH]; intros Z; [constructor|]. unfold nprod in Z. cbn [fold_right] in Z. constructor; [nia|apply IH; unfold nprod; nia]. }
  assert (V : forall x, bttb_matvec (vsc c top) (n :: sizes) x = vsc c (bttb_matvec top (n :: sizes) x)).
  { intros x. rewrite !bttb_matvec_ok by (easy || (now apply Forall_forall)). unfold mat_apply. rewrite vsc_tab. apply tab_ext. intros i _.
    rewrite <- Rsum_scal_l. apply Rsum_ext. intros j _. rewrite bttb_entry_sc. ring. }
  split; [reflexivity|]. split; [exact V|]. intros X. cbn [matmat]. now apply default_matmat_sc.
Qed.

(** Multiplying the argument multiplies the result. *)
Definition homog (M : Mat) : Prop := forall c X, matmat M (msc c X) = msc c (matmat M X).

Lemma np_mat_hom r k A M : np_mat r k A = Ok M -> homog M.
Proof.
  unfold np_mat, numpy_matrix, np2. cbn [a_shape a_data]. destruct (matrix_init r k); [|discriminate]. cbn [bind]. intros H. apply Ok_inj in H. subst M.
  intros c X. apply np_dot2_hom.
Qed.

Lemma reshape_sc c x n : np_reshape2 (vsc c x) n = msc c (np_reshape2 x n).
Proof. unfold np_reshape2, arr_rows. rewrite vsc_len, msc_mk. apply tab_ext. intros i _. apply tab_ext. intros j _. apply vsc_get. Qed.

Lemma kron_sc c A K K' : homog A -> msc_of c K K' -> rrel (msc_of c) (kronecker A K) (kronecker A K').
Proof.
  intros HA (S & V & M). unfold kronecker. rewrite S. destruct (matrix_init _ _) as [s|]; [|reflexivity]. cbn [bind rrel].
  assert (E : forall x, kron_matvec A K' x = vsc c (kron_matvec A K x)).
  { intros x. unfold kron_matvec. cbn [fold_left concat]. rewrite !app_nil_r. unfold kron_pass at 1 2 3 4. rewrite S, M, !msc_concat, reshape_sc, np_T_msc, HA, msc_concat. reflexivity. }
  split; [reflexivity|]. split; [exact E|]. intros X. cbn [matmat]. now apply default_matmat_sc.
Qed.

Lemma ski_sc c K K' W WT : msc_of c K K' -> rrel (msc_of c) (ski K W WT) (ski K' W WT).
Proof.
  intros (S & V & M). unfold ski, wrap, composition. cbn [fst snd]. destruct (matrix_init (sp_r W) (sp_c W)) as [s1|]; [|reflexivity]. cbn [bind].
  destruct (matrix_init (sp_r WT) (sp_c WT)) as [s2|]; [|reflexivity]. cbn [bind last shape]. destruct (matrix_init _ _) as [s3|]; [|reflexivity]. cbn [bind rrel].
  split; [reflexivity|]. split.
  - intros x. cbn [matvec]. unfold comp_matvec. cbn [rev app fold_left matvec]. now rewrite V, sp_dot1_hom.
  - intros X. cbn [matmat]. unfold comp_matmat. cbn [rev app fold_left matmat]. rewrite M. apply default_matmat_hom. intros x. apply sp_dot1_hom.
Qed.

Lemma deriv_sc c s M M' : msc_of c M M' ->
  rrel (fun x y => y = c * x) (let! b := sd_d_logdet s M in Ok (derivative (sd_d_quadratic s M) b)) (let! b := sd_d_logdet s M' in Ok (derivative (sd_d_quadratic s M') b)).
Proof.
  intros (_ & V & _). unfold sd_d_logdet, sd_d_quadratic. destruct (Nat.eqb (sd_n_it s) 0); [reflexivity|]. cbn [bind rrel]. rewrite V, np_vdot_sc.
  rewrite (map_ext (fun p => np_vdot (snd p) (matvec M' (fst p))) (fun p => c * np_vdot (snd p) (matvec M (fst p)))) by (intros p; rewrite V; apply np_vdot_sc).
  rewrite Proofs_Grid.lsum_map_scal. unfold derivative. unfold Rdiv. ring.
Qed.

(** Lists of gradients. *)
Definition div_list (cs : list R) (gs : list R) : list R := map (fun p => / fst p * snd p) (combine cs gs).

Lemma map_result_rrel {A B C D} (h : A -> result C) (h' : B -> result D) (P : A -> B -> Prop) (Q : C -> D -> Prop) l l' :
  Forall2 P l l' -> (forall x y, P x y -> rrel Q (h x) (h' y)) -> rrel (Forall2 Q) (map_result h l) (map_result h' l').
Proof.
  intros F H. induction F as [|x y l l' Hxy F IH]; [constructor|]. cbn [map_result]. apply (rrel_bind Q); [now apply H|]. intros u v _ Huv.
  apply (rrel_bind (Forall2 Q)); [exact IH|]. intros us vs _ Hus. now constructor.
Qed.

Lemma Forall2_map_same {A B} (h : A -> B) l : Forall2 (fun x y => y = h x) l (map h l).
Proof. induction l; constructor; auto. Qed.

Section Ops.
  Variables (a : R) (f : fkernel) (l : approx_lik).
  Hypothesis Ha : a <> 0.
  Hypothesis Hfit : Forall2 (fun k g => forall a, length (unit_factors a (fst k)) = length g) (f_kernels f) (al_grads l).
  Let f' := fk_in_units a f.
  Let l' := mk_al (al_lens l) (al_kernels l) (al_K l) (al_deriv l) (grads_units a f (al_grads l)) (al_interps l).

  Lemma approx_ski_units q X : approx_ski f' l' q X = approx_ski f l q X.
  Proof.
    unfold approx_ski, py_item, py_index. change (f_kernels f') with (map (ku a) (f_kernels f)). rewrite nth_error_map.
    destruct (nth_error (f_kernels f) q) as [k|]; reflexivity.
  Qed.

  Lemma dK_dA_units dA q : dK_dA (approx_ops f' l') dA q = dK_dA (approx_ops f l) dA q.
  Proof.
    cbn [approx_ops dK_dA]. change (al_kernels l') with (al_kernels l). change (f_D f') with (f_D f).
    destruct (py_item (al_kernels l) q) as [K|]; [|reflexivity]. cbn [bind]. destruct (np_mat _ _ dA) as [A|]; [|reflexivity]. cbn [bind].
    destruct (kronecker A K) as [X|]; [|reflexivity]. cbn [bind]. apply approx_ski_units.
  Qed.

  Lemma coreg_vec_units : coreg_vec_gradients (approx_ops f' l') f' = coreg_vec_gradients (approx_ops f l) f.
  Proof.
    unfold coreg_vec_gradients. change (f_vecs f') with (f_vecs f). apply map_result_same. intros x _. apply map_result_same. intros ai _.
    change (f_D f') with (f_D f). apply map_result_same. intros j _. rewrite dK_dA_units. reflexivity.
  Qed.
  Lemma coreg_diags_units : coreg_diags_gradients (approx_ops f' l') f' = coreg_diags_gradients (approx_ops f l) f.
  Proof.
    unfold coreg_diags_gradients, f_Q. change (f_kernels f') with (map (ku a) (f_kernels f)). rewrite map_length. apply map_result_same. intros q _.
    change (f_D f') with (f_D f). apply map_result_same. intros j _. rewrite dK_dA_units. reflexivity.
  Qed.
  Lemma noise_units : noise_gradient (approx_ops f' l') f' = noise_gradient (approx_ops f l) f.
  Proof. reflexivity. Qed.

  (** One derivative of a kernel matrix. *)
  Definition one_dK (A : mx) (q : nat) (v : kvalue) : result Mat :=
    let! K := bttb_of_value v in let! X := (let! m := np_mat (f_D f) (f_D f) A in kronecker m K) in approx_ski f l q X.

  Lemma one_dK_sc c A q v : rrel (msc_of c) (one_dK A q v) (one_dK A q (kv_scale c v)).
  Proof.
    unfold one_dK. apply (rrel_bind (msc_of c)).
    { destruct v as [g|]; [|reflexivity]. cbn [kv_scale bttb_of_value scale_arr a_shape a_data]. apply bttb_sc. }
    intros K K' _ HK. apply (rrel_bind (msc_of c)).
    { apply rrel_refl. intros m Em. apply kron_sc; [exact (np_mat_hom _ _ _ _ Em)|exact HK]. }
    intros X X' _ HX. unfold approx_ski. apply rrel_refl. intros k _. apply rrel_refl. intros W _. now apply ski_sc.
  Qed.

  Definition F3 (cs : list R) (D D' : list Mat) : Prop := length D = length cs /\ Forall2 (fun p M' => msc_of (/ fst p) (snd p) M') (combine cs D) D'.

  Lemma dKs_sc A q cs g : length cs = length g ->
    rrel (F3 cs) (map_result (one_dK A q) g) (map_result (one_dK A q) (map (fun p => kv_scale (/ fst p) (snd p)) (combine cs g))).
  Proof.
    revert g. induction cs as [|c cs IH]; intros [|v g] L; cbn in L; try lia; [split; [reflexivity|constructor]|].
    cbn [combine map map_result fst snd]. apply (rrel_bind (msc_of (/ c))); [apply one_dK_sc|]. intros M M' _ HM.
    apply (rrel_bind (F3 cs)); [apply IH; lia|]. intros D D' _ [L1 HD]. split; [cbn; lia|]. cbn [combine]. constructor; [exact HM|exact HD].
  Qed.

  Lemma dLs_sc cs D D' : F3 cs D D' ->
    rrel (fun Rs Rs' => length Rs = length cs /\ Rs' = div_list cs Rs) (map_result (dL_dK (approx_ops f l)) D) (map_result (dL_dK (approx_ops f l)) D').
  Proof.
    revert D D'. induction cs as [|c cs IH]; intros D D' [L H].
    { destruct D; [|discriminate]. inversion H; subst. split; reflexivity. }
    destruct D as [|M D]; [discriminate|]. cbn [combine] in H. inversion H as [|? M' ? D0 HM HD]; subst. cbn [fst snd] in HM. cbn [map_result].
    apply (rrel_bind (fun x y => y = / c * x)); [exact (deriv_sc (/ c) (al_deriv l) M M' HM)|]. intros x y _ E.
    apply (rrel_bind (fun Rs Rs' => length Rs = length cs /\ Rs' = div_list cs Rs)); [apply IH; split; [cbn in L; lia|exact HD]|].
    intros Rs Rs' _ [L' E']. split; [cbn; lia|]. cbn [div_list combine map fst snd]. rewrite E, E'. reflexivity.
  Qed.

  Fixpoint grel (ks : list (kern * option dims)) (G G' : list (list R)) {struct G} : Prop :=
    match G, G' with
    | [], [] => True
    | g :: G, g' :: G' => match ks with
                          | k :: ks => length g = length (unit_factors a (fst k)) /\ g' = div_list (unit_factors a (fst k)) g /\ grel ks G G'
                          | [] => False
                          end
    | _, _ => False
    end.

  Lemma grads_item q k : nth_error (f_kernels f) q = Some k ->
    exists g, nth_error (al_grads l) q = Some g /\ length (unit_factors a (fst k)) = length g /\
      nth_error (grads_units a f (al_grads l)) q = Some (div_factors a (fst k) g).
  Proof.
    unfold grads_units. clear f' l'. revert q. induction Hfit as [|k0 g0 ks gs H0 F IH]; intros q E; [destruct q; discriminate|].
    destruct q as [|q]; [injection E as <-; exists g0; repeat split; auto|]. cbn [nth_error] in E. destruct (IH F q E) as [g G]. now exists g.
  Qed.
  Lemma grads_none q : nth_error (f_kernels f) q = None -> nth_error (al_grads l) q = None /\ nth_error (grads_units a f (al_grads l)) q = None.
  Proof.
    intros E. apply nth_error_None in E. assert (L : length (f_kernels f) = length (al_grads l)) by (clear - Hfit; induction Hfit; cbn; auto).
    split; apply nth_error_None; [lia|]. unfold grads_units. rewrite map_length, combine_length. lia.
  Qed.

  Lemma kernel_grads_from As : forall off,
    rrel (grel (skipn off (f_kernels f)))
      (map_result (fun qA => let! dKs := dKs_dKq (approx_ops f l) (snd qA) (fst qA) in map_result (dL_dK (approx_ops f l)) dKs) (combine (seq off (length As)) As))
      (map_result (fun qA => let! dKs := dKs_dKq (approx_ops f' l') (snd qA) (fst qA) in map_result (dL_dK (approx_ops f' l')) dKs) (combine (seq off (length As)) As)).
  Proof.
    induction As as [|A As IH]; intros off; [exact I|]. cbn [length seq combine map_result fst snd].
    destruct (nth_error (f_kernels f) off) as [k|] eqn:E.
    - destruct (grads_item off k E) as (g & G1 & G2 & G3).
      apply (rrel_bind (fun Rs Rs' => length Rs = length (unit_factors a (fst k)) /\ Rs' = div_list (unit_factors a (fst k)) Rs)).
      + cbn [approx_ops dKs_dKq]. change (al_grads l') with (grads_units a f (al_grads l)). unfold py_item, py_index. rewrite G1, G3. cbn [bind].
        apply (rrel_bind (F3 (unit_factors a (fst k)))).
        * pose proof (dKs_sc A off (unit_factors a (fst k)) g G2) as R. unfold one_dK in R.
          rewrite (map_result_same (fun v => let! K := bttb_of_value v in let! X := (let! m := np_mat (f_D f) (f_D f) A in kronecker m K) in approx_ski f l off X)
             (fun v => let! K := bttb_of_value v in let! X := (let! m := np_mat (f_D f') (f_D f') A in kronecker m K) in approx_ski f' l' off X)).
          { exact R. }
          intros v _. destruct (bttb_of_value v) as [K|]; [|reflexivity]. cbn [bind]. change (f_D f') with (f_D f). destruct (np_mat _ _ A) as [m|]; [|reflexivity]. cbn [bind].
          destruct (kronecker m K) as [X|]; [|reflexivity]. cbn [bind]. apply approx_ski_units.
        * intros D D' _ HD. exact (dLs_sc _ D D' HD).
      + intros g0 g0' _ [L1 E1]. apply (rrel_bind (grel (skipn (S off) (f_kernels f)))); [apply IH|]. intros G G' _ HG.
        assert (Sk : skipn off (f_kernels f) = k :: skipn (S off) (f_kernels f)).
        { clear - E. revert off E. induction (f_kernels f) as [|x ks IH]; intros [|off] E; try discriminate; [injection E as <-; reflexivity|]. cbn [skipn]. apply IH. exact E. }
        rewrite Sk. cbn [rrel grel]. auto.
    - destruct (grads_none off E) as [N1 N2]. cbn [approx_ops dKs_dKq]. change (al_grads l') with (grads_units a f (al_grads l)).
      unfold py_item, py_index. rewrite N1, N2. reflexivity.
  Qed.

  Lemma kernel_grads_units : rrel (grel (f_kernels f)) (kernel_gradients (approx_ops f l) f) (kernel_gradients (approx_ops f' l') f').
  Proof.
    unfold kernel_gradients. change (coreg_mats f' None) with (coreg_mats f None). apply rrel_refl. intros As _. exact (kernel_grads_from As 0).
  Qed.

  Lemma all_grads_units : rrel (fun g g' => g_vecs g' = g_vecs g /\ g_diags g' = g_diags g /\ g_noise g' = g_noise g /\ grel (f_kernels f) (g_kernels g) (g_kernels g'))
    (all_gradients (approx_ops f l) f) (all_gradients (approx_ops f' l') f').
  Proof.
    unfold all_gradients. rewrite coreg_vec_units, coreg_diags_units, noise_units. apply rrel_refl. intros v _. apply rrel_refl. intros d _.
    apply (rrel_bind (grel (f_kernels f))); [exact kernel_grads_units|]. intros k k' _ HK. apply rrel_refl. intros n _. cbn. auto.
  Qed.
End Ops.

Lemma py_index_map {A B} (h : A -> B) l i : py_index (map h l) i = rmap h (py_index l i).
Proof. unfold py_index. rewrite nth_error_map. now destruct (nth_error l i). Qed.

Lemma div_list_app c1 c2 g1 g2 : length c1 = length g1 -> div_list (c1 ++ c2) (g1 ++ g2) = div_list c1 g1 ++ div_list c2 g2.
Proof. intros L. unfold div_list. now rewrite combine_app, map_app. Qed.
Lemma div_list_len cs g : length g = length cs -> length (div_list cs g) = length cs.
Proof. intros L. unfold div_list. rewrite map_length, combine_length. lia. Qed.

Lemma update_gradient_units a k g : a <> 0 -> length g = length (unit_factors a k) ->
  update_gradient (kern_in_units a k) (div_list (unit_factors a k) g) = rmap (kern_in_units (/ a)) (update_gradient k g).
Proof.
  intros Ha. revert g. induction k as [i|i|i T| |k IH s]; intros g L; cbn [unit_factors length] in L.
  - destruct g as [|x [|? ?]]; try discriminate. cbn. do 2 f_equal. rewrite !Rinv_mult, !Rinv_inv. ring.
  - destruct g as [|x [|? ?]]; try discriminate. cbn. do 2 f_equal. rewrite !Rinv_inv. ring.
  - destruct g as [|x [|y [|? ?]]]; try discriminate. cbn. do 2 f_equal; [rewrite Rinv_1|]; ring.
  - reflexivity.
  - rewrite app_length in L. cbn [length] in L. destruct (exists_last (l := g)) as [g0 [s' E]]; [intros ->; cbn in L; lia|]. subst g.
    rewrite app_length in L. cbn [length] in L. cbn [unit_factors kern_in_units update_gradient]. rewrite div_list_app by lia.
    change (div_list [1] [s']) with [/ 1 * s']. rewrite !removelast_last. rewrite IH by lia. destruct (update_gradient k g0) as [k'|]; [|reflexivity]. cbn [rmap bind].
    unfold py_last. rewrite !rev_app_distr. cbn. do 2 f_equal. rewrite Rinv_1. ring.
Qed.

Lemma zip_update_units a ks : a <> 0 -> forall G G' old, grel a ks G G' ->
  zip_update (map fst (map (ku a) ks)) G' (map (kern_in_units (/ a)) old) = rmap (map (kern_in_units (/ a))) (zip_update (map fst ks) G old).
Proof.
  intros Ha. induction ks as [|k ks IH]; intros [|g G] [|g' G'] old H; try easy; cbn [map].
  - destruct H as (L & E & H). destruct old as [|o old]; [reflexivity|]. cbn [map zip_update ku fst]. rewrite E, update_gradient_units by easy.
    destruct (update_gradient (fst k) g) as [x|]; [|reflexivity]. cbn [rmap bind]. rewrite (IH G G' old H). now destruct (zip_update (map fst ks) G old).
Qed.

Definition slots_units (a : R) (s : grad_slots) : grad_slots := mk_slots (s_vecs s) (s_diags s) (map (kern_in_units (/ a)) (s_kernels s)) (s_noise s).

Lemma approx_init_units solve bits n_it a f K d i Ys : a <> 0 -> all_safe a f ->
  approx_init solve bits n_it (fk_in_units a f) K (dmap (scale_arr a) d) i Ys =
  rmap (fun l => mk_al (al_lens l) (al_kernels l) (al_K l) (al_deriv l) (grads_units a f (al_grads l)) (al_interps l)) (approx_init solve bits n_it f K d i Ys).
Proof.
  intros Ha S. unfold approx_init. rewrite as_args_scale, eval_kernels_units by easy. destruct (eval_kernels f (as_args d)) as [Kqs|]; [|reflexivity]. cbn [bind].
  destruct (map_result bttb_of_value Kqs) as [ms|]; [|reflexivity]. cbn [bind]. destruct (sd_generate _ _ _ _ _) as [dv|]; [|reflexivity]. cbn [bind].
  rewrite eval_grads_units by easy. now destruct (eval_kernel_gradients f d).
Qed.

Lemma parameters_changed_units solve bits n_it a t g old : a <> 0 -> all_safe a (gp_f g) ->
  rrel (fun r r' => same_gpk (fst r) (fst r') /\ snd r' = slots_units a (snd r))
    (parameters_changed solve bits n_it g old) (parameters_changed solve bits n_it (gp_units a t g) (slots_units a old)).
Proof.
  intros Ha S. unfold parameters_changed. cbv zeta. change (gp_f (gp_units a t g)) with (fk_in_units a (gp_f g)).
  change (mg_Ys (gp_data (gp_units a t g))) with (mg_Ys (gp_data g)). change (gp_grids (gp_units a t g)) with (grids_units a t (gp_grids g)).
  rewrite grids_dists_units, grids_interps_units, gen_grid_kernel_units by easy. apply rrel_refl. intros [K gks] _.
  rewrite approx_init_units by easy. destruct (approx_init _ _ _ (gp_f g) K _ _ _) as [l|] eqn:El; [|reflexivity]. cbn [rmap bind].
  assert (F : Forall2 (fun k g => forall a, length (unit_factors a (fst k)) = length g) (f_kernels (gp_f g)) (al_grads l)).
  { unfold approx_init in El. destruct (eval_kernels _ _) as [Kqs|]; [|discriminate]. cbn [bind] in El. destruct (map_result _ _) as [ms|]; [|discriminate]. cbn [bind] in El.
    destruct (sd_generate _ _ _ _ _) as [dv|]; [|discriminate]. cbn [bind] in El. destruct (eval_kernel_gradients _ _) as [gs|] eqn:Eg; [|discriminate]. cbn [bind] in El.
    apply Ok_inj in El. subst l. cbn [al_grads]. exact (eval_grads_fits _ _ _ Eg). }
  pose proof (all_grads_units a (gp_f g) l F) as AG. cbv zeta in AG. apply (rrel_bind _ _ _ _ _ _ AG). clear AG. intros dg dg' _ (E1 & E2 & E3 & E4).
  unfold fk_update_gradient. change (assert_P (fk_in_units a (gp_f g))) with (assert_P (gp_f g)). destruct (assert_P (gp_f g)); [|reflexivity]. cbn [bind].
  change (f_kernels (fk_in_units a (gp_f g))) with (map (ku a) (f_kernels (gp_f g))). cbn [slots_units s_kernels].
  rewrite (zip_update_units a (f_kernels (gp_f g)) Ha _ _ (s_kernels old) E4). destruct (zip_update _ _ _) as [ks|]; [|reflexivity]. cbn [rmap bind rrel fst snd].
  split; [repeat split|]. unfold slots_units. cbn [s_vecs s_diags s_kernels s_noise]. now rewrite E1, E2, E3.
Qed.
