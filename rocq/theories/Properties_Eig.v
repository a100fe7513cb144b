(** Properties C05, C06, C07. *)

From Coq Require Import Reals List Arith Lia Lra.
From Verif Require Import Base NDArray Model_Util Model_Fourier Model_Linalg Spec_Linalg
  Expr_Linalg Proofs_Fourier Proofs_Linalg PSD Spec_Eig Proofs_Eig Properties_Linalg.
Import ListNotations.
Open Scope R_scope.

(** C05: the Toeplitz bound is the largest absolute row sum [M] of the dense
    matrix, times the safety factor, and bounds every eigenvalue. *)
Theorem C05_toeplitz_bound :
  forall (top : vec) o, toeplitz (mk_arr [length top] top) = Ok o ->
    let n := length top in
    let T := mget (as_numpy o) in
    let rowsum i := Rsum n (fun j => Rabs (T i j)) in
    exists M,
      upper_eig_bound o = Ok (M * (1 + / 2 ^ 52 * INR n)) /\
      (forall i, (i < n)%nat -> rowsum i <= M) /\
      (exists i, (i < n)%nat /\ rowsum i = M) /\
      forall lam v, eigpair n T lam v -> Rabs lam <= M /\ Rabs lam <= M * (1 + / 2 ^ 52 * INR n).
Proof.
  intros top o H n T rowsum.
  destruct (C03_toeplitz_matvec top o H) as [_ [Hnp _]].
  assert (HT : forall i j, (i < n)%nat -> (j < n)%nat -> T i j = toep_entry top i j).
  { intros i j Hi Hj. unfold T. rewrite Hnp. now rewrite mget_mk. }
  assert (Hr : forall i, (i < n)%nat -> rowsum i = row_sum top i).
  { intros i Hi. apply Rsum_ext. intros j Hj. now rewrite HT. }
  assert (Hne : top <> []).
  { intros ->. discriminate H. }
  exists (np_max (toeplitz_totals top)). split.
  { rewrite (toeplitz_ub _ _ H). reflexivity. }
  split. { intros i Hi. rewrite Hr by auto. now apply toeplitz_bound_row. }
  split. { destruct (toeplitz_bound_att top Hne) as [i [Hi E]]. exists i. split; auto. rewrite Hr by auto. auto. }
  intros lam v Hv.
  assert (HM : below n T (np_max (toeplitz_totals top)) /\ above n T (np_max (toeplitz_totals top))).
  { apply gershgorin.
    - intros i j Hi Hj. rewrite !HT by auto. now apply (toep_sym top n).
    - intros i Hi. change (rowsum i <= np_max (toeplitz_totals top)). rewrite Hr by auto. now apply toeplitz_bound_row. }
  assert (Hl : Rabs lam <= np_max (toeplitz_totals top)).
  { apply Rabs_le. split; [eapply above_eig|eapply below_eig]; try apply HM; eauto. }
  split; auto. pose proof (Rabs_pos lam). pose proof (pos_INR n).
  assert (0 < / 2 ^ 52) by (apply Rinv_0_lt_compat, pow_lt; lra).
  assert (0 <= / 2 ^ 52 * INR n) by (apply Rmult_le_pos; lra). nra.
Qed.
Print Assumptions C05_toeplitz_bound.

(** The Toeplitz matrix of (1, -3): eigenvalue 4 with vector (1, -1); the bound
    is 4 (1 + 2 eps). *)
Example C05_ex : exists o, toeplitz (ex_vec [1; -3]) = Ok o /\
  eigpair 2 (mget (as_numpy o)) 4 (fun i => if Nat.eqb i 0 then 1 else -1).
Proof.
  eexists. split; [reflexivity|]. split; [exists 0%nat; simpl; split; [lia|lra]|].
  intros i Hi. destruct i as [|[|i]]; [| |lia];
    cbv -[Rmult Rplus IZR Ropp]; lra.
Qed.

(** C06, positive part.  [two_sided]: Toeplitz, Identity, Diag whose most
    negative entry does not exceed its largest in modulus, and their Kronecker
    products, sums and symmetric block grids; the bound covers |eigenvalue|. *)
Theorem C06_nested_abs_bound_partial :
  forall e o, wf e -> eval e = Ok o -> two_sided e ->
    exists b, upper_eig_bound o = Ok b /\
      forall lam v, eigpair (fst (shape o)) (mget (as_numpy o)) lam v -> Rabs lam <= b.
Proof.
  intros e o Hwf He Ht. pose proof (eval_sound e o Hwf He) as HR.
  destruct (two_sided_ok e o Hwf He Ht) as [Hsq [_ [b [Hb [L U]]]]].
  exists b. split; auto. rewrite (rep_shape _ _ HR), (rep_np _ _ HR). cbn [fst].
  intros lam v Hv.
  assert (HF : forall i j, (i < d_r (denote e))%nat -> (j < d_r (denote e))%nat ->
               d_f (denote e) i j = mget (d_dense (denote e)) i j).
  { intros i j Hi Hj. unfold d_dense. rewrite mget_mk; auto. now rewrite <- Hsq. }
  apply Rabs_le. split; [eapply above_eig; [eapply above_ext; [exact HF|exact U]|exact Hv]
                        |eapply below_eig; [eapply below_ext; [exact HF|exact L]|exact Hv]].
Qed.
Print Assumptions C06_nested_abs_bound_partial.

(** [one_sided] adds arbitrary Diag, sums of such, and Kronecker products of
    positive semi-definite factors; the bound covers every eigenvalue.
    Missing: the Kronecker products and block grids for which the claim is
    false (below), and classes without an [upper_eig_bound] method. *)
Theorem C06_nested_bound_partial :
  forall e o, wf e -> eval e = Ok o -> one_sided e ->
    exists b, upper_eig_bound o = Ok b /\
      forall lam v, eigpair (fst (shape o)) (mget (as_numpy o)) lam v -> lam <= b.
Proof.
  intros e o Hwf He Ht. pose proof (eval_sound e o Hwf He) as HR.
  destruct (one_sided_ok e o Hwf He Ht) as [Hsq [_ [b [Hb L]]]].
  exists b. split; auto. rewrite (rep_shape _ _ HR), (rep_np _ _ HR). cbn [fst].
  intros lam v Hv.
  assert (HF : forall i j, (i < d_r (denote e))%nat -> (j < d_r (denote e))%nat ->
               d_f (denote e) i j = mget (d_dense (denote e)) i j).
  { intros i j Hi Hj. unfold d_dense. rewrite mget_mk; auto. now rewrite <- Hsq. }
  eapply below_eig; [eapply below_ext; [exact HF|exact L]|exact Hv].
Qed.
Print Assumptions C06_nested_bound_partial.

(** A sum of an indefinite diagonal and a Kronecker product. *)
Example C06_ex_one : one_sided (ESum [EDiag (ex_vec [-7; 1; 0; 2]);
                                     EKron (EToeplitz (ex_vec [2; 1])) (EDiag (ex_vec [-1; 3]))]).
Proof.
  right. cbn [map all_p fold_right]. split; [right; exact I|]. split; [|exact I].
  left. split; [exact I|]. simpl. intros x [<-|[<-|[]]]; exists 3; lra.
Qed.
Example C06_ex_two : two_sided (ESymm [[EToeplitz (ex_vec [2; 1]); EIdentity 2]; [EIdentity 2; EToeplitz (ex_vec [3; -1])]]).
Proof.
  split; [simpl; tauto|]. simpl. intros i j Hi Hj.
  destruct i as [|[|i]]; [| |lia]; (destruct j as [|[|j]]; [| |lia]); split; try split; reflexivity.
Qed.

(** C06 is false for Kronecker products of indefinite matrices: the bound is
    1 but 9 is an eigenvalue. *)
Theorem C06_kronecker_refuted :
  exists e o, wf e /\ eval e = Ok o /\ upper_eig_bound o = Ok 1 /\
    (forall i j, (i < 4)%nat -> (j < 4)%nat -> mget (as_numpy o) i j = mget (as_numpy o) j i) /\
    exists v, eigpair (fst (shape o)) (mget (as_numpy o)) 9 v.
Proof.
  exists (EKron (EDiag (ex_vec [-3; 1])) (EDiag (ex_vec [-3; 1]))).
  eexists. split; [simpl; auto|]. split; [reflexivity|].
  assert (Hm : forall a b, Rmax a b = if Rle_dec a b then b else a) by reflexivity.
  split.
  { cbn [upper_eig_bound bind]. f_equal. unfold np_max. simpl. rewrite !Hm.
    destruct (Rle_dec (-3) 1); lra. }
  split.
  { intros i j Hi Hj. do 4 (destruct i as [|i]; [do 4 (destruct j as [|j]; [cbv; lra|]); lia|]). lia. }
  exists (fun i => if Nat.eqb i 0 then 1 else 0). split; [exists 0%nat; simpl; split; [lia|lra]|].
  intros i Hi. cbn in Hi.
  do 4 (destruct i as [|i]; [cbv -[Rmult Rplus IZR Ropp]; lra|]). lia.
Qed.
Print Assumptions C06_kronecker_refuted.

(** It is false for block grids even when the whole matrix is symmetric
    positive semi-definite: the bound is 7 but 11 is an eigenvalue. *)
Definition grid11 : expr :=
  let a := EDiag (ex_vec [6; 6]) in let b := EDiag (ex_vec [-5; 1]) in ESymm [[a; b]; [b; a]].
Theorem C06_block_matrix_refuted :
  exists e o, wf e /\ eval e = Ok o /\ upper_eig_bound o = Ok 7 /\
    sym 4 (mget (as_numpy o)) /\ psd 4 (mget (as_numpy o)) /\
    exists v, eigpair (fst (shape o)) (mget (as_numpy o)) 11 v.
Proof.
  exists grid11. eexists.
  assert (Hwf : wf grid11).
  { simpl. repeat split; auto. exists 2%nat. intros r e' [<-|[<-|[]]] [<-|[<-|[]]]; auto. }
  split; [exact Hwf|]. split; [reflexivity|].
  match goal with |- upper_eig_bound ?O = _ /\ _ => set (o := O) end.
  assert (He : eval grid11 = Ok o) by reflexivity.
  pose proof (eval_sound _ _ Hwf He) as HR.
  assert (Hm : forall a b, Rmax a b = if Rle_dec a b then b else a) by reflexivity.
  split.
  { unfold o. cbn -[IZR np_max la_norm1]. unfold la_norm1, np_max. cbn -[IZR Rmax Rabs].
    f_equal. rewrite !Hm.
    repeat match goal with
    | |- context [Rle_dec ?a ?b] => destruct (Rle_dec a b)
    end; try lra; unfold Rabs in *; repeat destruct Rcase_abs; try lra. }
  rewrite (rep_np _ _ HR), (rep_shape _ _ HR).
  set (n := fst _). assert (En : n = 4%nat) by reflexivity. rewrite En. clear n En.
  set (F := d_f (denote grid11)).
  assert (HF : forall i j, (i < 4)%nat -> (j < 4)%nat -> mget (d_dense (denote grid11)) i j = F i j).
  { intros i j Hi Hj. unfold d_dense. now rewrite mget_mk. }
  split. { intros i j Hi Hj. rewrite !HF by auto.
    do 4 (destruct i as [|i]; [do 4 (destruct j as [|j]; [cbv; lra|]); lia|]). lia. }
  split.
  { eapply psd_ext; [intros i j Hi Hj; symmetry; now apply HF|].
    intros x. unfold qf, bil. cbv -[Rmult Rplus IZR Ropp Rle].
    generalize (x 0%nat) (x 1%nat) (x 2%nat) (x 3%nat). intros a b c d.
    match goal with |- _ <= ?E => replace E with
      (a² + 5 * b² + c² + 5 * d² + 5 * (a - c)² + (b + d)²) by (unfold Rsqr; ring) end.
    pose proof (Rle_0_sqr a). pose proof (Rle_0_sqr b). pose proof (Rle_0_sqr c). pose proof (Rle_0_sqr d).
    pose proof (Rle_0_sqr (a - c)). pose proof (Rle_0_sqr (b + d)). lra. }
  exists (fun i => if Nat.eqb i 0 then 1 else if Nat.eqb i 2 then -1 else 0).
  split; [exists 0%nat; simpl; split; [lia|lra]|].
  intros i Hi. rewrite (Rsum_ext 4 _ (fun j => F i j * (if Nat.eqb j 0 then 1 else if Nat.eqb j 2 then -1 else 0))).
  - do 4 (destruct i as [|i]; [cbv -[Rmult Rplus IZR Ropp]; lra|]). lia.
  - intros j Hj. now rewrite HF.
Qed.
Print Assumptions C06_block_matrix_refuted.

(** SKI objects have an [upper_eig_bound] method which never returns. *)
Theorem C06_ski_refuted :
  exists K W WT o, ski K W WT = Ok o /\ (exists b, upper_eig_bound K = Ok b) /\ upper_eig_bound o = Err AttributeError.
Proof.
  destruct (identity 1) as [K|] eqn:E; [|discriminate].
  exists K. apply Ok_inj in E. subst K.
  set (W := mk_sparse 1 1 (fun _ _ => 1)). exists W, W.
  eexists. split; [reflexivity|]. split; [exists 1|]; reflexivity.
Qed.
Print Assumptions C06_ski_refuted.
Theorem C06_ski_never_bounds : forall K W WT o b, ski K W WT = Ok o -> upper_eig_bound o <> Ok b.
Proof.
  intros K W WT o b H. unfold ski in H. apply bind_ok in H. destruct H as [L [_ H]].
  apply bind_ok in H. destruct H as [Rm [_ H]]. apply bind_ok in H. destruct H as [C [_ H]].
  apply Ok_inj in H. subst o. cbn. destruct (upper_eig_bound K); discriminate.
Qed.
Print Assumptions C06_ski_never_bounds.

(** ** C07: constructor validation *)

(** What every constructed object has. *)
Definition positive_shape (o : Mat) : Prop := (1 <= fst (shape o) /\ 1 <= snd (shape o))%nat.

Theorem C07_toeplitz :
  forall top : ndarr,
    (forall n, a_shape top = [n] -> (1 <= n)%nat -> exists o, toeplitz top = Ok o /\ shape o = (n, n)) /\
    (a_shape top <> [] -> ~ (exists n, a_shape top = [n] /\ (1 <= n)%nat) -> toeplitz top = Err ValueError).
Proof.
  intros [sh d]. cbn [a_shape]. split.
  - intros n -> Hn. unfold toeplitz, np_size, matrix_init. cbn -[Nat.ltb].
    destruct (Nat.eqb_spec (n * 1) 0); [lia|]. destruct (Nat.ltb_spec n 1); [lia|]. cbn. eauto.
  - intros Hne Hno. destruct sh as [|n [|m sh]]; [congruence| |reflexivity].
    destruct n; [reflexivity|]. exfalso. apply Hno. exists (S n). split; auto. lia.
Qed.
Print Assumptions C07_toeplitz.

Theorem C07_bttb :
  forall (top : ndarr) (sizes : list nat), sizes <> [] ->
    (forall n, a_shape top = [n] -> (1 <= n)%nat -> nprod sizes = n ->
       exists o, bttb top sizes = Ok o /\ shape o = (n, n)) /\
    (a_shape top <> [] ->
       ~ (exists n, a_shape top = [n] /\ (1 <= n)%nat /\ nprod sizes = n) -> bttb top sizes = Err ValueError).
Proof.
  intros [sh d] sizes Hs. cbn [a_shape]. split.
  - intros n -> Hn Hp. unfold bttb, np_size, matrix_init. cbn -[Nat.ltb nprod].
    replace (nprod [n]) with n by (simpl; lia).
    destruct (Nat.eqb_spec n 0); [lia|]. destruct (Nat.eqb_spec (nprod sizes) n); [|congruence].
    destruct (Nat.ltb_spec n 1); [lia|]. cbn. destruct sizes; [congruence|]. eauto.
  - intros Hne Hno. destruct sh as [|n [|m sh]]; [congruence| |reflexivity].
    unfold bttb, np_size. cbn -[Nat.ltb nprod]. replace (nprod [n]) with n by (simpl; lia).
    destruct (Nat.eqb_spec n 0); [reflexivity|]. destruct (Nat.eqb_spec (nprod sizes) n); [|reflexivity].
    exfalso. apply Hno. exists n. repeat split; auto. lia.
Qed.
Print Assumptions C07_bttb.

Theorem C07_sum_matrix :
  forall Ks : list Mat, (forall K, In K Ks -> positive_shape K) ->
    (forall s, Ks <> [] -> (forall K, In K Ks -> shape K = s) -> exists o, sum_matrix Ks = Ok o /\ shape o = s) /\
    (Ks = [] \/ (exists K K', In K Ks /\ In K' Ks /\ shape K <> shape K') -> sum_matrix Ks = Err ValueError).
Proof.
  intros Ks Hpos.
  assert (Hsh : forall s t, shape_eqb s t = true <-> s = t).
  { intros [a b] [c d]. unfold shape_eqb. simpl. rewrite Bool.andb_true_iff, !Nat.eqb_eq. split; [intros []; congruence|].
    intros E; injection E; auto. }
  split.
  - intros s Hne Hall. destruct Ks as [|K Ks]; [congruence|]. unfold sum_matrix.
    assert (Hf : forallb (fun K' => shape_eqb (shape K') (shape K)) (K :: Ks) = true).
    { apply forallb_forall. intros K' HK'. apply Hsh. rewrite (Hall K' HK'), (Hall K); simpl; auto. }
    rewrite Hf. cbn [negb]. destruct (Hpos K (or_introl eq_refl)) as [H1 H2]. unfold matrix_init.
    destruct (Nat.ltb_spec (fst (shape K)) 1); [lia|]. destruct (Nat.ltb_spec (snd (shape K)) 1); [lia|]. cbn.
    eexists. split; [reflexivity|]. cbn. rewrite <- surjective_pairing. apply Hall. simpl; auto.
  - intros [->|[K1 [K2 [H1 [H2 Hd]]]]]; [reflexivity|]. destruct Ks as [|K Ks]; [destruct H1|]. unfold sum_matrix.
    destruct (forallb (fun K' => shape_eqb (shape K') (shape K)) (K :: Ks)) eqn:E; [|reflexivity].
    rewrite forallb_forall in E. exfalso. apply Hd.
    rewrite (proj1 (Hsh _ _) (E K1 H1)), (proj1 (Hsh _ _) (E K2 H2)). reflexivity.
Qed.
Print Assumptions C07_sum_matrix.

Theorem C07_block_matrix :
  forall blocks : list (list Mat), (forall row K, In row blocks -> In K row -> positive_shape K) ->
    let D := length blocks in
    (forall b, (1 <= D)%nat -> (forall row, In row blocks -> length row = D) ->
       hd_error (concat blocks) = Some b ->
       exists o, symm_block_matrix blocks = Ok o /\ shape o = (D * fst (shape b), D * fst (shape b))%nat) /\
    (D = 0%nat \/ (exists row, In row blocks /\ length row <> D) -> symm_block_matrix blocks = Err ValueError).
Proof.
  intros blocks Hpos D. split.
  - intros b HD Hall Hb. destruct blocks as [|row0 rest]; [simpl in D; lia|]. unfold symm_block_matrix.
    assert (Hf : forallb (fun row => Nat.eqb (length row) (length (row0 :: rest))) (row0 :: rest) = true).
    { apply forallb_forall. intros r Hr. apply Nat.eqb_eq, Hall, Hr. }
    rewrite Hf. cbn [negb]. destruct row0 as [|b00 row0'].
    { specialize (Hall [] (or_introl eq_refl)). cbn [length] in Hall. lia. }
    assert (Hbb : b00 = b) by (injection Hb; auto). subst b00.
    destruct (Hpos _ b (or_introl eq_refl) (or_introl eq_refl)) as [H1 H2].
    fold D. unfold matrix_init. destruct (Nat.ltb_spec (D * fst (shape b)) 1); [nia|]. cbn [orb bind]. eauto.
  - intros [H|[row [Hr Hl]]].
    + destruct blocks; [reflexivity|discriminate].
    + destruct blocks as [|row0 rest]; [destruct Hr|]. unfold symm_block_matrix.
      destruct (forallb (fun row => Nat.eqb (length row) (length (row0 :: rest))) (row0 :: rest)) eqn:E; [|reflexivity].
      rewrite forallb_forall in E. exfalso. apply Hl. apply Nat.eqb_eq, E, Hr.
Qed.
Print Assumptions C07_block_matrix.

Theorem C07_diag :
  forall v : ndarr,
    (forall n, a_shape v = [n] -> (1 <= n)%nat -> exists o, diag v = Ok o /\ shape o = (n, n)) /\
    (a_shape v <> [] -> ~ (exists n, a_shape v = [n] /\ (1 <= n)%nat) -> diag v = Err ValueError).
Proof.
  intros [sh d]. cbn [a_shape]. split.
  - intros n -> Hn. unfold diag, matrix_init. cbn -[Nat.ltb]. destruct (Nat.ltb_spec n 1); [lia|]. cbn. eauto.
  - intros Hne Hno. destruct sh as [|n [|m sh]]; [congruence| |].
    + destruct n; [reflexivity|]. exfalso. apply Hno. exists (S n). split; auto. lia.
    + unfold diag. cbn -[Nat.ltb]. unfold matrix_init. destruct (Nat.ltb_spec n 1); reflexivity.
Qed.
Print Assumptions C07_diag.

Theorem C07_numpy_matrix :
  forall a : ndarr,
    (forall r c, a_shape a = [r; c] -> (1 <= r)%nat -> (1 <= c)%nat -> exists o, numpy_matrix a = Ok o /\ shape o = (r, c)) /\
    (~ (exists r c, a_shape a = [r; c] /\ (1 <= r)%nat /\ (1 <= c)%nat) -> numpy_matrix a = Err ValueError).
Proof.
  intros [sh d]. cbn [a_shape]. split.
  - intros r c -> Hr Hc. unfold numpy_matrix, matrix_init. cbn -[Nat.ltb].
    destruct (Nat.ltb_spec r 1); [lia|]. destruct (Nat.ltb_spec c 1); [lia|]. cbn. eauto.
  - intros Hno. destruct sh as [|r [|c [|x sh]]]; try reflexivity.
    unfold numpy_matrix, matrix_init. cbn -[Nat.ltb].
    destruct (Nat.ltb_spec r 1); [reflexivity|]. destruct (Nat.ltb_spec c 1); [reflexivity|].
    exfalso. apply Hno. exists r, c. repeat split; auto.
Qed.
Print Assumptions C07_numpy_matrix.

Theorem C07_dimensions :
  (forall n, ((1 <= n)%nat -> exists o, identity n = Ok o /\ shape o = (n, n)) /\
             (n = 0%nat -> identity n = Err ValueError)) /\
  (forall r c mvm, ((1 <= r)%nat -> (1 <= c)%nat -> exists o, wrap (r, c) mvm = Ok o /\ shape o = (r, c)) /\
                   (r = 0%nat \/ c = 0%nat -> wrap (r, c) mvm = Err ValueError)) /\
  (forall A B, positive_shape A -> positive_shape B ->
     exists o, kronecker A B = Ok o /\
       shape o = (fst (shape A) * fst (shape B), snd (shape A) * snd (shape B))%nat).
Proof.
  split; [|split].
  - intros n. unfold identity, matrix_init. split.
    + intros Hn. destruct (Nat.ltb_spec n 1); [lia|]. cbn. eauto.
    + intros ->. reflexivity.
  - intros r c mvm. unfold wrap, matrix_init. cbn [fst snd]. split.
    + intros Hr Hc. destruct (Nat.ltb_spec r 1); [lia|]. destruct (Nat.ltb_spec c 1); [lia|]. cbn. eauto.
    + intros [->| ->]; [reflexivity|]. now rewrite Bool.orb_true_r.
  - intros A B [H1 H2] [H3 H4]. unfold kronecker, matrix_init.
    destruct (Nat.ltb_spec (fst (shape A) * fst (shape B)) 1); [nia|].
    destruct (Nat.ltb_spec (snd (shape A) * snd (shape B)) 1); [nia|]. cbn. eauto.
Qed.
Print Assumptions C07_dimensions.

(** No accepted constructor call, however nested, yields an empty matrix (so
    the [positive_shape] hypotheses above hold of every real object). *)
Theorem C07_no_empty_matrix : forall e o, eval e = Ok o -> positive_shape o.
Proof.
  assert (HM : forall n m s, matrix_init n m = Ok s -> (1 <= fst s /\ 1 <= snd s)%nat).
  { intros n m s H. apply matrix_init_ok in H. destruct H as [-> H]. simpl. lia. }
  unfold positive_shape. intros e o H.
  destruct e; cbn [eval] in H;
  repeat match goal with
  | H : bind _ _ = Ok _ |- _ => apply bind_ok in H; let K := fresh "K" in destruct H as [? [K H]]
  end.
  - unfold toeplitz in H. apply bind_ok in H. destruct H as [n [_ H]].
    destruct (negb _); [discriminate|]. destruct (Nat.eqb _ _); [discriminate|].
    apply bind_ok in H. destruct H as [s [Hs H]]. apply Ok_inj in H. subst o. apply (HM _ _ _ Hs).
  - unfold bttb in H. apply bind_ok in H. destruct H as [n [_ H]].
    destruct (negb _); [discriminate|]. destruct (Nat.eqb _ _); [discriminate|]. destruct (negb _); [discriminate|].
    apply bind_ok in H. destruct H as [s [Hs H]]. destruct sizes; [discriminate|].
    apply Ok_inj in H. subst o. apply (HM _ _ _ Hs).
  - unfold kronecker in H. apply bind_ok in H. destruct H as [s [Hs H]]. apply Ok_inj in H. subst o. apply (HM _ _ _ Hs).
  - unfold sum_matrix in H. destruct x; [discriminate|]. destruct (negb _); [discriminate|].
    apply bind_ok in H. destruct H as [s [Hs H]]. apply Ok_inj in H. subst o. apply (HM _ _ _ Hs).
  - unfold block_diag in H. apply bind_ok in H. destruct H as [s [Hs H]].
    apply bind_ok in H. destruct H as [[? ?] [_ H]]. apply bind_ok in H. destruct H as [[? ?] [_ H]].
    apply Ok_inj in H. subst o. apply (HM _ _ _ Hs).
  - unfold diag in H. apply bind_ok in H. destruct H as [n [_ H]].
    apply bind_ok in H. destruct H as [s [Hs H]]. destruct (negb _); [discriminate|].
    apply Ok_inj in H. subst o. apply (HM _ _ _ Hs).
  - unfold symm_block_matrix in H. destruct x as [|row0 x]; [discriminate|]. destruct (negb _); [discriminate|].
    destruct row0; [discriminate|]. apply bind_ok in H. destruct H as [s [Hs H]].
    apply Ok_inj in H. subst o. apply (HM _ _ _ Hs).
  - unfold composition in H. destruct x; [discriminate|]. apply bind_ok in H. destruct H as [s [Hs H]].
    apply Ok_inj in H. subst o. apply (HM _ _ _ Hs).
  - unfold numpy_matrix in H. destruct (a_shape a) as [|r [|c [|? ?]]]; try discriminate.
    apply bind_ok in H. destruct H as [s [Hs H]]. apply Ok_inj in H. subst o. apply (HM _ _ _ Hs).
  - unfold identity in H. apply bind_ok in H. destruct H as [s [Hs H]]. apply Ok_inj in H. subst o. apply (HM _ _ _ Hs).
  - unfold wrap in H. apply bind_ok in H. destruct H as [s [Hs H]]. apply Ok_inj in H. subst o. apply (HM _ _ _ Hs).
  - unfold ski in H. apply bind_ok in H. destruct H as [L [_ H]]. apply bind_ok in H. destruct H as [Rm [_ H]].
    apply bind_ok in H. destruct H as [C [HC H]]. apply Ok_inj in H. subst o. cbn [shape].
    unfold composition in HC. apply bind_ok in HC. destruct HC as [s [Hs H]].
    apply Ok_inj in H. subst C. apply (HM _ _ _ Hs).
Qed.
Print Assumptions C07_no_empty_matrix.

Example C07_ex_ok : exists o, sum_matrix (match eval (EIdentity 2) with Ok K => [K; K] | _ => [] end) = Ok o /\ shape o = (2, 2)%nat.
Proof. eexists. split; reflexivity. Qed.
Example C07_ex_bad : bttb (ex_vec [1; 2; 3]) [2; 2]%nat = Err ValueError.
Proof. reflexivity. Qed.
Example C07_ex_uneven : forall K, symm_block_matrix [[K; K]; [K]] = Err ValueError.
Proof. reflexivity. Qed.

(** The documentation promises a ValueError for every wrongly shaped [top];
    0-d arrays get a TypeError, and BTTB with empty [sizes] an IndexError. *)
Theorem C07_zero_dim_refuted :
  exists a : ndarr, ~ (exists n, a_shape a = [n] /\ (1 <= n)%nat) /\
    toeplitz a = Err TypeError /\ diag a = Err TypeError /\ bttb a [1%nat] = Err TypeError.
Proof. exists (mk_arr [] [1]). split; [intros [n [H _]]; discriminate|repeat split]. Qed.
Print Assumptions C07_zero_dim_refuted.
Theorem C07_bttb_no_sizes_refuted : exists a : ndarr, bttb a [] = Err IndexError.
Proof. exists (mk_arr [1%nat] [1]). reflexivity. Qed.
Print Assumptions C07_bttb_no_sizes_refuted.
