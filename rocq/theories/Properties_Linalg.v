(** Properties C01, C02, C03, C04, C52. *)

From Coq Require Import Reals List Arith Lia Lra.
From Verif Require Import Base NDArray Model_Util Model_Fourier Model_Linalg Spec_Linalg
  Expr_Linalg Proofs_Fourier Proofs_Linalg.
Import ListNotations.
Open Scope R_scope.

(** C01: every operator expression, of any nesting depth, that the
    constructors accept stands for the matrix [denote e], and its matvec is
    the product with its dense form. *)
Theorem C01_nested_matvec :
  forall e o, wf e -> eval e = Ok o ->
    shape o = (d_r (denote e), d_c (denote e)) /\
    is_mx (fst (shape o)) (snd (shape o)) (as_numpy o) /\
    as_numpy o = d_dense (denote e) /\
    forall x, length x = snd (shape o) ->
      matvec o x = np_dot1 (as_numpy o) x /\ length (matvec o x) = fst (shape o).
Proof.
  intros e o Hwf He. pose proof (eval_sound e o Hwf He) as H.
  rewrite (rep_shape _ _ H), (rep_np _ _ H). cbn [fst snd].
  repeat split; try apply mk_is_mx.
  - rewrite (rep_mv _ _ H) by auto. unfold d_dense. rewrite np_dot1_mk. reflexivity.
  - rewrite (rep_mv _ _ H) by auto. apply d_apply_length.
Qed.
Print Assumptions C01_nested_matvec.

(** C02: the same for dense right-hand sides with any number of columns. *)
Theorem C02_nested_matmat :
  forall e o, wf e -> eval e = Ok o ->
    forall X k, is_mx (snd (shape o)) k X ->
      matmat o X = mk (fst (shape o)) k
                      (fun i l => Rsum (snd (shape o)) (fun j => mget (as_numpy o) i j * mget X j l)) /\
      matmat o X = np_dot2 (as_numpy o) X.
Proof.
  intros e o Hwf He X k HX. pose proof (eval_sound e o Hwf He) as H.
  rewrite (rep_shape _ _ H) in *. cbn [fst snd] in *.
  rewrite (rep_np _ _ H), (rep_mm _ _ H X k HX). unfold d_times, d_dense. split.
  - apply mk_ext. intros i l Hi Hl. apply Rsum_ext. intros j Hj. now rewrite mget_mk.
  - rewrite (np_dot2_mk _ (d_c (denote e)) k); auto. apply (rep_c _ _ H).
Qed.
Print Assumptions C02_nested_matmat.

(** A concrete expression: a sum of a Kronecker product of rectangular
    factors' composition and a block-diagonal matrix. *)
Definition ex_vec (l : vec) : ndarr := mk_arr [length l] l.
Definition ex_expr : expr :=
  ESum [ EKron (EToeplitz (ex_vec [2; 1])) (EComp [ENumpy (mk_arr [1; 3]%nat [1; 2; 3]);
                                                   ENumpy (mk_arr [3; 1]%nat [4; 5; 6])]);
         EBlockDiag [EIdentity 1; EDiag (ex_vec [7])] ].
Example C01_ex_wf : wf ex_expr.
Proof. simpl. repeat split; auto. Qed.
Example C01_ex_eval : exists o, eval ex_expr = Ok o /\ shape o = (2, 2)%nat.
Proof. eexists. split; reflexivity. Qed.
Example C01_ex_dense : forall o, eval ex_expr = Ok o -> as_numpy o = [[65; 32]; [32; 71]].
Proof.
  intros o H. destruct (C01_nested_matvec _ _ C01_ex_wf H) as [_ [_ [-> _]]].
  cbv [d_dense ex_expr denote map d_sum d_kron d_prod d_mul d_dsum d_id d_diag d_r d_c d_f ex_vec
       a_data a_shape lsum fold_right mk tab seq length Rsum toep_entry absdiff vget nth
       Nat.leb Nat.sub Nat.ltb Nat.eqb Nat.div Nat.divmod Nat.modulo fst snd Nat.mul Nat.add].
  repeat match goal with |- _ :: _ = _ :: _ => apply (f_equal2 (@cons _)) end; try reflexivity; lra.
Qed.

(** C03: the FFT product of a Toeplitz operator. *)
Theorem C03_toeplitz_matvec :
  forall (top : vec) o, toeplitz (mk_arr [length top] top) = Ok o ->
    shape o = (length top, length top) /\
    as_numpy o = mk (length top) (length top) (fun i j => vget top (absdiff i j)) /\
    forall x, length x = length top ->
      matvec o x = tab (length top) (fun i => Rsum (length top) (fun j => vget top (absdiff i j) * vget x j)).
Proof.
  intros top o H.
  pose proof (toeplitz_rep (mk_arr [length top] top) o) as R.
  cbn [a_data a_shape] in R. specialize (R ltac:(simpl; lia) H).
  split; [exact (rep_shape _ _ R)|]. split; [exact (rep_np _ _ R)|].
  intros x Hx. exact (rep_mv _ _ R x Hx).
Qed.
Print Assumptions C03_toeplitz_matvec.

(** Construction succeeds for every non-empty [top]. *)
Theorem C03_toeplitz_defined :
  forall top : vec, top <> [] -> exists o, toeplitz (mk_arr [length top] top) = Ok o.
Proof.
  intros top Ht. unfold toeplitz. simpl. destruct top as [|a t]; [congruence|]. simpl. eauto.
Qed.
Print Assumptions C03_toeplitz_defined.

Example C03_ex : forall o, toeplitz (ex_vec [3]) = Ok o -> matvec o [5] = [15].
Proof.
  intros o H. destruct (C03_toeplitz_matvec [3] o H) as [_ [_ Hm]]. rewrite Hm by reflexivity.
  cbv [length tab map seq Rsum absdiff Nat.leb Nat.sub vget nth]. f_equal. lra.
Qed.

(** C04: BTTB of any order. *)
Theorem C04_bttb :
  forall (top : vec) (sizes : list nat) o,
    bttb (mk_arr [length top] top) sizes = Ok o ->
    let N := nprod sizes in
    let entry i j := vget top (ravel_idx sizes (absdiffs (unravel sizes i) (unravel sizes j))) in
    N = length top /\ shape o = (N, N) /\
    as_numpy o = mk N N entry /\
    forall x, length x = N -> matvec o x = tab N (fun i => Rsum N (fun j => entry i j * vget x j)).
Proof.
  intros top sizes o H N entry.
  pose proof (bttb_rep (mk_arr [length top] top) sizes o) as R.
  cbn [a_data a_shape] in R. specialize (R ltac:(simpl; lia) H).
  split.
  - unfold bttb, np_size in H. cbn [np_len a_shape is_1d length Nat.eqb negb bind] in H.
    replace (nprod [length top]) with (length top) in H by (simpl; lia).
    destruct (Nat.eqb (length top) 0); [discriminate|].
    destruct (Nat.eqb_spec (nprod sizes) (length top)); [auto|discriminate].
  - split; [exact (rep_shape _ _ R)|]. split; [exact (rep_np _ _ R)|].
    intros x Hx. exact (rep_mv _ _ R x Hx).
Qed.
Print Assumptions C04_bttb.

Theorem C04_bttb_defined :
  forall (top : vec) (sizes : list nat),
    sizes <> [] -> (forall n, In n sizes -> (0 < n)%nat) -> nprod sizes = length top ->
    exists o, bttb (mk_arr [length top] top) sizes = Ok o.
Proof.
  intros top sizes Hne Hpos Hl. pose proof (nprod_pos sizes Hpos) as Hp.
  unfold bttb, np_size. cbn [np_len a_shape is_1d length Nat.eqb negb bind a_data].
  replace (nprod [length top]) with (length top) by (simpl; lia).
  destruct (Nat.eqb_spec (length top) 0); [lia|].
  destruct (Nat.eqb_spec (nprod sizes) (length top)); [|congruence]. simpl.
  unfold matrix_init. destruct (Nat.ltb_spec (length top) 1); [lia|]. simpl.
  destruct sizes; [congruence|eauto].
Qed.
Print Assumptions C04_bttb_defined.

Example C04_ex :
  exists o, bttb (ex_vec [4; 3; 2; 1]) [2; 2]%nat = Ok o /\
            as_numpy o = [[4;3;2;1]; [3;4;1;2]; [2;1;4;3]; [1;2;3;4]].
Proof.
  destruct (C04_bttb_defined [4;3;2;1] [2;2]%nat) as [o Ho]; [discriminate| |reflexivity|].
  - simpl. intros n [<-|[<-|[]]]; lia.
  - exists o. split; [exact Ho|]. destruct (C04_bttb _ _ _ Ho) as [_ [_ [-> _]]]. reflexivity.
Qed.

(** C52: pickling and operator caching, over any history. *)
Inductive op_event := CallOperator | Pickle.
Definition step (o : obj) (ev : op_event) : obj :=
  match ev with CallOperator => snd (as_linear_operator o) | Pickle => pickle_roundtrip o end.

Definition multiplies_like (op : linop) (M : Mat) : Prop :=
  lo_shape op = shape M /\ (forall x, lo_matvec op x = matvec M x) /\ (forall X, lo_matmat op X = matmat M X).

Theorem C52_operator_history :
  forall M history,
    let o := fold_left step history (new_obj M) in
    o_mat o = M /\
    multiplies_like (fst (as_linear_operator o)) M /\
    o_op (pickle_roundtrip o) = None /\
    multiplies_like (fst (as_linear_operator (pickle_roundtrip o))) M.
Proof.
  intros M history o.
  assert (Hinv : o_mat o = M /\ (forall op, o_op o = Some op -> multiplies_like op M)).
  { unfold o. clear o.
    assert (H : forall ob, o_mat ob = M -> (forall op, o_op ob = Some op -> multiplies_like op M) ->
      o_mat (fold_left step history ob) = M /\
      (forall op, o_op (fold_left step history ob) = Some op -> multiplies_like op M)).
    { induction history as [|ev h IH]; simpl; intros ob H1 H2; auto. apply IH.
      - destruct ev; simpl; auto. unfold as_linear_operator. destruct (o_op ob); auto.
      - destruct ev; simpl; [|discriminate]. unfold as_linear_operator.
        destruct (o_op ob) eqn:E; simpl; intros op' E'.
        + apply H2. congruence.
        + injection E' as <-. rewrite H1. repeat split. }
    apply H; simpl; [auto|discriminate]. }
  destruct Hinv as [H1 H2]. split; [exact H1|].
  split; [|split; [reflexivity|]].
  - unfold as_linear_operator. destruct (o_op o) eqn:E; simpl; [now apply H2|]. rewrite H1. repeat split.
  - unfold pickle_roundtrip, getstate, setstate, as_linear_operator. simpl. rewrite H1. repeat split.
Qed.
Print Assumptions C52_operator_history.

Example C52_ex :
  exists M, identity 2 = Ok M /\
    lo_matvec (fst (as_linear_operator (fold_left step [CallOperator; Pickle; CallOperator] (new_obj M))))
      [1; 2] = [1; 2].
Proof. eexists. split; reflexivity. Qed.
