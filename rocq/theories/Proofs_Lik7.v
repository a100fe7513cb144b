(** The operator of gen_grid_kernel as one covariance. *)

From Coq Require Import Reals List Arith Lia Lra ZArith FunctionalExtensionality.
From Coquelicot Require Import Coquelicot.
From Verif Require Import Base NDArray PSD Det Proofs_Shur Proofs_Det Model_Util Proofs_Util Model_Linalg Spec_Linalg Proofs_Linalg
  Model_Interp Model_Kern Spec_Kern Proofs_Kern Model_FK Spec_FK Proofs_FK Model_Grid Spec_Grid Proofs_Grid Proofs_Grid2
  Model_Lik Spec_Lik Proofs_Lik Proofs_Lik2 Proofs_Lik3 Proofs_Lik4 Proofs_Lik6.
Import ListNotations.
Open Scope R_scope.

Lemma surplus_b_ok f ad : surplus_b f ad = true <-> surplus f ad.
Proof.
  assert (A : existsb (fun q => Nat.ltb q (f_nl f + f_ns f)) (group f ad) = true <-> has_coreg f ad).
  { rewrite existsb_exists. unfold has_coreg, is_lmc, is_slfm. split.
    - intros [q [Hq H]]. apply Nat.ltb_lt in H. exists q. split; [exact Hq|]. lia.
    - intros [q [Hq H]]. exists q. split; [exact Hq|]. apply Nat.ltb_lt. lia. }
  assert (B : existsb (fun q => Nat.ltb q (f_nl f) || Nat.leb (f_nl f + f_ns f) q)%bool (group f ad) = true <-> has_diag f ad).
  { rewrite existsb_exists. unfold has_diag, is_lmc, is_indep. split.
    - intros [q [Hq H]]. exists q. split; [exact Hq|]. apply in_group in Hq. apply Bool.orb_true_iff in H. rewrite Nat.ltb_lt, Nat.leb_le in H. lia.
    - intros [q [Hq H]]. exists q. split; [exact Hq|]. apply Bool.orb_true_iff. rewrite Nat.ltb_lt, Nat.leb_le. lia. }
  unfold surplus_b, surplus. rewrite Bool.andb_true_iff, Bool.orb_true_iff, !Bool.andb_true_iff, !Bool.negb_true_iff, Nat.eqb_neq, Nat.leb_le, Nat.ltb_lt.
  rewrite <- A, <- B, !Bool.not_true_iff_false. tauto.
Qed.

Lemma lsum_pick (l : list dims) (ad : dims) (g : dims -> R) : NoDup l -> In ad l ->
  lsum (map (fun a => if list_eq_dec Nat.eq_dec ad a then g a else 0) l) = g ad.
Proof.
  induction l as [|b l IH]; intros HN Hi; [destruct Hi|]. inversion HN as [|? ? Hni HN']; subst.
  change (lsum (?x :: ?y)) with (x + lsum y) in *. cbn [map].
  change (lsum ((if list_eq_dec Nat.eq_dec ad b then g b else 0) :: map (fun a => if list_eq_dec Nat.eq_dec ad a then g a else 0) l))
    with ((if list_eq_dec Nat.eq_dec ad b then g b else 0) + lsum (map (fun a => if list_eq_dec Nat.eq_dec ad a then g a else 0) l)).
  destruct (list_eq_dec Nat.eq_dec ad b) as [->|Hne].
  - rewrite lsum_map_zero; [ring|]. intros x Hx. destruct (list_eq_dec Nat.eq_dec b x); [subst; contradiction|reflexivity].
  - destruct Hi as [->|Hi]; [contradiction|]. rewrite IH by assumption. ring.
Qed.

Lemma lsum_swap {A B} (g : A -> B -> R) la lb :
  lsum (map (fun a => lsum (map (g a) lb)) la) = lsum (map (fun b => lsum (map (fun a => g a b) la)) lb).
Proof.
  induction la as [|a la IH].
  - cbn [map]. symmetry. apply lsum_map_zero. intros; reflexivity.
  - cbn [map]. change (lsum (?x :: ?y)) with (x + lsum y).
    transitivity (lsum (map (g a) lb) + lsum (map (fun a => lsum (map (g a) lb)) la)); [reflexivity|].
    rewrite IH, <- lsum_map_plus. apply lsum_map_ext. intros b _. reflexivity.
Qed.

Lemma lsum_filter {A} (p : A -> bool) (g : A -> R) l : lsum (map g (filter p l)) = lsum (map (fun x => if p x then g x else 0) l).
Proof.
  induction l as [|x l IH]; [reflexivity|]. cbn [filter map].
  change (lsum (map g (if p x then x :: filter p l else filter p l)) = (if p x then g x else 0) + lsum (map (fun x => if p x then g x else 0) l)).
  rewrite <- IH. destruct (p x); [reflexivity|ring].
Qed.

(** Summing over the groups is summing over the kernels. *)
Lemma sum_groups f P (g : dims -> nat -> R) : fk_ok f -> f_P f = Some P ->
  lsum (map (fun ad => lsum (map (g ad) (group f ad))) (map fst (f_active f))) = Rsum (f_Q f) (fun q => g (qdims f q) q).
Proof.
  intros Hok HP.
  pose proof (ok_dims _ Hok) as DI. rewrite HP in DI.
  unfold group. rewrite (lsum_map_ext _ (fun ad => lsum (map (fun q => if list_eq_dec Nat.eq_dec (qdims f q) ad then g ad q else 0) (seq 0 (f_Q f))))).
  2:{ intros ad _. rewrite lsum_filter. apply lsum_map_ext. intros q Hq. apply in_seq in Hq.
      destruct (do_some _ DI q) as [a Ha]; [lia|]. unfold qdims. rewrite Ha. destruct (list_eq_dec Nat.eq_dec a ad); reflexivity. }
  rewrite lsum_swap. rewrite <- lsum_tab. unfold tab. apply lsum_map_ext. intros q Hq. apply in_seq in Hq.
  apply (lsum_pick _ _ (fun a => g a q)); [exact (do_nodup _ DI)|].
  apply (keys_group f P Hok HP). apply (group_qdims f P Hok HP q). lia.
Qed.

Section Op.
Variables (f : fkernel) (P : nat) (dists : dict ndarr) (interps : interpolants) (G : dims -> ndarr) (W WT : dims -> sparse) (lens : list nat).
Let n := nsum lens.
Hypothesis Hok : fk_ok f.
Hypothesis HP : f_P f = Some P.
Hypothesis HPp : (0 < P)%nat.
Hypothesis Hker : kernels_ok f.
Hypothesis HL : length lens = f_D f.
Hypothesis Hn : (0 < n)%nat.
Hypothesis HG : forall ad, group f ad <> [] -> dict_get dists ad = Ok (G ad) /\ dists_ok (G ad) /\
  dict_get interps ad = Ok (W ad, WT ad) /\ interp_ok n (f_D f * nprod (a_shape (G ad))) (W ad) (WT ad).

Lemma ski_den_entry ad d : group f ad <> [] -> d_r d = (f_D f * nprod (a_shape (G ad)))%nat -> d_c d = (f_D f * nprod (a_shape (G ad)))%nat ->
  forall i j, d_f (ski_den (W ad) d) i j = Rsum (f_D f * nprod (a_shape (G ad))) (fun u => Rsum (f_D f * nprod (a_shape (G ad))) (fun v =>
    sp_get (W ad) i u * d_f d u v * sp_get (W ad) j v)).
Proof.
  intros Hg Hr Hc i j. destruct (HG ad Hg) as [_ [_ [_ [I1 I2 _ _ _]]]].
  unfold ski_den. cbn [d_mul d_f d_c d_T W_den d_r]. rewrite I2, Hc. apply Rsum_ext. intros u Hu.
  rewrite <- Rsum_scal_l. apply Rsum_ext. intros v Hv. ring.
Qed.

Lemma ski_K_UU ad i j : group f ad <> [] -> d_f (ski_den (W ad) (K_UU f (G ad) ad)) i j =
  lsum (map (fun q => ski_entry (W ad) (f_D f) (nprod (a_shape (G ad))) (B_of f q) (K_grid f (G ad) q) i j) (group f ad)).
Proof.
  intros Hg. rewrite ski_den_entry; [|exact Hg|reflexivity|reflexivity]. unfold K_UU. cbn [d_f]. unfold ski_entry.
  set (m := nprod (a_shape (G ad))). set (N := (f_D f * m)%nat).
  transitivity (Rsum N (fun u => lsum (map (fun q => Rsum N (fun v => sp_get (W ad) i u *
      (B_of f q (u / m) (v / m) * K_grid f (G ad) q (u mod m) (v mod m)) * sp_get (W ad) j v)) (group f ad)))).
  - apply Rsum_ext. intros u Hu.
    rewrite <- (lsum_tab N (fun v => sp_get (W ad) i u * _ * sp_get (W ad) j v)). unfold tab.
    rewrite (lsum_map_ext (fun q => Rsum N _) (fun q => lsum (map (fun v => sp_get (W ad) i u *
      (B_of f q (u / m) (v / m) * K_grid f (G ad) q (u mod m) (v mod m)) * sp_get (W ad) j v) (seq 0 N)))).
    2:{ intros q _. now rewrite <- lsum_tab. }
    rewrite lsum_swap. apply lsum_map_ext. intros v _. 
    match goal with |- ?a * lsum ?l * ?b = _ => transitivity ((a * b) * lsum l); [ring|] end.
    rewrite <- lsum_map_scal. apply lsum_map_ext. intros q _. ring.
  - rewrite <- lsum_tab. unfold tab. rewrite lsum_swap. apply lsum_map_ext. intros q _. rewrite <- lsum_tab. reflexivity.
Qed.

Lemma gen_K_op : exists o ks, gen_grid_kernel f dists interps lens = Ok (o, ks) /\ represents o (mk_den n n (K_op f G W lens)).
Proof.
  destruct (gen_ok f P dists interps lens G W WT Hok HP HPp Hker HL Hn HG) as [o [ks [ds [E [Ek [F Ro]]]]]].
  exists o, ks. split; [exact E|].
  set (l := map (fun p : dims * gridkernel * den => ski_den (W (fst (fst p))) (snd p)) (combine ks ds)) in *.
  assert (HK : forall ad, In ad (map fst ks) -> group f ad <> []) by (intros ad Had; apply (keys_group f P Hok HP); now rewrite <- Ek).
  assert (Hl : forall d, In d l -> d_r d = n /\ d_c d = n).
  { intros d Hd. unfold l in Hd. apply in_map_iff in Hd. destruct Hd as [[p d'] [<- Hin]]. cbn [fst snd].
    assert (Hg : group f (fst p) <> []) by (apply HK; apply in_combine_l in Hin; now apply in_map).
    destruct (HG _ Hg) as [_ [_ [_ [I1 _ _ _ _]]]]. unfold ski_den. cbn. now rewrite I1. }
  assert (Hsum : forall i j, lsum (map (fun d => d_f d i j) l) =
    lsum (map (fun ad => d_f (ski_den (W ad) (K_UU f (G ad) ad)) i j + (if surplus_b f ad
                       then Rsum (f_D f * nprod (a_shape (G ad))) (fun u => sp_get (W ad) i u * sp_get (W ad) j u)
                       else 0)) (map fst (f_active f)))).
  { intros i j. rewrite <- Ek. unfold l. clear Ro E Ek l Hl. induction F as [|p d ks ds [HO _] F IH]; [reflexivity|].
    cbn [combine map fst snd]. 
    match goal with |- lsum (?a :: ?x) = lsum (?b :: ?y) => change (a + lsum x = b + lsum y) end.
    rewrite IH by (intros ad Had; apply HK; now right). f_equal.
    assert (Hg : group f (fst p) <> []) by (apply HK; now left).
    destruct HO as [H1 H2]. destruct (surplus_b f (fst p)) eqn:Es.
    - apply surplus_b_ok in Es. rewrite (H2 Es).
      set (N := (f_D f * nprod (a_shape (G (fst p))))%nat).
      rewrite ski_den_entry by (auto; reflexivity). rewrite ski_den_entry by (auto; reflexivity). fold N. rewrite <- Rsum_plus.
      apply Rsum_ext. intros u Hu.
      replace (sp_get (W (fst p)) i u * sp_get (W (fst p)) j u) with
        (Rsum N (fun v => if Nat.eqb v u then sp_get (W (fst p)) i u * sp_get (W (fst p)) j v else 0)) by now rewrite Rsum_delta.
      rewrite <- Rsum_plus. apply Rsum_ext. intros v Hv. cbn [d_sum d_f map d_id].
      match goal with |- context [lsum [?a; ?b]] => change (lsum [a; b]) with (a + (b + 0)) end.
      rewrite (Nat.eqb_sym v u). destruct (Nat.eqb u v); ring.
    - rewrite H1; [ring|]. intros C. apply surplus_b_ok in C. congruence. }
  eapply represents_ext; [exact Ro|].
  assert (D : d_r (d_sum (l ++ [noise_den f lens])) = n /\ d_c (d_sum (l ++ [noise_den f lens])) = n).
  { destruct l as [|d l']; [split; reflexivity|]. cbn [app d_sum d_r d_c]. apply Hl. now left. }
  split; [apply D|]. split; [apply D|]. intros i j _ _.
  assert (Ed : d_f (d_sum (l ++ [noise_den f lens])) i j = lsum (map (fun d => d_f d i j) (l ++ [noise_den f lens]))) by (destruct l; reflexivity).
  rewrite Ed, map_app, lsum_app, Hsum, lsum_map_plus. cbn [map d_f]. unfold K_op, K_ski, spurious.
  match goal with |- context [lsum [?a]] => change (lsum [a]) with (a + 0) end.
  rewrite <- (sum_groups f P (fun ad q => ski_entry (W ad) (f_D f) (nprod (a_shape (G ad))) (B_of f q) (K_grid f (G ad) q) i j) Hok HP).
  rewrite (lsum_map_ext (fun ad => d_f (ski_den (W ad) (K_UU f (G ad) ad)) i j)
     (fun ad => lsum (map (fun q => ski_entry (W ad) (f_D f) (nprod (a_shape (G ad))) (B_of f q) (K_grid f (G ad) q) i j) (group f ad)))).
  2:{ intros ad Had. apply ski_K_UU. now apply (keys_group f P Hok HP). }
  unfold noise_den. cbn [d_f]. ring.
Qed.

Lemma spurious_sym : sym n (spurious f G W).
Proof.
  intros i j _ _. unfold spurious. apply lsum_map_ext. intros ad _. destruct (surplus_b f ad); [|reflexivity].
  apply Rsum_ext. intros. ring.
Qed.

Lemma K_op_sym : sym n (K_op f G W lens).
Proof.
  intros i j Hi Hj. unfold K_op. rewrite (spurious_sym i j Hi Hj). f_equal. unfold K_ski. f_equal.
  - apply Rsum_ext. intros q Hq. apply ski_entry_sym; [|intros; apply B_of_sym|intros; apply bttb_entry_sym].
    destruct (group_qdims f P Hok HP q Hq) as [_ Hg]. destruct (HG _ Hg) as [_ [[_ [H _]] _]]. exact H.
  - rewrite (Nat.eqb_sym j i). destruct (Nat.eqb_spec i j); [now subst|reflexivity].
Qed.

End Op.

(** The superfluous terms do not depend on the parameters. *)
Lemma spurious_const f g G W : f_Q g = f_Q f -> f_D g = f_D f -> f_nl g = f_nl f -> f_ns g = f_ns f -> f_active g = f_active f ->
  (forall q, dims_of g q = dims_of f q) -> (forall q, length (nth q (f_vecs g) []) = length (nth q (f_vecs f) [])) ->
  spurious g G W = spurious f G W.
Proof.
  intros E1 E2 E3 E4 E5 E6 E7. extensionality i. extensionality j. unfold spurious. rewrite E5. apply lsum_map_ext. intros ad _.
  assert (Eg : group g ad = group f ad) by (unfold group; rewrite E1; apply filter_ext; intros q; now rewrite E6).
  replace (surplus_b g ad) with (surplus_b f ad); [now rewrite E2|].
  unfold surplus_b. rewrite Eg, E1, E2, E3, E4. do 3 f_equal. f_equal.
  unfold coreg_rank. rewrite Eg, E3, E4. f_equal. apply map_ext. intros q. now rewrite E7.
Qed.

Lemma spurious_vec f q r d s G W : (q < length (f_vecs f))%nat -> spurious (with_vec f q r d s) G W = spurious f G W.
Proof.
  intros Hq. apply spurious_const; try reflexivity. intros q'. unfold with_vec. cbn [f_vecs]. rewrite upd_nth by exact Hq.
  destruct (Nat.eqb_spec q' q); [subst; apply upd_length|reflexivity].
Qed.
Lemma spurious_diag f q d s G W : spurious (with_diag f q d s) G W = spurious f G W.
Proof. apply spurious_const; reflexivity. Qed.
Lemma spurious_noise f d s G W : spurious (with_noise f d s) G W = spurious f G W.
Proof. apply spurious_const; reflexivity. Qed.
Lemma spurious_kparam f q j s G W : (q < f_Q f)%nat -> spurious (with_kparam f q j s) G W = spurious f G W.
Proof.
  intros Hq. apply spurious_const; try reflexivity.
  - unfold with_kparam, f_Q. cbn [f_kernels]. apply upd_length.
  - intros q'. unfold dims_of at 1, with_kparam. cbn [f_kernels]. rewrite upd_nth by exact Hq. destruct (Nat.eqb_spec q' q); [now subst|reflexivity].
Qed.

(** ** Definiteness *)

Lemma ski_entry_psd W D m n A K : sym D A -> psd D A -> psd m K -> psd n (ski_entry W D m A K).
Proof.
  intros S HA HK. pose proof (psd_congruence n (D * m) (kron_f m A K) (sp_get W) (psd_kron D m A K S HA HK)) as H.
  eapply psd_ext; [|exact H]. intros i j Hi Hj. unfold ski_entry, kron_f. apply Rsum_ext. intros u _. rewrite <- Rsum_scal_l.
  apply Rsum_ext. intros v _. ring.
Qed.

Lemma gram_f_psd n N (w : nat -> nat -> R) : psd n (fun i j => Rsum N (fun u => w i u * w j u)).
Proof.
  pose proof (psd_congruence n N id_f w (psd_id N)) as H. eapply psd_ext; [|exact H]. intros i j Hi Hj. cbv beta.
  apply Rsum_ext. intros u Hu. f_equal. rewrite <- (Rsum_delta N u (fun l => w j l) Hu). apply Rsum_ext. intros l Hl. unfold id_f.
  rewrite (Nat.eqb_sym l u). destruct (Nat.eqb u l); ring.
Qed.

Lemma K_op_pd f G W lens : length lens = f_D f ->
  (forall q a, (q < f_Q f)%nat -> (a < f_D f)%nat -> 0 <= vget (nth q (f_diags f) []) a) ->
  (forall q, (q < f_Q f)%nat -> psd (nprod (a_shape (G (qdims f q)))) (K_grid f (G (qdims f q)) q)) ->
  (forall a, (a < f_D f)%nat -> 0 < vget (f_noise f) a) -> pos_definite (nsum lens) (K_op f G W lens).
Proof.
  intros HL Hd HK Hn x [k [Hk Hx]]. set (n := nsum lens) in *.
  assert (own : forall i, (i < n)%nat -> (owner lens i < f_D f)%nat) by (intros i Hi; rewrite <- HL; now apply owner_lt).
  change (0 < qf n (K_op f G W lens) x). unfold K_op, K_ski.
  unfold qf. rewrite bil_plus, bil_plus.
  assert (H1 := psd_Rsum n (f_Q f) (fun q => ski_entry (W (qdims f q)) (f_D f) (nprod (a_shape (G (qdims f q)))) (B_of f q) (K_grid f (G (qdims f q)) q))
     ltac:(intros q Hq; apply ski_entry_psd; [intros a b _ _; apply B_of_sym|apply B_of_psd; auto|auto]) x).
  assert (H2 : psd n (spurious f G W)).
  { apply (psd_lsum n _ (fun ad i j => if surplus_b f ad then Rsum (f_D f * nprod (a_shape (G ad))) (fun u => sp_get (W ad) i u * sp_get (W ad) j u) else 0)).
    intros ad _. destruct (surplus_b f ad); [apply gram_f_psd|apply psd_zero]. }
  specialize (H2 x). unfold qf in H1, H2. change (fun i j => spurious f G W i j) with (spurious f G W).
  pose proof (qf_diag n (fun i => vget (f_noise f) (owner lens i)) x) as H3. unfold qf in H3. rewrite H3.
  assert (0 < Rsum n (fun i => vget (f_noise f) (owner lens i) * (x i * x i))); [|lra].
  apply Rlt_le_trans with (vget (f_noise f) (owner lens k) * (x k * x k)).
  - apply Rmult_lt_0_compat; [auto|nra].
  - rewrite <- (Rsum_delta n k (fun i => vget (f_noise f) (owner lens i) * (x i * x i)) Hk).
    apply Rsum_le. intros i Hi. destruct (Nat.eqb i k); [lra|]. apply Rmult_le_pos; [left; auto|nra].
Qed.
