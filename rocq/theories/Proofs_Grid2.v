(** The whole SKI operator; the distances of a grid; definiteness. *)

From Coq Require Import Reals List Arith ZArith Lia Lra.
From Verif Require Import Base NDArray PSD Model_Util Spec_Util Model_Fourier Model_Linalg Spec_Linalg Expr_Linalg Proofs_Util
  Proofs_Fourier Proofs_Linalg Model_Interp Spec_Interp Model_Kern Model_FK Spec_Kern Spec_FK Proofs_Kern Proofs_KernPSD Proofs_FK
  Model_Grid Spec_Grid Proofs_Grid.
Import ListNotations.
Open Scope R_scope.

(** ** Distances of a grid *)

Lemma nth_absdiffs a b p : length a = length b -> (p < length a)%nat ->
  nth p (absdiffs a b) 0%nat = absdiff (nth p a 0%nat) (nth p b 0%nat).
Proof.
  revert b p. induction a as [|x a IH]; intros [|y b] [|p] Hl Hp; cbn in *; try lia; auto. apply IH; lia.
Qed.

Lemma unravel_zero s p : nth p (unravel s 0) 0%nat = 0%nat.
Proof.
  revert p. induction s as [|n s IH]; intros [|p]; try reflexivity.
  - cbn [unravel nth]. destruct (nprod s); [reflexivity|apply Nat.div_0_l; lia].
  - cbn [unravel nth]. replace (0 mod nprod s)%nat with 0%nat; [apply IH|].
    destruct (nprod s); [reflexivity|symmetry; apply Nat.mod_0_l; lia].
Qed.

Lemma absdiff_sq a b : INR (absdiff a b) ^ 2 = (INR a - INR b) ^ 2.
Proof. unfold absdiff. destruct (Nat.leb_spec b a); rewrite minus_INR by lia; ring. Qed.

Lemma axes_lengths l : map (@length R) (axes_of l) = map (fun x => fst (fst x)) l.
Proof. unfold axes_of. rewrite map_map. apply map_ext. intros x. apply tab_length. Qed.

Lemma nth_unravel_lt s k p : (k < nprod s)%nat -> (p < length s)%nat -> (nth p (unravel s k) 0 < nth p s 0)%nat.
Proof. intros Hk Hp. apply (idx_in_nth s); [now apply unravel_in|assumption]. Qed.

Lemma grid_pt_coord l i p : (i < axes_points l)%nat -> (p < length l)%nat ->
  grid_pt (axes_of l) i p =
    let x := nth p l (0%nat, 0, 0) in
    snd (fst x) + INR (nth p (unravel (map (fun x => fst (fst x)) l) i) 0%nat) * snd x.
Proof.
  intros Hi Hp. unfold grid_pt. rewrite cart_tab, axes_lengths. rewrite nth_tab by exact Hi.
  rewrite nth_tab by (unfold axes_of; rewrite map_length; assumption). unfold axes_of, vec.
  rewrite (nth_indep _ [] ((fun x : nat * R * R => equispaced (fst (fst x)) (snd (fst x)) (snd x)) (0%nat, 0, 0)))
    by (rewrite map_length; assumption).
  rewrite (map_nth (fun x : nat * R * R => equispaced (fst (fst x)) (snd (fst x)) (snd x))). unfold equispaced.
  rewrite nth_tab; [reflexivity|].
  pose proof (nth_unravel_lt (map (fun x : nat * R * R => fst (fst x)) l) i p Hi) as H. rewrite map_length in H. specialize (H Hp).
  rewrite (nth_indep (map (fun x : nat * R * R => fst (fst x)) l) 0%nat ((fun x : nat * R * R => fst (fst x)) (0%nat, 0, 0))) in H
    by (rewrite map_length; assumption).
  rewrite (map_nth (fun x : nat * R * R => fst (fst x))) in H. exact H.
Qed.

Lemma la_dist_euclid P (u v : vec) : length u = P -> length v = P ->
  la_dist u v = euclid P (fun p => nth p u 0) (fun p => nth p v 0).
Proof.
  intros Hu Hv. unfold la_dist, euclid. f_equal. subst P.
  revert v Hv. induction u as [|x u IH]; intros [|y v] Hv; cbn in Hv; try lia; [reflexivity|].
  cbn [combine map length]. rewrite Rsum_S_l. unfold lsum. cbn [fold_right fst snd nth]. f_equal. apply IH. lia.
Qed.

Lemma grid_dists_value axes : axes <> [] -> (0 < nprod (map (@length R) axes))%nat ->
  grid_dists axes = Ok (mk_arr (map (@length R) axes)
    (tab (nprod (map (@length R) axes)) (fun t => euclid (length axes) (grid_pt axes t) (grid_pt axes 0)))).
Proof.
  intros Hne Hpos. unfold grid_dists. rewrite cartesian_product_ok by assumption. cbn [bind].
  assert (Hr : forall i, (i < nprod (map (@length R) axes))%nat -> length (nth i (cart axes) []) = length axes).
  { intros i Hi. rewrite cart_tab, nth_tab by assumption. apply tab_length. }
  pose proof (cart_length axes) as HL.
  destruct (cart axes) as [|first rest] eqn:E; [cbn in HL; lia|]. do 2 f_equal.
  unfold grid_pt. rewrite E.
  rewrite (list_as_tab [] (first :: rest)) at 1. rewrite HL, map_tab. apply tab_ext. intros t Ht.
  rewrite (la_dist_euclid (length axes)); [reflexivity|apply Hr; assumption|].
  apply (Hr 0%nat). assumption.
Qed.

Lemma grid_dists_entry (k : R -> R) l i j : l <> [] -> (0 < axes_points l)%nat ->
  (i < axes_points l)%nat -> (j < axes_points l)%nat ->
  bttb_entry (map k (tab (axes_points l) (fun t => euclid (length l) (grid_pt (axes_of l) t) (grid_pt (axes_of l) 0))))
    (map (fun x => fst (fst x)) l) i j
  = k (euclid (length l) (grid_pt (axes_of l) i) (grid_pt (axes_of l) j)).
Proof.
  intros Hne Hpos Hi Hj. unfold bttb_entry. set (s := map (fun x => fst (fst x)) l).
  set (u := unravel s i). set (v := unravel s j).
  assert (Hu : idx_in s u) by now apply unravel_in. assert (Hv : idx_in s v) by now apply unravel_in.
  assert (Hd : idx_in s (absdiffs u v)) by now apply absdiffs_in.
  assert (Ht : (ravel_idx s (absdiffs u v) < axes_points l)%nat) by (now apply ravel_lt).
  rewrite map_tab. unfold vget. rewrite nth_tab by exact Ht. f_equal. unfold euclid. f_equal. apply Rsum_ext. intros p Hp.
  rewrite !grid_pt_coord by assumption. fold s. rewrite unravel_ravel by assumption. cbv zeta. rewrite unravel_zero.
  pose proof (idx_in_length _ _ Hu) as Lu. pose proof (idx_in_length _ _ Hv) as Lv.
  assert (Ls : length s = length l) by apply map_length.
  rewrite nth_absdiffs by lia. fold u v. cbn [INR].
  pose proof (absdiff_sq (nth p u 0%nat) (nth p v 0%nat)) as E. nra.
Qed.

(** ** Owners of observations *)

Lemma vget_repeat_owner (v : vec) lens i : length lens = length v -> (i < nsum lens)%nat ->
  vget (np_repeat v lens) i = vget v (owner lens i).
Proof.
  unfold vget, np_repeat. revert lens i. induction v as [|x v IH]; intros [|n lens] i Hl Hi; cbn in Hl; try lia; [cbn in Hi; lia|].
  cbn [combine map concat owner fst snd]. unfold nsum in Hi. cbn [fold_right] in Hi. fold (nsum lens) in Hi.
  destruct (Nat.ltb_spec i n) as [H|H].
  - rewrite app_nth1 by (rewrite repeat_length; lia). now apply nth_repeat_in.
  - rewrite app_nth2 by (rewrite repeat_length; lia). rewrite repeat_length. cbn [nth]. apply IH; lia.
Qed.

Lemma np_repeat_length {A} (v : list A) lens : length lens = length v -> length (np_repeat v lens) = nsum lens.
Proof.
  unfold np_repeat. revert lens. induction v as [|x v IH]; intros [|n lens] H; cbn in H; try lia; [reflexivity|].
  cbn [combine map concat fst snd]. rewrite app_length, repeat_length, IH by lia. reflexivity.
Qed.

Lemma owner_offset lens a i : (a < length lens)%nat -> (i < nth a lens 0)%nat ->
  owner lens (nsum (firstn a lens) + i) = a /\ place lens (nsum (firstn a lens) + i) = i.
Proof.
  revert a. induction lens as [|n lens IH]; intros [|a] Ha Hi; cbn in Ha; try lia.
  - unfold nsum. cbn [firstn fold_right owner place]. cbn in Hi. destruct (Nat.ltb_spec (0 + i) n); [|lia]. auto.
  - cbn [firstn owner place]. unfold nsum. cbn [fold_right]. fold (nsum (firstn a lens)). cbn in Hi.
    destruct (Nat.ltb_spec (n + nsum (firstn a lens) + i) n); [lia|].
    replace (n + nsum (firstn a lens) + i - n)%nat with (nsum (firstn a lens) + i)%nat by lia.
    destruct (IH a) as [-> ->]; [lia|assumption|]. auto.
Qed.

Lemma owner_lt lens i : (i < nsum lens)%nat -> (owner lens i < length lens)%nat /\
  (place lens i < nth (owner lens i) lens 0)%nat /\ i = (nsum (firstn (owner lens i) lens) + place lens i)%nat.
Proof.
  revert i. induction lens as [|n lens IH]; intros i Hi; [cbn in Hi; lia|].
  unfold nsum in Hi. cbn [fold_right] in Hi. fold (nsum lens) in Hi. cbn [owner place length].
  destruct (Nat.ltb_spec i n) as [H|H]; [cbn; split; [lia|split; [lia|reflexivity]]|].
  destruct (IH (i - n)%nat) as [A [B C]]; [lia|]. cbn [nth firstn]. unfold nsum. cbn [fold_right].
  fold (nsum (firstn (owner lens (i - n)) lens)). split; [lia|]. split; [assumption|]. lia.
Qed.

Lemma diag_ok v : (0 < length v)%nat -> exists o, diag (np1 v) = Ok o /\ represents o (d_diag v).
Proof.
  intros Hv. assert (E : exists o, diag (np1 v) = Ok o).
  { unfold diag, np1, np_len, is_1d. cbn [a_shape a_data]. cbn [bind].
    rewrite matrix_init_pos by assumption. cbn [bind]. eexists. reflexivity. }
  destruct E as [o E]. exists o. split; [exact E|]. apply (diag_rep (np1 v)); [cbn; lia|exact E].
Qed.

(** ** gen_grid_kernel *)

Section Gen.
Variables (f : fkernel) (P : nat) (dists : dict ndarr) (interps : interpolants) (lens : list nat).
Variables (G : dims -> ndarr) (W WT : dims -> sparse).
Hypothesis Hok : fk_ok f.
Hypothesis HP : f_P f = Some P.
Hypothesis HPpos : (0 < P)%nat.
Hypothesis Hker : kernels_ok f.
Hypothesis Hlens : length lens = f_D f.
Hypothesis Hn : (0 < nsum lens)%nat.
Hypothesis HG : forall ad, group f ad <> [] -> dict_get dists ad = Ok (G ad) /\ dists_ok (G ad) /\
  dict_get interps ad = Ok (W ad, WT ad) /\ interp_ok (nsum lens) (f_D f * nprod (a_shape (G ad))) (W ad) (WT ad).

Definition grid_of (ad : dims) (d : den) : Prop :=
  (~ surplus f ad -> d = K_UU f (G ad) ad) /\
  (surplus f ad -> d = d_sum [K_UU f (G ad) ad; d_id (f_D f * nprod (a_shape (G ad)))]).

Lemma keys_group ad : In ad (map fst (f_active f)) <-> group f ad <> [].
Proof.
  pose proof (ok_dims _ Hok) as DI. rewrite HP in DI. rewrite dict_key. rewrite (do_active _ DI).
  destruct (group f ad) as [|q l]; split; intros H; try congruence; try (destruct H; discriminate). eexists; reflexivity.
Qed.

Lemma gen_ok : exists o ks ds, gen_grid_kernel f dists interps lens = Ok (o, ks) /\
  map fst ks = map fst (f_active f) /\
  Forall2 (fun p d => grid_of (fst p) d /\ represents (gk_grid (snd p)) d /\
                      represents (gk_mat (snd p)) (ski_den (W (fst p)) d)) ks ds /\
  represents o (d_sum (map (fun p => ski_den (W (fst (fst p))) (snd p)) (combine ks ds) ++ [noise_den f lens])).
Proof.
  unfold gen_grid_kernel.
  set (step := fun ad => let! kt := choose_ktype f ad in let! gd := dict_get dists ad in let! w := dict_get interps ad in
      let! k := grid_kernel f gd (fst w) (snd w) kt ad in Ok (ad, k)).
  destruct (map_result_ex step (fun ad p => fst p = ad /\ exists d, grid_of ad d /\ represents (gk_grid (snd p)) d /\
     represents (gk_mat (snd p)) (ski_den (W ad) d) /\ d_r (ski_den (W ad) d) = nsum lens)
     (map fst (f_active f))) as [ks [Ek Hk]].
  { intros ad Had. apply keys_group in Had. destruct (HG ad Had) as [G1 [G2 [G3 G4]]].
    destruct (choose_ok f P ad (G ad) Hok HP HPpos Had G2) as [kt [Ekt Hkt]].
    destruct (grid_kernel_ok f P ad (G ad) Hok HP HPpos Had Hker G2 (W ad) (WT ad) (nsum lens) kt Hn G4) as [k [Ekk [R1 R2]]].
    exists (ad, k). split.
    - unfold step. rewrite Ekt, G1, G3. cbn [bind fst snd]. rewrite Ekk. reflexivity.
    - split; [reflexivity|]. cbn [fst snd]. assert (SD : surplus f ad \/ ~ surplus f ad).
      { rewrite <- Hkt. destruct (has_coreg_dec f P ad (G ad)), (has_diag_dec f P ad (G ad)); try assumption; destruct kt;
          try (right; intros [? _]; discriminate); try (right; tauto); left; tauto. }
      destruct SD as [S|S].
      + apply Hkt in S. specialize (R2 S). apply Hkt in S.
        exists (d_sum [K_UU f (G ad) ad; d_id (f_D f * nprod (a_shape (G ad)))]).
        split; [split; [tauto|intros _; reflexivity]|]. split; [apply R2|]. split; [apply R2|]. cbn. apply (io_r _ _ _ _ G4).
      + assert (S' := S). rewrite <- Hkt in S'. specialize (R1 S').
        exists (K_UU f (G ad) ad). split; [split; [intros _; reflexivity|tauto]|]. split; [apply R1|]. split; [apply R1|]. cbn. apply (io_r _ _ _ _ G4). }
  rewrite Ek. cbn [bind].
  rewrite (ok_noise _ Hok), Hlens, Nat.eqb_refl. cbn [negb].
  assert (Hl : length lens = length (f_noise f)) by (rewrite (ok_noise _ Hok); exact Hlens).
  pose proof (np_repeat_length (f_noise f) lens Hl) as HNL.
  destruct (diag_ok (np_repeat (f_noise f) lens)) as [no [Eno Rno]]; [lia|]. rewrite Eno. cbn [bind].
  assert (Rn : represents no (noise_den f lens)).
  { eapply represents_ext; [exact Rno|]. unfold d_diag, noise_den, d_eq. cbn [d_r d_c d_f]. rewrite HNL.
    split; [reflexivity|]. split; [reflexivity|]. intros i j Hi Hj. rewrite vget_repeat_owner by assumption. reflexivity. }
  assert (X : exists ds, Forall2 (fun p d => grid_of (fst p) d /\ represents (gk_grid (snd p)) d /\
                      represents (gk_mat (snd p)) (ski_den (W (fst p)) d) /\ d_r (ski_den (W (fst p)) d) = nsum lens) ks ds).
  { clear Ek. induction Hk as [|ad p ks0 ks Hp Hk IH].
    - exists []. constructor.
    - destruct IH as [ds Hds]. destruct Hp as [<- [d Hd]]. exists (d :: ds). constructor; assumption. }
  destruct X as [ds Hds].
  set (dd := map (fun p => ski_den (W (fst (fst p))) (snd p)) (combine ks ds)).
  assert (F : Forall2 represents (map (fun p => gk_mat (snd p)) ks ++ [no]) (dd ++ [noise_den f lens])).
  { apply Forall2_app; [|constructor; [exact Rn|constructor]]. unfold dd. clear - Hds.
    induction Hds as [|p d ks ds H Hds IH]; [constructor|]. cbn [map combine fst snd]. constructor; [tauto|exact IH]. }
  edestruct (sum_matrix_ok _ _ (nsum lens) (nsum lens) F) as [o [Eo Ro]].
  { destruct dd; discriminate. }
  { intros d Hd. apply in_app_or in Hd. destruct Hd as [Hd|[<-|[]]]; [|auto]. unfold dd in Hd. apply in_map_iff in Hd.
    destruct Hd as [[p d'] [<- Hin]]. cbn [fst snd].
    assert (Z : d_r (ski_den (W (fst p)) d') = nsum lens).
    { clear - Hds Hin. induction Hds as [|x y l l' H Hds IH]; [destruct Hin|]. destruct Hin as [E|Hin]; [|auto].
      injection E as -> ->. tauto. }
    split; [exact Z|]. exact Z. }
  rewrite Eo. cbn [bind]. exists o, ks, ds. split; [reflexivity|]. split.
  { clear - Hk. induction Hk as [|ad p l ks Hp Hk IH]; [reflexivity|]. cbn [map]. f_equal; [apply Hp|exact IH]. }
  split; [|exact Ro]. clear - Hds. induction Hds as [|x y l l' H Hds IH]; constructor; tauto.
Qed.

(** Without a superfluous identity. *)
Lemma gen_clean : (forall ad, group f ad <> [] -> ~ surplus f ad) ->
  exists o ks, gen_grid_kernel f dists interps lens = Ok (o, ks) /\
    represents o (d_sum (map (fun ad => ski_den (W ad) (K_UU f (G ad) ad)) (map fst (f_active f)) ++ [noise_den f lens])) /\
    forall ad, group f ad <> [] -> exists gk, dict_get ks ad = Ok gk /\
      represents (gk_grid gk) (K_UU f (G ad) ad) /\ represents (gk_mat gk) (ski_den (W ad) (K_UU f (G ad) ad)).
Proof.
  intros HS. destruct gen_ok as [o [ks [ds [E [Ek [F Ro]]]]]]. exists o, ks. split; [exact E|].
  assert (Eds : ds = map (fun p => K_UU f (G (fst p)) (fst p)) ks).
  { assert (HK : forall p, In p ks -> ~ surplus f (fst p)).
    { intros p Hp. apply HS, keys_group. rewrite <- Ek. now apply in_map. }
    clear - F HK. induction F as [|p d ks ds H F IH]; [reflexivity|]. cbn [map]. f_equal.
    - apply H. apply HK. now left.
    - apply IH. intros q Hq. apply HK. now right. }
  split.
  - replace (map (fun ad => ski_den (W ad) (K_UU f (G ad) ad)) (map fst (f_active f)))
      with (map (fun p : (dims * gridkernel) * den => ski_den (W (fst (fst p))) (snd p)) (combine ks ds)); [exact Ro|].
    rewrite <- Ek, Eds, map_map. clear. induction ks as [|p ks IH]; [reflexivity|]. cbn [map combine fst snd]. f_equal. exact IH.
  - intros ad Had. pose proof (ok_dims _ Hok) as DI. rewrite HP in DI.
    assert (Hin : In ad (map fst ks)) by (rewrite Ek; now apply keys_group).
    apply dict_key in Hin. destruct Hin as [gk Hgk]. exists gk. split; [exact Hgk|]. apply dict_get_in in Hgk.
    subst ds. clear - F Hgk. induction ks as [|p ks IH]; [destruct Hgk|]. cbn [map] in F. inversion F; subst. 
    destruct Hgk as [->|Hin]; [|auto]. cbn [fst snd] in *. tauto.
Qed.

End Gen.

(** ** Symmetry and definiteness *)

Lemma K_grid_sym f d q : sym (nprod (a_shape d)) (K_grid f d q).
Proof. intros i j _ _. unfold K_grid, bttb_entry. now rewrite absdiffs_sym. Qed.

Lemma B_of_sym f q a b : B_of f q a b = B_of f q b a.
Proof.
  unfold B_of. f_equal; [apply Rsum_ext; intros; ring|].
  rewrite (Nat.eqb_sym b a). destruct (Nat.eqb_spec a b); congruence.
Qed.

Lemma B_of_psd f q : (forall a, (a < f_D f)%nat -> 0 <= vget (nth q (f_diags f) []) a) -> psd (f_D f) (B_of f q).
Proof.
  intros H. unfold B_of. apply psd_plus; [|now apply psd_diag_f].
  apply (psd_ext _ (fun i j => Rsum (length (nth q (f_vecs f) [])) (fun r => mget (nth q (f_vecs f) []) r i * mget (nth q (f_vecs f) []) r j)));
    [reflexivity|]. apply (gram_psd _ _ (fun i r => mget (nth q (f_vecs f) []) r i)).
Qed.

Lemma psd_lsum {A} n (l : list A) (F : A -> nat -> nat -> R) :
  (forall x, In x l -> psd n (F x)) -> psd n (fun i j => lsum (map (fun x => F x i j) l)).
Proof.
  induction l as [|x l IH]; intros H; [apply psd_zero|]. unfold lsum. cbn [map fold_right].
  apply (psd_plus n (F x)); [apply H; now left|]. apply IH. intros y Hy. apply H. now right.
Qed.

Lemma sym_lsum {A} n (l : list A) (F : A -> nat -> nat -> R) :
  (forall x, In x l -> sym n (F x)) -> sym n (fun i j => lsum (map (fun x => F x i j) l)).
Proof.
  intros H i j Hi Hj. induction l as [|x l IH]; [reflexivity|]. unfold lsum. cbn [map fold_right].
  f_equal; [apply (H x); auto; now left|]. apply IH. intros y Hy. apply H. now right.
Qed.

Lemma K_UU_sym f d ad : (0 < nprod (a_shape d))%nat -> sym (f_D f * nprod (a_shape d)) (d_f (K_UU f d ad)).
Proof.
  intros Hm. unfold K_UU. cbn [d_f]. apply sym_lsum. intros q _ i j Hi Hj.
  rewrite B_of_sym. f_equal. apply K_grid_sym; apply Nat.mod_upper_bound; lia.
Qed.

Lemma K_UU_psd f d ad : (0 < nprod (a_shape d))%nat ->
  (forall q a, In q (group f ad) -> (a < f_D f)%nat -> 0 <= vget (nth q (f_diags f) []) a) ->
  (forall q, In q (group f ad) -> psd (nprod (a_shape d)) (K_grid f d q)) ->
  psd (f_D f * nprod (a_shape d)) (d_f (K_UU f d ad)).
Proof.
  intros Hm Hk HK. unfold K_UU. cbn [d_f]. apply psd_lsum. intros q Hq.
  apply (psd_kron (f_D f) (nprod (a_shape d)) (B_of f q) (K_grid f d q)).
  - intros a b _ _. apply B_of_sym.
  - apply B_of_psd. intros a Ha. now apply Hk.
  - now apply HK.
Qed.

Definition sym_psd (d : den) (n : nat) : Prop := d_r d = n /\ d_c d = n /\ sym n (d_f d) /\ psd n (d_f d).

Lemma ski_sym_psd W d m : sp_c W = m -> sym_psd d m -> sym_psd (ski_den W d) (sp_r W).
Proof.
  intros Em [Er [Ec [S Pd]]]. unfold sym_psd, ski_den. cbn [d_r d_c d_mul d_T W_den]. split; [reflexivity|]. split; [reflexivity|].
  cbn [d_f d_mul d_T W_den d_c d_r]. rewrite Ec, Em. split.
  - intros i j _ _. 
    transitivity (Rsum m (fun k => Rsum m (fun l => sp_get W i k * (d_f d k l * sp_get W j l)))).
    { apply Rsum_ext. intros k _. symmetry. apply Rsum_scal_l. }
    rewrite Rsum_swap. apply Rsum_ext. intros k Hk. rewrite <- Rsum_scal_l. apply Rsum_ext. intros l Hl.
    rewrite (S l k) by assumption. ring.
  - apply (psd_congruence (sp_r W) m (d_f d) (sp_get W)). exact Pd.
Qed.

Lemma d_sum_sym_psd l n : l <> [] -> (forall d, In d l -> sym_psd d n) -> sym_psd (d_sum l) n.
Proof.
  intros Hne H. destruct l as [|d l]; [congruence|]. unfold sym_psd. cbn [d_sum d_r d_c d_f].
  destruct (H d (or_introl eq_refl)) as [-> [-> _]]. split; [reflexivity|]. split; [reflexivity|]. split.
  - apply (sym_lsum n (d :: l) d_f). intros x Hx. apply H. exact Hx.
  - apply (psd_lsum n (d :: l) d_f). intros x Hx. apply H. exact Hx.
Qed.

Lemma id_sym_psd n : sym_psd (d_id n) n.
Proof. split; [reflexivity|]. split; [reflexivity|]. split; [apply sym_idf|apply psd_id]. Qed.

Lemma noise_sym_psd f lens : length lens = f_D f -> (forall a, (a < f_D f)%nat -> 0 <= vget (f_noise f) a) ->
  sym_psd (noise_den f lens) (nsum lens).
Proof.
  intros HL H. split; [reflexivity|]. split; [reflexivity|]. unfold noise_den. cbn [d_f]. split.
  - intros i j _ _. rewrite (Nat.eqb_sym j i). destruct (Nat.eqb_spec i j); congruence.
  - apply psd_diag_f. intros i Hi. apply H. rewrite <- HL. now apply owner_lt.
Qed.

Lemma grid_base_psd f l q d : l <> [] -> (0 < axes_points l)%nat -> grid_dists (axes_of l) = Ok d ->
  positive (kern_of f q) -> (has_periodic (kern_of f q) = true -> length l = 1%nat) ->
  psd (nprod (a_shape d)) (K_grid f d q).
Proof.
  intros Hne Hpos E Hk Hper. 
  assert (Hne' : axes_of l <> []) by (destruct l; [congruence|discriminate]).
  rewrite grid_dists_value in E by (try assumption; rewrite axes_lengths; exact Hpos).
  apply Ok_inj in E. subst d. unfold K_grid. cbn [a_shape a_data].
  assert (EL : @length vec (axes_of l) = length l) by apply map_length. unfold vec in *. rewrite EL. rewrite axes_lengths. fold (axes_points l).
  apply (psd_ext _ (fun i j => k_doc (kern_of f q) (euclid (length l) (grid_pt (axes_of l) i) (grid_pt (axes_of l) j))));
    [intros i j Hi Hj; symmetry; apply grid_dists_entry; assumption|].
  apply psd_pd_on. now apply pd_kernel.
Qed.
