(** Claims about data drawn from the model (C86), averaged over the probes. *)

From Coq Require Import Reals List Arith ZArith Lia Permutation Lra.
From Verif Require Import Base NDArray PSD Model_Util Proofs_Util Spec_Util Model_Linalg Spec_Linalg Proofs_Linalg Model_Interp Spec_Interp
  Properties_Interp Model_Kern Spec_Kern Proofs_Kern Proofs_KernPSD Model_FK Spec_FK Proofs_FK
  Properties_FK Model_Grid Spec_Grid Proofs_Grid Proofs_Grid2 Properties_Grid Det Proofs_Det Model_Lik Spec_Lik Proofs_Lik Proofs_Lik2 Proofs_Lik3 Proofs_Lik4 Proofs_Lik5 Proofs_Lik6 Proofs_Lik7 Properties_Lik
  Properties_Lik2 Spec_GP Proofs_Gen Proofs_Gen2 Properties_Gen Model_GP Spec_Pred Proofs_Pred Proofs_Pred2 Proofs_Pred3 Proofs_Pred4 Proofs_Init Proofs_Pred5 Proofs_Pred6 Properties_Pred
  Spec_Order Proofs_Order Proofs_Order2 Proofs_Order3 Properties_Order Spec_Depend Proofs_Depend Properties_Alike Spec_Acc Proofs_Acc Spec_Lip Proofs_Lip Proofs_Lip2 Spec_Far Properties_Far Spec_Noise Proofs_Noise Properties_Noise Spec_Best Proofs_Best Properties_Best Spec_Chain Proofs_Chain Properties_Chain Spec_Truth Proofs_Truth Properties_Truth.
Import ListNotations.
Open Scope R_scope.

(** A quadratic [1/2 (a' F a - tr (K^-1 F))] of values with covariances [K], [a = K^-1 y], has expected value zero. *)
Lemma score_gen {W : Type} (L : (W -> R) -> Prop) E n K X F (y : W -> nat -> R) : expected L E -> sym n K -> is_inv n K X -> random_values L E n K y ->
  has_mean L E (fun o => 1 / 2 * (Rsum n (fun i => Rsum n (fun j => Rsum n (fun k => X i k * y o k) * F i j * Rsum n (fun k => X j k * y o k))) -
     Rsum n (fun i => Rsum n (fun j => X i j * F i j)))) 0.
Proof.
  intros HE Hs HX HY.
  set (M := fun k l => Rsum n (fun i => Rsum n (fun j => X i k * F i j * X j l))).
  set (t := Rsum n (fun i => Rsum n (fun j => X i j * F i j))).
  pose proof (Proofs_Truth.mean_affine L E HE (1 / 2) (- (1 / 2) * t) _ _ (rv_form L E HE n K _ HY M)) as H.
  assert (ET : Rsum n (fun i => Rsum n (fun j => M i j * K i j)) = t).
  { unfold M, t. transitivity (Rsum n (fun k => Rsum n (fun l => Rsum n (fun i => Rsum n (fun j => X i k * F i j * X j l * K k l))))).
    { apply Rsum_ext. intros k Hk. apply Rsum_ext. intros l Hl'. rewrite <- Rsum_scal_r. apply Rsum_ext. intros i Hi. rewrite <- Rsum_scal_r. reflexivity. }
    rewrite swap3. apply Rsum_ext. intros i Hi. apply Rsum_ext. intros j Hj.
    rewrite <- (inv_mid n K X Hs HX i j Hi Hj), <- Rsum_scal_r. apply Rsum_ext. intros k Hk. rewrite <- Rsum_scal_r. apply Rsum_ext. intros; ring. }
  rewrite ET in H. replace (1 / 2 * t + - (1 / 2) * t) with 0 in H by field.
  refine (mean_ext L E HE _ _ _ _ H). intros o.
  assert (E2 : Rsum n (fun i => Rsum n (fun j => Rsum n (fun k => X i k * y o k) * F i j * Rsum n (fun k => X j k * y o k))) =
     Rsum n (fun i => Rsum n (fun j => M i j * (y o i * y o j)))).
  { unfold M. symmetry.
    transitivity (Rsum n (fun k => Rsum n (fun l => Rsum n (fun i => Rsum n (fun j => X i k * F i j * X j l * (y o k * y o l)))))).
    { apply Rsum_ext. intros k Hk. apply Rsum_ext. intros l Hl'. rewrite <- Rsum_scal_r. apply Rsum_ext. intros i Hi. rewrite <- Rsum_scal_r. reflexivity. }
    rewrite swap3. apply Rsum_ext. intros i Hi. apply Rsum_ext. intros j Hj.
    rewrite Rmult_assoc, <- Rsum_scal_r. apply Rsum_ext. intros k Hk. rewrite <- !Rsum_scal_l. apply Rsum_ext. intros; ring. }
  rewrite E2. field.
Qed.

(** If the values are drawn with the covariances that gen_grid_kernel
    multiplies by, and the solves are exact, then every entry of every
    gradient that ApproxLMCLikelihood reports, averaged over the draws of its
    probes and over the values, is zero. *)
Theorem C86_stochastic_score :
  forall (W : Type) (L : (W -> R) -> Prop) E f P dists interps lens (Ys : W -> list vec) (G : dims -> ndarr) (Wm WT : dims -> sparse) k solve Ko
    (lk : W -> list (list bool) -> approx_lik) (gr : W -> list (list bool) -> gradients), expected L E ->
    reach f -> f_P f = Some P -> (0 < P)%nat -> kernels_ok f -> length lens = f_D f -> (forall o, map (@length R) (Ys o) = lens) ->
    (0 < nsum lens)%nat -> (0 < k)%nat ->
    (forall ad, group f ad <> [] -> dict_get dists ad = Ok (G ad) /\ dists_ok (G ad) /\
       dict_get interps ad = Ok (Wm ad, WT ad) /\ interp_ok (nsum lens) (f_D f * nprod (a_shape (G ad))) (Wm ad) (WT ad)) ->
    pos_definite (nsum lens) (K_op f G Wm lens) -> solves_exactly (nsum lens) (K_op f G Wm lens) (solve Ko) ->
    (forall o bits, In bits (draws k (nsum lens)) -> approx_init solve bits k f Ko dists interps (Ys o) = Ok (lk o bits)) ->
    (forall o bits, In bits (draws k (nsum lens)) -> all_gradients (approx_ops f (lk o bits)) f = Ok (gr o bits)) ->
    random_values L E (nsum lens) (K_op f G Wm lens) (fun o => vget (concat (Ys o))) ->
    (forall q r d, (q < f_Q f)%nat -> (r < length (nth q (f_vecs f) []))%nat -> (d < f_D f)%nat ->
       has_mean L E (fun o => mean (draws k (nsum lens)) (fun bits => mget (nth q (g_vecs (gr o bits)) []) r d)) 0) /\
    (forall q d, (q < f_Q f)%nat -> (d < f_D f)%nat ->
       has_mean L E (fun o => mean (draws k (nsum lens)) (fun bits => vget (nth q (g_diags (gr o bits)) []) d)) 0) /\
    (forall q j, (q < f_Q f)%nat -> (j < length (params (kern_of f q)))%nat ->
       has_mean L E (fun o => mean (draws k (nsum lens)) (fun bits => nth j (nth q (g_kernels (gr o bits)) []) 0)) 0) /\
    (forall d, (d < f_D f)%nat ->
       has_mean L E (fun o => mean (draws k (nsum lens)) (fun bits => vget (g_noise (gr o bits)) d)) 0).
Proof.
  intros W L E f P dists interps lens Ys G Wm WT k solve Ko lk gr HE Hf HP HPp Hk HL Hlens Hn Hk0 HG Hpd Hsol Hlk Hgr HY.
  pose proof (reach_ok _ Hf) as Hok. set (n := nsum lens) in *.
  pose proof (K_op_sym f P dists interps G Wm WT lens Hok HP HG) as Hsym.
  assert (HPv : pivots n (K_op f G Wm lens)) by now apply pos_definite_pivots.
  destruct (inv_ex n _ HPv) as [X HX].
  set (a := fun o i => Rsum n (fun k => X i k * vget (concat (Ys o)) k)).
  assert (Ha : forall o, solves n (K_op f G Wm lens) (a o) (vget (concat (Ys o)))) by (intros o; exact (solves_inv n _ X _ Hsym HX)).
  assert (Hg : forall o bits, In bits (draws k n) -> gr o bits = mk_grads
    (tab (f_Q f) (fun q => mk (length (nth q (f_vecs f) [])) (f_D f) (fun r d => gval (Ys o) k X (a o) bits (F_vec f G Wm q r d))))
    (tab (f_Q f) (fun q => tab (f_D f) (fun d => gval (Ys o) k X (a o) bits (F_diag f G Wm q d))))
    (tab (f_Q f) (fun q => tab (length (params (kern_of f q))) (fun j => gval (Ys o) k X (a o) bits (F_kparam f G Wm q j))))
    (tab (f_D f) (fun d => gval (Ys o) k X (a o) bits (F_noise f (Ys o) d)))).
  { intros o bits Hb. specialize (Hlk o bits Hb). specialize (Hgr o bits Hb). specialize (Ha o).
    assert (HYo : length (Ys o) = f_D f) by (now rewrite <- HL, <- (Hlens o), map_length).
    clear HY. rewrite <- (Hlens o) in *.
    destruct (np_mat_ok n n (fun _ _ => 0) Hn Hn) as [z [_ Hz]]. unfold n in *. rewrite <- (Hlens o) in *.
    set (lens' := map (@length R) (Ys o)) in *.
    destruct (generate_ok (nsum lens') k (K_op f G Wm lens') X (fun _ _ => 0) Ko z solve (concat (Ys o)) (a o) Hk0 Hsym HX Hz Hsol (length_concat (Ys o)) Ha bits Hb) as [s [Es _]].
    destruct (approx_init_ok f P dists interps G Wm WT (Ys o) Hok HP HPp Hk HYo Hn HG solve bits k Ko s Es) as [l [El Hl]].
    assert (lk o bits = l) as Elk by (apply Ok_inj; now rewrite <- Hlk, <- El). rewrite Elk in Hgr.
    apply Ok_inj. rewrite <- Hgr.
    eapply approx_gradients_ok with (E := spurious f G Wm) (s := s); eassumption. }
  assert (KEY : forall (F : W -> nat -> nat -> R) F0 (c : W -> list (list bool) -> R), (forall o i j, F o i j = F0 i j) ->
     (forall o bits, In bits (draws k n) -> c o bits = gval (Ys o) k X (a o) bits (F o)) ->
     has_mean L E (fun o => mean (draws k n) (c o)) 0).
  { intros F F0 c EF Hc. refine (mean_ext L E HE _ _ _ _ (score_gen L E n _ X F0 _ HE Hsym HX HY)). intros o.
    transitivity (mean (draws k n) (fun bits => gval (Ys o) k X (a o) bits (F o))).
    - assert (HYo : length (Ys o) = f_D f) by (now rewrite <- HL, <- (Hlens o), map_length).
      assert (Hno : (0 < nsum (map (@length R) (Ys o)))%nat) by (rewrite (Hlens o); exact Hn).
      pose proof (gval_mean f P (Ys o) HPp HYo Hno k X (a o) Hk0 (F o)) as GM. rewrite (Hlens o) in GM. fold n in GM. rewrite GM. symmetry. f_equal. unfold a. f_equal.
      + apply Rsum_ext. intros i _. apply Rsum_ext. intros j _. now rewrite EF.
      + apply Rsum_ext. intros i _. apply Rsum_ext. intros j _. now rewrite EF.
    - unfold mean. f_equal. apply lsum_map_ext. intros bits Hb. symmetry. now apply Hc. }
  split; [|split; [|split]].
  - intros q r d Hq Hr Hd. apply (KEY (fun _ => F_vec f G Wm q r d) (F_vec f G Wm q r d)); [reflexivity|]. intros o bits Hb. rewrite (Hg o bits Hb). cbn [g_vecs].
    rewrite (nth_tab (f_Q f)) by exact Hq. now rewrite mget_mk.
  - intros q d Hq Hd. apply (KEY (fun _ => F_diag f G Wm q d) (F_diag f G Wm q d)); [reflexivity|]. intros o bits Hb. rewrite (Hg o bits Hb). cbn [g_diags].
    rewrite (nth_tab (f_Q f)) by exact Hq. now rewrite vget_tab.
  - intros q j Hq Hj. apply (KEY (fun _ => F_kparam f G Wm q j) (F_kparam f G Wm q j)); [reflexivity|]. intros o bits Hb. rewrite (Hg o bits Hb). cbn [g_kernels].
    rewrite (nth_tab (f_Q f)) by exact Hq. now rewrite nth_tab.
  - intros d Hd. apply (KEY (fun o => F_noise f (Ys o) d) (fun i j => if Nat.eqb i j then vget (d_noise (f_D f) d) (owner lens i) else 0)).
    + intros o i j. unfold F_noise. now rewrite (Hlens o).
    + intros o bits Hb. rewrite (Hg o bits Hb). cbn [g_noise]. now rewrite vget_tab.
Qed.
Print Assumptions C86_stochastic_score.

(** Two outputs with an LMC and an independent kernel, one correlated value each. *)
Example C86_stochastic_score_ex : exists (W : Type) (L : (W -> R) -> Prop) E f (Ys : W -> list vec) solve Ko
    (lk : W -> list (list bool) -> approx_lik) (gr : W -> list (list bool) -> gradients), expected L E /\
  reach f /\ f_P f = Some 1%nat /\ kernels_ok f /\ length [1; 1]%nat = f_D f /\ (forall o, map (@length R) (Ys o) = [1; 1]%nat) /\
  (forall ad, group f ad <> [] -> dict_get ex_dists ad = Ok ex_d /\ dists_ok ex_d /\
       dict_get ex_interps ad = Ok (ex_W, ex_W) /\ interp_ok 2 (f_D f * nprod (a_shape ex_d)) ex_W ex_W) /\
  pos_definite 2 (K_op f (fun _ => ex_d) (fun _ => ex_W) [1; 1]%nat) /\
  solves_exactly 2 (K_op f (fun _ => ex_d) (fun _ => ex_W) [1; 1]%nat) (solve Ko) /\
  (forall o bits, In bits (draws 3 2) -> approx_init solve bits 3 f Ko ex_dists ex_interps (Ys o) = Ok (lk o bits)) /\
  (forall o bits, In bits (draws 3 2) -> all_gradients (approx_ops f (lk o bits)) f = Ok (gr o bits)) /\
  random_values L E 2 (K_op f (fun _ => ex_d) (fun _ => ex_W) [1; 1]%nat) (fun o => vget (concat (Ys o))) /\
  E (fun o => vget (concat (Ys o)) 0 * vget (concat (Ys o)) 1) = 1.
Proof.
  destruct C26_C56_ex as [f [solve [Ko [ks (E & Hr & HP & Hk & HD & HG & EK & Hpd & Hsol & _ & K01)]]]].
  pose proof (reach_ok _ Hr) as Hok.
  pose proof (K_op_sym f 1 ex_dists ex_interps (fun _ => ex_d) (fun _ => ex_W) (fun _ => ex_W) [1; 1]%nat Hok HP HG) as Hsym.
  set (K := K_op f (fun _ => ex_d) (fun _ => ex_W) [1; 1]%nat) in *.
  destruct (gram 2 K Hsym (pd_psd _ _ Hpd)) as [l Hl].
  set (y := fun (o : nat * bool) i => coin_var 2 (l i) o).
  set (Ys := fun o => [[y o 0%nat]; [y o 1%nat]] : list vec).
  set (R0 := fun o bits => let! l := approx_init solve bits 3 f Ko ex_dists ex_interps (Ys o) in
     let! g := all_gradients (approx_ops f l) f in Ok (l, g)).
  destruct (C56_expected_gradients f 1 ex_dists ex_interps [[1]; [2]] (fun _ => ex_d) (fun _ => ex_W) (fun _ => ex_W) 3 solve Ko
    Hr HP (Nat.lt_succ_diag_r 0) Hk HD (Nat.lt_0_succ 1) (Nat.lt_0_succ 2) HG Hpd Hsol) as [g0 [H0 _]].
  assert (B : exists bits, In bits (draws 3 2)).
  { pose proof (draws_length 3 2) as Hd. destruct (draws 3 2) as [|b bs]; [discriminate|]. exists b. now left. }
  destruct B as [bits0 B]. destruct (H0 bits0 B) as [l0 _].
  exists (nat * bool)%type, (fun _ => True), (coin 2), f, Ys, solve, Ko,
    (fun o bits => match R0 o bits with Ok r => fst r | _ => l0 end), (fun o bits => match R0 o bits with Ok r => snd r | _ => g0 bits0 end).
  assert (HR : forall o bits, In bits (draws 3 2) -> exists l g, approx_init solve bits 3 f Ko ex_dists ex_interps (Ys o) = Ok l /\ all_gradients (approx_ops f l) f = Ok g).
  { intros o bits Hb. destruct (C56_expected_gradients f 1 ex_dists ex_interps (Ys o) (fun _ => ex_d) (fun _ => ex_W) (fun _ => ex_W) 3 solve Ko
    Hr HP (Nat.lt_succ_diag_r 0) Hk HD (Nat.lt_0_succ 1) (Nat.lt_0_succ 2) HG Hpd Hsol) as [g [H _]]. destruct (H bits Hb) as [l1 (E1 & E2 & _)]. eauto. }
  split; [apply coin_expected; lia|]. repeat (split; [assumption|]). split; [reflexivity|]. repeat (split; [assumption|]).
  assert (EY : forall o i, (i < 2)%nat -> vget (concat (Ys o)) i = coin_var 2 (l i) o).
  { intros o i Hi. destruct i as [|[|i]]; try lia; reflexivity. }
  assert (EX : forall i, (i < 2)%nat -> coin 2 (fun o => vget (concat (Ys o)) i) = 0).
  { intros i Hi. rewrite <- (coin_mean 2 (l i)). unfold coin. f_equal. apply Rsum_ext. intros k _. now rewrite !EY. }
  assert (EP : forall i j, (i < 2)%nat -> (j < 2)%nat -> coin 2 (fun o => vget (concat (Ys o)) i * vget (concat (Ys o)) j) = K i j).
  { intros i j Hi Hj. rewrite (Hl i j Hi Hj), <- (coin_prod 2 (l i) (l j)) by lia. unfold coin. f_equal. apply Rsum_ext. intros k _. now rewrite !EY. }
  split; [|split; [|split]].
  - intros o bits Hb. destruct (HR o bits Hb) as [l1 [g1 [E1 E2]]]. unfold R0. rewrite E1. cbn [bind]. rewrite E2. reflexivity.
  - intros o bits Hb. destruct (HR o bits Hb) as [l1 [g1 [E1 E2]]]. unfold R0. rewrite E1. cbn [bind]. rewrite E2. cbn [bind fst snd]. exact E2.
  - split; [intros i Hi; split; [exact I|exact (EX i Hi)]|]. intros i j Hi Hj. split; [exact I|].
    unfold cov_of. rewrite (EX i Hi), (EX j Hj), (EP i j Hi Hj), Rmult_0_l. apply Rminus_0_r.
  - rewrite EP by lia. exact K01.
Qed.
