(** One more sample: indices, determinants and quadratic forms. *)

From Coq Require Import Reals List Arith Lia Lra Permutation.
From Verif Require Import Base NDArray PSD Det Proofs_Shur Proofs_Det Model_Util Proofs_Util Model_Linalg Spec_Linalg Proofs_Linalg
  Model_Interp Model_Kern Spec_Kern Proofs_Kern Proofs_KernPSD Model_FK Spec_FK Proofs_FK Model_Grid Spec_Grid Proofs_Grid Proofs_Grid2
  Model_Lik Spec_Lik Proofs_Lik Proofs_Lik2 Proofs_Lik5 Spec_GP Model_GP Spec_Pred Proofs_Pred4 Proofs_Init Spec_Order Proofs_Order Proofs_Order2 Spec_Chain.
Import ListNotations.
Open Scope R_scope.

Lemma nsum_bump d lens : forall lens', length lens' = length lens -> (d < length lens)%nat ->
  (forall e, nth e lens' 0 = nth e lens 0 + (if Nat.eqb e d then 1 else 0))%nat -> nsum lens' = S (nsum lens).
Proof.
  revert d. induction lens as [|a lens IH]; intros d [|a' lens'] HL Hd H; cbn in HL, Hd; try lia.
  unfold nsum in *. cbn [fold_right]. destruct d as [|d].
  - pose proof (H 0%nat) as H0. cbn in H0. assert (lens' = lens) as ->; [|lia].
    apply (nth_ext _ _ 0%nat 0%nat); [lia|]. intros e _. specialize (H (S e)). cbn in H. lia.
  - pose proof (H 0%nat) as H0. cbn in H0. rewrite (IH d lens'); [lia|lia|lia|]. intros e. exact (H (S e)).
Qed.

Lemma one_sends g g' d x y : mg_P (gp_data g') = mg_P (gp_data g) -> length (mg_Ys (gp_data g')) = length (mg_Ys (gp_data g)) ->
  (d < length (mg_Ys (gp_data g)))%nat -> one_more g g' d x y ->
  let P := mg_P (gp_data g) in
  let lens := map (@length R) (mg_Ys (gp_data g)) in
  let lens' := map (@length R) (mg_Ys (gp_data g')) in
  let n := n_obs g in
  n_obs g' = S n /\
  exists s, injects (S n) (S n) s /\
    (forall i, (i < n)%nat -> owner lens' (s i) = owner lens i /\ y_obs g' (s i) = y_obs g i /\
       forall p, (p < P)%nat -> obs P (mg_Xs (gp_data g')) lens' (s i) p = obs P (mg_Xs (gp_data g)) lens i p) /\
    owner lens' (s n) = d /\ y_obs g' (s n) = y /\ forall p, (p < P)%nat -> obs P (mg_Xs (gp_data g')) lens' (s n) p = x p.
Proof.
  intros EP ED Hd HM P lens lens' n. set (Ys := mg_Ys (gp_data g)) in *. set (Ys' := mg_Ys (gp_data g')) in *.
  assert (NL : forall (Y : list vec) d, nth d (map (@length R) Y) 0%nat = length (nth d Y [])) by (intros Y e; exact (map_nth (@length R) Y [] e)).
  set (bump := fun e => if Nat.eqb e d then 1%nat else 0%nat).
  assert (EL : forall e, length (nth e Ys' []) = (length (nth e Ys []) + bump e)%nat).
  { intros e. specialize (HM e). apply Permutation_length in HM. unfold data_of, samples in HM. rewrite app_length, !tab_length in HM. fold Ys Ys' in HM.
    unfold bump. destruct (Nat.eqb e d); cbn in HM; lia. }
  assert (LL : length lens' = length lens) by (unfold lens, lens'; now rewrite !map_length).
  assert (En : n_obs g' = S n).
  { unfold n, n_obs. fold Ys Ys' lens lens'. apply (nsum_bump d); [exact LL|unfold lens; now rewrite map_length|]. intros e. unfold lens, lens'. rewrite !NL. apply EL. }
  split; [exact En|].
  assert (HF : exists F, forall e, (e < length Ys)%nat ->
    (forall i, (i < length (nth e Ys []) + bump e)%nat -> (F e i < length (nth e Ys' []))%nat) /\
    (forall i j, (i < length (nth e Ys []) + bump e)%nat -> (j < length (nth e Ys []) + bump e)%nat -> F e i = F e j -> i = j) /\
    (forall i, (i < length (nth e Ys []))%nat -> tab P (point P (mg_Xs (gp_data g')) e (F e i)) = tab P (point P (mg_Xs (gp_data g)) e i) /\
       vget (nth e Ys' []) (F e i) = vget (nth e Ys []) i) /\
    (e = d -> tab P (point P (mg_Xs (gp_data g')) e (F e (length (nth e Ys [])))) = tab P x /\ vget (nth e Ys' []) (F e (length (nth e Ys []))) = y)).
  { apply (fin_choice (length Ys) (fun e f =>
      (forall i, (i < length (nth e Ys []) + bump e)%nat -> (f i < length (nth e Ys' []))%nat) /\
      (forall i j, (i < length (nth e Ys []) + bump e)%nat -> (j < length (nth e Ys []) + bump e)%nat -> f i = f j -> i = j) /\
      (forall i, (i < length (nth e Ys []))%nat -> tab P (point P (mg_Xs (gp_data g')) e (f i)) = tab P (point P (mg_Xs (gp_data g)) e i) /\
         vget (nth e Ys' []) (f i) = vget (nth e Ys []) i) /\
      (e = d -> tab P (point P (mg_Xs (gp_data g')) e (f (length (nth e Ys [])))) = tab P x /\ vget (nth e Ys' []) (f (length (nth e Ys []))) = y)) (fun i => i)).
    intros e He. pose proof (HM e) as HP.
    unfold data_of, samples in HP. rewrite EP in HP. fold P Ys Ys' in HP.
    apply Permutation_sym in HP. apply (Permutation_nth _ _ ([], 0)) in HP. cbv zeta in HP. destruct HP as [HL [f [B1 [B2 B3]]]].
    rewrite tab_length in B1, B2, B3. rewrite EL in B1, B2, B3.
    exists f. unfold FinFun.bFun, FinFun.bInjective in *. split; [intros i Hi; rewrite EL; now apply B1|]. split; [exact B2|]. split.
    - intros i Hi. specialize (B3 i ltac:(lia)). rewrite app_nth1 in B3 by (rewrite tab_length; exact Hi).
      specialize (B1 i ltac:(lia)). rewrite !nth_tab in B3 by (first [exact Hi|exact B1|rewrite EL; exact B1]). injection B3 as E1 E2. auto.
    - intros ->. assert (HB : bump d = 1%nat) by (unfold bump; now rewrite Nat.eqb_refl).
      specialize (B3 (length (nth d Ys [])) ltac:(lia)). rewrite app_nth2 in B3 by (rewrite tab_length; lia). rewrite tab_length, Nat.sub_diag, Nat.eqb_refl in B3. cbn [nth] in B3.
      specialize (B1 (length (nth d Ys [])) ltac:(lia)). rewrite nth_tab in B3 by (first [exact B1|rewrite EL; exact B1]). injection B3 as E1 E2. auto. }
  destruct HF as [F HF].
  assert (OW : forall i, (i < n)%nat -> let a := owner lens i in let p := place lens i in
    (a < length Ys)%nat /\ (p < length (nth a Ys []))%nat /\ i = (nsum (firstn a lens) + p)%nat).
  { intros i Hi a p. destruct (owner_lt lens i Hi) as [H1 [H2 H3]]. unfold lens in H1 at 2. rewrite map_length in H1. unfold lens in H2 at 3. rewrite NL in H2. auto. }
  set (a := fun i => if Nat.ltb i n then owner lens i else d).
  set (p := fun i => if Nat.ltb i n then place lens i else length (nth d Ys [])).
  set (s := fun i => (nsum (firstn (a i) lens') + F (a i) (p i))%nat).
  assert (HB : bump d = 1%nat) by (unfold bump; now rewrite Nat.eqb_refl).
  assert (AP : forall i, (i < S n)%nat -> (a i < length Ys)%nat /\ (p i < length (nth (a i) Ys []) + bump (a i))%nat).
  { intros i Hi. unfold a, p. destruct (Nat.ltb_spec i n) as [H|H]; [destruct (OW i H) as [H1 [H2 _]]; split; [exact H1|lia]|]. split; [exact Hd|lia]. }
  assert (AI : forall i j, (i < S n)%nat -> (j < S n)%nat -> a i = a j -> p i = p j -> i = j).
  { intros i j Hi Hj. unfold a, p. destruct (Nat.ltb_spec i n) as [H|H], (Nat.ltb_spec j n) as [H'|H']; intros E1 E2.
    - destruct (OW i H) as [_ [_ O]]. destruct (OW j H') as [_ [_ O']]. rewrite E1, E2 in O. lia.
    - destruct (OW i H) as [_ [O _]]. rewrite E1, E2 in O. lia.
    - destruct (OW j H') as [_ [O _]]. rewrite <- E1, <- E2 in O. lia.
    - lia. }
  assert (OS : forall i, (i < S n)%nat -> owner lens' (s i) = a i /\ place lens' (s i) = F (a i) (p i) /\ (s i < nsum lens')%nat).
  { intros i Hi. destruct (AP i Hi) as [H1 H2]. destruct (HF _ H1) as [G1 _]. specialize (G1 _ H2).
    assert (A1 : (a i < length lens')%nat) by (rewrite LL; unfold lens; now rewrite map_length).
    assert (A2 : (F (a i) (p i) < nth (a i) lens' 0)%nat) by (unfold lens'; now rewrite NL).
    destruct (owner_offset lens' _ _ A1 A2) as [E1 E2]. split; [exact E1|]. split; [exact E2|]. now apply nsum_offset. }
  assert (Hn : nsum lens' = S n) by exact En.
  assert (Ln : forall i, (i < n)%nat -> a i = owner lens i /\ p i = place lens i).
  { intros i Hi. unfold a, p. destruct (Nat.ltb_spec i n); [auto|lia]. }
  assert (An : a n = d /\ p n = length (nth d Ys [])).
  { unfold a, p. destruct (Nat.ltb_spec n n); [lia|auto]. }
  exists s. split; [|split].
  - split; [intros i Hi; rewrite <- Hn; apply OS, Hi|]. intros i j Hi Hj E. destruct (OS i Hi) as [A1 [A2 _]]. destruct (OS j Hj) as [B1 [B2 _]]. rewrite E in A1, A2.
    rewrite B1 in A1. rewrite B2 in A2. destruct (AP i Hi) as [O1 O2]. destruct (AP j Hj) as [Q1 Q2]. rewrite <- A1 in A2, O2.
    destruct (HF _ Q1) as [_ [G2 _]]. apply G2 in A2; [|assumption|assumption]. apply AI; auto.
  - intros i Hi. destruct (OS i ltac:(lia)) as [S1 [S2 S3]]. destruct (Ln i Hi) as [L1 L2]. rewrite L1 in S1. rewrite L1, L2 in S2.
    destruct (OW i Hi) as [O1 [O2 _]]. destruct (HF _ O1) as [_ [_ [G3 _]]]. destruct (G3 _ O2) as [G G'].
    split; [exact S1|]. split.
    + unfold y_obs. fold Ys Ys'. rewrite !concat_get by (try exact Hi; exact S3). fold lens lens'. rewrite S1, S2. exact G'.
    + intros q Hq. unfold obs. rewrite S1, S2. exact (tab_inj _ _ _ G q Hq).
  - destruct (OS n ltac:(lia)) as [S1 [S2 S3]]. destruct An as [L1 L2]. rewrite L1 in S1. rewrite L1, L2 in S2.
    destruct (HF d Hd) as [_ [_ [_ G4]]]. destruct (G4 eq_refl) as [G G'].
    split; [exact S1|]. split.
    + unfold y_obs. fold Ys Ys'. rewrite !concat_get by exact S3. fold lens lens'. rewrite S1, S2. exact G'.
    + intros q Hq. unfold obs. rewrite S1, S2. exact (tab_inj _ _ _ G q Hq).
Qed.

(** ** The last row and column *)

Lemma det_last n : forall F z, sym (S n) F -> pivots n F -> solves n F z (F n) ->
  det (S n) F = det n F * (F n n - Rsum n (fun j => F n j * z j)).
Proof.
  induction n as [|m IH]; intros F z Hs HP Hz.
  - cbn. ring.
  - destruct HP as [P1 P2]. rewrite (det_pivot (S m) F) by lra. rewrite (det_pivot m F) by lra.
    apply solves_elim in Hz; [|lra]. destruct Hz as [Z0 Hz].
    rewrite (IH (schur1 F) (fun i => z (S i))).
    + rewrite Rsum_S_l, Z0. unfold schur1 at 2. rewrite Rmult_assoc. f_equal. f_equal.
      assert (E : Rsum m (fun j => schur1 F m j * z (S j)) = Rsum m (fun j => F (S m) (S j) * z (S j)) - F (S m) O / F O O * Rsum m (fun j => F O (S j) * z (S j))).
      { rewrite <- Rsum_scal_l, <- Rsum_minus. apply Rsum_ext. intros j Hj. unfold schur1. field. lra. }
      rewrite E. rewrite (Hs O (S m)) by lia. field. lra.
    + now apply schur1_sym.
    + exact P2.
    + refine (solves_ext m _ _ _ _ _ _ _ _ _ Hz); try reflexivity. intros i Hi. unfold schur1. rewrite (Hs (S i) O), (Hs O (S i)) by lia. field. lra.
Qed.

Lemma quad_last n F z a b y : sym (S n) F -> solves n F z (F n) -> solves n F a y ->
  let v := F n n - Rsum n (fun j => F n j * z j) in
  let mu := Rsum n (fun j => z j * y j) in
  v <> 0 -> pivots (S n) F -> solves (S n) F b y ->
  Rsum (S n) (fun i => y i * b i) = Rsum n (fun i => y i * a i) + (y n - mu) ^ 2 / v.
Proof.
  intros Hs Hz Ha v mu Hv HP Hb.
  set (r := (y n - mu) / v). set (b' := fun i => if Nat.ltb i n then a i - z i * r else r).
  assert (L : forall i, (i < n)%nat -> b' i = a i - z i * r) by (intros i Hi; unfold b'; destruct (Nat.ltb_spec i n); [reflexivity|lia]).
  assert (Ln : b' n = r) by (unfold b'; destruct (Nat.ltb_spec n n); [lia|reflexivity]).
  assert (Hb' : solves (S n) F b' y).
  { intros i Hi. cbn [Rsum]. rewrite Ln.
    rewrite (Rsum_ext n _ (fun j => F i j * a j - F i j * z j * r)) by (intros j Hj; rewrite L by exact Hj; ring).
    rewrite Rsum_minus, Rsum_scal_r. destruct (Nat.eq_dec i n) as [->|Ni].
    - assert (E : Rsum n (fun j => F n j * a j) = mu).
      { unfold mu. transitivity (bil n F a z).
        - unfold bil. apply Rsum_ext. intros j Hj. rewrite <- (Hz j Hj), Rmult_comm, <- Rsum_scal_l. apply Rsum_ext. intros; ring.
        - rewrite bil_sym by (intros u w Hu Hw; apply Hs; lia). unfold bil. apply Rsum_ext. intros j Hj. rewrite <- (Ha j Hj), <- Rsum_scal_l. apply Rsum_ext. intros; ring. }
      rewrite E. unfold r. fold v.
      replace (mu - Rsum n (fun j => F n j * z j) * ((y n - mu) / v) + F n n * ((y n - mu) / v)) with (mu + v * ((y n - mu) / v)) by (unfold v; ring).
      field. exact Hv.
    - rewrite (Ha i), (Hz i) by lia. rewrite (Hs n i) by lia. ring. }
  transitivity (Rsum (S n) (fun i => y i * b' i)).
  - apply Rsum_ext. intros i Hi. f_equal. exact (solves_unique (S n) F y b b' HP Hb Hb' i Hi).
  - cbn [Rsum]. rewrite Ln. rewrite (Rsum_ext n _ (fun i => y i * a i - z i * y i * r)) by (intros j Hj; rewrite L by exact Hj; ring).
    rewrite Rsum_minus, Rsum_scal_r. fold mu. unfold r. field. exact Hv.
Qed.

Lemma pivots_less n : forall F, pivots (S n) F -> pivots n F.
Proof.
  induction n as [|m IH]; intros F H; [exact I|]. destruct H as [H1 H2]. split; [exact H1|]. now apply IH.
Qed.

Lemma sub_pd n n' s (K K' : nat -> nat -> R) : injects n n' s -> (forall i j, (i < n)%nat -> (j < n)%nat -> K i j = K' (s i) (s j)) ->
  pos_definite n' K' -> pos_definite n K.
Proof.
  intros Hs HK Hp z [k [Hk Hz]]. pose proof (sub_qf n n' s K K' Hs HK z) as E. unfold qf, bil in E. rewrite <- E.
  apply Hp. exists (s k). split; [apply Hs, Hk|]. unfold spread_out.
  rewrite (Rsum_ext n _ (fun i => if Nat.eqb i k then z i else 0)); [now rewrite Rsum_delta|].
  intros i Hi. destruct (Nat.eqb_spec i k) as [->|N]; [now rewrite Nat.eqb_refl|]. destruct (Nat.eqb_spec (s k) (s i)) as [C|]; [|reflexivity].
  apply Hs in C; auto; congruence.
Qed.
