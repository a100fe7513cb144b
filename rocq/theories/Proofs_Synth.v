(** The synthetic benchmark data. *)

From Coq Require Import Reals List Arith ZArith Lia Lra Bool.
From Verif Require Import Base NDArray PSD Model_Util Proofs_Util Spec_Util Model_Linalg Spec_Linalg Proofs_Linalg Model_Kern Spec_Kern Proofs_Kern Proofs_KernPSD Model_FK Spec_FK Proofs_FK
  Model_Grid Spec_Grid Proofs_Grid Proofs_Grid2 Det Proofs_Det Model_Lik Spec_Lik Proofs_Lik Proofs_Lik2 Proofs_Lik3 Proofs_Lik4 Proofs_Lik5 Properties_Lik Model_Synth Spec_Synth.
Import ListNotations.
Open Scope R_scope.

(** ** The kernel *)

Definition ks_of (g0 g1 g2 : R) (ad : option dims) : list (kern * option dims) :=
  [(RBF g0, ad); (RBF g1, ad); (RBF g2, ad); (RBF g2, ad); (RBF g2, ad); (RBF g2, ad); (RBF g2, ad)].
Definition zero_rows : list mx := repeat [[0; 0; 0; 0; 0]] 5.
Definition synth_diags : list vec :=
  [[0; 0; 0; 0; 0]; [0; 0; 0; 0; 0]; [1; 0; 0; 0; 0]; [0; 1; 0; 0; 0]; [0; 0; 1; 0; 0]; [0; 0; 0; 1; 0]; [0; 0; 0; 0; 1]].
Definition fk_raw (g0 g1 g2 : R) (a0 a1 : mx) : fkernel :=
  mk_fk 5 (ks_of g0 g1 g2 None) (a0 :: a1 :: zero_rows) synth_diags (repeat (1 / 10) 5) 0 2 None [] [] [] [].
Definition fk_dim (g0 g1 g2 : R) (a0 a1 : mx) : fkernel :=
  mk_fk 5 (ks_of g0 g1 g2 (Some [0; 1]%nat)) (a0 :: a1 :: zero_rows) synth_diags (repeat (1 / 10) 5) 0 2 (Some 2%nat)
    [([0; 1]%nat, [0; 1; 2; 3; 4; 5; 6]%nat)] [([0; 1]%nat, 0%nat)] [([0; 1]%nat, 2%nat)] [([0; 1]%nat, 5%nat)].

Lemma init_raw rand g0 g1 g2 :
  fk_init rand (Some 5%nat) (Some []) (Some []) (Some [(RBF g0, None); (RBF g1, None)]) (Some (map (fun _ => (RBF g2, None)) (seq 0 5))) None
  = Ok (fk_raw g0 g1 g2 (mk 1 5 (rand 0%nat)) (mk 1 5 (rand 1%nat))).
Proof. reflexivity. Qed.

Lemma raw_dim g0 g1 g2 a0 a1 : set_input_dim (fk_raw g0 g1 g2 a0 a1) 2 = Ok (fk_dim g0 g1 g2 a0 a1).
Proof. reflexivity. Qed.

Lemma assign0 g0 g1 g2 r a1 u : length u = 5%nat -> assign_vec 0 u (fk_raw g0 g1 g2 (mk 1 5 r) a1) = Ok (fk_raw g0 g1 g2 [u] a1).
Proof. intros H. unfold assign_vec. cbn [fk_raw f_vecs py_index nth_error bind f_D]. rewrite H. reflexivity. Qed.
Lemma assign1 g0 g1 g2 r a0 u : length u = 5%nat -> assign_vec 1 u (fk_raw g0 g1 g2 a0 (mk 1 5 r)) = Ok (fk_raw g0 g1 g2 a0 [u]).
Proof. intros H. unfold assign_vec. cbn [fk_raw f_vecs py_index nth_error bind f_D]. rewrite H. reflexivity. Qed.

Lemma update_raw g0 g1 g2 h0 h1 h2 r0 r1 u0 u1 : length u0 = 5%nat -> length u1 = 5%nat ->
  update_ok (fk_raw h0 h1 h2 (mk 1 5 r0) (mk 1 5 r1)) (map fst (ks_of g0 g1 g2 None)) ([u0] :: [u1] :: zero_rows) synth_diags (repeat (1 / 10) 5) /\
  update_ok (fk_dim h0 h1 h2 (mk 1 5 r0) (mk 1 5 r1)) (map fst (ks_of g0 g1 g2 None)) ([u0] :: [u1] :: zero_rows) synth_diags (repeat (1 / 10) 5).
Proof.
  intros H0 H1.
  assert (HM : forall u, length u = 5%nat -> is_mx 1 5 [u]) by (intros u Hu; split; [reflexivity|]; intros row [<-|[]]; exact Hu).
  split; (constructor;
   [ cbn; repeat (constructor; [exact I|]); constructor
   | reflexivity
   | intros [|[|q]] Hq; cbn in Hq; try lia; cbn; [now apply HM|now apply HM]
   | intros [|[|q]] Hq; cbn in Hq; try lia; reflexivity
   | reflexivity
   | intros q Hq; cbn in Hq; lia
   | reflexivity
   | reflexivity ]).
Qed.

Lemma synth_reach g0 g1 g2 u0 u1 : length u0 = 5%nat -> length u1 = 5%nat -> reach (fk_dim g0 g1 g2 [u0] [u1]).
Proof.
  intros H0 H1. apply (reach_dim (fk_raw g0 g1 g2 [u0] [u1]) 2); [|apply raw_dim].
  destruct (update_raw g0 g1 g2 g0 g1 g2 (fun _ _ => 0) (fun _ _ => 0) u0 u1 H0 H1) as [HU _].
  exact (reach_update _ _ _ _ _ (reach_init (fun _ _ _ => 0) _ _ _ _ _ _ _ (init_raw (fun _ _ _ => 0) g0 g1 g2)) HU).
Qed.

Lemma exp_sq g s : 0 <= s -> exp (- g * sqrt s ^ 2 / 2) = exp (- (g / 2) * s).
Proof. intros H. f_equal. rewrite pow2_sqrt by exact H. field. Qed.

Lemma synth_lmc u0 u1 a b x y : (a < 5)%nat -> (b < 5)%nat -> lmc_cov (fk_dim 5 (1 / 2) 2 [u0] [u1]) a x b y = synth_cov u0 u1 a x b y.
Proof.
  intros Ha Hb. unfold lmc_cov. change (f_Q (fk_dim 5 (1 / 2) 2 [u0] [u1])) with 7%nat.
  assert (HD : forall q, (q < 7)%nat -> dist_on (qdims (fk_dim 5 (1 / 2) 2 [u0] [u1]) q) x y = sqrt (sqdist x y)).
  { intros q Hq. replace (qdims (fk_dim 5 (1 / 2) 2 [u0] [u1]) q) with [0; 1]%nat by (do 7 (destruct q as [|q]; [reflexivity|]); lia).
    unfold dist_on, sqdist, lsum. cbn [map fold_right]. f_equal. ring. }
  assert (Hs : 0 <= sqdist x y) by (unfold sqdist; pose proof (pow2_ge_0 (x 0%nat - y 0%nat)); pose proof (pow2_ge_0 (x 1%nat - y 1%nat)); lra).
  cbn [Rsum]. rewrite !HD by lia. unfold kern_of. cbn [fk_dim f_kernels ks_of nth fst k_doc]. rewrite !exp_sq by exact Hs.
  unfold synth_cov. replace (5 / 2) with (5 / 2) by reflexivity. replace (1 / 2 / 2) with (1 / 4) by field. replace (- (2 / 2) * sqdist x y) with (- sqdist x y) by field.
  generalize (exp (- (5 / 2) * sqdist x y)) (exp (- (1 / 4) * sqdist x y)) (exp (- sqdist x y)). intros e0 e1 e2.
  unfold B_of. cbn [fk_dim f_vecs f_diags synth_diags zero_rows repeat nth length Rsum]. unfold mget. cbn [nth].
  destruct a as [|[|[|[|[|a]]]]]; try lia; destruct b as [|[|[|[|[|b]]]]]; try lia; unfold vget; cbn [nth Nat.eqb]; ring.
Qed.

Lemma synth_ok u0 u1 : kernels_ok (fk_dim 5 (1 / 2) 2 [u0] [u1]) /\ dims_in_range (fk_dim 5 (1 / 2) 2 [u0] [u1]) 2.
Proof.
  split.
  - intros q Hq. change (q < 7)%nat in Hq. do 7 (destruct q as [|q]; [split; [intros v [<-|[]]; lra|exact I]|]). lia.
  - intros q p Hq. change (q < 7)%nat in Hq. do 7 (destruct q as [|q]; [cbn; intros [<-|[<-|[]]]; lia|]). lia.
Qed.

(** ** Sampling *)

Lemma list_of_inputs N X : a_shape X = [5; N; 2]%nat -> length (a_data X) = (5 * (N * 2))%nat -> exists Xs, list_of X = Ok Xs /\
  inputs 2 Xs (repeat N 5) /\ length Xs = 5%nat /\ forall a i p, (a < 5)%nat -> (i < N)%nat -> (p < 2)%nat -> point 2 Xs a i p = coord N X a i p.
Proof.
  intros E L. unfold list_of. rewrite E. eexists. split; [reflexivity|]. split; [|split; [apply tab_length|]].
  - unfold inputs, tab. cbn [seq map repeat]. repeat constructor; cbn [a_data]; apply tab_length.
  - intros a i p Ha Hi Hp. unfold point, coord. rewrite nth_tab by exact Ha. cbn [a_data]. rewrite vget_tab by nia. reflexivity.
Qed.

Lemma nsum_repeat N d : nsum (repeat N d) = (d * N)%nat.
Proof. induction d as [|d IH]; [reflexivity|]. cbn [repeat]. unfold nsum in *. cbn [fold_right]. rewrite IH. lia. Qed.
Lemma firstn_repeat_le {A} (x : A) a d : (a <= d)%nat -> firstn a (repeat x d) = repeat x a.
Proof. revert d. induction a as [|a IH]; intros [|d] H; [reflexivity|reflexivity|lia|]. cbn. now rewrite IH by lia. Qed.
Lemma nth_repeat_lt {A} (x y : A) a d : (a < d)%nat -> nth a (repeat x d) y = x.
Proof. intros H. rewrite (nth_indep _ y x) by now rewrite repeat_length. apply nth_repeat. Qed.

Lemma owner_repeat N a i : (a < 5)%nat -> (i < N)%nat -> owner (repeat N 5) (a * N + i) = a /\ place (repeat N 5) (a * N + i) = i.
Proof.
  intros Ha Hi. pose proof (owner_offset (repeat N 5) a i) as H. rewrite repeat_length, nth_repeat_lt, firstn_repeat_le, nsum_repeat in H by lia. now apply H.
Qed.

Lemma sampled rand N u0 u1 X z : a_shape X = [5; N; 2]%nat -> length (a_data X) = (5 * (N * 2))%nat -> length u0 = 5%nat -> length u1 = 5%nat -> length z = (5 * N)%nat ->
  exists Xs L, list_of X = Ok Xs /\
    mkdata rand N u0 u1 X z = Ok (mk_sf Xs (mk 5 N (fun a i => Rsum (5 * N) (fun k => L (a * N + i)%nat k * vget z k)))
       (mk (5 * N) 2 (fun r p => vget (a_data X) (r * 2 + p)))
       (cogp_ys 5 N (mk 5 N (fun a i => Rsum (5 * N) (fun k => L (a * N + i)%nat k * vget z k))))) /\
    (forall i k, (i < 5 * N)%nat -> (k < 5 * N)%nat -> (i < k)%nat -> L i k = 0) /\ (forall i, (i < 5 * N)%nat -> 0 < L i i) /\
    forall a b i j, (a < 5)%nat -> (b < 5)%nat -> (i < N)%nat -> (j < N)%nat ->
      Rsum (5 * N) (fun k => L (a * N + i)%nat k * L (b * N + j)%nat k)
      = synth_cov u0 u1 a (coord N X a i) b (coord N X b j) + (if Nat.eqb a b && Nat.eqb i j then 1 / 10 else 0).
Proof.
  intros EX LX L0 L1 Lz. set (n := (5 * N)%nat) in *. set (f := fk_dim 5 (1 / 2) 2 [u0] [u1]).
  destruct (list_of_inputs N X EX LX) as [Xs (ELs & HIn & LXs & HPt)].
  pose proof (synth_reach 5 (1 / 2) 2 u0 u1 L0 L1) as HRe. fold f in HRe. destruct (synth_ok u0 u1) as [Hk Hdr]. fold f in Hk, Hdr.
  pose proof (reach_ok _ HRe) as Hok.
  destruct (kernel_from_indices_ok f 2 Xs Xs (repeat N 5) (repeat N 5) Hok eq_refl ltac:(lia) Hk Hdr HIn HIn (repeat_length _ _) (repeat_length _ _)) as [K [EK DK]].
  rewrite nsum_repeat in DK. fold n in DK.
  assert (DE : dense n n (arr_diag (map (fun o => o / 10) (repeat 1 n))) (fun i j => if Nat.eqb i j then 1 / 10 else 0)).
  { unfold arr_diag. rewrite map_length, repeat_length. unfold np_diag. rewrite map_length, repeat_length. eapply dense_ext; [|apply dense_np2].
    intros i j Hi Hj. cbv beta. destruct (Nat.eqb i j); [|reflexivity]. unfold vget. rewrite (nth_indep _ 0 (0 / 10)) by now rewrite map_length, repeat_length.
    rewrite (map_nth (fun o => o / 10)). now rewrite nth_repeat_lt. }
  destruct (dense_add n n _ _ _ _ DK DE) as [K1 [EK1 DK1]].
  assert (HPD : pos_definite n (K_obs f 2 Xs (repeat N 5))).
  { unfold n. rewrite <- nsum_repeat. apply (K_obs_pd f 2 Xs (repeat N 5)).
    - apply repeat_length.
    - intros q Hq. change (q < 7)%nat in Hq. apply Hk, Hq.
    - intros q Hq. change (q < 7)%nat in Hq. do 7 (destruct q as [|q]; [discriminate|]). lia.
    - intros q a Hq Ha. change (q < 7)%nat in Hq. change (a < 5)%nat in Ha. do 7 (destruct q as [|q]; [do 5 (destruct a as [|a]; [cbn; lra|]); lia|]). lia.
    - intros a Ha. change (a < 5)%nat in Ha. do 5 (destruct a as [|a]; [cbn; lra|]). lia. }
  assert (HN : forall i, (i < n)%nat -> vget (f_noise f) (owner (repeat N 5) i) = 1 / 10).
  { intros i Hi. destruct (owner_lt (repeat N 5) i) as [Ho _]; [now rewrite nsum_repeat|]. rewrite repeat_length in Ho. cbn [f fk_dim f_noise]. unfold vget. now apply nth_repeat_lt. }
  assert (HA : agree n (K_obs f 2 Xs (repeat N 5)) (fun i j => vget (a_data K1) (i * n + j))).
  { intros i j Hi Hj. rewrite (proj2 (proj2 DK1)) by assumption. unfold K_obs. f_equal. destruct (Nat.eqb i j); [now apply HN|reflexivity]. }
  assert (HS : sym n (K_obs f 2 Xs (repeat N 5))) by apply K_obs_sym.
  destruct (chol_ok n _ _ HS HA (proj1 (pos_definite_pivots _ _ HS) HPD)) as [U [EU [HU [_ [Hlow [Hgr _]]]]]].
  exists Xs, (fun i k => U k i). split; [exact ELs|]. split; [|split; [|split]].
  - unfold mkdata. unfold gen_random_k. cbv zeta. rewrite init_raw. cbn [bind]. rewrite (assign0 _ _ _ _ _ _ L0). cbn [bind]. rewrite (assign1 _ _ _ _ _ _ L1). cbn [bind].
    rewrite ELs. cbn [bind]. rewrite raw_dim. cbn [bind]. fold f. rewrite EK. cbn [bind]. rewrite (proj1 DK). cbn [nth]. rewrite EK1. cbn [bind].
    unfold np_cholesky, cho_factor. rewrite (proj1 DK1), Nat.eqb_refl, EU. cbn [bind].
    assert (LU : length (mk n n U) = n) by apply mk_is_mx. rewrite LU. unfold np_dot1. 
    assert (ED : map (fun row => np_vdot row z) (mk n n (fun i j => mget (mk n n U) j i)) = tab n (fun i => Rsum n (fun k => U k i * vget z k))).
    { unfold mk at 1. rewrite map_tab. apply tab_ext. intros i Hi. unfold np_vdot. rewrite tab_length. apply Rsum_ext. intros k Hk0. rewrite vget_tab by assumption. now rewrite mget_mk by assumption. }
    rewrite ED. unfold reshape_rows at 1. rewrite tab_length. replace (n mod 5)%nat with 0%nat by (unfold n; rewrite Nat.mul_comm, Nat.mod_mul; lia).
    cbn [Nat.eqb bind]. replace (n / 5)%nat with N by (unfold n; rewrite Nat.mul_comm, Nat.div_mul; lia).
    rewrite LX. replace (5 * (N * 2) / 2)%nat with n by (unfold n; replace (5 * (N * 2))%nat with (5 * N * 2)%nat by lia; rewrite Nat.div_mul; lia).
    assert (ER : arr_rows 5 N (tab n (fun i => Rsum n (fun k => U k i * vget z k))) = mk 5 N (fun a i => Rsum n (fun k => U k (a * N + i)%nat * vget z k))).
    { unfold arr_rows, mk. apply tab_ext. intros a Ha. apply tab_ext. intros i Hi. apply vget_tab. unfold n. nia. }
    rewrite ER. unfold reshape_rows. rewrite LX.
    destruct (Nat.eq_dec n 0) as [Hn|Hn].
    + rewrite Hn. assert (N = 0)%nat by (unfold n in Hn; lia). subst N. reflexivity.
    + replace (5 * (N * 2))%nat with (2 * n)%nat by (unfold n; lia). rewrite Nat.mod_mul, Nat.div_mul by lia. reflexivity.
  - intros i k Hi Hk0 Hik. now apply Hlow.
  - exact HU.
  - intros a b i j Ha Hb Hi Hj. assert (Hai : (a * N + i < n)%nat) by (unfold n; nia). assert (Hbj : (b * N + j < n)%nat) by (unfold n; nia).
    cbv beta. rewrite Hgr by assumption. unfold K_obs, obs. destruct (owner_repeat N a i Ha Hi) as [E1 E2]. destruct (owner_repeat N b j Hb Hj) as [E3 E4].
    rewrite E1, E2, E3, E4. f_equal.
    + unfold f. rewrite synth_lmc by assumption. unfold synth_cov, sqdist. rewrite !HPt by lia. reflexivity.
    + assert (V : vget (f_noise f) a = 1 / 10) by (cbn [f fk_dim f_noise]; unfold vget; now apply nth_repeat_lt). rewrite V.
      destruct (Nat.eqb_spec (a * N + i) (b * N + j)) as [E|E]; destruct (Nat.eqb_spec a b) as [Eab|Eab]; destruct (Nat.eqb_spec i j) as [Eij|Eij]; cbn [andb]; try reflexivity; exfalso; try nia.
Qed.

(** ** The layout for COGP *)

Lemma set_block_ok {A} s e c (v : list A) d rows D : (forall r, (r < length rows)%nat -> length (nth r rows []) = D) ->
  length (set_block s e c v d rows) = length rows /\
  forall r, (r < length rows)%nat -> length (nth r (set_block s e c v d rows) []) = D /\
    forall k, (k < D)%nat -> nth k (nth r (set_block s e c v d rows) []) d
      = if Nat.leb s r && Nat.ltb r e && Nat.eqb k c then nth (r - s) v d else nth k (nth r rows []) d.
Proof.
  intros HD. unfold set_block. split; [apply tab_length|]. intros r Hr. rewrite nth_tab by exact Hr.
  destruct (Nat.leb s r && Nat.ltb r e); cbn [andb]; [|split; [now apply HD|reflexivity]].
  rewrite HD by exact Hr. split; [apply tab_length|]. intros k Hk. rewrite nth_tab by exact Hk. reflexivity.
Qed.

Lemma cogp_ok D N Ys : length Ys = D -> (forall a, (a < D)%nat -> length (nth a Ys []) = N) ->
  length (cogp_ys D N Ys) = (D * N)%nat /\
  forall a i, (a < D)%nat -> (i < N)%nat -> length (nth (a * N + i) (cogp_ys D N Ys) []) = D /\
    forall b, (b < D)%nat -> nth b (nth (a * N + i) (cogp_ys D N Ys) []) None = if Nat.eqb b a then Some (vget (nth a Ys []) i) else None.
Proof.
  intros HD HN. unfold cogp_ys.
  assert (H : forall k, (k <= D)%nat -> let rows := fold_left (fun rows i => set_block (i * N) ((i + 1) * N) i (map Some (nth i Ys [])) None rows) (seq 0 k) (repeat (repeat (@None R) D) (D * N)) in
    length rows = (D * N)%nat /\ (forall r, (r < D * N)%nat -> length (nth r rows []) = D) /\
    forall a i, (a < D)%nat -> (i < N)%nat -> forall b, (b < D)%nat ->
      nth b (nth (a * N + i) rows []) None = if Nat.ltb a k && Nat.eqb b a then Some (vget (nth a Ys []) i) else None).
  { induction k as [|k IH]; intros Hk rows.
    - cbn in rows. subst rows. rewrite repeat_length. split; [reflexivity|]. split.
      + intros r Hr. rewrite nth_repeat_lt by exact Hr. apply repeat_length.
      + intros a i Ha Hi b Hb. rewrite nth_repeat_lt by nia. rewrite nth_repeat_lt by exact Hb. reflexivity.
    - specialize (IH ltac:(lia)). cbv zeta in IH. subst rows. rewrite seq_S, fold_left_app. cbn [fold_left Nat.add].
      set (rows := fold_left _ (seq 0 k) _) in *. destruct IH as (I1 & I2 & I3).
      destruct (set_block_ok (k * N) ((k + 1) * N) k (map Some (nth k Ys [])) None rows D) as [S1 S2]; [rewrite I1; exact I2|]. rewrite I1 in *.
      split; [exact S1|]. split; [intros r Hr; now apply S2|]. intros a i Ha Hi b Hb.
      rewrite (proj2 (S2 (a * N + i)%nat ltac:(nia)) b Hb), I3 by assumption.
      destruct (Nat.eq_dec a k) as [->|Hne].
      + assert (E1 : Nat.leb (k * N) (k * N + i) = true) by (apply Nat.leb_le; lia). assert (E2 : Nat.ltb (k * N + i) ((k + 1) * N) = true) by (apply Nat.ltb_lt; nia).
        assert (E3 : Nat.ltb k (S k) = true) by (apply Nat.ltb_lt; lia). assert (E4 : Nat.ltb k k = false) by (apply Nat.ltb_ge; lia). rewrite E1, E2, E3, E4. cbn [andb].
        destruct (Nat.eqb b k); [|reflexivity]. replace (k * N + i - k * N)%nat with i by lia.
        rewrite (nth_indep _ None (Some 0)) by (rewrite map_length, HN; lia). now rewrite (map_nth Some).
      + assert (E : Nat.leb (k * N) (a * N + i) && Nat.ltb (a * N + i) ((k + 1) * N) = false).
        { apply andb_false_iff. destruct (Nat.lt_trichotomy a k) as [H|[H|H]]; [left; apply Nat.leb_gt; nia|lia|right; apply Nat.ltb_ge; nia]. }
        rewrite E. cbn [andb]. destruct (Nat.ltb_spec a k), (Nat.ltb_spec a (S k)); try lia; reflexivity. }
  destruct (H D (le_n D)) as (H1 & H2 & H3). split; [exact H1|]. intros a i Ha Hi. split; [apply H2; nia|]. intros b Hb. rewrite H3 by assumption.
  destruct (Nat.ltb_spec a D); [reflexivity|lia].
Qed.

(** ** The split *)

Lemma sel_combine {A B} (p : A -> bool) (x : list A) (y : list B) : length x = length y ->
  combine (map snd (filter fst (combine (map p x) x))) (map snd (filter fst (combine (map p x) y))) = filter (fun q => p (fst q)) (combine x y) /\
  length (map snd (filter fst (combine (map p x) x))) = length (map snd (filter fst (combine (map p x) y))).
Proof.
  revert y. induction x as [|a x IH]; intros [|b y] H; try discriminate H; [split; reflexivity|]. injection H as H. destruct (IH y H) as [I1 I2].
  cbn [map combine filter fst]. destruct (p a); cbn [map snd combine length]; [now rewrite I1, I2|now split].
Qed.
