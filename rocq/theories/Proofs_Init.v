(** Building and fitting a model. *)

From Coq Require Import Reals List Arith ZArith Lia Lra.
From Verif Require Import Base NDArray PSD Model_Util Proofs_Util Spec_Util Model_Linalg Spec_Linalg Proofs_Linalg Model_Interp Spec_Interp
  Proofs_Sparse Proofs_Interp Proofs_Interp2 Proofs_Bicubic Proofs_Assemble Proofs_Autogrid Properties_Interp Model_Kern Spec_Kern Proofs_Kern Proofs_KernPSD Model_FK Spec_FK Proofs_FK
  Properties_FK Model_Grid Spec_Grid Proofs_Grid Proofs_Grid2 Det Proofs_Det Model_Lik Spec_Lik Proofs_Lik Proofs_Lik2 Proofs_Lik3 Proofs_Lik5 Proofs_Lik6 Proofs_Lik7 Properties_Lik
  Properties_Lik2 Spec_GP Proofs_Gen Proofs_Gen2 Properties_Gen Model_GP Spec_Pred Proofs_Pred Proofs_Pred2 Proofs_Pred3 Proofs_Pred4.
Import ListNotations.
Open Scope R_scope.

(** ** Validation *)

Lemma pair_spec X Y : a_shape X <> [] -> a_shape Y <> [] ->
  (validate_pair (X, Y) = Ok tt /\ pair_valid X Y) \/ (validate_pair (X, Y) = Err ValueError /\ ~ pair_valid X Y).
Proof.
  intros HX HY. unfold validate_pair, np_len, pair_valid. cbn [fst snd].
  destruct (a_shape X) as [|c sx]; [congruence|]. destruct (a_shape Y) as [|c' sy]; [congruence|]. cbn [bind].
  destruct (Nat.eqb_spec c c') as [<-|Hc]; cbn [negb].
  - destruct sx as [|p [|q sx]]; cbn [length existsb Nat.eqb orb negb].
    + destruct sy as [|? ?]; cbn [length Nat.eqb negb]; [left|right].
      * split; [reflexivity|]. exists c. split; [now left|reflexivity].
      * split; [reflexivity|]. intros [c0 [_ H]]. discriminate H.
    + destruct sy as [|? ?]; cbn [length Nat.eqb negb]; [left|right].
      * split; [reflexivity|]. exists c. split; [right; now exists p|reflexivity].
      * split; [reflexivity|]. intros [c0 [_ H]]. discriminate H.
    + right. split; [reflexivity|]. intros [c0 [[H|[p' H]] _]]; discriminate H.
  - right. split; [reflexivity|]. intros [c0 [[H|[p' H]] H']]; congruence.
Qed.

Lemma pairs_spec Xs Ys : length Xs = length Ys -> (forall X, In X Xs -> a_shape X <> []) -> (forall Y, In Y Ys -> a_shape Y <> []) ->
  (exists u, map_result validate_pair (combine Xs Ys) = Ok u /\ Forall2 pair_valid Xs Ys) \/
  (map_result validate_pair (combine Xs Ys) = Err ValueError /\ ~ Forall2 pair_valid Xs Ys).
Proof.
  revert Ys. induction Xs as [|X Xs IH]; intros [|Y Ys] Hl HX HY; cbn in Hl; try lia.
  - left. exists []. split; [reflexivity|constructor].
  - cbn [combine map_result]. destruct (pair_spec X Y (HX X (or_introl eq_refl)) (HY Y (or_introl eq_refl))) as [[-> HV]|[-> HV]]; cbn [bind].
    + destruct (IH Ys) as [[u [-> HF]]|[-> HF]]; [lia|intros; apply HX; now right|intros; apply HY; now right| |]; cbn [bind].
      * left. eexists. split; [reflexivity|now constructor].
      * right. split; [reflexivity|]. intros C. apply HF. now inversion C.
    + right. split; [reflexivity|]. intros C. apply HV. now inversion C.
Qed.

Lemma one_value_spec l : l <> [] ->
  (exists v, one_value l = Some v /\ forall x, In x l -> x = v) \/ (one_value l = None /\ ~ exists v, forall x, In x l -> x = v).
Proof.
  intros Hl. unfold one_value. pose proof (nodup_In Nat.eq_dec l) as HI. pose proof (NoDup_nodup Nat.eq_dec l) as HN.
  destruct (nodup Nat.eq_dec l) as [|v [|w r]].
  - exfalso. destruct l as [|x l]; [congruence|]. apply (HI x). now left.
  - left. exists v. split; [reflexivity|]. intros x Hx. apply HI in Hx. destruct Hx as [->|[]]. reflexivity.
  - right. split; [reflexivity|]. intros [u Hu]. inversion HN as [|? ? Hn _]; subst. apply Hn. left.
    rewrite (Hu v) by (apply HI; now left). apply Hu, HI. right. now left.
Qed.

Lemma classic_all_eq (l : vec) (c : R) : (forall x, In x l -> x = c) \/ exists x, In x l /\ x <> c.
Proof.
  induction l as [|a l [IH|[x [Hx Hn]]]]; [left; intros x []| |right; exists x; split; [now right|exact Hn]].
  destruct (Req_EM_T a c) as [->|Hn]; [left; intros x [<-|Hx]; auto|]. right. exists a. split; [now left|exact Hn].
Qed.

Lemma zero_std_spec Y : (zero_std Y = false /\ (Y = [] \/ exists x y, In x Y /\ In y Y /\ x <> y)) \/
  (zero_std Y = true /\ ~ (Y = [] \/ exists x y, In x Y /\ In y Y /\ x <> y)).
Proof.
  destruct Y as [|y0 Y0]; [left; split; [reflexivity|now left]|]. set (Y := y0 :: Y0).
  change (zero_std Y) with (if Req_EM_T (np_std Y) 0 then true else false).
  assert (NE : Y <> []) by discriminate.
  assert (Hp : 0 < INR (length Y)) by (apply lt_0_INR; cbn; lia).
  destruct (Req_EM_T (np_std Y) 0) as [E|E]; [right|left]; (split; [reflexivity|]).
  - intros [H|[x [y [Hx [Hy Hne]]]]]; [discriminate H|]. apply Hne. unfold np_std in E. apply sqrt_eq_0 in E; [|now apply np_var_nonneg].
    unfold np_var in E. assert (S0 : lsum (map (fun y => (y - np_mean Y) * (y - np_mean Y)) Y) = 0).
    { unfold Rdiv in E. apply Rmult_integral in E. destruct E as [E|E]; [exact E|]. exfalso. apply (Rinv_neq_0_compat (INR (length Y))); lra. }
    assert (G : forall l c, lsum (map (fun y => (y - c) * (y - c)) l) = 0 -> forall v, In v l -> v = c).
    { clear. induction l as [|a l IH]; intros c H v Hv; [destruct Hv|]. unfold lsum in H. cbn [map fold_right] in H. fold (lsum (map (fun y => (y - c) * (y - c)) l)) in H.
      assert (H1 : 0 <= lsum (map (fun y => (y - c) * (y - c)) l)).
      { clear. unfold lsum. induction l as [|a l IH]; cbn [map fold_right]; [lra|]. pose proof (Rle_0_sqr (a - c)) as H2. unfold Rsqr in H2. lra. }
      pose proof (Rle_0_sqr (a - c)) as H2. unfold Rsqr in H2. destruct Hv as [<-|Hv]; [|apply IH; [lra|exact Hv]].
      assert (H3 : (a - c) * (a - c) = 0) by lra. apply Rmult_integral in H3. lra. }
    rewrite (G Y _ S0 x Hx), (G Y _ S0 y Hy). reflexivity.
  - right. destruct (classic_all_eq Y y0) as [H|H]; [|].
    + exfalso. apply E. unfold np_std, np_var. 
      assert (EM : np_mean Y = y0).
      { unfold np_mean. assert (L : lsum Y = INR (length Y) * y0).
        { revert H. generalize Y. clear. induction Y as [|a Y IH]; intros H; [cbn; unfold lsum; cbn; ring|].
          unfold lsum. cbn [fold_right]. fold (lsum Y). rewrite IH by (intros; apply H; now right). rewrite (H a) by now left.
          change (length (y0 :: Y)) with (S (length Y)). cbn [length]. rewrite S_INR. ring. }
        rewrite L. field. lra. }
      rewrite EM. rewrite lsum_map_zero; [unfold Rdiv; rewrite Rmult_0_l; apply sqrt_0|]. intros x Hx. rewrite (H x Hx). ring.
    + destruct H as [x [Hx Hne]]. exists x, y0. split; [exact Hx|]. split; [now left|exact Hne].
Qed.

Lemma pad_spec P Xs : (forall X, In X Xs -> (exists c, a_shape X = [c]) \/ exists c p, a_shape X = [c; p]) ->
  (pad_dims P Xs = Ok (map pad1 Xs) /\ forall X, In X Xs -> width X = P) \/
  (pad_dims P Xs = Err ValueError /\ exists X, In X Xs /\ width X <> P).
Proof.
  intros HX. unfold pad_dims.
  assert (G : (exists u, map_result (fun X => match nth_error (a_shape X) 1 with
                 | None => Err IndexError | Some p => if Nat.eqb p P then Ok tt else Err ValueError end) (map pad1 Xs) = Ok u
               /\ forall X, In X Xs -> width X = P) \/
              (map_result (fun X => match nth_error (a_shape X) 1 with
                 | None => Err IndexError | Some p => if Nat.eqb p P then Ok tt else Err ValueError end) (map pad1 Xs) = Err ValueError
               /\ exists X, In X Xs /\ width X <> P)).
  { induction Xs as [|X Xs IH]; [left; exists []; split; [reflexivity|intros X []]|].
    assert (E : nth_error (a_shape (pad1 X)) 1 = Some (width X)).
    { unfold pad1, width. destruct (HX X (or_introl eq_refl)) as [[c E]|[c [p E]]]; rewrite E; [reflexivity|rewrite E; reflexivity]. }
    cbn [map map_result]. rewrite E. destruct (Nat.eqb_spec (width X) P) as [EP|NP]; cbn [bind].
    - destruct IH as [[u [-> H]]|[-> [X' [H1 H2]]]]; [intros; apply HX; now right| |]; cbn [bind].
      + left. eexists. split; [reflexivity|]. intros X' [<-|H']; auto.
      + right. split; [reflexivity|]. exists X'. split; [now right|exact H2].
    - right. split; [reflexivity|]. exists X. split; [now left|exact NP]. }
  destruct G as [[u [-> H]]|[-> H]]; cbn [bind]; [left|right]; auto.
Qed.

Definition multi_of (P : nat) (Xs Ys : list ndarr) (nrm : bool) : multigp :=
  mk_multi P (length Xs) (if nrm then Some (map scale_by (map a_data Ys)) else None)
    (map (fun Y => if nrm then map (fun y => (y - np_mean (a_data Y)) / np_std (a_data Y)) (a_data Y) else a_data Y) Ys) (map pad1 Xs).

Lemma multigp_init_spec Xs Ys nrm : (forall X, In X Xs -> a_shape X <> []) -> (forall Y, In Y Ys -> a_shape Y <> []) ->
  (valid_data Xs Ys /\ exists P, (forall X, In X Xs -> width X = P) /\ multigp_init Xs Ys nrm = Ok (multi_of P Xs Ys nrm)) \/
  (~ valid_data Xs Ys /\ multigp_init Xs Ys nrm = Err ValueError).
Proof.
  intros HX HY. unfold multigp_init, validate_io. destruct Xs as [|X0 Xs0]; [right; split; [intros [H _]; congruence|reflexivity]|].
  set (Xs := X0 :: Xs0) in *. destruct (Nat.eqb_spec (length Xs) (length Ys)) as [El|El]; cbn [negb].
  2:{ right. split; [|reflexivity]. intros (_ & H & _). apply Forall2_len in H. contradiction. }
  destruct (pairs_spec Xs Ys El HX HY) as [[u [-> HF]]|[-> HF]]; cbn [bind].
  2:{ right. split; [|reflexivity]. now intros (_ & H & _). }
  assert (HS : forall X, In X Xs -> (exists c, a_shape X = [c]) \/ exists c p, a_shape X = [c; p]).
  { clear - HF. clearbody Xs. induction HF as [|X Y Xs Ys [c [H _]] _ IH]; intros X' H'; [destruct H'|]. destruct H' as [<-|H']; [|now apply IH].
    destruct H as [H|[p H]]; [left|right]; eauto. }
  set (ds0 := map (fun X => nth 1 (a_shape X) 0%nat) (filter (fun X => Nat.ltb 1 (length (a_shape X))) Xs)).
  set (ds := match ds0 with [] => [1%nat] | _ => ds0 end).
  assert (Hds : ds <> []) by (unfold ds; destruct ds0; discriminate).
  assert (HW : forall v, In v ds -> exists X, In X Xs /\ width X = v).
  { intros v Hv. unfold ds in Hv. destruct ds0 as [|d ds'] eqn:E0.
    - destruct Hv as [<-|[]]. exists X0. split; [now left|]. destruct (HS X0 (or_introl eq_refl)) as [[c E]|[c [p E]]]; [unfold width; now rewrite E|].
      exfalso. unfold ds0 in E0. cbn [Xs filter] in E0. rewrite E in E0. cbn in E0. discriminate E0.
    - rewrite <- E0 in Hv. unfold ds0 in Hv. apply in_map_iff in Hv. destruct Hv as [X [E Hx]]. apply filter_In in Hx. destruct Hx as [Hx Hl].
      exists X. split; [exact Hx|]. destruct (HS X Hx) as [[c E']|[c [p E']]]; rewrite E' in *; cbn in Hl; [discriminate Hl|]. unfold width. rewrite E'. exact E. }
  destruct (one_value_spec ds Hds) as [[v [-> Hv]]|[-> Hv]].
  2:{ cbn [bind]. right. split; [|reflexivity]. intros (_ & _ & [P HP] & _). apply Hv. exists P. intros x Hx. destruct (HW x Hx) as [X [H1 <-]]. now apply HP. }
  assert (Hv0 : exists X, In X Xs /\ width X = v).
  { destruct ds as [|d l]; [congruence|]. rewrite <- (Hv d (or_introl eq_refl)). apply HW. now left. }
  assert (HZ : (existsb (fun Y => zero_std (a_data Y)) Ys = false /\
                forall Y, In Y Ys -> a_data Y = [] \/ exists x y, In x (a_data Y) /\ In y (a_data Y) /\ x <> y) \/
               (existsb (fun Y => zero_std (a_data Y)) Ys = true /\
                ~ forall Y, In Y Ys -> a_data Y = [] \/ exists x y, In x (a_data Y) /\ In y (a_data Y) /\ x <> y)).
  { destruct (existsb (fun Y => zero_std (a_data Y)) Ys) eqn:E; [right|left]; (split; [reflexivity|]).
    - apply existsb_exists in E. destruct E as [Y [H1 H2]]. intros H. destruct (zero_std_spec (a_data Y)) as [[E _]|[_ E]]; [congruence|].
      apply E. now apply H.
    - intros Y H1. destruct (zero_std_spec (a_data Y)) as [[_ E']|[E' _]]; [exact E'|]. exfalso.
      assert (C : existsb (fun Y => zero_std (a_data Y)) Ys = true) by (apply existsb_exists; now exists Y). congruence. }
  destruct HZ as [[-> HZ]|[-> HZ]]; cbn [bind].
  2:{ right. split; [|reflexivity]. now intros (_ & _ & _ & H). }
  assert (EN : (match (if nrm then Some (map scale_by (map a_data Ys)) else None) with
                | None => Ok (map a_data Ys)
                | Some l => map_result (fun nY => normalize (Some (fst nY)) (snd nY)) (combine l (map a_data Ys))
                end) = Ok (mg_Ys (multi_of v Xs Ys nrm))).
  { destruct nrm; [|reflexivity]. cbn [multi_of mg_Ys]. clear. induction Ys as [|Y Ys IH]; [reflexivity|].
    cbn [map combine map_result fst snd]. unfold normalize at 1. cbn [bind]. rewrite IH. reflexivity. }
  rewrite EN. cbn [bind]. destruct (pad_spec v Xs HS) as [[-> HP]|[-> [X [H1 H2]]]]; cbn [bind].
  - left. split; [split; [discriminate|]; split; [exact HF|]; split; [now exists v|exact HZ]|]. exists v. split; [exact HP|reflexivity].
  - right. split; [|reflexivity]. intros (_ & _ & [P HP] & _). destruct Hv0 as [X' [H3 H4]]. apply H2. rewrite <- H4. rewrite (HP X H1). symmetry. now apply HP.
Qed.

(** ** Construction *)

Lemma args_pad P Xs lens lo hi m ad : grid_args_ok P Xs lens lo hi m ad -> grid_args_ok P (map pad1 Xs) lens lo hi m ad.
Proof.
  intros [H1 H2 H3 H4 H5 H6 H7]. constructor; auto. intros d Hd. destruct (H7 d Hd) as [x [y [Hxy [Hx Hy]]]].
  assert (HC : forall v, coord P Xs lens d v -> coord P (map pad1 Xs) lens d v).
  { intros v [i [Hi E]]. exists i. split; [exact Hi|]. rewrite E. unfold obs. now rewrite point_pad. }
  exists x, y. split; [exact Hxy|]. split; [destruct Hx; auto|destruct Hy; auto].
Qed.

Lemma set_dim_keeps f P f' : reach f -> set_input_dim f P = Ok f' ->
  f_P f' = Some P /\ f_Q f' = f_Q f /\ f_D f' = f_D f /\ forall q, (q < f_Q f)%nat -> kern_of f' q = kern_of f q.
Proof.
  intros Hf E. destruct (f_P f) as [P'|] eqn:EP.
  - unfold set_input_dim in E. rewrite EP in E. destruct (Nat.eqb_spec P' P) as [EQ|]; [|discriminate E]. rewrite EQ in EP. apply Ok_inj in E. rewrite <- E. auto.
  - destruct (C22_first_call f P f' Hf EP E) as (H1 & H2 & H3 & _ & _ & _ & H4). repeat split; auto. intros q Hq. apply (H4 q Hq).
Qed.

Lemma gp_init_ready Xs Ys nrm lo hi m md f P f' :
  (forall X, In X Xs -> length (a_data X) = nprod (a_shape X)) -> (forall Y, In Y Ys -> length (a_data Y) = nprod (a_shape Y)) ->
  valid_data Xs Ys -> (forall X, In X Xs -> width X = P) -> (forall Y, In Y Ys -> a_data Y <> []) -> (0 < P)%nat ->
  reach f -> kernels_ok f -> f_D f = length Xs -> set_input_dim f P = Ok f' ->
  (forall ad, group f' ad <> [] -> grid_args_ok P Xs (map (fun Y => length (a_data Y)) Ys) lo hi m ad) ->
  exists g, gp_init Xs Ys nrm lo hi m (Some md) (Some f) = Ok g /\ gp_ready g lo hi m /\
    gp_f g = f' /\ gp_mode g = md /\ gp_data g = multi_of P Xs Ys nrm.
Proof.
  intros WX WY VD HW NE HPp Hf Hk HD Ed HA. pose proof VD as (_ & HF & _ & _).
  assert (SX : forall X, In X Xs -> a_shape X <> []).
  { clear - HF. induction HF as [|X Y Xs Ys [c [H _]] _ IH]; intros X' H'; [destruct H'|]. destruct H' as [<-|H']; [|now apply IH].
    destruct H as [H|[p H]]; rewrite H; discriminate. }
  assert (SY : forall Y, In Y Ys -> a_shape Y <> []).
  { clear - HF. induction HF as [|X Y Xs Ys [c [_ H]] _ IH]; intros X' H'; [destruct H'|]. destruct H' as [<-|H']; [|now apply IH].
    rewrite H; discriminate. }
  destruct (multigp_init_spec Xs Ys nrm SX SY) as [[_ [P' [HW' Em]]]|[C _]]; [|contradiction].
  assert (EP : P' = P). { destruct VD as (HN & _). destruct Xs as [|X0 ?]; [congruence|]. rewrite <- (HW' X0 (or_introl eq_refl)). apply HW. now left. }
  subst P'. unfold gp_init. rewrite Em. cbn [bind]. change (mg_P (multi_of P Xs Ys nrm)) with P. rewrite Ed. cbn [bind].
  destruct (set_dim_keeps f P f' Hf Ed) as (K1 & K2 & K3 & K4).
  assert (EL : map (@length R) (mg_Ys (multi_of P Xs Ys nrm)) = map (fun Y => length (a_data Y)) Ys).
  { cbn [multi_of mg_Ys]. rewrite map_map. apply map_ext. intros Y. destruct nrm; [apply map_length|reflexivity]. }
  assert (DA : data_ok f' P (map pad1 Xs) (map (@length R) (mg_Ys (multi_of P Xs Ys nrm))) lo hi m).
  { rewrite EL. constructor; auto.
    - rewrite map_length, K3, HD. symmetry. eapply Forall2_len. exact HF.
    - unfold inputs. clear - HF HW WX WY. induction HF as [|X Y Xs Ys [c [H HY]] HF IH]; cbn [map]; constructor.
      + specialize (WX X (or_introl eq_refl)). specialize (WY Y (or_introl eq_refl)). specialize (HW X (or_introl eq_refl)).
        rewrite HY in WY. unfold nprod in WY. cbn [fold_right] in WY. rewrite Nat.mul_1_r in WY. unfold vec in *. rewrite WY. unfold pad1. unfold width in HW.
        destruct H as [H|[p H]]; rewrite H in *; cbn [a_shape a_data] in *; try rewrite H; unfold nprod in WX; cbn [fold_right] in WX; rewrite Nat.mul_1_r in WX; subst P.
        * split; [reflexivity|]. rewrite Nat.mul_1_r. exact WX.
        * split; [reflexivity|exact WX].
      + apply IH; intros; [apply WX|apply WY|apply HW]; now right.
    - intros n Hn. apply in_map_iff in Hn. destruct Hn as [Y [<- HY]]. specialize (NE Y HY). destruct (a_data Y); [congruence|]. cbn. lia.
    - intros ad Had. apply args_pad. now apply HA. }
  assert (Rf : reach f') by (eapply reach_dim; eassumption).
  destruct (generate_grids_ok f' P (map pad1 Xs) _ lo hi m (reach_ok _ Rf) DA) as [gr [Eg _]].
  change (mg_Xs (multi_of P Xs Ys nrm)) with (map pad1 Xs). rewrite Eg. cbn [bind]. eexists. split; [reflexivity|].
  split; [|split; [reflexivity|split; reflexivity]]. constructor; cbn [gp_f gp_data gp_grids]; auto.
  - intros q Hq. rewrite K2 in Hq. rewrite K4 by exact Hq. now apply Hk.
  - cbn [multi_of mg_D]. congruence.
  - cbn [multi_of mg_norm]. intros l El. destruct nrm; [|discriminate El]. injection El as <-. rewrite !map_length. rewrite K3, HD. symmetry. eapply Forall2_len. exact HF.
Qed.

(** ** Fitting *)

Section Fit.
Variables (g : gp) (lo hi : grid_arg R) (m : grid_arg nat).
Hypothesis HR : gp_ready g lo hi m.
Let f := gp_f g.
Let P := mg_P (gp_data g).
Let Ys := mg_Ys (gp_data g).
Let lens := map (@length R) Ys.
Let n := nsum lens.
Let Hok : fk_ok f := rd_ok g lo hi m HR.
Let HP : f_P f = Some P := rd_P g lo hi m HR.

Lemma K_fit_pd : proper f -> pos_definite n (K_fit g).
Proof.
  intros [Hper Hdiag Hnoise]. apply K_op_pd.
  - exact (rd_D g lo hi m HR).
  - exact Hdiag.
  - intros q Hq. fold f. destruct (group_qdims f P Hok HP q Hq) as [_ Had]. set (ad := qdims f q) in *.
    destruct (rd_grid g lo hi m HR ad Had) as [_ [l [HL [E1 [E2 [E3 [El [Hl Hax]]]]]]]].
    assert (EG : G_of (gp_grids g) ad = dists_of l) by (unfold G_of; now rewrite (gg_ag _ _ _ _ _ _ _ _ _ _ HL)).
    rewrite EG. unfold K_grid, dists_of. cbn [a_data a_shape].
    apply (psd_ext _ (fun i j => k_doc (kern_of f q) (euclid (length l) (grid_pt (axes_of l) i) (grid_pt (axes_of l) j)))).
    + intros i j Hi Hj. symmetry. apply grid_dists_entry; [destruct l; [cbn in *; lia|discriminate]|now apply axes_points_pos|exact Hi|exact Hj].
    + apply psd_pd_on. apply pd_kernel; [apply (gr_kern _ _ _ _ HR q Hq)|]. intros Hp. rewrite El. now apply (Hper q Hq).
  - exact Hnoise.
Qed.

Lemma K_obs_pdR : proper f -> pos_definite n (K_obs f P (mg_Xs (gp_data g)) lens).
Proof.
  intros [Hper Hdiag Hnoise]. apply K_obs_pd; auto.
  - exact (rd_D g lo hi m HR).
  - intros q Hq. apply (gr_kern _ _ _ _ HR q Hq).
Qed.

Lemma fit_ok solve k old : proper f -> exact_solver n (K_fit g) solve -> (0 < k)%nat ->
  length (s_vecs old) = f_Q f -> length (s_diags old) = f_Q f -> length (s_kernels old) = f_Q f ->
  exists s : list (list bool) -> grad_slots,
    (forall bits, In bits (draws k n) -> exists kk, parameters_changed solve bits k g old = Ok (kk, s bits)) /\
    (forall q r d, (q < f_Q f)%nat -> (r < length (nth q (f_vecs f) []))%nat -> (d < f_D f)%nat ->
       is_gradient n (fun v => K_fit (with_params g (with_vec f q r d v))) (y_obs g) (mget (nth q (f_vecs f) []) r d)
         (mean (draws k n) (fun bits => mget (nth q (s_vecs (s bits)) []) r d))) /\
    (forall q d, (q < f_Q f)%nat -> (d < f_D f)%nat ->
       is_gradient n (fun v => K_fit (with_params g (with_diag f q d v))) (y_obs g) (vget (nth q (f_diags f) []) d)
         (mean (draws k n) (fun bits => vget (nth q (s_diags (s bits)) []) d))) /\
    (forall q j, (q < f_Q f)%nat -> (j < length (params (kern_of f q)))%nat ->
       is_gradient n (fun v => K_fit (with_params g (with_kparam f q j v))) (y_obs g) (nth j (params (kern_of f q)) 0)
         (mean (draws k n) (fun bits => nth j (params (nth q (s_kernels (s bits)) KIdentity)) 0))) /\
    (forall d, (d < f_D f)%nat ->
       is_gradient n (fun v => K_fit (with_params g (with_noise f d v))) (y_obs g) (vget (f_noise f) d)
         (mean (draws k n) (fun bits => vget (s_noise (s bits)) d))).
Proof.
  intros Hp Hs Hk O1 O2 O3. pose proof (K_fit_pd Hp) as Hpd.
  destruct (gen_K_op f P _ _ (G_of (gp_grids g)) (W_of (gp_grids g)) _ lens Hok HP (rd_Pp g lo hi m HR) (gr_kern _ _ _ _ HR)
     (rd_D g lo hi m HR) (rd_n g lo hi m HR) (kr_interp g lo hi m HR)) as [Ko [gks [EK RK]]].
  assert (HY : length Ys = f_D f) by exact (eq_trans (eq_sym (map_length _ _)) (rd_D g lo hi m HR)).
  destruct (C56_expected_gradients f P (grids_dists (gp_grids g)) (grids_interps (gp_grids g)) Ys (G_of (gp_grids g)) (W_of (gp_grids g)) _ k solve Ko
     (gr_reach _ _ _ _ HR) HP (rd_Pp g lo hi m HR) (gr_kern _ _ _ _ HR) HY (rd_n g lo hi m HR) Hk (kr_interp g lo hi m HR) Hpd (Hs Ko RK))
    as [dg [H0 [H1 [H2 [H3 H4]]]]].
  assert (US : forall bits, exists new, In bits (draws k n) -> fk_update_gradient f (dg bits) old = Ok new /\ s_noise new = g_noise (dg bits) /\
     forall q, (q < f_Q f)%nat -> nth q (s_vecs new) [] = nth q (g_vecs (dg bits)) [] /\ nth q (s_diags new) [] = nth q (g_diags (dg bits)) [] /\
        params (nth q (s_kernels new) KIdentity) = nth q (g_kernels (dg bits)) []).
  { intros bits. destruct (in_dec (list_eq_dec (list_eq_dec Bool.bool_dec)) bits (draws k n)) as [Hb|Hb]; [|exists old; contradiction].
    destruct (H0 bits Hb) as [l [_ [_ [[L1 _] [[L2 _] [[L3 L3'] L4]]]]]].
    destruct (C54_update_gradient f P (dg bits) old (gr_reach _ _ _ _ HR) HP (rd_Pp g lo hi m HR) L1 L2 L3 L3' O1 O2 O3) as [new [En [Hn [_ [_ [_ H]]]]]].
    exists new. intros _. split; [exact En|]. split; [exact Hn|]. intros q Hq. destruct (H q Hq) as [A1 [A2 [_ A3]]]. auto. }
  pose (s := fun bits => match fk_update_gradient f (dg bits) old with Ok new => new | Err _ => old end).
  assert (Hsp : forall bits, In bits (draws k n) -> fk_update_gradient f (dg bits) old = Ok (s bits) /\ s_noise (s bits) = g_noise (dg bits) /\
     forall q, (q < f_Q f)%nat -> nth q (s_vecs (s bits)) [] = nth q (g_vecs (dg bits)) [] /\ nth q (s_diags (s bits)) [] = nth q (g_diags (dg bits)) [] /\
        params (nth q (s_kernels (s bits)) KIdentity) = nth q (g_kernels (dg bits)) []).
  { intros bits Hb. destruct (US bits) as [new H]. destruct (H Hb) as [E H']. unfold s. rewrite E. auto. }
  exists s. split.
  - intros bits Hb. destruct (H0 bits Hb) as [l [El [Eg _]]]. exists (mk_gpk l gks). unfold parameters_changed. fold f Ys lens. rewrite EK. cbn [bind].
    rewrite El. cbn [bind]. rewrite Eg. cbn [bind]. destruct (Hsp bits Hb) as [-> _]. reflexivity.
  - assert (ME : forall F G, (forall bits, In bits (draws k n) -> F bits = G bits) -> mean (draws k n) F = mean (draws k n) G).
    { intros F G HFG. unfold mean. f_equal. now apply lsum_map_ext. }
    split; [|split; [|split]].
    + intros q r d Hq Hr Hd. rewrite (ME _ (fun bits => mget (nth q (g_vecs (dg bits)) []) r d)); [exact (H1 q r d Hq Hr Hd)|].
      intros bits Hb. destruct (Hsp bits Hb) as [_ [_ H]]. destruct (H q Hq) as [-> _]. reflexivity.
    + intros q d Hq Hd. rewrite (ME _ (fun bits => vget (nth q (g_diags (dg bits)) []) d)); [exact (H2 q d Hq Hd)|].
      intros bits Hb. destruct (Hsp bits Hb) as [_ [_ H]]. destruct (H q Hq) as [_ [-> _]]. reflexivity.
    + intros q j Hq Hj. rewrite (ME _ (fun bits => nth j (nth q (g_kernels (dg bits)) []) 0)); [exact (H3 q j Hq Hj)|].
      intros bits Hb. destruct (Hsp bits Hb) as [_ [_ H]]. destruct (H q Hq) as [_ [_ ->]]. reflexivity.
    + intros d Hd. rewrite (ME _ (fun bits => vget (g_noise (dg bits)) d)); [exact (H4 d Hd)|].
      intros bits Hb. destruct (Hsp bits Hb) as [_ [-> _]]. reflexivity.
Qed.
End Fit.
