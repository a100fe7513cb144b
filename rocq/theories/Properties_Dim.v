(** Claims about the number of dimensions of inputs and of kernels (C101). *)

From Coq Require Import Reals List Arith ZArith Lia Lra Permutation Sorted.
From Verif Require Import Base NDArray Model_Util Spec_Util Proofs_Util Model_Linalg Proofs_Linalg Model_Interp Model_Kern Spec_Kern Model_FK Spec_FK Proofs_FK
  Properties_FK Model_Grid Spec_Grid Spec_Lik Spec_GP Model_GP Spec_Pred Proofs_Init Proofs_Units Properties_Pred.
Import ListNotations.
Open Scope R_scope.

(** ** C101: dimensions *)

Lemma take_cols_ok ad X X' : take_cols ad X = Ok X' -> exists n P, a_shape X = [n; P] /\ a_shape X' = [n; length ad] /\ forall d, In d ad -> (d < P)%nat.
Proof.
  unfold take_cols. destruct (a_shape X) as [|n [|P [|? ?]]] eqn:E; try discriminate. destruct (forallb _ ad) eqn:F; [|discriminate].
  intros H. apply Ok_inj in H. subst X'. exists n, P. repeat split. intros d Hd. rewrite forallb_forall in F. apply Nat.ltb_lt. now apply F.
Qed.

Lemma autogrid_rows Xs lo hi m r : autogrid Xs lo hi m = Ok r -> Xs <> [] /\ forall X, In X Xs -> hd 0%nat (a_shape X) <> 0%nat.
Proof.
  unfold autogrid. destruct Xs as [|X0 Xs0]; [discriminate|]. intros H. split; [discriminate|]. set (Xs := X0 :: Xs0) in *. clearbody Xs.
  destruct (a_shape X0) as [|n [|P ?]]; try discriminate.
  destruct (negb (opt_len_ok P lo)); [discriminate|]. destruct (negb (opt_len_ok P hi)); [discriminate|].
  match type of H with (if ?b then _ else _) = _ => destruct b; [discriminate|] end.
  destruct (existsb (fun X => Nat.eqb (hd 0%nat (a_shape X)) 0) Xs) eqn:E; [discriminate|]. intros X HX C.
  assert (existsb (fun X => Nat.eqb (hd 0%nat (a_shape X)) 0) Xs = true); [|congruence]. apply existsb_exists. exists X. split; [exact HX|]. now apply Nat.eqb_eq.
Qed.

Lemma bicubic_cols gx gy X n c : a_shape X = [n; c] -> n <> 0%nat -> c <> 2%nat -> interp_bicubic gx gy X = Err ValueError.
Proof.
  intros E Hn Hc. unfold interp_bicubic. rewrite E. destruct (Nat.eqb_spec n 0); [contradiction|].
  repeat match goal with |- (if ?b then _ else _) = _ => destruct b; [reflexivity|] end. destruct c as [|[|[|c]]]; try reflexivity. congruence.
Qed.

Lemma generate_grid_dims Xs lo hi m ad a : generate_grid Xs lo hi m ad = Ok a -> Xs <> [] /\ (length ad = 1 \/ length ad = 2)%nat /\
  forall X, In X Xs -> forall d, In d ad -> (d < nth 1 (a_shape X) 0)%nat.
Proof.
  unfold generate_grid. intros H. repeat (apply bind_ok in H; destruct H as [? [? H]]; cbv beta iota zeta in H).
  match goal with H : map_result (take_cols ad) Xs = Ok ?l |- _ => rename H into HT; rename l into Xa end.
  destruct x3 as [axes mm]. repeat (apply bind_ok in H; destruct H as [? [? H]]; cbv beta iota zeta in H).
  match goal with H : autogrid _ _ _ _ = Ok _ |- _ => destruct (autogrid_rows _ _ _ _ _ H) as [HN HR] end.
  split; [intros ->; apply HN; now apply Ok_inj in HT|].
  match goal with H : multi_interpolant _ _ = Ok _ |- _ => rename H into HM end.
  split.
  - destruct Xa as [|X0 Xa0]; [congruence|]. unfold multi_interpolant in HM. apply bind_ok in HM. destruct HM as [gl [_ HM]]. cbv beta iota zeta in HM.
    apply bind_ok in HM. destruct HM as [Ws [HM _]].
    destruct (map_result_ok_back _ _ _ HT X0 (or_introl eq_refl)) as [X [_ HX]]. destruct (take_cols_ok _ _ _ HX) as (n & P & _ & S0 & _).
    rewrite S0 in HM. destruct (Nat.eqb_spec (length ad) 1); [now left|]. destruct (Nat.eq_dec (length ad) 2); [now right|]. exfalso.
    specialize (HR X0 (or_introl eq_refl)). rewrite S0 in HR. cbn [hd] in HR.
    destruct (map np1 axes) as [|gx [|gy ?]]; try discriminate. cbn [map_result] in HM. rewrite (bicubic_cols gx gy X0 n (length ad) S0 HR) in HM by assumption. discriminate HM.
  - intros X HX d Hd. destruct (map_result_ok_all _ _ _ HT X HX) as [X' [_ E]]. destruct (take_cols_ok _ _ _ E) as (n & P & S & _ & K). rewrite S. cbn [nth]. now apply K.
Qed.

(** Every kernel of a model that could be built acts on one or two of the
    input dimensions: the limit in the README is enforced. *)
Theorem C101_cap Xs Ys nrm lo hi m pred f g : reach f -> gp_init Xs Ys nrm lo hi m pred (Some f) = Ok g ->
  forall q, (q < f_Q f)%nat -> exists ad, dims_of (gp_f g) q = Some ad /\ (length ad = 1 \/ length ad = 2)%nat /\ forall d, In d ad -> (d < mg_P (gp_data g))%nat.
Proof.
  intros Hf E q Hq. unfold gp_init in E. apply bind_ok in E. destruct E as [d [Ed E]]. destruct pred as [md|]; [|discriminate].
  apply bind_ok in E. destruct E as [f' [Ef E]]. apply bind_ok in E. destruct E as [gr [Eg E]]. apply Ok_inj in E. subst g. cbn [gp_f gp_data].
  destruct (set_dim_keeps f _ f' Hf Ef) as (K1 & K2 & _).
  destruct (C22_groups f' _ (reach_dim _ _ _ Hf Ef) K1) as (_ & HQ & _). rewrite K2 in HQ. destruct (HQ q Hq) as (ad & l & D1 & D2 & _).
  exists ad. split; [exact D1|]. unfold generate_grids in Eg.
  assert (HI : In ad (map fst (f_active f'))) by (apply dict_key; now exists l).
  destruct (map_result_ok_all _ _ _ Eg ad HI) as [y [_ Ey]]. apply bind_ok in Ey. destruct Ey as [a [Ea _]].
  destruct (generate_grid_dims _ _ _ _ _ _ Ea) as (HN & HL & HW). split; [exact HL|]. intros k Hk.
  unfold multigp_init in Ed. apply bind_ok in Ed. destruct Ed as [[P D] [_ Ed]]. apply bind_ok in Ed. destruct Ed as [Ys' [_ Ed]].
  apply bind_ok in Ed. destruct Ed as [Xs' [Ep Ed]]. apply Ok_inj in Ed. subst d. cbn [mg_Xs mg_P] in *.
  unfold pad_dims in Ep. apply bind_ok in Ep. destruct Ep as [u [Ep E']]. apply Ok_inj in E'. subst Xs'.
  destruct (map pad1 Xs) as [|X0 r] eqn:EX; [congruence|]. specialize (HW X0 (or_introl eq_refl) k Hk).
  destruct (map_result_ok_all _ _ _ Ep X0 (or_introl eq_refl)) as [t [_ Et]].
  destruct (nth_error (a_shape X0) 1) as [p|] eqn:EN; [|discriminate]. destruct (Nat.eqb_spec p P); [subst p|discriminate].
  now rewrite (nth_error_nth _ _ _ EN) in HW.
Qed.
Print Assumptions C101_cap.

(** Kernels over all dimensions of inputs of three or more raise ValueError,
    whatever the data, with the default grids. *)
Theorem C101_three Xs Ys nrm md f P : (forall X, In X Xs -> a_shape X <> []) -> (forall Y, In Y Ys -> a_shape Y <> []) ->
  (forall X, In X Xs -> width X = P) -> (3 <= P)%nat -> reach f -> f_P f = None -> (forall q, (q < f_Q f)%nat -> dims_of f q = None) ->
  gp_init Xs Ys nrm GNone GNone GNone (Some md) (Some f) = Err ValueError.
Proof.
  intros SX SY HW HP Hf HN HD. unfold gp_init.
  destruct (multigp_init_spec Xs Ys nrm SX SY) as [[VD [P' [HW' ->]]]|[_ ->]]; [|reflexivity].
  cbn [bind]. assert (EP : P' = P). { destruct VD as (NE & _). destruct Xs as [|X0 r]; [congruence|]. rewrite <- (HW' X0 (or_introl eq_refl)). apply HW. now left. }
  subst P'. change (mg_P (multi_of P Xs Ys nrm)) with P. change (mg_Xs (multi_of P Xs Ys nrm)) with (map pad1 Xs).
  destruct (set_input_dim f P) as [f'|e] eqn:Ef; [|exfalso; unfold set_input_dim in Ef; rewrite HN in Ef; discriminate].
  cbn [bind]. destruct (C22_first_call f P f' Hf HN Ef) as (F1 & F2 & _ & _ & _ & _ & F3).
  assert (Hf' : reach f') by (eapply reach_dim; eassumption). destruct (C22_groups f' P Hf' F1) as (_ & HQ & HG).
  unfold generate_grids. destruct (f_active f') as [|[ad l] rest] eqn:EA.
  { exfalso. pose proof (ok_Q _ (reach_ok _ Hf')) as Q0. destruct (HQ 0%nat) as (ad & l & _ & C & _); [exact Q0|]. discriminate C. }
  destruct (HG ad l (or_introl eq_refl)) as (Hl & _ & Hq & _).
  assert (Ea : ad = seq 0 P).
  { destruct l as [|q l]; [congruence|]. destruct (proj1 (Hq q) (or_introl eq_refl)) as [Q1 Q2]. rewrite F2 in Q1. destruct (F3 q Q1) as [_ Q3]. rewrite (HD q Q1) in Q3. congruence. }
  subst ad. cbn [map fst map_result]. unfold generate_grid. cbn [wrap_arg bind].
  destruct VD as (NE & HF & _).
  assert (S : forall X, In X Xs -> exists c, a_shape (pad1 X) = [c; P]).
  { intros X HX. specialize (HW X HX). assert (HS : exists c, a_shape X = [c] \/ exists p, a_shape X = [c; p]).
    { clear - HF HX. induction HF as [|X' Y Xs Ys [c [H _]] _ IH]; [destruct HX|]. destruct HX as [<-|HX]; [now exists c|now apply IH]. }
    destruct HS as [c [H|[p H]]]; exists c; unfold pad1, width in *; rewrite H in *; [subst P; lia|subst p; exact H]. }
  assert (T : exists Xa, map_result (take_cols (seq 0 P)) (map pad1 Xs) = Ok Xa).
  { clear - S. induction Xs as [|X Xs IH]; [now exists []|]. destruct (S X (or_introl eq_refl)) as [c Ec]. destruct IH as [Xa Ea]; [intros; apply S; now right|].
    cbn [map map_result]. unfold take_cols at 1. rewrite Ec. assert (F : forallb (fun d => (d <? P)%nat) (seq 0 P) = true).
    { apply forallb_forall. intros d Hd. apply in_seq in Hd. apply Nat.ltb_lt. lia. } rewrite F. cbn [bind]. rewrite Ea. cbn [bind]. eexists; reflexivity. }
  destruct T as [Xa Ea]. rewrite Ea. cbn [bind].
  assert (SA : forall X', In X' Xa -> exists c, a_shape X' = [c; P]).
  { intros X' HX'. destruct (map_result_ok_back _ _ _ Ea X' HX') as [X [_ HX]]. destruct (take_cols_ok _ _ _ HX) as (n & P0 & _ & S0 & _). exists n. now rewrite S0, seq_length. }
  destruct Xa as [|X0 Xa0]; [exfalso; destruct Xs as [|X ?]; [congruence|]; destruct (map_result_ok_all _ _ _ Ea (pad1 X) (or_introl eq_refl)) as [? [[] _]]|].
  match goal with |- context [autogrid (X0 :: Xa0) ?b ?c ?d] => destruct (autogrid (X0 :: Xa0) b c d) as [[axes mm]|e] eqn:EG end.
  2:{ cbn [bind]. unfold autogrid in EG. destruct (SA X0 (or_introl eq_refl)) as [c S0]. rewrite S0 in EG. cbn [opt_len_ok negb] in EG.
      match type of EG with (if ?b then _ else _) = _ => destruct b; [injection EG as <-; reflexivity|discriminate] end. }
  cbn [bind]. destruct (autogrid_rows _ _ _ _ _ EG) as [_ HR].
  assert (LA : exists a1 a2 a3 r, axes = a1 :: a2 :: a3 :: r).
  { unfold autogrid in EG. destruct (SA X0 (or_introl eq_refl)) as [c S0]. rewrite S0 in EG. cbn [opt_len_ok negb] in EG.
    match type of EG with (if ?b then _ else _) = _ => destruct b; [discriminate|] end. injection EG as <- _.
    destruct P as [|[|[|P]]]; try lia. unfold tab. cbn [seq map]. do 4 eexists. reflexivity. }
  assert (AL : forall v, In v axes -> (0 < length v)%nat).
  { unfold autogrid in EG. destruct (SA X0 (or_introl eq_refl)) as [c S0]. rewrite S0 in EG. cbn [opt_len_ok negb] in EG.
    match type of EG with (if ?b then _ else _) = _ => destruct b; [discriminate|] end. injection EG as <- _.
    intros v Hv. unfold tab at 1 in Hv. apply in_map_iff in Hv. destruct Hv as [p [<- Hp]]. apply in_seq in Hp. unfold np_linspace. rewrite tab_length.
    assert (H4 : forall (l : list nat) k, (k < length l)%nat -> (0 < nth k (map (fun t => (t + 4)%nat) l) 0)%nat).
    { clear. induction l as [|t l IH]; intros k Hk; [cbn in Hk; lia|]. destruct k as [|k]; cbn [map nth]; [lia|]. apply IH. cbn in Hk. lia. }
    apply H4. rewrite tab_length. lia. }
  destruct LA as (a1 & a2 & a3 & r & ->).
  unfold grid_dists. rewrite cartesian_product_ok by discriminate. cbn [bind].
  destruct (cart (a1 :: a2 :: a3 :: r)) as [|first cs] eqn:EC.
  { exfalso. pose proof (cart_length (a1 :: a2 :: a3 :: r)) as L. rewrite EC in L. cbn [length] in L.
    assert (Z : forall l : list vec, (forall v, In v l -> (0 < length v)%nat) -> (0 < nprod (map (@length R) l))%nat).
    { clear. induction l as [|v l IH]; intros H; [cbn; lia|]. cbn [map]. change (0 < length v * nprod (map (@length R) l))%nat.
      apply Nat.mul_pos_pos; [apply H; now left|apply IH; intros; apply H; now right]. }
    specialize (Z _ AL). lia. }
  cbn [bind]. unfold multi_interpolant.
  assert (GL : forall l : list vec, map_result np_len (map np1 l) = Ok (map (@length R) l)).
  { clear. induction l as [|v l IH]; [reflexivity|]. cbn [map map_result]. unfold np_len at 1. cbn [np1 a_shape bind]. rewrite IH. reflexivity. }
  rewrite GL. cbn [bind]. destruct (SA X0 (or_introl eq_refl)) as [c S0]. rewrite S0. destruct (Nat.eqb_spec P 1); [lia|].
  cbn [map]. cbn [map_result]. specialize (HR X0 (or_introl eq_refl)). rewrite S0 in HR. cbn [hd] in HR.
  rewrite (bicubic_cols (np1 a1) (np1 a2) X0 c P S0 HR) by lia. reflexivity.
Qed.
Print Assumptions C101_three.

(** Inputs of any number of dimensions are accepted, with kernels on any one or
    two of them each, provided that the inputs differ in these. *)
Theorem C101_any Xs Ys nrm md f P :
  (forall X, In X Xs -> length (a_data X) = nprod (a_shape X)) -> (forall Y, In Y Ys -> length (a_data Y) = nprod (a_shape Y)) ->
  valid_data Xs Ys -> (forall X, In X Xs -> width X = P) -> (forall Y, In Y Ys -> a_data Y <> []) -> (0 < P)%nat ->
  reach f -> kernels_ok f -> f_D f = length Xs -> f_P f = None ->
  (forall q, (q < f_Q f)%nat -> exists ad, dims_of f q = Some ad /\ (length ad = 1 \/ length ad = 2)%nat /\
     forall d, In d ad -> (d < P)%nat /\ exists x y, coord P Xs (map (fun Y => length (a_data Y)) Ys) d x /\ coord P Xs (map (fun Y => length (a_data Y)) Ys) d y /\ x <> y) ->
  exists g, gp_init Xs Ys nrm GNone GNone GNone (Some md) (Some f) = Ok g /\ gp_ready g GNone GNone GNone /\
    forall q, (q < f_Q f)%nat -> kern_of (gp_f g) q = kern_of f q /\ exists ad ad', dims_of f q = Some ad /\ dims_of (gp_f g) q = Some ad' /\ Permutation ad ad'.
Proof.
  intros WX WY VD HW NE HPp Hf Hk HD HN HA.
  destruct (set_input_dim f P) as [f'|e] eqn:Ef; [|exfalso; unfold set_input_dim in Ef; rewrite HN in Ef; discriminate].
  destruct (C22_first_call f P f' Hf HN Ef) as (F1 & F2 & _ & _ & _ & _ & F3).
  destruct (C59_init Xs Ys nrm GNone GNone GNone md f P f' WX WY VD HW NE HPp Hf Hk HD Ef) as (g & d & E & _ & HR & Eg & _).
  { intros ad Had. destruct (group f' ad) as [|q l] eqn:G; [congruence|]. assert (Hq : In q (group f' ad)) by (rewrite G; now left).
    unfold group in Hq. apply filter_In in Hq. destruct Hq as [Hq Hd]. apply in_seq in Hq. rewrite F2 in Hq.
    destruct (F3 q) as [_ F4]; [lia|]. destruct (HA q) as (ad0 & D0 & L0 & R0); [lia|]. rewrite D0 in F4. destruct F4 as (l' & D1 & Pm & _).
    rewrite D1 in Hd. destruct (list_eq_dec Nat.eq_dec l' ad) as [->|]; [|discriminate]. constructor; try exact I.
    - rewrite <- (Permutation_length Pm). exact L0.
    - intros k Hk'. apply R0. now apply (Permutation_in _ (Permutation_sym Pm)).
    - intros k j _ C. discriminate C.
    - intros k Hk'. destruct (R0 k) as [_ (x & y & Cx & Cy & Ne)]; [now apply (Permutation_in _ (Permutation_sym Pm))|].
      destruct (Rtotal_order x y) as [L|[L|L]]; [exists x, y|contradiction|exists y, x]; auto. }
  exists g. split; [exact E|]. split; [exact HR|]. rewrite Eg. intros q Hq. destruct (F3 q Hq) as [K1 K2]. split; [exact K1|].
  destruct (HA q Hq) as (ad & D0 & _). rewrite D0 in K2. destruct K2 as (l' & D1 & Pm & _). exists ad, l'. auto.
Qed.
Print Assumptions C101_any.

(** Three dimensions: a kernel on two of them and one on the third, against the
    note in the class's documentation that only one is supported. *)
Definition dim3_Xs := [mk_arr [2; 3]%nat [0; 0; 0; 1; 1; 1]].
Definition dim3_Ys := [mk_arr [2]%nat [0; 1]].
Theorem C101_note_refuted : exists Xs Ys f g, (forall X, In X Xs -> width X = 3%nat) /\ f_Q f = 2%nat /\
  dims_of f 0 = Some [1; 0]%nat /\ dims_of f 1 = Some [2]%nat /\ gp_init Xs Ys false GNone GNone GNone (Some OnTheFly) (Some f) = Ok g /\ gp_ready g GNone GNone GNone.
Proof.
  destruct (fk_init (fun _ _ _ => 1) (Some 1%nat) (Some [(RBF 1, Some [1; 0]%nat); (RBF 1, Some [2]%nat)]) (Some [1; 1]%Z) None None None) as [f|e] eqn:Ef; [|discriminate Ef].
  assert (Rf : reach f) by (eapply reach_init; exact Ef). cbn in Ef. apply Ok_inj in Ef.
  assert (HQ : f_Q f = 2%nat) by now rewrite <- Ef. 
  assert (D0 : dims_of f 0 = Some [1; 0]%nat) by now rewrite <- Ef. assert (D1 : dims_of f 1 = Some [2]%nat) by now rewrite <- Ef.
  assert (SP : forall d, (d < 3)%nat -> exists x y, coord 3 dim3_Xs [2]%nat d x /\ coord 3 dim3_Xs [2]%nat d y /\ x <> y).
  { intros d Hd. exists 0, 1. assert (d = 0 \/ d = 1 \/ d = 2)%nat as [->|[->| ->]] by lia.
    all: split; [exists 0%nat; split; [cbn; lia|reflexivity]|split; [exists 1%nat; split; [cbn; lia|reflexivity]|lra]]. }
  destruct (C101_any dim3_Xs dim3_Ys false OnTheFly f 3) as (g & E & HR & _); auto; try (intros X [<-|[]]; reflexivity).
  - split; [discriminate|]. split; [constructor; [exists 2%nat; split; [right; now exists 3%nat|reflexivity]|constructor]|].
    split; [exists 3%nat; intros X [<-|[]]; reflexivity|]. intros Y [<-|[]]. right. exists 0, 1. split; [left; reflexivity|split; [right; left; reflexivity|lra]].
  - intros Y [<-|[]]. discriminate.
  - intros q Hq. rewrite HQ in Hq. assert (K : kern_of f q = RBF 1). { rewrite <- Ef. destruct q as [|[|q]]; [reflexivity|reflexivity|lia]. } rewrite K. split; [intros v [<-|[]]; lra|exact I].
  - now rewrite <- Ef.
  - now rewrite <- Ef.
  - intros q Hq. rewrite HQ in Hq. destruct q as [|[|q]]; [|  |lia].
    + exists [1; 0]%nat. split; [exact D0|]. split; [now right|]. intros d [<-|[<-|[]]]; (split; [lia|apply SP; lia]).
    + exists [2]%nat. split; [exact D1|]. split; [now left|]. intros d [<-|[]]. split; [lia|apply SP; lia].
  - exists dim3_Xs, dim3_Ys, f, g. split; [intros X [<-|[]]; reflexivity|]. repeat (split; [assumption|]). exact HR.
Qed.
Print Assumptions C101_note_refuted.

(** Hypotheses of [C101_three]. *)
Example C101_three_ex : exists f, reach f /\ f_P f = None /\ (forall q, (q < f_Q f)%nat -> dims_of f q = None) /\
  gp_init dim3_Xs dim3_Ys false GNone GNone GNone (Some Exact) (Some f) = Err ValueError.
Proof.
  destruct (fk_init (fun _ _ _ => 1) (Some 1%nat) (Some [(RBF 1, None)]) (Some [1]%Z) None None None) as [f|e] eqn:Ef; [|discriminate Ef].
  assert (Rf : reach f) by (eapply reach_init; exact Ef). cbn in Ef. apply Ok_inj in Ef. exists f. split; [exact Rf|].
  assert (N : f_P f = None) by now rewrite <- Ef. split; [exact N|].
  assert (D : forall q, (q < f_Q f)%nat -> dims_of f q = None). { intros q Hq. rewrite <- Ef in Hq |- *. destruct q; [reflexivity|cbn in Hq; lia]. }
  split; [exact D|]. apply (C101_three dim3_Xs dim3_Ys false Exact f 3); auto; intros X [<-|[]]; try reflexivity; discriminate.
Qed.
