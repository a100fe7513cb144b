(** C98: what the pictures of the benchmarks show. *)

From Coq Require Import Reals List Arith Lia Lra Bool String.
From Verif Require Import Base NDArray PSD Model_Util Proofs_Util Model_Linalg Spec_Linalg Proofs_Linalg Model_Interp
  Model_Kern Spec_Kern Model_FK Spec_FK Proofs_FK Model_Grid Spec_Grid Model_Lik Spec_Lik
  Spec_GP Model_GP Spec_Pred Proofs_Pred Proofs_Pred2 Proofs_Pred3 Proofs_Pred4 Proofs_Pred5 Proofs_Pred6 Properties_Grid Properties_Pred
  Model_State Spec_State Properties_Mode Model_Bench Spec_Bench Model_Heat Proofs_Heat Model_Pics Spec_Pics Proofs_Mass Proofs_Pics.
Import ListNotations.
Open Scope R_scope.
Notation length := List.length.

Section Names.
  Context {A B C : Type} {test_fx cols names : list string} {xss : list A} {yss : list vec} {test_xss : list B} {test_yss : list (list C)} {cmu cvar : list vec}.
  Hypothesis HC : columns test_fx cols names xss yss test_xss test_yss cmu cvar.

  Lemma indices : exists ixs, map_result (index_of cols) test_fx = Ok ixs /\ Forall2 (fun c i => nth_error cols i = Some c) test_fx ixs.
  Proof.
    apply map_result_exists. intros c Hc. apply (cl_in _ _ _ _ _ _ _ _ _ HC) in Hc. apply In_nth_error in Hc. destruct Hc as [i Hi]. exists i. split; [|exact Hi].
    exact (index_nth cols i c (cl_nodup _ _ _ _ _ _ _ _ _ HC) Hi).
  Qed.
End Names.

(** Panels for the names of [test_fx] and their positions. *)
Lemma panels (test_fx cols : list string) (F : string * nat -> result panel) (Q : string -> panel -> Prop) n ixs :
  (forall c i, In c test_fx -> nth_error cols i = Some c -> exists p, F (c, i) = Ok p /\ Q c p) ->
  Forall2 (fun c i => nth_error cols i = Some c) test_fx ixs ->
  exists ps, map_result F (firstn n (combine test_fx ixs)) = Ok ps /\ Forall2 Q (firstn n test_fx) ps.
Proof.
  intros H' F2. revert n. induction F2 as [|c i l l' Hc _ IH]; intros n; [exists []; rewrite !firstn_nil; split; [reflexivity|constructor]|].
  destruct n as [|n]; [exists []; split; [reflexivity|constructor]|]. cbn [combine firstn map_result].
  destruct (H' c i (or_introl eq_refl) Hc) as [p [E Hp]]. rewrite E. cbn [bind]. destruct (IH (fun a b Ha => H' a b (or_intror Ha)) n) as [ps [E' HP]]. rewrite E'. exists (p :: ps).
  split; [reflexivity|now constructor].
Qed.

(** ** C98: the picture of the exchange rates *)

(** One row of data for each name; the inputs are positions of days.  The lines
    run over every day from the first to the last day of all training inputs.
    If COGP's results have one value for each of these days, there is a panel
    for each of the first three names, in order, and it shows: what the model
    predicts with precomputed variances for the output of that name, with two
    standard deviations on each side, none of them undefined; COGP's results for
    that name; its training points; its held-out points.  If COGP's means for
    the first name are for another number of days, there is no picture. *)
Theorem C98_fx solve g k D xss yss test_xss test_yss test_fx cols names cmu cvar :
  drawable solve g k D -> length cols = D -> columns test_fx cols names xss yss test_xss test_yss cmu cvar ->
  xss <> [] -> (forall xs, In xs xss -> xs <> []) ->
  (forall d, length (nth d yss []) = length (nth d xss [])) -> (forall d, length (nth d test_yss []) = length (nth d test_xss [])) ->
  exists first more, (exists xs, In xs xss /\ In first xs) /\ (exists xs, In xs xss /\ In (first + more)%nat xs) /\
    (forall xs x, In xs xss -> In x xs -> (first <= x <= first + more)%nat) /\
    let days := map INR (seq first (more + 1)) in
    ((forall mu, In mu cmu -> length mu = (more + 1)%nat) -> (forall var, In var cvar -> length var = (more + 1)%nat) ->
     exists ps, fx_picture solve g k xss yss test_xss test_yss test_fx cols names cmu cvar = Ok ps /\
       Forall2 (fun c p => pn_title p = c /\ exists d e, named cols names c d e /\
         shows_model solve (with_mode g Precompute) k D d days p /\ shows_results days (nth e cmu []) (nth e cvar []) p /\
         pn_train p = combine (map INR (nth d xss [])) (nth d yss []) /\ pn_hold p = combine (map INR (nth d test_xss [])) (nth d test_yss [])) (firstn 3 test_fx) ps) /\
    (forall c r e, test_fx = c :: r -> nth_error names e = Some c -> length (nth e cmu []) <> (more + 1)%nat ->
     fx_picture solve g k xss yss test_xss test_yss test_fx cols names cmu cvar = Err ValueError).
Proof.
  intros HG HL HC NE Hne Ly Lt. destruct (days_ok xss NE Hne) as (a & n & Ed & H1 & H2 & H3). exists a, n. split; [exact H1|]. split; [exact H2|]. split; [exact H3|].
  cbv zeta. set (days := map INR (seq a (n + 1))).
  assert (LD : length days = (n + 1)%nat) by (unfold days; now rewrite map_length, seq_length).
  destruct (indices HC) as [ixs [Ei Fi]].
  destruct (predict_named solve g k D HG test_fx cols days HL) as (mu & var & EP & Lm & Lv & Hp).
  unfold fx_picture. rewrite Ed. cbn [bind]. fold days. rewrite Ei. cbn [bind]. rewrite EP. cbn [bind].
  destruct HC as [ND Hin Lx Ly' Ltx Lty NDn Hcg Lmu Lvar]. split.
  - intros C1 C2. apply (panels test_fx cols); [|exact Fi]. intros c d Hc Hd.
    assert (Hdlt : (d < length cols)%nat) by (apply nth_error_Some; congruence).
    destruct (In_nth_error _ _ (Hcg c Hc)) as [e He]. assert (Helt : (e < length names)%nat) by (apply nth_error_Some; congruence).
    destruct (Hp d c Hd Hc) as [P1 P2].
    rewrite (look_nth names cmu e c [] NDn Lmu He), (look_nth names cvar e c [] NDn Lvar He). cbn [bind].
    rewrite (look_nth cols mu d c [] ND (eq_trans Lm (eq_sym HL)) Hd), (look_nth cols var d c [] ND (eq_trans Lv (eq_sym HL)) Hd). cbn [bind].
    rewrite (getitem_nth test_xss d [] (eq_ind_r (fun n => (d < n)%nat) Hdlt Ltx)), (getitem_nth test_yss d [] (eq_ind_r (fun n => (d < n)%nat) Hdlt Lty)), (getitem_nth xss d [] (eq_ind_r (fun n => (d < n)%nat) Hdlt Lx)), (getitem_nth yss d [] (eq_ind_r (fun n => (d < n)%nat) Hdlt Ly')). cbn [bind].
    destruct (draw_ok c days (nth e cmu []) (nth e cvar []) (nth d mu []) (nth d var []) (map INR (nth d test_xss [])) (nth d test_yss []) (map INR (nth d xss [])) (nth d yss []))
      as (p & E & T1 & T2 & T3 & T4 & T5 & T6).
    { rewrite LD. apply C1, nth_In. rewrite Lmu. exact Helt. }
    { rewrite LD. apply C2, nth_In. rewrite Lvar. exact Helt. }
    { rewrite P1. apply map_length. }
    { rewrite P2. apply map_length. }
    { now rewrite map_length. }
    { now rewrite map_length. }
    exists p. split; [exact E|]. split; [exact T1|]. exists d, e. split; [split; assumption|]. split; [|split; [exact T2|split; assumption]].
    exact (shows_of solve g k D HG d days p (nth d mu []) (nth d var []) ltac:(rewrite <- HL; exact Hdlt) P1 P2 T3 T4).
  - intros c r e -> He Hn. inversion Fi as [|? d ? ixs' Hd _]; subst. cbn [combine firstn map_result].
    assert (Hdlt : (d < length cols)%nat) by (apply nth_error_Some; congruence).
    rewrite (look_nth names cmu e c [] NDn Lmu He), (look_nth names cvar e c [] NDn Lvar He). cbn [bind].
    rewrite (look_nth cols mu d c [] ND Lm Hd), (look_nth cols var d c [] ND Lv Hd). cbn [bind].
    rewrite (getitem_nth test_xss d [] (eq_ind_r (fun n => (d < n)%nat) Hdlt Ltx)), (getitem_nth test_yss d [] (eq_ind_r (fun n => (d < n)%nat) Hdlt Lty)), (getitem_nth xss d [] (eq_ind_r (fun n => (d < n)%nat) Hdlt Lx)), (getitem_nth yss d [] (eq_ind_r (fun n => (d < n)%nat) Hdlt Ly')). cbn [bind].
    unfold draw, plot. rewrite LD. destruct (Nat.eqb_spec (n + 1) (length (nth e cmu []))); [congruence|reflexivity].
Qed.
Print Assumptions C98_fx.

(** ** C98: the picture of the temperatures *)

(** The lines run over the training times of all sensors that lie between 10 and
    15, in increasing order and once each.  If COGP's results have one value for
    each training time of any sensor, there is a panel for each of the first
    two names and it shows: the model's predictions, as above; COGP's results at
    the times shown; the training points whose times lie between 10 and 15; all
    held-out points.  If COGP's means for the first name are for another number
    of times, there is no picture. *)
Theorem C98_weather solve g k D (xss yss test_xss test_yss : list vec) test_fx cols names cmu cvar :
  drawable solve g k D -> length cols = D -> columns test_fx cols names xss yss test_xss test_yss cmu cvar ->
  (forall d, length (nth d yss []) = length (nth d xss [])) -> (forall d, length (nth d test_yss []) = length (nth d test_xss [])) ->
  exists times, ascending times /\ (forall x, In x times <-> exists xs, In xs xss /\ In x xs) /\
    let xs := filter in_picture times in
    let kept (l : vec) := map snd (filter (fun q => in_picture (fst q)) (combine times l)) in
    ((forall mu, In mu cmu -> length mu = length times) -> (forall var, In var cvar -> length var = length times) ->
     exists ps, weather_picture solve g k xss yss test_xss test_yss test_fx cols names cmu cvar = Ok ps /\
       Forall2 (fun c p => pn_title p = c /\ exists d e, named cols names c d e /\
         shows_model solve (with_mode g Precompute) k D d xs p /\ shows_results xs (kept (nth e cmu [])) (kept (nth e cvar [])) p /\
         pn_train p = filter (fun q => in_picture (fst q)) (combine (nth d xss []) (nth d yss [])) /\
         pn_hold p = combine (nth d test_xss []) (map Some (nth d test_yss []))) (firstn 2 test_fx) ps) /\
    (forall c r e, test_fx = c :: r -> nth_error names e = Some c -> length (nth e cmu []) <> length times ->
     weather_picture solve g k xss yss test_xss test_yss test_fx cols names cmu cvar = Err IndexError).
Proof.
  intros HG HL HC Ly Lt. exists (levels (List.concat xss)). set (ts := levels (List.concat xss)). split; [apply levels_asc|]. split.
  { intros x. unfold ts. rewrite levels_in, in_concat. reflexivity. }
  cbv zeta. assert (ES : forall x, shown x = in_picture x).
  { intros x. unfold shown, in_picture. destruct (Rle_dec 10 x), (Rlt_dec x 10), (Rle_dec x 15), (Rlt_dec 15 x); try reflexivity; lra. }
  assert (EM : forall l, map shown l = map in_picture l) by (intros l; apply map_ext; exact ES).
  destruct (indices HC) as [ixs [Ei Fi]]. set (xs := filter in_picture ts).
  destruct (predict_named solve g k D HG test_fx cols xs HL) as (mu & var & EP & Lm & Lv & Hp).
  unfold weather_picture. fold ts. rewrite EM, Ei, mask_self. cbn [bind]. fold xs. rewrite EP. cbn [bind].
  destruct HC as [ND Hin Lx Ly' Ltx Lty NDn Hcg Lmu Lvar]. split.
  - intros C1 C2. apply (panels test_fx cols); [|exact Fi]. intros c d Hc Hd.
    assert (Hdlt : (d < length cols)%nat) by (apply nth_error_Some; congruence).
    destruct (In_nth_error _ _ (Hcg c Hc)) as [e He]. assert (Helt : (e < length names)%nat) by (apply nth_error_Some; congruence).
    destruct (Hp d c Hd Hc) as [P1 P2].
    assert (K1 : length (nth e cmu []) = length ts) by (apply C1, nth_In; rewrite Lmu; exact Helt).
    assert (K2 : length (nth e cvar []) = length ts) by (apply C2, nth_In; rewrite Lvar; exact Helt).
    rewrite (look_nth names cmu e c [] NDn Lmu He), (look_nth names cvar e c [] NDn Lvar He). cbn [bind]. rewrite !mask_map by assumption. cbn [bind].
    rewrite (look_nth cols mu d c [] ND (eq_trans Lm (eq_sym HL)) Hd), (look_nth cols var d c [] ND (eq_trans Lv (eq_sym HL)) Hd). cbn [bind].
    rewrite (getitem_nth test_xss d [] (eq_ind_r (fun n => (d < n)%nat) Hdlt Ltx)), (getitem_nth test_yss d [] (eq_ind_r (fun n => (d < n)%nat) Hdlt Lty)), (getitem_nth xss d [] (eq_ind_r (fun n => (d < n)%nat) Hdlt Lx)), (getitem_nth yss d [] (eq_ind_r (fun n => (d < n)%nat) Hdlt Ly')). cbn [bind].
    rewrite EM, mask_self. cbn [bind]. rewrite mask_map by apply Ly. cbn [bind].
    match goal with |- exists p, draw _ _ ?cm ?cv _ _ _ _ _ ?ry = _ /\ _ =>
      destruct (draw_ok c xs cm cv (nth d mu []) (nth d var []) (nth d test_xss []) (map Some (nth d test_yss [])) (filter in_picture (nth d xss [])) ry)
      as (p & E & T1 & T2 & T3 & T4 & T5 & T6) end.
    { now apply filter_mask_length. }
    { now apply filter_mask_length. }
    { rewrite P1. apply map_length. }
    { rewrite P2. apply map_length. }
    { rewrite map_length. apply Lt. }
    { apply filter_mask_length, Ly. }
    exists p. split; [exact E|]. split; [exact T1|]. exists d, e. split; [split; assumption|]. split; [|split; [exact T2|split; [|exact T5]]].
    + exact (shows_of solve g k D HG d xs p (nth d mu []) (nth d var []) ltac:(rewrite <- HL; exact Hdlt) P1 P2 T3 T4).
    + rewrite T6. apply filter_combine_split, Ly.
  - intros c r e -> He Hn. inversion Fi as [|? d ? ixs' Hd _]; subst. cbn [combine firstn map_result].
    rewrite (look_nth names cmu e c [] NDn Lmu He). cbn [bind].
    unfold mask at 1. rewrite map_length. destruct (Nat.eqb_spec (length (nth e cmu [])) (length ts)); [contradiction|reflexivity].
Qed.
Print Assumptions C98_weather.

(** The points held out of a sensor's data over an interval between 10 and 15,
    as both intervals of the benchmark are, all lie in the part shown, and at no
    time of theirs is there a training point. *)
Theorem C98_holdout_shown x y na lo hi rx ry tx ty : 10 <= lo -> hi <= 15 ->
  weather_split x y na (Some (lo, hi)) = Ok (rx, ry, (tx, ty)) ->
  length ty = length tx /\ length ry = length rx /\ forall t, In t tx -> 10 <= t <= 15 /\ ~ In t rx.
Proof.
  intros Hlo Hhi E. unfold weather_split in E. cbv zeta in E.
  repeat match type of E with (if ?b then _ else _) = _ => destruct b; [discriminate E|] end.
  apply Ok_inj in E. injection E as <- <- <- <-. rewrite !map_length. split; [reflexivity|]. split; [reflexivity|].
  intros t Ht. apply in_map_iff in Ht. destruct Ht as [[t' v] [<- Ht]]. apply filter_In in Ht. destruct Ht as [_ Ht]. cbn [fst] in *.
  destruct (Rle_dec lo t') as [A|A]; [|discriminate Ht]. destruct (Rle_dec t' hi) as [B|B]; [|discriminate Ht]. split; [lra|].
  intros C. apply in_map_iff in C. destruct C as [[t2 v2] [E2 C]]. apply filter_In in C. destruct C as [_ C]. cbn [fst] in *. subst t2.
  destruct (Rle_dec lo t'); [|contradiction]. destruct (Rle_dec t' hi); [discriminate C|contradiction].
Qed.
Print Assumptions C98_holdout_shown.

(** ** C98: what the bands mean *)

(** Two standard deviations around the mean carry between 95 and 96 percent of
    the normal distribution with the variance shown, so the bands are the "95%"
    of the titles, not more than a hundredth off. *)
Theorem C98_band solve g k D d xs p : shows_model solve g k D d xs p ->
  forall x lo hi, In (x, lo, hi) (pn_band p) -> exists m v l h, lo = Some l /\ hi = Some h /\ predicts solve g k D d x m v /\ In (x, m) (pn_mean p) /\ l <= m <= h /\
    (0 < v -> exists pr : Riemann_integrable (normal_pdf m v) l h, 95 / 100 <= RiemannInt pr <= 96 / 100).
Proof.
  intros (m & v & H & E1 & E2) x lo hi Hin. rewrite E2 in Hin. apply in_map_iff in Hin. destruct Hin as [x' [E Hx]]. injection E as -> <- <-.
  exists (m x), (v x), (m x - 2 * sqrt (v x)), (m x + 2 * sqrt (v x)). split; [reflexivity|]. split; [reflexivity|]. split; [now apply H|]. split.
  { rewrite E1. apply in_map_iff. now exists x. }
  split; [pose proof (sqrt_pos (v x)); lra|]. intros Hv. exact (mass_integral (m x) (v x) Hv).
Qed.
Print Assumptions C98_band.

(** ** Examples *)

Lemma Forall2_one {A B} (Q : A -> B -> Prop) c ps : Forall2 Q [c] ps -> exists p, ps = [p] /\ Q c p.
Proof. intros H. inversion H as [|? p ? l Hp Hl]. inversion Hl. now exists p. Qed.

(** The rates of two currencies over 15 days, given on few of them. *)
Definition pc_a : list npf := tab 15 (fun i => match i with 2%nat => Some 1 | 3%nat => Some 5 | 11%nat => Some 2 | 14%nat => Some 4 | _ => None end).
Definition pc_b : list npf := tab 15 (fun i => match i with 2%nat => Some 1 | 12%nat => Some 5 | 14%nat => Some 4 | _ => None end).
Definition pc_xss : list (list nat) := [[2; 11; 14]; [2; 12; 14]]%nat.
Definition pc_yss : list vec := [[/ 1; / 2; / 4]; [/ 1; / 5; / 4]].
Definition pc_Xs : list ndarr := map (fun l => arr1 (map INR l)) pc_xss.
Definition pc_Ys : list ndarr := map arr1 pc_yss.

Lemma pc_data : (forall X, In X pc_Xs -> length (a_data X) = nprod (a_shape X)) /\ (forall Y, In Y pc_Ys -> length (a_data Y) = nprod (a_shape Y)) /\
  valid_data pc_Xs pc_Ys /\ (forall X, In X pc_Xs -> width X = 1%nat) /\ (forall Y, In Y pc_Ys -> a_data Y <> []).
Proof.
  split; [intros X [<-|[<-|[]]]; reflexivity|]. split; [intros X [<-|[<-|[]]]; reflexivity|].
  split; [|split; [intros X [<-|[<-|[]]]; reflexivity|intros X [<-|[<-|[]]]; discriminate]].
  split; [discriminate|]. split; [constructor; [|constructor; [|constructor]]; exists 3%nat; (split; [|reflexivity]); left; reflexivity|].
  split; [exists 1%nat; intros X [<-|[<-|[]]]; reflexivity|]. intros Y [<-|[<-|[]]]; right; [exists (/ 1), (/ 2)|exists (/ 1), (/ 5)]; cbn; repeat split; auto; lra.
Qed.

Lemma pc_args ad : ad = [0%nat] -> grid_args_ok 1 pc_Xs (map (fun Y => length (a_data Y)) pc_Ys) (GNum 0) (GNum 20) (GNum 2%nat) ad.
Proof.
  intros ->. constructor; cbn; auto.
  - intros d [<-|[]]. lia.
  - intros d k [<-|[]] E. injection E as <-. lia.
  - intros d [<-|[]]. exists 0, 20. split; [lra|]. split; right; reflexivity.
Qed.

Lemma pc_model : exists f g solve k, gp_init pc_Xs pc_Ys true (GNum 0) (GNum 20) (GNum 2%nat) (Some OnTheFly) (Some f) = Ok g /\ drawable solve g k 2.
Proof.
  destruct pos_rbf as [P1 [P2 _]].
  destruct (ex_f (RBF 1) (Matern32 2) None None) as [f|] eqn:E; [|discriminate E].
  assert (Hr : reach f) by (eapply reach_init; exact E).
  destruct (set_input_dim f 1) as [f'|] eqn:E'.
  2:{ cbv -[IZR Rmult Rinv Rplus Rdiv Ropp] in E. apply Ok_inj in E. subst f. discriminate E'. }
  assert (Hr' : reach f') by (eapply reach_dim; eassumption).
  cbv -[IZR Rmult Rinv Rplus Rdiv Ropp] in E. apply Ok_inj in E.
  assert (Ef : f' = match set_input_dim f 1 with Ok x => x | _ => f' end) by now rewrite E'.
  rewrite <- E in Ef. cbv -[IZR Rmult Rinv Rplus Rdiv Ropp] in Ef.
  assert (HP : f_P f' = Some 1%nat) by (rewrite Ef; reflexivity).
  assert (HA : f_active f' = [([0%nat], seq 0 (f_Q f'))]) by (rewrite Ef; reflexivity).
  assert (HQ : forall q, (q < 2)%nat -> qdims f' q = [0%nat]) by (intros [|[|q]] Hq; [rewrite Ef; reflexivity|rewrite Ef; reflexivity|lia]).
  destruct pc_data as [WX [WY [VD [HW NE]]]].
  assert (Hk : kernels_ok f) by (intros q Hq; rewrite <- E in *; cbn in Hq; destruct q as [|[|q]]; [split; [exact P1|exact I]|split; [exact P2|exact I]|lia]).
  assert (Hp : proper f').
  { constructor.
    - intros q Hq _. rewrite HQ; [reflexivity|]. rewrite Ef in Hq. exact Hq.
    - intros q a Hq Ha. rewrite Ef in *. cbn in Hq, Ha. destruct q as [|[|q]]; [| |lia]; destruct a as [|[|a]]; try lia; cbn; lra.
    - intros a Ha. rewrite Ef in *. cbn in Ha. destruct a as [|[|a]]; [| |lia]; cbn; lra. }
  destruct (ex_model 1 pc_Xs pc_Ys (GNum 0) (GNum 20) (GNum 2%nat) OnTheFly f f' WX WY VD HW NE (le_n 1) Hr Hk) as [g [solve [bits [k [d H]]]]]; auto.
  { rewrite <- E. reflexivity. }
  { intros ad Had. apply pc_args. exact (ex_single f' HA Hr' HP ad Had). }
  destruct H as (Eg & HR & Egf & Em & Hs & Hf & Ed & Egd & EP).
  exists f, g, solve, k. split; [exact Eg|]. constructor.
  - now exists (GNum 0), (GNum 20), (GNum 2%nat).
  - now exists bits, 1%nat.
  - exact (proj1 (proj2 (fit_solver g _ _ _ HR _ _ _ _ Hf Hs))).
  - rewrite Egf. intros q Hq. rewrite Ef in *. cbn in Hq. destruct q as [|[|q]]; [reflexivity|reflexivity|lia].
  - now rewrite Egd.
  - rewrite Egf. intros q Hq. apply HQ. rewrite Ef in Hq. exact Hq.
  - rewrite Egf, Ef. reflexivity.
Qed.

Open Scope string_scope.
Definition pc_cols := ["CAD"; "EUR"].
Definition pc_test : list (list nat) := [[3; 4]; []]%nat.
Definition pc_testy : list (list npf) := [[Some (/ 5); None]; []].

Lemma pc_split : fx_split pc_a 3 5 = (nth 0 pc_xss [], map Some (nth 0 pc_yss []), (nth 0 pc_test [], nth 0 pc_testy [])) /\
  fx_split pc_b 0 0 = (nth 1 pc_xss [], map Some (nth 1 pc_yss []), (nth 1 pc_test [], nth 1 pc_testy [])).
Proof. split; cbv -[Rinv IZR Req_EM_T]; repeat (match goal with |- context [Req_EM_T ?a ?b] => destruct (Req_EM_T a b); [lra|] end); reflexivity. Qed.

Lemma pc_columns n : columns ["CAD"] pc_cols ["CAD"] pc_xss pc_yss pc_test pc_testy [repeat 1 n] [repeat 1 n].
Proof. constructor; cbn; auto; try (intros c [<-|[]]; now left); repeat constructor; cbn; intuition discriminate. Qed.

(** Is there always a picture when COGP's results are for every day of the data?
    No: in the following data, no rate is given on the first two days, so the
    lines are for 13 days and the results for 15. *)
Theorem C98_days_refuted : exists a b xss yss test_xss test_yss f g solve k cols test_fx cmu cvar,
  List.length a = 15%nat /\ List.length b = 15%nat /\
  fx_split a 3 5 = (nth 0 xss [], map Some (nth 0 yss []), (nth 0 test_xss [], nth 0 test_yss [])) /\
  fx_split b 0 0 = (nth 1 xss [], map Some (nth 1 yss []), (nth 1 test_xss [], nth 1 test_yss [])) /\
  gp_init (map (fun l => arr1 (map INR l)) xss) (map arr1 yss) true (GNum 0) (GNum 20) (GNum 2%nat) (Some OnTheFly) (Some f) = Ok g /\
  drawable solve g k 2 /\ columns test_fx cols test_fx xss yss test_xss test_yss cmu cvar /\
  (forall mu, In mu cmu -> List.length mu = 15%nat) /\ (forall var, In var cvar -> List.length var = 15%nat) /\
  fx_picture solve g k xss yss test_xss test_yss test_fx cols test_fx cmu cvar = Err ValueError.
Proof.
  destruct pc_model as (f & g & solve & k & Eg & HG).
  exists pc_a, pc_b, pc_xss, pc_yss, pc_test, pc_testy, f, g, solve, k, pc_cols, ["CAD"], [repeat 1 15], [repeat 1 15].
  split; [reflexivity|]. split; [reflexivity|]. destruct pc_split as [S1 S2]. split; [exact S1|]. split; [exact S2|]. split; [exact Eg|]. split; [exact HG|]. split; [apply pc_columns|].
  split; [intros l [<-|[]]; apply repeat_length|]. split; [intros l [<-|[]]; apply repeat_length|].
  destruct (C98_fx solve g k 2 pc_xss pc_yss pc_test pc_testy ["CAD"] pc_cols ["CAD"] [repeat 1 15] [repeat 1 15] HG eq_refl (pc_columns 15)) as (a & n & A1 & A2 & A3 & _ & H).
  - discriminate.
  - intros xs [<-|[<-|[]]]; discriminate.
  - intros [|[|[|d]]]; reflexivity.
  - intros [|[|[|d]]]; reflexivity.
  - apply (H "CAD" [] 0%nat); [reflexivity|reflexivity|]. cbn. destruct A1 as (xs & X1 & X2).
    assert (a >= 2)%nat by (destruct X1 as [<-|[<-|[]]]; cbn in X2; lia). destruct A2 as (ys & Y1 & Y2).
    assert (a + n <= 14)%nat by (destruct Y1 as [<-|[<-|[]]]; cbn in Y2; lia). lia.
Qed.
Print Assumptions C98_days_refuted.

(** The same data with results for the 13 days: a picture of one panel, with the
    training points and the held-out points of the first currency. *)
Example C98_fx_ex : exists solve g k p, drawable solve g k 2 /\
  fx_picture solve g k pc_xss pc_yss pc_test pc_testy ["CAD"] pc_cols ["CAD"] [repeat 1 13] [repeat 1 13] = Ok [p] /\
  pn_title p = "CAD" /\ List.length (pn_mean p) = 13%nat /\ pn_hold p = [(INR 3, Some (/ 5)); (INR 4, None)] /\
  pn_train p = [(INR 2, / 1); (INR 11, / 2); (INR 14, / 4)].
Proof.
  destruct pc_model as (f & g & solve & k & Eg & HG). exists solve, g, k.
  destruct (C98_fx solve g k 2 pc_xss pc_yss pc_test pc_testy ["CAD"] pc_cols ["CAD"] [repeat 1 13] [repeat 1 13] HG eq_refl (pc_columns 13)) as (a & n & A1 & A2 & A3 & H & _).
  - discriminate.
  - intros xs [<-|[<-|[]]]; discriminate.
  - intros [|[|[|d]]]; reflexivity.
  - intros [|[|[|d]]]; reflexivity.
  - assert (a = 2 /\ n = 12)%nat as [-> ->].
    { destruct A1 as (xs & X1 & X2). assert (a >= 2)%nat by (destruct X1 as [<-|[<-|[]]]; cbn in X2; lia). destruct A2 as (ys & Y1 & Y2).
      assert (a + n <= 14)%nat by (destruct Y1 as [<-|[<-|[]]]; cbn in Y2; lia).
      pose proof (A3 _ 2%nat (or_introl eq_refl) (or_introl eq_refl)). pose proof (A3 _ 14%nat (or_introl eq_refl) (or_intror (or_intror (or_introl eq_refl)))). lia. }
    destruct H as [ps [E F]]; [intros l [<-|[]]; reflexivity|intros l [<-|[]]; reflexivity|].
    destruct (Forall2_one _ _ _ F) as (p & -> & T & d & e & [Nd Ne] & (mm & vv & _ & SM & _) & _ & Tr & Ho).
    exists p. split; [exact HG|]. split; [exact E|]. split; [exact T|]. split; [rewrite SM, map_length; reflexivity|].
    assert (d = 0)%nat by (destruct d as [|[|[|d]]]; [reflexivity|discriminate Nd|discriminate Nd|discriminate Nd]). subst d.
    split; [exact Ho|exact Tr].
Qed.

(** Temperatures at the times 2, 11, 14 and 2, 12, 14: only 11, 12 and 14 are
    shown. *)
Definition pc_times : list vec := map (map INR) pc_xss.
Example C98_weather_ex : exists solve g k p, drawable solve g k 2 /\
  weather_picture solve g k pc_times pc_yss [[13]; []] [[7]; []] ["cam"] ["cam"; "chi"] ["cam"] [repeat 1 4] [repeat 1 4] = Ok [p] /\
  pn_title p = "cam" /\ map fst (pn_mean p) = map fst (pn_cogp p) /\ (forall x, In x (map fst (pn_mean p)) <-> x = INR 11 \/ x = INR 12 \/ x = INR 14) /\
  pn_hold p = [(13, Some 7)] /\ pn_train p = [(INR 11, / 2); (INR 14, / 4)].
Proof.
  destruct pc_model as (f & g & solve & k & Eg & HG). exists solve, g, k.
  assert (HC : columns ["cam"] ["cam"; "chi"] ["cam"] pc_times pc_yss [[13]; []] [[7]; []] [repeat 1 4] [repeat 1 4]).
  { constructor; cbn; auto; try (intros c [<-|[]]; now left); repeat constructor; cbn; intuition discriminate. }
  destruct (C98_weather solve g k 2 pc_times pc_yss [[13]; []] [[7]; []] ["cam"] ["cam"; "chi"] ["cam"] [repeat 1 4] [repeat 1 4] HG eq_refl HC) as (ts & A1 & A2 & H & _).
  - intros [|[|[|d]]]; reflexivity.
  - intros [|[|[|d]]]; reflexivity.
  - assert (V : INR 2 = 2 /\ INR 11 = 11 /\ INR 12 = 12 /\ INR 14 = 14) by (cbn; lra). destruct V as (V1 & V2 & V3 & V4).
    assert (IN : forall x, In x ts <-> x = INR 2 \/ x = INR 11 \/ x = INR 12 \/ x = INR 14).
    { intros x. rewrite A2. unfold pc_times, pc_xss. cbn [map]. split.
      - intros (l & Hq & Hl); destruct Hq as [<-|[<-|[]]]; cbn [In] in Hl; intuition.
      - intros [->|[->|[->| ->]]]; [exists [INR 2; INR 11; INR 14]|exists [INR 2; INR 11; INR 14]|exists [INR 2; INR 12; INR 14]|exists [INR 2; INR 12; INR 14]]; split; cbn [In]; auto. }
    assert (LT : List.length ts = 4%nat).
    { pose proof (asc_NoDup ts A1) as ND. assert (ND2 : NoDup [INR 2; INR 11; INR 12; INR 14]).
      { rewrite V1, V2, V3, V4. repeat constructor; cbn [In]; intros C; intuition lra. }
      apply Nat.le_antisymm; [change 4%nat with (List.length [INR 2; INR 11; INR 12; INR 14])|change 4%nat with (List.length [INR 2; INR 11; INR 12; INR 14])];
        apply NoDup_incl_length; try assumption; intros x Hx; [apply IN in Hx; cbn [In]; intuition|apply IN; cbn [In] in Hx; intuition]. }
    destruct H as [ps [E F]]; [intros l [<-|[]]; now rewrite LT|intros l [<-|[]]; now rewrite LT|].
    destruct (Forall2_one _ _ _ F) as (p & -> & T & d & e & [Nd Ne] & (mm & vv & _ & SM & _) & [SR _] & Tr & Ho).
    assert (d = 0)%nat by (destruct d as [|[|[|d]]]; [reflexivity|discriminate Nd|discriminate Nd|discriminate Nd]). subst d.
    assert (e = 0)%nat by (destruct e as [|[|e]]; [reflexivity|discriminate Ne|discriminate Ne]). subst e.
    assert (W : in_picture (INR 2) = false /\ in_picture (INR 11) = true /\ in_picture (INR 12) = true /\ in_picture (INR 14) = true).
    { rewrite V1, V2, V3, V4. unfold in_picture.
      repeat split; repeat match goal with |- context [Rlt_dec ?a ?b] => destruct (Rlt_dec a b) end; try reflexivity; lra. }
    destruct W as (W1 & W2 & W3 & W4).
    assert (M1 : map fst (pn_mean p) = filter in_picture ts) by (rewrite SM, map_map; apply map_id).
    exists p. split; [exact HG|]. split; [exact E|]. split; [exact T|]. split; [|split; [|split; [exact Ho|]]].
    + rewrite M1, SR. cbn [nth]. symmetry.
      assert (CF : forall (l : vec) (b : vec), List.length b = List.length l -> map fst (combine l b) = l).
      { clear. induction l as [|x l IH]; intros [|y b] H; try discriminate H; [reflexivity|]. cbn. f_equal. apply IH. now injection H. }
      apply CF. apply filter_mask_length. now rewrite LT.
    + intros x. rewrite M1, filter_In, IN. split; [intros [[->|H] Hx]; [rewrite W1 in Hx; discriminate Hx|exact H]|intros [->|[->| ->]]; rewrite ?W2, ?W3, ?W4; auto].
    + rewrite Tr. unfold pc_times, pc_xss, pc_yss. cbn [map nth combine filter fst]. rewrite W1, W2, W4. reflexivity.
Qed.
