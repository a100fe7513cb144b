(** Change of the units of the outputs. *)

From Coq Require Import Reals List Arith ZArith Lia Lra.
From Verif Require Import Base NDArray Model_Util Model_Linalg Model_Interp Model_Kern Model_FK Model_Grid Model_Lik Model_GP.
From Verif Require Import Spec_Units Proofs_Grid Proofs_Linalg Proofs_Units.
Import ListNotations.
Open Scope R_scope.

(** [each] from index [off]. *)
Definition eachf {A B} (off : nat) (h : nat -> A -> B) (l : list A) : list B := map (fun p => h (fst p) (snd p)) (combine (seq off (length l)) l).
Lemma each_eq {A B} (h : nat -> A -> B) l : each h l = eachf 0 h l.
Proof. reflexivity. Qed.
Lemma eachf_cons {A B} off (h : nat -> A -> B) x l : eachf off h (x :: l) = h off x :: eachf (S off) h l.
Proof. reflexivity. Qed.
Lemma eachf_len {A B} off (h : nat -> A -> B) l : length (eachf off h l) = length l.
Proof. unfold eachf. rewrite map_length, combine_length, seq_length. lia. Qed.

Definition aff_v (c b : R) (Y : vec) : vec := map (fun y => c * y + b) Y.

Lemma lsum_aff c b Y : lsum (aff_v c b Y) = c * lsum Y + INR (length Y) * b.
Proof.
  unfold aff_v. rewrite lsum_map_plus, Proofs_Grid.lsum_map_scal, map_id. f_equal.
  induction Y as [|y Y IH]; [cbn; ring|]. cbn [map length]. change (lsum (b :: map (fun _ => b) Y)) with (b + lsum (map (fun _ => b) Y)). rewrite IH, S_INR. ring.
Qed.
Lemma INR_len (Y : vec) : Y <> [] -> INR (length Y) <> 0.
Proof. intros H. apply not_0_INR. destruct Y; cbn; [easy|lia]. Qed.

Lemma np_mean_aff c b Y : Y <> [] -> np_mean (aff_v c b Y) = c * np_mean Y + b.
Proof. intros H. unfold np_mean. rewrite lsum_aff. unfold aff_v at 1. rewrite map_length. field. now apply INR_len. Qed.
Lemma np_std_aff c b Y : 0 < c -> Y <> [] -> np_std (aff_v c b Y) = c * np_std Y.
Proof.
  intros Hc H. unfold np_std, np_var. rewrite np_mean_aff by easy. unfold aff_v. rewrite map_map, map_length.
  rewrite (map_ext _ (fun y => (c * c) * ((y - np_mean Y) * (y - np_mean Y)))) by (intros; ring). rewrite Proofs_Grid.lsum_map_scal.
  unfold Rdiv. rewrite Rmult_assoc, sqrt_mult_alt by nra. now rewrite sqrt_square by lra.
Qed.

Definition norm_units (c b : R) (n : norm) : norm := mk_norm (c * n_mean n + b) (c * n_std n).

Lemma scale_by_aff c b Y : 0 < c -> Y <> [] -> scale_by (aff_v c b Y) = norm_units c b (scale_by Y).
Proof. intros Hc H. unfold scale_by, norm_units. cbn [n_mean n_std]. now rewrite np_mean_aff, np_std_aff. Qed.
Lemma normalize_aff c b n Y : c <> 0 -> normalize (Some (norm_units c b n)) (aff_v c b Y) = normalize (Some n) Y.
Proof.
  intros Hc. cbn. f_equal. unfold aff_v. rewrite map_map. apply map_ext. intros y. unfold norm_units. cbn [n_mean n_std]. unfold Rdiv. rewrite Rinv_mult.
  replace ((c * y + b - (c * n_mean n + b)) * (/ c * / n_std n)) with ((c * / c) * ((y - n_mean n) * / n_std n)) by ring. rewrite Rinv_r by easy. ring.
Qed.
Lemma zero_std_aff c b Y : 0 < c -> zero_std (aff_v c b Y) = zero_std Y.
Proof.
  intros Hc. destruct Y as [|y Y]; [reflexivity|]. unfold zero_std. unfold aff_v at 1. cbn [map].
  rewrite (np_std_aff c b (y :: Y)) by easy. destruct (Req_EM_T (c * np_std (y :: Y)) 0), (Req_EM_T (np_std (y :: Y)) 0); try reflexivity; exfalso; nra.
Qed.

Definition ou (c b : nat -> R) (d : nat) (Y : ndarr) : ndarr := mk_arr (a_shape Y) (map (fun y => c d * y + b d) (a_data Y)).

Lemma pairs_out c b Xs : forall Ys off, map_result validate_pair (combine Xs (eachf off (ou c b) Ys)) = map_result validate_pair (combine Xs Ys).
Proof.
  induction Xs as [|X Xs IH]; intros [|Y Ys] off; try reflexivity. rewrite eachf_cons. cbn [combine map_result]. rewrite IH. reflexivity.
Qed.
Lemma zero_out c b : (forall d, 0 < c d) -> forall Ys off, existsb (fun Y => zero_std (a_data Y)) (eachf off (ou c b) Ys) = existsb (fun Y => zero_std (a_data Y)) Ys.
Proof.
  intros Hc. induction Ys as [|Y Ys IH]; intros off; [reflexivity|]. rewrite eachf_cons. cbn [existsb]. rewrite IH. f_equal. apply zero_std_aff. apply Hc.
Qed.
Lemma validate_out c b Xs Ys : (forall d, 0 < c d) -> validate_io Xs (out_units c b Ys) = validate_io Xs Ys.
Proof.
  intros Hc. unfold out_units. rewrite each_eq. change (fun d Y => mk_arr (a_shape Y) (map (fun y => c d * y + b d) (a_data Y))) with (ou c b).
  unfold validate_io. destruct Xs as [|X Xs]; [reflexivity|]. rewrite eachf_len, pairs_out, (zero_out c b Hc). reflexivity.
Qed.

Lemma norms_out c b : (forall d, 0 < c d) -> forall Ys off, (forall Y, In Y Ys -> a_data Y <> []) ->
  map scale_by (map a_data (eachf off (ou c b) Ys)) = eachf off (fun d => norm_units (c d) (b d)) (map scale_by (map a_data Ys)).
Proof.
  intros Hc. induction Ys as [|Y Ys IH]; intros off H; [reflexivity|]. rewrite eachf_cons. cbn [map]. rewrite eachf_cons, <- IH by (intros; apply H; now right).
  f_equal. apply scale_by_aff; [apply Hc|]. apply H. now left.
Qed.
Lemma normalized_out c b : (forall d, 0 < c d) -> forall Ys off ns,
  map_result (fun nY => normalize (Some (fst nY)) (snd nY)) (combine (eachf off (fun d => norm_units (c d) (b d)) ns) (map a_data (eachf off (ou c b) Ys))) =
  map_result (fun nY => normalize (Some (fst nY)) (snd nY)) (combine ns (map a_data Ys)).
Proof.
  intros Hc. induction Ys as [|Y Ys IH]; intros off [|n ns]; try reflexivity. rewrite !eachf_cons. cbn [map combine map_result fst snd].
  pose proof (normalize_aff (c off) (b off) n (a_data Y)) as E. unfold aff_v in E. cbn [ou a_data]. rewrite E by (specialize (Hc off); lra). rewrite IH. reflexivity.
Qed.

Definition multi_out (c b : nat -> R) (d : multigp) : multigp :=
  mk_multi (mg_P d) (mg_D d) (option_map (each (fun d => norm_units (c d) (b d))) (mg_norm d)) (mg_Ys d) (mg_Xs d).

Lemma multigp_init_out c b Xs Ys : (forall d, 0 < c d) -> (forall Y, In Y Ys -> a_data Y <> []) ->
  multigp_init Xs (out_units c b Ys) true = rmap (multi_out c b) (multigp_init Xs Ys true).
Proof.
  intros Hc H. unfold multigp_init. rewrite validate_out by easy. destruct (validate_io Xs Ys) as [[P D]|]; [|reflexivity]. cbn [bind]. cbv beta zeta iota.
  unfold out_units. rewrite each_eq. change (fun d Y => mk_arr (a_shape Y) (map (fun y => c d * y + b d) (a_data Y))) with (ou c b).
  rewrite (norms_out c b Hc Ys 0 H), (normalized_out c b Hc). destruct (map_result _ (combine _ _)) as [ys|]; [|reflexivity]. cbn [bind].
  destruct (pad_dims P Xs); reflexivity.
Qed.

Definition gp_out (c b : nat -> R) (g : gp) : gp := mk_gp (multi_out c b (gp_data g)) (gp_f g) (gp_grids g) (gp_mode g).

Lemma gp_init_out c b Xs Ys lo hi m pred fk : (forall d, 0 < c d) -> (forall Y, In Y Ys -> a_data Y <> []) ->
  gp_init Xs (out_units c b Ys) true lo hi m pred fk = rmap (gp_out c b) (gp_init Xs Ys true lo hi m pred fk).
Proof.
  intros Hc H. unfold gp_init. rewrite multigp_init_out by easy. destruct (multigp_init Xs Ys true) as [d|]; [|reflexivity]. cbn [rmap bind].
  destruct fk as [f|]; [|reflexivity]. destruct pred as [md|]; [|reflexivity]. change (mg_P (multi_out c b d)) with (mg_P d). change (mg_Xs (multi_out c b d)) with (mg_Xs d).
  destruct (set_input_dim f (mg_P d)) as [f'|]; [|reflexivity]. cbn [bind]. now destruct (generate_grids f' (mg_Xs d) lo hi m).
Qed.

Lemma gp_init_norm Xs Ys lo hi m pred fk g : gp_init Xs Ys true lo hi m pred fk = Ok g -> exists ns, mg_norm (gp_data g) = Some ns.
Proof.
  unfold gp_init, multigp_init. destruct (validate_io Xs Ys) as [[P D]|]; [|discriminate]. cbn [bind]. cbv beta zeta iota.
  destruct (map_result _ (combine _ _)) as [ys|]; [|discriminate]. cbn [bind]. destruct (pad_dims P Xs) as [xs|]; [|discriminate]. cbn [bind].
  destruct fk as [f|]; [|discriminate]. destruct pred as [md|]; [|discriminate]. cbn [mg_P mg_Xs]. destruct (set_input_dim f P) as [f'|]; [|discriminate]. cbn [bind].
  destruct (generate_grids f' xs lo hi m); [|discriminate]. cbn [bind]. intros H. injection H as <-. cbn. eauto.
Qed.

Lemma inverse_mean_out c b n v : inverse_mean (norm_units c b n) v = map (fun x => c * x + b) (inverse_mean n v).
Proof. unfold inverse_mean. rewrite map_map. apply map_ext. intros x. cbn. ring. Qed.
Lemma inverse_variance_out c b n v : inverse_variance (norm_units c b n) v = map (fun x => c ^ 2 * x) (inverse_variance n v).
Proof. unfold inverse_variance. rewrite map_map. apply map_ext. intros x. cbn. ring. Qed.

Lemma each_combine {A B C} (hn : nat -> A -> A) (ho : nat -> C -> C) (k : A -> B -> C) : (forall d x y, k (hn d x) y = ho d (k x y)) ->
  forall ns l off, map (fun p => k (fst p) (snd p)) (combine (eachf off hn ns) l) = eachf off ho (map (fun p => k (fst p) (snd p)) (combine ns l)).
Proof.
  intros H. induction ns as [|n ns IH]; intros [|x l] off; try reflexivity. rewrite eachf_cons. cbn [combine map fst snd]. rewrite eachf_cons, IH, H. reflexivity.
Qed.

Definition preds_out (c b : nat -> R) (r : list vec * list vec) : list vec * list vec :=
  (each (fun d => map (fun x => c d * x + b d)) (fst r), each (fun d => map (fun x => c d ^ 2 * x)) (snd r)).

Lemma raw_predict_out c b solve g k Xs : raw_predict solve (gp_out c b g) k Xs = raw_predict solve g k Xs.
Proof. destruct g as [[? ? ? ? ?] ? ? ?]. reflexivity. Qed.
Lemma parameters_changed_out c b solve bits n_it g old : parameters_changed solve bits n_it (gp_out c b g) old = parameters_changed solve bits n_it g old.
Proof. destruct g as [[? ? ? ? ?] ? ? ?]. reflexivity. Qed.
Lemma log_likelihood_out c b g k : gp_log_likelihood (gp_out c b g) k = gp_log_likelihood g k.
Proof. destruct g as [[? ? ? ? ?] ? ? ?]. reflexivity. Qed.

Lemma predict_norm_out c b solve g k Xs : gp_predict_norm solve (gp_out c b g) k Xs false = gp_predict_norm solve g k Xs false.
Proof.
  unfold gp_predict_norm. cbv zeta. rewrite raw_predict_out. change (mg_D (gp_data (gp_out c b g))) with (mg_D (gp_data g)). change (mg_P (gp_data (gp_out c b g))) with (mg_P (gp_data g)).
  destruct (negb _); [reflexivity|]. destruct (negb _); [reflexivity|]. destruct (raw_predict solve g k Xs) as [[mu var]|]; [|reflexivity]. cbn [bind].
  cbn [gp_out gp_data multi_out mg_norm]. destruct (mg_norm (gp_data g)); reflexivity.
Qed.

Lemma predict_out c b solve g k Xs ns : mg_norm (gp_data g) = Some ns ->
  gp_predict solve (gp_out c b g) k Xs = rmap (preds_out c b) (gp_predict solve g k Xs).
Proof.
  intros N. unfold gp_predict. change (mg_P (gp_data (gp_out c b g))) with (mg_P (gp_data g)). destruct (pad_dims (mg_P (gp_data g)) Xs) as [Zs|]; [|reflexivity]. cbn [bind].
  unfold gp_predict_norm. cbv zeta. rewrite raw_predict_out. change (mg_D (gp_data (gp_out c b g))) with (mg_D (gp_data g)). change (mg_P (gp_data (gp_out c b g))) with (mg_P (gp_data g)).
  destruct (negb _); [reflexivity|]. destruct (negb _); [reflexivity|]. destruct (raw_predict solve g k Zs) as [[mu var]|]; [|reflexivity]. cbn [bind].
  cbn [gp_out gp_data multi_out mg_norm]. rewrite N. cbn [option_map rmap]. f_equal. unfold preds_out. cbn [fst snd]. f_equal.
  - apply (each_combine (fun d => norm_units (c d) (b d)) (fun d => map (fun x => c d * x + b d)) inverse_mean). intros. apply inverse_mean_out.
  - apply (each_combine (fun d => norm_units (c d) (b d)) (fun d => map (fun x => c d ^ 2 * x)) inverse_variance). intros. apply inverse_variance_out.
Qed.

Lemma quantiles_out c b ppf solve g k Xs qs ns : mg_norm (gp_data g) = Some ns ->
  gp_predict_quantiles ppf solve (gp_out c b g) k Xs qs = rmap (each (fun d => map (map (fun x => c d * x + b d)))) (gp_predict_quantiles ppf solve g k Xs qs).
Proof.
  intros N. unfold gp_predict_quantiles. change (mg_P (gp_data (gp_out c b g))) with (mg_P (gp_data g)). destruct (pad_dims (mg_P (gp_data g)) Xs) as [Zs|]; [|reflexivity]. cbn [bind].
  rewrite predict_norm_out. destruct (gp_predict_norm solve g k Zs false) as [[mu var]|]; [|reflexivity]. cbn [bind].
  cbn [gp_out gp_data multi_out mg_norm]. rewrite N. cbn [option_map rmap]. f_equal.
  apply (each_combine (fun d => norm_units (c d) (b d)) (fun d => map (map (fun x => c d * x + b d))) (fun n q => map (inverse_mean n) q)).
  intros d n q. rewrite map_map. apply map_ext. intros v. apply inverse_mean_out.
Qed.
