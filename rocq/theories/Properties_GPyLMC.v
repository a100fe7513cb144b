(** Properties of GPyLMC. *)

From Coq Require Import Reals List Arith ZArith Lia Lra Bool.
From Verif Require Import Base NDArray Model_Util Spec_Util Proofs_Util Model_Linalg Proofs_Linalg Model_Kern Spec_Kern Proofs_Kern Model_FK Model_Grid Model_Lik Model_GP Model_GPyLMC.
Import ListNotations.
Open Scope R_scope.

(** ** C50: every point is sent with its output *)

(** The [k]-th point of a design matrix, and how many there are. *)
Definition point (X : ndarr) (k : nat) : vec :=
  match a_shape X with
  | [_] => [vget (a_data X) k]
  | [_; p] => tab p (fun j => vget (a_data X) (k * p + j))
  | _ => []
  end.
Definition count (X : ndarr) : nat := match a_shape X with n :: _ => n | [] => 0%nat end.
Definition noarr : ndarr := mk_arr [] [].

(** A design matrix of input dimension [P]. *)
Definition design (P : nat) (X : ndarr) : Prop := (P = 1%nat /\ exists n, a_shape X = [n]) \/ exists n, a_shape X = [n; P].

(** One row per requested point, output by output, in the order of the
    request: its coordinates followed by its output; and the outputs alone. *)
Definition request (Xs : list ndarr) : mx :=
  concat (tab (length Xs) (fun d => tab (count (nth d Xs noarr)) (fun k => point (nth d Xs noarr) k ++ [INR d]))).
Definition outputs (Xs : list ndarr) : list nat :=
  concat (tab (length Xs) (fun d => tab (count (nth d Xs noarr)) (fun _ => d))).

Lemma app_inj_len {A} (x y a b : list A) : length x = length y -> x ++ a = y ++ b -> x = y /\ a = b.
Proof.
  revert y. induction x as [|u x IH]; intros [|v y] L E; try discriminate L; [now split|]. cbn in *. injection E as -> E. injection L as L. destruct (IH y L E) as [-> ->]. now split.
Qed.
Lemma concat_inj {A} (a b : list (list A)) : concat a = concat b -> map (@length A) a = map (@length A) b -> a = b.
Proof.
  revert b. induction a as [|x a IH]; intros [|y b] E L; try discriminate L; [reflexivity|]. cbn [map concat] in *. injection L as L1 L2.
  destruct (app_inj_len _ _ _ _ L1 E) as [-> E']. f_equal. now apply IH.
Qed.
Lemma combine_flat {A B C} (a : C -> list A) (b : C -> list B) l : (forall x, In x l -> length (a x) = length (b x)) ->
  combine (flat_map a l) (flat_map b l) = flat_map (fun x => combine (a x) (b x)) l.
Proof.
  induction l as [|x l IH]; intros H; [reflexivity|]. cbn [flat_map]. rewrite <- IH by (intros; apply H; now right).
  assert (L : length (a x) = length (b x)) by (apply H; now left). clear H IH. revert L. generalize (a x) (b x). intros u. induction u as [|p u IHu]; intros [|q v] L; try discriminate L; [reflexivity|].
  cbn. f_equal. apply IHu. now injection L.
Qed.
Lemma enum_tab {A} (l : list A) d : combine (seq 0 (length l)) l = tab (length l) (fun i => (i, nth i l d)).
Proof.
  apply (nth_ext _ _ (0%nat, d) (0%nat, d)); rewrite combine_length, seq_length, Nat.min_id; [now rewrite tab_length|].
  intros n Hn. rewrite combine_nth by apply seq_length. rewrite nth_tab, seq_nth by exact Hn. reflexivity.
Qed.
Lemma flat_map_tab {A B} (f : A -> list B) n g : flat_map f (tab n g) = concat (tab n (fun i => f (g i))).
Proof. unfold tab. rewrite flat_map_concat_map, map_map. reflexivity. Qed.
Lemma flat_map_enum {A B} (f : A -> list B) l : flat_map f l = flat_map (fun ia => f (snd ia)) (combine (seq 0 (length l)) l).
Proof.
  generalize 0%nat. induction l as [|x l IH]; intros k; [reflexivity|]. cbn [length seq combine flat_map snd]. now rewrite <- IH.
Qed.
Lemma combine_map_r {A B C} (f : B -> C) (l : list A) (m : list B) : combine l (map f m) = map (fun p => (fst p, f (snd p))) (combine l m).
Proof. revert m. induction l as [|x l IH]; intros [|y m]; try reflexivity. cbn. now rewrite IH. Qed.

Lemma pad1_design P X : design P X -> a_shape (pad1 X) = [count X; P].
Proof. intros [[-> [n E]]|[n E]]; unfold pad1, count; rewrite E; [reflexivity|exact E]. Qed.
Lemma rows_point P X : design P X -> rows_of (pad1 X) = tab (count X) (point X).
Proof.
  intros H. unfold rows_of. rewrite (pad1_design P X H). destruct H as [[-> [n E]]|[n E]]; unfold pad1, count, point, arr_rows, mk; rewrite E; [|reflexivity].
  apply map_ext. intros i. unfold tab. cbn [seq map]. now rewrite Nat.mul_1_r, Nat.add_0_r.
Qed.
Lemma pad_ok P Xs : (forall X, In X Xs -> design P X) -> pad_dims P Xs = Ok (map pad1 Xs).
Proof.
  intros H. unfold pad_dims. rewrite (map_result_all_ok _ (fun _ => tt)); [reflexivity|]. intros X HX. apply in_map_iff in HX as [Y [<- HY]]. rewrite (pad1_design P Y) by now apply H. cbn. now rewrite Nat.eqb_refl.
Qed.
Lemma lens_pad P Xs : (forall X, In X Xs -> design P X) -> lens_of (map pad1 Xs) = map count Xs.
Proof. intros H. unfold lens_of. rewrite map_map. apply map_ext_in. intros X HX. rewrite (pad1_design P X) by now apply H. reflexivity. Qed.
Lemma query_ok P Xs : Xs <> [] -> (forall X, In X Xs -> design P X) -> gpy_query (map pad1 Xs) = Ok (request Xs, outputs Xs).
Proof.
  intros Hne H. unfold gpy_query. destruct (map pad1 Xs) as [|x xs] eqn:E0; [destruct Xs; [contradiction|discriminate E0]|]. rewrite <- E0. clear x xs E0.
  assert (Ef : forallb (fun X => Nat.eqb (length (a_shape X)) 2) (map pad1 Xs) = true).
  { apply forallb_forall. intros X HX. apply in_map_iff in HX as [Y [<- HY]]. rewrite (pad1_design P Y) by now apply H. reflexivity. }
  rewrite Ef, (lens_pad P Xs H), map_length.
  assert (R0 : flat_map rows_of (map pad1 Xs) = flat_map (fun dX => tab (count (snd dX)) (point (snd dX))) (combine (seq 0 (length Xs)) Xs)).
  { rewrite <- (flat_map_enum (fun X => tab (count X) (point X))). rewrite !flat_map_concat_map, map_map. f_equal. apply map_ext_in. intros X HX. apply (rows_point P), H, HX. }
  assert (M0 : flat_map (fun dn => repeat (fst dn) (snd dn)) (combine (seq 0 (length Xs)) (map count Xs)) = flat_map (fun dX => tab (count (snd dX)) (fun _ => fst dX)) (combine (seq 0 (length Xs)) Xs)).
  { rewrite combine_map_r, !flat_map_concat_map, map_map. f_equal. apply map_ext. intros [d X]. cbn [fst snd]. unfold tab. generalize 0%nat. induction (count X) as [|n IH]; intros s; [reflexivity|]. cbn [repeat seq map]. f_equal. apply IH. }
  rewrite R0, M0, combine_flat by (intros; now rewrite !tab_length). f_equal. f_equal.
  - rewrite (enum_tab Xs noarr), flat_map_tab, concat_map. unfold request. f_equal. unfold tab at 1. rewrite map_map. unfold tab at 3. apply map_ext. intros d. cbn [fst snd].
    set (n := count _). generalize (point (nth d Xs noarr)). intros p. unfold tab. generalize (seq 0 n). intros s. induction s as [|i s IH]; [reflexivity|]. cbn [map combine fst snd]. now f_equal.
  - rewrite (enum_tab Xs noarr), flat_map_tab. reflexivity.
Qed.
Lemma request_length Xs : length (request Xs) = nsum (map count Xs).
Proof.
  unfold request. assert (G : forall L : list (list vec), length (concat L) = nsum (map (@length _) L)) by (induction L as [|x L IH]; [reflexivity|]; cbn [concat map]; rewrite app_length, IH; reflexivity).
  rewrite G. f_equal. unfold tab at 1. rewrite map_map. rewrite (map_ext _ (fun d => count (nth d Xs noarr))) by (intros; apply tab_length).
  change (map (fun d => count (nth d Xs noarr)) (seq 0 (length Xs))) with (tab (length Xs) (fun d => count (nth d Xs noarr))).
  apply (nth_ext _ _ 0%nat (count noarr)); rewrite tab_length; [now rewrite map_length|]. intros n Hn. rewrite nth_tab by exact Hn. symmetry. apply map_nth.
Qed.

(** [predict] asks the wrapped model once, about exactly the requested points
    with their outputs; the numbers it answers come back cut into one vector
    per output, in the order of the request. *)
Theorem C50_predict :
  forall predict P Xs mu var, Xs <> [] -> (forall X, In X Xs -> design P X) ->
    predict (request Xs) (outputs Xs) = (mu, var) ->
    length (a_data mu) = length (request Xs) -> length (a_data var) = length (request Xs) ->
    exists ms vs, gpylmc_predict predict P Xs = Ok (ms, vs) /\
      splits_as (a_data mu) (map count Xs) ms /\ splits_as (a_data var) (map count Xs) vs.
Proof.
  intros predict P Xs mu var Hne H E Lm Lv. unfold gpylmc_predict. rewrite (pad_ok P Xs H). cbn [bind]. rewrite (query_ok P Xs Hne H). cbn [bind]. rewrite E, (lens_pad P Xs H).
  rewrite request_length in *.
  assert (Hn' : map count Xs <> []) by (destruct Xs; [contradiction|discriminate]).
  destruct (tesselate_ok (a_data mu) (map count Xs)) as [ms [E1 S1]]; auto. destruct (tesselate_ok (a_data var) (map count Xs)) as [vs [E2 S2]]; auto.
  rewrite E1. cbn [bind]. rewrite E2. cbn [bind]. eauto.
Qed.
Print Assumptions C50_predict.

(** So if the model answers point by point with [g], the answer for point [k]
    of output [d] is [g] of its coordinates and [d]. *)
Theorem C50_pointwise :
  forall (g : vec -> nat -> R * R) predict P Xs, Xs <> [] -> (forall X, In X Xs -> design P X) ->
    (forall Q meta, length Q = length meta -> predict Q meta =
       (mk_arr [length Q; 1%nat] (map (fun q => fst (g (fst q) (snd q))) (combine Q meta)),
        mk_arr [length Q; 1%nat] (map (fun q => snd (g (fst q) (snd q))) (combine Q meta)))) ->
    exists ms vs, gpylmc_predict predict P Xs = Ok (ms, vs) /\ length ms = length Xs /\ length vs = length Xs /\
      forall d, (d < length Xs)%nat ->
        length (nth d ms []) = count (nth d Xs noarr) /\ length (nth d vs []) = count (nth d Xs noarr) /\
        forall k, (k < count (nth d Xs noarr))%nat ->
          (vget (nth d ms []) k, vget (nth d vs []) k) = g (point (nth d Xs noarr) k ++ [INR d]) d.
Proof.
  intros g predict P Xs Hne H Hg.
  assert (Lo : length (request Xs) = length (outputs Xs)).
  { unfold request, outputs. generalize (length Xs). intros n. unfold tab at 1 3. induction (seq 0 n) as [|d l IH]; [reflexivity|]. cbn [map concat]. rewrite !app_length, !tab_length, IH. reflexivity. }
  assert (Ec : combine (request Xs) (outputs Xs) = concat (tab (length Xs) (fun d => tab (count (nth d Xs noarr)) (fun k => (point (nth d Xs noarr) k ++ [INR d], d))))).
  { unfold request, outputs. generalize (length Xs). intros n. unfold tab at 1 3 5. rewrite <- !flat_map_concat_map, combine_flat by (intros; now rewrite !tab_length).
    rewrite !flat_map_concat_map. f_equal. apply map_ext. intros d. unfold tab. induction (seq 0 (count (nth d Xs noarr))) as [|i s IH]; [reflexivity|]. cbn [map combine]. now f_equal. }
  destruct (C50_predict predict P Xs _ _ Hne H (Hg _ _ Lo)) as (ms & vs & E & [S1 S2] & [T1 T2]); cbn [a_data] in *.
  1, 2: rewrite map_length, combine_length, <- Lo; apply Nat.min_id.
  assert (Len : forall (F : nat -> nat -> R), map (@length R) (tab (length Xs) (fun d => tab (count (nth d Xs noarr)) (F d))) = map count Xs).
  { intros F. unfold tab at 1. rewrite map_map. rewrite (map_ext _ (fun d => count (nth d Xs noarr))) by (intros; apply tab_length).
    change (map (fun d => count (nth d Xs noarr)) (seq 0 (length Xs))) with (tab (length Xs) (fun d => count (nth d Xs noarr))).
    apply (nth_ext _ _ 0%nat (count noarr)); rewrite tab_length; [now rewrite map_length|]. intros n Hn. rewrite nth_tab by exact Hn. symmetry. apply map_nth. }
  assert (Cc : forall (f : vec * nat -> R), map f (combine (request Xs) (outputs Xs)) = concat (tab (length Xs) (fun d => tab (count (nth d Xs noarr)) (fun k => f (point (nth d Xs noarr) k ++ [INR d], d))))).
  { intros f. rewrite Ec, concat_map. f_equal. unfold tab. rewrite map_map. apply map_ext. intros d. now rewrite map_map. }
  rewrite Cc in S1, T1.
  assert (Em : ms = tab (length Xs) (fun d => tab (count (nth d Xs noarr)) (fun k => fst (g (point (nth d Xs noarr) k ++ [INR d]) d)))).
  { apply concat_inj; [exact S1|]. rewrite Len. exact S2. }
  assert (Ev : vs = tab (length Xs) (fun d => tab (count (nth d Xs noarr)) (fun k => snd (g (point (nth d Xs noarr) k ++ [INR d]) d)))).
  { apply concat_inj; [exact T1|]. rewrite Len. exact T2. }
  exists ms, vs. split; [exact E|]. rewrite Em, Ev, !tab_length. split; [reflexivity|]. split; [reflexivity|]. intros d Hd. rewrite !nth_tab, !tab_length by exact Hd.
  split; [reflexivity|]. split; [reflexivity|]. intros k Hk. rewrite !vget_tab by exact Hk. symmetry. apply surjective_pairing.
Qed.
Print Assumptions C50_pointwise.

(** [predict_quantiles] asks the same question, and transposes the answer:
    one row per point, one column per quantile. *)
Theorem C50_quantiles :
  forall predict_q P Xs qs As, Xs <> [] -> (forall X, In X Xs -> design P X) -> qs <> [] ->
    predict_q (request Xs) qs (outputs Xs) = As -> length As = length qs ->
    (forall A, In A As -> a_shape A = [length (request Xs); 1%nat] /\ length (a_data A) = length (request Xs)) ->
    exists Rs, gpylmc_quantiles predict_q P Xs qs = Ok Rs /\
      splits_as (tab (length (request Xs)) (fun i => tab (length qs) (fun j => vget (a_data (nth j As noarr)) i))) (map count Xs) Rs.
Proof.
  intros predict_q P Xs qs As Hne H Hq E La Hs. unfold gpylmc_quantiles. rewrite (pad_ok P Xs H). cbn [bind]. rewrite (query_ok P Xs Hne H). cbn [bind]. rewrite E, (lens_pad P Xs H).
  set (n := length (request Xs)) in *.
  assert (Ea : np_array As = Ok (mk_arr [length qs; n; 1%nat] (flat_map a_data As))).
  { unfold np_array. destruct As as [|A As']; [destruct qs; [contradiction|discriminate La]|]. set (As := A :: As') in *.
    assert (Ef : forallb (fun B => if list_eq_dec Nat.eq_dec (a_shape B) (a_shape A) then true else false) As = true).
    { apply forallb_forall. intros B HB. rewrite (proj1 (Hs B HB)), (proj1 (Hs A (or_introl eq_refl))). now destruct (list_eq_dec _ _ _). }
    rewrite Ef, La, (proj1 (Hs A (or_introl eq_refl))). reflexivity. }
  rewrite Ea. cbn [bind a_shape nth_error Nat.eqb a_data].
  assert (Q0 : (0 < length qs)%nat) by (destruct qs; [contradiction|cbn; lia]).
  assert (Sz : np_size (mk_arr [length qs; n; 1%nat] (flat_map a_data As)) = (n * length qs)%nat) by (unfold np_size; cbn [a_shape nprod fold_right]; lia).
  rewrite Sz, Nat.mod_mul, Nat.div_mul by lia. destruct (Nat.eqb_spec (length qs) 0); [lia|]. cbn [orb negb Nat.eqb].
  assert (Em : mk n (length qs) (fun i j => vget (flat_map a_data As) (j * n + i)) = tab n (fun i => tab (length qs) (fun j => vget (a_data (nth j As noarr)) i))).
  { unfold mk. apply map_ext_in. intros i Hi. apply in_seq in Hi. apply map_ext_in. intros j Hj. apply in_seq in Hj. rewrite <- La in Hj.
    assert (D : forall A, In A As -> length (a_data A) = n) by (intros A HA; apply Hs, HA). assert (Hi' : (i < n)%nat) by lia. assert (Hj' : (j < length As)%nat) by lia. clear - D Hi' Hj'.
    revert j Hj'. induction As as [|A As IH]; intros j Hj; [cbn in Hj; lia|]. cbn [flat_map]. assert (LA : length (a_data A) = n) by (apply D; now left). destruct j as [|j].
    - cbn [nth]. rewrite Nat.mul_0_l, Nat.add_0_l. unfold vget. apply app_nth1. unfold vec in *. lia.
    - cbn [nth]. rewrite <- (IH (fun B HB => D B (or_intror HB)) j ltac:(cbn in Hj; lia)). unfold vget. rewrite app_nth2 by (unfold vec in *; lia). f_equal. unfold vec in *. lia. }
  rewrite Em. apply tesselate_ok; [destruct Xs; [contradiction|discriminate]|]. rewrite tab_length. unfold n. symmetry. apply request_length.
Qed.
Print Assumptions C50_quantiles.

(** Requests that are not one design matrix per output are refused, whatever
    the wrapped model: an empty list, and arrays of other shapes (an array
    without dimensions with IndexError). *)
Theorem C50_errors :
  forall predict P Xs,
    (Xs = [] -> gpylmc_predict predict P Xs = Err ValueError) /\
    ((exists X, In X Xs /\ ~ design P X) -> gpylmc_predict predict P Xs = Err ValueError \/ gpylmc_predict predict P Xs = Err IndexError) /\
    ((forall X, In X Xs -> a_shape X <> []) -> (exists X, In X Xs /\ ~ design P X) -> gpylmc_predict predict P Xs = Err ValueError).
Proof.
  intros predict P Xs.
  assert (G : (exists X, In X Xs /\ ~ design P X) ->
    gpylmc_predict predict P Xs = Err ValueError \/ (gpylmc_predict predict P Xs = Err IndexError /\ exists X, In X Xs /\ a_shape X = [])).
  { intros (X & HX & Nd). unfold gpylmc_predict.
    assert (Pd : pad_dims P Xs = Ok (map pad1 Xs) \/ pad_dims P Xs = Err ValueError \/ (pad_dims P Xs = Err IndexError /\ exists X, In X Xs /\ a_shape X = [])).
    { unfold pad_dims. clear. induction Xs as [|X Xs IH]; [now left|]. cbn [map map_result].
      assert (C : (exists p, nth_error (a_shape (pad1 X)) 1 = Some p) \/ (a_shape X = [] /\ nth_error (a_shape (pad1 X)) 1 = None)).
      { unfold pad1. destruct (a_shape X) as [|n [|m l]] eqn:E; [right; rewrite E; now split|left; eexists; reflexivity|left; rewrite E; eexists; reflexivity]. }
      destruct C as [[p ->]|[E0 ->]]; [|right; right; split; [reflexivity|exists X; split; [now left|exact E0]]].
      destruct (Nat.eqb p P); [|right; left; reflexivity]. cbn [bind]. destruct (map_result _ (map pad1 Xs)) as [u|e]; cbn [bind] in *; [now left|].
      destruct IH as [IH|[IH|[IH (Y & HY & EY)]]]; [discriminate IH|right; left; exact IH|right; right; split; [exact IH|exists Y; split; [now right|exact EY]]]. }
    destruct Pd as [Pd|[Pd|[Pd Ex]]]; rewrite Pd; cbn [bind]; [|now left|right; now split]. left.
    unfold gpy_query. destruct (map pad1 Xs) as [|x xs] eqn:E0; [reflexivity|]. rewrite <- E0.
    destruct (forallb _ (map pad1 Xs)) eqn:Ef; [|reflexivity]. exfalso. apply Nd. rewrite forallb_forall in Ef.
    specialize (Ef (pad1 X) (in_map pad1 _ _ HX)). apply Nat.eqb_eq in Ef.
    (* pad_dims succeeded, so the second dimension is P *)
    assert (S1 : nth_error (a_shape (pad1 X)) 1 = Some P).
    { unfold pad_dims in Pd. destruct (map_result _ (map pad1 Xs)) as [u|e] eqn:Em; [|discriminate Pd]. clear -Em HX. revert u Em. induction Xs as [|Y Xs IH]; intros u Em; [destruct HX|]. cbn [map map_result] in Em.
      destruct (nth_error (a_shape (pad1 Y)) 1) as [p|] eqn:En; [|discriminate Em]. destruct (Nat.eqb_spec p P) as [->|]; [|discriminate Em]. cbn [bind] in Em.
      destruct (map_result _ (map pad1 Xs)) as [u'|] eqn:Em'; [|discriminate Em]. destruct HX as [->|HX]; [exact En|]. now apply (IH HX u'). }
    unfold design. unfold pad1 in *. destruct (a_shape X) as [|n [|m [|? ?]]] eqn:Es; cbn [a_shape length nth_error] in *; try rewrite Es in *; try discriminate.
    - injection S1 as <-. left. split; [reflexivity|now exists n].
    - injection S1 as <-. right. now exists n. }
  split; [|split].
  - intros ->. reflexivity.
  - intros Hx. destruct (G Hx) as [E|[E _]]; [now left|now right].
  - intros Hd Hx. destruct (G Hx) as [E|[_ (X & HX & EX)]]; [exact E|]. now destruct (Hd X HX).
Qed.
Print Assumptions C50_errors.

(** Two outputs with two and one points; an answer numbered in the order of
    the query. *)
Example C50_ex :
  let Xs := [mk_arr [2%nat; 1%nat] [10; 20]; mk_arr [1%nat] [30]] in
  (forall X, In X Xs -> design 1 X) /\ request Xs = [[10; 0]; [20; 0]; [30; 1]] /\ outputs Xs = [0; 0; 1]%nat /\
  gpylmc_predict (fun Q meta => (mk_arr [3; 1]%nat [1; 2; 3], mk_arr [3; 1]%nat [4; 5; 6])) 1 Xs = Ok ([[1; 2]; [3]], [[4; 5]; [6]]) /\
  gpylmc_quantiles (fun Q qs meta => [mk_arr [3; 1]%nat [1; 2; 3]; mk_arr [3; 1]%nat [4; 5; 6]]) 1 Xs [5; 95] = Ok [[[1; 4]; [2; 5]]; [[3; 6]]].
Proof.
  cbv zeta. split; [|repeat split; reflexivity].
  intros X [<-|[<-|[]]]; [right; eexists; reflexivity|left; split; [reflexivity|eexists; reflexivity]].
Qed.

(** ** C60: the covariance of GPyLMC *)

(** GPy's value of a term at two rows (GPy manual): the kernel of the distance
    of the active column times the entry of the coregionalisation matrix at
    the integers in the column [icm_col]. *)
Definition as_index (x : R) : nat := Z.to_nat (Int_part x).
Definition icm_at (t : icm) (B : mx) (r r' : vec) : R :=
  gpy_at (icm_kern t) (Rabs (vget r (icm_active t) - vget r' (icm_active t))) * mget B (as_index (vget r (icm_col t))) (as_index (vget r' (icm_col t))).
Definition K_at (ts : list icm) (Bs : list mx) (r r' : vec) : R := lsum (map (fun tB => icm_at (fst tB) (snd tB) r r') (combine ts Bs)).

Lemma as_index_INR d : as_index (INR d) = d.
Proof.
  unfold as_index. rewrite INR_IZR_INZ. unfold Int_part. assert (U : up (IZR (Z.of_nat d)) = (Z.of_nat d + 1)%Z).
  { symmetry. apply tech_up; rewrite plus_IZR; lra. }
  rewrite U. replace (Z.of_nat d + 1 - 1)%Z with (Z.of_nat d) by lia. apply Nat2Z.id.
Qed.

(** With one-dimensional inputs, kernels with positive parameters that GPy has
    and as many ranks as kernels, the covariance of points [x] of output [d]
    and [x'] of output [d'], at the rows the model is queried with, is the
    linear model of coregionalisation over all the kernels.
    Missing: inputs of more dimensions, see [C60_dims_refuted]; fewer ranks
    than kernels, see [C60_ranks_refuted]. *)
Theorem C60_covariance_partial :
  forall kernels ranks, kernels <> [] -> length ranks = length kernels ->
    (forall k a, In (k, a) kernels -> positive k /\ (a = None \/ a = Some [0%nat]) /\ exists g, to_gpy k = Ok g) ->
    exists ts, construct_gpy kernels ranks = Ok ts /\ map icm_rank ts = ranks /\
      forall Bs x d x' d', length Bs = length kernels ->
        K_at ts Bs ([x] ++ [INR d]) ([x'] ++ [INR d']) =
        lsum (map (fun kB => mget (snd kB) d d' * k_doc (fst (fst kB)) (Rabs (x - x'))) (combine kernels Bs)).
Proof.
  intros kernels ranks Hne Lr Hk.
  assert (Hm : exists gs, map_result to_gpy_active kernels = Ok gs /\ Forall2 (fun ka ga => snd ga = 0%nat /\ forall r, gpy_at (fst ga) r = k_doc (fst ka) r) kernels gs).
  { clear Hne Lr. induction kernels as [|[k a] ks IH]; [exists []; split; [reflexivity|constructor]|]. destruct IH as [gs [E F]]; [intros; apply Hk; now right|].
    destruct (Hk k a (or_introl eq_refl)) as (Hp & Ha & g & Eg). exists ((g, 0%nat) :: gs). split.
    - cbn [map_result]. unfold to_gpy_active at 1. cbn [fst snd]. rewrite Eg. cbn [bind]. destruct Ha as [->| ->]; cbn [bind]; now rewrite E.
    - constructor; [|exact F]. split; [reflexivity|]. intros r. cbn [fst]. now apply to_gpy_ok. }
  destruct Hm as [gs [E F]]. unfold construct_gpy. rewrite E. cbn [bind].
  assert (Lg : length gs = length kernels) by (clear -F; induction F; cbn; auto).
  destruct gs as [|g0 gs]; [destruct kernels; [contradiction|discriminate Lg]|]. destruct ranks as [|r0 ranks]; [destruct kernels; [contradiction|discriminate Lr]|].
  eexists. split; [reflexivity|]. change ((g0, r0) :: combine gs ranks) with (combine (g0 :: gs) (r0 :: ranks)). set (gg := g0 :: gs) in *. set (rr := r0 :: ranks) in *.
  assert (Lgr : length gg = length rr) by lia. clearbody gg rr. clear E Hne Hk. split.
  - rewrite map_map. cbn [icm_rank]. revert rr Lgr Lr. clear. revert kernels. induction gg as [|g gg IH]; intros ks [|r rr] L Lk; try discriminate L; [reflexivity|]. cbn [combine map snd]. f_equal. destruct ks as [|k ks]; [discriminate Lk|]. apply (IH ks); [now injection L|now injection Lk].
  - intros Bs x d x' d' LB. unfold K_at. revert rr Bs Lgr Lr LB Lg. induction F as [|[k a] [g c] ks gg [Hc Hg] _ IH]; intros rr Bs Lgr Lr LB Lg.
    + reflexivity.
    + destruct rr as [|r rr]; [discriminate Lr|]. destruct Bs as [|B Bs]; [discriminate LB|]. cbn [combine map fst snd]. cbn [fst snd] in Hc. subst c.
      unfold lsum. cbn [fold_right]. f_equal.
      * unfold icm_at. cbn [icm_kern icm_active icm_col app]. unfold vget. cbn [nth]. rewrite !as_index_INR, Hg. cbn [fst]. ring.
      * apply IH; cbn in *; lia.
Qed.
Print Assumptions C60_covariance_partial.

(** With two-dimensional inputs the second coordinate is read in place of the
    output: two different outputs get the covariance of output 0. *)
Theorem C60_dims_refuted :
  exists kernels ranks ts B (x x' : vec) (d d' : nat),
    construct_gpy kernels ranks = Ok ts /\ length x = 2%nat /\ length x' = 2%nat /\
    mget B d d' = 0 /\ K_at ts [B] (x ++ [INR d]) (x' ++ [INR d']) <> 0.
Proof.
  exists [(RBF 1, None)], [1%nat], [mk_icm (GpyRBF 1 (pow_mhalf 1)) 0 1 1], [[1; 0]; [0; 1]], [0; 0], [0; 0], 0%nat, 1%nat.
  split; [reflexivity|]. split; [reflexivity|]. split; [reflexivity|]. split; [reflexivity|].
  unfold K_at, icm_at. cbn [combine map fst snd icm_kern icm_active icm_col app]. unfold vget. cbn [nth].
  assert (A0 : as_index 0 = 0%nat) by exact (as_index_INR 0). rewrite A0. unfold lsum. cbn [fold_right]. unfold mget, vget. cbn [nth]. rewrite Rminus_0_r, Rabs_R0. cbn [gpy_at].
  pose proof (exp_pos (- (1 / 2) * (0 / pow_mhalf 1) ^ 2)). lra.
Qed.
Print Assumptions C60_dims_refuted.

(** Kernels without a rank are left out silently. *)
Theorem C60_ranks_refuted :
  exists kernels ranks ts, (length ranks < length kernels)%nat /\ construct_gpy kernels ranks = Ok ts /\ (length ts < length kernels)%nat.
Proof. exists [(RBF 1, None); (Matern32 2, None)], [1%nat], [mk_icm (GpyRBF 1 (pow_mhalf 1)) 0 1 1]. repeat split; cbn; lia. Qed.
Print Assumptions C60_ranks_refuted.

Example C60_ex :
  (forall k a, In (k, a) [(RBF 1, None); (Matern32 2, Some [0%nat])] -> positive k /\ (a = None \/ a = Some [0%nat]) /\ exists g, to_gpy k = Ok g) /\
  exists ts, construct_gpy [(RBF 1, None); (Matern32 2, Some [0%nat])] [1; 2]%nat = Ok ts /\ length ts = 2%nat.
Proof.
  split.
  - intros k a [E|[E|[]]]; injection E as <- <-; (split; [intros v [<-|[]]; lra|split; [auto|eexists; reflexivity]]).
  - eexists. split; reflexivity.
Qed.
