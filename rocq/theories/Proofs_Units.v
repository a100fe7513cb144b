(** Change of the units of the inputs: arrays, grids, interpolation. *)

From Coq Require Import Reals List Arith ZArith Lia Lra.
From Verif Require Import Base NDArray Model_Util Model_Linalg Model_Interp Model_Kern Model_FK Model_Grid Model_Lik Model_GP.
From Verif Require Import Spec_Units Proofs_Eig Proofs_Ski3.
Import ListNotations.
Open Scope R_scope.

Definition rmap {A B} (h : A -> B) (r : result A) : result B := match r with Ok x => Ok (h x) | Err e => Err e end.
Definition wfa (X : ndarr) : Prop := length (a_data X) = nprod (a_shape X).

Lemma rmap_bind {A B C} (h : B -> C) (r : result A) (k : A -> result B) : rmap h (bind r k) = bind r (fun x => rmap h (k x)).
Proof. now destruct r. Qed.
Lemma bind_rmap {A B C} (h : A -> B) (r : result A) (k : B -> result C) : bind (rmap h r) k = bind r (fun x => k (h x)).
Proof. now destruct r. Qed.
Lemma bind_ext {A B} (r : result A) (k k' : A -> result B) : (forall x, r = Ok x -> k x = k' x) -> bind r k = bind r k'.
Proof. destruct r; auto. intros H. now apply H. Qed.

Lemma map_result_rmap {A B A' B'} (f : A -> result B) (f' : A' -> result B') (g : A -> A') (h : B -> B') l :
  (forall x, In x l -> f' (g x) = rmap h (f x)) -> map_result f' (map g l) = rmap (map h) (map_result f l).
Proof.
  induction l as [|x l IH]; intros H; [reflexivity|]. cbn [map map_result]. rewrite H by now left.
  destruct (f x); [|reflexivity]. cbn [rmap bind]. rewrite IH by (intros; apply H; now right).
  now destruct (map_result f l).
Qed.

Lemma map_result_same {A B} (f f' : A -> result B) l : (forall x, In x l -> f' x = f x) -> map_result f' l = map_result f l.
Proof.
  induction l as [|x l IH]; intros H; [reflexivity|]. cbn [map_result]. rewrite H by now left.
  rewrite IH by (intros; apply H; now right). reflexivity.
Qed.

Lemma map_result_ok_all {A B} (f : A -> result B) l ys : map_result f l = Ok ys -> forall x, In x l -> exists y, In y ys /\ f x = Ok y.
Proof.
  revert ys. induction l as [|x l IH]; intros ys H z Hz; [easy|]. cbn [map_result] in H.
  destruct (f x) as [y|] eqn:E; [|discriminate]. cbn [bind] in H. destruct (map_result f l) as [r|]; [|discriminate].
  cbn [bind] in H. injection H as <-. destruct Hz as [<-|Hz]; [exists y; split; [now left|easy]|].
  destruct (IH r eq_refl z Hz) as [w [W1 W2]]. exists w. split; [now right|easy].
Qed.
Lemma map_result_ok_back {A B} (f : A -> result B) l ys : map_result f l = Ok ys -> forall y, In y ys -> exists x, In x l /\ f x = Ok y.
Proof.
  revert ys. induction l as [|x l IH]; intros ys H z Hz; cbn [map_result] in H; [injection H as <-; easy|].
  destruct (f x) as [y|] eqn:E; [|discriminate]. cbn [bind] in H. destruct (map_result f l) as [r|]; [|discriminate].
  cbn [bind] in H. injection H as <-. destruct Hz as [<-|Hz]; [exists x; split; [now left|easy]|].
  destruct (IH r eq_refl z Hz) as [w [W1 W2]]. exists w. split; [now right|easy].
Qed.

(** ** Affine maps of vectors *)

Definition aff (a c : R) (v : vec) : vec := map (fun x => a * x + c) v.

Lemma aff_get a c v i : (i < length v)%nat -> vget (aff a c v) i = a * vget v i + c.
Proof. intros H. unfold vget, aff. rewrite (nth_indep _ 0 (a * 0 + c)) by (now rewrite map_length). now rewrite (map_nth (fun x => a * x + c)). Qed.
Lemma aff_length a c v : length (aff a c v) = length v.
Proof. apply map_length. Qed.

Lemma min_aff a c x y : 0 < a -> Rmin (a * x + c) (a * y + c) = a * Rmin x y + c.
Proof. intros H. unfold Rmin. destruct (Rle_dec x y), (Rle_dec (a * x + c) (a * y + c)); try reflexivity; exfalso; nra. Qed.
Lemma max_aff a c x y : 0 < a -> Rmax (a * x + c) (a * y + c) = a * Rmax x y + c.
Proof. intros H. unfold Rmax. destruct (Rle_dec x y), (Rle_dec (a * x + c) (a * y + c)); try reflexivity; exfalso; nra. Qed.

Lemma np_min_aff a c l : 0 < a -> l <> [] -> np_min (aff a c l) = a * np_min l + c.
Proof.
  intros H N. destruct l as [|x l]; [easy|]. unfold np_min, aff. cbn [map hd tl]. clear N.
  revert x. induction l as [|y l IH]; intros x; cbn [map fold_left]; [reflexivity|].
  now rewrite min_aff, IH.
Qed.
Lemma np_max_aff a c l : 0 < a -> l <> [] -> np_max (aff a c l) = a * np_max l + c.
Proof.
  intros H N. destruct l as [|x l]; [easy|]. unfold np_max, aff. cbn [map hd tl]. clear N.
  revert x. induction l as [|y l IH]; intros x; cbn [map fold_left]; [reflexivity|].
  now rewrite max_aff, IH.
Qed.

(** ** Columns *)

Lemma iu_len a t X : length (a_data (in_units a t X)) = length (a_data X).
Proof. cbn. apply tab_length. Qed.
Lemma iu_wfa a t X : wfa X -> wfa (in_units a t X).
Proof. unfold wfa. rewrite iu_len. easy. Qed.
Lemma iu_get a t X k : (k < length (a_data X))%nat ->
  vget (a_data (in_units a t X)) k = a * vget (a_data X) k + t (k mod nth 1 (a_shape X) 1)%nat.
Proof. intros H. cbn [in_units a_data]. now rewrite vget_tab. Qed.

Lemma iu_get2 a t X n P i p : a_shape X = [n; P] -> wfa X -> (i < n)%nat -> (p < P)%nat ->
  vget (a_data (in_units a t X)) (i * P + p) = a * vget (a_data X) (i * P + p) + t p.
Proof.
  intros S W Hi Hp. rewrite iu_get.
  - rewrite S. cbn [nth]. do 2 f_equal. rewrite Nat.add_comm, Nat.mod_add by lia. now apply Nat.mod_small.
  - unfold wfa in W. rewrite W, S. cbn [nprod fold_right]. unfold nprod. cbn. nia.
Qed.

Lemma map_is_tab {A B} (d : A) (g : A -> B) l : map g l = tab (length l) (fun p => g (nth p l d)).
Proof. rewrite (list_as_tab d l) at 1. now rewrite map_tab. Qed.

Lemma concat_tab_tab0 {A} n m (f : nat -> nat -> A) : concat (tab n (fun i => tab m (f i))) = tab (n * m) (fun k => f (k / m)%nat (k mod m)%nat).
Proof.
  destruct m as [|m]; [|apply concat_tab_tab; lia]. rewrite Nat.mul_0_r. change (concat (tab n (fun _ => @nil A)) = []).
  induction n as [|n IH]; [reflexivity|]. rewrite tab_S_l. exact IH.
Qed.

Lemma take_cols_units a t ad X : wfa X ->
  take_cols ad (in_units a t X) = rmap (in_units a (fun p => t (nth p ad 0%nat))) (take_cols ad X).
Proof.
  intros W. unfold take_cols. cbn [in_units a_shape]. fold (in_units a t X).
  destruct (a_shape X) as [|n [|P [|? ?]]] eqn:S; try reflexivity.
  destruct (forallb (fun d => Nat.ltb d P) ad) eqn:F; [|reflexivity].
  cbn [rmap]. unfold in_units at 2. cbn [a_shape a_data nth]. do 2 f_equal.
  rewrite forallb_forall in F.
  assert (E : forall h : nat -> nat -> R, concat (tab n (fun i => map (h i) ad)) = tab (n * length ad) (fun k => h (k / length ad)%nat (nth (k mod length ad) ad 0%nat))).
  { intros h. rewrite <- (concat_tab_tab0 n (length ad) (fun i p => h i (nth p ad 0%nat))). f_equal. apply tab_ext. intros i _. apply map_is_tab. }
  rewrite (E (fun i d => vget (a_data (in_units a t X)) (i * P + d))), (E (fun i d => vget (a_data X) (i * P + d))), tab_length.
  apply tab_ext. intros k Hk. rewrite vget_tab by easy.
  assert (L : (0 < length ad)%nat) by nia.
  assert (Q : (k / length ad < n)%nat) by (apply Nat.div_lt_upper_bound; lia).
  assert (M : (k mod length ad < length ad)%nat) by (apply Nat.mod_upper_bound; lia).
  apply iu_get2 with n; auto. apply Nat.ltb_lt, F, nth_In, M.
Qed.

Lemma take_cols_shape ad X Y : take_cols ad X = Ok Y -> exists n, a_shape Y = [n; length ad] /\ wfa Y.
Proof.
  unfold take_cols. destruct (a_shape X) as [|n [|P [|? ?]]]; try discriminate.
  destruct (forallb _ ad); [|discriminate]. intros H. injection H as <-. exists n. cbn. split; [reflexivity|].
  unfold wfa. cbn. rewrite (tab_ext _ _ (fun i => tab (length ad) (fun p => vget (a_data X) (i * P + nth p ad 0%nat)))) by (intros; apply (map_is_tab 0%nat (fun d => vget (a_data X) (i * P + d)))).
  rewrite concat_tab_tab0, tab_length. lia.
Qed.

Lemma arr_col_units a t X n P p : a_shape X = [n; P] -> wfa X -> (p < P)%nat ->
  arr_col P p (in_units a t X) = aff a (t p) (arr_col P p X).
Proof.
  intros S W Hp. unfold arr_col, aff. cbn [in_units a_shape]. rewrite map_tab. apply tab_ext. intros i Hi.
  rewrite S in Hi. cbn [hd] in Hi. rewrite <- (iu_get2 a t X n P i p) by easy. reflexivity.
Qed.

(** ** autogrid *)

Definition axes_units (a : R) (t : nat -> R) (axes : list vec) : list vec :=
  tab (length axes) (fun p => aff a (t p) (nth p axes [])).
Definition vec_units (a : R) (t : nat -> R) (l : vec) : vec := tab (length l) (fun p => a * vget l p + t p).

Lemma linspace_aff a c l h n : np_linspace (a * l + c) (a * h + c) n = aff a c (np_linspace l h n).
Proof.
  unfold np_linspace, aff. rewrite map_tab. apply tab_ext. intros k _. destruct (Nat.eqb n 1); [reflexivity|].
  replace (a * h + c - (a * l + c)) with (a * (h - l)) by ring. unfold Rdiv. ring.
Qed.

Lemma map_map_iu {B} (g : ndarr -> B) a t Xs : map g (map (in_units a t) Xs) = map (fun X => g (in_units a t X)) Xs.
Proof. apply map_map. Qed.


(** The body of [autogrid] once the checks have passed. *)
Definition ag_min (P : nat) (Xs : list ndarr) : vec := tab P (fun p => np_min (map (fun X => np_min (arr_col P p X)) Xs)).
Definition ag_max (P : nat) (Xs : list ndarr) : vec := tab P (fun p => np_max (map (fun X => np_max (arr_col P p X)) Xs)).
Definition ag_m (P : nat) (Xs : list ndarr) (m : marg) : list nat :=
  match m with
  | MNone => tab P (fun _ => (nsum (map (fun X => hd 0%nat (a_shape X)) Xs) / length Xs)%nat)
  | MList l | MArray l => l
  end.
Definition ag_lo (o : option vec) (w : vec) : vec := match o with None => w | Some l => map (fun p => Rmin (fst p) (snd p)) (combine l w) end.
Definition ag_hi (o : option vec) (w : vec) : vec := match o with None => w | Some l => map (fun p => Rmax (fst p) (snd p)) (combine l w) end.
Definition ag_axes_of (P : nat) (lo hi : vec) (mv : list nat) : list vec :=
  let delta := tab P (fun p => (vget hi p - vget lo p) / INR (nth p mv 0%nat)) in
  let lo := tab P (fun p => vget lo p - 2 * vget delta p) in
  let hi := tab P (fun p => vget hi p + 2 * vget delta p) in
  tab P (fun p => np_linspace (vget lo p) (vget hi p) (nth p (map (fun k => (k + 4)%nat) mv) 0%nat)).
Definition autogrid_body (P : nat) (Xs : list ndarr) (lo hi : option vec) (m : marg) : list vec * marg :=
  (ag_axes_of P (ag_lo lo (ag_min P Xs)) (ag_hi hi (ag_max P Xs)) (ag_m P Xs m),
   match m with MArray _ => MArray (map (fun k => (k + 4)%nat) (ag_m P Xs m)) | _ => m end).

Lemma autogrid_eq P Xs lo hi m : (forall X, In X Xs -> exists n, a_shape X = [n; P] /\ wfa X) ->
  autogrid Xs lo hi m =
  match Xs with
  | [] => Err IndexError
  | _ =>
    if negb (opt_len_ok P lo) then Err AssertionError
    else if negb (opt_len_ok P hi) then Err AssertionError
    else if negb (match m with MNone => true | MList l | MArray l => Nat.eqb (length l) P end) then Err AssertionError
    else if existsb (fun X => Nat.eqb (hd 0%nat (a_shape X)) 0) Xs then Err ValueError
    else Ok (autogrid_body P Xs lo hi m)
  end.
Proof.
  intros H. destruct Xs as [|X0 Xs]; [reflexivity|]. destruct (H X0 (or_introl eq_refl)) as [n [S _]].
  unfold autogrid. rewrite S. reflexivity.
Qed.

Lemma combine_min_units a t P (l w : vec) : 0 < a -> length l = P -> length w = P ->
  map (fun p => Rmin (fst p) (snd p)) (combine (vec_units a t l) (vec_units a t w)) =
  vec_units a t (map (fun p => Rmin (fst p) (snd p)) (combine l w)).
Proof.
  intros Ha L1 L2. unfold vec_units. rewrite map_length, combine_length, L1, L2, Nat.min_id, combine_tab, map_tab.
  apply tab_ext. intros p Hp. cbn [fst snd]. rewrite min_aff by easy. do 2 f_equal.
  unfold vget at 3. rewrite (nth_indep _ 0 (Rmin (fst (0, 0)) (snd (0, 0)))) by (rewrite map_length, combine_length; lia).
  rewrite (map_nth (fun p => Rmin (fst p) (snd p))), combine_nth by lia. reflexivity.
Qed.
Lemma combine_max_units a t P (l w : vec) : 0 < a -> length l = P -> length w = P ->
  map (fun p => Rmax (fst p) (snd p)) (combine (vec_units a t l) (vec_units a t w)) =
  vec_units a t (map (fun p => Rmax (fst p) (snd p)) (combine l w)).
Proof.
  intros Ha L1 L2. unfold vec_units. rewrite map_length, combine_length, L1, L2, Nat.min_id, combine_tab, map_tab.
  apply tab_ext. intros p Hp. cbn [fst snd]. rewrite max_aff by easy. do 2 f_equal.
  unfold vget at 3. rewrite (nth_indep _ 0 (Rmax (fst (0, 0)) (snd (0, 0)))) by (rewrite map_length, combine_length; lia).
  rewrite (map_nth (fun p => Rmax (fst p) (snd p))), combine_nth by lia. reflexivity.
Qed.

Lemma vu_get a t l p : (p < length l)%nat -> vget (vec_units a t l) p = a * vget l p + t p.
Proof. intros H. unfold vec_units. now rewrite vget_tab. Qed.
Lemma vu_len a t l : length (vec_units a t l) = length l.
Proof. apply tab_length. Qed.

Lemma autogrid_units a t P Xs lo hi m : 0 < a -> (forall X, In X Xs -> exists n, a_shape X = [n; P] /\ wfa X) ->
  autogrid (map (in_units a t) Xs) (option_map (vec_units a t) lo) (option_map (vec_units a t) hi) m =
  rmap (fun r => (axes_units a t (fst r), snd r)) (autogrid Xs lo hi m).
Proof.
  intros Ha HX. rewrite (autogrid_eq P Xs) by easy. rewrite (autogrid_eq P (map (in_units a t) Xs)).
  2:{ intros X HI. apply in_map_iff in HI. destruct HI as [Y [<- HY]]. destruct (HX Y HY) as [n [S W]].
      exists n. split; [easy|now apply iu_wfa]. }
  assert (OL : forall o, opt_len_ok P (option_map (vec_units a t) o) = opt_len_ok P o).
  { intros [l|]; [|reflexivity]. cbn. now rewrite vu_len. }
  assert (EX : existsb (fun X => Nat.eqb (hd 0%nat (a_shape X)) 0) (map (in_units a t) Xs) = existsb (fun X => Nat.eqb (hd 0%nat (a_shape X)) 0) Xs).
  { clear. induction Xs as [|X Xs IH]; [reflexivity|]. cbn [map existsb in_units a_shape]. now rewrite IH. }
  rewrite !OL, EX. destruct Xs as [|X0 Xs']; [reflexivity|]. set (Xs := X0 :: Xs') in *.
  assert (NE : Xs <> []) by discriminate. clearbody Xs.
  destruct Xs as [|Y Ys] eqn:EXs; [easy|]. cbn [map]. change (in_units a t Y :: map (in_units a t) Ys) with (map (in_units a t) (Y :: Ys)). rewrite <- EXs in *.
  destruct (opt_len_ok P lo) eqn:Elo; [|reflexivity]. cbn [negb].
  destruct (opt_len_ok P hi) eqn:Ehi; [|reflexivity]. cbn [negb].
  destruct (match m with MNone => true | MList l | MArray l => Nat.eqb (length l) P end) eqn:Em; [|reflexivity]. cbn [negb].
  destruct (existsb (fun X => Nat.eqb (hd 0%nat (a_shape X)) 0) Xs) eqn:E0; [reflexivity|]. cbn [rmap]. f_equal.
  assert (C : forall X, In X Xs -> forall p, (p < P)%nat -> arr_col P p (in_units a t X) = aff a (t p) (arr_col P p X) /\ arr_col P p X <> []).
  { intros X HI p Hp. destruct (HX X HI) as [n [S W]]. split; [now apply arr_col_units with n|].
    unfold arr_col. rewrite S. cbn [hd]. intros Q. apply (f_equal (@length R)) in Q. rewrite tab_length in Q. cbn in Q. subst n.
    assert (T : existsb (fun X => Nat.eqb (hd 0%nat (a_shape X)) 0) Xs = true); [|congruence].
    apply existsb_exists. exists X. split; [easy|]. now rewrite S. }
  assert (NM : forall g : ndarr -> R, map g Xs <> []) by (intros g Q; apply map_eq_nil in Q; auto).
  assert (ML : ag_min P (map (in_units a t) Xs) = vec_units a t (ag_min P Xs)).
  { unfold vec_units, ag_min. rewrite tab_length. apply tab_ext. intros p Hp. rewrite vget_tab by easy. rewrite map_map.
    rewrite <- np_min_aff by auto. f_equal. unfold aff. rewrite map_map.
    apply map_ext_in. intros X HI. destruct (C X HI p Hp) as [E N]. rewrite E. now apply np_min_aff. }
  assert (MH : ag_max P (map (in_units a t) Xs) = vec_units a t (ag_max P Xs)).
  { unfold vec_units, ag_max. rewrite tab_length. apply tab_ext. intros p Hp. rewrite vget_tab by easy. rewrite map_map.
    rewrite <- np_max_aff by auto. f_equal. unfold aff. rewrite map_map.
    apply map_ext_in. intros X HI. destruct (C X HI p Hp) as [E N]. rewrite E. now apply np_max_aff. }
  assert (MN : ag_m P (map (in_units a t) Xs) m = ag_m P Xs m).
  { unfold ag_m. destruct m; try reflexivity. now rewrite map_map, map_length. }
  unfold autogrid_body. cbn [fst snd]. rewrite ML, MH, MN.
  assert (Ll : length (ag_min P Xs) = P) by apply tab_length. assert (Lh : length (ag_max P Xs) = P) by apply tab_length.
  assert (E1 : ag_lo (option_map (vec_units a t) lo) (vec_units a t (ag_min P Xs)) = vec_units a t (ag_lo lo (ag_min P Xs)) /\ length (ag_lo lo (ag_min P Xs)) = P).
  { destruct lo as [l|]; cbn [option_map ag_lo]; [|easy]. cbn in Elo. apply Nat.eqb_eq in Elo. split; [now apply combine_min_units with P|].
    rewrite map_length, combine_length. lia. }
  assert (E2 : ag_hi (option_map (vec_units a t) hi) (vec_units a t (ag_max P Xs)) = vec_units a t (ag_hi hi (ag_max P Xs)) /\ length (ag_hi hi (ag_max P Xs)) = P).
  { destruct hi as [l|]; cbn [option_map ag_hi]; [|easy]. cbn in Ehi. apply Nat.eqb_eq in Ehi. split; [now apply combine_max_units with P|].
    rewrite map_length, combine_length. lia. }
  destruct E1 as [E1 L1], E2 as [E2 L2]. rewrite E1, E2. f_equal.
  unfold ag_axes_of, axes_units. cbv zeta. rewrite tab_length. apply tab_ext. intros p Hp. rewrite nth_tab by easy. rewrite !vget_tab by easy.
  rewrite <- linspace_aff. rewrite !vu_get by lia. f_equal; unfold Rdiv; ring.
Qed.

(** ** Distances on the grid *)

Definition scale_arr (a : R) (X : ndarr) : ndarr := mk_arr (a_shape X) (map (Rmult a) (a_data X)).

Lemma axes_units_len a t axes : length (axes_units a t axes) = length axes.
Proof. apply tab_length. Qed.
Lemma axes_units_nth a t axes p : (p < length axes)%nat -> nth p (axes_units a t axes) [] = aff a (t p) (nth p axes []).
Proof. intros H. unfold axes_units. now rewrite nth_tab. Qed.
Lemma axes_units_lens a t axes : map (@length R) (axes_units a t axes) = map (@length R) axes.
Proof.
  rewrite (map_is_tab [] (@length R) (axes_units a t axes)), (map_is_tab [] (@length R) axes), axes_units_len.
  apply tab_ext. intros p Hp. rewrite axes_units_nth by easy. apply aff_length.
Qed.

Lemma cartesian_units a t axes : cartesian_product (axes_units a t axes) = rmap (map (vec_units a t)) (cartesian_product axes).
Proof.
  assert (E : forall l, cartesian_product l = if Nat.eqb (length l) 0 then Err ValueError else
     Ok (tab (nprod (map (@length R) l)) (fun k => tab (length l) (fun i => nth (nth i (unravel (map (@length R) l) k) O) (nth i l []) 0)))).
  { intros [|? ?]; reflexivity. }
  rewrite !E, axes_units_len, axes_units_lens. unfold vec in *. destruct (Nat.eqb (length axes) 0); [reflexivity|]. cbn [rmap]. f_equal.
  rewrite map_tab. apply tab_ext. intros k Hk. unfold vec_units. rewrite tab_length. apply tab_ext. intros i Hi.
  rewrite vget_tab by easy. rewrite axes_units_nth by easy.
  change (vget (aff a (t i) (nth i axes [])) (nth i (unravel (map (@length R) axes) k) 0%nat) =
          a * vget (nth i axes []) (nth i (unravel (map (@length R) axes) k) 0%nat) + t i).
  apply aff_get. pose proof (unravel_in _ _ Hk) as I. apply (idx_in_nth _ _ i) in I; [|now rewrite map_length].
  change 0%nat with (length (@nil R)) in I at 2. now rewrite (map_nth (@length R)) in I.
Qed.

Lemma la_dist_units a t u v : 0 < a -> length u = length v -> la_dist (vec_units a t u) (vec_units a t v) = a * la_dist u v.
Proof.
  intros Ha L. unfold la_dist, vec_units. rewrite L, combine_tab, map_tab, lsum_tab.
  assert (E : lsum (map (fun p => (fst p - snd p) ^ 2) (combine u v)) = Rsum (length v) (fun i => (vget u i - vget v i) ^ 2)).
  { rewrite (vec_as_tab u), (vec_as_tab v) at 1. rewrite L, combine_tab, map_tab, lsum_tab. reflexivity. }
  rewrite E. rewrite (Rsum_ext _ _ (fun i => (a * a) * (vget u i - vget v i) ^ 2)) by (intros; cbn [fst snd]; ring).
  rewrite Rsum_scal_l, sqrt_mult; [|nra|apply Rsum_nonneg; intros; apply pow2_ge_0].
  rewrite sqrt_square by lra. reflexivity.
Qed.

Lemma grid_dists_units a t axes : 0 < a -> grid_dists (axes_units a t axes) = rmap (scale_arr a) (grid_dists axes).
Proof.
  intros Ha. unfold grid_dists. rewrite cartesian_units, axes_units_lens.
  destruct (cartesian_product axes) as [grid|] eqn:E; [|reflexivity]. cbn [rmap bind].
  assert (L : forall row, In row grid -> length row = length axes).
  { intros row HI. unfold cartesian_product in E. destruct axes as [|x l]; [discriminate|]. injection E as <-.
    apply in_tab in HI. destruct HI as [k [_ ->]]. apply tab_length. }
  destruct grid as [|first rest]; [reflexivity|]. cbn [map rmap scale_arr a_shape a_data]. unfold scale_arr. cbn [a_shape a_data]. do 2 f_equal.
  change (map (fun row => la_dist row (vec_units a t first)) (map (vec_units a t) (first :: rest)) = map (Rmult a) (map (fun row => la_dist row first) (first :: rest))).
  rewrite !map_map. apply map_ext_in. intros row HI. apply la_dist_units; [easy|].
  rewrite (L row HI). symmetry. apply L. now left.
Qed.

(** ** Interpolation *)

Lemma factors_units a c g0 d s : a <> 0 -> factors (a * g0 + c) (a * d) (aff a c s) = factors g0 d s.
Proof.
  intros Ha. unfold factors, aff. rewrite map_map. apply map_ext. intros x.
  unfold Rdiv. rewrite Rinv_mult. replace (a * x + c - (a * g0 + c)) with (a * (x - g0)) by ring.
  replace (a * (x - g0) * (/ a * / d)) with ((a * / a) * ((x - g0) * / d)) by ring. rewrite Rinv_r by easy. ring.
Qed.

Lemma interp_cubic_units a c g sh s : a <> 0 ->
  interp_cubic (np1 (aff a c g)) (mk_arr sh (aff a c s)) = interp_cubic (np1 g) (mk_arr sh s).
Proof.
  intros Ha. unfold interp_cubic, np1, np_len, np_size. cbn [a_shape a_data bind]. rewrite aff_length.
  destruct (Nat.eqb (nprod sh) 0); [reflexivity|]. try (destruct (negb _); [reflexivity|]). try (destruct (negb _); [reflexivity|]).
  destruct (Nat.ltb (length g) 4) eqn:L; [reflexivity|]. apply Nat.ltb_ge in L.
  rewrite !aff_get by lia. replace (a * vget g 1 + c - (a * vget g 0 + c)) with (a * (vget g 1 - vget g 0)) by ring.
  now rewrite factors_units.
Qed.

Lemma interp_bicubic_units a t gx gy X n : a <> 0 -> a_shape X = [n; 2%nat] -> wfa X ->
  interp_bicubic (np1 (aff a (t 0%nat) gx)) (np1 (aff a (t 1%nat) gy)) (in_units a t X) = interp_bicubic (np1 gx) (np1 gy) X.
Proof.
  intros Ha S W. unfold interp_bicubic, np1, np_size.
  change (a_shape (in_units a t X)) with (a_shape X). rewrite S. cbn [a_shape a_data]. rewrite !aff_length.
  destruct (Nat.eqb n 0); [reflexivity|]. try (destruct (negb _); [reflexivity|]).
  destruct (Nat.ltb (nprod [length gx]) 4) eqn:L1; [reflexivity|]. try (destruct (negb _); [reflexivity|]).
  destruct (Nat.ltb (nprod [length gy]) 4) eqn:L2; [reflexivity|]. apply Nat.ltb_ge in L1, L2. cbn in L1, L2.
  rewrite (arr_col_units a t X n 2 0 S W) by lia. rewrite (arr_col_units a t X n 2 1 S W) by lia.
  rewrite !aff_get by lia.
  replace (a * vget gx 1 + t 0%nat - (a * vget gx 0 + t 0%nat)) with (a * (vget gx 1 - vget gx 0)) by ring.
  replace (a * vget gy 1 + t 1%nat - (a * vget gy 0 + t 1%nat)) with (a * (vget gy 1 - vget gy 0)) by ring.
  now rewrite !factors_units.
Qed.

Lemma ravel_units a t X n : a_shape X = [n; 1%nat] -> np_ravel (in_units a t X) = mk_arr [np_size X] (aff a (t 0%nat) (a_data X)).
Proof.
  intros S. unfold np_ravel, np_size, in_units. cbn [a_shape a_data]. rewrite S. cbn [nth]. f_equal.
  unfold aff. rewrite (map_is_tab 0). apply tab_ext. intros k _. now rewrite Nat.mod_1_r.
Qed.

Lemma multi_interpolant_units a t P Xs axes : a <> 0 -> (forall X, In X Xs -> exists n, a_shape X = [n; P] /\ wfa X) ->
  multi_interpolant (map (in_units a t) Xs) (map np1 (axes_units a t axes)) = multi_interpolant Xs (map np1 axes).
Proof.
  intros Ha HX. unfold multi_interpolant.
  assert (G : map_result np_len (map np1 (axes_units a t axes)) = map_result np_len (map np1 axes)).
  { assert (Q : forall l : list vec, map_result np_len (map np1 l) = Ok (map (@length R) l)).
    { induction l as [|x l IH]; [reflexivity|]. cbn [map map_result]. unfold np_len, np1 at 1. cbn [a_shape bind]. fold np_len. rewrite IH. reflexivity. }
    now rewrite !Q, axes_units_lens. }
  rewrite G. apply bind_ext. intros glens _.
  destruct Xs as [|X0 Xs']; [reflexivity|]. set (Xs := X0 :: Xs') in *.
  change (map (in_units a t) Xs) with (in_units a t X0 :: map (in_units a t) Xs') at 1. unfold Xs at 2. cbv iota.
  change (a_shape (in_units a t X0)) with (a_shape X0). destruct (HX X0 (or_introl eq_refl)) as [n0 [S0 W0]]. rewrite S0. cbv iota.
  assert (N : map_result np_len (map (in_units a t) Xs) = map_result np_len Xs).
  { clear. induction Xs as [|X l IH]; [reflexivity|]. cbn [map map_result]. now rewrite IH. }
  rewrite N. 
  match goal with |- bind ?u _ = bind ?v _ => assert (E : u = v); [|rewrite E; reflexivity] end.
  destruct (Nat.eqb P 1) eqn:EP.
  - apply Nat.eqb_eq in EP. subst P. destruct axes as [|g l]; [reflexivity|].
    unfold axes_units. cbn [length]. rewrite tab_S_l. cbn [map nth].
    assert (M : forall ys : result (list csr), rmap (map (fun w : csr => w)) ys = ys) by (intros [y|]; [cbn; now rewrite map_id|reflexivity]).
    rewrite <- (M (map_result (fun X => interp_cubic (np1 g) (np_ravel X)) Xs)). apply (map_result_rmap _ _ (in_units a t) (fun w => w) Xs).
    intros X HI. destruct (HX X HI) as [n [S W]]. rewrite (ravel_units a t X n S). rewrite interp_cubic_units by easy.
    unfold np_ravel. now destruct (interp_cubic _ _).
  - destruct axes as [|gx [|gy l]]; [reflexivity|unfold axes_units; reflexivity|].
    unfold axes_units. cbn [length]. rewrite !tab_S_l. cbn [map nth].
    assert (M : forall ys : result (list csr), rmap (map (fun w : csr => w)) ys = ys) by (intros [y|]; [cbn; now rewrite map_id|reflexivity]).
    rewrite <- (M (map_result (interp_bicubic (np1 gx) (np1 gy)) Xs)). apply (map_result_rmap _ _ (in_units a t) (fun w => w) Xs).
    intros X HI. destruct (HX X HI) as [n [S W]].
    destruct (Nat.eq_dec P 2) as [->|NP].
    + rewrite (interp_bicubic_units a t gx gy X n) by easy. now destruct (interp_bicubic _ _ X).
    + unfold interp_bicubic. change (a_shape (in_units a t X)) with (a_shape X). rewrite S. unfold np1, np_size. cbn [a_shape]. rewrite !aff_length.
      destruct (Nat.eqb n 0); [reflexivity|]. try (destruct (negb _); [reflexivity|]). destruct (Nat.ltb _ 4); [reflexivity|].
      try (destruct (negb _); [reflexivity|]). destruct (Nat.ltb _ 4); [reflexivity|].
      destruct P as [|[|[|P]]]; try reflexivity. now elim NP.
Qed.
