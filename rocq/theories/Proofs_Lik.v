(** Proofs about the exact likelihood. *)

From Coq Require Import Reals List Arith Lia Lra ZArith.
From Coquelicot Require Import Coquelicot.
From Verif Require Import Base NDArray PSD Det Proofs_Shur Proofs_Det Model_Util Proofs_Util Model_Linalg Spec_Linalg Proofs_Linalg
  Model_Interp Proofs_Assemble Model_Kern Spec_Kern Proofs_Kern Model_FK Spec_FK Proofs_FK Model_Grid Spec_Grid Proofs_Grid Proofs_Grid2
  Model_Lik Spec_Lik.
Import ListNotations.
Open Scope R_scope.

(** ** Dense arrays *)

Lemma dense_ext n m a F G : (forall i j, (i < n)%nat -> (j < m)%nat -> F i j = G i j) -> dense n m a F -> dense n m a G.
Proof.
  intros H [H1 [H2 H3]]. split; [exact H1|]. split; [exact H2|]. intros i j Hi Hj. rewrite H3 by assumption. apply H; assumption.
Qed.

Lemma concat_tab_len n m (F : nat -> nat -> R) : length (concat (tab n (fun i => tab m (F i)))) = (n * m)%nat.
Proof.
  induction n as [|n IH]; [reflexivity|]. rewrite tab_S, concat_app, app_length, IH. cbn [concat].
  rewrite app_nil_r, tab_length. lia.
Qed.

Lemma dense_tab n m F : dense n m (mk_arr [n; m] (concat (tab n (fun i => tab m (F i))))) F.
Proof.
  split; [reflexivity|]. cbn [a_data]. split; [apply concat_tab_len|]. intros i j Hi Hj.
  apply (concat_mk_get n m F); assumption.
Qed.

Lemma dense_np2 n m F : dense n m (np2 n m (mk n m F)) F.
Proof. apply dense_tab. Qed.

Lemma idx_lt n m i j : (i < n)%nat -> (j < m)%nat -> (i * m + j < n * m)%nat.
Proof. intros Hi Hj. nia. Qed.

Lemma dense_map n m a F (g : R -> R) : dense n m a F -> dense n m (mk_arr (a_shape a) (map g (a_data a))) (fun i j => g (F i j)).
Proof.
  intros [H1 [H2 H3]]. split; [exact H1|]. cbn [a_data]. split; [now rewrite map_length|].
  intros i j Hi Hj. unfold vget. rewrite (nth_indep _ 0 (g 0)) by (rewrite map_length, H2; apply idx_lt; assumption).
  rewrite map_nth. f_equal. apply H3; assumption.
Qed.

Lemma dense_add n m a b F G : dense n m a F -> dense n m b G ->
  exists o, arr_add a b = Ok o /\ dense n m o (fun i j => F i j + G i j).
Proof.
  intros [A1 [A2 A3]] [B1 [B2 B3]]. unfold arr_add, arr_eqshape. rewrite A1, B1, dims_eqb_refl.
  eexists. split; [reflexivity|]. split; [reflexivity|]. cbn [a_data].
  rewrite (vec_as_tab (a_data a)), (vec_as_tab (a_data b)), A2, B2, vadd_tab. split; [now rewrite tab_length|].
  intros i j Hi Hj. rewrite vget_tab by (apply idx_lt; assumption). rewrite A3, B3 by assumption. reflexivity.
Qed.

Lemma dense_sum n m l Fs a0 : Forall2 (fun a F => dense n m a F) l Fs -> forall F0, dense n m a0 F0 ->
  exists o, arr_sum_from a0 l = Ok o /\ dense n m o (fun i j => F0 i j + lsum (map (fun F => F i j) Fs)).
Proof.
  intros H. revert a0. induction H as [|a F l Fs HF _ IH]; intros a0 F0 H0; cbn [arr_sum_from].
  - exists a0. split; [reflexivity|]. apply (dense_ext _ _ _ F0); [|exact H0]. intros. cbn. lra.
  - destruct (dense_add n m a0 a F0 F H0 HF) as [s [E Hs]]. rewrite E. cbn [bind].
    destruct (IH s _ Hs) as [o [Eo Ho]]. exists o. split; [exact Eo|]. eapply dense_ext; [|exact Ho].
    intros i j _ _. cbv beta. cbn [map]. change (lsum (F i j :: map (fun F => F i j) Fs)) with (F i j + lsum (map (fun F => F i j) Fs)). ring.
Qed.

Lemma dense_rows n m a F : dense n m a F -> arr_rows n m (a_data a) = mk n m F.
Proof.
  intros [H1 [H2 H3]]. unfold arr_rows. apply mk_ext. exact H3.
Qed.

Definition prod_eq_dec : forall x y : nat * nat, {x = y} + {x <> y}.
Proof. decide equality; apply Nat.eq_dec. Defined.

Lemma NoDup_list_prod {A B} (l : list A) (l' : list B) : NoDup l -> NoDup l' -> NoDup (list_prod l l').
Proof.
  induction l as [|x l IH]; intros H H'; [constructor|]. inversion H as [|? ? Hx Hl]; subst. cbn [list_prod].
  assert (N1 : NoDup (map (fun y => (x, y)) l')).
  { clear - H'. induction H' as [|y l' Hy _ IH']; cbn [map]; constructor; auto.
    intros HI. apply in_map_iff in HI. destruct HI as [z [E HI]]. injection E as ->. auto. }
  assert (N2 := IH Hl H').
  assert (N3 : forall p, In p (map (fun y => (x, y)) l') -> ~ In p (list_prod l l')).
  { intros p HI HJ. apply in_map_iff in HI. destruct HI as [y [<- _]]. apply in_prod_iff in HJ. tauto. }
  revert N1 N3. generalize (map (fun y => (x, y)) l') as l1. induction l1 as [|p l1 IH1]; intros N1 N3; [exact N2|].
  inversion N1; subst. cbn [app]. constructor.
  - rewrite in_app_iff. intros [E|E]; [auto|]. apply (N3 p); [now left|exact E].
  - apply IH1; auto. intros r Hr. apply N3. now right.
Qed.

(** ** _coreg_scale *)

Lemma owner_range lens i a : (i < nsum lens)%nat -> (a < length lens)%nat ->
  (owner lens i = a <-> (nsum (firstn a lens) <= i < nsum (firstn (S a) lens))%nat).
Proof.
  intros Hi Ha. 
  assert (ES : nsum (firstn (S a) lens) = (nsum (firstn a lens) + nth a lens 0)%nat).
  { clear Hi. revert a Ha. induction lens as [|n lens IH]; intros [|a] Ha; cbn in Ha; try lia.
    - cbn [firstn nth]. unfold nsum. cbn. lia.
    - change (firstn (S (S a)) (n :: lens)) with (n :: firstn (S a) lens). change (firstn (S a) (n :: lens)) with (n :: firstn a lens).
      unfold nsum in *. cbn [fold_right nth]. rewrite IH by lia. lia. }
  split.
  - intros <-. destruct (owner_lt lens i Hi) as [H1 [H2 H3]]. rewrite ES. lia.
  - intros [H1 H2]. rewrite ES in H2.
    replace i with (nsum (firstn a lens) + (i - nsum (firstn a lens)))%nat by lia.
    apply owner_offset; [exact Ha|lia].
Qed.

Lemma begin_end_get lens : lens <> [] -> exists b e, begin_end_indices lens = Ok (b, e) /\
  length b = length lens /\ length e = length lens /\
  forall a, (a < length lens)%nat -> nth a b 0%nat = nsum (firstn a lens) /\ nth a e 0%nat = nsum (firstn (S a) lens).
Proof.
  intros H. rewrite (begin_end_value lens H). do 2 eexists. split; [reflexivity|].
  assert (G : forall l s, length (begins_from s l) = length l /\ forall a, (a < length l)%nat -> nth a (begins_from s l) 0%nat = (s + nsum (firstn a l))%nat).
  { induction l as [|x l IH]; intros s; cbn [begins_from length]; [split; [reflexivity|intros; lia]|].
    destruct (IH (s + x)%nat) as [L N]. split; [lia|]. intros [|a] Ha; cbn [nth firstn].
    - unfold nsum. cbn. lia.
    - rewrite N by lia. unfold nsum. cbn [fold_right]. lia. }
  destruct (G lens 0%nat) as [L N]. split; [exact L|]. split; [apply accumulate_length|].
  intros a Ha. split; [apply N; exact Ha|apply accumulate_nth; exact Ha].
Qed.

Lemma scale_block_dense n m rb re cb ce c a F : dense n m a F ->
  dense n m (mk_arr [n; m] (scale_block n m rb re cb ce c (a_data a)))
    (fun i j => if (Nat.leb rb i && Nat.ltb i re && Nat.leb cb j && Nat.ltb j ce)%bool then F i j * c else F i j).
Proof.
  intros [H1 [H2 H3]]. unfold scale_block. eapply dense_ext; [|apply dense_tab].
  intros i j Hi Hj. cbv beta. rewrite !H3 by assumption. reflexivity.
Qed.

Lemma py_index_nth {A} (l : list A) i d : (i < length l)%nat -> py_index l i = Ok (nth i l d).
Proof. intros H. unfold py_index. rewrite (nth_error_nth' l d H). reflexivity. Qed.

Lemma coreg_scale_ok A a rlens clens D F : rlens <> [] -> length rlens = D -> length clens = D ->
  dense (nsum rlens) (nsum clens) a F ->
  exists o, coreg_scale A (KArr a) rlens clens D = Ok o /\
    dense (nsum rlens) (nsum clens) o (fun i j => F i j * mget A (owner rlens i) (owner clens j)).
Proof.
  intros Hne Hr Hc Ha.
  assert (Hne' : clens <> []) by (intros ->; destruct rlens; cbn in *; congruence).
  unfold coreg_scale.
  destruct (begin_end_get rlens Hne) as [rb [re [-> [Lrb [Lre Hrv]]]]].
  destruct (begin_end_get clens Hne') as [cb [ce [-> [Lcb [Lce Hcv]]]]].
  cbn [bind fst snd]. pose proof Ha as [Sa [La _]]. rewrite Sa.
  set (n := nsum rlens) in *. set (m := nsum clens) in *.
  set (step := fun acc ij => _).
  assert (Hst : forall l done (b : ndarr), (forall ij, In ij l -> (fst ij < D)%nat /\ (snd ij < D)%nat) ->
     NoDup (done ++ l) ->
     dense n m b (fun i j => if in_dec (prod_eq_dec) (owner rlens i, owner clens j) done
                             then F i j * mget A (owner rlens i) (owner clens j) else F i j) ->
     exists d, fold_left step l (Ok (a_data b)) = Ok d /\
       dense n m (mk_arr [n; m] d) (fun i j => if in_dec prod_eq_dec (owner rlens i, owner clens j) (done ++ l)
                             then F i j * mget A (owner rlens i) (owner clens j) else F i j)).
  { induction l as [|[u v] l IH]; intros done b Hin Hnd Hb.
    - exists (a_data b). split; [reflexivity|]. rewrite app_nil_r. destruct b as [sb db]. destruct Hb as [Hb1 Hb2]. cbn in Hb1. subst sb. split; auto.
    - assert (Huv := Hin (u, v) (or_introl eq_refl)). cbn [fst snd] in Huv.
      cbn [fold_left]. unfold step at 2. cbn [bind fst snd].
      rewrite (py_index_nth rb u 0%nat), (py_index_nth re u 0%nat), (py_index_nth cb v 0%nat), (py_index_nth ce v 0%nat) by lia.
      cbn [bind].
      destruct (Hrv u) as [-> ->]; [lia|]. destruct (Hcv v) as [-> ->]; [lia|].
      destruct (IH (done ++ [(u, v)]) (mk_arr [n; m] (scale_block n m (nsum (firstn u rlens)) (nsum (firstn (S u) rlens))
          (nsum (firstn v clens)) (nsum (firstn (S v) clens)) (mget A u v) (a_data b)))) as [d [E Hd]].
      + intros ij Hij. apply Hin. now right.
      + rewrite <- app_assoc. exact Hnd.
      + eapply dense_ext; [|apply scale_block_dense; exact Hb]. intros i j Hi Hj. cbv beta.
        assert (Ho1 := owner_range rlens i u Hi ltac:(lia)). assert (Ho2 := owner_range clens j v Hj ltac:(lia)).
        assert (Hni : ~ In (u, v) done).
        { intros HI. apply NoDup_remove_2 in Hnd. apply Hnd. apply in_or_app. now left. }
        assert (EB : (Nat.leb (nsum (firstn u rlens)) i && Nat.ltb i (nsum (firstn (S u) rlens)) &&
                Nat.leb (nsum (firstn v clens)) j && Nat.ltb j (nsum (firstn (S v) clens)))%bool
               = if prod_eq_dec (owner rlens i, owner clens j) (u, v) then true else false).
        { destruct (prod_eq_dec (owner rlens i, owner clens j) (u, v)) as [Eq|Nq].
          - injection Eq as E1 E2. apply Ho1 in E1. apply Ho2 in E2.
            destruct (Nat.leb_spec (nsum (firstn u rlens)) i), (Nat.ltb_spec i (nsum (firstn (S u) rlens))),
                (Nat.leb_spec (nsum (firstn v clens)) j), (Nat.ltb_spec j (nsum (firstn (S v) clens))); try lia; reflexivity.
          - destruct (Nat.leb_spec (nsum (firstn u rlens)) i), (Nat.ltb_spec i (nsum (firstn (S u) rlens))),
                (Nat.leb_spec (nsum (firstn v clens)) j), (Nat.ltb_spec j (nsum (firstn (S v) clens))); try reflexivity.
            exfalso. apply Nq. f_equal; [apply Ho1|apply Ho2]; lia. }
        rewrite EB. destruct (prod_eq_dec (owner rlens i, owner clens j) (u, v)) as [Eq|Nq].
        * rewrite Eq. destruct (in_dec prod_eq_dec (u, v) done); [tauto|].
          destruct (in_dec prod_eq_dec (u, v) (done ++ [(u, v)])) as [_|N]; [|exfalso; apply N; apply in_or_app; right; now left].
          injection Eq as -> ->. reflexivity.
        * destruct (in_dec prod_eq_dec (owner rlens i, owner clens j) done) as [I1|N1];
          destruct (in_dec prod_eq_dec (owner rlens i, owner clens j) (done ++ [(u, v)])) as [I2|N2]; try reflexivity.
          -- exfalso. apply N2. apply in_or_app. now left.
          -- exfalso. apply in_app_or in I2. destruct I2 as [I2|[I2|[]]]; congruence.
      + exists d. split; [exact E|]. rewrite <- app_assoc in Hd. exact Hd. }
  destruct (Hst (list_prod (seq 0 D) (seq 0 D)) [] a) as [d [E Hd]].
  - intros [u v] Hin. apply in_prod_iff in Hin. destruct Hin as [H1 H2]. apply in_seq in H1. apply in_seq in H2. cbn. lia.
  - cbn [app]. apply NoDup_list_prod; apply seq_NoDup.
  - eapply dense_ext; [|exact Ha]. intros. cbn. reflexivity.
  - rewrite E. cbn [bind]. eexists. split; [reflexivity|]. eapply dense_ext; [|exact Hd].
    intros i j Hi Hj. cbv beta. cbn [app].
    destruct (in_dec prod_eq_dec (owner rlens i, owner clens j) (list_prod (seq 0 D) (seq 0 D))) as [_|N]; [reflexivity|].
    exfalso. apply N. apply in_prod; apply in_seq.
    + destruct (owner_lt rlens i Hi). lia.
    + destruct (owner_lt clens j Hj). lia.
Qed.

(** ** Distances *)

Lemma vstack_ok P Xs lens : inputs P Xs lens -> Xs <> [] ->
  exists X, vstack Xs = Ok X /\ dense (nsum lens) P X (obs P Xs lens).
Proof.
  intros H Hne.
  assert (HA : forall X, In X Xs -> exists n, a_shape X = [n; P] /\ atleast_2d X = X).
  { intros X HX. apply (In_nth _ _ (mk_arr [] [])) in HX. destruct HX as [k [Hk <-]].
    assert (Hk' : (k < length lens)%nat) by (rewrite <- (Forall2_len _ _ _ H); exact Hk).
    revert k Hk Hk'. induction H as [|X n Xs lens [Hs _] _ IH]; intros k Hk Hk'; [cbn in Hk; lia|].
    destruct k as [|k]; cbn [nth].
    - exists n. split; [exact Hs|]. unfold atleast_2d. rewrite Hs. destruct X as [s d]. cbn in Hs. subst s. reflexivity.
    - apply IH; cbn in *; try lia. destruct Xs; [cbn in Hk; lia|congruence]. }
  unfold vstack. destruct (map atleast_2d Xs) as [|a0 l0] eqn:EM; [destruct Xs; cbn in EM; congruence|].
  assert (E0 : nth 1 (a_shape a0) 0%nat = P).
  { destruct Xs as [|X0 Xs]; [congruence|]. cbn in EM. injection EM as <- _. destruct (HA X0) as [n [Hn ->]]; [now left|]. rewrite Hn. reflexivity. }
  rewrite E0. clear EM E0 l0 a0.
  assert (EB : forallb (fun x => match a_shape (atleast_2d x) with [_; p] => Nat.eqb p P | _ => false end) Xs = true).
  { apply forallb_forall. intros X HX. destruct (HA X HX) as [n [Hn ->]]. rewrite Hn. apply Nat.eqb_refl. }
  rewrite EB.
  assert (EN : map (fun x => nth 0 (a_shape (atleast_2d x)) 0%nat) Xs = lens).
  { clear - H. induction H as [|X n Xs lens [Hs _] _ IH]; [reflexivity|]. cbn [map]. f_equal; [|exact IH].
    unfold atleast_2d. rewrite Hs. reflexivity. }
  rewrite EN. eexists. split; [reflexivity|]. split; [reflexivity|]. cbn [a_data]. clear HA EB EN Hne.
  split.
  - induction H as [|X n Xs lens [_ Hd] _ IH]; [reflexivity|]. cbn [map concat]. rewrite app_length, IH, Hd.
    unfold nsum. cbn [fold_right]. lia.
  - induction H as [|X n Xs lens [_ Hd] _ IH]; intros i p Hi Hp; [cbn in Hi; lia|].
    unfold nsum in Hi. cbn [fold_right] in Hi. fold (nsum lens) in Hi.
    cbn [map concat]. unfold obs, point. cbn [owner place].
    destruct (Nat.ltb_spec i n) as [L|L].
    + unfold vget at 1. rewrite app_nth1 by (rewrite Hd; apply idx_lt; assumption). reflexivity.
    + unfold vget at 1. rewrite app_nth2 by (rewrite Hd; nia). cbn [nth]. rewrite Hd.
      replace (i * P + p - n * P)%nat with ((i - n) * P + p)%nat by nia.
      specialize (IH (i - n)%nat p). unfold obs, point, vget in IH. apply IH; lia.
Qed.

Lemma take_cols_ok n P X F ad : dense n P X F -> (forall p, In p ad -> (p < P)%nat) ->
  exists o, take_cols ad X = Ok o /\ dense n (length ad) o (fun i k => F i (nth k ad 0%nat)).
Proof.
  intros [H1 [H2 H3]] Hin. unfold take_cols. rewrite H1.
  assert (E : forallb (fun d => Nat.ltb d P) ad = true).
  { apply forallb_forall. intros p Hp. apply Nat.ltb_lt. auto. }
  rewrite E. eexists. split; [reflexivity|].
  assert (ET : forall i, map (fun d => vget (a_data X) (i * P + d)) ad = tab (length ad) (fun k => vget (a_data X) (i * P + nth k ad 0%nat))).
  { intros i. rewrite (list_as_tab 0%nat ad) at 1. rewrite map_tab. reflexivity. }
  rewrite (tab_ext n _ _ (fun i _ => ET i)).
  eapply dense_ext; [|apply dense_tab]. intros i k Hi Hk. cbv beta. apply H3; [exact Hi|]. apply Hin. apply nth_In. exact Hk.
Qed.

Lemma row_of_ok n P X F i : dense n P X F -> (i < n)%nat -> row_of P X i = tab P (F i).
Proof. intros [_ [_ H]] Hi. unfold row_of. apply tab_ext. intros p Hp. apply H; assumption. Qed.

Lemma la_dist_on ad (x z : nat -> R) :
  la_dist (tab (length ad) (fun k => x (nth k ad 0%nat))) (tab (length ad) (fun k => z (nth k ad 0%nat))) = dist_on ad x z.
Proof.
  unfold la_dist, dist_on. rewrite combine_tab, map_tab, lsum_tab. cbn [fst snd].
  rewrite (Rsum_lsum 0%nat (fun p => (x p - z p) ^ 2)). reflexivity.
Qed.

Lemma cdist_ok n m ad X Z F G : dense n (length ad) X (fun i k => F i (nth k ad 0%nat)) ->
  dense m (length ad) Z (fun i k => G i (nth k ad 0%nat)) ->
  exists o, cdist X Z = Ok o /\ dense n m o (fun i j => dist_on ad (F i) (G j)).
Proof.
  intros HX HZ. unfold cdist. rewrite (proj1 HX), (proj1 HZ), Nat.eqb_refl. eexists. split; [reflexivity|].
  eapply dense_ext; [|apply dense_tab]. intros i j Hi Hj. cbv beta.
  rewrite (row_of_ok _ _ _ _ i HX Hi), (row_of_ok _ _ _ _ j HZ Hj). apply la_dist_on.
Qed.

Lemma gen_dists_ok ads n m P X Z F G : dense n P X F -> dense m P Z G ->
  (forall ad p, In ad ads -> In p ad -> (p < P)%nat) ->
  exists d, gen_dists ads X Z = Ok d /\ map fst d = ads /\
    forall ad, In ad ads -> exists o, dict_get d ad = Ok o /\ dense n m o (fun i j => dist_on ad (F i) (G j)).
Proof.
  intros HX HZ. unfold gen_dists. induction ads as [|ad ads IH]; intros Hin.
  - exists []. split; [reflexivity|]. split; [reflexivity|]. intros ad [].
  - cbn [map_result].
    destruct (take_cols_ok _ _ _ _ ad HX) as [x [Ex Hx]]; [intros p Hp; apply (Hin ad p); [now left|exact Hp]|].
    destruct (take_cols_ok _ _ _ _ ad HZ) as [z [Ez Hz]]; [intros p Hp; apply (Hin ad p); [now left|exact Hp]|].
    destruct (cdist_ok n m ad x z F G Hx Hz) as [o [Eo Ho]].
    rewrite Ex, Ez. cbn [bind]. rewrite Eo. cbn [bind].
    destruct IH as [d [Ed [Kd Hd]]]; [intros a p Ha Hp; apply (Hin a p); [now right|exact Hp]|].
    rewrite Ed. cbn [bind]. eexists. split; [reflexivity|]. cbn [map fst]. split; [now rewrite Kd|].
    intros a [->|Ha]; cbn [dict_get].
    + rewrite dims_eqb_refl. eauto.
    + destruct (dims_eqb a ad) eqn:EB; [apply dims_eqb_true in EB; subst; eauto|]. apply Hd. exact Ha.
Qed.

Lemma dict_get_args d ad : dict_get (as_args d) ad = let! a := dict_get d ad in Ok (Arr a).
Proof. induction d as [|[k v] d IH]; [reflexivity|]. cbn. destruct (dims_eqb ad k); [reflexivity|apply IH]. Qed.

(** ** Evaluation of the kernels on distances given per group *)

Section Eval.
Variables (f : fkernel) (P : nat) (d : dict ndarr) (n m : nat) (Dst : dims -> nat -> nat -> R).
Hypothesis Hok : fk_ok f.
Hypothesis HP : f_P f = Some P.
Hypothesis HPpos : (0 < P)%nat.
Hypothesis Hker : kernels_ok f.
Hypothesis Hd : forall ad, In ad (map fst (f_active f)) -> exists o, dict_get d ad = Ok o /\ dense n m o (Dst ad).

Lemma dims_key q : (q < f_Q f)%nat -> exists ad, dims_of f q = Some ad /\ qdims f q = ad /\ In ad (map fst (f_active f)).
Proof.
  intros Hq. pose proof (ok_dims _ Hok) as DI. rewrite HP in DI.
  destruct (do_some _ DI q Hq) as [ad Had]. exists ad. split; [exact Had|]. split; [unfold qdims; rewrite Had; reflexivity|].
  apply (keys_group f P Hok HP ad). intros E. assert (HI : In q (group f ad)) by (apply in_group; auto). rewrite E in HI. destruct HI.
Qed.

Definition dval (q : nat) : ndarr := match dict_get d (qdims f q) with Ok o => o | Err _ => mk_arr [] [] end.

Lemma dval_ok q : (q < f_Q f)%nat -> get_ad d (dims_of f q) = Ok (dval q) /\ dense n m (dval q) (Dst (qdims f q)).
Proof.
  intros Hq. destruct (dims_key q Hq) as [ad [E1 [E2 Hin]]]. destruct (Hd ad Hin) as [o [Eo Ho]].
  unfold dval. rewrite E1, E2. cbn [get_ad]. rewrite Eo. auto.
Qed.

Lemma eval_kernels_ok : eval_kernels f (as_args d) =
  Ok (tab (f_Q f) (fun q => KArr (mk_arr [n; m] (map (k_doc (kern_of f q)) (a_data (dval q)))))).
Proof.
  unfold eval_kernels. rewrite (assert_P_ok f P HP HPpos). cbn [bind].
  rewrite (list_as_tab (KIdentity, None) (f_kernels f)).
  change (length (f_kernels f)) with (f_Q f). unfold tab at 1. rewrite map_result_map.
  rewrite (map_result_all _ (fun q => KArr (mk_arr [n; m] (map (k_doc (kern_of f q)) (a_data (dval q)))))); [reflexivity|].
  intros q Hq. apply in_seq in Hq. destruct (dval_ok q) as [E [S1 S2]]; [lia|]. destruct (Hker q) as [Hp Ht]; [lia|].
  fold (dims_of f q). fold (kern_of f q).
  assert (Eg : get_ad (as_args d) (dims_of f q) = Ok (Arr (dval q))).
  { destruct (dims_of f q) as [ad|]; cbn [get_ad] in *; [|discriminate]. rewrite dict_get_args, E. reflexivity. }
  rewrite Eg. cbn [bind]. rewrite from_dist_arr; [|exact Hp|exact Ht|rewrite S1; discriminate]. rewrite S1. reflexivity.
Qed.

Lemma eval_grads_ok : eval_kernel_gradients f d =
  Ok (tab (f_Q f) (fun q => tab (length (params (kern_of f q))) (fun j =>
        KArr (mk_arr [n; m] (map (fun r => nth j (k_grad (kern_of f q) r) 0) (a_data (dval q))))))).
Proof.
  unfold eval_kernel_gradients. rewrite (assert_P_ok f P HP HPpos). cbn [bind].
  rewrite (list_as_tab (KIdentity, None) (f_kernels f)).
  change (length (f_kernels f)) with (f_Q f). unfold tab at 1. rewrite map_result_map.
  rewrite (map_result_all _ (fun q => tab (length (params (kern_of f q))) (fun j =>
        KArr (mk_arr [n; m] (map (fun r => nth j (k_grad (kern_of f q) r) 0) (a_data (dval q))))))); [reflexivity|].
  intros q Hq. apply in_seq in Hq. destruct (dval_ok q) as [E [S1 S2]]; [lia|]. destruct (Hker q) as [Hp Ht]; [lia|].
  fold (dims_of f q). fold (kern_of f q). rewrite E. cbn [bind].
  rewrite kernel_gradient_arr; [|exact Hp|exact Ht|rewrite S1; discriminate]. rewrite S1. reflexivity.
Qed.

Lemma kval_dense q (g : R -> R) : (q < f_Q f)%nat ->
  dense n m (mk_arr [n; m] (map g (a_data (dval q)))) (fun i j => g (Dst (qdims f q) i j)).
Proof.
  intros Hq. destruct (dval_ok q Hq) as [_ H]. rewrite <- (proj1 H). apply dense_map. exact H.
Qed.

Lemma sum_scaled_ok rlens clens : length rlens = f_D f -> length clens = f_D f -> n = nsum rlens -> m = nsum clens ->
  exists o, sum_scaled f (tab (f_Q f) (fun q => KArr (mk_arr [n; m] (map (k_doc (kern_of f q)) (a_data (dval q)))))) rlens clens = Ok o /\
    dense n m o (fun i j => Rsum (f_Q f) (fun q => B_of f q (owner rlens i) (owner clens j) * k_doc (kern_of f q) (Dst (qdims f q) i j))).
Proof.
  intros Hr Hc Hn Hm. unfold sum_scaled. rewrite (coreg_mats_all f Hok). cbn [bind]. rewrite combine_tab.
  set (cell := fun q i j => B_of f q (owner rlens i) (owner clens j) * k_doc (kern_of f q) (Dst (qdims f q) i j)).
  assert (Hne : rlens <> []) by (intros ->; pose proof (ok_D _ Hok); cbn in Hr; lia).
  destruct (map_result_ex (fun q => coreg_scale (mk (f_D f) (f_D f) (B_of f q)) (KArr (mk_arr [n; m] (map (k_doc (kern_of f q)) (a_data (dval q))))) rlens clens (f_D f))
     (fun q o => dense n m o (cell q)) (seq 0 (f_Q f))) as [l [El Hl]].
  { intros q Hq. apply in_seq in Hq.
    assert (HK := kval_dense q (k_doc (kern_of f q)) ltac:(lia)). rewrite Hn, Hm in HK.
    destruct (coreg_scale_ok (mk (f_D f) (f_D f) (B_of f q)) _ rlens clens (f_D f) _ Hne Hr Hc HK) as [o [Eo Ho]].
    rewrite Hn, Hm. exists o. split; [exact Eo|]. eapply dense_ext; [|exact Ho]. intros i j Hi Hj. cbv beta.
    unfold cell. rewrite mget_mk; [ring| |].
    - rewrite <- Hr. apply (owner_lt rlens i Hi).
    - rewrite <- Hc. apply (owner_lt clens j Hj). }
  unfold tab. rewrite map_result_map. cbn [fst snd]. rewrite El. cbn [bind].
  pose proof (ok_Q _ Hok) as HQ.
  assert (Hl' : Forall2 (fun a F => dense n m a F) l (map cell (seq 0 (f_Q f)))).
  { apply Forall2_map_r. apply Forall2_flip in Hl. exact Hl. }
  destruct l as [|a0 l].
  { apply Forall2_len in Hl'. rewrite map_length, seq_length in Hl'. cbn in Hl'. lia. }
  destruct (f_Q f) as [|Q'] eqn:EQ; [lia|]. cbn [seq map] in Hl'. inversion Hl' as [|? ? ? ? H0 Hrest]; subst.
  unfold arr_sum. destruct (dense_sum _ _ _ _ a0 Hrest _ H0) as [o [Eo Ho]]. exists o. split; [exact Eo|].
  eapply dense_ext; [|exact Ho]. intros i j Hi Hj. cbv beta. rewrite map_map, Rsum_S_l. f_equal.
  rewrite <- (seq_length Q' 1) at 2. rewrite <- (Rsum_lsum 0%nat (fun q => cell q i j)). apply Rsum_ext.
  intros k Hk. rewrite seq_length in Hk. rewrite seq_nth by exact Hk. reflexivity.
Qed.

End Eval.

(** ** kernel_from_indices *)

Lemma np_len_inputs P Xs lens : inputs P Xs lens -> map_result np_len Xs = Ok lens.
Proof.
  intros H. induction H as [|X n Xs lens [Hs _] _ IH]; [reflexivity|]. cbn [map_result].
  unfold np_len at 1. rewrite Hs. cbn [bind]. rewrite IH. reflexivity.
Qed.

Lemma keys_in_range f P ad p : fk_ok f -> f_P f = Some P -> dims_in_range f P -> In ad (map fst (f_active f)) -> In p ad -> (p < P)%nat.
Proof.
  intros Hok HP Hr Had Hp. apply (keys_group f P Hok HP ad) in Had.
  destruct (group f ad) as [|q l] eqn:E; [congruence|]. assert (HI : In q (group f ad)) by (rewrite E; now left).
  apply in_group in HI. destruct HI as [Hq Hdq]. apply (Hr q p Hq). unfold qdims. rewrite Hdq. exact Hp.
Qed.

Lemma kernel_from_indices_ok f P Xs Zs rlens clens : fk_ok f -> f_P f = Some P -> (0 < P)%nat -> kernels_ok f -> dims_in_range f P ->
  inputs P Xs rlens -> inputs P Zs clens -> length rlens = f_D f -> length clens = f_D f ->
  exists o, kernel_from_indices Xs Zs f = Ok o /\
    dense (nsum rlens) (nsum clens) o (fun i j =>
      lmc_cov f (owner rlens i) (obs P Xs rlens i) (owner clens j) (obs P Zs clens j)).
Proof.
  intros Hok HP HPp Hker Hdr HX HZ Hr Hc. pose proof (ok_D _ Hok) as HD.
  assert (NX : Xs <> []) by (intros ->; apply Forall2_len in HX; cbn in HX; lia).
  assert (NZ : Zs <> []) by (intros ->; apply Forall2_len in HZ; cbn in HZ; lia).
  unfold kernel_from_indices. rewrite (np_len_inputs P Xs rlens HX), (np_len_inputs P Zs clens HZ). cbn [bind].
  destruct (vstack_ok P Xs rlens HX NX) as [X [EX DX]]. destruct (vstack_ok P Zs clens HZ NZ) as [Z [EZ DZ]].
  rewrite EX, EZ. cbn [bind].
  destruct (gen_dists_ok (map fst (f_active f)) _ _ P X Z _ _ DX DZ) as [d [Ed [_ Hd]]].
  { intros ad p. apply keys_in_range; assumption. }
  rewrite Ed. cbn [bind].
  rewrite (eval_kernels_ok f P d _ _ _ Hok HP HPp Hker Hd). cbn [bind].
  destruct (sum_scaled_ok f P d _ _ _ Hok HP HPp Hd rlens clens Hr Hc eq_refl eq_refl) as [o [Eo Ho]].
  exists o. split; [exact Eo|]. exact Ho.
Qed.

(** ** Cholesky *)

Definition agree (n : nat) (F G : nat -> nat -> R) : Prop := forall i j, (i < n)%nat -> (j < n)%nat -> F i j = G i j.

Lemma chol_step n F G i j : sym (S n) F -> agree (S n) F G -> 0 < F O O -> (i < n)%nat -> (j < n)%nat ->
  schur1 F i j = G (S i) (S j) - G O (S i) / sqrt (G O O) * (G O (S j) / sqrt (G O O)).
Proof.
  intros Hs Ha H0 Hi Hj. unfold schur1. rewrite <- !Ha by lia. rewrite (Hs (S i) O) by lia.
  assert (S0 : 0 < sqrt (F O O)) by (apply sqrt_lt_R0; exact H0).
  assert (SQ : sqrt (F O O) * sqrt (F O O) = F O O) by (apply sqrt_sqrt; lra).
  rewrite <- SQ at 1. field. lra.
Qed.

Lemma potrs_ext n : forall U V b c, agree n U V -> (forall i, (i < n)%nat -> b i = c i) ->
  forall i, (i < n)%nat -> potrs n U b i = potrs n V c i.
Proof.
  induction n as [|m IH]; intros U V b c HU Hb i Hi; [lia|]. cbn [potrs]. cbv zeta.
  assert (E : forall j, (j < m)%nat ->
     potrs m (fun i j => U (S i) (S j)) (fun i => b (S i) - U O (S i) * (b O / U O O)) j
     = potrs m (fun i j => V (S i) (S j)) (fun i => c (S i) - V O (S i) * (c O / V O O)) j).
  { intros j Hj. apply IH; [|intros k Hk|exact Hj].
    - intros a b' Ha Hb'. apply HU; lia.
    - rewrite !HU, !Hb by lia. reflexivity. }
  destruct i as [|i]; [|apply E; lia].
  rewrite (Rsum_ext m _ _ (fun j Hj => f_equal2 Rmult (HU O (S j) ltac:(lia) ltac:(lia)) (E j Hj))).
  rewrite (HU O O), (Hb O) by lia. reflexivity.
Qed.

Lemma chol_ok n : forall F G, sym n F -> agree n F G -> pivots n F ->
  exists U, chol n G = Some U /\ (forall i, (i < n)%nat -> 0 < U i i) /\
    ln (det n F) = 2 * Rsum n (fun i => ln (U i i)) /\
    (forall i j, (i < n)%nat -> (j < n)%nat -> (j < i)%nat -> U i j = 0) /\
    (forall i j, (i < n)%nat -> (j < n)%nat -> Rsum n (fun k => U k i * U k j) = F i j) /\
    forall b, solves n F (potrs n U b) b.
Proof.
  induction n as [|m IH]; intros F G Hs Ha HP.
  - exists (fun _ _ => 0). cbn [chol]. split; [reflexivity|]. split; [intros; lia|]. split; [cbn; rewrite ln_1; ring|].
    repeat split; intros; try lia. intros i Hi; lia.
  - destruct HP as [P1 P2].
    assert (HG := Ha O O ltac:(lia) ltac:(lia)).
    destruct (IH (schur1 F) (fun i j => G (S i) (S j) - G O (S i) / sqrt (G O O) * (G O (S j) / sqrt (G O O))))
      as [U [EU [HU [Hl [Hlow [Hg Hp]]]]]].
    { apply schur1_sym. exact Hs. }
    { intros i j Hi Hj. apply (chol_step m); assumption. }
    { exact P2. }
    assert (S0 : 0 < sqrt (F O O)) by (apply sqrt_lt_R0; exact P1).
    assert (SQ : sqrt (F O O) * sqrt (F O O) = F O O) by (apply sqrt_sqrt; lra).
    cbn [chol]. rewrite <- HG in *. destruct (Rlt_dec 0 (F O O)) as [_|N]; [|tauto]. rewrite EU. clear EU.
    set (s := sqrt (F O O)) in *. clearbody s. symmetry in SQ.
    assert (E00 : G O O / s = s) by (rewrite <- HG, SQ; field; lra).
    eexists. split; [reflexivity|]. split; [|split; [|split; [|split]]].
    + intros [|i] Hi; [|apply HU; lia]. rewrite E00. exact S0.
    + rewrite det_pivot by lra. rewrite ln_mult; [|exact P1|apply det_pos; exact P2]. rewrite Hl, Rsum_S_l. cbv beta iota.
      rewrite E00, SQ, ln_mult by exact S0. ring.
    + intros [|i] [|j] Hi Hj Hij; try lia; [reflexivity|]. apply Hlow; lia.
    + intros i j Hi Hj. rewrite Rsum_S_l. destruct i as [|i], j as [|j]; cbv beta iota; try rewrite E00.
      * rewrite Rsum_zero by (intros; ring). rewrite SQ. ring.
      * rewrite Rsum_zero by (intros; ring). rewrite <- (Ha O (S j)) by lia. field. lra.
      * rewrite Rsum_zero by (intros; ring). rewrite <- (Ha O (S i)) by lia. rewrite (Hs (S i) O) by lia. field. lra.
      * rewrite Hg by lia. unfold schur1. rewrite <- !Ha by lia. rewrite (Hs (S i) O) by lia. rewrite SQ. field. lra.
    + intros b. apply solves_elim; [lra|]. cbn [potrs]. cbv zeta beta iota. rewrite E00.
      set (x := potrs m (fun i j => U i j) (fun i => b (S i) - G O (S i) / s * (b O / s))).
      split.
      * rewrite SQ. transitivity ((b O - s * Rsum m (fun j => G O (S j) / s * x j)) / (s * s)); [field; lra|].
        f_equal. f_equal. rewrite <- Rsum_scal_l. apply Rsum_ext. intros j Hj. rewrite <- Ha by lia.
        unfold x. field. lra.
      * apply (solves_ext m (schur1 F) (schur1 F) x _ (fun i => b (S i) - G O (S i) / s * (b O / s))); auto.
        -- intros i Hi. rewrite <- Ha by lia. rewrite (Hs (S i) O) by lia. rewrite SQ. field. lra.
        -- apply Hp.
Qed.

Lemma chol_conv n : forall F G U, sym n F -> agree n F G -> chol n G = Some U -> pivots n F.
Proof.
  induction n as [|m IH]; intros F G U Hs Ha E; [exact I|]. cbn [chol] in E.
  destruct (Rlt_dec 0 (G O O)) as [H|]; [|discriminate].
  destruct (chol m _) as [V|] eqn:EV; [|discriminate]. rewrite <- Ha in H by lia. split; [exact H|].
  refine (IH _ _ _ (schur1_sym m F Hs) _ EV). intros i j Hi Hj. apply (chol_step m); assumption.
Qed.
