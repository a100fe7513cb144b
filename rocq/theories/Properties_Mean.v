(** Properties of the mean functions. *)

From Coq Require Import Reals List Arith Lia Lra Bool.
From Coquelicot Require Import Coquelicot.
From Verif Require Import Base Model_Util Proofs_Util Model_Linalg Proofs_Linalg Model_Kern Model_Mean.
Import ListNotations.
Open Scope R_scope.

(** ** C49 *)

(** The inputs the documentation asks for: one one-dimensional array per
    output. *)
Definition proper_inputs (D : nat) (Xs : list ndarr) : Prop := length Xs = D /\ forall X, In X Xs -> exists n, a_shape X = [n].
Definition npoints (Xs : list ndarr) (d : nat) : nat := match a_shape (nth d Xs (mk_arr [] [])) with [n] => n | _ => 0%nat end.

Lemma validate_ndim_ok Xs : validate_ndim Xs = Ok tt <-> forall X, In X Xs -> exists n, a_shape X = [n].
Proof.
  induction Xs as [|X Xs IH]; [split; [intros _ X []|reflexivity]|]. cbn [validate_ndim]. destruct (Nat.eqb_spec (length (a_shape X)) 1) as [E|E].
  - rewrite IH. split; intros H.
    + intros Y [<-|HY]; [|now apply H]. destruct (a_shape X) as [|n [|? ?]]; try discriminate E. now exists n.
    + intros Y HY. apply H. now right.
  - split; [discriminate|]. intros H. destruct (H X) as [n En]; [now left|]. rewrite En in E. now destruct E.
Qed.
Lemma validate_ndim_err Xs e : validate_ndim Xs = Err e -> e = ValueError.
Proof. induction Xs as [|X Xs IH]; [discriminate|]. cbn [validate_ndim]. destruct (Nat.eqb _ _); [exact IH|]. intros H. now injection H. Qed.
Lemma validate_ok D Xs : validate_inputs D Xs = Ok tt <-> proper_inputs D Xs.
Proof.
  unfold validate_inputs, proper_inputs. destruct (Nat.eqb_spec (length Xs) D) as [E|E]; [|split; [discriminate|intros [? _]; contradiction]].
  rewrite validate_ndim_ok. tauto.
Qed.
Lemma validate_cases D Xs : validate_inputs D Xs = Ok tt \/ validate_inputs D Xs = Err ValueError.
Proof.
  unfold validate_inputs. destruct (Nat.eqb _ _); [|now right]. destruct (validate_ndim Xs) as [[]|e] eqn:E; [now left|]. apply validate_ndim_err in E. subst. now right.
Qed.

Lemma shape_at D Xs d : proper_inputs D Xs -> (d < D)%nat -> a_shape (nth d Xs (mk_arr [] [])) = [npoints Xs d].
Proof.
  intros [L H] Hd. unfold npoints. destruct (H (nth d Xs (mk_arr [] []))) as [n E]; [apply nth_In; lia|]. now rewrite E.
Qed.

Lemma map_result_tabs {A B} (f : A -> result B) (g : nat -> B) l (d : A) :
  (forall i, (i < length l)%nat -> f (nth i l d) = Ok (g i)) -> map_result f l = Ok (tab (length l) g).
Proof.
  revert g. induction l as [|a l IH]; intros g H; [reflexivity|]. cbn [map_result]. pose proof (H 0%nat ltac:(cbn; lia)) as H0. cbn [nth] in H0. rewrite H0. cbn [bind].
  rewrite (IH (fun i => g (S i))) by (intros i Hi; apply (H (S i)); cbn [length]; lia). cbn [bind length]. f_equal. unfold tab. cbn [seq map]. f_equal. now rewrite <- seq_shift, map_map.
Qed.

Lemma constant_f D c Xs : proper_inputs D Xs -> length c = D ->
  mean_f (Constant D c) Xs = Ok (tab D (fun d => tab (npoints Xs d) (fun _ => 1 * vget c d))).
Proof.
  intros Hp Lc. cbn [mean_f]. rewrite (proj2 (validate_ok D Xs) Hp). cbn [bind].
  pose proof Hp as [L _]. replace D with (length (combine Xs c)) at 1 by (rewrite combine_length; lia).
  apply (map_result_tabs _ (fun d => tab (npoints Xs d) (fun _ => 1 * vget c d)) _ (mk_arr [] [], 0)).
  intros i Hi. rewrite combine_length in Hi. rewrite combine_nth by lia. cbn [fst snd]. unfold np_len. rewrite (shape_at D) by (auto; lia). cbn [bind]. f_equal.
  unfold tab. rewrite map_map. reflexivity.
Qed.

(** [Constant] evaluates to the offset of the output on each of its points,
    whatever the offsets have become since construction. *)
Theorem C49_constant :
  forall P D c0 m c Xs, new_constant P D c0 = Ok m -> length c = D -> proper_inputs D Xs ->
    exists fs, mean_f (set_c m c) Xs = Ok fs /\ length fs = D /\
      forall d, (d < D)%nat -> length (nth d fs []) = npoints Xs d /\ forall k, (k < npoints Xs d)%nat -> vget (nth d fs []) k = vget c d.
Proof.
  intros P D c0 m c Xs Hn Lc Hp.
  assert (Em : set_c m c = Constant D c).
  { unfold new_constant in Hn. destruct (mean_init P) as [[]|]; [|discriminate Hn]. cbn [bind] in Hn. destruct (list_eq_dec _ _ _); [|discriminate Hn]. injection Hn as <-. reflexivity. }
  rewrite Em, (constant_f D c Xs Hp Lc). eexists. split; [reflexivity|]. split; [apply tab_length|].
  intros d Hd. rewrite nth_tab by exact Hd. rewrite tab_length. split; [reflexivity|]. intros k Hk. rewrite vget_tab by exact Hk. lra.
Qed.
Print Assumptions C49_constant.

(** Its gradient has one entry per offset, and each number in it is the
    derivative of the value at the corresponding point. *)
Theorem C49_gradient :
  forall P D c0 m c Xs, new_constant P D c0 = Ok m -> length c = D -> proper_inputs D Xs ->
    exists G, mean_gradient (set_c m c) Xs = Ok G /\ length G = D /\
      forall j i, (j < D)%nat -> (i < D)%nat -> length (nth j G []) = D /\ length (nth i (nth j G []) []) = npoints Xs i /\
        forall k, (k < npoints Xs i)%nat ->
          is_derive (fun t => match mean_f (set_c m (tab D (fun l => if Nat.eqb l j then t else vget c l))) Xs with
                              | Ok fs => vget (nth i fs []) k
                              | Err _ => 0
                              end)
            (vget c j) (vget (nth i (nth j G []) []) k).
Proof.
  intros P D c0 m c Xs Hn Lc Hp.
  assert (Em : forall c, set_c m c = Constant D c).
  { unfold new_constant in Hn. destruct (mean_init P) as [[]|]; [|discriminate Hn]. cbn [bind] in Hn. destruct (list_eq_dec _ _ _); [|discriminate Hn]. injection Hn as <-. reflexivity. }
  assert (EG : mean_gradient (Constant D c) Xs = Ok (tab D (fun j => tab D (fun i => tab (npoints Xs i) (fun _ => if Nat.eqb j i then 1 else 0))))).
  { cbn [mean_gradient]. rewrite Lc. replace (tab D) with (@tab (list (list R)) (length (seq 0 D))) by (now rewrite seq_length).
    apply (map_result_tabs _ _ _ 0%nat). rewrite seq_length. intros j Hj. rewrite seq_nth, Nat.add_0_l by exact Hj. pose proof Hp as [L _].
    assert (Lc' : length (combine (seq 0 (length Xs)) Xs) = D) by (rewrite combine_length, seq_length; lia).
    rewrite (map_result_tabs _ (fun i => tab (npoints Xs i) (fun _ => if Nat.eqb j i then 1 else 0)) _ (0%nat, mk_arr [] [])); [now rewrite Lc'|].
    rewrite Lc'. intros i Hi. rewrite combine_nth by (apply seq_length). cbn [fst snd]. rewrite seq_nth, Nat.add_0_l by lia. unfold np_len. rewrite (shape_at D) by auto. cbn [bind]. now destruct (Nat.eqb j i). }
  rewrite Em, EG. eexists. split; [reflexivity|]. split; [apply tab_length|]. intros j i Hj Hi. rewrite !nth_tab, !tab_length by assumption. split; [reflexivity|]. split; [reflexivity|].
  intros k Hk. rewrite vget_tab by exact Hk.
  apply (is_derive_ext (fun t => 1 * (if Nat.eqb i j then t else vget c i))).
  - intros t. rewrite Em, constant_f by (auto using tab_length). rewrite nth_tab, !vget_tab by assumption. reflexivity.
  - rewrite (Nat.eqb_sym j i). destruct (Nat.eqb i j); auto_derive; auto; ring.
Qed.
Print Assumptions C49_gradient.

(** The offsets start at the given vector, by default at zero. *)
Theorem C49_initial :
  forall D c0 m, new_constant 1 D c0 = Ok m -> m = set_c m (match c0 with Some c => a_data c | None => tab D (fun _ => 0) end).
Proof. intros D c0 m H. unfold new_constant in H. cbn in H. destruct (list_eq_dec _ _ _); [|discriminate H]. injection H as <-. now destruct c0. Qed.
Print Assumptions C49_initial.

(** [Zero] is zero and has no parameters. *)
Theorem C49_zero :
  forall P D m Xs, new_zero P D = Ok m ->
    (proper_inputs D Xs ->
      exists fs, mean_f m Xs = Ok fs /\ length fs = D /\
        forall d, (d < D)%nat -> length (nth d fs []) = npoints Xs d /\ forall k, (k < npoints Xs d)%nat -> vget (nth d fs []) k = 0) /\
    mean_gradient m Xs = Ok [].
Proof.
  intros P D m Xs Hn. unfold new_zero in Hn. destruct (mean_init P) as [[]|]; [|discriminate Hn]. cbn [bind] in Hn. injection Hn as <-. split; [|reflexivity].
  intros Hp. cbn [mean_f]. rewrite (proj2 (validate_ok D Xs) Hp). cbn [bind]. pose proof Hp as [L _].
  rewrite (map_result_tabs _ (fun d => tab (npoints Xs d) (fun _ => 0)) Xs (mk_arr [] [])).
  - eexists. split; [reflexivity|]. rewrite tab_length. split; [exact L|]. intros d Hd. rewrite nth_tab, tab_length by lia. split; [reflexivity|]. intros k Hk. now apply vget_tab.
  - intros i Hi. unfold np_len. rewrite (shape_at D) by (auto; lia). reflexivity.
Qed.
Print Assumptions C49_zero.

(** Everything else is refused: [f] raises ValueError exactly on improper
    inputs; the constructors accept exactly one-dimensional input and a
    vector with one offset per output. *)
Theorem C49_errors :
  (forall m Xs D, (exists c, m = Constant D c /\ length c = D) \/ m = Zero D -> ~ proper_inputs D Xs -> mean_f m Xs = Err ValueError) /\
  (forall P D c0, (exists m, new_constant P D c0 = Ok m) <-> P = 1%nat /\ forall c, c0 = Some c -> a_shape c = [D]) /\
  (forall D c0, (exists m, new_constant 1 D c0 = Ok m) \/ new_constant 1 D c0 = Err ValueError) /\
  (forall P D c0, P <> 1%nat -> new_constant P D c0 = Err AssertionError /\ new_zero P D = Err AssertionError) /\
  (forall D, exists m, new_zero 1 D = Ok m).
Proof.
  split; [|split; [|split; [|split]]].
  - intros m Xs D Hm Hp. assert (E : validate_inputs D Xs = Err ValueError) by (destruct (validate_cases D Xs) as [E|E]; [apply validate_ok in E; contradiction|exact E]).
    destruct Hm as [(c & -> & _)| ->]; cbn [mean_f]; now rewrite E.
  - intros P D c0. unfold new_constant, mean_init. destruct (Nat.eqb_spec P 1) as [->|E]; cbn [bind].
    + destruct c0 as [c|]; cbn [a_shape]; destruct (list_eq_dec _ _ _) as [E|E]; split; intros H; try (eexists; reflexivity); try (destruct H as [m H]; discriminate H).
      * split; [reflexivity|]. intros c' Ec. injection Ec as <-. exact E.
      * destruct H as [_ H]. destruct E. now apply H.
      * split; [reflexivity|discriminate].
      * now destruct E.
    + split; [intros [m H]; discriminate H|intros [H _]; contradiction].
  - intros D c0. unfold new_constant. cbn [mean_init Nat.eqb bind]. destruct (list_eq_dec _ _ _); [left; eexists; reflexivity|now right].
  - intros P D c0 HP. unfold new_constant, new_zero, mean_init. destruct (Nat.eqb_spec P 1); [contradiction|]. now split.
  - intros D. eexists. reflexivity.
Qed.
Print Assumptions C49_errors.

Example C49_ex :
  exists m, new_constant 1 2 (Some (mk_arr [2%nat] [3; 5])) = Ok m /\ proper_inputs 2 [mk_arr [2%nat] [7; 8]; mk_arr [3%nat] [1; 2; 3]] /\
    mean_f m [mk_arr [2%nat] [7; 8]; mk_arr [3%nat] [1; 2; 3]] = Ok [[1 * 3; 1 * 3]; [1 * 5; 1 * 5; 1 * 5]] /\
    mean_gradient m [mk_arr [2%nat] [7; 8]; mk_arr [3%nat] [1; 2; 3]] = Ok [[[1; 1]; [0; 0; 0]]; [[0; 0]; [1; 1; 1]]] /\
    mean_f m [mk_arr [2%nat] [7; 8]] = Err ValueError /\
    mean_f m [mk_arr [2%nat] [7; 8]; mk_arr [1%nat; 3%nat] [1; 2; 3]] = Err ValueError.
Proof.
  eexists. split; [reflexivity|]. split; [split; [reflexivity|intros X [<-|[<-|[]]]; eexists; reflexivity]|]. repeat split; reflexivity.
Qed.
