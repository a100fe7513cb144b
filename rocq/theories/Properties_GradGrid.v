(** Properties of the summary of the gradient benchmark. *)

From Coq Require Import Reals List Arith ZArith Lia Lra Bool String.
From Verif Require Import Base Model_Util Model_GradGrid.
Import ListNotations.
Open Scope R_scope.

(** ** What should be run and shown *)

(** All combinations, in order *)
Definition combinations (validation : bool) : list (nat * R * string) :=
  list_prod (list_prod (if validation then [1; 5]%nat else [1; 5; 10]%nat)
                       (if validation then [1; 1 / 10] else [1; 1 / 10; 1 / 100; 1 / 1000; 1 / 10000]))
            ["rbf"; "periodic"; "matern"; "mix"]%string.

(** What bench.py is called with in run [i] of a combination: points for each
    output, outputs, rank, number of kernels, eps, kind of kernel *)
Definition call_at (validation : bool) (c : nat * R * string) (i : nat) : call :=
  let '(q, e, k) := c in if validation then (10, 1, 1, q, e, k, i)%nat else (500, 10, 3, q, e, k, i)%nat.

(** All errors were printed *)
Definition has_errors (p : report) : Prop := p_g1 p <> None /\ p_g2 p <> None /\ p_a1 p <> None /\ p_a2 p <> None.

(** The average of five numbers *)
Definition avg5 (x : nat -> R) : R := Rsum 5 x / 5.

(** ** Lemmas *)

Lemma fname_eqb_eq a b : fname_eqb a b = true <-> a = b.
Proof.
  destruct a as [[[[[[n d] r] q] e] k] i], b as [[[[[[n' d'] r'] q'] e'] k'] i']. cbn. rewrite !andb_true_iff, !Nat.eqb_eq, String.eqb_eq.
  destruct (Req_EM_T e e') as [E|E]; split.
  - intros ((((((-> & ->) & ->) & ->) & _) & ->) & ->). now subst.
  - intros [= -> -> -> -> _ -> ->]. tauto.
  - intros X. repeat match goal with H : _ /\ _ |- _ => destruct H end. discriminate.
  - intros [= _ _ _ _ X _ _]. contradiction.
Qed.

Definition name_of (v : bool) (c : nat * R * string) (i : nat) : fname :=
  let '(q, e, k) := c in let '(size, d, r) := sizes v in (size * 10, d, r, q, e, k, i)%nat.

Lemma job_files v bench id p : In p (job v bench id) -> exists c i, p = (name_of v c i, bench (call_at v c i)).
Proof.
  unfold job. destruct (_ <=? _)%nat; [easy|]. destruct (point v _) as [[q e] k]. destruct v; cbn [sizes]; intros H; apply in_map_iff in H;
    destruct H as (i & <- & _); exists (q, e, k), i; reflexivity.
Qed.

Lemma name_inj v c c' i i' : name_of v c i = name_of v c' i' -> c = c' /\ i = i'.
Proof. destruct c as [[q e] k], c' as [[q' e'] k']. unfold name_of. destruct v; cbn [sizes]; intros [= -> -> -> ->]; now split. Qed.

Lemma lookup_job v bench g i : In g (grid v) -> (i < 5)%nat -> lookup (all_jobs v bench) (name_of v (point v g) i) = Some (bench (call_at v (point v g) i)).
Proof.
  intros Hg Hi. unfold lookup.
  assert (I : In (name_of v (point v g) i, bench (call_at v (point v g) i)) (all_jobs v bench)).
  { destruct (In_nth _ _ (0, 0, 0)%nat Hg) as (id & Hid & E). apply in_flat_map. exists id. split.
    - apply in_seq. assert (L : (List.length (grid v) <= 60)%nat) by (destruct v; cbn; lia). lia.
    - unfold job. replace (List.length (grid v) <=? id)%nat with false by (symmetry; apply Nat.leb_gt; exact Hid). rewrite E.
      destruct (point v g) as [[q e] k]. unfold name_of, call_at. destruct v; cbn [sizes];
        (apply in_map_iff; exists i; split; [reflexivity|apply in_seq; lia]). }
  destruct (find _ _) as [p|] eqn:F.
  - apply find_some in F. destruct F as [F1 F2]. apply fname_eqb_eq in F2. apply in_flat_map in F1. destruct F1 as (id & _ & F1).
    apply job_files in F1. destruct F1 as (c & i' & ->). cbn [fst snd] in *. apply name_inj in F2. destruct F2 as [-> ->]. reflexivity.
  - pose proof (find_none _ _ F _ I) as N. cbn [fst] in N. assert (X : fname_eqb (name_of v (point v g) i) (name_of v (point v g) i) = true) by now apply fname_eqb_eq.
    congruence.
Qed.

Lemma points v : map (point v) (grid v) = combinations v.
Proof. destruct v; reflexivity. Qed.

Lemma somes_map {A B} (f : A -> B) l : somes (map (fun x => Some (f x)) l) = map f l.
Proof. unfold somes. induction l as [|a l IH]; cbn; [reflexivity|now rewrite IH]. Qed.

Lemma somes_short {A} (l : list (option A)) : (List.length (somes l) <= List.length l)%nat /\ (List.length (somes l) = List.length l <-> Forall (fun o => o <> None) l).
Proof.
  induction l as [|[a|] l [IH1 IH2]].
  - split; [cbn; lia|]. split; [constructor|reflexivity].
  - change (somes (Some a :: l)) with (a :: somes l). cbn [List.length]. split; [lia|]. split.
    + intros E. constructor; [discriminate|]. apply IH2. lia.
    + intros F. inversion F; subst. f_equal. now apply IH2.
  - change (somes (None :: l)) with (somes l). cbn [List.length]. split; [lia|]. split; [lia|]. intros F. inversion F; subst. easy.
Qed.

(** The reports of the five runs *)
Definition reps v (bench : call -> report) c : list report := map (fun i => bench (call_at v c i)) (seq 0 5).

Definition rows_of v bench c : list srow :=
  let runs := reps v bench c in
  let times := somes (map p_times runs) in
  if (List.length (somes (map p_g1 runs)) <=? 4)%nat then []
  else if (List.length (somes (map p_g2 runs)) <=? 4)%nat then []
  else if (List.length (somes (map p_a1 runs)) <=? 4)%nat then []
  else if (List.length (somes (map p_a2 runs)) <=? 4)%nat then []
  else [mk_srow 5000 10 3 (fst (fst c)) (snd (fst c)) (snd c) (awk_mean (map fst times) / awk_mean (map snd times))
         (bc_avg (somes (map p_g1 runs))) (bc_avg (somes (map p_g2 runs))) (bc_avg (somes (map p_a1 runs))) (bc_avg (somes (map p_a2 runs)))].

Lemma row_job v bench g : In g (grid v) -> summary_row v (all_jobs v bench) g = rows_of v bench (point v g).
Proof.
  intros Hg. pose proof (fun i => lookup_job v bench g i Hg) as L. unfold summary_row. destruct (point v g) as [[q e] k] eqn:P.
  unfold name_of in L. destruct (sizes v) as [[size d] r] eqn:S.
  rewrite (map_ext_in _ (fun i => Some (bench (call_at v (q, e, k) i)))) by (intros i Hi; apply in_seq in Hi; apply L; lia).
  rewrite somes_map. reflexivity.
Qed.

Lemma flat_map_map {A B C} (f : B -> list C) (g : A -> B) l : flat_map f (map g l) = flat_map (fun x => f (g x)) l.
Proof. induction l as [|a l IH]; cbn; [reflexivity|now rewrite IH]. Qed.

Lemma flat_map_eq {A B} (f g : A -> list B) l : (forall x, In x l -> f x = g x) -> flat_map f l = flat_map g l.
Proof. induction l as [|a l IH]; intros H; cbn; [reflexivity|]. rewrite (H a) by now left. rewrite IH; [reflexivity|]. intros x Hx. apply H. now right. Qed.

Lemma summary_rows v bench : summary v (all_jobs v bench) = flat_map (rows_of v bench) (combinations v).
Proof. unfold summary. rewrite <- points, flat_map_map. apply flat_map_eq. intros g Hg. now apply row_job. Qed.

Lemma short {A} (f : report -> option A) v bench c :
  (List.length (somes (map f (reps v bench c))) <=? 4)%nat = false <-> forall i, (i < 5)%nat -> f (bench (call_at v c i)) <> None.
Proof.
  rewrite Nat.leb_gt. pose proof (somes_short (map f (reps v bench c))) as [S1 S2].
  assert (L : List.length (map f (reps v bench c)) = 5%nat) by (unfold reps; rewrite !map_length; apply seq_length). rewrite L in S1, S2.
  split.
  - intros H i Hi. assert (E : Forall (fun o => o <> None) (map f (reps v bench c))) by (apply S2; lia).
    rewrite Forall_forall in E. apply E, in_map. unfold reps. apply in_map_iff. exists i. split; [reflexivity|apply in_seq; lia].
  - intros H. enough (List.length (somes (map f (reps v bench c))) = 5%nat) by lia. apply S2. apply Forall_forall. intros o Ho.
    apply in_map_iff in Ho. destruct Ho as (p & <- & Hp). unfold reps in Hp. apply in_map_iff in Hp. destruct Hp as (i & <- & Hi). apply in_seq in Hi. apply H. lia.
Qed.

Lemma bc_numbers (f : report -> option num) v bench c x :
  (forall i, (i < 5)%nat -> f (bench (call_at v c i)) = Some (Some (x i))) -> bc_avg (somes (map f (reps v bench c))) = avg5 x.
Proof.
  intros H. unfold reps. rewrite map_map. rewrite (map_ext_in _ (fun i => Some (Some (x i)))) by (intros i Hi; apply in_seq in Hi; apply H; lia).
  rewrite somes_map. unfold bc_avg, avg5, total. cbn. field.
Qed.

Lemma time_numbers v bench c t u :
  (forall i, (i < 5)%nat -> p_times (bench (call_at v c i)) = Some (t i, u i)) ->
  let times := somes (map p_times (reps v bench c)) in awk_mean (map fst times) = avg5 t /\ awk_mean (map snd times) = avg5 u.
Proof.
  intros H. cbv zeta. unfold reps. rewrite map_map. rewrite (map_ext_in _ (fun i => Some (t i, u i))) by (intros i Hi; apply in_seq in Hi; apply H; lia).
  rewrite somes_map. unfold awk_mean, avg5, total. cbn. split; field.
Qed.

(** ** C104: the summary *)

(** Whatever the runs of bench.py print, the summary goes through all
    combinations in order, and shows one line for each of which all five runs
    printed all errors, and none for the others.  The line shows the combination,
    the ratio of the average times and the average errors over the five runs,
    for errors that are numbers. *)
Theorem C104_summary :
  forall v bench, exists rows, summary v (all_jobs v bench) = flat_map rows (combinations v) /\
    forall q e k, let c := (q, e, k) in
      ((exists i, (i < 5)%nat /\ ~ has_errors (bench (call_at v c i))) -> rows c = []) /\
      ((forall i, (i < 5)%nat -> has_errors (bench (call_at v c i))) ->
       exists s, rows c = [s] /\ s_q s = q /\ s_eps s = e /\ s_k s = k /\
         (forall t u, (forall i, (i < 5)%nat -> p_times (bench (call_at v c i)) = Some (t i, u i)) -> s_time s = avg5 t / avg5 u) /\
         (forall x, (forall i, (i < 5)%nat -> p_g1 (bench (call_at v c i)) = Some (Some (x i))) -> s_g1 s = avg5 x) /\
         (forall x, (forall i, (i < 5)%nat -> p_g2 (bench (call_at v c i)) = Some (Some (x i))) -> s_g2 s = avg5 x) /\
         (forall x, (forall i, (i < 5)%nat -> p_a1 (bench (call_at v c i)) = Some (Some (x i))) -> s_a1 s = avg5 x) /\
         (forall x, (forall i, (i < 5)%nat -> p_a2 (bench (call_at v c i)) = Some (Some (x i))) -> s_a2 s = avg5 x)).
Proof.
  intros v bench. exists (rows_of v bench). split; [apply summary_rows|]. intros q e k. cbv zeta. split.
  - intros (i & Hi & N). unfold rows_of. cbv zeta.
    destruct (_ <=? 4)%nat eqn:E1; [reflexivity|]. destruct (List.length (somes (map p_g2 _)) <=? 4)%nat eqn:E2; [reflexivity|].
    destruct (List.length (somes (map p_a1 _)) <=? 4)%nat eqn:E3; [reflexivity|]. destruct (List.length (somes (map p_a2 _)) <=? 4)%nat eqn:E4; [reflexivity|].
    exfalso. apply N. rewrite short in E1, E2, E3, E4. unfold has_errors. auto.
  - intros H. unfold rows_of. cbv zeta.
    rewrite (proj2 (short p_g1 v bench (q, e, k))), (proj2 (short p_g2 v bench (q, e, k))), (proj2 (short p_a1 v bench (q, e, k))), (proj2 (short p_a2 v bench (q, e, k)))
      by (intros i Hi; apply (H i Hi)).
    eexists. split; [reflexivity|]. cbn [s_q s_eps s_k s_time s_g1 s_g2 s_a1 s_a2 fst snd]. do 3 (split; [reflexivity|]).
    split; [|repeat split; intros x Hx; now apply bc_numbers].
    intros t u Ht. destruct (time_numbers v bench (q, e, k) t u Ht) as [-> ->]. reflexivity.
Qed.
Print Assumptions C104_summary.

(** If all runs print all errors there are 60 lines, 16 in validation: with the
    heading and the empty line the 18 that the validation looks for. *)
Theorem C104_count :
  forall v bench, (forall c i, In c (combinations v) -> (i < 5)%nat -> has_errors (bench (call_at v c i))) ->
    List.length (summary v (all_jobs v bench)) = if v then 16%nat else 60%nat.
Proof.
  intros v bench H. destruct (C104_summary v bench) as (rows & -> & R).
  assert (L : forall l, (forall c, In c l -> In c (combinations v)) -> List.length (flat_map rows l) = List.length l).
  { induction l as [|[[q e] k] l IH]; intros Hl; [reflexivity|]. cbn [flat_map]. rewrite app_length, IH by (intros c Hc; apply Hl; now right).
    destruct (R q e k) as [_ R2]. destruct R2 as (s & -> & _); [|reflexivity]. intros i Hi. apply H; [apply Hl; now left|exact Hi]. }
  rewrite L by auto. destruct v; reflexivity.
Qed.
Print Assumptions C104_count.

(** In the full benchmark every line shows the number of points, of outputs and
    the rank with which bench.py was called.  Missing: validation, see
    [C104_sizes_refuted]. *)
Theorem C104_sizes_partial :
  forall bench s, In s (summary false (all_jobs false bench)) ->
    exists n_o, s_n s = (n_o * s_d s)%nat /\
      forall i, call_at false (s_q s, s_eps s, s_k s) i = (n_o, s_d s, s_r s, s_q s, s_eps s, s_k s, i).
Proof.
  intros bench s H. rewrite summary_rows in H. apply in_flat_map in H. destruct H as ([[q e] k] & Hc & H).
  unfold rows_of in H. cbv zeta in H. repeat match type of H with context [if ?b then _ else _] => destruct b; [easy|] end.
  destruct H as [<-|[]]. exists 500%nat. cbn [s_q s_eps s_k s_n s_d s_r fst snd]. split; reflexivity.
Qed.
Print Assumptions C104_sizes_partial.

(** Five runs with errors of 1, but for run 0 whose first error is nan *)
Definition ex_bench (c : call) : report :=
  let i := snd c in
  mk_report (Some (2, 1)) (Some (if (i =? 0)%nat then None else Some 1)) (Some (Some 1)) (Some (Some (INR i))) (Some (Some 1)).

Lemma ex_errors c : has_errors (ex_bench c).
Proof. unfold has_errors, ex_bench. cbn. repeat split; discriminate. Qed.

(** In validation the lines show 5000 points, 10 outputs and rank 3, though
    bench.py was called for 10 points of one output and rank 1. *)
Theorem C104_sizes_refuted :
  exists bench s, In s (summary true (all_jobs true bench)) /\ s_n s = 5000%nat /\ s_d s = 10%nat /\ s_r s = 3%nat /\
    forall i, call_at true (s_q s, s_eps s, s_k s) i = (10, 1, 1, s_q s, s_eps s, s_k s, i)%nat.
Proof.
  exists ex_bench. eexists. split.
  - rewrite summary_rows. cbn [combinations list_prod map app flat_map]. apply in_or_app. left. cbn. left. reflexivity.
  - cbn [s_q s_eps s_k s_n s_d s_r fst snd]. repeat split.
Qed.
Print Assumptions C104_sizes_refuted.

(** A run whose error is nan counts as a run without error: four errors of 1 and
    one nan are shown as an average of 4/5. *)
Theorem C104_nan_refuted :
  exists v bench s q e k, In s (summary v (all_jobs v bench)) /\ (s_q s, s_eps s, s_k s) = (q, e, k) /\
    p_g1 (bench (call_at v (q, e, k) 0%nat)) = Some None /\
    (forall i, (1 <= i < 5)%nat -> p_g1 (bench (call_at v (q, e, k) i)) = Some (Some 1)) /\ s_g1 s = 4 / 5.
Proof.
  exists false, ex_bench. eexists. exists 1%nat, 1, "rbf"%string. split.
  - rewrite summary_rows. cbn [combinations list_prod map app flat_map]. apply in_or_app. left. cbn. left. reflexivity.
  - cbn [s_q s_eps s_k s_g1 fst snd]. repeat split.
    + intros i Hi. unfold ex_bench, call_at. cbn [snd]. destruct (Nat.eqb_spec i 0); [lia|reflexivity].
    + unfold bc_avg, total. cbn. field.
Qed.
Print Assumptions C104_nan_refuted.

(** ** Instance *)

(** 60 lines; each shows the time ratio 2 and, as error of alpha, the average of
    0 to 4. *)
Example C104_summary_ex :
  List.length (summary false (all_jobs false ex_bench)) = 60%nat /\
  forall s, In s (summary false (all_jobs false ex_bench)) -> s_time s = 2 /\ s_a1 s = 2.
Proof.
  split; [apply (C104_count false); intros; apply ex_errors|]. destruct (C104_summary false ex_bench) as (rows & -> & R).
  intros s H. apply in_flat_map in H. destruct H as ([[q e] k] & _ & H). destruct (R q e k) as [_ R2].
  destruct R2 as (s' & E & _ & _ & _ & T & _ & _ & A & _); [intros; apply ex_errors|]. rewrite E in H. destruct H as [<-|[]]. split.
  - rewrite (T (fun _ => 2) (fun _ => 1)) by reflexivity. unfold avg5. cbn. field.
  - rewrite (A INR) by reflexivity. unfold avg5. cbn. field.
Qed.
