(** Properties of the tables of the comparison of representations. *)

From Coq Require Import Reals List Arith ZArith Lia Lra Bool Ascii String.
From Verif Require Import Base Model_Util Model_Regex Model_Clean Model_BenchPy Properties_BenchPy Model_Cmp.
Import ListNotations.
Open Scope R_scope.

(** The average of the times [t] of [k] runs *)
Definition avg (k : nat) (t : nat -> R) : R := Rsum k t / INR k.

(** The files of [k] runs: for run [f] and the setting with numbers [d], [r],
    [q], method [j] took [t f d r q j] seconds; what else is printed does not
    matter. *)
Definition cmp_files (k N : nat) (t : nat -> nat -> nat -> nat -> nat -> R) (e : nat -> nat -> nat -> nat -> nat -> R)
  (it : nat -> nat -> nat -> nat -> nat -> nat) (mid : nat -> nat -> nat -> nat -> list line) : list (list line) :=
  map (fun f => inv_run (fun n d r q => bench_inv n d r q (mid f d r q) (fun j => (e f d r q j, t f d r q j, it f d r q j))) N) (seq 0 k).

(** ** Lemmas *)

Lemma tail_n_app {A} (l m : list A) k : List.length m = k -> tail_n k (l ++ m) = m.
Proof.
  intros <-. unfold tail_n. rewrite app_length. replace (List.length l + List.length m - List.length m)%nat with (List.length l + 0)%nat by lia.
  rewrite skipn_app, skipn_all2 by lia. now replace (List.length l + 0 - List.length l)%nat with 0%nat by lia.
Qed.

Definition meths (ms : nat -> R * R * nat) : list line := map (fun p => let '(e, s, it) := ms (fst p) in Meth e s it (snd p)) (combine (seq 0 5) methods).

Lemma bench_tail n d r q mid ms : tail_n 5 (bench_inv n d r q mid ms) = meths ms.
Proof. unfold bench_inv. fold (meths ms). rewrite app_comm_cons. now apply tail_n_app. Qed.

Lemma run_lines N mid (ms : nat -> nat -> nat -> nat -> R * R * nat) :
  inv_run (fun n d r q => bench_inv n d r q (mid d r q) (ms d r q)) N =
  (Title N 2 2 10 :: Head (N / 2) 2 2 10 :: meths (ms 2 2 10)%nat) ++
  (Title N 10 1 10 :: Head (N / 10) 10 1 10 :: meths (ms 10 1 10)%nat) ++
  (Title N 10 10 1 :: Head (N / 10) 10 10 1 :: meths (ms 10 10 1)%nat).
Proof. unfold inv_run, inv_settings. cbn [flat_map]. rewrite !bench_tail. cbn [firstn bench_inv app]. now rewrite app_nil_r. Qed.

Lemma fold_plus l : forall a, fold_left Rplus l a = a + fold_left Rplus l 0.
Proof. induction l as [|x l IH]; intros a; cbn; [ring|]. rewrite IH, (IH (0 + x)). ring. Qed.

Lemma fold_rsum k g : fold_left Rplus (map g (seq 0 k)) 0 = Rsum k g.
Proof.
  induction k as [|k IH]; [reflexivity|]. rewrite seq_S, map_app, fold_left_app, IH. cbn. reflexivity.
Qed.

Lemma awk_some k (g : nat -> R) : awk_avg (map (fun f => Some (g f)) (seq 0 k)) = avg k g.
Proof.
  unfold awk_avg, avg. assert (E : flat_map (fun o : option R => match o with Some x => [x] | None => [] end) (map (fun f => Some (g f)) (seq 0 k)) = map g (seq 0 k)).
  { induction (seq 0 k) as [|a l IH]; cbn; [reflexivity|now rewrite IH]. }
  cbv zeta. rewrite E, fold_rsum, map_length, seq_length. reflexivity.
Qed.

Lemma max_const {A} (l : list A) (h : A -> nat) c : l <> [] -> (forall x, In x l -> h x = c) -> fold_right Nat.max 0%nat (map h l) = c.
Proof.
  induction l as [|a l IH]; [easy|]. intros _ H. cbn. rewrite (H a) by now left.
  destruct l as [|b l]; [cbn; lia|]. rewrite IH; [lia|discriminate|intros x Hx; apply H; now right].
Qed.

(** Which offset belongs to which setting *)
Definition at_offset (i d r q : nat) : Prop :=
  (i = 3 /\ d = 2 /\ r = 2 /\ q = 10)%nat \/ (i = 10 /\ d = 10 /\ r = 1 /\ q = 10)%nat \/ (i = 17 /\ d = 10 /\ r = 10 /\ q = 1)%nat.

Lemma window_run N mid ms i d r q : at_offset i d r q ->
  window i (inv_run (fun n d r q => bench_inv n d r q (mid d r q) (ms d r q)) N) = firstn 4 (meths (ms d r q)).
Proof. intros H. rewrite run_lines. destruct H as [H|[H|H]]; destruct H as (-> & -> & -> & ->); reflexivity. Qed.

Lemma title_run N mid ms i d r q : at_offset i d r q ->
  nth_error (inv_run (fun n d r q => bench_inv n d r q (mid d r q) (ms d r q)) N) (i - 3) = Some (Title N d r q).
Proof. intros H. rewrite run_lines. destruct H as [H|[H|H]]; destruct H as (-> & -> & -> & ->); reflexivity. Qed.

Lemma averages_run k N t e it mid i d r q : (1 <= k)%nat -> at_offset i d r q ->
  averages (cmp_files k N t e it mid) i = map (fun j => avg k (fun f => t f d r q j)) (seq 0 4).
Proof.
  intros Hk H. unfold averages. rewrite (max_const _ _ 4%nat).
  - apply map_ext_in. intros j Hj. apply in_seq in Hj. unfold paste_row, cmp_files. rewrite map_map, <- awk_some. f_equal. apply map_ext. intros f.
    rewrite (window_run N (mid f) (fun d r q j => (e f d r q j, t f d r q j, it f d r q j)) i d r q H).
    destruct j as [|[|[|[|]]]]; [reflexivity..|lia].
  - unfold cmp_files. destruct k; [lia|discriminate].
  - intros x Hx. unfold cmp_files in Hx. apply in_map_iff in Hx. destruct Hx as (f & <- & _).
    now rewrite (window_run N (mid f) (fun d r q j => (e f d r q j, t f d r q j, it f d r q j)) i d r q H).
Qed.

Lemma first_file k N t e it mid : (1 <= k)%nat ->
  nth 0 (cmp_files k N t e it mid) [] = inv_run (fun n d r q => bench_inv n d r q (mid 0%nat d r q) (fun j => (e 0%nat d r q j, t 0%nat d r q j, it 0%nat d r q j))) N.
Proof. intros Hk. destruct k; [lia|]. reflexivity. Qed.

Lemma least_spec l : l <> [] -> In (least l) l /\ forall x, In x l -> least l <= x.
Proof.
  destruct l as [|a l]; [easy|]. intros _. cbn [least]. revert a. induction l as [|b l IH]; intros a; cbn [fold_left].
  - split; [now left|]. intros x [->|[]]. lra.
  - destruct (IH (Rmin a b)) as [I M]. split.
    + destruct I as [I|I]; [|now right; right]. rewrite <- I. unfold Rmin. destruct (Rle_dec a b); [now left|now right; left].
    + pose proof (M (Rmin a b) (or_introl eq_refl)) as M0. pose proof (Rmin_l a b). pose proof (Rmin_r a b).
      intros x [<-|[<-|H1]]; [lra|lra|apply M; now right].
Qed.

(** ** C103: the tables *)

(** Whatever the times of any number of runs, results.tex has one row for each
    setting, in the order in which they were run; it shows D, R and Q, and for
    each of the four methods of its heading, in that order, the average over the
    runs of that method's times under that setting, in bold face exactly where
    no other of the four is less. *)
Theorem C103_table :
  forall k N t e it mid, (1 <= k)%nat ->
    let rows := results_tex (cmp_files k N t e it mid) in
    List.length rows = 3%nat /\
    forall g d r q, nth_error [(2, 2, 10); (10, 1, 10); (10, 10, 1)]%nat g = Some (d, r, q) ->
      exists cells, nth_error rows g = Some ([d; r; q], cells) /\ List.length cells = 4%nat /\
        forall j, (j < 4)%nat -> exists b, nth_error cells j = Some (avg k (fun f => t f d r q j), b) /\
          (b = true <-> forall j', (j' < 4)%nat -> avg k (fun f => t f d r q j) <= avg k (fun f => t f d r q j')).
Proof.
  intros k N t e it mid Hk. cbv zeta. split; [reflexivity|]. intros g d r q Hg.
  assert (A : exists i, nth_error offsets g = Some i /\ at_offset i d r q).
  { unfold at_offset, offsets. destruct g as [|[|[|g]]]; cbn in Hg; [injection Hg as <- <- <-|injection Hg as <- <- <-|injection Hg as <- <- <-|now destruct g]; eexists; (split; [reflexivity|]); tauto. }
  destruct A as (i & Ei & A). unfold results_tex. rewrite (map_nth_error _ _ _ Ei). unfold tex_row. cbv zeta.
  rewrite (averages_run k N t e it mid i d r q Hk A), first_file by exact Hk.
  rewrite (title_run N (mid 0%nat) (fun d r q j => (e 0%nat d r q j, t 0%nat d r q j, it 0%nat d r q j)) i d r q A). cbn [numbers].
  eexists. split; [reflexivity|]. split; [reflexivity|]. intros j Hj.
  set (a := fun j => avg k (fun f => t f d r q j)). set (m := least (map a (seq 0 4))).
  destruct (least_spec (map a (seq 0 4))) as [I M]; [discriminate|]. fold m in I, M.
  exists (if Req_EM_T (a j) m then true else false). split.
  - change (avg k (fun f => t f d r q j)) with (a j). destruct j as [|[|[|[|]]]]; [reflexivity..|lia].
  - destruct (Req_EM_T (a j) m) as [E|E]; split; try easy.
    + intros _ j' Hj'. fold (a j). fold (a j'). rewrite E. apply M, in_map. apply in_seq. lia.
    + intros H. exfalso. apply E. apply in_map_iff in I. destruct I as (j' & E' & Hj'). apply in_seq in Hj'.
      apply Rle_antisym; [rewrite <- E'; apply H; lia|]. apply M, in_map, in_seq. lia.
Qed.
Print Assumptions C103_table.

(** results.txt holds, after the script, the averages of the last setting only,
    each with the name of its method, and no title. *)
Theorem C103_text :
  forall k N t e it mid, (1 <= k)%nat ->
    results_txt (cmp_files k N t e it mid) =
    map (fun p => TAvg (avg k (fun f => t f 10 10 1 (fst p))%nat) (snd p)) [(0, "chol"); (1, "sum"); (2, "bt"); (3, "slfm")]%nat%string.
Proof.
  intros k N t e it mid Hk. assert (A : at_offset 17 10 10 1) by (unfold at_offset; tauto).
  unfold results_txt, offsets. cbn [fold_left]. unfold tee at 1. cbv zeta.
  rewrite (averages_run k N t e it mid 17 10 10 1 Hk A), first_file by exact Hk.
  rewrite (window_run N (mid 0%nat) (fun d r q j => (e 0%nat d r q j, t 0%nat d r q j, it 0%nat d r q j)) 17 10 10 1 A). reflexivity.
Qed.
Print Assumptions C103_text.

(** Times in which the setting can be read off *)
Definition ex_t (f d r q j : nat) : R := INR (d + j).
Definition ex_e (f d r q j : nat) : R := 0.
Definition ex_it (f d r q j : nat) : nat := 0%nat.
Definition ex_mid (f d r q : nat) : list line := [Other None ""].

(** The text table does not show all settings: an average in a row of
    results.tex that is nowhere in results.txt. *)
Theorem C103_text_refuted :
  exists k N t e it mid, (1 <= k)%nat /\
    let files := cmp_files k N t e it mid in
    exists row x b, In row (results_tex files) /\ In (x, b) (snd row) /\ forall name, ~ In (TAvg x name) (results_txt files).
Proof.
  exists 5%nat, 100%nat, ex_t, ex_e, ex_it, ex_mid. split; [lia|]. cbv zeta.
  destruct (C103_table 5 100 ex_t ex_e ex_it ex_mid ltac:(lia)) as [_ T].
  destruct (T 0%nat 2%nat 2%nat 10%nat eq_refl) as (cells & R0 & _ & C). destruct (C 0%nat ltac:(lia)) as (b & C0 & _).
  exists ([2; 2; 10]%nat, cells), (avg 5 (fun f => ex_t f 2 2 10 0)), b.
  split; [now apply nth_error_In in R0|]. split; [now apply nth_error_In in C0|].
  intros name. rewrite C103_text by lia. unfold avg, ex_t. cbn.
  intros H. repeat (destruct H as [H|H]; [injection H as H _; lra|]). exact H.
Qed.
Print Assumptions C103_text_refuted.

(** ** The settings *)

Definition s2l := list_ascii_of_string.

(** With the sizes the scripts use and any larger ones bench.py accepts the
    three settings: none of its checks fails. *)
Theorem C103_accepted :
  forall to_int to_float (shown : nat -> str) N k d r q, (80 <= N)%nat ->
    (forall n, to_int (shown n) = Some (Z.of_nat n)) -> to_int (s2l "1234") = Some 1234%Z -> to_float (s2l "1e-1") = Some (1 / 10) ->
    In (k, d, r, q) [(2, 2, 2, 10); (10, 10, 1, 10); (10, 10, 10, 1)]%nat ->
    main_args to_int to_float [s2l "bench.py"; shown (N / k)%nat; shown d; shown r; shown q; s2l "1e-1"; s2l "mix"; s2l "1234"; s2l "inv"] =
    Ok (Some {| b_n_o := Z.of_nat (N / k); b_d := Z.of_nat d; b_r_q := Z.of_nat r; b_q := Z.of_nat q; b_eps := 1 / 10;
                b_kern := s2l "mix"; b_seed := 1234; b_test := s2l "inv" |}).
Proof.
  intros to_int to_float shown N k d r q HN Hs H1 H2 H. apply C77_arguments_partial. unfold accepted. cbn [b_n_o b_d b_r_q b_q b_eps b_kern b_seed b_test].
  rewrite !Hs, H1, H2.
  assert (B : (8 <= N / k /\ 1 <= r <= d /\ 1 <= q)%nat).
  { cbn [In] in H. destruct H as [[= <- <- <- <-]|[[= <- <- <- <-]|[[= <- <- <- <-]|[]]]]; (split; [apply Nat.div_le_lower_bound; lia|lia]). }
  repeat split; try reflexivity; try lia; try lra; unfold s2l; cbn [In map kerntypes testtypes]; tauto.
Qed.
Print Assumptions C103_accepted.

(** ** Instances *)

(** Five runs in each of which method [j] takes [d + j] seconds: the first
    method is in bold face, in each row. *)
Example C103_table_ex :
  results_tex (cmp_files 5 100 ex_t ex_e ex_it ex_mid) =
  map (fun s => (fst s, [(snd s, true); (snd s + 1, false); (snd s + 2, false); (snd s + 3, false)]))
    [([2; 2; 10]%nat, INR 2); ([10; 1; 10]%nat, INR 10); ([10; 10; 1]%nat, INR 10)].
Proof.
  destruct (C103_table 5 100 ex_t ex_e ex_it ex_mid ltac:(lia)) as [L T].
  remember (results_tex (cmp_files 5 100 ex_t ex_e ex_it ex_mid)) as rows.
  assert (V : forall d r q j, avg 5 (fun f => ex_t f d r q j) = INR d + INR j).
  { intros. unfold avg, ex_t. cbn [Rsum]. rewrite plus_INR. cbn [INR]. field. }
  assert (G : forall g d r q, nth_error [(2, 2, 10); (10, 1, 10); (10, 10, 1)]%nat g = Some (d, r, q) ->
    nth_error rows g = Some ([d; r; q], [(INR d, true); (INR d + 1, false); (INR d + 2, false); (INR d + 3, false)])).
  { intros g d r q Hg. destruct (T g d r q Hg) as (cells & -> & Lc & C). do 2 f_equal.
    assert (B : forall j, (j < 4)%nat -> nth_error cells j = Some (INR d + INR j, (j =? 0)%nat)).
    { intros j Hj. destruct (C j Hj) as (b & -> & Hb). rewrite V. do 2 f_equal. destruct (Nat.eqb_spec j 0) as [->|N].
      - apply Hb. intros j' _. rewrite !V. pose proof (pos_INR j'). cbn [INR]. lra.
      - destruct b; [|reflexivity]. exfalso. pose proof (proj1 Hb eq_refl 0%nat ltac:(lia)) as X. rewrite !V in X.
        pose proof (lt_0_INR j ltac:(lia)). cbn [INR] in X. lra. }
    destruct cells as [|c0 [|c1 [|c2 [|c3 [|]]]]]; try discriminate.
    pose proof (B 0%nat ltac:(lia)) as B0. pose proof (B 1%nat ltac:(lia)) as B1. pose proof (B 2%nat ltac:(lia)) as B2. pose proof (B 3%nat ltac:(lia)) as B3.
    cbn in B0, B1, B2, B3. injection B0 as ->. injection B1 as ->. injection B2 as ->. injection B3 as ->.
    repeat (f_equal; try (cbn; ring)). }
  destruct rows as [|r0 [|r1 [|r2 [|]]]]; try discriminate.
  pose proof (G 0%nat _ _ _ eq_refl) as G0. pose proof (G 1%nat _ _ _ eq_refl) as G1. pose proof (G 2%nat _ _ _ eq_refl) as G2.
  cbn [nth_error] in G0, G1, G2. injection G0 as ->. injection G1 as ->. injection G2 as ->. reflexivity.
Qed.

(** Numbers written in strokes: the second setting for 100 points. *)
Definition strokes (n : nat) : str := repeat "|"%char n.
Example C103_accepted_ex :
  exists c, main_args (fun s => if str_eqb s (s2l "1234") then Some 1234%Z else Some (Z.of_nat (List.length s))) (fun _ => Some (1 / 10))
    [s2l "bench.py"; strokes (100 / 10); strokes 10; strokes 1; strokes 10; s2l "1e-1"; s2l "mix"; s2l "1234"; s2l "inv"] = Ok (Some c) /\ b_n_o c = 10%Z.
Proof.
  eexists. split.
  - apply (C103_accepted _ _ strokes 100 10 10 1 10); [lia| |reflexivity|reflexivity|cbn; tauto].
    intros n. unfold strokes. rewrite repeat_length. destruct n; reflexivity.
  - reflexivity.
Qed.
