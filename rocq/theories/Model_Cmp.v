(** Model of benchmarks/benchlib/inv-run.sh, of what
    benchmarks/benchlib/bench.py prints in its test 'inv', and of the tables that
    benchmarks/representation-cmp/run.sh makes of it.

    Lines of text are represented by what the scripts read of them.  Numbers are
    exact: awk's six and printf's two digits are not modelled. *)

From Coq Require Import Reals List Arith String.
From Verif Require Import Base Model_Util.
Import ListNotations.
Open Scope R_scope.

(** ** bench.py and inv-run.sh *)

(** Lines: inv-run.sh's titles with their numbers N, D, R, Q; the first line of
    bench.py; lines on a method (error, seconds, iterations, name); and others,
    with the fourth field as awk reads it, if they have one, and the eighth. *)
Inductive line :=
| Title (n d r q : nat)
| Head (n d r q : nat)
| Meth (err sec : R) (it : nat) (name : string)
| Other (f4 : option R) (f8 : string).

(** bench.py:195-199 and 203: names of the methods, in order *)
Definition methods : list string := ["chol"; "sum"; "bt"; "slfm"; "slfm"]%string.

(** bench.py:108-109 and 182-212: what is printed when the test is 'inv';
    [mid] is what comes before the methods, [ms] error, time and iterations *)
Definition bench_inv (n d r q : nat) (mid : list line) (ms : nat -> R * R * nat) : list line :=
  Head n d r q :: mid ++ map (fun p => let '(e, s, it) := ms (fst p) in Meth e s it (snd p)) (combine (seq 0 5) methods).

(** [tail -n k] *)
Definition tail_n {A} (k : nat) (l : list A) : list A := skipn (List.length l - k) l.

(** inv-run.sh:32, 38, 44: by what N is divided, D, R and Q *)
Definition inv_settings : list (nat * nat * nat * nat) := [(2, 2, 2, 10); (10, 10, 1, 10); (10, 10, 10, 1)]%nat.

(** inv-run.sh:31-47, [bench n d r q] being the output of bench.py.  The
    warning of lines 49-51, which would come last, is left out. *)
Definition inv_run (bench : nat -> nat -> nat -> nat -> list line) (N : nat) : list line :=
  flat_map (fun s => let '(k, d, r, q) := s in
    let out := bench (N / k)%nat d r q in Title N d r q :: firstn 1 out ++ tail_n 5 out) inv_settings.

(** ** representation-cmp/run.sh *)

(** [tr -s " " | cut -d" " -f4], read as a number by awk (text counts as 0) *)
Definition field4 (l : line) : option R :=
  match l with
  | Title _ _ _ _ => Some 0
  | Head _ d _ _ => Some (INR d)
  | Meth _ s _ _ => Some s
  | Other x _ => x
  end.

(** [tr -s " " | cut -d" " -f8]; of titles and first lines it is not modelled *)
Definition field8 (l : line) : string :=
  match l with
  | Title _ _ _ _ => ""%string
  | Head _ _ _ _ => ""%string
  | Meth _ _ _ name => name
  | Other _ x => x
  end.

(** run.sh:92, 100: [tail -n +$i $file | head -n 4] *)
Definition window (i : nat) (file : list line) : list line := firstn 4 (skipn (i - 1) file).

(** run.sh:99-104: the columns side by side, and awk's average of a row; a file
    without that row, or a row without the field, leaves no field *)
Definition paste_row (files : list (list line)) (i j : nat) : list (option R) :=
  map (fun f => match nth_error (window i f) j with Some l => field4 l | None => None end) files.
Definition awk_avg (fs : list (option R)) : R :=
  let xs := flat_map (fun o => match o with Some x => [x] | None => [] end) fs in
  fold_left Rplus xs 0 / INR (List.length xs).
Definition averages (files : list (list line)) (i : nat) : list R :=
  map (fun j => awk_avg (paste_row files i j)) (seq 0 (fold_right Nat.max 0%nat (map (fun f => List.length (window i f)) files))).

(** run.sh:107 [sort -n /tmp/avgs | head -n 1] *)
Definition least (l : list R) : R := match l with [] => 0 | x :: l => fold_left Rmin l x end.

(** run.sh:87-90, 111: the numbers of the title line but the first; of other
    lines they are not modelled *)
Definition numbers (o : option line) : list nat :=
  match o with Some (Title _ d r q) => [d; r; q] | _ => [] end.

(** run.sh:107-130: a row of the table: numbers, averages and whether they are
    in bold face *)
Definition tex_row (files : list (list line)) (i : nat) : list nat * list (R * bool) :=
  let avgs := averages files i in
  let minnum := least avgs in
  (numbers (nth_error (nth 0 files []) (i - 3)), map (fun x => (x, if Req_EM_T x minnum then true else false)) avgs).

(** run.sh:85 [for i in 3 10 17] *)
Definition offsets : list nat := [3; 10; 17]%nat.

(** run.sh:85-133, 138-140: the rows of results.tex *)
Definition results_tex (files : list (list line)) : list (list nat * list (R * bool)) := map (tex_row files) offsets.

(** Lines of results.txt: a title or an average with the method's name *)
Inductive tline := TTitle (o : option line) | TAvg (x : R) (name : string).

(** [tee file], without [-a]: what the file holds afterwards *)
Definition tee (old new : list tline) : list tline := new.

(** run.sh:95 and 105: results.txt after the loop *)
Definition results_txt (files : list (list line)) : list tline :=
  fold_left (fun txt i =>
    let txt := tee txt [TTitle (nth_error (nth 0 files []) (i - 3))] in
    tee txt (map (fun p => TAvg (fst p) (snd p)) (combine (averages files i) (map field8 (window i (nth 0 files [])))))) offsets [].
