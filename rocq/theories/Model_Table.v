(** Model of the statistics and the table of benchmarks/benchlib/standard_tester.py
    (lines 262-263, 392-441).  Formatting of one number is a parameter. *)

From Coq Require Import Reals List Arith Ascii String Bool.
From Coq Require Import List.
From Verif Require Import Base Model_Linalg Model_Util Model_Regex Model_Bench.
Import ListNotations.
Open Scope R_scope.

Notation cs := list_ascii_of_string.

(** [np.std] *)
Definition np_std (x : vec) : npf :=
  match arr_mean x with
  | Some m => match arr_mean (np_square (map (fun y => y - m) x)) with Some v => Some (sqrt v) | None => None end
  | None => None
  end.

(** standard_tester.py:263 [(np.mean(x), np.std(x) / np.sqrt(len(x)))] *)
Definition run_stats (x : vec) : npf * npf := (arr_mean x, npf_div (np_std x) (Some (sqrt (INR (List.length x))))).

(** standard_tester.py:392-395 [statprint] with [flank='$'] *)
Definition statprint (show : R -> str) (x : R * R) : str :=
  cs "$" ++ show (fst x) ++ cs "$" ++ cs " (" ++ cs "$" ++ show (snd x) ++ cs "$" ++ cs ")".

(** [s.split('$')] *)
Fixpoint split_dollar (s : str) : list str :=
  match s with
  | [] => [[]]
  | c :: r => match split_dollar r with
              | p :: ps => if Ascii.eqb c "$" then [] :: p :: ps else (c :: p) :: ps
              | [] => [[]]
              end
  end.

(** [min(range(len(results)), key=lambda r: results[r][0])]: the first of the smallest *)
Definition best_index (results : list (R * R)) : result nat :=
  match results with
  | [] => Err ValueError
  | _ => Ok (fold_left (fun best r => if Rlt_dec (fst (nth r results (0, 0))) (fst (nth best results (0, 0))) then r else best)
               (seq 1 (List.length results - 1)) 0%nat)
  end.

Definition nonempty (s : str) : bool := match s with [] => false | _ => true end.

(** [l[i] = x] *)
Definition set_nth {A} (l : list A) (i : nat) (x : A) : list A := firstn i l ++ x :: skipn (S i) l.

(** [sep.join(l)] *)
Fixpoint join (sep : str) (l : list str) : str :=
  match l with
  | [] => []
  | [x] => x
  | x :: r => x ++ sep ++ join sep r
  end.

(** standard_tester.py:418-430: the row of one metric; [show] formats a number
    in the metric's format, in that of whole seconds after cutting it to an integer *)
Definition latex_row (show : R -> str) (metric : str) (results : list (R * R)) : result str :=
  let! best := best_index results in
  let stringified := map (statprint show) results in
  match filter nonempty (split_dollar (nth best stringified [])) with
  | [mean; space; var; fin] =>
      let bold := cs "$\textbf{" ++ mean ++ cs "}$" ++ space ++ cs "$\textbf{" ++ var ++ cs "}$" ++ fin in
      Ok (join (cs " & ") (metric :: set_nth stringified best bold) ++ cs "\\" ++ [ascii_of_nat 10])
  | _ => Err ValueError
  end.

(** [zip] of the arguments *)
Fixpoint transpose_n {A} (n : nat) (cols : list (list A)) : list (list A) :=
  match n with
  | O => []
  | S n' => if forallb (fun c => match c with [] => false | _ => true end) cols
            then flat_map (fun c => match c with x :: _ => [x] | [] => [] end) cols :: transpose_n n' (map (@tl A) cols)
            else []
  end.

(** standard_tester.py:411-441 [latex_table]: the text written *)
Definition latex_table (show_d show_f : R -> str) (cols : list str) (col_results : list (list (R * R))) : result str :=
  let metrics := [(cs "seconds", show_d); (cs "SMSE", show_f); (cs "NLPD", show_f)] in
  let transposed := match col_results with [] => [] | _ => transpose_n 3 col_results end in
  let! rows := map_result (fun '((metric, show), results) => latex_row show metric results) (combine metrics transposed) in
  let latex := List.concat rows in
  let colfmt := cs "l" ++ List.concat (map (fun _ => cs "c") cols) in
  let nl := [ascii_of_nat 10] in
  let start := cs "\begin{tabular}{" ++ colfmt ++ cs "}\toprule" ++ nl ++ cs "Metric & " ++ join (cs " & ") cols ++ cs "\\" ++ nl ++ cs "\midrule" ++ nl in
  let fin := nl ++ cs "\bottomrule" ++ nl ++ cs "\end{tabular}" ++ nl in
  Ok (start ++ latex ++ fin).
