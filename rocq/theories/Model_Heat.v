(** benchmarks/grad-grid/makepics.py: the heat maps of the gradient benchmark.

    A row of the data frame is a kernel's name, [q], [eps] and the value in the
    column that is drawn.  [None] is nan.  Values and [eps] are taken to be
    positive (times and relative errors), so logarithms are finite.  Not
    modelled: figure sizes, fonts, positions of text, the colour bar and the
    file written. *)

From Coq Require Import Reals List Arith String.
From Verif Require Import Base Model_Util.
Import ListNotations.
Open Scope R_scope.

Record row := mk_row { w_k : string; w_q : R; w_eps : R; w_v : R }.

(** pandas [Series.unique]: distinct values in the order of appearance
    (makepics.py:15). *)
Fixpoint uniq (l : list string) : list string :=
  match l with
  | [] => []
  | x :: t => x :: filter (fun y => negb (String.eqb x y)) (uniq t)
  end.

(** The levels of an index: distinct values, ascending
    (pandas [set_index], makepics.py:23, 34-36). *)
Fixpoint ins (x : R) (l : list R) : list R :=
  match l with
  | [] => [x]
  | y :: t => if Rlt_dec x y then x :: l else if Req_EM_T x y then l else y :: ins x t
  end.
Definition levels (l : list R) : list R := fold_right ins [] l.

(** [df[df['k'] == k]] (makepics.py:22, 31) *)
Definition only (k : string) (df : list row) : list row := filter (fun r => String.eqb (w_k r) k) df.

(** The rows at [q] and [eps]. *)
Definition at_cell (q e : R) (r : row) : bool :=
  (if Req_EM_T (w_q r) q then true else false) && (if Req_EM_T (w_eps r) e then true else false).

Fixpoint no_dup (l : list row) : bool :=
  match l with [] => true | r :: t => negb (existsb (at_cell (w_q r) (w_eps r)) t) && no_dup t end.

(** [mult * np.log(konly.unstack()[col].values)] (makepics.py:24, 35): rows are
    the levels of [q], columns those of [eps]; pandas refuses duplicates and
    fills what is missing with nan. *)
Definition matrix (negate : bool) (rows : list row) : result (list (list (option R))) :=
  if no_dup rows then
    Ok (map (fun q => map (fun e => match find (at_cell q e) rows with
                                    | Some r => Some ((if negate then -1 else 1) * ln (w_v r))
                                    | None => None
                                    end) (levels (map w_eps rows))) (levels (map w_q rows)))
  else Err ValueError.

(** numpy [max]/[min] of an array: nan if there is one. *)
Definition join (f : R -> R -> R) (a b : option R) : option R :=
  match a, b with Some x, Some y => Some (f x y) | _, _ => None end.
Definition a_fold (f : R -> R -> R) (l : list (option R)) : option R :=
  match l with [] => None | x :: t => fold_left (join f) t x end.

(** Python's [max(a, b)] and [min(a, b)]: [b] if it compares greater (less),
    else [a]; comparisons with nan are false. *)
Definition py_max (a b : option R) : option R :=
  match a, b with Some x, Some y => if Rlt_dec x y then b else a | _, _ => a end.
Definition py_min (a b : option R) : option R :=
  match a, b with Some x, Some y => if Rlt_dec y x then b else a | _, _ => a end.

(** makepics.py:18-26: the limits of the colours, over the kernels that have
    axes. *)
Fixpoint limits (Ms : list (list (list (option R)))) (lo hi : option R) : option R * option R :=
  match Ms with
  | [] => (lo, hi)
  | M :: t => limits t (py_min (a_fold Rmin (List.concat M)) lo) (py_max (a_fold Rmax (List.concat M)) hi)
  end.

(** numpy [argsort] of distinct keys. *)
Fixpoint ins_by (key : nat -> R) (i : nat) (l : list nat) : list nat :=
  match l with [] => [i] | j :: t => if Rlt_dec (key i) (key j) then i :: l else j :: ins_by key i t end.
Definition argsort (l : list R) : list nat :=
  fold_right (ins_by (fun i => nth i l 0)) [] (seq 0 (List.length l)).

(** numpy [argmin]/[argmax]: the first nan if there is one, else the first
    extreme value.  [better x y]: [x] is taken before the earlier [y]. *)
Fixpoint arg_first (better : R -> R -> bool) (l : list (option R)) (i best : nat) (v : R) : nat :=
  match l with
  | [] => best
  | None :: _ => i
  | Some x :: t => if better x v then arg_first better t (S i) i x else arg_first better t (S i) best v
  end.
Definition arg_ext (better : R -> R -> bool) (l : list (option R)) : nat :=
  match l with [] => 0%nat | None :: _ => 0%nat | Some x :: t => arg_first better t 1 0 x end.
Definition lt_b (x y : R) : bool := if Rlt_dec x y then true else false.

(** What one set of axes shows: the title, the labels of rows and columns, the
    cells, and for the minimum and the maximum the row and column of the text
    and the number in it. *)
Record panel := mk_panel {
  p_title : string; p_rows : list R; p_cols : list R; p_cells : list (list (option R));
  p_marks : list (nat * nat * option R)
}.

Definition gather {A} (d : A) (l : list A) (ix : list nat) : list A := map (fun i => nth i l d) ix.

(** makepics.py:29-50 *)
Definition draw (negate : bool) (k : string) (rows : list row) : result panel :=
  let! M := matrix negate rows in
  let qs := levels (map w_q rows) in
  let es := levels (map w_eps rows) in
  let csort := argsort (map (fun e => - ln e) es) in
  let rsort := argsort (map Ropp qs) in
  let M' := map (fun r => gather None r csort) (gather [] M rsort) in
  let c := List.length csort in
  let mark := fun i => ((i / c)%nat, (i mod c)%nat, nth i (List.concat M') None) in
  Ok (mk_panel k (gather 0 qs rsort) (gather 0 (map (fun e => ln e / ln 10) es) csort) M'
        [mark (arg_ext lt_b (List.concat M')); mark (arg_ext (fun x y => lt_b y x) (List.concat M'))]).

(** makepics.py:13-64 [printimg]: panels with the limits of the colours; four
    axes, and nothing is written without a kernel. *)
Definition printimg (negate : bool) (df : list row) : result (option (list panel * (option R * option R))) :=
  let ks := firstn 4 (uniq (map w_k df)) in
  let! Ms := map_result (fun k => matrix negate (only k df)) ks in
  let! ps := map_result (fun k => draw negate k (only k df)) ks in
  Ok (match ps with [] => None | _ => Some (ps, limits Ms (Some 0) (Some 0)) end).
