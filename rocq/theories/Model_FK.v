(** Model of runlmc/lmc/functional_kernel.py. *)

From Coq Require Import Reals List Arith ZArith.
From Verif Require Import Base NDArray Model_Util Model_Linalg Model_Kern.
Import ListNotations.
Open Scope R_scope.

(** ** Dictionaries keyed by tuples of dimensions (insertion ordered) *)

Definition dims := list nat.
Definition dims_eqb (a b : dims) : bool := if list_eq_dec Nat.eq_dec a b then true else false.
Definition dict (V : Type) := list (dims * V).

(** [d[k]] *)
Fixpoint dict_get {V} (d : dict V) (k : dims) : result V :=
  match d with
  | [] => Err KeyError
  | (k', v) :: d' => if dims_eqb k k' then Ok v else dict_get d' k
  end.

(** [k in d] *)
Definition dict_mem {V} (d : dict V) (k : dims) : bool :=
  match dict_get d k with Ok _ => true | Err _ => false end.

(** [d[k] = v] *)
Fixpoint dict_set {V} (d : dict V) (k : dims) (v : V) : dict V :=
  match d with
  | [] => [(k, v)]
  | (k', v') :: d' => if dims_eqb k k' then (k', v) :: d' else (k', v') :: dict_set d' k v
  end.

(** [d.setdefault(k, v)] followed by reading [d[k]]. *)
Definition setdefault {V} (d : dict V) (k : dims) (v : V) : V :=
  match dict_get d k with Ok v' => v' | Err _ => v end.

(** ** The object *)

(** A FunctionalKernel by its attributes.  [f_kernels] holds the kernel
    objects with their [active_dims] (None until set); the kernel objects are
    assumed distinct.  [f_vecs] and [f_diags] are the values of [_coreg_vecs]
    and [_coreg_diags]. *)
Record fkernel := mk_fk {
  f_D : nat;
  f_kernels : list (kern * option dims);
  f_vecs : list mx;
  f_diags : list vec;
  f_noise : vec;
  f_nl : nat;                     (* _num_lmc *)
  f_ns : nat;                     (* _num_slfm *)
  f_P : option nat;
  f_active : dict (list nat);     (* active_dims *)
  f_lmc : dict nat;               (* num_lmc *)
  f_slfm : dict nat;
  f_indep : dict nat
}.

(** Constructor arguments that may be None. *)
Definition or_empty {A} (o : option (list A)) : list A := match o with Some l => l | None => [] end.
Definition falsy {A} (o : option (list A)) : bool :=
  match o with Some (_ :: _) => false | _ => true end.
(** [len(o)] *)
Definition py_len {A} (o : option (list A)) : result nat :=
  match o with Some l => Ok (length l) | None => Err TypeError end.

(** functional_kernel.py:169-188 [_initialize_Aq]; [rand i] are the random
    numbers drawn for vector [i]. *)
Definition initialize_Aq (rand : nat -> nat -> nat -> R) (D : nat) (ranks : list nat) (ns ni : nat) : list mx :=
  let initial := ranks ++ repeat 1%nat ns in
  tab (length initial) (fun i => mk (nth i initial 0%nat) D (rand i))
  ++ repeat (mk 1 D (fun _ _ => 0)) ni.

(** [a[d] = v] on a 1-D array of length [n]; negative indices count from the
    end. *)
Definition set_at (d : Z) (v : R) (a : vec) : result vec :=
  let n := Z.of_nat (length a) in
  if (Z.leb (- n) d && Z.ltb d n)%bool then
    let k := Z.to_nat (if Z.ltb d 0 then d + n else d)%Z in
    Ok (tab (length a) (fun i => if Nat.eqb i k then v else vget a i))
  else Err IndexError.

(** functional_kernel.py:190-210 [_initialize_kq]. *)
Definition initialize_kq (D nl ns : nat) (index : list Z) : result (list vec) :=
  let! ind := map_result (fun d => set_at d 1 (repeat 0 D)) index in
  Ok (repeat (repeat 1 D) nl ++ repeat (repeat 0 D) ns ++ ind).

(** functional_kernel.py:86-131 [__init__].  [D] is None or a natural number;
    ranks and output indices are integers.  Kernel arguments come with their
    own [active_dims]. *)
Definition fk_init (rand : nat -> nat -> nat -> R) (D : option nat)
           (lmc : option (list (kern * option dims))) (ranks : option (list Z))
           (slfm indep : option (list (kern * option dims))) (index : option (list Z))
  : result fkernel :=
  match D with
  | None | Some O => Err ValueError
  | Some D =>
    if (falsy lmc && falsy slfm && falsy indep)%bool then Err ValueError
    else
      let! n1 := py_len lmc in
      let! n2 := py_len ranks in
      if negb (Nat.eqb n1 n2) then Err ValueError
      else if negb (forallb (fun r => Z.ltb 0 r) (or_empty ranks)) then Err ValueError
      else
        let lmc := or_empty lmc in
        let slfm := or_empty slfm in
        let indep := or_empty indep in
        let index := if falsy index then tab (length indep) Z.of_nat else or_empty index in
        if negb (Nat.eqb (length indep) (length index)) then Err ValueError
        else
          let vecs := initialize_Aq rand D (map Z.to_nat (or_empty ranks)) (length slfm) (length indep) in
          let! diags := initialize_kq D (length lmc) (length slfm) index in
          Ok (mk_fk D (lmc ++ slfm ++ indep) vecs diags (repeat (1 / 10) D)
                    (length lmc) (length slfm) None [] [] [] [])
  end.

(** [sorted] of a list of integers. *)
Fixpoint insert_nat (x : nat) (l : list nat) : list nat :=
  match l with
  | [] => [x]
  | y :: l' => if Nat.leb x y then x :: l else y :: insert_nat x l'
  end.
Definition py_sorted (l : list nat) : list nat := fold_right insert_nat [] l.

(** functional_kernel.py:139-142 [_count] *)
Definition count (d : dict nat) (k : dims) : dict nat := dict_set d k (S (setdefault d k 0%nat)).

(** functional_kernel.py:164-167, for one of the three counters. *)
Definition fill_zeros (active : dict (list nat)) (d : dict nat) : dict nat :=
  fold_left (fun d ad => if dict_mem d ad then d else dict_set d ad 0%nat) (map fst active) d.

(** functional_kernel.py:153-163, body of the loop for kernel [i]. *)
Definition set_dim_step (P : nat) (f : fkernel) (i : nat) : fkernel :=
  let '(k, ad) := nth i (f_kernels f) (KIdentity, None) in
  let ad := match ad with None => seq 0 P | Some l => py_sorted l end in
  let ks := map (fun p => if Nat.eqb (fst p) i then (k, Some ad) else snd p)
                (combine (seq 0 (length (f_kernels f))) (f_kernels f)) in
  let act := dict_set (f_active f) ad (setdefault (f_active f) ad [] ++ [i]) in
  let '(l, s, n) :=
    if Nat.ltb i (f_nl f) then (count (f_lmc f) ad, f_slfm f, f_indep f)
    else if Nat.ltb i (f_nl f + f_ns f) then (f_lmc f, count (f_slfm f) ad, f_indep f)
    else (f_lmc f, f_slfm f, count (f_indep f) ad) in
  mk_fk (f_D f) ks (f_vecs f) (f_diags f) (f_noise f) (f_nl f) (f_ns f) (f_P f) act l s n.

(** functional_kernel.py:144-167 [set_input_dim]. *)
Definition set_input_dim (f : fkernel) (P : nat) : result fkernel :=
  match f_P f with
  | Some P' => if Nat.eqb P' P then Ok f else Err ValueError
  | None =>
    let f := mk_fk (f_D f) (f_kernels f) (f_vecs f) (f_diags f) (f_noise f) (f_nl f) (f_ns f)
                   (Some P) (f_active f) (f_lmc f) (f_slfm f) (f_indep f) in
    let f := fold_left (set_dim_step P) (seq 0 (length (f_kernels f))) f in
    Ok (mk_fk (f_D f) (f_kernels f) (f_vecs f) (f_diags f) (f_noise f) (f_nl f) (f_ns f)
              (f_P f) (f_active f) (fill_zeros (f_active f) (f_lmc f))
              (fill_zeros (f_active f) (f_slfm f)) (fill_zeros (f_active f) (f_indep f)))
  end.

(** [assert self.P] *)
Definition assert_P (f : fkernel) : result unit :=
  match f_P f with Some (S _) => Ok tt | _ => Err AssertionError end.

(** functional_kernel.py:225-232 [total_rank] *)
Definition total_rank (f : fkernel) (ad : dims) : result nat :=
  let! _ := assert_P f in
  let! idxs := dict_get (f_active f) ad in
  Ok (nsum (map (fun q => if Nat.ltb q (f_nl f + f_ns f) then length (nth q (f_vecs f) []) else 0%nat) idxs)).

(** [d[k.active_dims]] *)
Definition get_ad {V} (d : dict V) (ad : option dims) : result V :=
  match ad with Some ad => dict_get d ad | None => Err KeyError end.

(** functional_kernel.py:234-239 [eval_kernels] *)
Definition eval_kernels (f : fkernel) (dists : dict dists_arg) : result (list kvalue) :=
  let! _ := assert_P f in
  map_result (fun k => let! d := get_ad dists (snd k) in from_dist (fst k) d) (f_kernels f).

(** functional_kernel.py:241-246 [eval_kernels_fixed_dim].  [np.array] stacks
    the evaluations, which all have the shape of [dists]; the array is given
    by its slices along the first axis.  (A nan among the evaluations, see
    [KNan], makes the list ragged: an error, which kind depends on numpy.) *)
Definition eval_kernels_fixed_dim (f : fkernel) (dists : ndarr) (ad : dims) : result (list ndarr) :=
  let! idxs := dict_get (f_active f) ad in
  map_result (fun q => let! v := from_dist (fst (nth q (f_kernels f) (KIdentity, None))) (Arr dists) in
                       match v with KArr a => Ok a | KNan => Err ValueError end) idxs.

(** functional_kernel.py:248-252 [eval_kernel_gradients] *)
Definition eval_kernel_gradients (f : fkernel) (dists : dict ndarr) : result (list (list kvalue)) :=
  let! _ := assert_P f in
  map_result (fun k => let! d := get_ad dists (snd k) in kernel_gradient (fst k) d) (f_kernels f).

(** functional_kernel.py:287: [a.T.dot(a) + np.diag(k)] *)
Definition coreg_mat (a : mx) (k : vec) : mx :=
  madd (np_dot2 (np_T (ncols a) a) a) (np_diag k).

(** functional_kernel.py:280-287 [coreg_mats] *)
Definition coreg_mats (f : fkernel) (ad : option dims) : result (list mx) :=
  let! p :=
    (match ad with
     | None => Ok (f_vecs f, f_diags f)
     | Some ad =>
       let! idxs := dict_get (f_active f) ad in
       Ok (map (fun i => nth i (f_vecs f) []) idxs, map (fun i => nth i (f_diags f) []) idxs)
     end) in
  Ok (map (fun ak => coreg_mat (fst ak) (snd ak)) (combine (fst p) (snd p))).

(** functional_kernel.py:290-291 *)
Definition f_Q (f : fkernel) : nat := length (f_kernels f).

(** functional_kernel.py:297-302 [filter_non_indep_idxs] *)
Definition filter_non_indep (f : fkernel) (idxs : list nat) : list nat :=
  filter (fun q => Nat.ltb q (f_nl f + f_ns f)) idxs.

(** What a likelihood object offers to [update_gradient]. *)
Record gradients := mk_grads {
  g_vecs : list mx; g_diags : list vec; g_kernels : list (list R); g_noise : vec
}.

(** The [gradient] slots of the parameters; kernels as in
    [Model_Kern.update_gradient]. *)
Record grad_slots := mk_slots {
  s_vecs : list mx; s_diags : list vec; s_kernels : list kern; s_noise : vec
}.

(** [for x, dx in zip(xs, dxs): x.gradient = dx]: the slots after the loop
    ([old] before it). *)
Definition zip_assign {A} (old new : list A) : list A := firstn (length old) new ++ skipn (length new) old.

(** [for k, dk in zip(ks, dks): k.update_gradient(dk)] *)
Fixpoint zip_update (ks : list kern) (dks : list (list R)) (old : list kern) : result (list kern) :=
  match ks, dks, old with
  | k :: ks', dk :: dks', _ :: old' =>
      let! g := Model_Kern.update_gradient k dk in
      let! gs := zip_update ks' dks' old' in Ok (g :: gs)
  | _, _, _ => Ok old
  end.

(** functional_kernel.py:212-223 [update_gradient].  (paramz checks on
    assignment to [gradient] that shapes fit: not modelled here; see C54.) *)
Definition fk_update_gradient (f : fkernel) (g : gradients) (old : grad_slots) : result grad_slots :=
  let! _ := assert_P f in
  let! ks := zip_update (map fst (f_kernels f)) (g_kernels g) (s_kernels old) in
  Ok (mk_slots (zip_assign (s_vecs old) (g_vecs g)) (zip_assign (s_diags old) (g_diags g)) ks (g_noise g)).
