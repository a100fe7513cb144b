(** The parts of [numpy.fft] that runlmc calls, by their definition in the
    numpy manual, and the two FFT-based matrix-vector products
    (runlmc/linalg/toeplitz.py, runlmc/linalg/bttb.py). *)

From Coq Require Import Reals List Arith Lia Lra.
From Coquelicot Require Import Complex.
From Verif Require Import Base NDArray Model_Util.
Import ListNotations.
Open Scope R_scope.

(** ** Complex sums *)

Fixpoint Csum (n : nat) (f : nat -> C) : C :=
  match n with
  | O => RtoC 0
  | S k => Cplus (Csum k f) (f k)
  end.

(** Sum over all multi-indices of a shape. *)
Fixpoint msumC (s : list nat) (f : list nat -> C) : C :=
  match s with
  | [] => f []
  | n :: s' => Csum n (fun i => msumC s' (fun r => f (i :: r)))
  end.
Fixpoint msumR (s : list nat) (f : list nat -> R) : R :=
  match s with
  | [] => f []
  | n :: s' => Rsum n (fun i => msumR s' (fun r => f (i :: r)))
  end.

(** e^(i t) *)
Definition cis (t : R) : C := (cos t, sin t).

(** [sum_p j_p * k_p / s_p]: the phase (in turns) of the DFT over shape [s]. *)
Fixpoint phase (s j k : list nat) : R :=
  match s, j, k with
  | n :: s', a :: j', b :: k' => INR a * INR b / INR n + phase s' j' k'
  | _, _, _ => 0
  end.

(** ** One-dimensional real FFT *)

(** [np.fft.rfft(x, n)]: [x] is zero-padded or cropped to length [n]; the
    result has the [n/2 + 1] non-negative frequencies. *)
Definition np_rfft (x : vec) (n : nat) : list C :=
  tab (n / 2 + 1) (fun k =>
    Csum n (fun j => Cmult (RtoC (vget x j)) (cis (- (2 * PI) * (INR j * INR k / INR n))))).

(** One output sample of the inverse real FFT of length [2 * m], given the
    half spectrum [X 0 .. X m]: Hermitian extension, imaginary parts of the
    zero and Nyquist bins ignored. *)
Definition irfft_at (m : nat) (X : nat -> C) (j : nat) : R :=
  / INR (2 * m) *
  (Re (X O)
   + Rsum (m - 1) (fun t => 2 * Re (Cmult (X (S t)) (cis (2 * PI * (INR j * INR (S t) / INR (2 * m))))))
   + Re (X m) * cos (PI * INR j)).

(** [np.fft.irfft(X)]: output length is [2 * (len(X) - 1)]. *)
Definition np_irfft (X : list C) : vec :=
  let m := (length X - 1)%nat in
  tab (2 * m) (irfft_at m (fun k => nth k X (RtoC 0))).

(** ** n-dimensional real FFT *)

(** [np.fft.rfftn(x, s)] at multi-frequency [k]: [x] is zero-padded to shape
    [s]; [x] is given as a function on multi-indices that already returns 0
    outside the array. *)
Definition np_rfftn (s : list nat) (x : list nat -> R) (k : list nat) : C :=
  msumC s (fun j => Cmult (RtoC (x j)) (cis (- (2 * PI) * phase s j k))).

(** [np.fft.irfftn(X)] where the spectrum has shape [sf ++ [m + 1]]: complex
    inverse FFT over the leading axes [sf], then [irfft] of length [2 * m]
    over the last one. *)
Definition ifft_front (sf : list nat) (X : list nat -> C) (jf : list nat) (k : nat) : C :=
  Cmult (RtoC (/ INR (nprod sf)))
        (msumC sf (fun kf => Cmult (X (kf ++ [k])) (cis (2 * PI * phase sf jf kf)))).

Definition np_irfftn (sf : list nat) (m : nat) (X : list nat -> C) (j : list nat) : R :=
  irfft_at m (ifft_front sf X (removelast j)) (last j O).

(** ** Toeplitz *)

(** toeplitz.py:46-52 [_cyclic_extend]. *)
Definition cyclic_extend (x : vec) : vec :=
  let n := length x in
  tab (n * 2) (fun i =>
    if Nat.ltb i n then vget x i
    else if Nat.leb (n + 1) i then vget (rev (skipn 1 x)) (i - (n + 1))
    else 0).

(** toeplitz.py:43-44: the constructor's [_circ_fft]. *)
Definition toeplitz_circ_fft (top : vec) : list C :=
  np_rfft (cyclic_extend top) (length (cyclic_extend top)).

(** Elementwise complex product [x_fft *= circ_fft]. *)
Definition cmul_lists (a b : list C) : list C := map (fun p => Cmult (fst p) (snd p)) (combine a b).

(** toeplitz.py:57-67 [Toeplitz.matvec]. *)
Definition toeplitz_matvec (top x : vec) : vec :=
  let x_fft := np_rfft x (length x * 2) in
  let x_fft := cmul_lists x_fft (toeplitz_circ_fft top) in
  firstn (length x) (np_irfft x_fft).

(** [scipy.linalg.toeplitz(c)] for a real first column (toeplitz.py:55). *)
Definition la_toeplitz (c : vec) : mx :=
  mk (length c) (length c) (fun i j => vget c (if Nat.leb j i then i - j else j - i)).

(** ** BTTB *)

(** bttb.py:16-19 [_pow2]: [int.bit_length] is 0 at 0 and 1 + log2 above. *)
Definition bit_length (n : nat) : nat := match n with O => O | _ => S (Nat.log2 n) end.
Definition pow2_up (x : nat) : nat := (2 ^ bit_length (x - 1))%nat.

(** Shape of the circulant embedding, [_pow2(sizes * 2)] (bttb.py:112, 145). *)
Definition ext_shape (sizes : list nat) : list nat := map (fun n => pow2_up (n * 2)) sizes.

(** Decidable membership in the box [0, s). *)
Fixpoint idx_inb (s idx : list nat) : bool :=
  match s, idx with
  | [], [] => true
  | n :: s', i :: idx' => (Nat.ltb i n && idx_inb s' idx')%bool
  | _, _ => false
  end.

(** Zero array with [x.reshape(sizes)] in the leading box (bttb.py:112-113,
    and the zero padding of [rfftn(..., s=...)] at bttb.py:145). *)
Definition embed (sizes : list nat) (x : vec) (idx : list nat) : R :=
  if idx_inb sizes idx then vget x (ravel_idx sizes idx) else 0.

(** Replace component [p] of a multi-index. *)
Fixpoint set_nth (idx : list nat) (p v : nat) : list nat :=
  match idx, p with
  | [], _ => []
  | _ :: r, O => v :: r
  | a :: r, S p' => a :: set_nth r p' v
  end.

(** bttb.py:116-118, one loop iteration on axis [p]: cells [m-n+1 .. m-1] are
    overwritten by cells [n-1 .. 1], all other axes untouched. *)
Definition mirror_axis (p n m : nat) (ext : list nat -> R) : list nat -> R :=
  fun idx =>
    let q := nth p idx O in
    if (Nat.leb (m - n + 1) q && Nat.ltb q m)%bool
    then ext (set_nth idx p (m - q)) else ext idx.

(** [(axis, n, m)] triples of [zip(sizes, extended.shape)]. *)
Fixpoint axes_from (p : nat) (sizes : list nat) : list (nat * nat * nat) :=
  match sizes with
  | [] => []
  | n :: rest => (p, n, pow2_up (n * 2)) :: axes_from (S p) rest
  end.

(** bttb.py:110-120 [_cyclic_extend_n]: axes are processed last to first. *)
Definition cyclic_extend_n (sizes : list nat) (x : vec) : list nat -> R :=
  fold_left (fun ext t => let '(p, n, m) := t in mirror_axis p n m ext)
            (rev (axes_from 0 sizes)) (embed sizes x).

(** bttb.py:144-148 [BTTB.matvec] (with [_circ_fft] of line 108). *)
Definition bttb_matvec (top : vec) (sizes : list nat) (x : vec) : vec :=
  let s := ext_shape sizes in
  let circ_fft := np_rfftn s (cyclic_extend_n sizes top) in
  let x_fft := np_rfftn s (embed sizes x) in
  let prod_fft := fun k => Cmult (x_fft k) (circ_fft k) in
  let x_ifft := np_irfftn (removelast s) (last s O / 2) prod_fft in
  tab (nprod sizes) (fun k => x_ifft (unravel sizes k)).

(** Assignment of a square block [b] of order [n] at position [(r0, c0)]. *)
Definition blit (z : nat -> nat -> R) (r0 c0 n : nat) (b : nat -> nat -> R) : nat -> nat -> R :=
  fun r c =>
    if (Nat.leb r0 r && Nat.ltb r (r0 + n) && Nat.leb c0 c && Nat.ltb c (c0 + n))%bool
    then b (r - r0)%nat (c - c0)%nat else z r c.

(** bttb.py:122-133 [_toep_replicate].  Blocks are square arrays of order
    [n]; for [n = 1] they are scalars or 1x1 arrays, which
    [scipy.linalg.toeplitz] ravels. *)
Definition toep_replicate (blocks : list mx) (n : nat) : mx :=
  if Nat.eqb n 1 then la_toeplitz (map (fun b => mget b 0 0) blocks)
  else
    let nblocks := length blocks in
    let pairs := flat_map (fun i => map (pair i) (seq 0 (nblocks - i))) (seq 0 nblocks) in
    let z := fold_left (fun z ij =>
        let '(i, j) := ij in
        let tblock := mget (nth i blocks []) in
        let z := blit z ((i + j) * n) (j * n) n tblock in
        blit z (j * n) ((i + j) * n) n (fun a b => tblock b a)) pairs (fun _ _ => 0) in
    mk (nblocks * n) (nblocks * n) z.

(** bttb.py:135-142 [BTTB.as_numpy]; [sizes] has no zero here, so [chunks]
    (numpy_convenience.py:104-108) does not raise. *)
Definition chunks_pos {A} (l : list A) (n : nat) : list (list A) :=
  match chunks l n with Ok cs => cs | Err _ => [] end.

Definition bttb_step (st : list mx * nat) (n : nat) : list mx * nat :=
  let '(blocks, blocksize) := st in
  (map (fun b => toep_replicate b blocksize) (chunks_pos blocks n), (blocksize * n)%nat).

Definition bttb_as_numpy (top : vec) (sizes : list nat) : mx :=
  let st := fold_left bttb_step (rev sizes) (map (fun t => [[t]]) top, 1%nat) in
  hd [] (fst st).
