(** Model of src/corrct/operators.py (and ProjectorMatrix of projectors.py). *)
From Verif Require Import Sums Arrays SolversModel.

(** * The operator protocol, operators.py:34-207 [BaseTransform].  The attributes: dir_shape, adj_shape, the
    (rows, cols) pair of scipy's LinearOperator, the direction flag, and the two abstract methods. *)
Record transform := mkT {
  t_dir_shape : list nat; t_adj_shape : list nat; t_shape : nat * nat; t_is_dir : bool;
  t_direct : arr -> arr; t_adjoint : arr -> arr }.

(** operators.py:60-65 [__init__]. *)
Definition new_transform (dir_shape adj_shape : list nat) (direct adjoint : arr -> arr) : transform :=
  mkT dir_shape adj_shape (size adj_shape, size dir_shape) true direct adjoint.

(** operators.py:107-118 [_transpose] (and 120-128 [_adjoint]). *)
Definition transpose (t : transform) : transform :=
  mkT (t_dir_shape t) (t_adj_shape t) (snd (t_shape t), fst (t_shape t)) false (t_direct t) (t_adjoint t).

(** operators.py:158-174 [__call__]. *)
Definition call (t : transform) (x : arr) : arr := if t_is_dir t then t_direct t x else t_adjoint t x.

(** x.reshape(shape) of a flat vector, and y.flatten(). *)
Definition reshape (s : list nat) (x : vec) : arr := fun l => x (flat s l).
Definition flatten (s : list nat) (y : arr) : vec := fun k => y (unflat s k).

(** operators.py:67-85 [_matvec].  scipy checks len(x) = shape[1]; reshape raises ValueError when the number of
    elements differs: [None]. *)
Definition matvec (t : transform) (len : nat) (x : vec) : option vec :=
  if negb (Nat.eqb len (snd (t_shape t))) then None
  else if t_is_dir t then
    if negb (Nat.eqb len (size (t_dir_shape t))) then None
    else Some (flatten (t_adj_shape t) (t_direct t (reshape (t_dir_shape t) x)))
  else if negb (Nat.eqb len (size (t_adj_shape t))) then None
    else Some (flatten (t_dir_shape t) (t_adjoint t (reshape (t_adj_shape t) x))).

(** operators.py:140-156 [explicit]: column ii is the operator applied to the ii-th unit vector. *)
Definition unit_vec (ii : nat) : vec := fun k => delta k ii.
Definition in_size (t : transform) : nat := if t_is_dir t then size (t_dir_shape t) else size (t_adj_shape t).
Definition explicit (t : transform) (row col : nat) : option R :=
  option_map (fun v => v row) (matvec t (in_size t) (unit_vec col)).

(** operators.py:210-284 [TransformFunctions]: without At the function is its own adjoint. *)
Definition transform_functions (dir_shape adj_shape : list nat) (A : arr -> arr) (At : option (arr -> arr)) : transform :=
  new_transform dir_shape adj_shape A (match At with Some f => f | None => A end).

(** operators.py:365-384 [TransformIdentity], 387-421 [TransformDiagonalScaling] and its absolute(). *)
Definition transform_identity (s : list nat) : transform := new_transform s s (fun x => x) (fun x => x).
Definition scale_by (c : arr) (x : arr) : arr := fun l => c l * x l.
Definition transform_diagonal (s : list nat) (c : arr) : transform := new_transform s s (scale_by c) (scale_by c).
Definition diagonal_absolute (s : list nat) (c : arr) : transform := transform_diagonal s (fun l => Rabs (c l)).

(** projectors.py:24-100 [ProjectorMatrix]: fp, bp, _transpose (override), absolute. *)
Record matrix_projector := mkMP { mp_A : nat -> nat -> R; mp_vol : list nat; mp_prj : list nat }.
Definition mp_fp (p : matrix_projector) (x : arr) : arr :=
  reshape (mp_prj p) (fun i => rsum (size (mp_vol p)) (fun j => mp_A p i j * flatten (mp_vol p) x j)).
Definition mp_bp (p : matrix_projector) (y : arr) : arr :=
  reshape (mp_vol p) (fun j => rsum (size (mp_prj p)) (fun i => mp_A p i j * flatten (mp_prj p) y i)).
Definition mp_transpose (p : matrix_projector) : matrix_projector :=
  mkMP (fun i j => mp_A p j i) (mp_prj p) (mp_vol p).
Definition mp_absolute (p : matrix_projector) : matrix_projector :=
  mkMP (fun i j => Rabs (mp_A p i j)) (mp_vol p) (mp_prj p).
Definition mp_transform (p : matrix_projector) : transform := new_transform (mp_vol p) (mp_prj p) (mp_fp p) (mp_bp p).

(** * np.pad along one axis.  [pad_index mode n p]: the source index of position p (counted from the first original
    sample, negative before it); None = the constant 0. *)
Inductive pad_mode := PadConstant | PadEdge | PadWrap | PadReflect | PadSymmetric.
Definition pad_index (mode : pad_mode) (n : nat) (p : Z) : option nat :=
  let N := Z.of_nat n in
  match mode with
  | PadConstant => if ((0 <=? p) && (p <? N))%Z%bool then Some (Z.to_nat p) else None
  | PadEdge => Some (Z.to_nat (Z.max 0 (Z.min p (N - 1))))
  | PadWrap => Some (Z.to_nat (p mod N))
  | PadReflect => let q := (p mod (2 * N - 2))%Z in Some (Z.to_nat (if (q <? N)%Z then q else 2 * N - 2 - q))
  | PadSymmetric => let q := (p mod (2 * N))%Z in Some (Z.to_nat (if (q <? N)%Z then q else 2 * N - 1 - q))
  end.
Definition read (o : option nat) (x : vec) : R := match o with Some i => x i | None => 0 end.
(** np.pad(x, (before, after), mode) of a line of length n; the result has length before + n + after. *)
Definition np_pad (mode : pad_mode) (n before : nat) (x : vec) : vec :=
  fun k => read (pad_index mode n (Z.of_nat k - Z.of_nat before)) x.
(** np.diff(x, n=1) and np.diff(x, n=2) *)
Definition np_diff (x : vec) : vec := fun i => x (S i) - x i.

(** * operators.py:767-844 [TransformGradient].  Axes are given as in Python (negative allowed). *)
Definition norm_axis (ndims : nat) (ax : Z) : nat := Z.to_nat (if (ax <? 0)%Z then ax + Z.of_nat ndims else ax).
(** 784-786: the default axes are all of them: np.arange(-ndims, 0). *)
Definition default_axes (ndims : nat) : list Z := map (fun i => (Z.of_nat i - Z.of_nat ndims)%Z) (seq 0 ndims).
(** 809-816: pad one sample after, difference. *)
Definition grad1 (mode : pad_mode) (n : nat) (x : vec) : vec := np_diff (np_pad mode n 0 x).
(** 831-838: pad one sample before, difference. *)
Definition div1 (mode : pad_mode) (n : nat) (y : vec) : vec := np_diff (np_pad mode n 1 y).
Definition axis_len (s : list nat) (ax : Z) : nat := nth (norm_axis (length s) ax) s 0%nat.
Definition gradient (s : list nat) (axes : list Z) (mode : pad_mode) (x : arr) : arr := fun l =>
  match l with
  | ii :: l' => let ax := nth ii axes 0%Z in along (norm_axis (length s) ax) (grad1 mode (axis_len s ax)) x l'
  | [] => 0
  end.
Definition divergence (s : list nat) (axes : list Z) (mode : pad_mode) (y : arr) : arr := fun l =>
  rsum (length axes) (fun ii => let ax := nth ii axes 0%Z in
    along (norm_axis (length s) ax) (div1 mode (axis_len s ax)) (fun l => y (ii :: l)) l).
Definition transform_gradient (s : list nat) (axes : list Z) (mode : pad_mode) : transform :=
  new_transform s (length axes :: s) (gradient s axes mode) (fun y l => - divergence s axes mode y l).

(** * operators.py:920-974 [TransformLaplacian]: pad one sample on both sides, second difference. *)
Definition lap1 (mode : pad_mode) (n : nat) (x : vec) : vec := np_diff (np_diff (np_pad mode n 1 x)).
Definition laplacian (s : list nat) (axes : list Z) (mode : pad_mode) (x : arr) : arr := fun l =>
  rsum (length axes) (fun ii => let ax := nth ii axes 0%Z in
    along (norm_axis (length s) ax) (lap1 mode (axis_len s ax)) x l).
Definition transform_laplacian (s : list nat) (axes : list Z) (mode : pad_mode) : transform :=
  new_transform s s (laplacian s axes mode) (laplacian s axes mode).

(** * operators.py:424-496 [TransformConvolution] in any number of dimensions. *)
(** indices that may leave the array *)
Definition zarr := list Z -> R.
(** np.pad with the same mode on every axis: independent source indices per axis. *)
Fixpoint pad_src (mode : pad_mode) (s : list nat) (p : list Z) : option (list nat) :=
  match s, p with
  | [], [] => Some []
  | n :: s', z :: p' => match pad_index mode n z, pad_src mode s' p' with
                        | Some i, Some l => Some (i :: l) | _, _ => None end
  | _, _ => None
  end.
Definition pad_read (mode : pad_mode) (s : list nat) (x : arr) (p : list Z) : R :=
  match pad_src mode s p with Some l => x l | None => 0 end.
(** 473-475: pad_width = (kernel.shape - 1) // 2 *)
Definition pad_width (K : list nat) : list nat := map (fun k => ((k - 1) / 2)%nat) K.
(** the padded array, indexed from its own first sample *)
Definition padded (mode : pad_mode) (s K : list nat) (x : arr) : arr :=
  fun l => pad_read mode s x (map (fun lp => Z.of_nat (fst lp) - Z.of_nat (snd lp))%Z (combine l (pad_width K))).
Definition padded_shape (s K : list nat) : list nat := map (fun np => (fst np + 2 * snd np)%nat) (combine s (pad_width K)).
(** spsig.convolve(x, kernel, mode="same"): the full convolution (zero outside both arrays) cropped to x's shape
    starting at (K - 1) // 2. *)
Definition zread (s : list nat) (x : arr) (p : list Z) : R := pad_read PadConstant s x p.
Definition convolve_same (s K : list nat) (x kernel : arr) : arr := fun l =>
  bsum K (fun j => kernel j *
    zread s x (map (fun t => Z.of_nat (fst (fst t)) + Z.of_nat (snd (fst t)) - Z.of_nat (snd t))%Z
                   (combine (combine l (pad_width K)) j))).
(** 477-479: crop pad_width on every side *)
Definition crop (K : list nat) (x : arr) : arr := fun l => x (map (fun lp => (fst lp + snd lp)%nat) (combine l (pad_width K))).
Definition conv_direct (mode : pad_mode) (s K : list nat) (kernel x : arr) : arr :=
  crop K (convolve_same (padded_shape s K) K (padded mode s K x) kernel).
(** np.flip(kernel): all axes reversed *)
Definition np_flip (K : list nat) (k : arr) : arr := fun j => k (map (fun t => (fst t - 1 - snd t)%nat) (combine K j)).
(** 486-496 *)
Definition conv_adjoint (mode : pad_mode) (s K : list nat) (is_symm flip_adjoint : bool) (kernel y : arr) : arr :=
  if is_symm then conv_direct mode s K (if flip_adjoint then np_flip K kernel else kernel) y else y.
Definition transform_convolution (mode : pad_mode) (s K : list nat) (is_symm flip_adjoint : bool) (kernel : arr) : transform :=
  new_transform s s (conv_direct mode s K kernel) (conv_adjoint mode s K is_symm flip_adjoint kernel).
(** 462-471 [absolute]: only the shape and the kernel are passed on. *)
Definition conv_absolute (mode : pad_mode) (s K : list nat) (is_symm flip_adjoint : bool) (kernel : arr) : transform :=
  transform_convolution PadEdge s K true false (fun j => Rabs (kernel j)).

(** * operators.py:637-764 [TransformStationaryWavelet]; the wavelet transform itself (pywt) is not modelled. *)
(** 689-693: pad_axes, then 721-722 / 744-745: ceil and floor of the half. *)
Definition swt_pad (level n : nat) : nat := let al := (2 ^ level)%nat in ((al - n mod al) mod al)%nat.
Definition swt_pad_l (p : nat) : nat := ((p + 1) / 2)%nat.
Definition swt_pad_h (p : nat) : nat := (p / 2)%nat.
(** 718-725: pad each axis with a non-zero pad, one after the other; an axis is (axis, its length). *)
Definition swt_pad_axis (mode : pad_mode) (level : nat) (x : arr) (an : nat * nat) : arr :=
  let p := swt_pad level (snd an) in
  if Nat.eqb p 0 then x else along (fst an) (np_pad mode (snd an) (swt_pad_l p)) x.
Definition swt_pad_all (mode : pad_mode) (level : nat) (axes : list (nat * nat)) (x : arr) : arr :=
  fold_left (swt_pad_axis mode level) axes x.
(** 741-748: x[pad_l : len - pad_h] on each of those axes. *)
Definition slice_from (start : nat) (x : vec) : vec := fun i => x (start + i)%nat.
Definition swt_crop_axis (level : nat) (x : arr) (an : nat * nat) : arr :=
  let p := swt_pad level (snd an) in
  if Nat.eqb p 0 then x else along (fst an) (slice_from (swt_pad_l p)) x.
Definition swt_crop_all (level : nat) (axes : list (nat * nat)) (x : arr) : arr :=
  fold_left (swt_crop_axis level) axes x.

(** 509-511: labels = the numbers 1 .. 2**num_axes - 1 in binary with num_axes digits (a = 0, d = 1), most
    significant digit first. *)
Definition label (num_axes x : nat) : list bool := map (fun b => Nat.testbit x (num_axes - 1 - b)) (seq 0 num_axes).
Definition labels (num_axes : nat) : list (list bool) := map (label num_axes) (seq 1 (2 ^ num_axes - 1)).
(** 752-755 [_op_direct]: the list of coefficient arrays; y = (approximation, detail level label). *)
Definition swt_pack {A} (level num_axes : nat) (approx : A) (detail : nat -> list bool -> A) : list A :=
  approx :: flat_map (fun lvl => map (detail lvl) (labels num_axes)) (seq 1 level).
(** 757-764 [_op_adjoint]: get_lvl_pos and the dictionary {label: row}; a missing key is None. *)
Definition get_lvl_pos (num_axes lvl : nat) : nat := ((lvl - 1) * (2 ^ num_axes - 1) + 1)%nat.
Definition label_eqb (a b : list bool) : bool := if list_eq_dec Bool.bool_dec a b then true else false.
(** a dict comprehension over enumerate(labels): the last entry with a given key wins *)
Definition swt_unpack {A} (num_axes : nat) (x : list A) (lvl : nat) (lab : list bool) : option A :=
  fold_left (fun acc ik => if label_eqb (snd ik) lab then nth_error x (fst ik + get_lvl_pos num_axes lvl) else acc)
    (combine (seq 0 (length (labels num_axes))) (labels num_axes)) None.
(** 698: adj_shape[0] *)
Definition swt_rows (level num_axes : nat) : nat := (level * (2 ^ num_axes - 1) + 1)%nat.

(** * operators.py:977-1108 [TransformSVD]; the decomposition itself (numpy) is not modelled. *)
(** np.transpose(x, perm): out[l] = x[l'] with l'[perm[k]] = l[k]. *)
Fixpoint index_of (d : nat) (perm : list nat) : nat :=
  match perm with [] => 0%nat | p :: t => if Nat.eqb p d then 0%nat else S (index_of d t) end.
Definition np_transpose (perm : list nat) (x : arr) : arr := fun l =>
  x (map (fun d => nth (index_of d perm) l 0%nat) (seq 0 (length perm))).
Definition transpose_shape (perm s : list nat) : list nat := map (fun p => nth p s 0%nat) perm.
(** x.reshape(s2) of an array of shape s1 (row-major) *)
Definition np_reshape (s1 s2 : list nat) (x : arr) : arr := fun l => x (unflat s1 (flat s2 l)).
(** 1017-1029: np.delete(np.arange(nd), append_dims), and the forward order. *)
Definition invariant_dims (nd : nat) (append : list nat) : list nat :=
  filter (fun d => negb (existsb (Nat.eqb d) append)) (seq 0 nd).
Definition fwd_transpose (nd : nat) (rows cols : list nat) : list nat := invariant_dims nd (rows ++ cols) ++ rows ++ cols.
(** 1040-1042 *)
Definition fwd_shape (s rows cols : list nat) : list nat :=
  transpose_shape (invariant_dims (length s) (rows ++ cols)) s ++ [size (transpose_shape rows s); size (transpose_shape cols s)].
Definition bwd_shape (s rows cols : list nat) : list nat :=
  transpose_shape (invariant_dims (length s) (rows ++ cols)) s ++ transpose_shape rows s ++ transpose_shape cols s.
(** 1086-1088: to the decomposition layout; 1105-1106: back ([bwd] = np.argsort(fwd_transpose)). *)
Definition svd_forward (s rows cols : list nat) (x : arr) : arr :=
  np_reshape (transpose_shape (fwd_transpose (length s) rows cols) s) (fwd_shape s rows cols)
    (np_transpose (fwd_transpose (length s) rows cols) x).
Definition svd_backward (s rows cols bwd : list nat) (y : arr) : arr :=
  np_transpose bwd (np_reshape (fwd_shape s rows cols) (bwd_shape s rows cols) y).
(** 1066-1084 [inverse_svd] for one matrix with rank r, and 1092-1095 the optional rescaling of (U, s, Vt) for an
    M x N matrix. *)
Definition inverse_svd (r : nat) (U : nat -> nat -> R) (sv : vec) (Vt : nat -> nat -> R) : nat -> nat -> R :=
  fun i j => rsum r (fun k => U i k * (sv k * Vt k j)).
Definition rescale_svd (M N : nat) (U : nat -> nat -> R) (sv : vec) (Vt : nat -> nat -> R) :=
  ((fun i k => U i k * sqrt (INR M)), (fun k => sv k / sqrt (INR N * INR M)), (fun k j => Vt k j * sqrt (INR N))).

(** 1086-1106 [_op_direct] / [_op_adjoint]: one decomposition per position of the untouched axes ([svd] stands for
    np.linalg.svd of an M x N matrix); the factors are kept in the operator. *)
Definition factors := ((nat -> nat -> R) * vec * (nat -> nat -> R))%type.
Definition svd_op_direct (svd : nat -> nat -> (nat -> nat -> R) -> factors) (rescale : bool) (s rows cols : list nat) (x : arr)
  : list nat -> factors := fun b =>
  let M := size (transpose_shape rows s) in let N := size (transpose_shape cols s) in
  let '(U, sv, Vt) := svd M N (fun i j => svd_forward s rows cols x (b ++ [i; j])) in
  if rescale then rescale_svd M N U sv Vt else (U, sv, Vt).
Definition svd_op_adjoint (s rows cols bwd : list nat) (f : list nat -> factors) : arr :=
  let r := Nat.min (size (transpose_shape rows s)) (size (transpose_shape cols s)) in
  svd_backward s rows cols bwd (fun l =>
    let nb := (length l - 2)%nat in let b := firstn nb l in
    let '(U, sv, Vt) := f b in inverse_svd r U sv Vt (nth nb l 0%nat) (nth (S nb) l 0%nat)).
