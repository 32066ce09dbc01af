(** Model of src/corrct/struct_illum.py.  Real arithmetic (the masks are float32 in the code); plotting, printing, the random generator
    (an arbitrary permutation / arbitrary draws) and the torch backend are not modelled.  Stacks of masks are functions of the flat mask
    number and the flat pixel number; [npix] pixels and [m] masks. *)
From Coq Require Import Reals Lra Lia List ZArith Bool.
From Verif Require Import Sums PyErr Arrays Rounding.
Import ListNotations.
Open Scope R_scope.

Definition mat := nat -> nat -> R.

(** ** 168-197 [MaskCollection.__init__]: the shape checks.  shape[:-d] and shape[-d:] for d > 0 *)
Definition shape_lead (d : nat) (s : list nat) : list nat := firstn (length s - d) s.
Definition shape_tail (d : nat) (s : list nat) : list nat := skipn (length s - d) s.
Definition nl_eqb (a b : list nat) : bool := if list_eq_dec Nat.eq_dec a b then true else false.
Definition mask_collection_check (d : nat) (enc : list nat) (dec : option (list nat)) : py_err + unit :=
  if Nat.ltb (length enc) (d + 1) then inl ValueError
  else match dec with
       | None => inr tt
       | Some t => if Nat.ltb (length t) (d + 1) then inl ValueError
                   else if negb (nl_eqb (shape_lead d enc) (shape_lead d t)) then inl ValueError
                   else if negb (nl_eqb (shape_tail d enc) (shape_tail d t)) then inl ValueError else inr tt
       end.
(** 199-241: shape_fov, shape_shifts, num_buckets, num_pixels *)
Definition num_buckets (d : nat) (enc : list nat) : nat := size (shape_lead d enc).
Definition num_pixels (d : nat) (enc : list nat) : nat := size (shape_tail d enc).

(** ** 522-523 [_apply_transmission] *)
Definition apply_transmission (t x : R) : R := 1 - (1 - x) * t.

(** ** 566-589 [get_interval_shifts] with axes_order (-2, -1): meshgrid(arange(0, n_v, i), arange(0, n_u, i), "ij"), flattened.
    shape_shifts[-2] raises IndexError for one-dimensional shapes.  An interval of 0 raises ZeroDivisionError (np.arange). *)
Definition arange_step (n step : nat) : list nat := map (fun k => k * step)%nat (seq 0 ((n + step - 1) / step)).
Definition mesh (a b : list nat) : list (nat * nat) := flat_map (fun v => map (fun u => (v, u)) b) a.
Definition get_interval_shifts (shape : list nat) (iv iu : nat) : py_err + list (nat * nat) :=
  match rev shape with
  | nu :: nv :: _ => if (Nat.eqb iv 0 || Nat.eqb iu 0)%bool then inl ZeroDivisionError else inr (mesh (arange_step nv iv) (arange_step nu iu))
  | _ => inl IndexError
  end.
(** 591-610 [get_random_shifts]: [perm] is np.random.permutation(prod(shape_shifts)); disp[perms] raises for an index out of range *)
Definition pick {A} (l : list A) (i : nat) : py_err + A := match nth_error l i with Some a => inr a | None => inl IndexError end.
Fixpoint pick_all {A} (l : list A) (is : list nat) : py_err + list A :=
  match is with [] => inr [] | i :: r => match pick l i, pick_all l r with inr a, inr t => inr (a :: t) | inl e, _ => inl e | _, inl e => inl e end end.
Definition get_random_shifts (shape : list nat) (perm : list nat) (num : nat) : py_err + list (nat * nat) :=
  match get_interval_shifts shape 1 1 with
  | inl e => inl e
  | inr l => pick_all l (firstn (Nat.min num (size shape)) perm)
  end.
(** 612-630 [get_sequential_shifts] *)
Definition get_sequential_shifts (shape : list nat) (num : option nat) : py_err + list (nat * nat) :=
  match get_interval_shifts shape 1 1 with inl e => inl e | inr l => inr (match num with Some k => firstn k l | None => l end) end.

(** ** 465-470 [_init_fov_mm], per axis: the number of points and the feature size *)
Definition init_fov (fov res : R) : Z := rceil (fov / res).
Definition feature_size (fov res : R) : R := fov / IZR (init_fov fov res).
(** 472-520 [generate_collection]: the chosen shifts.  npix = prod(shape_fov). *)
Inductive shift_type := SRandom | SInterval | SSequential | SOther.
Definition collection_shifts (ty : shift_type) (npix : nat) (shape_shifts : list nat) (fraction : R) (perm : list nat) : py_err + list (nat * nat) :=
  match ty with
  | SRandom => get_random_shifts shape_shifts perm (Z.to_nat (rceil (INR npix * fraction)))
  | SInterval => let i := Z.to_nat (rceil (1 / fraction)) in get_interval_shifts shape_shifts i i
  | SSequential => get_sequential_shifts shape_shifts (Some (Z.to_nat (rceil (INR npix * fraction))))
  | SOther => inl ValueError
  end.
(** 651-668 [MaskGeneratorPoint.generate_shifted_mask] *)
Definition point_mask (t : R) (v u : nat) : mat := fun i j => apply_transmission t (if (Nat.eqb i v && Nat.eqb j u)%bool then 1 else 0).

(** ** 759-793 [MaskGeneratorMURA] *)
(** 776-778: the side *)
Definition mura_base (fov res : R) : Z := rceil ((fov / res - 1) / 4).
Definition mura_points (fov res : R) : Z := (4 * mura_base fov res + 1)%Z.
(** 780-783: mask_1d[q] = 1 for the squares of 1 .. n-1 modulo n *)
Definition mask_1d (n i : nat) : bool := existsb (fun k => Nat.eqb ((k * k) mod n) i) (seq 1 (n - 1)).
(** 785-790: masks_enc and masks_dec *)
Definition enc_bit (n i j : nat) : bool :=
  if Nat.eqb i 0 then false else if Nat.eqb j 0 then true else Bool.eqb (mask_1d n i) (mask_1d n j).
Definition dec_bit (n i j : nat) : bool := if (Nat.eqb i 0 && Nat.eqb j 0)%bool then true else enc_bit n i j.
Definition b2r (b : bool) : R := if b then 1 else 0.
(** 795-818 [generate_shifted_mask]: np.roll by (v, u), then the transmission *)
Definition rollidx (n : nat) (i v : nat) : nat := Z.to_nat ((Z.of_nat i - Z.of_nat v) mod Z.of_nat n).
Definition mura_mask (n : nat) (t : R) (encoding : bool) (v u : nat) : mat := fun i j =>
  apply_transmission t (b2r ((if encoding then enc_bit else dec_bit) n (rollidx n i v) (rollidx n j u))).
(** 820-845 [compute_possible_mask_sizes].  With no candidate, indexing with an empty float array raises IndexError. *)
Definition test_prime (x : nat) : bool := negb (existsb (fun d => Nat.eqb (x mod d) 0) (seq 2 (x / 2 - 2))).
Definition mask_size_candidates (fov : nat) : list nat := map (fun l => l * 4 + 1)%nat (seq 1 ((fov - 1) / 4 - 1)).
Definition compute_possible_mask_sizes (fov : nat) : py_err + list nat :=
  match mask_size_candidates fov with [] => inl IndexError | c => inr (filter test_prime c) end.

(** ** 848-1029 [ProjectorGhostImaging], numpy backend *)
(** 900-928 [fp], 930-960 [bp] for one image / one list of buckets *)
Definition gi_fp (m npix : nat) (enc : mat) (x : vec) : vec := fun k => rsum npix (fun i => x i * enc k i).
Definition gi_bp (m npix : nat) (dec : mat) (b : vec) : vec := fun i => rsum m (fun k => b k * dec k i).
(** 866-869: col_sum and row_sum *)
Definition gi_col_sum (m : nat) (dec : mat) (i : nat) : R := rsum m (fun k => Rabs (dec k i)).
Definition gi_row_sum (npix : nat) (enc dec : mat) (k : nat) : R := rsum npix (fun i => sqrt (Rabs (enc k i * dec k i))).
(** 871-872: the shapes declared to the operator: masks_enc.shape[-2:] (whatever mask_dims) and the number of buckets *)
Definition gi_vol_shape (enc_shape : list nat) : list nat := shape_tail 2 enc_shape.
Definition gi_prj_shape (d : nat) (enc_shape : list nat) : list nat := [num_buckets d enc_shape].
(** 986-1015 [fbp]: which of the two reconstructions is used; [differ] is np.any(masks_enc != masks_dec) *)
Inductive fbp_method := ByBackProjection | ByLeastSquares.
Definition fbp_choice (differ use_lstsq : bool) : fbp_method := if (differ && negb use_lstsq)%bool then ByBackProjection else ByLeastSquares.
(** 1017-1029 [absolute]: a deep copy with the absolute masks *)
Definition gi_absolute (enc dec : mat) : mat * mat := (fun k i => Rabs (enc k i), fun k i => Rabs (dec k i)).

(** ** 37-61 [reorder_masks] with the masks and the buckets rolled by -shift.  np.roll without an axis rolls the flattened buckets:
    for a stack of n lists of m buckets, row a, position k holds the flat entry a * m + k + shift (modulo n * m). *)
Definition reorder_mask_index (m : nat) (shift : Z) (k : nat) : nat := Z.to_nat ((Z.of_nat k + shift) mod Z.of_nat m).
Definition reorder_buckets (n m : nat) (shift : Z) (b : nat -> vec) : nat -> vec := fun a k =>
  let f := Z.to_nat ((Z.of_nat (a * m + k) + shift) mod Z.of_nat (n * m)) in b (f / m)%nat (f mod m)%nat.
(** 52-55, the masks: they are reshaped to [-1, *shape[-2:]] and rolled along the first axis, whatever mask_dims.  For a stack of m masks of
    one dimension the array has the shape (m, n), so it becomes (1, m, n) and the roll does nothing; the buckets are still rolled. *)
Definition reorder_mask_index_dim (mask_dims m : nat) (shift : Z) (k : nat) : nat := if Nat.eqb mask_dims 1 then k else reorder_mask_index m shift k.
(** 63-91 [decompose_qr_masks] and 297-329 [get_qr_decomposition].  np.linalg.qr(masks^T) = (Q, R) with k = min(m, npix): Q is npix x k
    with orthonormal columns, R is k x m upper triangular and Q R = masks^T.  np.linalg.inv(R^T) raises LinAlgError (a ValueError) unless
    R^T is square and regular. *)
Definition qr_contract (m npix : nat) (M : mat) (Q Rm : mat) : Prop :=
  let k := Nat.min m npix in
  (forall i j, (i < npix)%nat -> (j < m)%nat -> rsum k (fun l => Q i l * Rm l j) = M j i) /\
  (forall a b, (a < k)%nat -> (b < k)%nat -> rsum npix (fun i => Q i a * Q i b) = if Nat.eqb a b then 1 else 0).
(** the inverse of R^T: R1t R^T = R^T R1t = 1 *)
Definition inverse_of (k : nat) (Rt Inv : mat) : Prop :=
  (forall a b, (a < k)%nat -> (b < k)%nat -> rsum k (fun l => Rt a l * Inv l b) = if Nat.eqb a b then 1 else 0) /\
  (forall a b, (a < k)%nat -> (b < k)%nat -> rsum k (fun l => Inv a l * Rt l b) = if Nat.eqb a b then 1 else 0).
(** the new masks Q^T, and the buckets R1t . b *)
Definition qr_masks (Q : mat) : mat := fun k i => Q i k.
Definition qr_buckets (m : nat) (Inv : mat) (b : vec) : vec := fun k => rsum m (fun l => Inv k l * b l).
Definition get_qr_check (differ : bool) (m npix : nat) : py_err + unit :=
  if differ then inl ValueError else if Nat.ltb npix m then inl ValueError (* LinAlgError, a subclass *) else inr tt.

(** ** 1032-1104 [ProjectorGhostTomography] *)
(** 1037-1048: the check compares [*dir_shape[:-2], dir_shape[-1]] of the tomographic projector with shape_fov; the message reads
    self.tomo_proj, which is not set yet *)
Definition gt_tomo_shape (dir_shape : list nat) : list nat := shape_lead 2 dir_shape ++ shape_tail 1 dir_shape.
Definition gt_init (d : nat) (enc_shape dir_shape : list nat) : py_err + unit :=
  let t := gt_tomo_shape dir_shape in
  if (negb (Nat.eqb (length t) d) || negb (nl_eqb t (shape_tail d enc_shape)))%bool then inl AttributeError else inr tt.
(** 1050-1065 [fp], 1067-1082 [bp]: the images of the w-th projection are img w (flattened v, u); tfp/tbp are the tomographic operators on
    stacks of images; the result has one list of buckets per projection *)
Definition gt_fp (m npix : nat) (enc : mat) (tfp : vec -> nat -> vec) (x : vec) : nat -> vec := fun w => gi_fp m npix enc (tfp x w).
Definition gt_bp (m npix : nat) (dec : mat) (tbp : (nat -> vec) -> vec) (b : nat -> vec) : vec := tbp (fun w => gi_bp m npix dec (b w)).
(** 1084-1104 [fbp]: super() inside a list comprehension only works where comprehensions are inlined (Python 3.12 and later);
    before, TypeError *)
Definition gt_fbp (py_minor : nat) {A} (result : A) : py_err + A := if Nat.ltb py_minor 12 then inl TypeError else inr result.
