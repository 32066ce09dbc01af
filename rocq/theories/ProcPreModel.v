(** Model of src/corrct/processing/pre.py. *)
From Coq Require Import Reals Lra Lia List ZArith Bool.
Import ListNotations.
From Verif Require Import Sums Arrays OperatorsModel Rounding PyErr.
Open Scope R_scope.

(** ** pre.py:23-52 [pad_sinogram].  [width] as the user gives it (an int is a one-element list, 47); np.pad broadcasts
    the resulting (ndim, len(width)) table to (ndim, 2): one entry is used on both sides, more than two do not fit. *)
Definition pad_pair (width : list nat) : py_err + (nat * nat) :=
  match width with [w] => inr (w, w) | [b; a] => inr (b, a) | _ => inl ValueError end.
(** 49-52: all axes but [pad_axis] get width 0 *)
Definition pad_sinogram (mode : pad_mode) (s : list nat) (pad_axis : Z) (width : list nat) (x : arr) : py_err + (list nat * arr) :=
  match pad_pair width with
  | inl e => inl e
  | inr (b, a) => let ax := norm_axis (length s) pad_axis in
      inr (set_nth ax (b + nth ax s 0 + a)%nat s, along ax (np_pad mode (nth ax s 0%nat) b) x)
  end.

(** ** pre.py:55-108 [apply_flat_field], pixel by pixel: projections p(w, l), flats f(j, l) (num_f of them; a single 2-D flat
    is num_f = 1, whose mean is itself), an optional dark image d(l), an optional cap.  l is the pixel index. *)
Definition opt_sub (d : option arr) (x : R) (l : list nat) : R := match d with Some dk => x - dk l | None => x end.
Definition mean_flat (num_f : nat) (flats : nat -> arr) (darks : option arr) (l : list nat) : R :=
  rsum num_f (fun j => opt_sub darks (flats j l) l) / INR num_f.
Definition apply_flat_field (num_f : nat) (projs flats : nat -> arr) (darks : option arr) (cap : option R) (w : nat) (l : list nat) : R :=
  let t := opt_sub darks (projs w l) l / mean_flat num_f flats darks l in
  match cap with Some c => Rmin t c | None => t end.
(** 89-93: the crop of the last two axes, x[..., c0:c2, c1:c3] *)
Definition crop_vu (c0 c1 : nat) (x : arr) : arr := fun l => match l with [v; u] => x [(c0 + v)%nat; (c1 + u)%nat] | _ => x l end.
(** 95-98: a stack of [nd] darks is NOT averaged: it is subtracted frame by frame, from the projections and from the flats
    (numpy broadcasting of the leading axis). *)
Definition broadcast_ok (n m : nat) : bool := (Nat.eqb n m || Nat.eqb n 1 || Nat.eqb m 1)%bool.
Definition dark_stack_check (nw nf nd : nat) : py_err + unit :=
  if (broadcast_ok nw nd && broadcast_ok nf nd)%bool then inr tt else inl ValueError.

(** ** pre.py:111-125 [apply_minus_log].  Values are extended reals: np.log(0) = -inf, np.log of a negative number is NaN,
    and np.fmax ignores a NaN operand. *)
Inductive ext := MInf | Fin (x : R) | PInf.
Inductive num := Num (e : ext) | NaN.
Definition np_neg_log (x : R) : num :=
  if Rlt_dec 0 x then Num (Fin (- ln x)) else if Req_EM_T x 0 then Num PInf else NaN.
Definition ext_max (a b : ext) : ext :=
  match a, b with
  | MInf, _ => b | _, MInf => a | PInf, _ => PInf | _, PInf => PInf
  | Fin x, Fin y => Fin (Rmax x y)
  end.
Definition apply_minus_log (lower_limit : ext) (x : R) : ext :=
  match np_neg_log x with NaN => lower_limit | Num e => ext_max e lower_limit end.
Definition ext_le (a b : ext) : Prop :=
  match a, b with MInf, _ => True | _, PInf => True | Fin x, Fin y => x <= y | _, _ => False end.

(** ** pre.py:150-177 [shift_proj_stack], spatial mode (175): scipy.ndimage.shift of order 1, mode "nearest", per axis:
    the sample at i - shift, clamped to the line, interpolated linearly. *)
Definition clampR (lo hi x : R) : R := Rmax lo (Rmin x hi).
Definition shift1 (n : nat) (sh : R) (x : vec) : vec := fun i =>
  let p := clampR 0 (INR n - 1) (INR i - sh) in
  let k := Z.to_nat (rfloor p) in
  let t := p - INR k in
  (1 - t) * x k + t * x (Nat.min (S k) (n - 1)).
(** all the axes of one projection [..., ii, :] *)
Fixpoint shift_axes (ax : nat) (s : list nat) (sh : list R) (x : arr) : arr :=
  match s, sh with n :: s', h :: sh' => along ax (shift1 n h) (shift_axes (S ax) s' sh' x) | _, _ => x end.
(** 169-173: in Fourier mode np.fft.irfftn without the output shape always returns a last axis of even length
    2 * (n//2 + 1 - 1), which must fit into the n columns (a length 1 broadcasts). *)
Definition irfft_len (n : nat) : nat := (2 * (n / 2 + 1 - 1))%nat.
Definition shift_fft_check (n : nat) : py_err + unit :=
  if (Nat.eqb (irfft_len n) n || Nat.eqb (irfft_len n) 1)%bool then inr tt else inl ValueError.

(** ** pre.py:180-231 [bin_imgs] with an integer binning. *)
(** 202-209: the crop of one binned axis of length n: (start, length); without excess the axis is left whole *)
Definition bin_crop (n b : nat) : nat * nat :=
  let excess := (n mod b)%nat in
  if (0 <? excess)%nat then ((excess - excess / 2)%nat, (n - excess / 2 - (excess - excess / 2))%nat) else (0%nat, n).
(** 216-221: skimage block_reduce(mean): axis i is cut in blocks of b_i (1 for the axes that are not binned); the last
    block is completed with zeros. *)
Definition ceil_div (n b : nat) : nat := ((n + b - 1) / b)%nat.
Definition in_box (s l : list nat) : bool := forallb (fun p => (fst p <? snd p)%nat) (combine l s).
Definition zero_pad (s : list nat) (x : arr) : arr := fun l => if in_box s l then x l else 0.
Fixpoint block_idx (bs l d : list nat) : list nat :=
  match bs, l, d with b :: bs', i :: l', e :: d' => (i * b + e)%nat :: block_idx bs' l' d' | _, _, _ => [] end.
Definition block_reduce_mean (s bs : list nat) (x : arr) (l : list nat) : R :=
  bsum bs (fun d => zero_pad s x (block_idx bs l d)) / INR (size bs).
Fixpoint map2 {A B C} (f : A -> B -> C) (l : list A) (m : list B) : list C :=
  match l, m with a :: l', b :: m' => f a b :: map2 f l' m' | _, _ => [] end.
Definition block_shape (s bs : list nat) : list nat := map2 ceil_div s bs.
Definition crop_nd (starts : list nat) (x : arr) : arr := fun l => x (map2 Nat.add starts l).
(** the whole function: with auto_crop, crop first.  [bs] holds the binning on the binned axes and 1 elsewhere. *)
Definition bin_imgs (auto_crop : bool) (s bs : list nat) (x : arr) : list nat * arr :=
  if auto_crop then
    let cs := map2 bin_crop s bs in
    (block_shape (map snd cs) bs, block_reduce_mean (map snd cs) bs (crop_nd (map fst cs) x))
  else (block_shape s bs, block_reduce_mean s bs x).

(** ** pre.py:234-304 [background_from_margin].  data(v, w, u); [nv] = None for 2-D data [w, u].  The margin is a pair
    (m0, m1) (a single integer is used twice, 263-264). *)
(** x[: m] and x[-m :] of a line of length n: x[-0 :] is the whole line. *)
Definition head_sum (n m : nat) (x : vec) : R := rsum (Nat.min m n) x.
Definition tail_sum (n m : nat) (x : vec) : R := if Nat.eqb m 0 then rsum n x else rsum (Nat.min m n) (fun i => x (n - Nat.min m n + i)%nat).
(** 298-299 *)
Definition margin_mean (n m0 m1 : nat) (x : vec) : R := (head_sum n m0 x + tail_sum n m1 x) / INR (m0 + m1).
(** 301-304: for 3-D data the mean over v *)
Definition background_const (nv : option nat) (n m0 m1 : nat) (data : nat -> nat -> vec) (w : nat) : R :=
  match nv with
  | None => margin_mean n m0 m1 (data 0%nat w)
  | Some k => rsum k (fun v => margin_mean n m0 m1 (data v w)) / INR k
  end.
(** 267-268: the check *)
Definition margin_check (n m0 m1 : nat) : py_err + unit := if (n <? m0 + m1)%nat then inl ValueError else inr tt.
(** 273-296: poly_order > 0: abscissae and ordinates of the fit; numpy's Polynomial.fit is taken by its contract (a
    least-squares polynomial of degree <= poly_order) and evaluated at all columns. *)
Definition fit_x (n m0 m1 i : nat) : nat := if (i <? m0)%nat then i else (n - m1 + (i - m0))%nat.
Definition fit_y (nv : option nat) (n m0 m1 : nat) (data : nat -> nat -> vec) (w i : nat) : R :=
  match nv with
  | None => data 0%nat w (fit_x n m0 m1 i)
  | Some k => rsum k (fun v => data v w (fit_x n m0 m1 i)) / INR k
  end.
Fixpoint peval (cs : list R) (x : R) : R := match cs with [] => 0 | c :: r => c + x * peval r x end.
Definition polyfit_contract (deg m : nat) (xs ys : nat -> R) (cs : list R) : Prop :=
  length cs = S deg /\ forall ds, length ds = S deg ->
    rsum m (fun i => (peval cs (xs i) - ys i) ^ 2) <= rsum m (fun i => (peval ds (xs i) - ys i) ^ 2).
(** 269-271: the order actually used *)
Definition effective_order (m0 m1 poly_order : nat) : nat := if (Nat.eqb m0 0 || Nat.eqb m1 0)%bool then 0%nat else poly_order.

(** ** pre.py:307-351 [snip].  The image has axes s = lead ++ ks, the last (kernel) axes ks; W the window. *)
Definition interior (W e : nat) : bool := ((1 <=? e) && (e <? W - 1))%nat.
Definition snip_kern_raw (W : nat) (d : list nat) : R := if forallb (interior W) d then 0 else 1.
(** 341-345 *)
Definition snip_kern_sum (W k : nat) : R := bsum (repeat W k) (snip_kern_raw W).
Definition snip_kern (W k : nat) (d : list nat) : R := snip_kern_raw W d / snip_kern_sum W k.
(** 349: scipy.ndimage.convolve(mode="nearest"): index l - d + W//2, clamped to the axis *)
Definition clamp_idx (n W i e : nat) : nat := Nat.min (i + W / 2 - e) (n - 1).
Fixpoint conv_idx (ks : list nat) (W : nat) (l d : list nat) : list nat :=
  match ks, l, d with n :: ks', i :: l', e :: d' => clamp_idx n W i e :: conv_idx ks' W l' d' | _, _, _ => [] end.
Definition snip_conv (ks : list nat) (W : nat) (x : arr) (l : list nat) : R :=
  bsum (repeat W (length ks)) (fun d => snip_kern W (length ks) d * x (conv_idx ks W l d)).
Definition snip_step (ks : list nat) (W : nat) (x : arr) : arr := fun l => Rmin (snip_conv ks W x l) (x l).
Fixpoint snip_iter (ks : list nat) (W iterations : nat) (x : arr) : arr :=
  match iterations with O => x | S k => snip_step ks W (snip_iter ks W k x) end.
(** 336-339 and 341-345: the argument check, and the in-place division of a kernel that has the image's dtype *)
Inductive dtype := DFloat | DInt.
Definition snip (dt : dtype) (s : list nat) (kernel_dims : option nat) (W iterations : nat) (x : arr) : py_err + arr :=
  let k := match kernel_dims with None => length s | Some k => k end in
  if ((length s <? k) || (k <? 1))%nat%bool then
    match kernel_dims with None => inr x | Some _ => inl ValueError end  (* None with a 0-d image is not an error *)
  else match dt with
  | DInt => inl TypeError
  | DFloat => let lead := (length s - k)%nat in
      inr (fun l => snip_iter (skipn lead s) W iterations (fun m => x (firstn lead l ++ m)) (skipn lead l))
  end.
(** ** pre.py:354-387 [background_from_snip] without smoothing, for data [v, w, u] *)
Definition background_from_snip (nv nu iterations : nat) (data : nat -> nat -> vec) (v w u : nat) : R :=
  snip_iter [nv; nu] 3 iterations (fun l => match l with [a; b] => data a w b | _ => 0 end) [v; u].

(** ** pre.py:390-450 [destripe_wlf_vwu]: the padding (428-435), the Fourier filter (443) and the shape check of its
    application to the coefficients (444); the wavelet transform itself is pywt's. *)
Definition destripe_target (level n : nat) : nat := (ceil_div n (2 ^ level) * 2 ^ level)%nat.
Definition destripe_pad (level n : nat) : nat * nat :=
  let diff := (destripe_target level n - n)%nat in ((diff - diff / 2)%nat, (diff / 2)%nat).
Definition destripe_filter (sigma : R) (n k : nat) : R := 1 - exp (- (INR k / INR n) ^ 2 / (2 * sigma ^ 2)).
(** coeff_f *= filt_f[:, None]: filt_f[:, None] has shape [nf, 1] with nf = n//2 + 1 for an angle axis of length n, and
    in-place broadcasting aligns nf with the second last axis of coeff_f.  [ax] is the angle axis counted from the end
    (1 is the last axis, 2 the second last), [n_axis] its length, [n_second_last] the length of the second last axis. *)
Definition destripe_filter_check (n_axis n_second_last ax : nat) : py_err + unit :=
  let nf := (n_axis / 2 + 1)%nat in
  let second_last := if Nat.eqb ax 2 then nf else n_second_last in
  if (Nat.eqb nf second_last || Nat.eqb nf 1)%bool then inr tt else inl ValueError.

(** ** pre.py:453-522 [compute_eigen_flats]: stack(i, l) of trans_num + num_flats images over the pixels l < npix.
    491-494: darks are averaged over their leading axes and the difference is clipped from below *)
Definition eigen_input (eps : R) (dark : option vec) (x : R) (l : nat) : R :=
  match dark with Some d => Rmax (x - d l) eps | None => x end.
(** np.linalg.svd of the (npix x num_imgs) matrix of logarithms: X = U diag(sigma) Vh *)
Definition svd_contract (npix m r : nat) (X U : nat -> nat -> R) (sigma : vec) (Vh : nat -> nat -> R) : Prop :=
  r = Nat.min npix m /\ forall l i, (l < npix)%nat -> (i < m)%nat -> X l i = rsum r (fun k => U l k * sigma k * Vh k i).
(** 501-507 *)
Definition eigen_projs (r : nat) (U : nat -> nat -> R) (sigma : vec) (Vh : nat -> nat -> R) (i l : nat) : R :=
  exp (rsum (r - 1) (fun k => U l (S k) * sigma (S k) * Vh (S k) i)).
Definition eigen_flats (U : nat -> nat -> R) (sigma : vec) (Vh : nat -> nat -> R) (i l : nat) : R :=
  exp (U l 0%nat * sigma 0%nat * Vh 0%nat i).
