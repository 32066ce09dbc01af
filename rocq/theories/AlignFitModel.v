(** Model of src/corrct/alignment/fitting.py.  Real arithmetic instead of floating point; numpy's FFTs are the exact
    transforms of FourierBox.v; Polynomial.fit and np.linalg.lstsq are oracles constrained by a least-squares contract;
    scipy's minimize (the l1 refinements) and curve_fit, and plotting, are not modelled. *)
From Coq Require Import Reals Lra Lia List ZArith Bool.
Import ListNotations.
From Verif Require Import Sums Rounding PyErr Arrays Reindex ParamTuningModel ProcPreModel Fourier FourierBox.
Open Scope R_scope.

(** ** np.around: rint(x * 10^d) / 10^d, where rint rounds ties to the even integer *)
Definition rint (x : R) : Z :=
  let k := rfloor x in
  if Rlt_dec (x - IZR k) (1 / 2) then k
  else if Rlt_dec (1 / 2) (x - IZR k) then (k + 1)%Z
  else if Z.even k then k else (k + 1)%Z.
Definition np_around (d : nat) (x : R) : R := IZR (rint (x * 10 ^ d)) / 10 ^ d.

(** ** fitting.py:524-602 [refine_max_position_1d] *)
(** 556-558: np.linspace(-(m-1)/2, (m-1)/2, m) *)
Definition centred (m : nat) : vec := fun i => INR i - (INR m - 1) / 2.
(** 568-595: the coefficients [cs] = [c0; c1; c2] of the fitted parabola; a vanishing c2 makes the vertex NaN or infinite,
    which fails both comparisons; the vertex is rounded before it is compared with the strict bounds.
    Returns the vertex and (597-600) the value computed from the ROUNDED vertex. *)
Definition vertex_of (cs : list R) : option R :=
  if Req_EM_T (nth 2 cs 0) 0 then None else Some (- nth 1 cs 0 / (2 * nth 2 cs 0)).
Definition refine_with (d m : nat) (xs : vec) (cs : list R) : py_err + (R * R) :=
  match vertex_of cs with
  | None => inl ValueError
  | Some v0 =>
      let v := np_around d v0 in
      if Rlt_dec (rmin m xs) v then
        if Rlt_dec v (rmax m xs) then inr (v, np_around d (nth 0 cs 0 + v * nth 1 cs 0 / 2)) else inl ValueError
      else inl ValueError
  end.
(** [fit m xs ys]: what Polynomial.fit(xs, ys, deg=2) (or lstsq on the Vandermonde matrix, column by column) returns *)
Definition fitter := nat -> vec -> vec -> list R.
Definition refine_max_position_1d (fit : fitter) (d m : nat) (f_x : option (nat * vec)) (f_vals : vec) : py_err + (R * R) :=
  match f_x with
  | None => refine_with d m (centred m) (fit m (centred m) f_vals)
  | Some (k, xs) => if Nat.eqb k m then refine_with d m xs (fit m xs f_vals) else inl ValueError
  end.
(** the fit is the least-squares parabola through these points *)
Definition fits (fit : fitter) (m : nat) (xs ys : vec) : Prop := polyfit_contract 2 m xs ys (fit m xs ys).

(** ** fitting.py:469-521, 605-645 [extract_peak_regions_1d], [extract_peak_region_nd] (peak_radius = 1) *)
(** np.argmax in C order: the first position of the largest value *)
Fixpoint argmax_from (cc : arr) (ls : list (list nat)) (best : list nat) : list nat :=
  match ls with [] => best | l :: r => argmax_from cc r (if Rlt_dec (cc best) (cc l) then l else best) end.
Definition argmax (s : list nat) (cc : arr) : list nat :=
  match idx s with [] => [] | l :: r => argmax_from cc r l end.
(** the three values along axis a through the peak p, with wrapping *)
Definition peak_line (s : list nat) (cc : arr) (p : list nat) (a : nat) : vec :=
  fun i => cc (set_nth a (imod (nth a s 0%nat) (Z.of_nat (nth a p 0%nat) + (Z.of_nat i - 1))) p).
(** np.fft.fftfreq(n, 1 / n) *)
Definition fftfreq (n k : nat) : Z := if Nat.ltb k ((n - 1) / 2 + 1) then Z.of_nat k else (Z.of_nat k - Z.of_nat n)%Z.

(** ** fitting.py:85-201, 204-270 [fit_shifts_vu_xc], [fit_shifts_zyx_xc]: the cross-correlation of two images (or lines, or
    volumes) of shape s' ++ [n]. *)
Inductive xnorm := NoNorm | NormEach | NormMax.       (* none; 163-164, 253-254 per frequency; 183-184 by the largest of the line *)
Definition cabs (z : C) : R := sqrt (cabs2 z).
Definition xc_spectrum (s : list nat) (d p : arr) : carrN := fun k =>
  dftN s (fun l => RtoC (d l)) k *c conj (dftN s (fun l => RtoC (p l)) k).
(** [eps] is the float32 machine epsilon; [bins] are the frequencies the transform returns *)
Definition xc_weight (nrm : xnorm) (eps : R) (bins : list nat) (X : carrN) (k : list nat) : R :=
  match nrm with
  | NoNorm => 1
  | NormEach => / Rmax (cabs (X k)) eps
  | NormMax => / Rmax (cabs (X (argmax bins (fun l => cabs (X l))))) eps
  end.
(** np.fft.irfftn without an output shape: the last axis gets 2 (M - 1) samples from M bins *)
Definition irfftnN (s' : list nat) (M : nat) (X : carrN) : arr := fun l =>
  / INR (size (s' ++ [2 * (M - 1)])%nat) *
  bsum (s' ++ [M]) (fun k => hw M (last k 0%nat) * fst (X k *c chi (s' ++ [2 * (M - 1)])%nat k (zl l))).
Definition xc_bins (use_rfft : bool) (s' : list nat) (n : nat) : list nat := if use_rfft then s' ++ [n / 2 + 1]%nat else s' ++ [n].
Definition xc_out (use_rfft : bool) (s' : list nat) (n : nat) : list nat := if use_rfft then s' ++ [2 * (n / 2 + 1 - 1)]%nat else s' ++ [n].
Definition xcorr (use_rfft : bool) (nrm : xnorm) (eps : R) (s' : list nat) (n : nat) (d p : arr) : arr :=
  let X := xc_spectrum (s' ++ [n]) d p in
  let Y := fun k => RtoC (xc_weight nrm eps (xc_bins use_rfft s' n) X k) *c X k in
  if use_rfft then irfftnN s' (n / 2 + 1) Y else fun l => fst (idftN (s' ++ [n]) Y l).
(** 167-177, 187-191, 257-268: coordinates of the peak and sub-pixel refinement along every axis (decimals > 0).  The
    coordinates are those of the shape that was transformed, s. *)
Fixpoint refine_axes (fit : fitter) (d : nat) (so s : list nat) (cc : arr) (p : list nat) (axes : list nat) : py_err + list R :=
  match axes with
  | [] => inr []
  | a :: r =>
      let c := IZR (fftfreq (nth a s 0%nat) (nth a p 0%nat)) in
      match (if Nat.eqb d 0 then inr (c, 0) else
               match refine_max_position_1d fit d 3 None (peak_line so cc p a) with inr (v, _) => inr (c + v, 0) | inl e => inl e end)
      with
      | inl e => inl e
      | inr (x, _) => match refine_axes fit d so s cc p r with inl e => inl e | inr xs => inr (x :: xs) end
      end
  end.
Definition fit_shifts_xc (fit : fitter) (use_rfft : bool) (nrm : xnorm) (eps : R) (dec : nat) (s' : list nat) (n : nat) (d p : arr)
  : py_err + list R :=
  let so := xc_out use_rfft s' n in
  let cc := xcorr use_rfft nrm eps s' n d p in
  let pk := argmax so cc in
  if Nat.eqb (size so) 0 then inl ValueError                    (* no data points *)
  else refine_axes fit dec so (s' ++ [n]) cc pk (seq 0 (length so)).
(** 134-138, 158-159, 179-180: np.fft.fftn(x, s) pads with zeros at the end; [pad_u] doubles the last axis *)
Definition zpad (s : list nat) (x : arr) : arr := fun l => if in_box s l then x l else 0.
Definition fit_shifts_vu_xc (fit : fitter) (pad_u use_rfft : bool) (nrm : xnorm) (eps : R) (dec : nat) (s' : list nat) (n : nat) (d p : arr)
  : py_err + list R :=
  fit_shifts_xc fit use_rfft nrm eps dec s' (if pad_u then 2 * n else n)%nat (zpad (s' ++ [n]) d) (zpad (s' ++ [n]) p).
(** 204-270: [fit_shifts_zyx_xc]: every axis is doubled by pad_zyx *)
Definition fit_shifts_zyx_xc (fit : fitter) (pad_zyx use_rfft : bool) (nrm : xnorm) (eps : R) (dec : nat) (s' : list nat) (n : nat) (d p : arr)
  : py_err + list R :=
  let k := if pad_zyx then 2%nat else 1%nat in
  fit_shifts_xc fit use_rfft nrm eps dec (map (fun m => k * m)%nat s') (k * n) (zpad (s' ++ [n]) d) (zpad (s' ++ [n]) p).
(** Python indexing of a list, negative indices from the end *)
Definition py_nth {A} (l : list A) (i : Z) : py_err + A :=
  match nth_error l (Z.to_nat (if (i <? 0)%Z then i + Z.of_nat (length l) else i)%Z) with
  | Some a => if ((- Z.of_nat (length l) <=? i) && (i <? Z.of_nat (length l)))%Z%bool then inr a else inl IndexError
  | None => inl IndexError
  end.
Fixpoint del_nth {A} (i : nat) (l : list A) : list A := match l, i with [], _ => [] | _ :: r, O => r | a :: r, S j => a :: del_nth j r end.
(** 129-138, 187: the transformed axes (negative), np.delete(arange(-ndim, 0), stack_axis), and the coordinates of the u axis for
    lines: the list of coordinates has one entry per transformed axis, and is indexed with the AXIS of the data. *)
Definition fft_dims (ndim : nat) (stack_axis : Z) : list Z :=
  del_nth (Z.to_nat (if (stack_axis <? 0)%Z then stack_axis + Z.of_nat ndim else stack_axis)%Z) (map (fun k => (Z.of_nat k - Z.of_nat ndim)%Z) (seq 0 ndim)).
Definition xc_u_coords (shape : list nat) (stack_axis : Z) : py_err + list Z :=
  let dims := fft_dims (length shape) stack_axis in
  let coords := map (fun d => let n := nth (Z.to_nat (d + Z.of_nat (length shape))) shape 0%nat in map (fftfreq n) (seq 0 n)) dims in
  py_nth coords (last dims 0%Z).

(** ** fitting.py:31-82 [fit_shifts_u_sad], one row (error_norm = 1): fourier_shift by an integer is the circular shift of the padded row.
    The padding is only created when pad_u is set (60-66). *)
Definition sad_pad (edge : bool) (n sr : nat) (x : vec) : vec := fun i =>
  if (Nat.ltb i sr) then (if edge then x 0%nat else 0)
  else if Nat.ltb i (sr + n) then x (i - sr)%nat else if edge then x (n - 1)%nat else 0.
Definition sad_diff (n sr : nat) (data proj : vec) (s : Z) : R :=
  rsum (n + 2 * sr) (fun i => Rabs (sad_pad true n sr data i - sad_pad false n sr proj (imod (n + 2 * sr) (Z.of_nat i - s)))).
Definition fit_shifts_u_sad (fit : fitter) (pad_u : bool) (dec n sr : nat) (data proj : vec) : py_err + R :=
  if negb pad_u then inl UnboundLocalError
  else
    let ns := (2 * sr + 1)%nat in
    let cc : arr := fun l => - sad_diff n sr data proj (fftfreq ns (nth 0 l 0%nat)) in
    let pk := argmax [ns] cc in
    match refine_axes fit dec [ns] [ns] cc pk [0%nat] with inl e => inl e | inr xs => inr (nth 0 xs 0) end.

(** ** fitting.py:648-724 [refine_max_position_2d] *)
(** 676-678, 688-690: np.linspace(-1, 1, n) and the scaling (n - 1) / 2 *)
Definition unit_grid (n : nat) : vec := fun i => -1 + INR i * (2 / (INR n - 1)).
Definition quad2 (c : list R) (y x : R) : R :=
  nth 0 c 0 + nth 1 c 0 * y + nth 2 c 0 * x + nth 3 c 0 * (y * x) + nth 4 c 0 * y ^ 2 + nth 5 c 0 * x ^ 2.
(** np.linalg.lstsq on the 6-column matrix: a least-squares quadratic *)
Definition fits2 (ny nx : nat) (ys xs : vec) (f : nat -> nat -> R) (c : list R) : Prop :=
  length c = 6%nat /\ forall c', length c' = 6%nat ->
    rsum ny (fun i => rsum nx (fun j => (quad2 c (ys i) (xs j) - f i j) ^ 2)) <=
    rsum ny (fun i => rsum nx (fun j => (quad2 c' (ys i) (xs j) - f i j) ^ 2)).
(** 706: coeffs *= scaling; 711-713: the vertex solves A v = -b (lstsq of a non-singular 2 x 2 system) *)
Definition rescale2 (ysc xsc : R) (c : list R) : list R :=
  [nth 0 c 0; nth 1 c 0 * ysc; nth 2 c 0 * xsc; nth 3 c 0 * (ysc * xsc); nth 4 c 0 * ysc ^ 2; nth 5 c 0 * xsc ^ 2].
Definition det2 (c : list R) : R := 4 * nth 4 c 0 * nth 5 c 0 - nth 3 c 0 ^ 2.
Definition vertex2 (c : list R) : R * R :=
  ((nth 3 c 0 * nth 2 c 0 - 2 * nth 5 c 0 * nth 1 c 0) / det2 c, (nth 3 c 0 * nth 1 c 0 - 2 * nth 4 c 0 * nth 2 c 0) / det2 c).
Definition axis2 (n : nat) (f : option vec) : vec * R := match f with None => (unit_grid n, (INR n - 1) / 2) | Some xs => (xs, 1) end.
Definition refine_max_position_2d (c : list R) (ny nx : nat) (fy fx : option vec) : py_err + (R * R) :=
  let '(ys, ysc) := axis2 ny fy in
  let '(xs, xsc) := axis2 nx fx in
  let '(vy, vx) := vertex2 (rescale2 ysc xsc c) in
  if Rlt_dec vy (rmin ny ys) then inl ValueError else if Rlt_dec vx (rmin nx xs) then inl ValueError
  else if Rlt_dec (rmax ny ys) vy then inl ValueError else if Rlt_dec (rmax nx xs) vx then inl ValueError
  else inr (vy, vx).

(** ** fitting.py:727-814 [fit_parabola_min] (scale given in lower case; another string raises ValueError) *)
Definition fit_parabola_min (fit : fitter) (scale : fscale) (dec : nat) (hp f : list R) : py_err + (R * R * bool) :=
  let n := length hp in
  if (Nat.ltb n 3 || Nat.ltb (length f) 3 || negb (Nat.eqb n (length f)))%bool then inl ValueError
  else
    let min_pos := argmin f in
    let measured := inr (nth min_pos hp 0, nth min_pos f 0, false) in
    let i := fit_first (length f) min_pos in
    let cs := fit 3%nat (fun k => to_fit scale (nth (i + k) hp 0)) (fun k => nth (i + k) f 0) in
    if Rle_dec (nth 2 cs 0) 0 then measured
    else
      let vertex_pos := - nth 1 cs 0 / (2 * nth 2 cs 0) in
      let vertex_val := np_around dec (nth 0 cs 0 + vertex_pos * nth 1 cs 0 / 2) in
      let v := from_fit scale (np_around dec vertex_pos) in
      if Rlt_dec v (nth 0 hp 0) then measured else if Rlt_dec (nth (n - 1) hp 0) v then measured
      else inr (v, vertex_val, true).

(** ** fitting.py:817-882 [fit_ellipse_center] (least-squares version).  Points (v_i, u_i), i < N. *)
Definition mean (n : nat) (x : vec) : R := rsum n x / INR n.
Definition spread (n : nat) (x : vec) : R := rmax n x - rmin n x.
Definition rescaled (rescale : bool) (n : nat) (x : vec) : vec := fun i =>
  (x i - mean n x) / (if rescale then spread n (fun j => x j - mean n x) else 1).
(** 855-864: row i of the linear system: diffs_u p_v - diffs_v p_u = v1 u2 - u1 v2 with pairs (i, i + N//2) *)
Definition ec_a (N : nat) (pv pu : vec) (i : nat) : R := pu (N / 2 + i)%nat - pu i.
Definition ec_b (N : nat) (pv pu : vec) (i : nat) : R := - (pv (N / 2 + i)%nat - pv i).
Definition ec_val (N : nat) (pv pu : vec) (i : nat) : R := pv i * pu (N / 2 + i)%nat - pu i * pv (N / 2 + i)%nat.
Definition ec_residual (N : nat) (pv pu : vec) (p : R * R) : R :=
  rsum (N / 2) (fun i => (ec_a N pv pu i * fst p + ec_b N pv pu i * snd p - ec_val N pv pu i) ^ 2).
Definition lstsq2 (N : nat) (pv pu : vec) (p : R * R) : Prop := forall q, ec_residual N pv pu p <= ec_residual N pv pu q.
Definition opt_around (dec : option nat) (x : R) : R := match dec with Some d => np_around d x | None => x end.
(** [sol] is what lstsq returned for the (rescaled) points *)
Definition fit_ellipse_center (rescale : bool) (dec : option nat) (N : nat) (v u : vec) (sol : R * R) : R * R :=
  let sc x := if rescale then spread N (fun j => x j - mean N x) else 1 in
  (opt_around dec (fst sol * sc v + mean N v), opt_around dec (snd sol * sc u + mean N u)).

(** ** fitting.py:885-958 [fit_ellipse_parameters] (least-squares version) *)
Definition max_abs (n : nat) (x : vec) : R := rmax n (fun i => Rabs (x i)).
Definition ep_centre (rescale : bool) (n : nat) (x : vec) : R := if rescale then mean n x else 0.
Definition ep_scale (rescale : bool) (n : nat) (x : vec) : R := if rescale then max_abs n (fun i => x i - mean n x) else 1.
Definition ep_point (rescale : bool) (n : nat) (x : vec) : vec := fun i => (x i - ep_centre rescale n x) / ep_scale rescale n x.
(** 927-928: the rows of the system and its right-hand side *)
Definition ep_row (pu pv : R) (c : list R) : R :=
  nth 0 c 0 * pu ^ 2 - 2 * nth 1 c 0 * pu - 2 * nth 2 c 0 * pv + 2 * nth 3 c 0 * (pu * pv) + nth 4 c 0.
Definition ep_lstsq (n : nat) (pu pv : vec) (c : list R) : Prop :=
  length c = 5%nat /\ forall c', length c' = 5%nat ->
    rsum n (fun i => (ep_row (pu i) (pv i) c - - (pv i) ^ 2) ^ 2) <= rsum n (fun i => (ep_row (pu i) (pv i) c' - - (pv i) ^ 2) ^ 2).
(** 941-946 *)
Definition ep_unscale (su sv : R) (c : list R) : list R :=
  [nth 0 c 0 * (sv ^ 2 / su ^ 2); nth 1 c 0 * (sv ^ 2 / su); nth 2 c 0 * sv; nth 3 c 0 * (sv / su); nth 4 c 0 * sv ^ 2].
(** 948-953 *)
Definition ep_params (c : list R) : R * R * R * R * R :=
  let c0 := nth 0 c 0 in let c1 := nth 1 c 0 in let c2 := nth 2 c 0 in let c3 := nth 3 c 0 in let c4 := nth 4 c 0 in
  let u := (c1 - c2 * c3) / (c0 - c3 ^ 2) in
  let v := (c0 * c2 - c1 * c3) / (c0 - c2 * c3) in
  let a := c0 / (c0 * u ^ 2 + v ^ 2 + 2 * c3 * u * v - c4) in
  let b := a / c0 in
  (a, b, c3 * b, u, v).
Definition fit_ellipse_parameters (rescale : bool) (n : nat) (v u : vec) (sol : list R) : R * R * R * R * R :=
  let c := if rescale then ep_unscale (ep_scale true n u) (ep_scale true n v) sol else sol in
  let '(a, b, cc, uu, vv) := ep_params c in
  (a, b, cc, uu + ep_centre rescale n u, vv + ep_centre rescale n v).

(** ** fitting.py:980-1087 [Ellipse] *)
Record ellipse := { e_a : R; e_b : R; e_c : R; e_u : R; e_v : R }.
Definition extremes_u (e : ellipse) : R * R := (e_u e - sqrt (1 / e_a e), e_u e + sqrt (1 / e_a e)).
Definition ellipse_call (e : ellipse) (uu : R) : R * R :=
  let a := e_a e in let b := e_b e in let c := e_c e in let v := e_v e in
  let uu_u := uu - e_u e in
  let b_tilde := 2 * (- b * v + c * uu_u) in
  let c_tilde := - (1 - a * uu_u ^ 2 - b * v ^ 2 + 2 * c * v * uu_u) in
  let delta := sqrt (b_tilde ^ 2 - 4 * b * c_tilde) in
  ((- b_tilde + delta) / (2 * b), (- b_tilde - delta) / (2 * b)).

(** ** fitting.py:347-406 [fit_camera_tilt_angle] without the l1 refinement: [shifts] is what fit_shifts_vu_xc returned (one per
    line), cs = [b; a] the fitted line. *)
Definition tilt_cors (shifts : vec) : vec := fun i => shifts i / 2.
Definition rad2deg (x : R) : R := x * 180 / PI.
Definition fit_camera_tilt_angle (cs : list R) : R * R := (nth 0 cs 0, rad2deg (- nth 1 cs 0 / 2)).
