(** Model of src/corrct/processing/post.py and src/corrct/processing/noise.py. *)
From Coq Require Import Reals Lra Lia List ZArith Bool.
Import ListNotations.
From Verif Require Import Sums Arrays OperatorsModel Rounding PyErr Fourier FourierN ProcMiscModel ProcPreModel.
Open Scope R_scope.

(** ** post.py:30-60 [com], for one of the requested axes a (an index from the start; a negative one is normalised first) *)
(** 51: np.linspace(-(s-1)/2, (s-1)/2, s)[k] *)
Definition com_coord (n k : nat) : R := INR k - (INR n - 1) / 2.
(** 55-57: the absolute values are summed over all the other axes *)
Definition com_line (s : list nat) (a : nat) (vol : arr) (k : nat) : R := bsum (del a s) (fun l => Rabs (vol (ins a k l))).
(** 58 *)
Definition com1 (s : list nat) (a : nat) (vol : arr) : R :=
  rsum (nth a s 0%nat) (fun k => com_line s a vol k * com_coord (nth a s 0%nat) k) / rsum (nth a s 0%nat) (com_line s a vol).
(** 46-49, 54: the list of requested axes, all of them by default *)
Definition com (s : list nat) (axes : option (list Z)) (vol : arr) : list R :=
  map (fun a => com1 s (norm_axis (length s) a) vol) (match axes with None => map Z.of_nat (seq 0 (length s)) | Some l => l end).

(** ** post.py:63-120 [power_spectrum] over all axes, after the optional taper [mask] (99-102) *)
Definition masked (mask : option arr) (img : arr) : carr := fun l => RtoC (match mask with Some m => img l * m l | None => img l end).
Definition spectrum_f (s : list nat) (mask : option arr) (img : arr) : carr := fftn s (seq 0 (length s)) (masked mask img).
(** 104-112, power = 2: np.abs(F)**2, ring averages, division by sqrt(min^d)^2 = min^d *)
Definition min_side_n (s : list nat) : nat := fold_right Nat.min (hd 0%nat s) s.
Definition ps_raw (s : list nat) (mask : option arr) (img : arr) (k : nat) : R :=
  az_profile AzFourier s (fun l => cabs2 (spectrum_f s mask img l)) k / az_profile AzFourier s (fun _ => 1) k / INR (min_side_n s) ^ length s.

(** ** post.py:123-254 [compute_frc] *)
(** 216-230 for the spectra of one image pair: the azimuthal sums and their quotient; 227: zero denominators become 1 *)
Definition frc_one (s : list nat) (F1 F2 : carr) (k : nat) : R :=
  let fc_r := az_profile AzFourier s (fun l => fst (F1 l *c conj (F2 l))) k in
  let fc_i := az_profile AzFourier s (fun l => snd (F1 l *c conj (F2 l))) k in
  let f1 := az_profile AzFourier s (fun l => cabs2 (F1 l)) k in
  let f2 := az_profile AzFourier s (fun l => cabs2 (F2 l)) k in
  let p := f1 * f2 in
  sqrt (fc_r ^ 2 + fc_i ^ 2) / sqrt (p + (if Req_EM_T p 0 then 1 else 0)).
(** 207-214: from the images of a stack of m pairs over the axes of shape s (all of them transformed), with the optional
    taper mask; 231-232: the mean over the stack *)
Definition frc_stack (m : nat) (s : list nat) (mask : option arr) (img1 img2 : nat -> arr) (k : nat) : R :=
  rsum m (fun i => frc_one s (spectrum_f s mask (img1 i)) (spectrum_f s mask (img2 i)) k) / INR m.
(** 248-252: scipy's symmetric Hann window of M points, normalised; convolution with mode "nearest" over n bins.
    [None]: the window sums to zero and the division gives NaN. *)
Definition hann (M i : nat) : R := 1 / 2 - 1 / 2 * cos (2 * PI * INR i / (INR M - 1)).
Definition hann_sum (M : nat) : R := rsum M (hann M).
Definition smooth_curve (M n : nat) (f : vec) (k : nat) : option R :=
  if (M <=? 1)%nat then Some (f k)
  else if Req_EM_T (hann_sum M) 0 then None
  else Some (rsum M (fun e => hann M e / hann_sum M * f (clamp_idx n M k e))).
Definition compute_frc (m : nat) (s : list nat) (mask : option arr) (smooth : nat) (img1 img2 : nat -> arr) (k : nat) : option R :=
  smooth_curve smooth (az_len AzFourier s) (frc_stack m s mask img1 img2) k.
(** 244-246: the threshold curve for a ring of [r] samples *)
Definition frc_threshold (snrt r : R) : R :=
  (snrt + (2 * sqrt snrt + 1) / sqrt r) / (snrt + 1 + 2 * sqrt snrt / sqrt r).
(** 234-240: the theoretical ring sizes for 1, 2 and 3 axes: 1, then 2, 2 pi k or 4 pi k^2 *)
Definition ring_size (d k : nat) : R :=
  match k with O => 1 | _ => match d with 1%nat => 2 | 2%nat => 2 * PI * INR k | _ => 4 * PI * INR k ^ 2 end end.
(** 185-193: argument checks *)
Definition frc_check (s1 : list nat) (s2 : option (list nat)) : py_err + unit :=
  match s2 with
  | None => if existsb Nat.odd s1 then inl ValueError else inl NotImplementedError
  | Some s2 => if list_eq_dec Nat.eq_dec s1 s2 then inr tt else inl ValueError
  end.

(** 107, 114-118 of [power_spectrum]: a ring without samples gives 0/0 = NaN ([None]); the smoothing convolution (mode "nearest",
    the bins of the whole profile) skips window entries equal to zero, every other NaN it touches makes the result NaN. *)
Definition ps_bin (s : list nat) (mask : option arr) (img : arr) (k : nat) : option R :=
  if Req_EM_T (az_profile AzFourier s (fun _ => 1) k) 0 then None else Some (ps_raw s mask img k).
Fixpoint opt_sum (n : nat) (f : nat -> option R) : option R :=
  match n with O => Some 0 | S m => match opt_sum m f, f m with Some a, Some b => Some (a + b) | _, _ => None end end.
Definition smooth_opt (M n : nat) (f : nat -> option R) (k : nat) : option R :=
  if (M <=? 1)%nat then f k
  else if Req_EM_T (hann_sum M) 0 then None
  else opt_sum M (fun e => if Req_EM_T (hann M e) 0 then Some 0
                           else match f (clamp_idx n M k e) with Some v => Some (hann M e / hann_sum M * v) | None => None end).
(** the returned curve has min side / 2 bins (96, 120) *)
Definition power_spectrum (s : list nat) (mask : option arr) (smooth : nat) (img : arr) (k : nat) : option R :=
  smooth_opt smooth (az_len AzFourier s) (ps_bin s mask img) k.
Definition ps_cut_off (s : list nat) : nat := (min_side_n s / 2)%nat.

(** ** post.py:257-276 [estimate_resolution]; the threshold curve of n bins, or a stack of [q] of them (272-275: then BOTH
    curves are averaged over the leading axes of the threshold: the 1-D frc is averaged over its bins, to one number; in
    lines_intersection [misc.py:285-289, 322-323] that number is compared with every bin, and indexed at point_l >= 1 when a
    crossing is found: IndexError) *)
Definition estimate_resolution (n : nat) (q : option nat) (frc : vec) (t_hb : nat -> vec) : py_err + option (R * R) :=
  match q with
  | None => lines_intersection n frc (L_array (t_hb 0%nat)) P_first (Some (Some 1%nat, None))
  | Some q =>
      let line_1 := fun _ : nat => rsum n frc / INR n in
      match crossings line_1 (L_array (fun k => rsum q (fun i => t_hb i k) / INR q)) 1 (n - 1) with
      | [] => inr None
      | _ :: _ => inl IndexError
      end
  end.

(** ** post.py:366-423 [compute_reconstruction_bias_variance_maps], one pixel: R realisations x(r), reference x0 *)
Definition mean_rec (R0 : nat) (x : vec) : R := rsum R0 x / INR R0.
Definition bias_sq (R0 : nat) (x : vec) (x0 : R) : R := (mean_rec R0 x - x0) ^ 2.
(** 420: var with ddof = 1 *)
Definition var_map (R0 : nat) (x : vec) : R := rsum R0 (fun r => (x r - mean_rec R0 x) ^ 2) / INR (R0 - 1).
Definition mse_map (R0 : nat) (x : vec) (x0 : R) : R := rsum R0 (fun r => (x r - x0) ^ 2) / INR R0.

(** ** post.py:426-463 [fit_scale_bias].  A is the (linear) projector from n to m samples. *)
Definition ones : vec := fun _ => 1.
Definition grad_a (m : nat) (A : vec -> vec) (x y : vec) (a b : R) : R :=
  - dot m y (A x) + norm2 m (A x) * a + dot m (A ones) (A x) * b.
Definition grad_b (m : nat) (A : vec -> vec) (x y : vec) (a b : R) : R :=
  - dot m y (A ones) + norm2 m (A ones) * b + dot m (A ones) (A x) * a.
Definition fit_residual (A : vec -> vec) (x y : vec) (a b : R) : vec := fun i => A (fun j => x j * a + b) i - y i.
(** 460: np.linalg.norm(residual, ord=2)**2 / 2 depends on the number of axes of the data: the Euclidean norm for 1-D,
    the spectral norm (largest singular value) for 2-D [h rows, w columns, row-major], ValueError otherwise. *)
Definition is_spectral_norm (h w : nat) (r : vec) (nrm : R) : Prop :=
  0 <= nrm
  /\ (forall v, norm2 h (fun i => rsum w (fun j => r (i * w + j)%nat * v j)) <= nrm ^ 2 * norm2 w v)
  /\ (exists v, norm2 w v = 1 /\ norm2 h (fun i => rsum w (fun j => r (i * w + j)%nat * v j)) = nrm ^ 2).
Inductive fit_objective (shape : list nat) (r : vec) : py_err + R -> Prop :=
| Obj1 n : shape = [n] -> fit_objective shape r (inr (norm2 n r / 2))
| Obj2 h w nrm : shape = [h; w] -> is_spectral_norm h w r nrm -> fit_objective shape r (inr (nrm ^ 2 / 2))
| ObjN : (2 < length shape)%nat -> fit_objective shape r (inl ValueError).

(** ** noise.py:14-55 [compute_variance_poisson], one sample; [eps] the float32 epsilon, [mean_I0] the mean of the clipped I0 *)
Definition variance_poisson (eps Is : R) (I0 : option R) (var_I0 : option R) (norm : option R) : R :=
  match I0 with
  | None => Rabs Is
  | Some i0 =>
      let v0 := match var_I0 with Some v => v | None => Rabs i0 end in
      let is' := Rmax Is eps in let i0' := Rmax i0 eps in
      let v := (is' ^ 2 / i0' ^ 2) * (Rabs Is / is' ^ 2 + v0 / i0' ^ 2) in
      match norm with Some mean_I0 => v * mean_I0 | None => v end
  end.
(** ** noise.py:58-91 [compute_variance_transmission] *)
Definition variance_transmission (eps Is I0 : R) (var_I0 : option R) (norm : option R) : R :=
  let v0 := match var_I0 with Some v => v | None => Rabs I0 end in
  let is' := Rmax Is eps in let i0' := Rmax I0 eps in
  let v := (is' / i0') * (Rabs Is / is' ^ 2 + v0 / i0' ^ 2) in
  match norm with Some mean_I0 => v * mean_I0 | None => v end.

(** ** noise.py:94-153 [compute_variance_weight] over n samples *)
Inductive mask_kind := MaskNone | MaskBool (m : nat -> bool) | MaskInt (m : nat -> nat).
(** 129-131: the selected values; an integer mask is an index array in vals[mask], not a selection *)
Definition selected (n : nat) (var : vec) (mk : mask_kind) : list R :=
  match mk with
  | MaskNone => map (fun i => Rabs (var i)) (seq 0 n)
  | MaskBool m => map (fun i => Rabs (var i)) (filter m (seq 0 n))
  | MaskInt m => map (fun i => Rabs (var (m i))) (seq 0 n)
  end.
(** 133: np.sort *)
Fixpoint rinsert (x : R) (l : list R) : list R :=
  match l with [] => [x] | y :: t => if Rle_dec x y then x :: l else y :: rinsert x t end.
Definition rsort (l : list R) : list R := fold_right rinsert [] l.
(** 134-135: the number of cumulated fractions below the percentile *)
Fixpoint count_below (percentile total acc : R) (l : list R) : nat :=
  match l with
  | [] => 0%nat
  | x :: t => ((if Req_EM_T total 0 then 0 else if Rlt_dec ((acc + x) / total) percentile then 1 else 0) + count_below percentile total (acc + x) t)%nat
  end.
Definition lsum_ (l : list R) : R := fold_right Rplus 0 l.
Definition lmin (d : R) (l : list R) : R := fold_right Rmin d l.
Definition positives (l : list R) : list R := filter (fun x => if Rlt_dec 0 x then true else false) l.
(** 136-138 *)
Definition min_variance (eps percentile : R) (vals : list R) : py_err + R :=
  let sorted := rsort vals in
  let ind := Nat.min (count_below percentile (lsum_ sorted) 0 sorted) (length sorted) in
  match nth_error sorted ind with
  | None => inl IndexError
  | Some v =>
      match positives vals with
      | [] => inl ValueError
      | p :: ps => inr (Rmax (lmin p ps) (Rmax v eps))
      end
  end.
(** 139-148 *)
Definition weight_of (normalized use_std semilog : bool) (mnv v : R) : R :=
  let i0 := Rmax (Rabs v) mnv in
  let i1 := if normalized then i0 / mnv else i0 in
  let i2 := if use_std then sqrt i1 else i1 in
  let i3 := if semilog then ln (i2 + (if normalized then 0 else 1)) + 1 else i2 in
  1 / i3.
Definition mask_at (mk : mask_kind) (i : nat) : R :=
  match mk with MaskNone => 1 | MaskBool m => if m i then 1 else 0 | MaskInt m => INR (m i) end.
Definition compute_variance_weight (eps : R) (n : nat) (var : vec) (percentile : R) (mk : mask_kind) (normalized use_std semilog : bool) : py_err + vec :=
  match min_variance eps percentile (selected n var mk) with
  | inl e => inl e
  | inr mnv => inr (fun i => weight_of normalized use_std semilog mnv (var i) * mask_at mk i)
  end.
