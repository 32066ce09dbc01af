(** Model of the Fourier operator (operators.py, class TransformFourier) and of the Fourier regularizer
    (regularizers.py, class Regularizer_fft).  np.fft is modelled by the exact sums of FourierN. *)
From Coq Require Import Reals Lra Lia List ZArith.
Import ListNotations.
From Verif Require Import Sums Arrays DataTermsModel OperatorsModel Rounding Fourier FourierN PyErr.
Open Scope R_scope.

(** ** operators.py:847-915 [TransformFourier] *)
(** 869-871: axes default to all of them. *)
Definition fourier_axes (s : list nat) (axes : option (list Z)) : list nat :=
  map (norm_axis (length s)) (match axes with None => default_axes (length s) | Some a => a end).
(** the element type of the caller's array; storing into an integer array truncates towards zero *)
Inductive dtype := DFloat | DInt.
Definition store (d : dtype) (r : R) : R :=
  match d with DFloat => r | DInt => if Rlt_dec r 0 then - IZR (rfloor (- r)) else IZR (rfloor r) end.
(** 880-898 [fft]: the result is allocated with the element type of the input. *)
Definition fourier_fft (d : dtype) (s axes : list nat) (x : arr) : arr := fun l =>
  match l with
  | i :: l' => let x_f := fftn_ortho s axes (fun m => RtoC (x m)) l' in store d (if Nat.eqb i 0 then fst x_f else snd x_f)
  | [] => 0
  end.
(** 900-915 [ifft] *)
Definition fourier_ifft (s axes : list nat) (y : arr) : arr := fun l =>
  fst (ifftn_ortho s axes (fun m => (y (0%nat :: m), y (1%nat :: m))) l).
(** 873-878, 917-921: shapes, direct and adjoint operator (float arrays). *)
Definition transform_fourier (s : list nat) (axes : option (list Z)) : transform :=
  new_transform s (2%nat :: s) (fourier_fft DFloat s (fourier_axes s axes)) (fourier_ifft s (fourier_axes s axes)).

(** ** regularizers.py:1215-1321 [Regularizer_fft] *)
(** np.fft.fftfreq(n)[k] *)
Definition fftfreq (n k : nat) : R := (if (k <=? (n - 1) / 2)%nat then INR k else INR k - INR n) / INR n.
Inductive fft_filter := F_delta | F_exp | F_exp2.
(** 1245-1246: the frequency coordinate of one listed axis at position l of the coefficient array (shape 2 :: s).
    The listed axes index the coefficient array, not the image. *)
Definition fft_coord (s : list nat) (l : list nat) (ax : Z) : R :=
  let a := norm_axis (S (length s)) ax in fftfreq (nth a (2%nat :: s) 0%nat) (nth a l 0%nat).
Definition lsumsq (c : list R) : R := fold_right (fun a r => a ^ 2 + r) 0 c.
(** 1248-1260: the mask, broadcast to the coefficient array.  Simplification: the reshape of 1258-1260 is the
    identity layout, i.e. the axes are listed in increasing order. *)
Definition fft_sigma (f : fft_filter) (s : list nat) (axes : list Z) : arr := fun l =>
  let c := map (fft_coord s l) axes in
  match f with
  | F_delta => if forallb (fun v => if Req_EM_T v 0 then true else false) c then 0 else 1
  | F_exp => 1 - exp (- sqrt (lsumsq c) * 12)
  | F_exp2 => 1 - exp (- lsumsq c * 36)
  end.
(** 1273-1321 [apply_proximal_primal] with tau*weight = t.  The l12 norm (the default one) raises
    (data_terms.py:610-625); the l1 norm without data soft-thresholds. *)
Inductive fft_norm := N_l12 | N_l1.
Definition fft_prox_l1 (s axes : list nat) (sigma : arr) (t : R) (x : arr) : arr :=
  let coeffs := fourier_fft DFloat s axes x in
  fourier_ifft s axes (fun l => soft_threshold1 (coeffs l * sigma l) t + coeffs l * (1 - sigma l)).
Definition fft_prox_primal (norm : fft_norm) (s axes : list nat) (sigma : arr) (t : R) (x : arr) : py_err + arr :=
  match norm with N_l12 => inl NotImplementedError | N_l1 => inr (fft_prox_l1 s axes sigma t x) end.
