(** Model of src/corrct/alignment/fitting.py:273-344 [fit_image_rotation_and_scale].  Real arithmetic; 2-D images of at least 4 x 4 pixels
    (smaller ones have no polar columns).  skimage's warp_polar is modelled from its definition (360 rows, ceil(radius) columns, order-1 spline,
    zero outside of the image; its final clipping to the range of the image never changes an order-1 spline);
    skimage's window is a parameter (an array of the shape of the padded image). *)
From Coq Require Import Reals List ZArith Bool.
Import ListNotations.
From Verif Require Import Sums PyErr Arrays ProcPreModel Fourier FourierBox AlignFitModel.
Open Scope R_scope.

(** 309-313: np.pad with s // 2 pixels on both sides of every axis *)
Inductive rpad := RConstant | REdge.
Definition pad_size (mode : option rpad) (s : nat) : nat := match mode with None => s | Some _ => (s + 2 * (s / 2))%nat end.
Definition padded (mode : option rpad) (V U : nat) (img : arr) : arr :=
  match mode with
  | None => img
  | Some RConstant => fun l => let i := nth 0 l 0%nat in let j := nth 1 l 0%nat in
      if (Nat.leb (V / 2) i && Nat.ltb i (V / 2 + V) && Nat.leb (U / 2) j && Nat.ltb j (U / 2 + U))%bool then img [i - V / 2; j - U / 2]%nat else 0
  | Some REdge => fun l => img [Nat.min (V - 1) (nth 0 l 0 - V / 2); Nat.min (U - 1) (nth 1 l 0 - U / 2)]%nat
  end.
(** 317-322: the modulus of the transform of the windowed image, after fftshift (which moves by s // 2) *)
Definition shifted_spectrum (V U : nat) (win img : arr) (i j : nat) : R :=
  cabs (dftN [V; U] (fun l => RtoC (img l * win l)) [imod V (Z.of_nat i - Z.of_nat (V / 2)); imod U (Z.of_nat j - Z.of_nat (U / 2))]).
(** skimage.transform.warp of one point: order-1 spline inside of the image, zero outside *)
Definition hat (t : R) : R := Rmax 0 (1 - Rabs t).
Definition inside (n : nat) (y : R) : bool := if Rle_dec 0 y then if Rle_dec y (INR n - 1) then true else false else false.
Definition warp_at (V U : nat) (A : nat -> nat -> R) (y x : R) : R :=
  if (inside V y && inside U x)%bool then rsum V (fun i => rsum U (fun j => A i j * (hat (y - INR i) * hat (x - INR j)))) else 0.
(** skimage.transform.warp_polar(scaling="log"): 360 rows (angles), [radius] columns *)
Definition polar_rows : nat := 360%nat.
Definition klog (radius : nat) : R := INR radius / ln (INR radius).
Definition warp_polar (V U : nat) (A : nat -> nat -> R) (cv cu : nat) (radius row col : nat) : R :=
  let angle := INR row / (INR polar_rows / (2 * PI)) in
  let r := exp (INR col / klog radius) in
  warp_at V U A (r * sin angle + INR cv) (r * cos angle + INR cu).
(** 325-333: centre s - s // 2, radius the smallest s // 2; half of the rows; the first column is dropped at 335 *)
Definition polar_radius (V U : nat) : nat := Nat.min (V / 2) (U / 2).
Definition polar_spectrum (V U : nat) (win img : arr) : arr := fun l =>
  warp_polar V U (shifted_spectrum V U win img) (V - V / 2) (U - U / 2) (polar_radius V U) (nth 0 l 0%nat) (S (nth 1 l 0%nat)).
(** 302-344 *)
Definition fit_image_rotation_and_scale (fit : fitter) (eps : R) (pad : option rpad) (win : arr) (V1 U1 : nat) (img1 : arr) (V2 U2 : nat) (img2 : arr)
  : py_err + (R * R) :=
  if negb (Nat.eqb V1 V2 && Nat.eqb U1 U2)%bool then inl ValueError
  else
    let V := pad_size pad V1 in let U := pad_size pad U1 in
    let radius := polar_radius V U in
    let half := (polar_rows / 2)%nat in
    match fit_shifts_vu_xc fit false true NormEach eps 2 [half] (radius - 1)
            (polar_spectrum V U win (padded pad V1 U1 img1)) (polar_spectrum V U win (padded pad V1 U1 img2)) with
    | inl e => inl e
    | inr ts => inr (180 / INR half * nth 0 ts 0, exp (nth 1 ts 0 / klog radius))
    end.
