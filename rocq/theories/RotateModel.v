(** Model of src/corrct/processing/pre.py:128-147 [rotate_proj_stack] and of the scikit-image function it and
    compute_attenuation (_projector_backends.py:69-75) rest on: skimage.transform.rotate(image, angle, resize=False, order=1,
    mode="constant", cval=0, clip=False), written from its definition with real numbers.  Not modelled: boolean images (order 0),
    float16, signed integers, rounding. *)
From Coq Require Import Reals List ZArith Bool.
Import ListNotations.
From Verif Require Import Sums PyErr Arrays Rounding BackendsModel RotScaleModel ConeBeamModel.
Open Scope R_scope.

(** skimage: the output pixel (row i, column j) is read at the input position obtained by turning (j, i) by the angle about the
    centre ((cols - 1) / 2, (rows - 1) / 2): x' = cos x - sin y, y' = sin x + cos y *)
Definition rad (deg : R) : R := deg * (PI / 180).
Definition centre (n : nat) : R := INR n / 2 - 1 / 2.
Definition src_row (H W : nat) (deg : R) (i j : nat) : R :=
  sin (rad deg) * (INR j - centre W) + cos (rad deg) * (INR i - centre H) + centre H.
Definition src_col (H W : nat) (deg : R) (i j : nat) : R :=
  cos (rad deg) * (INR j - centre W) - sin (rad deg) * (INR i - centre H) + centre W.
(** bilinear interpolation between the four neighbours, those outside of the image counting as 0: a sum over the image with the
    hat-shaped weights max(0, 1 - |distance|) *)
Definition skt_rotate (H W : nat) (deg : R) (x : img) : img := fun i j =>
  rsum H (fun k => rsum W (fun l => hat (src_row H W deg i j - INR k) * hat (src_col H W deg i j - INR l) * x k l)).

(** the two kinds of stacks: floating point, or unsigned integers of a number of bits *)
Inductive stack_type := SFloat | SUint (bits : nat).
(** skimage.util.img_as_float (preserve_range=False) of the input, and the assignment into np.empty_like(data) (146): int
    truncation *)
Definition as_float (t : stack_type) (v : R) : R := match t with SFloat => v | SUint b => v / (2 ^ b - 1) end.
Definition stored (t : stack_type) (v : R) : R := match t with SFloat => v | SUint _ => IZR (trunc0 v) end.
(** 143-147.  data_vwu[:, ii, :] with fewer than three axes is an IndexError *)
Definition rotate_proj_stack (t : stack_type) (s : list nat) (x : arr) (rot_angle_deg : R) : py_err + arr :=
  match s with
  | [V; _; U] => inr (fun l =>
      let w := nth 1 l 0%nat in
      stored t (skt_rotate V U (- rot_angle_deg) (fun k m => as_float t (x [k; w; m])) (nth 0 l 0%nat) (nth 2 l 0%nat)))
  | _ => inl IndexError
  end.
