(** Model of the decimated wavelet transform, src/corrct/operators.py:523-634, and of the primal proximal step of the
    decimated-wavelet regulariser, src/corrct/regularizers.py:996-1046. *)
From Coq Require Import String.
From Verif Require Import Sums Arrays PyErr DataTermsModel SolversModel OperatorsModel WaveletsModel.

(** * 526-583 [TransformDecimatedWavelet.__init__].  574: pywt.wavedecn_shapes(mode=pad_on_demand) looks the mode up in
    pywt.Modes and raises ValueError for an unknown name. *)
Definition pywt_modes : list string :=
  ["zero"; "constant"; "symmetric"; "periodic"; "smooth"; "periodization"; "reflect"; "antisymmetric"; "antireflect"]%string.
Definition dwt_init (pad_on_demand : string) : (py_err + unit)%type :=
  if existsb (String.eqb pad_on_demand) pywt_modes then inr tt else inl ValueError.
(** 532: the default value; 549-551: "Options are all the `numpy.pad` padding modes" *)
Definition default_pad : string := "edge".
Definition numpy_modes : list string :=
  ["constant"; "edge"; "linear_ramp"; "maximum"; "mean"; "median"; "minimum"; "reflect"; "symmetric"; "wrap"; "empty"]%string.
(** pywt.dwt_coeff_len, and 573-580: the length of the coefficient array along one axis *)
Definition dwt_coeff_len (n F : nat) (mode : string) : nat :=
  if String.eqb mode "periodization" then ((n + 1) / 2)%nat else ((n + F - 1) / 2)%nat.
Fixpoint dwt_adj_len (level n F : nat) (mode : string) : nat :=
  match level with O => n | S l => let m := dwt_coeff_len n F mode in (dwt_adj_len l m F mode + m)%nat end.

(** * pywt.wavedecn / waverecn with mode="periodization" on lengths divisible by 2^level (contract), packed by
    pywt.coeffs_to_array (599-602) in place: along each axis the approximation occupies the first half and the detail the
    second; the next level works on the corner where every index is in the first half.
    One axis, one level: the low-pass and the high-pass outputs, every second sample. *)
Definition dwt1 (w : wbank) (n : nat) (x : vec) : vec := fun i =>
  if Nat.ltb i (n / 2) then swt_dec (wb_F w) (wb_dec_lo w) 1 n x (2 * i)%nat
  else swt_dec (wb_F w) (wb_dec_hi w) 1 n x (2 * (i - n / 2))%nat.
Definition upsample (y : vec) : vec := fun i => if Nat.even i then y (i / 2)%nat else 0.
Definition idwt1 (w : wbank) (n : nat) (y : vec) : vec := fun j =>
  swt_rec (wb_F w) (wb_rec_lo w) 1 n (upsample y) j + swt_rec (wb_F w) (wb_rec_hi w) 1 n (upsample (fun i => y (n / 2 + i)%nat)) j.
Definition dwtn_level (w : wbank) (axes : list (nat * nat)) (x : arr) : arr :=
  fold_left (fun x an => along (fst an) (dwt1 w (snd an)) x) axes x.
Definition idwtn_level (w : wbank) (axes : list (nat * nat)) (y : arr) : arr :=
  fold_right (fun an y => along (fst an) (idwt1 w (snd an)) y) y axes.
Definition halve (axes : list (nat * nat)) : list (nat * nat) := map (fun an => (fst an, (snd an / 2)%nat)) axes.
(** the corner where every transformed index is below its bound *)
Definition in_corner (axes : list (nat * nat)) (l : list nat) : bool := forallb (fun an => Nat.ltb (nth (fst an) l 0%nat) (snd an)) axes.
Fixpoint wavedecn (w : wbank) (level : nat) (axes : list (nat * nat)) (x : arr) : arr :=
  match level with
  | O => x
  | S level' => let y := dwtn_level w axes x in
      fun l => if in_corner (halve axes) l then wavedecn w level' (halve axes) y l else y l
  end.
Fixpoint waverecn (w : wbank) (level : nat) (axes : list (nat * nat)) (y : arr) : arr :=
  match level with
  | O => y
  | S level' => idwtn_level w axes (fun l => if in_corner (halve axes) l then waverecn w level' (halve axes) y l else y l)
  end.
(** the operator, 599-611, in that mode; axes as in Python (566-568) *)
Record dwt_transform := mkDWT { dw_shape : list nat; dw_bank : wbank; dw_level : nat; dw_axes : list Z }.
Definition dw_new (s : list nat) (w : wbank) (level : nat) (axes : option (list Z)) : dwt_transform := mkDWT s w level (st_axes_of s axes).
Definition dw_an (t : dwt_transform) : list (nat * nat) :=
  map (fun a => (norm_axis (length (dw_shape t)) a, axis_len (dw_shape t) a)) (dw_axes t).
Definition dw_op_direct (t : dwt_transform) (x : arr) : arr := wavedecn (dw_bank t) (dw_level t) (dw_an t) x.
Definition dw_op_adjoint (t : dwt_transform) (y : arr) : arr := waverecn (dw_bank t) (dw_level t) (dw_an t) y.

(** * regularizers.py:1027-1046 [Regularizer_dwl.apply_proximal_primal] with the l1 norm.  1030: one threshold, the first
    entry of tau * weight; 1033-1038: all the details; 1040-1044: the approximation only if min_approx. *)
Definition quarter (level : nat) (axes : list (nat * nat)) : list (nat * nat) := map (fun an => (fst an, (snd an / 2 ^ level)%nat)) axes.
Definition in_approx (t : dwt_transform) (l : list nat) : bool := in_corner (quarter (dw_level t) (dw_an t)) l.
Definition dwl_prox_primal (t : dwt_transform) (min_approx : bool) (tau_weight : arr) (primal : arr) : arr :=
  let threshold := tau_weight (repeat 0%nat (length (dw_shape t))) in
  let c := dw_op_direct t primal in
  dw_op_adjoint t (fun l => if (in_approx t l && negb min_approx)%bool then c l else soft_threshold1 (c l) threshold).
