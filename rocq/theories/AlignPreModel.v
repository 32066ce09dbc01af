(** Model of DetectorShiftsPRE.fit_v (src/corrct/alignment/shifts.py:117-218): vertical pre-alignment.  One detector element ("d" axis of
    size 1), data of V rows, N projections, U columns after cutting the borders; plotting is not modelled. *)
From Coq Require Import Reals Lra Lia List ZArith Bool.
Import ListNotations.
From Verif Require Import Sums Rounding PyErr Arrays Reindex ParamTuningModel ProcPreModel Fourier FourierBox AlignFitModel AlignShiftsModel.
Open Scope R_scope.

(** 158-167: the vertical profile of projection w: mean over the columns, or over the unmasked ones (0 where there are none) *)
Definition profile (U : nat) (data : nat -> nat -> nat -> R) (mask : option (nat -> nat -> nat -> R)) (v w : nat) : R :=
  match mask with
  | None => rsum U (fun u => data v w u) / INR U
  | Some m => let ms := rsum U (fun u => m v w u) in
              rsum U (fun u => data v w u * m v w u) / (ms + (if Req_EM_T ms 0 then 1 else 0))
  end.
(** 171-173: every profile is scaled to [0, 1] (a constant profile makes NaN: excluded in the theorems) *)
Definition unit_scaled (V : nat) (p : nat -> nat -> R) (v w : nat) : R :=
  (p v w - rmin V (fun v => p v w)) / (rmax V (fun v => p v w) - rmin V (fun v => p v w)).
(** 175-180: the derivative, padded with V // 2 zeros on both sides; or the profile itself, padded with V // 2 values that go
    linearly from the edge value to 0 (np.pad mode "linear_ramp": at distance k from the edge, edge * (1 - k / width)) *)
Definition pre_length (use_derivative : bool) (V : nat) : nat := ((if use_derivative then V - 1 else V) + 2 * (V / 2))%nat.
Definition pre_padded (use_derivative : bool) (V : nat) (q : nat -> R) : vec := fun i =>
  let h := (V / 2)%nat in
  if use_derivative then
    if (Nat.leb h i && Nat.ltb i (h + (V - 1)))%bool then q (S (i - h)) - q (i - h)%nat else 0
  else
    if Nat.ltb i h then q 0%nat * (INR i / INR h)
    else if Nat.ltb i (h + V) then q (i - h)%nat
    else q (V - 1)%nat * (1 - INR (S (i - (h + V))) / INR h).
(** 182-196: cross-correlation with the reference, the peak, its coordinate in an array of the size that came out of the inverse
    transform, and the sub-pixel refinement *)
Definition pre_find (fit : fitter) (use_rfft : bool) (nrm : xnorm) (eps : R) (dec L : nat) (d p : vec) : py_err + R :=
  let so := xc_out use_rfft [] L in
  let cc := xcorr use_rfft nrm eps [] L (fun l => d (nth 0 l 0%nat)) (fun l => p (nth 0 l 0%nat)) in
  let pk := argmax so cc in
  match refine_max_position_1d fit dec 3 None (peak_line so cc pk 0) with
  | inl e => inl e
  | inr (x, _) => inr (x + IZR (fftfreq (nth 0 so 0%nat) (nth 0 pk 0%nat)))
  end.
(** results of all the projections, or the first error *)
Fixpoint all_results (rs : list (py_err + R)) : py_err + list R :=
  match rs with
  | [] => inr []
  | inl e :: _ => inl e
  | inr x :: r => match all_results r with inl e => inl e | inr xs => inr (x :: xs) end
  end.
(** the whole function; [maxs] is max_shifts[0] *)
Definition fit_v (fit : fitter) (use_derivative use_rfft normalize : bool) (eps : R) (dec V N U : nat) (maxs : R)
    (data : nat -> nat -> nat -> R) (mask : option (nat -> nat -> nat -> R)) : py_err + list R :=
  if Nat.leb V 1 then inl ValueError                                                             (* 147-148 *)
  else
    let q := unit_scaled V (profile U data mask) in
    let L := pre_length use_derivative V in
    let line w := pre_padded use_derivative V (fun v => q v w) in
    let ref := (N / 2)%nat in                                                                    (* 184 *)
    let nrm := if normalize then NormMax else NoNorm in
    match all_results (map (fun w => pre_find fit use_rfft nrm eps dec L (line ref) (line w)) (seq 0 N)) with
    | inl e => inl e
    | inr xs =>
        let xs := map (filter1 maxs) xs in                                                       (* 198 *)
        let mean := fold_right Rplus 0 xs / INR N in
        inr (map (fun x => np_around dec (x - mean)) xs)                                         (* 200-201 *)
    end.
