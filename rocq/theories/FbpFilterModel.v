(** Model of src/corrct/filters.py:475-527 [FilterFBP]: the accepted names and the filters, with skimage's
    skimage.transform.radon_transform._get_fourier_filter (imported at filters.py:18) written out from its source.  The padding, the
    application and the scaling of the filter are FiltersModel's.  Real arithmetic. *)
From Coq Require Import Reals Lra Lia List ZArith Bool String.
From Verif Require Import Sums PyErr Fourier FiltersModel.
From Verif Require SolverObjModel.
Import ListNotations.
Open Scope R_scope.

(** 480, 496-501: FILTERS and the test "filter_name.lower() in FILTERS" *)
Inductive fbp_name := Ramp | SheppLogan | Cosine | Hamming | Hann.
Definition fbp_names : list (string * fbp_name) :=
  [("ramp", Ramp); ("shepp-logan", SheppLogan); ("cosine", Cosine); ("hamming", Hamming); ("hann", Hann)]%string.
Definition fbp_init (name : string) : py_err + fbp_name :=
  match find (fun p => String.eqb (fst p) (SolverObjModel.lower name)) fbp_names with Some p => inr (snd p) | None => inl ValueError end.

(** skimage: n = concatenate((arange(1, size / 2 + 1, 2), arange(size / 2 - 1, 0, -2))), for a size that is a multiple of 4 (the padded sizes
    are powers of two from 64 on); f[0] = 1 / 4, f[1::2] = -1 / (pi * n) ** 2, zeros elsewhere *)
Definition odds (size : nat) : list nat :=
  (map (fun j => 2 * j + 1) (seq 0 (size / 4)) ++ map (fun j => size / 2 - 1 - 2 * j) (seq 0 (size / 4)))%nat.
Definition taps (size : nat) : vec := fun i =>
  if Nat.eqb i 0 then 1 / 4 else if Nat.odd i then - 1 / (PI * INR (nth (i / 2) (odds size) 0%nat)) ^ 2 else 0.
(** skimage: fourier_filter = 2 * np.real(fft(f)) *)
Definition ramp (size : nat) : vec := fun k => 2 * fst (dft size (fun i => RtoC (taps size i)) k).
(** np.fft.fftfreq(size) *)
Definition freq (size k : nat) : R :=
  if Nat.ltb k ((size - 1) / 2 + 1) then INR k / INR size else (INR k - INR size) / INR size.
(** skimage: the windows.  shepp-logan: sin(omega) / omega with omega = pi * fftfreq(size) from the second entry on; cosine: fftshift of
    sin(linspace(0, pi, size, endpoint=False)); hamming, hann: fftshift of np.hamming(size), np.hanning(size) *)
Definition window (name : fbp_name) (size : nat) : vec :=
  match name with
  | Ramp => fun _ => 1
  | SheppLogan => fun k => if Nat.eqb k 0 then 1 else sin (PI * freq size k) / (PI * freq size k)
  | Cosine => fftshift size (fun j => sin (PI * INR j / INR size))
  | Hamming => fftshift size (fun j => 54 / 100 - 46 / 100 * cos (2 * PI * INR j / INR (size - 1)))
  | Hann => fftshift size (fun j => 1 / 2 - 1 / 2 * cos (2 * PI * INR j / INR (size - 1)))
  end.
Definition fourier_filter (name : fbp_name) (size : nat) : vec := fun k => ramp size k * window name size k.
(** 503-518 and 407-419: the filter is computed for the data and applied to one of its lines of n pixels *)
Definition filter_fbp (name : fbp_name) (mode : OperatorsModel.pad_mode) (use_rfft : bool) (n_angles n : nat) (x : vec) : py_err + vec :=
  fbp_call (fourier_filter name) mode use_rfft n_angles n x.
