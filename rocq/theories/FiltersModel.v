(** Model of src/corrct/filters.py: padding, application of a filter in Fourier space, order-0 and order-1 bases, the
    data-driven filter.  Real arithmetic instead of floating point; numpy's FFTs are the exact transforms of Fourier.v.
    create_basis_wavelet and plot_filters are not modelled. *)
From Verif Require Import Sums Rounding Arrays OperatorsModel PyErr Fourier.
Import ListNotations.

(** * filters.py:284-297 [Filter.get_padding_size]: max(64, int(2 ** np.ceil(np.log2(2 * n)))) *)
Definition log2 (x : R) : R := ln x / ln 2.
Definition get_padding_size (n : nat) : nat := Nat.max 64 (2 ^ Z.to_nat (rceil (log2 (INR (2 * n)))))%nat.

(** * filters.py:299-309 [to_fourier], [to_real] along the last axis, lines of length P (M bins for the real transform) *)
Definition num_bins (use_rfft : bool) (P : nat) : nat := if use_rfft then (P / 2 + 1)%nat else P.
Definition to_fourier (P : nat) (x : vec) : cvec := dft P (fun j => RtoC (x j)).
(** np.fft.irfft(X) of M bins: 2 (M - 1) samples; the imaginary parts of the first and last bins are ignored *)
Definition herm (M : nat) (X : cvec) : cvec := fun k =>
  if Nat.eqb k 0 then RtoC (fst (X 0%nat))
  else if Nat.ltb k (M - 1) then X k
  else if Nat.eqb k (M - 1) then RtoC (fst (X k))
  else conj (X (2 * (M - 1) - k)%nat).
Definition irfft_len (M : nat) : nat := (2 * (M - 1))%nat.
Definition irfft (M : nat) (X : cvec) : vec := fun j => fst (idft (irfft_len M) (herm M X) j).
(** result of to_real on [bins] bins: length and samples *)
Definition to_real_len (use_rfft : bool) (bins : nat) : nat := if use_rfft then irfft_len bins else bins.
Definition to_real (use_rfft : bool) (bins : nat) (X : cvec) : vec :=
  if use_rfft then irfft bins X else fun j => fst (idft bins X j).

(** * filters.py:346-393 [apply_filter], one line of the data and one filter.
    A filter is its number of entries and its values; numpy broadcasts a single entry. *)
Definition filt := (nat * cvec)%type.
Definition pad_lo (P n : nat) : nat := ((P - n + 1) / 2)%nat.                        (* ceil of the half *)
Definition pad_roll (mode : pad_mode) (P n : nat) (x : vec) : vec :=
  fun k => np_pad mode n (pad_lo P n) x ((k + pad_lo P n) mod P)%nat.                (* np.roll by -pad_lo *)
Definition filter_at (f : filt) (k : nat) : C := if Nat.eqb (fst f) 1 then snd f 0%nat else snd f k.
Definition apply_filter (mode : pad_mode) (use_rfft : bool) (n : nat) (f : filt) (x : vec) : py_err + vec :=
  let P := get_padding_size n in
  let bins := num_bins use_rfft P in
  if (Nat.eqb (fst f) bins || Nat.eqb (fst f) 1)%bool
  then inr (to_real use_rfft bins (fun k => to_fourier P (pad_roll mode P n x) k *c filter_at f k))
  else inl ValueError.
(** 374-393: several filters (rows of the filter array): one result per filter *)
Fixpoint apply_filters (mode : pad_mode) (use_rfft : bool) (n : nat) (fs : list filt) (x : vec) : py_err + list vec :=
  match fs with
  | [] => inr []
  | f :: fs' => match apply_filter mode use_rfft n f x with
                | inl e => inl e
                | inr y => match apply_filters mode use_rfft n fs' x with inl e => inl e | inr t => inr (y :: t) end
                end
  end.
(** filters.py:255-282 [__init__]: fbp_filter=None gives [1.0]; the real part of the given filter is kept *)
Definition init_filter (f : option filt) : filt :=
  match f with None => (1%nat, fun _ => C1) | Some f => (fst f, fun k => RtoC (fst (snd f k))) end.

(** * filters.py:311-340 [filter_fourier], [filter_real] and their setters.  A stored filter of [bins] entries. *)
Definition fftshift (n : nat) (x : vec) : vec := fun i => x (imod n (Z.of_nat i - Z.of_nat (n / 2))).
Definition ifftshift (n : nat) (x : vec) : vec := fun i => x (imod n (Z.of_nat i + Z.of_nat (n / 2))).
Definition get_filter_real (use_rfft : bool) (f : filt) : nat * vec :=
  let n := to_real_len use_rfft (fst f) in (n, fftshift n (to_real use_rfft (fst f) (snd f))).
Definition set_filter_real (use_rfft : bool) (r : nat * vec) : filt :=
  (num_bins use_rfft (fst r), to_fourier (fst r) (snd r)).
Definition get_filter_fourier (f : filt) : filt := f.
Definition set_filter_fourier (f : filt) : filt := f.

(** * filters.py:503-518 [FilterFBP.compute_filter]; [ff P] = skimage's _get_fourier_filter(P, name), squeezed *)
Definition fbp_compute (ff : nat -> vec) (use_rfft : bool) (n_angles n : nat) : filt :=
  let P := get_padding_size n in
  (if use_rfft then (P / 2 + 1)%nat else P, fun k => RtoC (ff P k * PI / (2 * INR n_angles))).
Definition fbp_call (ff : nat -> vec) (mode : pad_mode) (use_rfft : bool) (n_angles n : nat) (x : vec) : py_err + vec :=
  apply_filter mode use_rfft n (fbp_compute ff use_rfft n_angles n) x.

(** * filters.py:90-166 [create_basis] *)
(** |np.fft.fftfreq(N, 1/N)|: the distance of k to the nearest multiple of N *)
Definition filter_position (N k : nat) : nat := Nat.min k (N - k).
Definition max_position (N : nat) : nat := (N / 2)%nat.
Inductive binning := Exponential | Incremental | Custom.
Definition next_size (b : binning) (start : option nat) (position size : nat) : nat :=
  match start with
  | None => size
  | Some s =>
    if Nat.ltb s position then
      match b with
      | Exponential => (2 * size)%nat
      | Incremental => (size + 1)%nat
      | Custom => (size + Nat.sqrt (position - s))%nat
      end
    else size
  end.
(** the while loop: (window_position, window_size) of each basis function.  [fuel] bounds the recursion;
    C61_terminates shows that max_position + 1 steps always suffice *)
Fixpoint windows (b : binning) (start : option nat) (maxp position size fuel : nat) : list (nat * nat) :=
  match fuel with
  | O => []
  | S fuel' =>
    if Nat.ltb position maxp
    then (position, size) :: windows b start maxp (position + size) (next_size b start (position + size) size) fuel'
    else []
  end.
Definition basis_windows (b : binning) (start : option nat) (N : nat) : list (nat * nat) :=
  windows b start (max_position N) 0 1 (S (max_position N)).
(** order 0: an indicator, divided by the window size if normalized *)
Definition basis0 (normalized : bool) (N : nat) (win : nat * nat) : vec := fun k =>
  let p := filter_position N k in
  if (Nat.leb (fst win) p && Nat.ltb p (fst win + snd win))%bool then (if normalized then / INR (snd win) else 1) else 0.
Definition create_basis0 (b : binning) (start : option nat) (normalized : bool) (N : nat) : list vec :=
  map (basis0 normalized N) (basis_windows b start N).
(** order 1: np.fmax(1 - p / (position + size), 0), then modified Gram-Schmidt *)
Definition hat (N : nat) (win : nat * nat) : vec := fun k =>
  Rmax (1 - INR (filter_position N k) / INR (fst win + snd win)) 0.
Definition gs_remove (N : nat) (u v : vec) : vec := fun k => v k - u k * dot N u v / dot N u u.
Definition gs_row (N : nat) (done : list vec) (v : vec) : vec := fold_left (fun v u => gs_remove N u v) done v.
Fixpoint gram_schmidt (N : nat) (done todo : list vec) : list vec :=
  match todo with
  | [] => done
  | v :: rest => gram_schmidt N (done ++ [gs_row N done v]) rest
  end.
Definition l1norm (N : nat) (v : vec) : R := rsum N (fun k => Rabs (v k)).
Definition create_basis1 (b : binning) (start : option nat) (normalized : bool) (N : nat) : list vec :=
  let g := gram_schmidt N [] (map (hat N) (basis_windows b start N)) in
  if normalized then map (fun v k => v k / l1norm N v) g else g.

(** * filters.py:530-651 [FilterMR]: the basis is computed for the padded size of the first data seen and kept.
    State: the padded size the basis was computed for, None before initialisation. *)
Definition mr_initialize (st : option nat) (n : nat) : option nat :=
  match st with Some P => Some P | None => Some (get_padding_size n) end.
(** filters.py:594-600: the basis filters, real parts of the transforms of the order-1 basis *)
Definition mr_basis_f (b : binning) (start : option nat) (use_rfft : bool) (P : nat) : list filt :=
  map (fun v => (num_bins use_rfft P, fun k => RtoC (fst (to_fourier P v k)))) (create_basis1 b start false P).
(** filters.py:612-631: every basis filter is applied to the data of width n; the first failure is raised *)
Definition mr_compute (b : binning) (start : option nat) (mode : pad_mode) (use_rfft : bool) (st : option nat) (n : nat) (x : vec)
    : option nat * (py_err + list vec) :=
  let st' := mr_initialize st n in
  (st', match st' with Some P => apply_filters mode use_rfft n (mr_basis_f b start use_rfft P) x | None => inr [] end).
(** filters.py:646-648: fitted_components.dot(basis_f) *)
Definition mr_filter (bins : nat) (basis : list filt) (c : nat -> R) : filt :=
  (bins, fun k => RtoC (rsum (length basis) (fun i => c i * fst (snd (nth i basis (0%nat, fun _ => C0)) k)))).
