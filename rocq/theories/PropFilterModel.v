(** * phase.py:147-220 [get_propagation_filter]: the half-spectrum option.  The full spectrum and the real-space filter are
    in PhaseModel.v (prop_filter, prop_filter_direct).  The shape is written s ++ [n]: the last axis, of length n, is the
    one rfft halves.  Not modelled: the casts to [dtype] (220) and the plot (211-218). *)
From Coq Require Import Reals Lra Lia List ZArith Bool.
From Verif Require Import Sums PyErr Arrays Fourier FourierBox AlignFitModel PhysicsModel PhaseModel.
Import ListNotations.
Open Scope R_scope.

(** 190-191, 195: np.fft.rfftfreq(n, d)[k] = k / (n d), k = 0 .. n // 2, on the last axis *)
Definition half_freq_sq (s : list nat) (n : nat) (pix : R) (k : list nat) (j : nat) : R :=
  freq_sq s k pix + (INR j / (INR n * pix)) ^ 2.
(** 197-200 *)
Definition half_filter (t : prop_type) (s : list nat) (n : nat) (pix dist wl db : R) (k : list nat) (j : nat) : R :=
  match t with
  | CTF => ctf_response (half_freq_sq s n pix k j) dist wl db
  | TIE => tie_response (half_freq_sq s n pix k j) dist wl db
  end.
(** 206: numpy's irfftn(X, s): the inverse transform of the spectrum whose other half is the conjugate mirror image of [X]
    (its real part, for the frequencies that mirror onto themselves) *)
Definition mirrored (s : list nat) (n : nat) (X : list nat -> nat -> C) : carrN := fun k =>
  if Nat.leb (last k 0%nat) (n / 2) then X (removelast k) (last k 0%nat)
  else conj (X (removelast (tneg (s ++ [n]) k)) (last (tneg (s ++ [n]) k) 0%nat)).
Definition irfftN (s : list nat) (n : nat) (X : list nat -> nat -> C) : arr := fun l => fst (idftN (s ++ [n]) (mirrored s n X) l).
(** 205-206, 220 *)
Definition half_filter_direct (t : prop_type) (s : list nat) (n : nat) (pix dist wl db : R) : arr :=
  fftshiftN (s ++ [n]) (irfftN s n (fun k j => RtoC (half_filter t s n pix dist wl db k j))).
