(** Model of src/corrct/physics/phase.py: the propagation filters.  The real-input FFT of real data is modelled as the full transform (its half is
    determined by the other half); numpy's FFT is exact; float32 casts of the filter and the plots are not modelled. *)
From Coq Require Import Reals Lra Lia List ZArith String Bool.
From Verif Require Import Sums PyErr Arrays Fourier FourierBox AlignFitModel PhysicsModel.
Import ListNotations.
Open Scope R_scope.

(** 84-85 [_tie_freq_response], 88-90 [_ctf_freq_response] *)
Definition tie_response (k2 dist wl db : R) : R := 1 + db * dist * wl * PI * k2.
Definition ctf_response (k2 dist wl db : R) : R := cos (dist * wl * PI * k2) + db * sin (dist * wl * PI * k2).
(** 180-185: the squared frequency; numpy's fftfreq(n, d)[k] is fftfreq n k / (n d) *)
Definition freq_sq (s k : list nat) (pix : R) : R := lsum (combine s k) (fun p => (IZR (fftfreq (fst p) (snd p)) / (INR (fst p) * pix)) ^ 2).
(** 187-192: the choice of the response *)
Inductive prop_type := CTF | TIE.
Definition prop_type_of (name : string) : py_err + prop_type :=
  if String.eqb (lower name) "ctf" then inr CTF else if String.eqb (lower name) "tie" then inr TIE else inl ValueError.
Definition prop_filter (t : prop_type) (s : list nat) (pix dist wl db : R) (k : list nat) : R :=
  match t with CTF => ctf_response (freq_sq s k pix) dist wl db | TIE => tie_response (freq_sq s k pix) dist wl db end.
(** 194-213: the real-space filter, fftshift-ed *)
Definition fftshiftN {A} (s : list nat) (x : list nat -> A) : list nat -> A := fun l => x (tadd s l (map (fun n => (- Z.of_nat (n / 2))%Z) s)).
Definition prop_filter_direct (t : prop_type) (s : list nat) (pix dist wl db : R) : arr :=
  fftshiftN s (fun l => fst (idftN s (fun k => RtoC (prop_filter t s pix dist wl db k)) l)).
(** 241-246: edge padding of n - n//2 before and n//2 after *)
Definition pad_before (n : nat) : nat := (n - n / 2)%nat.
Definition pad_shape (s : list nat) : list nat := map (fun n => (pad_before n + n + n / 2)%nat) s.
Fixpoint edge_idx (s l : list nat) : list nat := match s, l with n :: s', i :: l' => Nat.min (i - pad_before n) (n - 1) :: edge_idx s' l' | _, _ => [] end.
Definition edge_pad (s : list nat) (x : arr) : arr := fun l => x (edge_idx s l).
(** 247-273 [apply_propagation_filter]: fourier_shift by -(n - n//2), division, inverse transform, crop.  [prop_full] is the array before the crop. *)
Definition prop_shift (s : list nat) : list Z := map (fun n => Z.of_nat (pad_before n)) s.
Definition prop_spectrum (t : prop_type) (s : list nat) (pix dist wl db : R) (x : arr) : carrN := fun k =>
  (dftN (pad_shape s) (fun l => RtoC (edge_pad s x l)) k *c chi (pad_shape s) k (prop_shift s)) *c RtoC (/ prop_filter t (pad_shape s) pix dist wl db k).
Definition prop_full (t : prop_type) (s : list nat) (pix dist wl db : R) (x : arr) : arr := fun l => fst (idftN (pad_shape s) (prop_spectrum t s pix dist wl db x) l).
Definition apply_propagation_filter (t : prop_type) (s : list nat) (pix dist wl db : R) (x : arr) : arr := prop_full t s pix dist wl db x.
(** 26-46 [get_delta_beta], from the complex refractive index *)
Definition delta_beta (n_re n_im : R) : R := (1 - n_re) / n_im.
