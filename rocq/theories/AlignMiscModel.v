(** Model of src/corrct/alignment/centering.py and of the marker functions of src/corrct/alignment/markers.py.
    Real arithmetic; plotting and the optional self-convolution of the marker are not modelled. *)
From Coq Require Import Reals Lra Lia List ZArith Bool String.
From Verif Require Import Sums PyErr Arrays Rounding GeometryModel ProcPostModel AlignFitModel Fourier FourierN FourierBox.
Import ListNotations.
Open Scope R_scope.

(** ** centering.py:16-38 [RecenterVolume]: the rotated geometry and the number of decimals *)
Record recenter := mkRC { rc_geom : prj_geom; rc_precision : nat }.
Definition recenter_init (g : prj_geom) (angles : list R) (precision : nat) : py_err + recenter :=
  ebind (rotate g angles false) (fun g' => inr (mkRC g' precision)).
(** 35-37: numpy addition of two arrays of rows, with broadcasting over rows and columns *)
Fixpoint eseq {A} (l : list (py_err + A)) : py_err + list A :=
  match l with [] => inr [] | x :: r => ebind x (fun a => ebind (eseq r) (fun t => inr (a :: t))) end.
Definition rows_add (a b : list (list R)) : py_err + list (list R) :=
  ebind (bcast (fun x y => bcast Rplus x y) a b) eseq.
Definition apply_displacement_vu (rc : recenter) (shifts : list (list R)) (disp : list R) : py_err + list (list R) :=
  ebind (project_displacement (rc_geom rc) disp) (fun corr =>
  ebind (rows_add shifts corr) (fun s => inr (map (map (np_around (rc_precision rc))) s))).
(** 39-58 [to_com]: np.array(com_ref) - com(volume) *)
Definition to_com (rc : recenter) (shifts : list (list R)) (s : list nat) (vol : arr) (com_ref : list R) : py_err + list (list R) :=
  ebind (bcast Rminus com_ref (com s None vol)) (fun disp => apply_displacement_vu rc shifts disp).
(** 60-92 [as_reference].  The method name is compared in lower case (here: it is given in lower case).  fit_shifts_zyx_xc is called
    with its defaults pad_zyx=False, normalize_fourier=True, use_rfft=True; the volumes have shape s' ++ [n]. *)
Definition as_reference (fit : fitter) (eps : R) (rc : recenter) (shifts : list (list R)) (s' : list nat) (n : nat) (vol ref : arr)
    (method : string) : py_err + list (list R) :=
  if String.eqb method "com" then to_com rc shifts (s' ++ [n]) vol (com (s' ++ [n]) None ref)
  else if String.eqb method "xc" then
    ebind (fit_shifts_zyx_xc fit false true NormEach eps (rc_precision rc) s' n ref vol) (fun disp => apply_displacement_vu rc shifts disp)
  else inl ValueError.

(** ** markers.py:60-101 [create_marker_disk], conv = False *)
(** 80, 83-85: the super-sampled grid and the distance of its points from the origin, in fftfreq order *)
Definition fine (s : list nat) (ss : nat) : list nat := map (fun n => n * ss)%nat s.
Definition grid_dist (D l : list nat) : R := sqrt (lsum (combine D l) (fun p => IZR (fftfreq (fst p) (snd p)) ^ 2)).
(** 87 *)
Definition probe (s : list nat) (ss : nat) (radius : R) : arr := fun l =>
  if Rlt_dec (grid_dist (fine s ss) l) (radius * INR ss) then 1 else 0.
(** np.roll(x, k) along every axis *)
Definition roll_all (D : list nat) (k : nat -> nat) (x : arr) : arr := fun l => x (tadd D l (map (fun n => - Z.of_nat (k n))%Z D)).
(** 89-91: blocks of ss samples along every axis, and their mean *)
Definition block_at (ss : nat) (k e : list nat) : list nat := map (fun p => (fst p * ss + snd p)%nat) (combine k e).
Definition block_mean (s : list nat) (ss : nat) (x : arr) : arr := fun k =>
  bsum (map (fun _ => ss) s) (fun e => x (block_at ss k e)) / INR ss ^ length s.
(** 88, 93: np.fft.fftshift rolls by n // 2 *)
Definition create_marker_disk (s : list nat) (radius : R) (ss : nat) : arr :=
  roll_all s (fun n => n / 2)%nat (block_mean s ss (roll_all (fine s ss) (fun _ => ss / 2)%nat (probe s ss radius))).

(** ** markers.py:38-57 [track_marker], for one image of shape s' ++ [n]: the shifts of fit_shifts_vu_xc (defaults pad_u=False,
    use_rfft=True, decimals=2; normalize_fourier=False) plus half the marker shape *)
Definition track_marker (fit : fitter) (eps : R) (s' : list nat) (n : nat) (image marker : arr) : py_err + list R :=
  ebind (fit_shifts_vu_xc fit false true NoNorm eps 2 s' n image marker) (fun sh =>
  inr (map (fun p => fst p + INR (snd p) / 2) (combine sh (s' ++ [n])))).
