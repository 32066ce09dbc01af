(** testing.py: synthetic data. *)
From Coq Require Import Reals List ZArith String Lra Lia Psatz.
From Verif Require Import PyErr Sums Rounding SolversModel ProcPreModel PhysicsModel ConeBeamModel.
Import ListNotations.
Open Scope R_scope.

(** testing.py:27-44 [roundup_to_pow2], p >= 0, dtype = int *)
Definition roundup_to_pow2 (x : R) (p : nat) : Z := (rceil (x / 2 ^ p) * 2 ^ Z.of_nat p)%Z.

(** 86-95 [create_phantom_nuclei3d]: the size of the last axis after skimage's rescale (output shape = np.round(scale * size)) and the
    pixel size along the last axis; the stock volume has [orig] pixels of 0.26 um. *)
Definition np_round (x : R) : Z := rfloor (x + / 2).   (* simplification: halves go up; only integers occur *)
Definition nuclei_last_axis (orig : nat) (FoV_size : option nat) : nat :=
  match FoV_size with None => orig | Some f => Z.to_nat (np_round (INR f / INR orig * INR orig)) end.
Definition nuclei_pixel_um (orig : nat) (FoV_size : option nat) : R :=
  let n := nuclei_last_axis orig FoV_size in
  let f := match FoV_size with None => n | Some f => f end in (26 / 100) / (INR f / INR n).

(** 169-172, 229-232 [phantom_assign_concentration(_multi)]: the phase masks of one voxel (air, Fe2O3, CaO, CaCO3) *)
Definition b2r (b : bool) : R := if b then 1 else 0.
Definition rlt (a b : R) : bool := if Rlt_dec a b then true else false.
Definition phase_fractions (v : R) : list R :=
  [b2r (rlt v (1 / 10)); b2r (rlt (5 / 10) v); b2r (rlt (25 / 100) v && rlt v (5 / 10)); b2r (rlt (1 / 10) v && rlt v (25 / 100))].
(** 174-187: attenuation and fluorescence of one voxel with these fractions; densities, cross-sections and compounds from xraylib *)
Definition phantom_attenuation (voxel_um : R) (mats : list (R * R)) (v : R) : R :=
  vm_attenuation (voxel_um * / 1000 * / 10) (combine (phase_fractions v) mats).
Definition phantom_fluo (voxel_um : R) (el : nat) (cmps : list compound) (yield : string -> option R) (lines : list string) (v : R) : R :=
  vm_fluo (voxel_um * / 1000 * / 10) el (combine (phase_fractions v) cmps) yield lines None.

(** 244-263 [phantom_assign_concentration_multi]: which volumes are filled.  [A]: a volume; [None]: the placeholder np.array([]).
    [dets]: None, a number, or an array of numbers (whose truth value is ambiguous unless it has one entry; an empty one is false). *)
Inductive det_pos := DetNone | DetNum (a : R) | DetArr (l : list R).
Definition truthy (d : det_pos) : py_err + bool :=
  match d with
  | DetNone => inr false
  | DetNum a => inr (if Req_EM_T a 0 then false else true)
  | DetArr [] => inr false
  | DetArr [a] => inr (if Req_EM_T a 0 then false else true)
  | DetArr _ => inl ValueError
  end.
Inductive em_lines_arg := LinesStr (s : string) | LinesSeq (l : list string).
Definition line_of (a : em_lines_arg) (ii : nat) : py_err + string :=
  match a with LinesStr s => inr s | LinesSeq l => match nth_error l ii with Some s => inr s | None => inl IndexError end end.
Section Multi.
  Context {A : Type} (fluo : string -> string -> A) (compton : det_pos -> A).
  Fixpoint fluo_vols (els : list string) (lines : em_lines_arg) (ii : nat) : py_err + list (option A) :=
    match els with
    | [] => inr []
    | el :: rest => match line_of lines ii with
                    | inl e => inl e
                    | inr l => match fluo_vols rest lines (S ii) with inl e => inl e | inr r => inr (Some (fluo el l) :: r) end
                    end
    end.
  Definition assign_multi (els : list string) (lines : em_lines_arg) (dets : det_pos) : py_err + list (option A) :=
    match fluo_vols els lines 0 with
    | inl e => inl e
    | inr r => match truthy dets with
               | inl e => inl e
               | inr b => inr (r ++ match dets with DetNone => [] | _ => [if b then Some (compton dets) else None] end)
               end
    end.
End Multi.

(** 266-320 [add_noise].  [n] pixels.  np.random: [normal_bg avg std], [poisson lam] and [normal_ro std] are the drawn samples;
    numpy raises ValueError for a negative std or a negative rate.  Integer dtypes truncate towards zero. *)
Inductive np_dtype := DtFloat | DtInt.
Definition rtrunc (x : R) : R := if Rlt_dec x 0 then IZR (rceil x) else IZR (rfloor x).
Definition astype (d : np_dtype) (x : vec) : vec := match d with DtFloat => x | DtInt => fun i => rtrunc (x i) end.
Fixpoint any_neg (n : nat) (x : vec) : bool := match n with O => false | S k => (rlt (x k) 0 || any_neg k x)%bool end.
Section Noise.
  Context (n : nat) (normal_bg : R -> R -> vec) (poisson : vec -> vec) (normal_ro : R -> vec).
  Definition add_noise (img : vec) (num_photons : R) (add_poisson : bool) (readout_std background_avg background_std : option R)
      (eff : R) (d : np_dtype) : py_err + (vec * vec * R) :=
    let clean := fun i => num_photons * eff * astype d img i in
    let with_bg := match background_avg with
                   | None => inr clean
                   | Some avg =>
                       let std := match background_std with None => avg * (5 / 100) | Some s => s end in
                       if rlt std 0 then inl ValueError else inr (fun i => clean i + num_photons * eff * Rabs (normal_bg avg std i))
                   end in
    match with_bg with
    | inl e => inl e
    | inr noise =>
        let background := rsum n (fun i => noise i - clean i) / INR n in
        let after_poisson := if add_poisson then (if any_neg n noise then inl ValueError else inr (astype d (poisson noise), d)) else inr (noise, DtFloat) in
        match after_poisson with
        | inl e => inl e
        | inr (noise2, d2) =>
            match readout_std with
            | None => inr (noise2, clean, background)
            | Some s => if rlt s 0 then inl ValueError
                        else match d2 with DtInt => inl TypeError   (* += of floats into an integer array *)
                             | DtFloat => inr (fun i => noise2 i + normal_ro s i, clean, background) end
            end
        end
    end.

  (** 381-382, 455-456: the angles, in radians *)
  Definition sino_angle (start_deg end_deg : R) (num_angles i : nat) : R := deg2rad (start_deg + INR i * ((end_deg - start_deg) / INR num_angles)).
  Definition sino_angles (start_deg end_deg : R) (num_angles : nat) : list R := map (sino_angle start_deg end_deg num_angles) (seq 0 num_angles).
  Definition detector_solidangle : R := (24 / 10 / 2 / 16 / 2) ^ 2.

  (** 323-409 [create_sino]: [plain angles psf] and [xrf angles att_in att_out dets psf] are the forward projections of the two projectors.
      Returned: sinogram, angles, volume, background. *)
  Context {psf_t : Type} (plain : list R -> option psf_t -> vec -> vec) (xrf : list R -> option vec -> option vec -> list R -> option psf_t -> vec -> vec).
  Definition create_sino (ph : vec) (num_angles : nat) (start_deg end_deg dwell flux : R) (dets : list R) (att_in att_out : option vec) (psf : option psf_t)
      (background_avg background_std : option R) (add_poisson : bool) (readout_std : option R) (d : np_dtype) : py_err + (vec * list R * vec * R) :=
    let angles := sino_angles start_deg end_deg num_angles in
    let num_photons := flux * dwell in
    let sino := match att_in, att_out with None, None => plain angles None ph | _, _ => xrf angles att_in att_out dets psf ph end in
    match add_noise sino num_photons add_poisson readout_std background_avg background_std detector_solidangle d with
    | inl e => inl e
    | inr (noise, _, bg) => inr (noise, angles, fun j => ph j * num_photons * detector_solidangle, bg)
    end.

End Noise.

(** 412-480 [create_sino_transmission]: sinogram, flat field, angles, volume.  [poisson_s], [normal_s] are the draws for the sinogram,
    [poisson_f], [normal_f] those for the flat field. *)
Definition create_sino_transmission {psf_t : Type} (n : nat) (poisson_s : vec -> vec) (normal_s : R -> vec) (poisson_f : vec -> vec) (normal_f : R -> vec)
    (plain : list R -> option psf_t -> vec -> vec) (ph : vec) (num_angles : nat) (start_deg end_deg dwell flux : R) (psf : option psf_t)
    (add_poisson : bool) (readout_std : option R) (d : np_dtype) : py_err + (vec * vec * list R * vec) :=
  let angles := sino_angles start_deg end_deg num_angles in
  let num_photons := flux * dwell in
  let sino := fun i => exp (- plain angles psf ph i) in
  match add_noise n (fun _ _ => vzeros) poisson_s normal_s sino num_photons add_poisson readout_std None None 1 d with
  | inl e => inl e
  | inr (s, _, _) =>
      match add_noise n (fun _ _ => vzeros) poisson_f normal_f (fun _ => 1) num_photons add_poisson readout_std None None 1 d with
      | inl e => inl e
      | inr (f, _, _) => inr (s, f, angles, ph)
      end
  end.

(** 483-500 [compute_error_power] *)
Definition compute_error_power (n : nat) (expected computed : vec) : R * R :=
  (sqrt (rsum n (fun i => expected i ^ 2) / INR n), sqrt (rsum n (fun i => Rabs (expected i - computed i) ^ 2) / INR n)).
