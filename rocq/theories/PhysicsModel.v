(** Model of src/corrct/physics (units, xrf, xraylib_helper, materials, attenuation, phase, pencil-beam profile).  xraylib's tables are
    function arguments returning [option] (None = the library raises ValueError); plotting and printing are not modelled; reals for floats. *)
From Coq Require Import Reals Lra Lia List ZArith String Bool Ascii.
From Verif Require Import Sums PyErr Arrays Rounding.
Import ListNotations.
Open Scope R_scope.

(** * units.py *)
Definition table := list (string * R).
Definition lookup (t : table) (k : string) : py_err + R := match find (fun p => String.eqb (fst p) k) t with Some p => inr (snd p) | None => inl KeyError end.
(** 12-20 [ConversionMetric.str_to_order] *)
Definition metric_orders : table := [("km"%string, / 1000); ("m"%string, 1); ("cm"%string, 100); ("mm"%string, 1000); ("um"%string, 1000000); ("nm"%string, 1000000000); ("a"%string, 10000000000)].
(** 53-60 [ConversionEnergy.str_to_order] *)
Definition energy_orders : table := [("GeV"%string, / 1000000000); ("MeV"%string, / 1000000); ("keV"%string, / 1000); ("eV"%string, 1); ("meV"%string, 1000); ("ueV"%string, 1000000)].
(** 32-47, 71-86 [convert] *)
Definition convert (t : table) (from_unit to_unit : string) : py_err + R :=
  match lookup t to_unit, lookup t from_unit with inr b, inr a => inr (b / a) | inl e, _ => inl e | _, inl e => inl e end.
(** 97-117 [energy_to_wlength], 128-148 [wlength_to_energy]; [c] is the electron volt - inverse metre constant *)
Definition energy_to_wlength (c : R) (energy : R) (unit_wl unit_en : string) : py_err + R :=
  match convert metric_orders "m" unit_wl, convert energy_orders "eV" unit_en with
  | inr fm, inr fe => inr (fm * fe / (c * energy)) | inl e, _ => inl e | _, inl e => inl e end.
Definition wlength_to_energy (c : R) (w : R) (unit_wl unit_en : string) : py_err + R :=
  match convert metric_orders "m" unit_wl, convert energy_orders "eV" unit_en with
  | inr fm, inr fe => inr (fm * fe / (c * w)) | inl e, _ => inl e | _, inl e => inl e end.

(** * xrf.py *)
(** 38-78 [LinesSiegbahn.lines]: the names *)
Definition siegbahn_lines : list string := ["KA1"; "KA2"; "KA3"; "KB1"; "KB2"; "KB3"; "KB4"; "KB5"; "LA1"; "LA2"; "LB1"; "LB2"; "LB3"; "LB4"; "LB5"; "LB6"; "LB7"; "LB9"; "LB10"; "LB15"; "LB17";
  "LG1"; "LG2"; "LG3"; "LG4"; "LG5"; "LG6"; "LG8"; "LE"; "LH"; "LL"; "LS"; "LT"; "LU"; "LV"; "MA1"; "MA2"; "MB"; "MG"]%string.
(** str.upper on ASCII *)
Definition upper_ascii (a : ascii) : ascii := let n := nat_of_ascii a in if (Nat.leb 97 n && Nat.leb n 122)%bool then ascii_of_nat (n - 32) else a.
Fixpoint upper (s : string) : string := match s with EmptyString => EmptyString | String a r => String (upper_ascii a) (upper r) end.
(** 80-96 [get_lines] *)
Definition get_lines (line : string) : list string := filter (fun f => String.eqb (substring 0 (String.length line) f) (upper line)) siegbahn_lines.
(** 99-107 [_get_lines_list] *)
Inductive lines_arg := LStr (s : string) | LOne (l : string) | LSeq (l : list string).
Definition get_lines_list (a : lines_arg) : py_err + list string :=
  match a with LOne l => inr [l] | LStr s => inr (get_lines s) | LSeq [] => inl ValueError | LSeq l => inr l end.
(** 110-145 [get_radiation_rate], 168-222 [get_energy]: a line unknown to xraylib counts as 0.  The weighted average of an empty list is 0;
    with lines but a zero total rate it is 0/0 (None, a NaN). *)
Definition or0 (o : option R) : R := match o with Some r => r | None => 0 end.
Definition rate_sum (rate : string -> option R) (ls : list string) : R := lsum ls (fun l => or0 (rate l)).
Definition get_energies (energy : string -> option R) (ls : list string) : list R := map (fun l => or0 (energy l)) ls.
Definition get_energy_average (energy rate : string -> option R) (a : lines_arg) : py_err + option R :=
  match get_lines_list a with
  | inl e => inl e
  | inr [] => inr (Some 0)
  | inr ls => inr (if Req_EM_T (rate_sum rate ls) 0 then None else Some (lsum ls (fun l => or0 (energy l) * (or0 (rate l) / rate_sum rate ls))))
  end.
(** 225-258 [DetectorXRF].  A distance may be an array: the truth value of an array of more than one element raises ValueError *)
Definition detector_check (surface : R) (distance : list R) : py_err + unit :=
  if Rlt_dec surface 0 then inl ValueError
  else match distance with [d] => if Rle_dec d 0 then inl ValueError else inr tt | _ => inl ValueError end.
Definition solid_angle_sr (surface distance : R) : R := surface / (4 * PI * distance ^ 2).
Definition half_angle (surface distance : R) : R := atan (sqrt surface / 2 / distance).
Definition angle_range_rad (surface distance : R) : R * R := (- half_angle surface distance, half_angle surface distance).

(** * xraylib_helper.py 54-83 [get_compound], 86-108 [get_compound_cross_section] *)
Record compound := mkCompound { cname : string; elements : list nat; mass_fractions : list R; cdensity : R }.
Definition weighted (els : list nat) (fr : list R) (f : nat -> R) : R := lsum (combine els fr) (fun p => f (fst p) * snd p).
(** [parse] returns (Elements, massFractions), from the NIST table or the parser; None = both raise *)
Definition get_compound (parse : string -> option (list nat * list R)) (el_density : nat -> R) (name : string) (density : option R) : py_err + compound :=
  match parse name with
  | None => inl ValueError
  | Some (els, fr) => inr (mkCompound name els fr (match density with Some d => d | None => weighted els fr el_density end))
  end.
Definition get_compound_cross_section (cs_cp : string -> option R) (cs_el : nat -> R) (c : compound) : R :=
  match cs_cp (cname c) with Some v => v | None => weighted (elements c) (mass_fractions c) cs_el end.

(** * materials.py *)
(** 41-73 [VolumeMaterial.__init__]: the checks on the shapes of the fractions *)
Definition volume_material_check (fraction_shapes : list (list nat)) (num_compositions : nat) : py_err + unit :=
  if negb (Nat.eqb (List.length fraction_shapes) num_compositions) then inl ValueError
  else match fraction_shapes with
       | [] => inl ValueError
       | s :: _ => if forallb (fun t => if list_eq_dec Nat.eq_dec s t then true else false) fraction_shapes then inr tt else inl ValueError
       end.
(** 75-100 [get_attenuation], one voxel: fractions with (density, cross-section) of their materials *)
Definition vm_attenuation (voxel_cm : R) (mats : list (R * (R * R))) : R := lsum mats (fun m => fst m * fst (snd m) * snd (snd m)) * voxel_cm.
(** 102-126 [get_phase_shift], one voxel: fractions with their delta *)
Definition vm_phase_shift (voxel_cm wavelength_cm : R) (mats : list (R * R)) : R := - lsum mats (fun m => fst m * snd m) * voxel_cm * (2 * PI / wavelength_cm).
(** 128-149 [get_element_mass_fraction], one voxel: np.where(Elements == el)[0][0] is the first position *)
Fixpoint first_fraction (el : nat) (els : list nat) (fr : list R) : option R :=
  match els, fr with e :: es, f :: fs => if Nat.eqb e el then Some f else first_fraction el es fs | _, _ => None end.
Definition vm_mass_fraction (el : nat) (mats : list (R * compound)) : R :=
  lsum mats (fun m => match first_fraction el (elements (snd m)) (mass_fractions (snd m)) with Some f => fst m * cdensity (snd m) * f | None => 0 end).
(** 151-165 [_check_parallax_detector]: half_sample_size is in cm, the distance in mm.  [is_float]: isinstance(distance_mm, float) *)
Definition parallax_ok (voxel_cm : R) (max_size : nat) (surface distance_mm : R) (is_float : bool) (tol : R) : bool :=
  let h := voxel_cm * INR max_size / 2 in
  let a := solid_angle_sr surface (distance_mm - h) in let b := solid_angle_sr surface (distance_mm + h) in
  if is_float then (if Rlt_dec (Rmax a b - Rmin a b) tol then true else false) else (if Rlt_dec 0 tol then true else false).
(** 226-289 [get_fluo_production], one voxel, without the energy *)
Definition vm_fluo (voxel_cm : R) (el : nat) (mats : list (R * compound)) (yield : string -> option R) (lines : list string) (solid : option R) : R :=
  vm_mass_fraction el mats * lsum lines (fun l => or0 (yield l)) * voxel_cm * (match solid with Some s => s | None => 1 end).

(** 167-224 [get_compton_scattering]: the angle used (the detector's unless one is given), and the production in one voxel *)
Definition compton_angle (angle_rad detector_angle : option R) : py_err + R :=
  match detector_angle, angle_rad with None, None => inl ValueError | _, Some a => inr a | Some d, None => inr d end.
Definition vm_compton (voxel_cm : R) (mats : list (R * (R * R))) (solid : option R) : R :=
  lsum mats (fun m => fst m * fst (snd m) * snd (snd m)) * voxel_cm * (match solid with Some s => s | None => 1 end).
(** 260-287: the lines of a family are expanded first, so that get_energy receives a list *)
Definition fluo_energy (energy rate : string -> option R) (a : lines_arg) : py_err + option R :=
  get_energy_average energy rate (match a with LStr s => LSeq (get_lines s) | LOne l => LSeq [l] | LSeq l => LSeq l end).

(** * attenuation.py *)
(** 62-74 [AttenuationVolume.__init__]: the detector angles.  A Python int passes the first check and fails in the loop. *)
Inductive det_arg := DFloat (a : R) | DInt (z : Z) | DDet (surface distance angle : R).
Definition det_one (a : det_arg) : py_err + (R * R * R) := match a with DFloat x => inr (0, 1, x) | DDet s d x => inr (s, d, x) | DInt _ => inl ValueError end.
Fixpoint det_all (l : list det_arg) : py_err + list (R * R * R) :=
  match l with [] => inr [] | a :: r => match det_one a, det_all r with inr d, inr ds => inr (d :: ds) | inl e, _ => inl e | _, inl e => inl e end end.
(** 78-97: the volume shape *)
Definition att_vol_shape (incident emitted : option (list nat)) : py_err + list nat :=
  let num_dims (s : list nat) : py_err + list nat := if (Nat.eqb (List.length s) 2 || Nat.eqb (List.length s) 3)%bool then inr s else inl ValueError in
  match incident, emitted with
  | Some s, Some t => if list_eq_dec Nat.eq_dec s t then num_dims s else inl ValueError
  | Some s, None => num_dims s
  | None, Some t => num_dims t
  | None, None => inl ValueError
  end.
(** 105-118 [_compute_attenuation_angle_out]: the sub-angles of one detector: midpoints of linspace(-h, h, n + 1), or [0] for a point detector *)
Definition linspace (a b : R) (n : nat) (i : nat) : R := if Nat.eqb n 1 then a else a + INR i * ((b - a) / INR (n - 1)).
Definition sub_angles (surface distance : R) (n : nat) : list R :=
  if Rlt_dec 0 surface then map (fun i => (linspace (- half_angle surface distance) (half_angle surface distance) (n + 1) i + linspace (- half_angle surface distance) (half_angle surface distance) (n + 1) (S i)) / 2) (seq 0 n)
  else [0].
(** one voxel: [att a] is compute_attenuation(local_att, a, invert=True) there *)
Definition att_out (att : R -> R) (rot_angle det_angle : R) (subs : list R) : R := lsum subs (fun s => att (rot_angle + det_angle + s)) / INR (List.length subs).
(** 120-180 [compute_maps], one voxel and one detector: the maps as a function of the rotation index; the results are multiplied in, in the
    order [order] in which the threads complete (seq 0 n when serial).  [res i] = inl: the task of the angle i raises; the threaded version
    turns a ValueError into a RuntimeError. *)
Definition upd (m : nat -> R) (i : nat) (v : R) : nat -> R := fun j => if Nat.eqb j i then v else m j.
Definition wrap_exc (threaded : bool) (e : py_err) : py_err := match threaded, e with true, ValueError => RuntimeError | _, _ => e end.
Fixpoint process_angles (threaded : bool) (res : nat -> py_err + R) (order : list nat) (m : nat -> R) : py_err + (nat -> R) :=
  match order with
  | [] => inr m
  | i :: r => match res i with inl e => inl (wrap_exc threaded e) | inr v => process_angles threaded res r (upd m i (m i * v)) end
  end.
Definition compute_maps (threaded : bool) (order_in order_out : list nat) (res_in res_out : option (nat -> py_err + R)) : py_err + (nat -> R) :=
  let step (o : option (nat -> py_err + R)) order m := match o with Some f => process_angles threaded f order m | None => inr m end in
  match step res_in order_in (fun _ => 1) with inl e => inl e | inr m => step res_out order_out m end.
(** 246-298 [get_maps]: an int index i selects the slice i : i + 1 (Python slice semantics on n entries) *)
Definition slice_pos (n : nat) (i : Z) : nat := Z.to_nat (Z.max 0 (Z.min (Z.of_nat n) (if Z.ltb i 0 then i + Z.of_nat n else i))).
Definition slice_list {A} (l : list A) (a b : Z) : list A := firstn (slice_pos (List.length l) b - slice_pos (List.length l) a) (skipn (slice_pos (List.length l) a) l).
Definition get_maps_int {A} (maps : list A) (i : Z) : list A := slice_list maps i (i + 1).
(** 300-334 [get_projector_args]: self.detectors is a list, so a slice gives a list without angle_rad and a sequence cannot index it *)
Inductive ind_arg := INone | IInt (z : Z) | ISlice | ISeq.
Definition detector_angles (angles : list R) (a : ind_arg) : py_err + list R :=
  match a with
  | INone => inr angles
  | IInt z => if (Z.leb (- Z.of_nat (List.length angles)) z && Z.ltb z (Z.of_nat (List.length angles)))%bool
              then inr [nth (Z.to_nat (if Z.ltb z 0 then z + Z.of_nat (List.length angles) else z)) angles 0] else inl IndexError
  | ISlice => inl AttributeError
  | ISeq => inl TypeError
  end.
(** 337-367 [get_linear_attenuation_coefficient]: returns the coefficient and the compound the caller holds afterwards.  [cs] is the
    cross-section of the compound at the energy. *)
Inductive cmp_arg := CName (s : string) | CDict (c : compound).
Definition with_density (c : compound) (d : option R) : compound := match d with Some x => mkCompound (cname c) (elements c) (mass_fractions c) x | None => c end.
Definition linear_attenuation (parse : string -> option (list nat * list R)) (el_density : nat -> R) (cs : compound -> R) (a : cmp_arg) (pixel_um : R) (density : option R) : py_err + (R * option compound) :=
  match a with
  | CName s => match get_compound parse el_density s None with
               | inl e => inl e
               | inr c => let c' := with_density c density in inr (pixel_um * (1 / 10000) * cdensity c' * cs c', None) end
  | CDict c => let c' := with_density c density in inr (pixel_um * (1 / 10000) * cdensity c' * cs c', Some c')
  end.

(** * __init__.py 31-107 [pencil_beam_profile] *)
Section Beam.
(** 52-55: number of voxels and of points; linspace(-extent/2, extent/2, num_points) *)
Definition beam_voxels (profile_size : nat) : nat := (profile_size * 2 + 1)%nat.
Definition beam_half (voxel : R) (profile_size : nat) : nat := Z.to_nat (rceil (INR (beam_voxels profile_size) * voxel * 10) / 2).
Definition beam_points (voxel : R) (profile_size : nat) : nat := (beam_half voxel profile_size * 2 + 1)%nat.
Definition beam_x (voxel : R) (profile_size : nat) (i : nat) : R :=
  let e := INR (beam_voxels profile_size) * voxel in linspace (- e / 2) (e / 2) (beam_points voxel profile_size) i.
(** 62-64: a boolean array, so that the assigned 0.5 becomes True *)
Definition eps32 : R := / 8388608.
Definition beam_box (voxel x : R) : R := if Rle_dec (Rabs x) (voxel / 2 + eps32) then 1 else 0.
(** 66-77 *)
Inductive beam_shape := Gaussian | Lorentzian | Sech2.
(** str.lower on ASCII and the dispatch on the name, 67-77 *)
Definition lower_ascii (a : ascii) : ascii := let n := nat_of_ascii a in if (Nat.leb 65 n && Nat.leb n 90)%bool then ascii_of_nat (n + 32) else a.
Fixpoint lower (s : string) : string := match s with EmptyString => EmptyString | String a r => String (lower_ascii a) (lower r) end.
Definition beam_shape_of (s : string) : py_err + beam_shape :=
  if String.eqb (lower s) "gaussian" then inr Gaussian else if String.eqb (lower s) "lorentzian" then inr Lorentzian else if String.eqb (lower s) "sech**2" then inr Sech2 else inl ValueError.
Definition arccosh (x : R) : R := ln (x + sqrt (x ^ 2 - 1)).
Definition beam_y (sh : beam_shape) (fwhm x : R) : R :=
  match sh with
  | Gaussian => exp (-4 * ln 2 * x ^ 2 / fwhm ^ 2)
  | Lorentzian => (fwhm / 2) ^ 2 / (x ^ 2 + (fwhm / 2) ^ 2)
  | Sech2 => 1 / cosh (x / (fwhm / (2 * arccosh (sqrt 2)))) ^ 2
  end.
(** 79-80: np.convolve(yb, yg, "same") of two arrays of the same odd length n = 2 h + 1, divided by its maximum *)
Definition conv_same (n : nat) (a b : vec) : vec := fun i => rsum n (fun j => if (Nat.leb j (i + (n - 1) / 2) && Nat.ltb (i + (n - 1) / 2 - j) n)%bool then a j * b (i + (n - 1) / 2 - j)%nat else 0).
Definition beam_conv (sh : beam_shape) (voxel fwhm : R) (ps : nat) : vec :=
  let n := beam_points voxel ps in conv_same n (fun j => beam_box voxel (beam_x voxel ps j)) (fun j => beam_y sh fwhm (beam_x voxel ps j)).
(** 82-92: overlap of each voxel, again boolean; renormalisation.  None: a division by zero (NaN) *)
Definition beam_sum (sh : beam_shape) (voxel fwhm : R) (ps ii : nat) : R :=
  let n := beam_points voxel ps in let yc := beam_conv sh voxel fwhm ps in
  rsum n (fun i => yc i / rmax n yc * (if Rlt_dec (Rabs (beam_x voxel ps i - (INR ii - INR ps) * voxel)) (voxel / 2 + eps32) then 1 else 0)).
Definition pencil_beam_profile (sh : beam_shape) (voxel fwhm : R) (ps : nat) : option (nat -> R) :=
  let n := beam_points voxel ps in
  if Req_EM_T (rmax n (beam_conv sh voxel fwhm ps)) 0 then None
  else let y := beam_sum sh voxel fwhm ps in let t := rsum (beam_voxels ps) y in
       if Req_EM_T t 0 then None else Some (fun ii => y ii / t).
End Beam.
