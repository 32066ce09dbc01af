(** Model of src/corrct/alignment/cone_beam.py.  Real arithmetic; printing, plotting and the l1 refinements are not modelled. *)
From Coq Require Import Reals Lra Lia List ZArith Bool String.
Import ListNotations.
From Verif Require Import Sums PyErr Rounding GeometryModel ParamTuningModel AlignFitModel.
Open Scope R_scope.

(** Python numbers: int, numpy int64 and float (numpy float64 is a subclass of float) *)
Inductive num := NInt (z : Z) | NInt64 (z : Z) | NFlt (x : R).
Definition nval (n : num) : R := match n with NInt z | NInt64 z => IZR z | NFlt x => x end.
Definition is_int (n : num) : bool := match n with NFlt _ => false | _ => true end.
Definition nadd (a b : num) : num :=
  match a, b with
  | NInt x, NInt y => NInt (x + y)
  | NFlt _, _ | _, NFlt _ => NFlt (nval a + nval b)
  | NInt x, NInt64 y | NInt64 x, NInt y | NInt64 x, NInt64 y => NInt64 (x + y)
  end.
(** numpy.around(n, decimals=d): always a numpy scalar; integers are left alone (d >= 0) *)
Definition naround (d : nat) (n : num) : num := match n with NInt z | NInt64 z => NInt64 z | NFlt x => NFlt (np_around d x) end.

(** ** 58-77 [ConeBeamGeometry]: the fields, in the order of the class *)
Record cone_geom := mkCG {
  cg_theta : num; cg_phi : num; cg_eta : num; cg_D : num; cg_R : num; cg_v0 : num; cg_u0 : num;
  cg_nv : num; cg_nu : num; cg_pix : num }.
Definition field_names : list string :=
  ["theta_deg"; "phi_deg"; "eta_deg"; "D_pix"; "R_pix"; "v0_pix"; "u0_pix"; "det_size_v_pix"; "det_size_u_pix"; "pix_size_um"]%string.
Definition field_values (g : cone_geom) : list num :=
  [cg_theta g; cg_phi g; cg_eta g; cg_D g; cg_R g; cg_v0 g; cg_u0 g; cg_nv g; cg_nu g; cg_pix g].
Definition of_values (l : list num) : cone_geom :=
  let f i := nth i l (NInt 0) in mkCG (f 0%nat) (f 1%nat) (f 2%nat) (f 3%nat) (f 4%nat) (f 5%nat) (f 6%nat) (f 7%nat) (f 8%nat) (f 9%nat).
Fixpoint index_of (s : string) (l : list string) : option nat :=
  match l with [] => None | x :: r => if String.eqb s x then Some 0%nat else option_map S (index_of s r) end.
Fixpoint set_nth {A} (i : nat) (a : A) (l : list A) : list A :=
  match l, i with [], _ => [] | _ :: r, O => a :: r | x :: r, S j => x :: set_nth j a r end.

(** ** 101-150 [get_prj_geom].  [e_x_xyz] is an integer array, so [src_pos_xyz = e_x_xyz * R_pix] (126) is one too when R_pix is an
    integer, and storing into one of its items (134) truncates towards zero.  Rotation.from_rotvec: GeometryModel.v. *)
Definition trunc0 (x : R) : Z := if Rle_dec 0 x then Int_part x else (- Int_part (- x))%Z.
Definition store (int_array : bool) (x : R) : R := if int_array then IZR (trunc0 x) else x.
Definition deg2rad (x : R) : R := x * PI / 180.
Definition cg_th (g : cone_geom) := deg2rad (nval (cg_theta g)).
Definition cg_ph (g : cone_geom) := deg2rad (nval (cg_phi g)).
Definition alpha_xyz (g : cone_geom) : vec3 := V3 (- sin (cg_ph g)) (- cos (cg_ph g)) 0.
Definition beta_xyz (g : cone_geom) : vec3 := V3 (- sin (cg_th g) * cos (cg_ph g)) (sin (cg_th g) * sin (cg_ph g)) (cos (cg_th g)).
Definition e_n_xyz (g : cone_geom) : vec3 := V3 (cos (cg_th g) * cos (cg_ph g)) (- cos (cg_th g) * sin (cg_ph g)) (sin (cg_th g)).
Definition det_pos0 (g : cone_geom) : vec3 :=
  vadd (vadd (vadd (vscal (nval (cg_D g)) (vscal (-1) (e_n_xyz g))) (vscal (nval (cg_R g)) (V3 1 0 0)))
             (vscal (-1) (vscal (nval (cg_u0 g)) (alpha_xyz g)))) (vscal (-1) (vscal (nval (cg_v0 g)) (beta_xyz g))).
Definition src_pos0 (g : cone_geom) : vec3 := vscal (nval (cg_R g)) (V3 1 0 0).
Definition det_center (g : cone_geom) : vec3 :=
  vadd (vadd (vscal (nval (cg_D g)) (e_n_xyz g)) (vscal (nval (cg_u0 g)) (alpha_xyz g))) (vscal (nval (cg_v0 g)) (beta_xyz g)).
Definition translation_z (g : cone_geom) : R := vz (det_center g) / Rabs (vx (det_center g)) * nval (cg_R g).
Definition shift_z (int_array : bool) (p : vec3) (t : R) : vec3 := V3 (vx p) (vy p) (store int_array (vz p + t)).
Definition get_prj_geom (g : cone_geom) (translate_z_to_center : bool) : prj_geom :=
  let t := translation_z g in
  let src := if translate_z_to_center then shift_z (is_int (cg_R g)) (src_pos0 g) t else src_pos0 g in
  let det := if translate_z_to_center then shift_z false (det_pos0 g) t else det_pos0 g in
  let rot := rotvec_apply (vscal (deg2rad (nval (cg_eta g))) (vscal (-1) (e_n_xyz g))) in
  let ratio := nval (cg_R g) / nval (cg_D g) * Rabs (vdot (e_n_xyz g) (V3 1 0 0)) in
  mkPG GCone [src] [det] [rot (alpha_xyz g)] [rot (beta_xyz g)] [V3 0 0 1] ratio
       (Some [Z.to_nat (Int_part (nval (cg_nv g))); Z.to_nat (Int_part (nval (cg_nu g)))]).

(** ** 152-164 [get_vol_geom]: shape (xyz) and voxel size; [dtype=int] truncates *)
Definition cg_vol_geom (g : cone_geom) (up_sampling : nat) : list Z * R :=
  (map (fun x => (trunc0 x * Z.of_nat up_sampling)%Z) [nval (cg_nu g); nval (cg_nu g); nval (cg_nv g)], 1 / INR up_sampling).

(** ** 166-189 [update] and 191-211 [get_tuning_params] *)
Definition cg_update (g : cone_geom) (field : string) (val : num) (is_relative : bool) (decimals : option nat) : py_err + cone_geom :=
  match index_of field field_names with
  | None => inl (if is_relative then AttributeError else TypeError)
  | Some i =>
    let new_val := if is_relative then nadd (nth i (field_values g) (NInt 0)) val else val in
    let new_val := match decimals with Some d => naround d new_val | None => new_val end in
    inr (of_values (set_nth i new_val (field_values g)))
  end.
Fixpoint get_tuning_params (g : cone_geom) (field : string) (vals : list num) (is_relative : bool) : py_err + list cone_geom :=
  match vals with
  | [] => inr []
  | v :: r => match cg_update g field v is_relative (Some 3%nat), get_tuning_params g field r is_relative with
              | inl e, _ => inl e
              | _, inl e => inl e
              | inr x, inr l => inr (x :: l)
              end
  end.

(** ** 25-26 [_class_to_json], 213-222 [to_json], 224-251 [from_json].  A document is the tree json.loads returns; json.loads (json.dumps t) = t.
    A document is one object whose members are objects of numbers.  json.dumps cannot write numpy int64: the default hook then asks for
    its __dict__ (26). *)
Definition json := list (string * list (string * num)).
Definition plain (n : num) : bool := match n with NInt64 _ => false | _ => true end.
Definition cone_class : string := "ConeBeamGeometry".
Definition to_json (g : cone_geom) : py_err + json :=
  if forallb plain (field_values g) then inr [(cone_class, combine field_names (field_values g))] else inl AttributeError.
Fixpoint lookup {A} (s : string) (l : list (string * A)) : option A :=
  match l with [] => None | (x, a) :: r => if String.eqb s x then Some a else lookup s r end.
(** 249-251: the fields are stored one by one; the first missing one raises KeyError *)
Fixpoint load_fields (names : list string) (old : list num) (d : list (string * num)) : list num * option py_err :=
  match names, old with
  | n :: ns, o :: os => match lookup n d with
                        | Some v => let '(l, e) := load_fields ns os d in (v :: l, e)
                        | None => (o :: os, Some KeyError)
                        end
  | _, _ => (old, None)
  end.
(** the geometry after the call, and the exception raised, if any *)
Definition from_json (g : cone_geom) (t : json) : cone_geom * option py_err :=
  match t with
  | _ :: _ :: _ => (g, Some ValueError)                                  (* 239-240 *)
  | [] => (g, Some IndexError)                                           (* 242 *)
  | [(name, d)] => if String.eqb name cone_class then let '(l, e) := load_fields field_names (field_values g) d in (of_values l, e)
                   else (g, Some TypeError)                              (* 246: dict_keys objects are not subscriptable *)
  end.

(** ** 29-55 [_get_rot_axis_angle_deg].  numpy.arctan2 by contract: [arctan2 y x t].  The cast to float32 is not modelled. *)
Definition arctan2 (y x t : R) : Prop :=
  - PI < t <= PI /\ x = sqrt (x ^ 2 + y ^ 2) * cos t /\ y = sqrt (x ^ 2 + y ^ 2) * sin t /\ (x = 0 -> y = 0 -> t = 0).
Definition mod_2pi (t : R) : R := t - 2 * PI * IZR (Int_part (t / (2 * PI))).
Definition rot_axis_angle_deg (decimals : option nat) (t : R) : R := opt_around decimals (rad2deg (mod_2pi t - PI)).

(** ** 554-574 [_fit_distance_det2src]: a floating point number, possibly not a number or infinite *)
Inductive flt := Fin (x : R) | NaN | Inf.
Definition fit_distance_det2src (e1 e2 : ellipse) (e : R) : flt :=
  let ecc2 := sqrt (e_b e2 - e_c e2 ^ 2 / e_a e2) in
  let ecc1 := sqrt (e_b e1 - e_c e1 ^ 2 / e_a e1) in
  let m0 := (e_v e2 - e_v e1) * ecc2 in
  let m1 := ecc2 / ecc1 in
  let m0m1 := 2 * m0 * m1 in
  let n0 := (1 - m0 ^ 2 - m1 ^ 2) / m0m1 in
  let n1 := (e_a e2 - e_a e1 * m1 ^ 2) / m0m1 in
  let rad := e_a e1 ^ 2 + 4 * n1 ^ 2 - 4 * (n0 * n1) * e_a e1 in
  let numer := e_a e1 - 2 * (n0 * n1) - e * sqrt rad in
  let s2d_2 := numer / (2 * n1 ^ 2) in
  if Req_EM_T m0m1 0 then NaN
  else if Rlt_dec rad 0 then NaN
  else if Req_EM_T n1 0 then (if Rlt_dec 0 numer then Inf else NaN)
  else if Rlt_dec s2d_2 0 then NaN else Fin (sqrt s2d_2).

(** ** 336-414 [FitConeBeamGeometry._initialize]: the state it leaves (the constructor itself: ConeBeamInitModel.v) *)
Record fit_state := mkFS {
  fs_geom : cone_geom;                                                    (* acq_geom *)
  fs_ell1 : ellipse; fs_ell2 : ellipse;                                   (* ell1_rot, ell2_rot *)
  fs_c1 : R * R; fs_c2 : R * R;                                           (* ell1_prj_c_vu, ell2_prj_c_vu *)
  fs_origin : option (R * R) }.                                           (* prj_origin_vu *)
(** 374-378: the ellipses are taken to be in the wrong order *)
Definition check_eta (eta : R) : option py_err := if Rlt_dec 120 (Rabs eta) then Some ValueError else None.
(** 387-395: points as pairs (v, u), multiplied by the leading 2x2 block of the rotation by -eta about z *)
Definition rotate_point (eta : R) (p : R * R) : R * R :=
  let a := deg2rad eta in
  if Rlt_dec (1 / 10) (Rabs eta) then (cos a * fst p + sin a * snd p, - sin a * fst p + cos a * snd p) else p.

(** ** 416-551 [fit].  [isclose x 0]: |x| <= 1e-8.  The state after the call and the result; the returned geometry is the very object
    the fitter keeps (551).  An infinite computed distance passes the test at 461 but makes R not a number, so ValueError (524) all the same. *)
Definition close0 (x : R) : bool := if Rle_dec (Rabs x) (1 / 100000000) then true else false.
Definition get_v0 (E : ellipse) (D s : R) : R := e_v E - s * sqrt (e_a E + e_a E ^ 2 * D ^ 2) / sqrt (e_a E * e_b E - e_c E ^ 2).
Definition get_denom (E : ellipse) (D : R) : R := sqrt (e_a E * e_b E + e_a E ^ 2 * e_b E * D ^ 2 - e_c E ^ 2).
Definition get_rho (E : ellipse) (D : R) : R := sqrt (e_a E * e_b E - e_c E ^ 2) / get_denom E D.
Definition get_zeta (E : ellipse) (D s : R) : R := D * s * e_a E * sqrt (e_a E) / get_denom E D.
Definition tilt_ratio (E : ellipse) : R := e_c E / (2 * e_a E).
Definition pick_D (comp : flt) (meas : option R) : py_err + R :=
  match meas with
  | Some d => inr d
  | None => match comp with Fin d => if close0 d then inl ValueError else inr d | NaN => inl ValueError | Inf => inl ValueError end
  end.
Definition cb_fit (st : fit_state) (r e : R) (meas : option R) : fit_state * (py_err + cone_geom) :=
  let E1 := fs_ell1 st in let E2 := fs_ell2 st in
  match pick_D (fit_distance_det2src E1 E2 e) meas with
  | inl er => (st, inl er)
  | inr D =>
    let s1 := -1 in let s2 := s1 * - e in
    let v01 := get_v0 E1 D s1 in let v02 := get_v0 E2 D s2 in
    let v0 := (v01 + v02) / 2 in
    let u0 := (e_u E1 + e_u E2) / 2 + tilt_ratio E1 * (e_v E1 - v0) + tilt_ratio E2 * (e_v E2 - v0) in
    let g := fs_geom st in
    let g1 := mkCG (cg_theta g) (cg_phi g) (cg_eta g) (NFlt D) (cg_R g) (NFlt v0) (NFlt u0) (cg_nv g) (cg_nu g) (cg_pix g) in
    if Rlt_dec (Rabs (e_v E1 - e_v E2)) (Rabs (v01 - v02)) then (mkFS g1 E1 E2 (fs_c1 st) (fs_c2 st) (fs_origin st), inl ValueError)
    else
      let rho1 := get_rho E1 D in let rho2 := get_rho E2 D in
      let zeta1 := get_zeta E1 D s1 in let zeta2 := get_zeta E2 D s2 in
      let phi := rad2deg (asin (- tilt_ratio E1 * zeta1 + - tilt_ratio E2 * zeta2)) in
      let R1 := r / rho1 in let R2 := r / rho2 in
      let z1 := R1 * zeta1 in let z2 := R2 * zeta2 in
      let z_full := z1 - z2 in
      let Rp := (- z2 * R1 + z1 * R2) / z_full in
      let g2 := mkCG (cg_theta g1) (NFlt phi) (cg_eta g1) (cg_D g1) (NFlt Rp) (cg_v0 g1) (cg_u0 g1) (cg_nv g1) (cg_nu g1) (cg_pix g1) in
      if close0 Rp then (mkFS g2 E1 E2 (fs_c1 st) (fs_c2 st) (fs_origin st), inl ValueError)
      else
        let origin := match fs_origin st with
                      | Some o => o
                      | None => ((- z2 * fst (fs_c1 st) + z1 * fst (fs_c2 st)) / z_full, (- z2 * snd (fs_c1 st) + z1 * snd (fs_c2 st)) / z_full)
                      end in
        let g3 := mkCG (NFlt 0) (cg_phi g2) (cg_eta g2) (cg_D g2) (cg_R g2) (cg_v0 g2) (cg_u0 g2) (cg_nv g2) (cg_nu g2) (cg_pix g2) in
        (mkFS g3 E1 E2 (fs_c1 st) (fs_c2 st) (Some origin), inr g3)
  end.

(** ** 577-643 [tune_acquisition_geometry].  [resid g]: the last residual of the SIRT run with geometry g; [fit] as in fit_parabola_min *)
Fixpoint tune (fit : fitter) (resid : cone_geom -> R) (g : cone_geom) (params : list (string * list num)) : py_err + cone_geom :=
  match params with
  | [] => inr g
  | (name, vals) :: rest =>
    match get_tuning_params g name vals true with
    | inl e => inl e
    | inr gs => match fit_parabola_min fit ScaleLinear 6 (map nval vals) (map resid gs) with
                | inl e => inl e
                | inr (m, _, _) => match cg_update g name (NFlt m) true (Some 3%nat) with inl e => inl e | inr g' => tune fit resid g' rest end
                end
    end
  end.
