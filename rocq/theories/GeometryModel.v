(** Model of src/corrct/models.py: projection and volume geometries.  Real arithmetic instead of floating point; an
    array of 3-vectors of shape (n, 3) is a list of n vectors.  Plotting (796-926) and printing are not modelled. *)
From Coq Require Import Ascii String.
From Verif Require Import Sums PyErr.
Import ListNotations.
Local Open Scope R_scope.

(** * 3-vectors *)
Record vec3 := V3 { vx : R; vy : R; vz : R }.
Definition vadd (a b : vec3) := V3 (vx a + vx b) (vy a + vy b) (vz a + vz b).
Definition vscal (s : R) (a : vec3) := V3 (s * vx a) (s * vy a) (s * vz a).
Definition vzero : vec3 := V3 0 0 0.
Definition vdot (a b : vec3) : R := vx a * vx b + vy a * vy b + vz a * vz b.
Definition vcross (a b : vec3) : vec3 :=
  V3 (vy a * vz b - vz a * vy b) (vz a * vx b - vx a * vz b) (vx a * vy b - vy a * vx b).
Definition vnorm (a : vec3) : R := sqrt (vdot a a).

(** scipy.spatial.transform.Rotation.from_rotvec(r).apply(v): rotation by the angle |r| about r/|r| (Rodrigues),
    identity for r = 0.  This is the contract assumed of scipy. *)
Definition rodrigues (k : vec3) (th : R) (v : vec3) : vec3 :=
  vadd (vscal (cos th) v) (vadd (vscal (sin th) (vcross k v)) (vscal ((1 - cos th) * vdot k v) k)).
Definition rotvec_apply (r v : vec3) : vec3 :=
  if Req_EM_T (vnorm r) 0 then v else rodrigues (vscal (/ vnorm r) r) (vnorm r) v.

(** numpy/scipy broadcasting of the leading axis of two arrays of rows: equal lengths, or one of them 1;
    anything else raises ValueError *)
Definition bcast {A B C} (f : A -> B -> C) (la : list A) (lb : list B) : py_err + list C :=
  if Nat.eqb (List.length la) (List.length lb) then inr (map (fun p => f (fst p) (snd p)) (combine la lb))
  else match la, lb with
       | [a], _ => inr (map (f a) lb)
       | _, [b] => inr (map (fun a => f a b) la)
       | _, _ => inl ValueError
       end.
Definition ebind {A B} (x : py_err + A) (f : A -> py_err + B) : py_err + B :=
  match x with inl e => inl e | inr a => f a end.

(** * models.py:44-63 [ProjectionGeometry].  geom_type is lower-cased by __post_init__; the accepted names are
    "parallel2d", "parallel3d", "cone", "fanflat"; any other string is GOther. *)
Inductive geom_t := GParallel2d | GParallel3d | GCone | GFanflat | GOther.
Record prj_geom := mkPG {
  g_type : geom_t; g_src : list vec3; g_det : list vec3; g_u : list vec3; g_v : list vec3;
  g_rot : list vec3; g_ratio : R; g_shape : option (list nat) }.

(** 125-143 [ndim] *)
Definition ndim (t : geom_t) : py_err + nat :=
  match t with
  | GParallel2d | GFanflat => inr 2%nat
  | GParallel3d | GCone => inr 3%nat
  | GOther => inl ValueError
  end.

(** 65-87 [__getitem__]: arrays with a single row are not sliced.  [idx]: the row numbers selected by the numpy
    index (an integer, a slice, or a list), out of range raises IndexError. *)
Definition take_rows (idx : list nat) (l : list vec3) : py_err + list vec3 :=
  if forallb (fun i => Nat.ltb i (List.length l)) idx then inr (map (fun i => nth i l vzero) idx) else inl IndexError.
Definition slice_array (idx : list nat) (l : list vec3) : py_err + list vec3 :=
  if Nat.ltb 1 (List.length l) then take_rows idx l else inr l.
Definition getitem (g : prj_geom) (idx : list nat) : py_err + prj_geom :=
  ebind (slice_array idx (g_src g)) (fun s =>
  ebind (slice_array idx (g_det g)) (fun d =>
  ebind (slice_array idx (g_u g)) (fun u =>
  ebind (slice_array idx (g_v g)) (fun v =>
  inr (mkPG (g_type g) s d u v (g_rot g) (g_ratio g) (g_shape g)))))).

(** 145-161 [get_3d]: geom_type.replace("2d", "3d") only affects "parallel2d".
    new_det_shape_vu = ones(2) with the last entries overwritten. *)
Definition replace_2d_3d (t : geom_t) : geom_t := match t with GParallel2d => GParallel3d | x => x end.
Definition pad_shape2 (s : list nat) : list nat := repeat 1%nat (2 - List.length s) ++ s.
Definition pg_get_3d (g : prj_geom) : py_err + prj_geom :=
  ebind (ndim (g_type g)) (fun nd =>
  if Nat.eqb nd 2 then
    inr (mkPG (replace_2d_3d (g_type g)) (g_src g) (g_det g) (g_u g) (g_v g) (g_rot g) (g_ratio g)
              (option_map pad_shape2 (g_shape g)))
  else inr g).

(** 173-215 [set_detector_shifts_vu].  det_pos_vu is a list of rows (the last one is U, the one before V), all of the
    same length; None is the 1x1 array [[0.0]].  det_dist_y is a 1-D array. *)
Definition upd_last {A} (f : A -> A) (l : list A) : list A :=
  match rev l with [] => l | x :: r => rev r ++ [f x] end.
Definition shifts_rows (det_pos_vu : option (list (list R))) (cor_pos_u : option R) : list (list R) :=
  let rows := match det_pos_vu with Some r => r | None => [[0]] end in
  match cor_pos_u with Some c => upd_last (map (fun x => x + c)) rows | None => rows end.
(** in-place a += b for arrays of rows: b must broadcast to the shape of a *)
Definition iadd {A B} (f : A -> B -> A) (a : list A) (b : list B) : py_err + list A :=
  if Nat.eqb (List.length b) (List.length a) then inr (map (fun p => f (fst p) (snd p)) (combine a b))
  else match b with [y] => inr (map (fun x => f x y) a) | _ => inl ValueError end.
Definition set_detector_shifts_vu (g : prj_geom) (det_pos_vu : option (list (list R))) (cor_pos_u : option R)
    (det_dist_y : list R) : py_err + prj_geom :=
  let rows := shifts_rows det_pos_vu cor_pos_u in
  let us := last rows [] in
  let n := List.length us in
  let m := List.length det_dist_y in
  if (Nat.ltb 1 m && (Nat.ltb 1 n && negb (Nat.eqb m n)))%bool then inl ValueError
  else if (Nat.ltb 1 (List.length (g_det g)) && Nat.ltb 1 n && negb (Nat.eqb (List.length (g_det g)) n))%bool
  then inl ValueError
  else
    ebind (bcast (fun w s => vscal s w) (g_u g) us) (fun du =>
    ebind (iadd vadd (repeat vzero n) du) (fun p1 =>
    ebind (ndim (g_type g)) (fun nd =>
    ebind (if (Nat.eqb nd 3 && Nat.eqb (List.length rows) 2)%bool
           then ebind (bcast (fun w s => vscal s w) (g_v g) (nth (List.length rows - 2) rows [])) (fun dv => iadd vadd p1 dv)
           else inr p1) (fun p2 =>
    ebind (iadd (fun p y => vadd p (V3 0 y 0)) p2 det_dist_y) (fun p3 =>
    inr (mkPG (g_type g) (g_src g) p3 (g_u g) (g_v g) (g_rot g) (g_ratio g) (g_shape g))))))).

(** 217-240 [set_source_shifts_vu]: rows of positions, None leaves the source alone *)
Definition set_source_shifts_vu (g : prj_geom) (src_pos_vu : option (list (list R))) : py_err + prj_geom :=
  match src_pos_vu with
  | None => inr g
  | Some rows =>
    let us := last rows [] in
    let n := List.length us in
    if (Nat.ltb 1 (List.length (g_src g)) && Nat.ltb 1 n && negb (Nat.eqb (List.length (g_src g)) n))%bool
    then inl ValueError
    else
      ebind (iadd (fun p y => V3 (vx p) y (vz p)) (map (fun u => V3 u 0 0) us) (map vy (g_src g))) (fun p1 =>
      ebind (ndim (g_type g)) (fun nd =>
      ebind (if (Nat.eqb nd 3 && Nat.eqb (List.length rows) 2)%bool
             then iadd (fun p z => V3 (vx p) (vy p) z) p1 (nth (List.length rows - 2) rows [])
             else inr p1) (fun p2 =>
      inr (mkPG (g_type g) p2 (g_det g) (g_u g) (g_v g) (g_rot g) (g_ratio g) (g_shape g)))))
  end.

(** 242-292 [set_detector_tilt].  The axis argument is a 1-D array of 3 entries or a 2-D array (n, 3); arrays of other
    shapes (rejected by the checks at 267-280) are outside the type. *)
Inductive axis_arg := Axis1 (a : vec3) | Axes (l : list vec3).
Definition tilt_step (tilt_source : bool) (angle : R) (axis : vec3) (g : prj_geom) : prj_geom :=
  let rot := map (rotvec_apply (vscal angle axis)) in
  mkPG (g_type g) (if tilt_source then rot (g_src g) else g_src g) (rot (g_det g)) (rot (g_u g)) (rot (g_v g))
       (g_rot g) (g_ratio g) (g_shape g).
Fixpoint tilt_loop (tilt_source : bool) (pairs : list (R * vec3)) (g : prj_geom) : prj_geom :=
  match pairs with
  | [] => g
  | (angle, axis) :: rest => tilt_loop tilt_source rest (tilt_step tilt_source angle axis g)
  end.
Definition set_detector_tilt (g : prj_geom) (angles : list R) (tilt_axis : axis_arg) (tilt_source : bool)
  : py_err + prj_geom :=
  match tilt_axis with
  | Axis1 a => inr (tilt_loop tilt_source (combine angles [a]) g)
  | Axes l =>
    if (Nat.ltb 1 (List.length angles) && negb (Nat.eqb (List.length l) (List.length angles)))%bool
    then inl ValueError
    else inr (tilt_loop tilt_source (combine angles l) g)
  end.

(** 294-322 [rotate]: rotations = from_rotvec(angles[:, None] * rot_dir_xyz), then rotations.apply to each field *)
Definition rotate (g : prj_geom) (angles_w : list R) (patch_astra_2d : bool) : py_err + prj_geom :=
  ebind (if patch_astra_2d then ebind (ndim (g_type g)) (fun nd => inr (Nat.eqb nd 2)) else inr false) (fun neg =>
  let angles := if neg then map Ropp angles_w else angles_w in
  ebind (bcast vscal angles (g_rot g)) (fun rots =>
  ebind (bcast rotvec_apply rots (g_src g)) (fun s =>
  ebind (bcast rotvec_apply rots (g_det g)) (fun d =>
  ebind (bcast rotvec_apply rots (g_u g)) (fun u =>
  ebind (bcast rotvec_apply rots (g_v g)) (fun v =>
  inr (mkPG (g_type g) s d u v (g_rot g) (g_ratio g) (g_shape g)))))))).

(** 324-342 [get_field_scaled]: rows of 2 or 3 numbers.  int(geom_type[-2]) raises ValueError for "fanflat" (the
    character is "a"); for other unknown names too (simplification: GOther always raises). *)
Definition get_field_scaled (g : prj_geom) (field : prj_geom -> list vec3) : py_err + list (list R) :=
  let rows3 := map (fun a => [vx a / g_ratio g; vy a / g_ratio g; vz a / g_ratio g]) (field g) in
  match g_type g with
  | GCone | GParallel3d => inr rows3
  | GParallel2d => inr (map (firstn 2) rows3)
  | GFanflat | GOther => inl ValueError
  end.

(** 344-375 [project_displacement_to_detector]: rows [u] (2D) or [v; u] (3D) of the projected displacement *)
Definition take_dot (n : nat) (w : vec3) (d : list R) : R :=
  lsum (combine (firstn n [vx w; vy w; vz w]) d) (fun p => fst p * snd p).
Definition project_displacement (g : prj_geom) (disp_zyx : list R) : py_err + list (list R) :=
  ebind (ndim (g_type g)) (fun nd =>
  if negb (Nat.eqb nd (List.length disp_zyx)) then inl ValueError
  else
    let d := rev disp_zyx in
    if Nat.eqb nd 2 then inr [map (fun w => take_dot 2 w d) (g_u g)]
    else inr [map (fun w => take_dot 3 w d) (g_v g); map (fun w => take_dot 3 w d) (g_u g)]).

(** 377-417 [get_pre_weights], the value for one projection (a row of src, det, u, v) and one pixel.
    linspace(-s/2, s/2, s)[i]; a single sample is the start point. *)
Definition linspace (a b : R) (n i : nat) : R :=
  if Nat.eqb n 1 then a else a + INR i * (b - a) / INR (n - 1).
Definition pixel_coord (s i : nat) : R := linspace (- INR s / 2) (INR s / 2) s i.
Definition guard0 (x : R) : R := if Req_EM_T x 0 then 1 else 0.
Definition weight_of (src det pixel : vec3) : R :=
  let src2det := vadd det src in
  let src2pixel := vnorm (vadd pixel src2det) in
  vnorm src2det / (src2pixel + guard0 src2pixel).
Definition pixel_xyz (shape : list nat) (u v : vec3) (iv iu : nat) : vec3 :=
  match shape with
  | [su] => vscal (pixel_coord su iu) u
  | [sv; su] => vadd (vscal (pixel_coord su iu) u) (vscal (pixel_coord sv iv) v)
  | _ => vzero
  end.
(** the weight array: None for other geometries or unknown shape; otherwise the value at [v, angle, u].
    Simplification: all fields have the same number of rows (as after [rotate]). *)
Definition get_pre_weights (g : prj_geom) (shape : option (list nat)) : option (nat -> nat -> nat -> R) :=
  match g_type g with
  | GCone =>
    match (match shape with Some s => Some s | None => g_shape g end) with
    | None => None
    | Some s => Some (fun iv w iu =>
        weight_of (nth w (g_src g) vzero) (nth w (g_det g) vzero)
                  (pixel_xyz s (nth w (g_u g) vzero) (nth w (g_v g) vzero) iv iu))
    end
  | _ => None
  end.

(** * models.py:420-514 [VolumeGeometry] *)
Record vol_geom := mkVG { vg_xyz : list nat; vg_vox : R }.
(** 431-439 *)
Definition is_square (g : vol_geom) : bool := Nat.eqb (nth 0 (vg_xyz g) 0%nat) (nth 1 (vg_xyz g) 0%nat).
(** 453-466 [shape_zxy]: vol_shape_zyx = flip(xyz); [*zyx[:-2], zyx[-1], zyx[-2]] *)
Definition shape_zxy (g : vol_geom) : list nat :=
  let zyx := rev (vg_xyz g) in
  let n := List.length zyx in
  firstn (n - 2) zyx ++ [nth (n - 1) zyx 0%nat; nth (n - 2) zyx 0%nat].
(** 468-477 *)
Definition mask_shape (g : vol_geom) : list nat := firstn 2 (vg_xyz g).
(** 479-490 *)
Definition extent (g : vol_geom) : list R :=
  flat_map (fun s => [INR s * vg_vox g / 2 * -1; INR s * vg_vox g / 2 * 1]) (vg_xyz g).
(** 492-501 *)
Definition is_3D (g : vol_geom) : bool :=
  (Nat.eqb (List.length (vg_xyz g)) 3 && Nat.ltb 1 (last (vg_xyz g) 0%nat))%bool.
(** 503-514 *)
Definition vg_get_3d (g : vol_geom) : vol_geom :=
  if Nat.eqb (List.length (vg_xyz g)) 2 then mkVG (vg_xyz g ++ [1%nat]) (vg_vox g) else g.

(** 578-605 [get_rot_axis_dir] *)
Inductive rot_dir := Clockwise | CounterClockwise | RotBadString | RotVec (a : vec3).
Definition get_rot_axis_dir (d : rot_dir) : py_err + vec3 :=
  match d with
  | Clockwise => inr (V3 0 0 (-1))
  | CounterClockwise => inr (V3 0 0 1)
  | RotBadString => inl ValueError
  | RotVec a => inr a
  end.

(** 608-612 [_get_data_dims]: the k-th dimension from the end is named by the k-th character from the end of the
    format; a later (outer to inner) assignment overrides.  IndexError when the format is too short. *)
Definition get_data_dims (shape : list nat) (fmt : string) : py_err + (Ascii.ascii -> option nat) :=
  if Nat.ltb (String.length fmt) (List.length shape) then inl IndexError
  else
    let chars := skipn (String.length fmt - List.length shape) (list_ascii_of_string fmt) in
    inr (fun c => fold_left (fun acc p => if Ascii.eqb (fst p) c then Some (snd p) else acc) (combine chars shape) None).

(** 615-675 [get_prj_geom_parallel] / 678-728 [get_prj_geom_cone].  rot_axis_shift_pix: None, a scalar (array of size 1)
    or rows of positions. *)
Inductive shift_arg := NoShift | ScalarShift (c : R) | ArrayShift (rows : list (list R)).
Definition apply_shift (g : prj_geom) (s : shift_arg) : py_err + prj_geom :=
  match s with
  | NoShift => inr g
  | ScalarShift c => set_detector_shifts_vu g None (Some c) [0]
  | ArrayShift rows => set_detector_shifts_vu g (Some rows) None [0]
  end.
Definition set_shape (g : prj_geom) (s : list nat) : prj_geom :=
  mkPG (g_type g) (g_src g) (g_det g) (g_u g) (g_v g) (g_rot g) (g_ratio g) (Some s).
Definition get_prj_geom_parallel (is3d : bool) (shift : shift_arg) (dir : rot_dir)
    (data : option (list nat * string)) : py_err + prj_geom :=
  ebind (get_rot_axis_dir dir) (fun r =>
  let g0 := mkPG (if is3d then GParallel3d else GParallel2d) [V3 0 (-1) 0] [vzero] [V3 1 0 0] [V3 0 0 1] [r] 1 None in
  ebind (apply_shift g0 shift) (fun g1 =>
  match data with
  | None => inr g1
  | Some (shape, fmt) =>
    ebind (get_data_dims shape fmt) (fun dims =>
    match dims ("u"%char) with
    | None => inl ValueError
    | Some u =>
      if is3d then match dims ("v"%char) with
                   | None => inl ValueError
                   | Some v => inr (set_shape g1 [v; u])
                   end
      else inr (set_shape g1 [u])
    end)
  end)).
Definition get_prj_geom_cone (src_to_sam_dist : R) (shift : shift_arg) (dir : rot_dir)
    (data : option (list nat * string)) : py_err + prj_geom :=
  ebind (get_rot_axis_dir dir) (fun r =>
  let g0 := mkPG GCone [V3 0 (- src_to_sam_dist) 0] [vzero] [V3 1 0 0] [V3 0 0 1] [r] 1 None in
  ebind (apply_shift g0 shift) (fun g1 =>
  match data with
  | None => inr g1
  | Some (shape, fmt) =>
    ebind (get_data_dims shape fmt) (fun dims =>
    match dims ("v"%char), dims ("u"%char) with
    | Some v, Some u => inr (set_shape g1 [v; u])
    | _, _ => inl ValueError
    end)
  end)).

(** 731-773 [get_vol_geom_from_data]; the padded size is an integer that could be negative (Z) *)
Inductive pad_arg := PadInt (p : Z) | PadSeq (ps : list Z).
Definition get_vol_geom_from_data (shape : list nat) (padding : pad_arg) (fmt : string) (super_sampling : nat)
  : py_err + (list Z * R) :=
  ebind (get_data_dims shape fmt) (fun dims =>
  match dims ("u"%char) with
  | None => inl ValueError
  | Some u =>
    ebind (match padding with
           | PadSeq [a; b] => inr (Z.of_nat u - (a + b))%Z
           | PadSeq _ => inl ValueError
           | PadInt p => inr (Z.of_nat u - p * 2)%Z
           end) (fun un =>
    let dims_xyz := [un; un] ++ match dims ("v"%char) with Some v => [Z.of_nat v] | None => [] end in
    inr (map (fun d => d * Z.of_nat super_sampling)%Z dims_xyz, 1 / INR super_sampling))
  end).

(** 776-793 [get_vol_geom_from_volume] *)
Definition get_vol_geom_from_volume (shape : list nat) : py_err + vol_geom :=
  let n := List.length shape in
  if Nat.ltb n 2 then inl ValueError
  else inr (mkVG ([nth (n - 2) shape 0%nat; nth (n - 1) shape 0%nat] ++ rev (firstn (n - 2) shape)) 1).
