(** Model of the default geometries of src/corrct/models.py as they are requested by the caller: names are strings.
    Builds on GeometryModel, where the direction and the geometry type are already decoded. *)
From Coq Require Import Ascii String.
From Verif Require Import Sums GeometryModel.
From Verif Require Export SolverObjModel.
Import ListNotations.
Local Open Scope R_scope.

(** the value passed as rot_axis_dir: a name or a vector *)
Inductive dir_arg := DirName (s : string) | DirVec (a : vec3).
(** 24 [ROT_DIRS_VALID], 578-605 [get_rot_axis_dir]: the name is lower-cased, then looked up in ROT_DIRS_VALID; of the two
    valid names "clockwise" is tested for, anything else is the other one *)
Definition rot_dirs_valid : list string := ["clockwise"; "counter-clockwise"]%string.
Definition decode_dir (d : dir_arg) : rot_dir :=
  match d with
  | DirVec a => RotVec a
  | DirName s =>
    if negb (existsb (String.eqb (lower s)) rot_dirs_valid) then RotBadString
    else if String.eqb (lower s) "clockwise" then Clockwise else CounterClockwise
  end.

(** 615-675 [get_prj_geom_parallel] with the geometry type given as a string; the type of the geometry becomes
    "parallel" + lower-cased name.  Simplification: for names other than 2d and 3d, the property ndim (int of the
    last-but-one character) is taken to raise ValueError, which is what int() does unless that character is a digit. *)
Definition prj_geom_parallel (geom_type : string) (shift : shift_arg) (dir : dir_arg) (data : option (list nat * string))
  : py_err + prj_geom :=
  if String.eqb (lower geom_type) "3d" then get_prj_geom_parallel true shift (decode_dir dir) data
  else if String.eqb (lower geom_type) "2d" then get_prj_geom_parallel false shift (decode_dir dir) data
  else
    ebind (get_rot_axis_dir (decode_dir dir)) (fun r =>
    ebind (apply_shift (mkPG GOther [V3 0 (-1) 0] [vzero] [V3 1 0 0] [V3 0 0 1] [r] 1 None) shift) (fun g1 =>
    match data with
    | None => inr g1
    | Some (shape, fmt) =>
      ebind (get_data_dims shape fmt) (fun dims =>
      match dims ("u"%char) with None => inl ValueError | Some u => inr (set_shape g1 [u]) end)
    end)).

(** 678-728 [get_prj_geom_cone] *)
Definition prj_geom_cone (src_to_sam_dist : R) (shift : shift_arg) (dir : dir_arg) (data : option (list nat * string))
  : py_err + prj_geom := get_prj_geom_cone src_to_sam_dist shift (decode_dir dir) data.

(** 553-575 [combine_shifts_vu]: arrays given by their shape and their flattened content.  More than one axis longer
    than one raises; the sizes must agree; np.squeeze drops the axes of length one, so that an array of one element
    becomes zero-dimensional and np.stack(.., axis=-2) of zero-dimensional arrays raises AxisError (a ValueError). *)
Definition combine_shifts (shape_v shape_u : list nat) (vs us : list R) : py_err + list (list R) :=
  let long s := List.length (filter (fun n => Nat.ltb 1 n) s) in
  if Nat.ltb 1 (long shape_v) then inl ValueError
  else if Nat.ltb 1 (long shape_u) then inl ValueError
  else if negb (Nat.eqb (List.length vs) (List.length us)) then inl ValueError
  else if (forallb (fun n => Nat.eqb n 1) shape_v && forallb (fun n => Nat.eqb n 1) shape_u)%bool then inl ValueError
  else inr [vs; us].
