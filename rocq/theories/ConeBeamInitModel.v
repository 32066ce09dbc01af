(** Model of src/corrct/alignment/cone_beam.py:264-414 [FitConeBeamGeometry.__init__ and _initialize] and of the shape tests of
    [_get_rot_axis_angle_deg] (29-44).  Real arithmetic (the cast of the centres to float32 is not modelled); printing, plotting and the l1
    refinements are not modelled.  np.linalg.lstsq returned [s1 s2] (centres) and [q1 q2] (ellipses); [ang y x] is np.arctan2(y, x). *)
From Coq Require Import Reals Lra Lia List ZArith Bool String.
Import ListNotations.
From Verif Require Import Sums PyErr AlignFitModel ConeBeamModel.
Open Scope R_scope.

(** ** 35-44: [Vec] is a sequence of numbers after numpy.squeeze (its length), [Other] any other shape *)
Inductive seq_shape := Vec (n : nat) | Other.
Definition check_centres (s1 s2 : seq_shape) : option py_err :=
  match s1, s2 with
  | Vec n1, Vec n2 => if Nat.eqb n1 2 && Nat.eqb n2 2 then None else Some ValueError
  | _, _ => Some ValueError
  end.

(** ** 299-327: the shapes.  Sizes, points and axis points of three or more dimensions are given by their shape as far as the code gets:
    sizes and axis points are modelled up to two dimensions, points for every shape.
    300-306 and 309: the number of rows of center_vu = np.squeeze(prj_size_vu)[:, None] / 2; a size with one row is tiled *)
Inductive size_shape := Z0 | Z1 (n : nat) | Z2 (n m : nat).
Definition centre_rows (s : size_shape) : py_err + nat :=
  match s with
  | Z0 => inl TypeError                                                   (* len() of an unsized object *)
  | Z1 2 => inr 2%nat
  | Z1 1 => inr 2%nat
  | Z1 _ => inl ValueError
  | Z2 1 m => inr (2 * m)%nat
  | Z2 _ _ => inl ValueError
  end.
(** 312-324: a set of points, and subtracting center_vu from it *)
Definition check_points (rows : nat) (s : list nat) : option py_err :=
  match s with
  | [2; _]%nat => if Nat.eqb rows 2 then None else Some ValueError
  | _ => Some ValueError
  end.
(** 326-328: points_axis - center_vu broadcasts; the number of points *)
Inductive axis_shape := X0 | X1 (m : nat) | X2 (n m : nat).
Definition axis_points (s : axis_shape) : py_err + nat :=
  match s with
  | X0 => inr 1%nat
  | X1 m => inr m
  | X2 1 m => inr m
  | X2 2 m => inr m
  | X2 _ _ => inl ValueError
  end.
(** everything __init__ and _initialize raise because of shapes, in order; 330: int(prj_size_vu[0]) of a tiled (1, 1) array; 346-347: columns 0 and 2 *)
Definition init_shapes (size : size_shape) (p1 p2 : list nat) (axis : option axis_shape) : option py_err :=
  match centre_rows size with
  | inl e => Some e
  | inr rows =>
    match check_points rows p1 with
    | Some e => Some e
    | None =>
      match check_points rows p2 with
      | Some e => Some e
      | None =>
        match match axis with None => inr 3%nat | Some s => axis_points s end with
        | inl e => Some e
        | inr m => match size with Z2 _ _ => Some TypeError | _ => if (m <=? 2)%nat then Some IndexError else None end
        end
      end
    end
  end.

(** ** 310-414: the state, for a frame of V x U pixels, n1 and n2 points (v, u) of the two orbits, axis points (lower, middle, upper) *)
Definition minus_centre (size : nat) (x : vec) : vec := fun i => x i - INR size / 2.
Definition rot_v (eta : R) (v u : vec) : vec := fun i => fst (rotate_point eta (v i, u i)).
Definition rot_u (eta : R) (v u : vec) : vec := fun i => snd (rotate_point eta (v i, u i)).
Definition to_ellipse (p : R * R * R * R * R) : ellipse := let '(a, b, c, u, v) := p in {| e_a := a; e_b := b; e_c := c; e_u := u; e_v := v |}.
Definition centres_angle (ang : R -> R -> R) (c1 c2 : R * R) : R := rot_axis_angle_deg (Some 4%nat) (ang (snd c1 - snd c2) (fst c1 - fst c2)).
Definition cb_init (V U : nat) (n1 : nat) (v1 u1 : vec) (n2 : nat) (v2 u2 : vec) (axis : option ((R * R) * (R * R) * (R * R))) (pix : option R)
  (ang : R -> R -> R) (s1 s2 : R * R) (q1 q2 : list R) : py_err + fit_state :=
  let pv1 := minus_centre V v1 in let pu1 := minus_centre U u1 in
  let pv2 := minus_centre V v2 in let pu2 := minus_centre U u2 in
  let '(c1, c2, origin) :=
    match axis with
    | Some (x1, x0, x2) => let mc (x : R * R) := (fst x - INR V / 2, snd x - INR U / 2) in (mc x1, mc x2, Some (mc x0))
    | None => (fit_ellipse_center true (Some 2%nat) n1 pv1 pu1 s1, fit_ellipse_center true (Some 2%nat) n2 pv2 pu2 s2, None)
    end in
  let eta := centres_angle ang c1 c2 in
  match check_eta eta with
  | Some e => inl e
  | None =>
    let g := mkCG (NFlt 0) (NFlt 0) (NFlt eta) (NFlt 0) (NFlt 0) (NFlt 0) (NFlt 0) (NInt (Z.of_nat V)) (NInt (Z.of_nat U))
               (match pix with Some x => NFlt x | None => NFlt 0 end) in
    inr (mkFS g (to_ellipse (fit_ellipse_parameters true n1 (rot_v eta pv1 pu1) (rot_u eta pv1 pu1) q1))
                (to_ellipse (fit_ellipse_parameters true n2 (rot_v eta pv2 pu2) (rot_u eta pv2 pu2) q2)) c1 c2 origin)
  end.
