(** Model of the scikit-image backend, src/corrct/_projector_backends.py:251-359 [ProjectorBackendSKimage], on top of the base
    class (120-160, [base_prj_shape] and [vol_eff] of BackendsModel.v).  scikit-image is not part of the repository: the line
    that radon computes for one angle and the back-projection of one line ("smearing") are parameters; what is modelled of
    skimage.transform is what decides shapes, scales and exceptions: radon wants a 2-D image, returns one column per angle and
    scales integer images by 1/(largest integer) (img_as_float, preserve_range=False); iradon wants one angle per column,
    keeps the range of integer lines, uses no filter here and multiplies by pi/(2 * number of angles). *)
From Coq Require Import Reals Lra Lia List ZArith Bool.
Import ListNotations.
From Verif Require Import Sums PyErr Arrays Rounding GeometryModel BackendsModel ConeBeamModel.
Open Scope R_scope.

(** what the argument is, None or not *)
Definition given {A} (o : option A) : bool := match o with Some _ => true | None => false end.
(** 260-303 [initialize_geometry]: the checks, in the order of the code; then the angles in degrees (303, [rad2deg]: only their
    number and their identity matter below) *)
Definition sk_init (g : vol_geom) (angles : list R) (rot_axis_shift : option (list R)) (pg : option prj_geom) : py_err + (list nat * list R) :=
  if is_3D g then inl ValueError
  else if given rot_axis_shift then inl ValueError
  else if given pg then inl ValueError
  else inr (base_prj_shape g (List.length angles), map (fun a => a * 180 / PI) angles).

(** Python slices l[a:b] *)
Definition clip (n : nat) (i : Z) : nat := Z.to_nat (Z.min (Z.of_nat n) (if (i <? 0)%Z then Z.max 0 (Z.of_nat n + i) else i)).
Definition py_slice {A} (l : list A) (a b : Z) : list A :=
  let n := List.length l in firstn (clip n b - clip n a) (skipn (clip n a) l).
(** numpy.squeeze: the axes of length one go; an index of the result, completed with zeros, is an index of the argument *)
Definition squeeze (s : list nat) : list nat := filter (fun n => negb (Nat.eqb n 1)) s.
Fixpoint unsqueeze (s q : list nat) : list nat :=
  match s with
  | [] => []
  | n :: s' => if Nat.eqb n 1 then 0%nat :: unsqueeze s' q
               else match q with i :: q' => i :: unsqueeze s' q' | [] => 0%nat :: unsqueeze s' [] end
  end.
Definition sq_arr (s : list nat) (x : arr) : arr := fun q => x (unsqueeze s q).
(** numpy: row[:] = value, for a row of m items *)
Definition assign_row (m : nat) (s : list nat) (x : arr) : py_err + (nat -> R) :=
  match s with
  | [] => inr (fun _ => x [])
  | [k] => if Nat.eqb k m then inr (fun u => x [u]) else if Nat.eqb k 1 then inr (fun _ => x [0%nat]) else inl ValueError
  | _ => inl ValueError
  end.

Section Skimage.
(** samples of the projection of an a x b image at one angle; image of size N x N of one line of m samples at one angle *)
Variable radon1 : nat -> nat -> R -> (nat -> nat -> R) -> nat -> R.
Variable smear : nat -> nat -> R -> (nat -> R) -> nat -> nat -> R.

(** skimage.transform.radon(image, theta): circle=True; [imax] is the largest integer of the dtype for integer images *)
Definition radon (imax : option R) (s : list nat) (x : arr) (theta : list R) : py_err + (list nat * arr) :=
  match s with
  | [a; b] =>
    let im := fun i j => match imax with Some M => x [i; j] * / M | None => x [i; j] end in
    inr ([Nat.min a b; List.length theta], fun q => radon1 a b (nth (nth 1 q 0%nat) theta 0) im (nth 0 q 0%nat))
  | _ => inl ValueError
  end.
(** skimage.transform.iradon(prj[:, np.newaxis], theta, output_size=N, circle=False, filter_name=None) *)
Definition iradon (m N : nat) (line : nat -> R) (theta : list R) : py_err + (nat -> nat -> R) :=
  match theta with
  | [a] => inr (fun i j => smear m N a line i j * (PI / (2 * 1)))
  | _ => inl ValueError
  end.

(** 316-336 [fp]: [imax] is None for floating-point volumes, else their dtype is an integer one and so is that of the result *)
Fixpoint fp_rows (imax : option R) (m : nat) (s : list nat) (x : arr) (theta : list R) : py_err + list (nat -> R) :=
  match theta with
  | [] => inr []
  | a :: rest =>
    match radon imax s x [a] with
    | inl e => inl e
    | inr (rs, r) =>
      match assign_row m (squeeze rs) (sq_arr rs r) with
      | inl e => inl e
      | inr row => match fp_rows imax m s x rest with inl e => inl e | inr rows => inr ((fun u => store (given imax) (row u)) :: rows) end
      end
    end
  end.
Definition sk_fp (prj_shape : list nat) (theta : list R) (imax : option R) (s : list nat) (x : arr) (angle_ind : option Z) : py_err + (list nat * arr) :=
  match angle_ind with
  | None =>
    match fp_rows imax (last prj_shape 0%nat) s x theta with
    | inl e => inl e
    | inr rows => inr (prj_shape, fun q => nth (nth 0 q 0%nat) rows (fun _ => 0) (nth 1 q 0%nat))
    end
  | Some i =>
    match radon imax s x (py_slice theta i (i + 1)) with
    | inl e => inl e
    | inr (rs, r) => inr (squeeze rs, sq_arr rs r)
    end
  end.

(** 338-359 [bp].  vol[ii_a, ...] = (an N x N image): the two last axes must be N x N, or N = 1 *)
Definition assign_img (vs : list nat) (N : nat) (im : nat -> nat -> R) : py_err + arr :=
  let k := List.length vs in
  let a := nth (k - 2) vs 0%nat in let b := nth (k - 1) vs 0%nat in
  if ((Nat.eqb a N && Nat.eqb b N) || Nat.eqb N 1)%bool
  then inr (fun q => im (if Nat.eqb N 1 then 0%nat else nth (List.length q - 2) q 0%nat) (if Nat.eqb N 1 then 0%nat else nth (List.length q - 1) q 0%nat))
  else inl ValueError.
Fixpoint bp_rows (int_prj : bool) (vs : list nat) (w m : nat) (y : arr) (k : nat) (theta : list R) : py_err + list arr :=
  match theta with
  | [] => inr []
  | a :: rest =>
    if Nat.leb w k then inl IndexError
    else match iradon m (last vs 0%nat) (fun u => y [k; u]) [a] with
         | inl e => inl e
         | inr im =>
           match assign_img vs (last vs 0%nat) im with
           | inl e => inl e
           | inr v => match bp_rows int_prj vs w m y (S k) rest with inl e => inl e | inr vols => inr ((fun q => store int_prj (v q)) :: vols) end
           end
         end
  end.
(** sum over the first axis, then times 2, divided by pi *)
Definition sk_bp (vs : list nat) (theta : list R) (int_prj : bool) (ps : list nat) (y : arr) (angle_ind : option Z) : py_err + (list nat * arr) :=
  match angle_ind with
  | None =>
    match ps with
    | [w; m] =>
      match bp_rows int_prj vs w m y 0 theta with
      | inl e => inl e
      | inr vols => inr (vs, fun q => fold_right (fun v acc => v q + acc) 0 vols * 2 / PI)
      end
    | [] | [_] => if Nat.eqb (List.length theta) 0 then inr (vs, fun _ => 0) else inl IndexError
    | _ => if Nat.eqb (List.length theta) 0 then inr (vs, fun _ => 0) else inl ValueError
    end
  | Some i =>
    match ps with
    | [m] =>
      match iradon m (last vs 0%nat) (fun u => y [u]) (py_slice theta i (i + 1)) with
      | inl e => inl e
      | inr im => inr ([last vs 0%nat; last vs 0%nat], fun q => im (nth 0 q 0%nat) (nth 1 q 0%nat) * 2 / PI)
      end
    | _ => inl ValueError
    end
  end.
End Skimage.
