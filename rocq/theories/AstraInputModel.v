(** Model of what the two ASTRA backends accept as data and what shapes they return (src/corrct/_projector_backends.py):
    [make_ready] sampling options (519-521, 789-791), [_check_data] (534-543), [_check_prj_shape] (545-555), traditional fp/bp
    (565-668) and direct fp/bp (799-860).  The numerical projection done by the toolbox is a parameter. *)
From Coq Require Import Reals Lra Lia List ZArith Bool.
Import ListNotations.
From Verif Require Import Sums PyErr Arrays ProjectorsModel ConeBeamModel.
Open Scope R_scope.

(** A C-contiguous float array: its shape, and its elements in row-major order.  The dtype conversion to float32 and the
    copy to contiguous memory (535-538) do not change shape or order; rounding to float32 is not modelled. *)
Record nd := mkNd { nd_shape : list nat; nd_data : nat -> R }.
(** the element at a multi-index *)
Definition elem (x : nd) (l : list nat) : R := nd_data x (flat (nd_shape x) l).
(** 540 x.reshape(expected_shape): same elements in the same row-major order, ValueError when the counts differ (541-543) *)
Definition check_data (x : nd) (expected : list nat) : py_err + nd :=
  if (size (nd_shape x) =? size expected)%nat then inr (mkNd expected (nd_data x)) else inl ValueError.

(** the k-th entry from the end (k >= 1), as in Python's shape[-k] *)
Definition from_end (s : list nat) (k : nat) : nat := nth (k - 1) (rev s) 0%nat.
(** 545-555 *)
Definition check_prj_shape (prj_shape_vu given : list nat) : option py_err :=
  (* 546 the negative indices of the axes longer than one, from -len to -1 *)
  let inds := filter (fun k => (1 <? from_end prj_shape_vu k)%nat) (rev (seq 1 (length prj_shape_vu))) in
  (* 548 np.array(prj.shape)[inds] *)
  if existsb (fun k => (length given <? k)%nat) inds then Some IndexError
  (* 549-555 *)
  else if existsb (fun k => negb (from_end given k =? from_end prj_shape_vu k)%nat) inds then Some ValueError
  else None.

(** the shapes fixed by initialize_geometry: 2-D volumes [n; m] with a detector line of u pixels, 3-D volumes [z; n; m] with a
    detector of [v; u] pixels; w is the number of angles (424-452 and 725-741, also C108, C213) *)
Inductive setup := G2 (n m w u : nat) | G3 (z n m v w u : nat).
Definition vol_shape (g : setup) : list nat := match g with G2 n m _ _ => [n; m] | G3 z n m _ _ _ => [z; n; m] end.
Definition prj_shape_vwu (g : setup) : list nat := match g with G2 _ _ w u => [w; u] | G3 _ _ _ v w u => [v; w; u] end.
Definition prj_shape_vu (g : setup) : list nat := match g with G2 _ _ _ u => [1; u] | G3 _ _ _ v _ u => [v; 1; u] end%nat.
(** 776-779 the direct backend always works in 3-D *)
Definition astra_vol_shape (g : setup) : list nat := match g with G2 n m _ _ => [1; n; m]%nat | G3 z n m _ _ _ => [z; n; m] end.
Definition astra_prj_shape (g : setup) : list nat := match g with G2 _ _ w u => [1; w; u]%nat | G3 _ _ _ v w u => [v; w; u] end.
Definition astra_angle_prj_shape (g : setup) : list nat := match g with G2 _ _ _ u => [1; 1; u]%nat | G3 _ _ _ v _ u => [v; 1; u]%nat end.
Definition angle_prj_shape (g : setup) : list nat := match g with G2 _ _ _ u => [1; u]%nat | G3 _ _ _ v _ u => [v; u] end.

Inductive interface := Traditional | Direct.
(** the toolbox: forward and back-projection of the row-major data, for all angles (None) or one of them *)
Definition engine := option nat -> (nat -> R) -> nat -> R.

(** 565-617 and 799-826.  [ind] = has_individual_projs; the angle index is one of 0 .. w-1. *)
Definition astra_fp (i : interface) (g : setup) (ind : bool) (A : engine) (vol : nd) (angle : option nat) : py_err + nd :=
  match i with
  | Traditional =>
      match check_data vol (vol_shape g) with
      | inl e => inl e
      | inr x =>
          match angle, ind with
          | None, _ => inr (mkNd (squeeze (prj_shape_vwu g)) (A angle (nd_data x)))
          | Some _, false => inl ValueError
          | Some _, true => inr (mkNd (squeeze (prj_shape_vu g)) (A angle (nd_data x)))
          end
      end
  | Direct =>
      match angle, ind with
      | Some _, false => inl ValueError
      | _, _ =>
          match check_data vol (astra_vol_shape g) with
          | inl e => inl e
          | inr x => inr (mkNd (match angle with None => prj_shape_vwu g | Some _ => angle_prj_shape g end) (A angle (nd_data x)))
          end
      end
  end.
(** 619-668 and 828-860 *)
Definition astra_bp (i : interface) (g : setup) (ind : bool) (B : engine) (prj : nd) (angle : option nat) : py_err + nd :=
  match check_prj_shape (prj_shape_vu g) (nd_shape prj) with
  | Some e => inl e
  | None =>
      match angle, ind with
      | Some _, false => inl ValueError
      | _, _ =>
          let expected := match i, angle with
                          | Traditional, None => prj_shape_vwu g
                          | Traditional, Some _ => prj_shape_vu g
                          | Direct, None => astra_prj_shape g
                          | Direct, Some _ => astra_angle_prj_shape g
                          end in
          match check_data prj expected with
          | inl e => inl e
          | inr x => inr (mkNd (vol_shape g) (B angle (nd_data x)))
          end
      end
  end.

(** 519-521 int(super_sampling * np.fmax(1, vox_size)), int(super_sampling / np.fmin(1, vox_size)) in exact arithmetic;
    int() truncates towards zero *)
Definition voxel_sampling (ss : Z) (vox : R) : Z := trunc0 (IZR ss * Rmax 1 vox).
Definition pixel_sampling (ss : Z) (vox : R) : Z := trunc0 (IZR ss / Rmin 1 vox).
