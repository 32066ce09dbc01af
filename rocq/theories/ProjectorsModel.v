(** Model of src/corrct/projectors.py: ProjectorUncorrected and ProjectorAttenuationXRF (ProjectorMatrix is in OperatorsModel).
    The backend's projections are arbitrary functions ([u_fp] ... [u_bpa]); their numerical content is not modelled. *)
From Verif Require Import Sums Arrays OperatorsModel PyErr.
Import ListNotations.

(** * projectors.py:103-335 [ProjectorUncorrected] *)
(** detector shape [u_vu] = [u] or [v; u]; projection data shape = that with the angle axis before the last one *)
Record uncorrected := mkU {
  u_vol : list nat; u_vu : list nat; u_n : nat;
  u_int : option (nat -> R);                     (* prj_intensities *)
  u_psf : option (list nat * arr);               (* PSF: shape and values, after numpy's ndmin expansion to the rank of u_vu *)
  u_symm : bool;                                 (* is_conv_symm: False unless _set_psf is called again *)
  u_fp : arr -> arr; u_bp : arr -> arr;          (* backend fp / bp, all angles *)
  u_fpa : nat -> arr -> arr; u_bpa : nat -> arr -> arr }.  (* backend fp / bp, single angle *)
Definition w_axis (p : uncorrected) : nat := (List.length (u_vu p) - 1)%nat.
Definition vwu (p : uncorrected) : list nat := ins (w_axis p) (u_n p) (u_vu p).
(** 231-247 [_set_psf]: TransformConvolution(shape, kernel, is_symm) with its default edge padding; kernel psf[..., None, :] *)
Definition psf_vu (p : uncorrected) : option transform :=
  option_map (fun k => transform_convolution PadEdge (u_vu p) (fst k) (u_symm p) false (snd k)) (u_psf p).
Definition psf_vwu (p : uncorrected) : option transform :=
  option_map (fun k => transform_convolution PadEdge (vwu p) (ins (w_axis p) 1%nat (fst k)) (u_symm p) false
                         (fun j => snd k (del (w_axis p) j))) (u_psf p).
Definition opt_call (t : option transform) (x : arr) : arr := match t with Some t => call t x | None => x end.
(** prj_intensities[:, np.newaxis] * prj: the factor of the angle index *)
Definition int_w (p : uncorrected) (x : arr) : arr :=
  match u_int p with Some g => fun l => g (nth (w_axis p) l 0%nat) * x l | None => x end.
Definition int_a (p : uncorrected) (a : nat) (x : arr) : arr :=
  match u_int p with Some g => fun l => g a * x l | None => x end.
(** 262-282 [fp_angle], 284-303 [bp_angle], 305-322 [fp], 324-342 [bp] *)
Definition un_fp_angle (p : uncorrected) (a : nat) (x : arr) : arr := opt_call (psf_vu p) (int_a p a (u_fpa p a x)).
Definition un_bp_angle (p : uncorrected) (a : nat) (y : arr) : arr :=
  u_bpa p a (opt_call (option_map transpose (psf_vu p)) (int_a p a y)).
Definition un_fp (p : uncorrected) (x : arr) : arr := opt_call (psf_vwu p) (int_w p (u_fp p x)).
Definition un_bp (p : uncorrected) (y : arr) : arr := u_bp p (opt_call (option_map transpose (psf_vwu p)) (int_w p y)).

(** _projector_backends.py:615: the traditional ASTRA fp returns np.squeeze(prj) *)
Definition squeeze (s : list nat) : list nat := filter (fun n => negb (Nat.eqb n 1)) s.
Definition astra_fp_shape (prj_shape : list nat) : list nat := squeeze prj_shape.
(** numpy broadcasting of shapes, aligned on the right *)
Fixpoint bshape_r (a b : list nat) : option (list nat) :=
  match a, b with
  | [], b => Some b
  | a, [] => Some a
  | x :: a', y :: b' =>
    match bshape_r a' b' with
    | None => None
    | Some t => if Nat.eqb x y then Some (x :: t) else if Nat.eqb x 1 then Some (y :: t) else if Nat.eqb y 1 then Some (x :: t) else None
    end
  end.
Definition bshape (a b : list nat) : option (list nat) := option_map (@rev nat) (bshape_r (rev a) (rev b)).
(** 317-318 prj_vwu *= prj_intensities[:, np.newaxis]: in place, so the broadcast shape must be the array's own *)
Definition imul_shape (a b : list nat) : py_err + list nat :=
  match bshape a b with
  | Some s => if list_eq_dec Nat.eq_dec s a then inr a else inl ValueError
  | None => inl ValueError
  end.
(** 316-321 shapes: ASTRA backend, [n] angles, intensities given or not *)
Definition un_fp_shape (prj_shape : list nat) (n : nat) (intensities : bool) : py_err + list nat :=
  if intensities then imul_shape (astra_fp_shape prj_shape) [n; 1%nat] else inr (astra_fp_shape prj_shape).

(** * projectors.py:345-626 [ProjectorAttenuationXRF] *)
Record xrf := mkX {
  x_un : uncorrected; x_D : nat;            (* number of detectors *)
  x_att : nat -> nat -> arr;                (* att_vol_angles[angle, detector] *)
  x_wdet : nat -> R; x_wang : nat -> nat -> R; x_sym : bool }.
Definition x_w (p : xrf) (a d : nat) : R := x_wdet p d * x_wang p a d.
(** 499-530 [fp_angle]: line d of the result *)
Definition xrf_fp_angle (p : xrf) (a : nat) (x : arr) (d : nat) : arr := fun l =>
  x_w p a d * un_fp_angle (x_un p) a (fun v => x v * x_att p a d v) l.
(** 532-568 [bp_angle] of the lines [y d] *)
Definition xrf_bp_angle (p : xrf) (a : nat) (y : nat -> arr) : arr := fun v =>
  rsum (x_D p) (fun d => (x_w p a d * un_bp_angle (x_un p) a (y d) v) * (if x_sym p then x_att p a d v else 1)).
(** np.stack(lines, axis=-2): entry (d, ..w..) of the stacked array *)
Definition row (ax w : nat) (y : arr) : arr := fun l => y (ins ax w l).
Definition xrf_fp (p : xrf) (x : arr) (d : nat) : arr := fun l =>
  xrf_fp_angle p (nth (w_axis (x_un p)) l 0%nat) x d (del (w_axis (x_un p)) l).
(** 603-626 [bp] *)
Definition xrf_bp (p : xrf) (y : nat -> arr) : arr :=
  if x_sym p then fun v => rsum (u_n (x_un p)) (fun a => xrf_bp_angle p a (fun d => row (w_axis (x_un p)) a (y d)) v)
  else fun v => rsum (x_D p) (fun d => un_bp (x_un p) (y d) v).

(** 487-497 [collapse_detectors] and 517-523, 525-528, 592-597: shapes *)
Definition collapse_shape (att : list nat) (D : nat) : option (list nat) :=
  option_map (fun s => del 1 s) (bshape att [1; D; 1; 1]%nat).
(** shape of temp_vol[ii] handed to the backend: vol * att_vol_angles[angle, ...], then the first axis indexed *)
Definition backend_input_shape (vol att : list nat) : option (list nat) := option_map (@tl nat) (bshape vol (tl att)).
Definition drop_leading_one (s : list nat) : list nat := match s with 1%nat :: t => t | _ => s end.
(** 525-528 fp_angle, 592-597 fp *)
Definition xrf_fp_shape (D n : nat) (vu : list nat) : list nat :=
  let line := drop_leading_one (D :: vu) in drop_leading_one (ins (List.length line - 1) n line).

(** ** threads: concurrent.futures executor.map.  The workers finish in the order [sched]; each stores its result in the slot
    of its argument; the results are then read in the order of the arguments. *)
Definition slots (A : Type) := nat -> option A.
Fixpoint run_sched {A} (f : nat -> A) (sched : list nat) (s : slots A) : slots A :=
  match sched with [] => s | k :: t => run_sched f t (fun i => if Nat.eqb i k then Some (f k) else s i) end.
Definition executor_map {A} (f : nat -> A) (n : nat) (sched : list nat) : list (option A) :=
  map (run_sched f sched (fun _ => None)) (seq 0 n).
Definition serial_map {A} (f : nat -> A) (n : nat) : list A := map f (seq 0 n).
(** the executor exists only inside the with statement (466-484) *)
Inductive xop := XEnter | XExit | XFp.
Definition xrf_threaded (use_mt skimage : bool) : bool := (use_mt && skimage)%bool.
(** state: executor present.  Result of an fp: error or the list of lines in order *)
Definition x_step {A} (use_mt skimage : bool) (f : nat -> A) (n : nat) (sched : list nat) (o : xop) (ex : bool)
    : bool * option (py_err + list (option A)) :=
  match o with
  | XEnter => ((ex || xrf_threaded use_mt skimage)%bool, None)
  | XExit => (if xrf_threaded use_mt skimage then false else ex, None)
  | XFp => (ex, Some (if xrf_threaded use_mt skimage then (if ex then inr (executor_map f n sched) else inl AttributeError)
                      else inr (map Some (serial_map f n))))
  end.
