(** Model of the construction of ProjectorUncorrected (src/corrct/projectors.py:109-228), of its point-spread functions
    (238-255) and of its context manager (229-236).  The native toolbox and the backends: BackendsModel.v, SkimageModel.v. *)
From Coq Require Import Reals Lra Lia List ZArith Bool String.
Import ListNotations.
From Verif Require Import Sums PyErr Arrays Rounding GeometryModel BackendsModel SkimageModel.
Open Scope R_scope.

(** * the backend argument: a name, or a backend object of one of the library's classes *)
Inductive bkind := BkAstra | BkDirect | BkSkimage.
(** ProjectorBackendDirectASTRA is a subclass of ProjectorBackendASTRA *)
Definition is_astra (k : bkind) : bool := match k with BkSkimage => false | _ => true end.
Inductive backend_arg := BName (s : string) | BObj (k : bkind).
(** what is installed: [has_astra and has_cuda] (21), and the direct interface (_projector_backends.py) *)
Record env := mkE { astra_ok : bool; astra_direct : bool }.
(** 121 the default of the argument *)
Definition default_backend (e : env) : backend_arg := BName (if astra_ok e then "astra" else "skimage").
(** 157-163 *)
Definition fallback (e : env) (b : backend_arg) : py_err + backend_arg :=
  if astra_ok e then inr b
  else match b with
       | BName s => inr (if String.eqb s "astra" then BName "skimage" else b)
       | BObj k => if is_astra k then inl ValueError else inr b
       end.
(** 175-187 *)
Definition choose (e : env) (b : backend_arg) : py_err + bkind :=
  match b with
  | BName s => if String.eqb s "astra" then inr (if astra_direct e then BkDirect else BkAstra)
               else if String.eqb s "skimage" then inr BkSkimage else inl ValueError
  | BObj k => inr k
  end.
(** the projection shapes after initialize_geometry: (all angles, single angle).  _projector_backends.py:150-156, 433-438,
    458-463, 725-741; exceptions raised by ASTRA itself or by mismatched shifts (GeometryModel) are not modelled here. *)
Definition single_shape (k : bkind) (g : vol_geom) (pg : option prj_geom) : list nat :=
  let e := vol_eff g in
  let base := firstn (List.length e - 2) e ++ [1%nat; last e 0%nat] in
  match k, pg with
  | BkSkimage, _ | _, None => base
  | BkAstra, Some p =>
    match g_shape p with
    | None => base
    | Some d => if is_3D g then firstn (List.length d - 1) d ++ [1%nat; last d 0%nat] else [1%nat; last d 0%nat]
    end
  | BkDirect, Some p => match g_shape p with None => base | Some d => firstn (List.length d - 1) d ++ [1%nat; last d 0%nat] end
  end.
Definition all_shape (k : bkind) (g : vol_geom) (num_angles : nat) (pg : option prj_geom) : list nat :=
  match k, pg with
  | BkSkimage, _ | _, None => base_prj_shape g num_angles
  | BkAstra, Some p => fst (astra_setup g num_angles p)
  | BkDirect, Some p => fst (direct_setup g num_angles p)
  end.
Definition init_backend (k : bkind) (g : vol_geom) (angles : list R) (shift : option (list R)) (pg : option prj_geom) : py_err + unit :=
  match k with
  | BkSkimage => match sk_init g angles shift pg with inl e => inl e | inr _ => inr tt end
  | _ => inr tt
  end.

(** * 238-255 [_set_psf] *)
Record kernel := mkK { kn_data : list nat; kn_shape : list nat; kn_val : arr }.   (* shape of the data it is made for; its own shape; values *)
(** numpy.array(kernel, ndmin=rank of the data) (operators.py:454): axes of length one are put in front *)
Definition ndmin (n : nat) (s : list nat) (x : arr) : list nat * arr :=
  let p := (n - List.length s)%nat in (repeat 1%nat p ++ s, fun q => x (skipn p q)).
Definition conv_kernel (data s : list nat) (x : arr) : kernel :=
  let '(s', x') := ndmin (List.length data) s x in mkK data s' x'.
(** psf[..., None, :]: an axis of length one before the last; a number has no last axis *)
Definition add_angle_axis (s : list nat) (x : arr) : py_err + (list nat * arr) :=
  match s with
  | [] => inl IndexError
  | _ => let k := (List.length s - 1)%nat in
         inr (firstn k s ++ [1%nat] ++ skipn k s, fun q => x (firstn k q ++ skipn (S k) q))
  end.
Definition set_psf (vol_rank : nat) (vu vwu : list nat) (psf : option (list nat * arr)) : py_err + option (kernel * kernel) :=
  match psf with
  | None => inr None
  | Some (s, x) =>
    let s1 := squeeze s in let x1 := sq_arr s x in
    if Nat.leb vol_rank (List.length s1) then inl ValueError
    else
      let data := firstn (List.length vu - 2) vu ++ [last vu 0%nat] in
      match add_angle_axis s1 x1 with
      | inl e => inl e
      | inr (s2, x2) => inr (Some (conv_kernel data s1 x1, conv_kernel vwu s2 x2))
      end
  end.

(** * 109-228 [__init__], in the order of the code *)
Record projector := mkP { p_kind : bkind; p_vol_shape : list nat; p_prj_shape : list nat; p_psf : option (kernel * kernel) }.
Definition construct (e : env) (g : vol_geom) (angles : list R) (shift : option (list R)) (pg : option prj_geom)
    (psf : option (list nat * arr)) (b : backend_arg) : py_err + projector :=
  match fallback e b with
  | inl x => inl x
  | inr b =>
    if negb (existsb (Nat.eqb (List.length (vg_xyz g))) [2; 3]%nat) then inl ValueError
    else if negb (is_square g) then inl ValueError
    else match choose e b with
    | inl x => inl x
    | inr k =>
      if negb (negb (given pg) || is_astra k) then inl ValueError
      else match init_backend k g angles shift pg with
      | inl x => inl x
      | inr _ =>
        let vwu := all_shape k g (List.length angles) pg in
        match set_psf (List.length (vg_xyz g)) (single_shape k g pg) vwu psf with
        | inl x => inl x
        | inr ks => inr (mkP k (shape_zxy g) vwu ks)
        end
      end
    end
  end.

(** * 229-236 the context manager: __enter__ is make_ready, __exit__ is dispose; exceptions of the block go on *)
Inductive call := Call (direct data_ok : bool) (i : option Z).
Inductive prog := PSkip | PCall (c : call) (rest : prog) | PWith (block rest : prog).
Section With.
Variable fail : nat -> bool.
Definition do_call (c : call) : M unit :=
  match c with Call direct ok i => if direct then project_direct fail ok i else project fail ok i end.
Fixpoint exec (p : prog) : M unit :=
  match p with
  | PSkip => ret tt
  | PCall c r => bind (do_call c) (fun _ => exec r)
  | PWith b r => bind (bind (make_ready fail) (fun _ => try_finally (exec b) dispose)) (fun _ => exec r)
  end.
(** straight-line blocks *)
Fixpoint calls (cs : list call) : prog := match cs with [] => PSkip | c :: r => PCall c (calls r) end.
End With.
