(** Model of the mask collections of src/corrct/struct_illum.py: the constructor's attributes (160-197), the shape properties (199-241),
    [get_mask] (273-295), [get_qr_decomposition]'s guard (320-321) and [bin_masks] (331-349).  A mask array is a shape and a function of the
    multi-index (module Arrays); real arithmetic.  [cp.deepcopy] is the identity on values: no array of the result is an array of the
    original, and every assignment is to an attribute of the copy.  Not modelled: the plots of [inspect_masks] and a floating binning
    (skimage's rescale). *)
From Coq Require Import Reals Lra Lia List ZArith Bool String.
From Verif Require Import Sums PyErr Arrays ProcPreModel StructIllumModel.
Import ListNotations.
Open Scope R_scope.

Record collection := { enc_shape : list nat; enc : arr; dec_shape : list nat; dec : arr; dims : nat; kind : string; support : list nat }.

(** 160-197: the checks, then the attributes; without decoding masks they are the encoding masks (190), without a support it is the field
    of view (195-197) *)
Definition make (s : list nat) (m : arr) (d : option (list nat * arr)) (nd : nat) (ty : string) (sup : option (list nat)) : py_err + collection :=
  match mask_collection_check nd s (option_map fst d) with
  | inl e => inl e
  | inr _ => inr {| enc_shape := s; enc := m;
                    dec_shape := match d with Some (t, _) => t | None => s end;
                    dec := match d with Some (_, y) => y | None => m end;
                    dims := nd; kind := ty;
                    support := match sup with Some l => l | None => shape_tail nd s end |}
  end.
(** 199-241 *)
Definition shape_fov (c : collection) : list nat := shape_tail (dims c) (enc_shape c).
Definition shape_shifts (c : collection) : list nat := shape_lead (dims c) (enc_shape c).
Definition buckets_of (c : collection) : nat := num_buckets (dims c) (enc_shape c).
Definition pixels_of (c : collection) : nat := num_pixels (dims c) (enc_shape c).

(** numpy: one integer of a tuple index, on an axis of length n *)
Definition wrap (n : nat) (i : Z) : py_err + nat :=
  if ((- Z.of_nat n <=? i)%Z && (i <? Z.of_nat n)%Z)%bool then inr (Z.to_nat (if (i <? 0)%Z then i + Z.of_nat n else i)%Z) else inl IndexError.
(** a tuple of integers: at most as many as the axes *)
Fixpoint wrap_all (s : list nat) (is : list Z) : py_err + list nat :=
  match is, s with
  | [], _ => inr []
  | _ :: _, [] => inl IndexError
  | i :: is', n :: s' =>
      match wrap n i, wrap_all s' is' with inr a, inr l => inr (a :: l) | inl e, _ => inl e | _, inl e => inl e end
  end.
(** 273-295: [flag] is the outcome of the test "mask_encoding is True" (identity with the singleton, 290) *)
Definition get_mask (c : collection) (is : list Z) (flag : bool) : py_err + (list nat * arr) :=
  let s := if flag then enc_shape c else dec_shape c in
  let m := if flag then enc c else dec c in
  match wrap_all s is with
  | inl e => inl e
  | inr k => inr (skipn (List.length is) s, fun l => m (k ++ l))
  end.

(** pre.py:217-219 with axes (-2, -1): the binning on the last two axes, one elsewhere *)
Definition last_two (n b : nat) : list nat := repeat 1%nat (n - 2) ++ [b; b].
(** 331-349: both sets of masks are binned on their last two axes, whatever mask_dims; every other attribute is kept *)
Definition bin_masks (b : nat) (c : collection) : collection :=
  let e := bin_imgs false (enc_shape c) (last_two (List.length (enc_shape c)) b) (enc c) in
  let d := bin_imgs false (dec_shape c) (last_two (List.length (dec_shape c)) b) (dec c) in
  {| enc_shape := fst e; enc := snd e; dec_shape := fst d; dec := snd d; dims := dims c; kind := kind c; support := support c |}.
(** 320-321: the guard of the decomposition, np.any(masks_dec != masks_enc) for arrays of one shape, [differ] its outcome *)
Definition masks_differ (c : collection) : Prop := exists l, inb (enc_shape c) l /\ dec c l <> enc c l.
