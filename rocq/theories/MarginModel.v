(** * pre.py:234-304 [background_from_margin] as a whole: the forms of the margin argument, the checks, the shape and
    the storage type of what is returned.  The two formulas (mean of the margins, polynomial fit) are those of
    ProcPreModel.v (head_sum, tail_sum, fit_x, fit_y, effective order).  Not modelled: the plot (285-292), negative
    margins, images of more than three axes, and a margin that sums to zero (the division at 299 then yields nan). *)
From Coq Require Import Reals Lra Lia List ZArith Bool.
From Verif Require Import Sums Arrays OperatorsModel Rounding PyErr ProcPreModel ConeBeamModel.
Import ListNotations.
Local Open Scope R_scope.

(** the image, [w, u] or [v, w, u], or a line [u] (rejected at 261, where shape[-2] does not exist) *)
Inductive image :=
| Line (nu : nat) (f : nat -> R)
| Flat (nw nu : nat) (f : nat -> nat -> R)
| Stack (nv nw nu : nat) (f : nat -> nat -> nat -> R).
Definition shape_of (x : image) : list nat :=
  match x with Line u _ => [u] | Flat w u _ => [w; u] | Stack v w u _ => [v; w; u] end.
(** the value at (v, w, u); a 2-D image does not depend on v *)
Definition at3 (x : image) (v w u : nat) : R :=
  match x with Line _ f => f u | Flat _ _ f => f w u | Stack _ _ _ f => f v w u end.
Definition cols (x : image) : nat := match x with Line u _ => u | Flat _ u _ => u | Stack _ _ u _ => u end.

(** 262: np.array(margin, dtype=int, ndmin=1); [Nested] stands for any margin of more than one axis *)
Inductive margin_arg := Scalar (m : nat) | Seq (l : list nat) | Nested.
(** 263-266: one value is used on both sides; more than one axis is refused *)
Definition margin_list (a : margin_arg) : py_err + list nat :=
  match a with
  | Scalar m => inr [m; m]
  | Seq [m] => inr [m; m]
  | Seq l => inr l
  | Nested => inl NotImplementedError
  end.
Definition total (l : list nat) : nat := fold_right Nat.add 0%nat l.
(** 269-271 *)
Definition order_used (l : list nat) (poly_order : nat) : nat := if existsb (Nat.eqb 0) l then 0%nat else poly_order.

(** 298-304: order zero.  The sum of the two margins over the sum of all the entries of [l]; for a stack the mean over v
    with a kept axis of length one; repeated along u. *)
Definition side_mean (n m0 m1 tot : nat) (x : vec) : R := (head_sum n m0 x + tail_sum n m1 x) / INR tot.
Definition const_background (x : image) (m0 m1 tot : nat) : py_err + image :=
  match x with
  | Line _ _ => inl IndexError
  | Flat w u f => inr (Flat w u (fun j _ => side_mean u m0 m1 tot (f j)))
  | Stack v w u f => inr (Stack 1 w u (fun _ j _ => rsum v (fun i => side_mean u m0 m1 tot (f i j)) / INR v))
  end.
(** 274-296: the order is positive.  [fit deg m xs ys] are the coefficients of numpy's Polynomial.fit (contract:
    polyfit_contract); the values are stored in an array of the type of the data (280, 283), which truncates them towards
    zero when the data are integers ([ints]); for a stack repeated along v (295). *)
Definition poly_background (ints : bool) (fit : nat -> nat -> (nat -> R) -> (nat -> R) -> list R) (x : image) (m0 m1 deg : nat) : py_err + image :=
  let val (nv : option nat) (u : nat) (d : nat -> nat -> vec) (j k : nat) :=
    store ints (peval (fit deg (m0 + m1)%nat (fun i => INR (fit_x u m0 m1 i)) (fit_y nv u m0 m1 d j)) (INR k)) in
  match x with
  | Line _ _ => inl IndexError
  | Flat w u f => inr (Flat w u (val None u (fun _ => f)))
  | Stack v w u f => inr (Stack v w u (fun _ => val (Some v) u f))
  end.

(** 260-304 *)
Definition background_from_margin (ints : bool) (fit : nat -> nat -> (nat -> R) -> (nat -> R) -> list R) (x : image) (a : margin_arg) (poly_order : nat) : py_err + image :=
  match x with
  | Line _ _ => inl IndexError
  | _ =>
    match margin_list a with
    | inl e => inl e
    | inr l =>
      if (cols x <? total l)%nat then inl ValueError
      else match l with
           | m0 :: m1 :: _ =>
             match order_used l poly_order with
             | O => const_background x m0 m1 (total l)
             | S d => poly_background ints fit x m0 m1 (S d)
             end
           | _ => inl IndexError   (* 274, 298: margin[0] of an empty margin *)
           end
    end
  end.

(** numpy's broadcasting of two shapes, aligned at the right (for `data - background`) *)
Definition bdim (a b : nat) : option nat := if Nat.eqb a b then Some a else if Nat.eqb a 1 then Some b else if Nat.eqb b 1 then Some a else None.
Fixpoint bshape_rev (s t : list nat) : option (list nat) :=
  match s, t with
  | [], t => Some t
  | s, [] => Some s
  | a :: s', b :: t' => match bdim a b, bshape_rev s' t' with Some c, Some r => Some (c :: r) | _, _ => None end
  end.
Definition broadcast_shape (s t : list nat) : option (list nat) := option_map (@rev nat) (bshape_rev (rev s) (rev t)).
