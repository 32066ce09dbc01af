(** Specification vocabulary for the solvers, independent of the model of the code. *)
From Verif Require Import Sums.

(** The volume respects the box limits where the mask is one and vanishes where it is zero. *)
Definition feasible (lo up x_mask : option vec) (n : nat) (x : vec) : Prop :=
  forall j, (j < n)%nat ->
    match x_mask with
    | Some m => m j = 0 -> x j = 0
    | None => True end /\
    (match x_mask with Some m => m j = 1 | None => True end ->
     (match lo with Some l => l j <= x j | None => True end) /\
     (match up with Some u => x j <= u j | None => True end)).


(** Matrix-vector products for an m x n matrix M (data x volume). *)
Definition mat := nat -> nat -> R.
Definition mv (n : nat) (M : mat) (x : vec) : vec := fun i => rsum n (fun j => M i j * x j).
Definition mtv (m : nat) (M : mat) (y : vec) : vec := fun j => rsum m (fun i => M i j * y i).
Definition mat_abs (M : mat) : mat := fun i j => Rabs (M i j).

(** Weighted squared residual  sum_i w_i (b - Mx)_i^2. *)
Definition wres (m n : nat) (M : mat) (w b x : vec) : R := rsum m (fun i => w i * (b i - mv n M x i) ^ 2).

(** An optional mask / background read at a pixel (absent = 1 / 0). *)
Definition mask_at (o : option vec) (i : nat) : R := match o with Some m => m i | None => 1 end.
Definition back_at (o : option vec) (i : nat) : R := match o with Some m => m i | None => 0 end.
Definition binary_mask (o : option vec) : Prop := forall i, mask_at o i = 0 \/ mask_at o i = 1.

(** [x] minimises [F] over the set [C]. *)
Definition minimises {A} (C : A -> Prop) (F : A -> R) (x : A) : Prop := C x /\ forall y, C y -> F x <= F y.

(** The smallest entry is only replaced (by 1) when that does not shorten it: true as soon as the largest
    entry is at most 1e5. *)
Definition scaling_safe (k : nat) (raw : vec) : Prop :=
  0 < rmax k raw /\ forall i, (i < k)%nat -> raw i / rmax k raw < / 100000 -> raw i <= 1.
