(** Model of SART with a tolerance (solvers.py:476-509, 591-631): the residual it computes, records and compares.
    Data have shape (V, W, U): V leading rows (1 for a single slice), W angles, U pixels; pixel (v, u) of an angle is number
    v * U + u of that angle's vector, as in SolversModel's [sart_op]. *)
From Verif Require Import Sums DataTermsModel SolversModel.
From Verif Require Export PyErr.

(** index into an axis of the given size under numpy broadcasting *)
Definition bc (size k : nat) : nat := if Nat.eqb size 1 then 0%nat else k.
(** solvers.py:502-509 [compute_residual]: the projections are stacked along the LAST axis, so they have shape (V, U, W), while
    b and b_mask have shape (V, W, U); "fp - b" broadcasts or raises *)
Definition sart_shapes_ok (U W : nat) : bool := (Nat.eqb U W || Nat.eqb U 1 || Nat.eqb W 1)%bool.
Definition sart_residual (U W : nat) (op : sart_op) (b : nat -> vec) (b_mask : option (nat -> vec)) (x : vec) (v i j : nat) : R :=
  let fp := sA op x (bc W j) (v * U + bc U i)%nat in
  let r := fp - b (bc W i) (v * U + bc U j)%nat in
  match b_mask with Some m => r * m (bc W i) (v * U + bc U j)%nat | None => r end.
(** np.linalg.norm of all the elements (595, 625) *)
Definition sart_residual_norm (V U W : nat) (op : sart_op) (b : nat -> vec) (b_mask : option (nat -> vec)) (x : vec) : R :=
  let K := Nat.max U W in
  sqrt (rsum V (fun v => rsum K (fun i => rsum K (fun j => (sart_residual U W op b b_mask x v i j) ^ 2)))).

(** solvers.py:591-631: the loop with its bookkeeping.  A shape error is raised by the first residual (594), before the loop. *)
Definition sart_body (V U W : nat) (op : sart_op) (b : nat -> vec) (b_mask : option (nat -> vec)) (tol : option R)
    (sweep : vec -> vec) (ii : nat) (st : vec * info) : (vec * info) * bool :=
  let '(x, f) := st in
  let f := incr_iterations f in
  let x := sweep x in
  match tol with
  | None => ((x, f), false)
  | Some t => let r := sart_residual_norm V U W op b b_mask x in
              let f := set_residual f ii r in
              ((x, f), below_tol tol r)
  end.
Definition sart_tol_call (n V U W : nat) (op : sart_op) (b : nat -> vec) (b_mask : option (nat -> vec)) (relax : R) (tol : option R)
    (x0 : option vec) (lo up x_mask : option vec) (rows : list nat) (iterations : nat) : py_err + (vec * info) :=
  let sweep := sart_sweep op b b_mask (sart_sigma (V * U) W op x_mask) (sart_tau n W op relax b_mask) lo up x_mask rows in
  let x := pick_x0 x0 vzeros in
  let f := new_info iterations tol in
  match tol with
  | None => inr (for_range iterations 0 (sart_body V U W op b b_mask tol sweep) (x, f))
  | Some _ =>
      if sart_shapes_ok U W
      then inr (for_range iterations 0 (sart_body V U W op b b_mask tol sweep) (x, set_residual0 f (sart_residual_norm V U W op b b_mask x)))
      else inl ValueError
  end.
