(** Model of src/corrct/param_tuning.py: time formatting, performance meters, test masks, hyper-parameter grids,
    parabolic fit of the loss, parallel evaluation, cross-validation loss.  Real arithmetic instead of floating
    point; plots, printing and progress bars are not modelled. *)
From Coq Require Import Permutation.
From Verif Require Import Sums Rounding Arrays DataTermsModel SolversModel.
Import ListNotations.

(** * param_tuning.py:35-52 [format_time]: the four numbers, and their zero-padded decimal digits (02d / 03d).
    int() truncates; all arguments are non-negative for non-negative durations. *)
Record hms := mkHMS { h_hours : Z; h_minutes : Z; h_seconds : Z; h_millis : Z }.
Definition format_time (seconds : R) : hms :=
  let hours := rfloordiv seconds 3600 in
  let minutes := rfloordiv (rmod seconds 3600) 60 in
  let seconds_remainder := rmod seconds 60 in
  let milliseconds := rfloor ((seconds_remainder - IZR (rfloor seconds_remainder)) * 1000) in
  mkHMS hours minutes (rfloor seconds_remainder) milliseconds.

(** * param_tuning.py:56-104 [PerfMeterTask], [PerfMeterBatch] *)
Record pm_task := mkTask { t_init : R; t_exec : R; t_total : R }.
Record pm_batch := mkBatch { b_init : R; b_proc : R; b_total : R; b_tasks : list pm_task }.
Definition new_batch : pm_batch := mkBatch 0 0 0 [].
Definition batch_append (b : pm_batch) (t : pm_task) : pm_batch :=
  mkBatch (b_init b) (b_proc b + t_total t) (b_total b + t_total t) (b_tasks b ++ [t]).
Definition batch_add (a b : pm_batch) : pm_batch :=
  mkBatch (b_init a + b_init b) (b_proc a + b_proc b) (b_total a + b_total b) (b_tasks a ++ b_tasks b).
(** 106-140 [__str__]: the averages printed, None when there is no task *)
Definition batch_avg (f : pm_task -> R) (b : pm_batch) : option R :=
  match b_tasks b with [] => None | ts => Some (lsum ts f / INR (length ts)) end.

(** * param_tuning.py:143-168 [create_random_test_mask]; [perm] = np.random.permutation(size).
    Fancy assignment mask[idx] = 1 on the C-ordered array. *)
Definition set_ones (idx : list (list nat)) (mask : arr) : arr :=
  fold_left (fun m i l => if list_eq_dec Nat.eq_dec l i then 1 else m l) idx mask.
Definition num_test_pixels (sz : nat) (fraction : R) : Z := rceil (INR sz * fraction).
Definition create_random_test_mask (shape : list nat) (fraction : R) (perm : list nat) : arr :=
  set_ones (map (unflat shape) (firstn (Z.to_nat (num_test_pixels (size shape) fraction)) perm)) (fun _ => 0).

(** * param_tuning.py:171-212 [create_k_fold_test_masks]; [perm] = rng.permutation(size).
    l[i::k] has ceil((len - i) / k) entries. *)
Definition py_stride {A} (d : A) (l : list A) (i k : nat) : list A :=
  map (fun j => nth (i + j * k) l d) (seq 0 ((length l - i + k - 1) / k)).
Definition create_k_fold_test_masks (shape : list nat) (k_folds : nat) (perm : list nat) : list arr :=
  map (fun i => set_ones (map (unflat shape) (py_stride 0%nat perm i k_folds)) (fun _ => 0)) (seq 0 k_folds).

(** * param_tuning.py:215-244 [get_lambda_range] *)
Definition arange (n : Z) : list nat := seq 0 (Z.to_nat n).
Definition get_lambda_range (start stop : R) (num_per_order : nat) (aligned_order : bool) : list R :=
  let step_size := pow10 (1 / INR num_per_order) in
  if aligned_order then
    let order_start := pow10 (IZR (rfloor (log10 start))) in
    let order_end := pow10 (IZR (rceil (log10 stop))) in
    let num_steps := rceil (INR num_per_order * log10 (order_end / order_start) - 1 / 1000) in
    let tmp_steps := map (fun k => order_start * step_size ^ k) (arange (num_steps + 1)) in
    filter (fun v => if Rle_dec start v then if Rle_dec (v * (1 - 1 / 1000)) stop then true else false else false) tmp_steps
  else
    let num_steps := rceil (INR num_per_order * log10 (stop / start) - 1 / 1000) in
    map (fun k => start * step_size ^ k) (arange (num_steps + 1)).

(** * param_tuning.py:247-367 [fit_func_min] *)
Inductive fit_error := FitValueError.
(** np.argmin: the first position of the smallest value *)
Fixpoint argmin_from (l : list R) (pos best : nat) (bv : R) : nat :=
  match l with
  | [] => best
  | v :: l' => if Rlt_dec v bv then argmin_from l' (S pos) pos v else argmin_from l' (S pos) best bv
  end.
Definition argmin (l : list R) : nat := match l with [] => 0%nat | v :: l' => argmin_from l' 1 0 v end.
(** Polynomial.fit(x, y, deg=2) on three points, converted to the standard basis: interpolation (library contract) *)
Definition quad_coeffs (x0 x1 x2 y0 y1 y2 : R) : R * R * R :=
  let d01 := (y1 - y0) / (x1 - x0) in
  let d12 := (y2 - y1) / (x2 - x1) in
  let a := (d12 - d01) / (x2 - x0) in
  let b := d01 - a * (x0 + x1) in
  let c := y0 - b * x0 - a * x0 ^ 2 in (c, b, a).
Inductive fscale := ScaleLog | ScaleLinear.
Definition to_fit (s : fscale) (x : R) : R := match s with ScaleLog => log10 x | ScaleLinear => x end.
Definition from_fit (s : fscale) (x : R) : R := match s with ScaleLog => pow10 x | ScaleLinear => x end.
Definition fit_first (n min_pos : nat) : nat :=
  if Nat.eqb min_pos 0 then 0%nat else if Nat.eqb min_pos (n - 1) then (n - 3)%nat else (min_pos - 1)%nat.
Definition fit_func_min (scale : fscale) (hp f : list R) : fit_error + (R * R) :=
  let n := length hp in
  if (Nat.ltb n 3 || Nat.ltb (length f) 3 || negb (Nat.eqb n (length f)))%bool then inl FitValueError
  else
    let min_pos := argmin f in
    let i := fit_first (length f) min_pos in
    let x k := to_fit scale (nth (i + k) hp 0) in
    let y k := nth (i + k) f 0 in
    let '(c, b, a) := quad_coeffs (x 0%nat) (x 1%nat) (x 2%nat) (y 0%nat) (y 1%nat) (y 2%nat) in
    if Rle_dec a 0 then inr (nth min_pos hp 0, nth min_pos f 0)
    else
      let vertex_pos := - b / (2 * a) in
      let vertex_val := c + vertex_pos * b / 2 in
      let v := from_fit scale vertex_pos in
      if Rlt_dec v (nth 0 hp 0) then inr (nth min_pos hp 0, nth min_pos f 0)
      else if Rlt_dec (nth (n - 1) hp 0) v then inr (nth min_pos hp 0, nth min_pos f 0)
      else inr (v, vertex_val).

(** * param_tuning.py:370-415 [_compute_reconstruction], 418-505 [_parallel_compute], 508-567 [_serial_compute].  A task is a function of its
    hyper-parameter that returns a result or raises; [order] is the order in which as_completed yields the futures
    (future i = hyper-parameter i). *)
Section Evaluate.
  Context {H T E : Type} (task : H -> E + T) (dflt : T).
  Fixpoint collect (hp : list H) (order : list nat) (recs : list T) : E + list T :=
    match order with
    | [] => inr recs
    | i :: rest => match option_map task (nth_error hp i) with
                   | Some (inr r) => collect hp rest (set_nth i r recs)
                   | Some (inl e) => inl e
                   | None => collect hp rest recs          (* not a future *)
                   end
    end.
  Definition parallel_compute (hp : list H) (order : list nat) : E + list T := collect hp order (repeat dflt (length hp)).
  Fixpoint serial_loop (hp : list H) (ii : nat) (recs : list T) : E + list T :=
    match hp with
    | [] => inr recs
    | h :: rest => match task h with inr r => serial_loop rest (S ii) (set_nth ii r recs) | inl e => inl e end
    end.
  Definition serial_compute (hp : list H) : E + list T := serial_loop hp 0 (repeat dflt (length hp)).
End Evaluate.

(** 670-687: the setter of the initialisation function accepts exactly one parameter; 370-415: the function is called
    with the hyper-parameter and the keyword arguments.  [n_params] parameters, [kwds] keyword arguments. *)
Definition set_task_init_ok (n_params : nat) : bool := Nat.eqb n_params 1.
Definition call_init_ok (n_params n_kwds : nat) : bool := Nat.eqb n_params (1 + n_kwds).

(** * param_tuning.py:1152-1246, line 1233 [CrossValidation.compute_loss_values]: residuals_cv_rel[-1] of the solver's info
    (solvers.py:199-201: residuals_cv / residual0_cv; dividing by the initial +inf gives 0). *)
Definition cv_loss (f : info) : R :=
  match i_residual0_cv f with Some r0 => i_residuals_cv f (i_max_iterations f - 1)%nat / r0 | None => 0 end.
