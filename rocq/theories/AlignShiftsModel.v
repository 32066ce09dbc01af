(** Model of src/corrct/alignment/shifts.py.  fit_sinusoid is an arbitrary function; plotting is not modelled.  Registration of lines
    (two-dimensional data, one detector) uses the model of fit_shifts_vu_xc; for fit_vu the pairwise registration is arbitrary. *)
From Coq Require Import Reals Lra Lia List ZArith Bool.
Import ListNotations.
From Verif Require Import Sums Rounding PyErr Arrays Reindex ParamTuningModel ProcPreModel Fourier FourierBox AlignFitModel.
Open Scope R_scope.

(** ** shifts.py:23-32 [_filter_shifts] on arrays with numpy broadcasting *)
(** numpy broadcasting of two shapes, written from the last axis *)
Fixpoint bshape_rev (s m : list nat) : option (list nat) :=
  match s, m with
  | [], m => Some m
  | s, [] => Some s
  | a :: s', b :: m' =>
      match bshape_rev s' m' with
      | None => None
      | Some r => if Nat.eqb a b then Some (a :: r) else if Nat.eqb a 1 then Some (b :: r) else if Nat.eqb b 1 then Some (a :: r) else None
      end
  end.
Definition bshape (s m : list nat) : option (list nat) := match bshape_rev (rev s) (rev m) with Some r => Some (rev r) | None => None end.
(** the element an index of the broadcast array refers to *)
Definition bindex (s l : list nat) : list nat :=
  map (fun p => if Nat.eqb (fst p) 1 then 0%nat else snd p) (combine s (skipn (length l - length s) l)).
(** np.abs(shifts) > max_shifts; a boolean index must have exactly the shape of the array it selects from (IndexError), and is only
    applied when some entry is selected *)
Definition filter_shifts (s m : list nat) (shifts maxs : arr) : py_err + arr :=
  match bshape s m with
  | None => inl ValueError
  | Some b =>
      let invalid l := if Rlt_dec (maxs (bindex m l)) (Rabs (shifts (bindex s l))) then true else false in
      if existsb invalid (idx b) then
        if list_eq_dec Nat.eq_dec b s then inr (fun l => if invalid l then 0 else shifts l) else inl IndexError
      else inr shifts
  end.

(** ** shifts.py:433-490 [find_shifts_vu] for one detector and two-dimensional data holding a single line: the shifts have shape
    (1,), the limits have shape (1, 1) (103-106) *)
Definition find_shift_line (fit : fitter) (use_rfft : bool) (eps : R) (dec n : nat) (maxs : R) (d p : vec) : py_err + R :=
  match fit_shifts_vu_xc fit false use_rfft NoNorm eps dec [] n (fun l => d (nth 0 l 0%nat)) (fun l => p (nth 0 l 0%nat)) with
  | inl e => inl e
  | inr xs => match filter_shifts [1%nat] [1; 1]%nat (fun _ => nth 0 xs 0) (fun _ => maxs) with inl e => inl e | inr y => inr (y [0%nat]) end
  end.
(** np.flip(x, axis=-1) *)
Definition flip (n : nat) (x : vec) : vec := fun i => x (n - 1 - i)%nat.
(** ** shifts.py:391-413 [fit_u_180] *)
Definition closest (angles : list R) (a : R) : nat := argmin (map (fun x => Rabs (x - a)) angles).
Definition min_angle (angles : list R) : R := nth (argmin angles) angles 0.
Definition fit_u_180 (fit : fitter) (eps : R) (dec n : nat) (maxs : R) (angles : list R) (data : nat -> vec) : py_err + R :=
  let a0 := min_angle angles in
  match find_shift_line fit true eps dec n maxs (data (closest angles a0)) (flip n (data (closest angles (a0 + PI)))) with
  | inl e => inl e
  | inr x => inr (- x / 2)
  end.
(** ** shifts.py:415-461 [fit_u_360]: pairs of projections, mean of the estimates *)
Definition num_half (angles : list R) : nat := length (filter (fun a => if Rlt_dec a (nth 0 angles 0 + PI) then true else false) angles).
Definition pairs_360 (angles : list R) : list (nat * nat) :=
  map (fun i => (i, closest angles (nth i angles 0 + PI))) (seq 0 (num_half angles)).
Fixpoint cors_360 (find : nat -> nat -> py_err + R) (l : list (nat * nat)) : py_err + list R :=
  match l with
  | [] => inr []
  | (i, j) :: r => match find i j with inl e => inl e | inr x => match cors_360 find r with inl e => inl e | inr xs => inr (- x / 2 :: xs) end end
  end.
Definition fit_u_360 (fit : fitter) (eps : R) (dec n : nat) (maxs : R) (angles : list R) (data : nat -> vec) : py_err + R :=
  match cors_360 (fun i j => find_shift_line fit true eps dec n maxs (data i) (flip n (data j))) (pairs_360 angles) with
  | inl e => inl e
  | inr cs => inr (np_around dec (rsum (length cs) (fun k => nth k cs 0) / INR (length cs)))
  end.

(** ** shifts.py:359-389 [fit_vu].  [ord] is np.argsort(angles); [find] the shift returned for a pair of images; [sinus] the
    fitted sinusoid; the filter of one row of shifts against the limit of that row (both one-dimensional) is element-wise. *)
Definition cum_shift (find : nat -> nat -> R) (ord : nat -> nat) (k : nat) : R := rsum k (fun i => find (ord i) (ord (S i))).
Definition filter1 (maxs x : R) : R := if Rlt_dec maxs (Rabs x) then 0 else x.
Definition sorted_u (dec : nat) (maxs : R) (find : nat -> nat -> R) (sinus : R -> R) (ang : vec) (ord : nat -> nat) (k : nat) : R :=
  np_around dec (filter1 maxs (cum_shift find ord k - sinus (ang (ord k)))).
Definition sorted_v (dec N : nat) (find : nat -> nat -> R) (ord : nat -> nat) (k : nat) : R :=
  np_around dec (cum_shift find ord k - rsum N (cum_shift find ord) / INR N).
(** 389: shifts_vu[:, list(angles_order)] *)
Definition fit_vu (dec N : nat) (maxs : R) (find_v find_u : nat -> nat -> R) (sinus : R -> R) (ang : vec) (ord : nat -> nat) (j : nat) : R * R :=
  (sorted_v dec N find_v ord (ord j), sorted_u dec maxs find_u sinus ang ord (ord j)).
(** ** shifts.py:310-357 [fit_vu_accum_drifts]: every image against image 0 (one reference) or against its own reference *)
Definition fit_vu_accum_drifts {A} (find : A -> A -> R) (imgs refs : list A) : py_err + list R :=
  match refs with
  | [r] => inr (map (fun x => find r x) imgs)
  | _ => if Nat.eqb (length refs) (length imgs) then inr (map (fun p => find (fst p) (snd p)) (combine refs imgs)) else inl ValueError
  end.
(** ** shifts.py:254-266, 303-306 [fit_u] with the centre of mass: [d w u] the data, already reduced to lines and clipped *)
Definition com (n : nat) (x : vec) : R := - rsum n (fun u => x u * centred n u) / rsum n x.
Definition fit_u (dec n : nat) (maxs : R) (d : nat -> vec) (sinus : R -> R) (bias : R) (ang : vec) : (nat -> R) * R :=
  (fun w => np_around dec (filter1 maxs (com n (d w) - sinus (ang w))), np_around dec bias).
