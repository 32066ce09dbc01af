(** Model of src/corrct/processing/misc.py. *)
From Coq Require Import Reals Lra Lia List ZArith Bool.
Import ListNotations.
From Verif Require Import Sums Arrays OperatorsModel Rounding PyErr.
Open Scope R_scope.

(** ** misc.py:181-252 [azimuthal_integration] *)
Inductive az_domain := AzDirect | AzFourier.
(** 216-222: np.linspace(-(d-1)/2, (d-1)/2, d)[k], or np.fft.fftfreq(d, 1/d)[k] (0, 1, ..., -2, -1) *)
Definition az_coord (dom : az_domain) (d k : nat) : R :=
  match dom with
  | AzDirect => INR k - (INR d - 1) / 2
  | AzFourier => if (k <=? (d - 1) / 2)%nat then INR k else INR k - INR d
  end.
Fixpoint az_sumsq (dom : az_domain) (ds l : list nat) : R :=
  match ds, l with d :: ds', k :: l' => az_coord dom d k ^ 2 + az_sumsq dom ds' l' | _, _ => 0 end.
(** 223 *)
Definition az_radius (dom : az_domain) (ds l : list nat) : R := sqrt (az_sumsq dom ds l).
(** 235-238: bins and weights of the two neighbouring radii *)
Definition az_lower (dom : az_domain) (ds l : list nat) : nat := Z.to_nat (rfloor (az_radius dom ds l)).
Definition az_w_l (dom : az_domain) (ds : list nat) (img : arr) (l : list nat) : R :=
  (INR (az_lower dom ds l) + 1 - az_radius dom ds l) * img l.
Definition az_w_u (dom : az_domain) (ds : list nat) (img : arr) (l : list nat) : R :=
  (az_radius dom ds l - INR (az_lower dom ds l)) * img l.
(** 241, 251-252: np.bincount(r_all, weights=w_all)[k], and its length max(r_all) + 1 *)
Definition az_profile (dom : az_domain) (ds : list nat) (img : arr) (k : nat) : R :=
  bsum ds (fun l => (if Nat.eqb (az_lower dom ds l) k then az_w_l dom ds img l else 0)
                  + (if Nat.eqb (S (az_lower dom ds l)) k then az_w_u dom ds img l else 0)).
Definition az_len (dom : az_domain) (ds : list nat) : nat :=
  S (list_max (map (fun k => S (az_lower dom ds (unflat ds k))) (seq 0 (size ds)))).
(** 226-232, 242-249: the listed axes are moved to the end and every remaining index gets its own profile. *)
Definition az_perm (ndims : nat) (axes : list nat) : list nat :=
  filter (fun i => negb (existsb (Nat.eqb i) axes)) (seq 0 ndims) ++ axes.
Definition azimuthal_integration (dom : az_domain) (s axes : list nat) (img : arr) (lead : list nat) (k : nat) : R :=
  az_profile dom (map (fun a => nth a s 0%nat) axes) (fun l => np_transpose (az_perm (length s) axes) img (lead ++ l)) k.

(** ** misc.py:255-342 [lines_intersection].  line_2 is a scalar or an array of the same length n. *)
Inductive line2 := L_scalar (c : R) | L_array (v : vec).
Definition line2_at (l : line2) (i : nat) : R := match l with L_scalar c => c | L_array v => v i end.
Inductive position := P_first | P_last | P_other.
(** 288-289: line_2 > line_1 *)
Definition above (line_1 : vec) (line_2 : line2) (i : nat) : bool := if Rlt_dec (line_1 i) (line2_at line_2 i) then true else false.
Definition crossing (line_1 : vec) (line_2 : line2) (i : nat) : bool := xorb (above line_1 line_2 i) (above line_1 line_2 (S i)).
(** 291-307: the window of candidate intervals; x_lims as non-negative integers.  [None] as outer value: no x_lims. *)
Definition window (n : nat) (x_lims : option (option nat * option nat)) : py_err + (nat * nat) :=
  match x_lims with
  | None => inr (0, n - 1)%nat
  | Some (None, None) => inl ValueError
  | Some (None, Some b) => inr (0, Nat.min b (n - 1))%nat
  | Some (Some a, None) => inr (a, n - 1)%nat
  | Some (Some a, Some b) => inr (a, Nat.min b (n - 1))%nat
  end.
Definition crossings (line_1 : vec) (line_2 : line2) (lo hi : nat) : list nat :=
  filter (crossing line_1 line_2) (seq lo (hi - lo)).
(** 320-342: intersection of the two segments over [i, i+1] *)
Definition segment_intersection (y1 y2 y3 y4 : R) (i : nat) : R * R :=
  let x1 := 0 in let x2 := 1 in let x3 := 0 in let x4 := 1 in
  let p_den := (x1 - x2) * (y3 - y4) - (y1 - y2) * (x3 - x4) in
  let p_x_num := (x1 * y2 - y1 * x2) * (x3 - x4) - (x1 - x2) * (x3 * y4 - y3 * x4) in
  let p_y_num := (x1 * y2 - y1 * x2) * (y3 - y4) - (y1 - y2) * (x3 * y4 - y3 * x4) in
  (p_x_num / p_den + INR i, p_y_num / p_den).
Definition lines_intersection (n : nat) (line_1 : vec) (line_2 : line2) (pos : position)
    (x_lims : option (option nat * option nat)) : py_err + option (R * R) :=
  match window n x_lims with
  | inl e => inl e
  | inr (lo, hi) =>
      let cs := crossings line_1 line_2 lo hi in
      match cs with
      | [] => inr None
      | c :: _ =>
          match pos with
          | P_other => inl ValueError
          | _ => let i := match pos with P_first => c | _ => last cs c end in
                 inr (Some (segment_intersection (line_1 i) (line_1 (S i)) (line2_at line_2 i) (line2_at line_2 (S i)) i))
          end
      end
  end.

(** ** misc.py:20-130 [circular_mask] for a volume of shape ds restricted to the ball axes (the others do not enter),
    Euclidean ball norm.  The value of one voxel is [None] when it is NaN (division by a zero cut-off size). *)
Inductive taper_target := T_edge | T_diagonal | T_value (v : R).
(** 68-76: coordinate of sample k of an axis of super-sampled length d; [o] the origin *)
Definition mask_coord (ss d k : nat) (o : R) : R := (INR k - (INR d - 1) / 2) / INR ss + o.
Fixpoint mask_dist2 (ss : nat) (ds : list nat) (os : list R) (l : list nat) : R :=
  match ds, l with
  | d :: ds', k :: l' => mask_coord ss (d * ss) k (hd 0 os) ^ 2 + mask_dist2 ss ds' (tl os) l'
  | _, _ => 0
  end.
Definition mask_dist (ss : nat) (ds : list nat) (os : list R) (l : list nat) : R := sqrt (mask_dist2 ss ds os l).
(** np.min(vol_shape[coords_ball]) *)
Definition min_side (ds : list nat) : R := INR (fold_right Nat.min (hd 0%nat ds) ds).
(** 84: the super sampling cancels *)
Definition max_radius (ds : list nat) (radius_offset : R) : R := min_side ds / 2 + radius_offset.
(** 92-93: without taper *)
Definition mask_sharp (ds : list nat) (radius_offset dist : R) : R := if Rle_dec dist (max_radius ds radius_offset) then 1 else 0.
(** 95-116 *)
Definition cut_off_radius (ds : list nat) (radius_offset : R) (t : taper_target) : R :=
  match t with
  | T_edge => min_side ds / 2
  | T_diagonal => min_side ds / sqrt 2
  | T_value v => min_side ds / 2 + Rmax v radius_offset
  end.
Definition mask_cos (ds : list nat) (radius_offset : R) (t : taper_target) (dist : R) : option R :=
  let cut_off_size := cut_off_radius ds radius_offset t - max_radius ds radius_offset in
  if Req_EM_T cut_off_size 0 then None   (* 0/0 or x/0 inside the cosine: NaN, and NaN * False is NaN *)
  else Some ((cos (Rmax (dist - max_radius ds radius_offset) 0 / cut_off_size * PI) / 2 + 1 / 2)
             * (if Rlt_dec dist (cut_off_radius ds radius_offset t) then 1 else 0)).
(** 122-125: mean over the super-sampled voxels *)
Fixpoint ss_index (ss : nat) (l d : list nat) : list nat :=
  match l, d with k :: l', e :: d' => (k * ss + e)%nat :: ss_index ss l' d' | _, _ => [] end.
Definition mask_sharp_vol (ss : nat) (ds : list nat) (os : list R) (radius_offset : R) (l : list nat) : R :=
  bsum (map (fun _ => ss) ds) (fun d => mask_sharp ds radius_offset (mask_dist ss ds os (ss_index ss l d)))
  / INR (size (map (fun _ => ss) ds)).

(** ** misc.py:345-459 [norm_cross_corr] without template matching (400-432): cross-correlation of one image pair.
    scipy.signal.fftconvolve with the flipped second image is the full cross-correlation: the entry for lag p
    (componentwise index minus (n - 1)) is sum_l img1(l) * img2(l - p), with zero outside. *)
Fixpoint read_shift (s : list nat) (x : arr) (p : list Z) (l : list nat) : R :=
  match s, p, l with
  | [], _, _ => x []
  | n :: s', z :: p', k :: l' =>
      let q := (Z.of_nat k - z)%Z in
      if ((0 <=? q) && (q <? Z.of_nat n))%Z then read_shift s' (fun t => x (Z.to_nat q :: t)) p' l' else 0
  | _, _, _ => 0
  end.
Definition cross_corr (s : list nat) (img1 img2 : arr) (p : list Z) : R := bsum s (fun l => img1 l * read_shift s img2 p l).
(** misc.py:400-432 for a stack of m image pairs of shape s (the stack axis is not among [axes]; m = 1 is a single
    pair).  430: both norms are those of the whole stack.  407-414: with mode_full = False the centre of the full result
    is kept.  432: np.fft.ifftshift acts on EVERY axis, the stack axis included: output position k reads (k + n//2) mod n. *)
Definition ifftshift_idx (n k : nat) : nat := ((k + n / 2) mod n)%nat.
Definition cc_lag (full : bool) (n k : nat) : Z :=
  if full then (Z.of_nat (ifftshift_idx (2 * n - 1) k) - (Z.of_nat n - 1))%Z
  else (Z.of_nat ((n - 1) / 2 + ifftshift_idx n k) - (Z.of_nat n - 1))%Z.
Definition cc_len (full : bool) (n : nat) : nat := if full then (2 * n - 1)%nat else n.
Fixpoint cc_lags (full : bool) (s k : list nat) : list Z :=
  match s, k with n :: s', i :: k' => cc_lag full n i :: cc_lags full s' k' | _, _ => [] end.
Definition norm_cross_corr (full : bool) (m : nat) (s : list nat) (img1 img2 : nat -> arr) (i : nat) (k : list nat) : R :=
  cross_corr s (img1 (ifftshift_idx m i)) (img2 (ifftshift_idx m i)) (cc_lags full s k)
  / (sqrt (rsum m (fun j => adot s (img1 j) (img1 j))) * sqrt (rsum m (fun j => adot s (img2 j) (img2 j)))).
(** 434-439: the azimuthal profile of the correlation, divided by that of ones *)
Definition ncc_profile (full : bool) (m : nat) (s : list nat) (img1 img2 : nat -> arr) (i k : nat) : R :=
  az_profile AzFourier (map (cc_len full) s) (norm_cross_corr full m s img1 img2 i) k
  / az_profile AzFourier (map (cc_len full) s) (fun _ => 1) k.
(** 380-392 [local_sum], the shapes only: np.pad(x, padding) with a 1-D array of ndim entries.  numpy broadcasts
    pad_width to (ndim, 2): one entry is used for both sides, two entries are (before, after) of EVERY axis, more
    entries do not broadcast. *)
Definition pad_width_of (padding : list nat) : py_err + (nat * nat) :=
  match padding with [w] => inr (w, w) | [b; a] => inr (b, a) | _ => inl ValueError end.
(** the length of one axis after 384-391: pad, then y[n : -1] - y[0 : -n - 1] *)
Definition local_sum_len (n b a : nat) : nat := (b + n + a - 1 - n)%nat.
Definition local_sum_shape (s : list nat) : py_err + list nat :=
  match pad_width_of s with inl e => inl e | inr (b, a) => inr (map (fun n => local_sum_len n b a) s) end.
(** 416-423: cc - local_sums needs equal shapes (no axis of length 1 here, so no broadcasting) *)
Definition full_shape (s : list nat) : list nat := map (fun n => (2 * n - 1)%nat) s.
Definition t_match_check (s : list nat) : py_err + unit :=
  match local_sum_shape s with
  | inl e => inl e
  | inr sh => if list_eq_dec Nat.eq_dec sh (full_shape s) then inr tt else inl ValueError
  end.
