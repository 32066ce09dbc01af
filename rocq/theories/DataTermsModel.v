(** Model of src/corrct/data_terms.py.  Element-wise numpy operations become functions of the
    pixel index; a scalar sigma/weight/background is the constant function (numpy broadcast).
    Numbers are exact reals; dtypes are not modelled. *)
From Verif Require Import Sums.

(** numpy helpers: np.sign, np.fmax on numbers (no NaN). *)
Definition np_sign (x : R) : R := if Rlt_dec 0 x then 1 else if Rlt_dec x 0 then -1 else 0.
Definition np_fmax (x y : R) : R := Rmax x y.

(** data_terms.py:25-28 [_soft_threshold] (the in-place result). *)
Definition soft_threshold1 (v thr : R) : R := np_sign v * np_fmax (Rabs v - thr) 0.
Definition soft_threshold (values thr : vec) : vec := fun i => soft_threshold1 (values i) (thr i).

(** The concrete classes (data_terms.py:283, 334, 398, 467, 535, 598, 628, 677), with their
    constructor parameters.  For l12 and for Huber with l2_axis the group structure is given by
    [grp i] = list of the pixels that share the index of pixel i on all axes but [l2_axis].
    DataFidelity_ln (nuclear norm, needs an SVD) is not modelled. *)
Inductive kind : Type :=
| K_l2 | K_wl2 (weights : vec) | K_l2b (local_error : vec)
| K_Huber (local_error : vec) (l2_axis : option (nat -> list nat))
| K_l1 | K_l12 (grp : nat -> list nat) | K_l1b (local_error : vec) | K_KL.

(** Attributes of an instance: data_terms.py:42-54 plus those of the subclasses. *)
Record dterm : Type := mkDT {
  dt_kind : kind;
  dt_background : option vec;
  dt_data : option vec;
  dt_sigma : vec;
  dt_sigma_data : option vec;
  dt_sigma1 : vec;              (* l2, wl2, l2b *)
  dt_sigma_sqrt_error : vec;    (* l2b *)
  dt_one_sigma_error : vec      (* Huber *)
}.

(** data_terms.py:42-54, 290-292, 342-345, 407-412, 474-480 (constructors). *)
Definition new_dterm (k : kind) (background : option vec) : dterm :=
  {| dt_kind := k; dt_background := background; dt_data := None; dt_sigma := fun _ => 1;
     dt_sigma_data := None; dt_sigma1 := fun _ => 1;
     dt_sigma_sqrt_error := match k with K_l2b e => fun i => 1 * sqrt (e i) | _ => fun _ => 0 end;
     dt_one_sigma_error := fun _ => 1 |}.

(** data_terms.py:178-182 and, for KL, 682-686 [_compute_sigma_data]. *)
Definition compute_sigma_data (k : kind) (data : option vec) (sigma : vec) : option vec :=
  match data with
  | None => None
  | Some b => match k with
              | K_KL => Some (fun i => 4 * sigma i * np_fmax (b i) 0)
              | _ => Some (fun i => sigma i * b i)
              end
  end.

(** (self.weights == 0).astype(dtype), data_terms.py:353. *)
Definition invalid_weight (w : R) : R := if Req_EM_T w 0 then 1 else 0.

(** sigma1: data_terms.py:296 (l2), 353-354 (wl2), 418 (l2b; overrides the l2 value). *)
Definition compute_sigma1 (k : kind) (sigma : vec) : vec := fun i =>
  match k with
  | K_l2 => 1 / (1 + sigma i)
  | K_wl2 w => 1 / (1 + sigma i / (w i + invalid_weight (w i))) * (1 - invalid_weight (w i))
  | K_l2b e => 1 / (1 + sigma i * e i)
  | _ => 1
  end.

(** data_terms.py:120-134 [assign_data] and its overrides 294-296, 347-354, 414-418, 482-484,
    640-642.  The dtype cast of the background is not modelled. *)
Definition assign_data (t : dterm) (data : option vec) (sigma : vec) : dterm :=
  {| dt_kind := dt_kind t; dt_background := dt_background t; dt_data := data; dt_sigma := sigma;
     dt_sigma_data := compute_sigma_data (dt_kind t) data sigma;
     dt_sigma1 := compute_sigma1 (dt_kind t) sigma;
     dt_sigma_sqrt_error :=
       match dt_kind t with K_l2b e => fun i => sigma i * sqrt (e i) | _ => dt_sigma_sqrt_error t end;
     dt_one_sigma_error :=
       match dt_kind t with K_Huber e _ => fun i => 1 / (1 + sigma i * e i) | _ => dt_one_sigma_error t end |}.

(** proj_primal + self.background when a background was given. *)
Definition add_background (t : dterm) (proj : vec) : vec :=
  match dt_background t with None => proj | Some bg => fun i => proj i + bg i end.

Definition apply_mask (mask : option vec) (r : vec) : vec :=
  match mask with None => r | Some m => fun i => r i * m i end.

(** data_terms.py:217-230 [update_dual]. *)
Definition update_dual (t : dterm) (dual proj : vec) : vec :=
  fun i => dual i + add_background t proj i * dt_sigma t i.

(** [dual -= self.sigma_data] when data was assigned. *)
Definition sub_sigma_data (t : dterm) (dual : vec) : vec :=
  match dt_data t, dt_sigma_data t with Some _, Some sd => fun i => dual i - sd i | _, _ => dual end.

(** np.linalg.norm(dual, ord=2, axis=l2_axis, keepdims=True), read at pixel i. *)
Definition group_norm (grp : nat -> list nat) (dual : vec) : vec :=
  fun i => sqrt (lsum (grp i) (fun j => dual j ^ 2)).

(** [_get_inner_norm]: data_terms.py:543-544 (l1, l1b), 607-608 (l12). *)
Definition inner_norm (k : kind) (dual : vec) : vec :=
  match k with K_l12 grp => group_norm grp dual | _ => fun i => Rabs (dual i) end.

(** [_apply_threshold]: data_terms.py:546-547 (no-op), 644-645 (l1b). *)
Definition hook_threshold (k : kind) (dual : vec) : vec :=
  match k with K_l1b e => soft_threshold dual e | _ => dual end.

(** [apply_proximal_dual]: data_terms.py:301-304 (l2, wl2), 425-429 (l2b), 491-501 (Huber),
    549-555 (l1, l12, l1b; [weight] is their optional argument, default 1), 688-692 (KL). *)
Definition proximal_dual (t : dterm) (weight : vec) (dual : vec) : vec :=
  match dt_kind t with
  | K_l2 | K_wl2 _ => fun i => sub_sigma_data t dual i * dt_sigma1 t i
  | K_l2b _ => fun i => soft_threshold (sub_sigma_data t dual) (dt_sigma_sqrt_error t) i * dt_sigma1 t i
  | K_Huber _ axis =>
      let d := fun i => sub_sigma_data t dual i * dt_one_sigma_error t i in
      match axis with
      | None => fun i => d i / np_fmax 1 (Rabs (d i))
      | Some grp => fun i => d i / np_fmax 1 (group_norm grp d i)
      end
  | K_l1 | K_l12 _ | K_l1b _ =>
      let d := hook_threshold (dt_kind t) (sub_sigma_data t dual) in
      fun i => d i / np_fmax (inner_norm (dt_kind t) d i) (weight i) * weight i
  | K_KL => fun i =>
      match dt_sigma_data t with
      | Some sd => (1 + dual i - sqrt ((dual i - 1) ^ 2 + sd i)) / 2
      | None => (1 + dual i - sqrt ((dual i - 1) ^ 2)) / 2
      end
  end.

(** np.finfo(np.float32).eps, data_terms.py:19. *)
Definition eps32 : R := / 2 ^ 23.

Definition opt_sub (data : option vec) (x : vec) : vec :=
  match data with None => x | Some b => fun i => x i - b i end.
Definition opt_add (data : option vec) (x : vec) : vec :=
  match data with None => x | Some b => fun i => x i + b i end.

(** [apply_proximal_primal]: data_terms.py:306-324 (l2), 374-395 (wl2), 431-456 (l2b),
    557-578 (l1), 647-674 (l1b), 694-718 (KL); [None] = NotImplementedError raised by Huber (503-521)
    and l12 (610-625). *)
Definition proximal_primal (t : dterm) (tau : vec) (x : vec) : option vec :=
  match dt_kind t with
  | K_l2 => Some (fun i =>
      (match dt_data t with Some b => x i + tau i * b i | None => x i end) / (1 + tau i))
  | K_wl2 w => Some (fun i =>
      (match dt_data t with Some b => x i + tau i * w i * b i | None => x i end) / (1 + tau i * w i))
  | K_l2b e =>
      let v := opt_sub (dt_data t) x in
      let v := soft_threshold v (fun i => sqrt (e i) * tau i / (1 + tau i * e i)) in
      Some (opt_add (dt_data t) (fun i => v i / (1 + tau i * e i)))
  | K_l1 => Some (opt_add (dt_data t) (soft_threshold (opt_sub (dt_data t) x) tau))
  | K_l1b e =>
      let v := soft_threshold (opt_sub (dt_data t) x) e in
      Some (opt_add (dt_data t) (fun i => v i * (tau i / (1 + tau i))))
  | K_KL => Some (fun i =>
      match dt_data t with
      | Some b => let b' := np_fmax (b i) 0 in
                  ((x i - tau i) + sqrt ((x i - tau i) ^ 2 + 4 * tau i * b')) / 2
      | None => np_fmax (x i - tau i) eps32
      end)
  | K_Huber _ _ | K_l12 _ => None
  end.

(** [compute_residual]: data_terms.py:136-161 (base), 356-365 (wl2), 420-423 (l2b), 720-739 (KL,
    default use_proximal=True). *)
Definition compute_residual (t : dterm) (proj : vec) (mask : option vec) : vec :=
  match dt_kind t with
  | K_KL =>
      let p := fun i => np_fmax (add_background t proj i) eps32 in
      let r := proximal_dual t (fun _ => 1) (fun i => np_fmax (p i) eps32 * dt_sigma t i) in
      fun i => - apply_mask mask r i
  | K_wl2 w =>
      let p := add_background t proj in
      apply_mask mask (match dt_data t with
                       | Some b => fun i => (b i - p i) * w i
                       | None => fun i => p i * w i end)
  | k =>
      let p := add_background t proj in
      let r := apply_mask mask (match dt_data t with
                                | Some b => fun i => b i - p i
                                | None => p end) in
      match k with K_l2b _ => soft_threshold r (dt_sigma_sqrt_error t) | _ => r end
  end.

(** KL residual with use_proximal=False, data_terms.py:732-739. *)
Definition compute_residual_KL_plain (t : dterm) (proj : vec) (mask : option vec) : vec :=
  let p := fun i => np_fmax (add_background t proj i) eps32 in
  let r := match dt_data t with
           | Some b => fun i => 1 - np_fmax (b i) 0 / p i
           | None => fun _ => 1 end in
  fun i => - apply_mask mask r i.

(** np.linalg.norm(., ord=1 / 2) of a 1-D array of n pixels.  Where the code does not flatten first, data of more
    dimensions behave differently: see DataTermsNd. *)
Definition norm_l1 (n : nat) (x : vec) : R := rsum n (fun i => Rabs (x i)).
Definition norm_l2 (n : nat) (x : vec) : R := sqrt (norm2 n x).

(** data_terms.py:184-205 [compute_data_dual_dot]. *)
Definition data_dual_dot (n : nat) (t : dterm) (dual : vec) (mask : option vec) : R :=
  match dt_data t with Some b => dot n (apply_mask mask dual) b | None => 0 end.

(** [compute_primal_dual_gap]: data_terms.py:326-331 (l2, wl2), 458-464 (l2b), 523-532 (Huber, scalar
    local_error given as its constant value), 586-595 (l1, l1b), 744-757 (KL).  l12 omitted. *)
Definition primal_dual_gap (n : nat) (t : dterm) (proj dual : vec) (mask : option vec) : R :=
  match dt_kind t with
  | K_l2 | K_wl2 _ =>
      (norm_l2 n (compute_residual t proj mask) + norm_l2 n dual) / 2 + data_dual_dot n t dual None
  | K_l2b e =>
      (norm_l2 n (compute_residual t proj mask) + norm_l2 n (fun i => sqrt (e i) * dual i)) / 2
      + data_dual_dot n t dual None
  | K_Huber e _ =>
      norm_l2 n (compute_residual t (add_background t proj) mask) + data_dual_dot n t dual None
      + e 0%nat * norm_l2 n dual
  | K_KL =>
      let p := add_background t proj in
      let r := match dt_data t with
               | Some b => fun i => let bn := np_fmax (b i) eps32 in let pn := np_fmax (p i) eps32 in
                                    pn - bn * (1 - ln bn + ln pn)
               | None => p end in
      norm_l1 n (apply_mask mask r)
  | k =>
      let r := hook_threshold k (compute_residual t (add_background t proj) mask) in
      norm_l1 n (fun i => Rabs (r i)) + data_dual_dot n t dual None
  end.

(** Huber [compute_residual_norm], data_terms.py:486-489, on a 1-D list.  [l2_points] is a boolean
    array (boolean indexing = filter); [l1_points = 1 - l2_points] is an *integer* array, so that
    [dual[l1_points]] is integer indexing: it takes element 0 or 1 of [dual] once per pixel. *)
Definition huber_l2_points (dual : list R) (err : R) : list bool :=
  map (fun d => if Rle_dec d err then true else false) dual.
Definition bool_index (dual : list R) (sel : list bool) : list R :=
  map fst (filter snd (combine dual sel)).
Definition int_index (dual : list R) (idx : list nat) : list R := map (fun k => nth k dual 0) idx.
Definition huber_residual_norm (dual : list R) (err : R) : R :=
  let l2_points := huber_l2_points dual err in
  let l1_points := map (fun b : bool => if b then 0%nat else 1%nat) l2_points in
  (sqrt (lsum (bool_index dual l2_points) (fun d => d ^ 2))) ^ 2
  + lsum (int_index dual l1_points) Rabs.

(** wl2 residual norm, data_terms.py:367-372; l2 298-299; l1 580-584; KL 741-742. *)
Definition residual_norm (n : nat) (t : dterm) (dual : vec) : R :=
  match dt_kind t with
  | K_wl2 w => rsum n (fun i => if Req_EM_T (w i) 0 then 0 else (dual i / sqrt (w i)) ^ 2)
  | K_l2 | K_l2b _ => (norm_l2 n dual) ^ 2
  | K_KL => norm_l1 n dual
  | K_Huber e _ => huber_residual_norm (map dual (seq 0 n)) (e 0%nat)   (* scalar local_error *)
  | k => norm_l1 n (inner_norm k (hook_threshold k dual))
  end.

(** data_terms.py:56-78 [_slice_attr]/[__getitem__] for an integer-list index: every array
    attribute of more than one element is indexed, the others are kept.  Here all attributes are
    arrays over the pixels. *)
Definition slice_vec (ind : list nat) (v : vec) : vec := fun i => v (nth i ind 0%nat).
Definition slice_kind (ind : list nat) (k : kind) : kind :=
  match k with
  | K_wl2 w => K_wl2 (slice_vec ind w)
  | K_l2b e => K_l2b (slice_vec ind e)
  | K_l1b e => K_l1b (slice_vec ind e)
  | K_Huber e a => K_Huber (slice_vec ind e) a
  | k => k
  end.
Definition getitem (ind : list nat) (t : dterm) : dterm :=
  {| dt_kind := slice_kind ind (dt_kind t);
     dt_background := option_map (slice_vec ind) (dt_background t);
     dt_data := option_map (slice_vec ind) (dt_data t);
     dt_sigma := slice_vec ind (dt_sigma t);
     dt_sigma_data := option_map (slice_vec ind) (dt_sigma_data t);
     dt_sigma1 := slice_vec ind (dt_sigma1 t);
     dt_sigma_sqrt_error := slice_vec ind (dt_sigma_sqrt_error t);
     dt_one_sigma_error := slice_vec ind (dt_one_sigma_error t) |}.
