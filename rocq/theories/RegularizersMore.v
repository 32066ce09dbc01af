(** Model of the remaining parts of src/corrct/regularizers.py: gradient / Laplacian step sizes, limit
    constraints, object histories with shared default norms, VTV, wavelet step sizes. *)
From Verif Require Import Sums Arrays DataTermsModel SolversModel RegularizersModel OperatorsModel.
From Verif Require Export PyErr.

(** * regularizers.py:218-283 [Regularizer_Grad.initialize_sigma_tau]: sigma = 0.5, tau = 2 * ndims (times the
    weight for norms that are not l1-like, times the mask). *)
Definition grad_sigma : R := 1 / 2.
Definition grad_tau (ndims : nat) : R := 2 * INR ndims.
(** regularizers.py:432-456 [Regularizer_lap.initialize_sigma_tau]. *)
Definition lap_sigma : R := 1 / 4.
Definition lap_tau (ndims : nat) : R := 4 * INR ndims.

(** * Limit constraints, regularizers.py:1640-1781; sigma = 1, identity operator, norm l2 with data = limit. *)
Definition limit_norm (limit : vec) : dterm := assign_data (new_dterm K_l2 None) (Some limit) vones.
Definition limit_update_dual (limit dual primal : vec) : vec := fun i => dual i + (primal i - limit i).
Definition clip_positive (dual : vec) : vec := fun i => if Rlt_dec 0 (dual i) then 0 else dual i.
Definition clip_negative (dual : vec) : vec := fun i => if Rlt_dec (dual i) 0 then 0 else dual i.
Definition low_prox_dual (norm : dterm) (dual : vec) : vec := proximal_dual norm vones (clip_positive dual).
Definition up_prox_dual (norm : dterm) (dual : vec) : vec := proximal_dual norm vones (clip_negative dual).
Definition low_prox_primal (limit primal tau : vec) : vec := fun i => Rmax (primal i) (limit i).
Definition up_prox_primal (limit primal tau : vec) : vec := fun i => Rmin (primal i) (limit i).
Definition Constraint_LowerLimit (limit : vec) (upd_mask : option vec) : reg :=
  mkReg (mul_mask upd_mask vones) vzeros (limit_update_dual limit) (low_prox_dual (limit_norm limit))
        (base_update_primal (fun d => d) upd_mask (limit_norm limit) vones) (low_prox_primal limit).
Definition Constraint_UpperLimit (limit : vec) (upd_mask : option vec) : reg :=
  mkReg (mul_mask upd_mask vones) vzeros (limit_update_dual limit) (up_prox_dual (limit_norm limit))
        (base_update_primal (fun d => d) upd_mask (limit_norm limit) vones) (up_prox_primal limit).

(** * Object histories.  A class whose constructor has a norm instance as default argument (regularizers.py:246,
    309, 325, 341, 398, 414, 430, 540, 612, 884, 1091, 1165, 1598, 1663, 1729) shares that one instance between all
    its objects that do not pass a norm.  [TV nd] / [smooth nd] stand for the 1-, 2- and 3-D classes. *)
Inductive rclass := RC_Grad | RC_TV (nd : nat) | RC_smooth (nd : nat) | RC_l1 | RC_swl | RC_dwl | RC_med | RC_fft
  | RC_vSVD | RC_low | RC_up.
Inductive loc := L_default (c : rclass) | L_own (n : nat).
Definition rclass_eqb (a b : rclass) : bool :=
  match a, b with
  | RC_Grad, RC_Grad | RC_l1, RC_l1 | RC_swl, RC_swl | RC_dwl, RC_dwl | RC_med, RC_med | RC_fft, RC_fft
  | RC_vSVD, RC_vSVD | RC_low, RC_low | RC_up, RC_up => true
  | RC_TV n, RC_TV m | RC_smooth n, RC_smooth m => Nat.eqb n m
  | _, _ => false
  end.
Definition loc_eqb (a b : loc) : bool :=
  match a, b with
  | L_default c, L_default d => rclass_eqb c d
  | L_own n, L_own m => Nat.eqb n m
  | _, _ => false
  end.
(** the kinds of the default instances ([g]: the grouping along axis 0 of DataFidelity_l12()) *)
Definition default_kind (g : nat -> list nat) (c : rclass) : kind :=
  match c with
  | RC_Grad | RC_TV _ | RC_fft => K_l12 g
  | RC_smooth _ | RC_low | RC_up => K_l2
  | RC_l1 | RC_swl | RC_dwl | RC_med | RC_vSVD => K_l1
  end.
Record robj := mkObj { o_class : rclass; o_loc : loc; o_limit : vec; o_weight : vec; o_init : bool }.
Record rstate := mkRS { s_heap : loc -> dterm; s_objs : list robj }.
Definition rs_init (g : nat -> list nat) : rstate :=
  mkRS (fun l => match l with L_default c => new_dterm (default_kind g c) None | L_own _ => new_dterm K_l1 None end) [].
Definition heap_set (h : loc -> dterm) (l : loc) (t : dterm) : loc -> dterm := fun l' => if loc_eqb l l' then t else h l'.
(** constructor call (norm = None: the default argument; Some: a norm object of the caller's own), and
    initialize_sigma_tau (sigma: only used by the wavelet and Fourier classes, whose sigma depends on the shape). *)
Inductive revent := E_new (c : rclass) (norm : option kind) (limit weight : vec) | E_init (r : nat) (sigma : vec).
Definition init_sigma (c : rclass) (sigma : vec) : vec :=
  match c with
  | RC_Grad | RC_TV _ | RC_smooth _ => fun _ => 1 / 2
  | RC_swl | RC_dwl | RC_fft => sigma
  | RC_l1 | RC_med | RC_vSVD | RC_low | RC_up => vones
  end.
Definition is_limit (c : rclass) : bool := match c with RC_low | RC_up => true | _ => false end.
Definition init_data (o : robj) : option vec := if is_limit (o_class o) then Some (o_limit o) else None.
Definition rstep (s : rstate) (e : revent) : rstate :=
  match e with
  | E_new c norm limit weight =>
      let l := match norm with None => L_default c | Some _ => L_own (length (s_objs s)) end in
      let h := match norm with None => s_heap s | Some k => heap_set (s_heap s) l (new_dterm k None) end in
      mkRS h (s_objs s ++ [mkObj c l limit weight false])
  | E_init r sigma =>
      match nth_error (s_objs s) r with
      | None => s
      | Some o => mkRS (heap_set (s_heap s) (o_loc o) (assign_data (s_heap s (o_loc o)) (init_data o) (init_sigma (o_class o) sigma)))
                       (set_nth r (mkObj (o_class o) (o_loc o) (o_limit o) (o_weight o) true) (s_objs s))
      end
  end.
Definition rrun (s : rstate) (h : list revent) : rstate := fold_left rstep h s.
(** what apply_proximal_dual of object r returns (the l12 regrouping of the wavelet classes is not modelled here) *)
Definition obs_prox_dual (s : rstate) (r : nat) (dual : vec) : option vec :=
  option_map (fun o => let norm := s_heap s (o_loc o) in
    match o_class o with
    | RC_low => low_prox_dual norm dual
    | RC_up => up_prox_dual norm dual
    | _ => base_prox_dual norm (o_weight o) dual
    end) (nth_error (s_objs s) r).

(** * VTV, regularizers.py:1324-1370, at one pixel: [d k c] = derivative k of channel c, D derivatives, C channels. *)
Inductive pexp := P1 | P2 | Pinf.
Definition vtv_grad_norm (der : pexp) (D : nat) (d : nat -> nat -> R) : nat -> nat -> R := fun k c =>
  match der with
  | P1 => Rabs (d k c)
  | P2 => sqrt (rsum D (fun k' => d k' c ^ 2))
  | Pinf => rsum D (fun k' => Rabs (d k' c))
  end.
Definition vtv_dual_norm (der chan : pexp) (D C : nat) (d : nat -> nat -> R) : nat -> nat -> R := fun k c =>
  match chan with
  | P1 => vtv_grad_norm der D d k c
  | P2 => sqrt (rsum C (fun c' => vtv_grad_norm der D d k c' ^ 2))
  | Pinf => rsum C (fun c' => Rabs (vtv_grad_norm der D d k c'))
  end.
Definition vtv_prox (der chan : pexp) (D C : nat) (w : R) (d : nat -> nat -> R) : nat -> nat -> R := fun k c =>
  d k c / Rmax (vtv_dual_norm der chan D C d k c) w * w.
(** with a reference (1336-1337, 1365-1366): the reference is channel C, dropped at the end *)
Definition vtv_prox_ref (der chan : pexp) (D C : nat) (w : R) (ref : nat -> R) (d : nat -> nat -> R) : nat -> nat -> R :=
  vtv_prox der chan D (S C) w (fun k c => if Nat.eqb c C then ref k else d k c).

(** * regularizers.py:900-945 [Regularizer_dwl.initialize_sigma_tau]: per-sub-band sigma and the scalar tau.
    [lo], [hi]: the l1 norms of the decomposition filters, [rlo], [rhi] of the reconstruction filters.
    The multipliers in order: approximation first, then level by level (coarsest first), label by label. *)
Definition count_true (l : list bool) : nat := length (filter (fun b => b) l).
Definition filter_mult (lo hi : R) (lab : list bool) : R := lo ^ (length lab - count_true lab) * hi ^ count_true lab.
Definition func_mult (level ndims : nat) (lo hi : R) : list R :=
  (lo ^ ndims) ^ level ::
  flat_map (fun i => map (fun lab => filter_mult lo hi lab * (lo ^ ndims) ^ (level - 1 - i)) (labels ndims)) (seq 0 level).
Definition dwl_sigma_approx (level ndims : nat) (lo hi : R) : R := nth 0 (func_mult level ndims lo hi) 0.
(** 925-935: the sub-band number [count] starts at 0, i.e. at the approximation's multiplier *)
Definition dwl_sigma_detail (level ndims : nat) (lo hi : R) (count : nat) : R := nth count (func_mult level ndims lo hi) 0.
Definition dwl_tau (level ndims : nat) (rlo rhi : R) : R :=
  let n := (2 ^ ndims - 1)%nat in
  match func_mult level ndims rlo rhi with
  | [] => 0
  | m0 :: ms => (INR n + 1) / m0 + lsum ms (fun m => INR n / m)
  end.
(** 660-672: the stationary version uses 1 / dec_func_mult, at the right position *)
Definition swl_sigma (level ndims : nat) (lo hi : R) (row : nat) : R := 1 / nth row (func_mult level ndims lo hi) 0.

(** * regularizers.py:694-702 [Regularizer_swl.apply_proximal_dual] for l12 norms: dual[1:] reshaped to
    [-1, level], the norm taken along axis 0: detail rows i and j share a threshold iff *)
Definition swl_l12_same_group (level i j : nat) : Prop := (i mod level = j mod level)%nat.
(** the level of detail row i (0-based among the detail rows, operators.py:752-755) *)
Definition detail_level (num_axes i : nat) : nat := (i / (2 ^ num_axes - 1))%nat.

(** * regularizers.py:745-763 [Regularizer_swl.apply_proximal_primal] after the checks: self.op(primal) returns one
    ndarray; the loop calls coeffs_list[lvl].keys() for every row index lvl >= 1. *)
Definition swl_prox_primal (normalized : bool) (rows : nat) : py_err + unit :=
  if negb normalized then inl NotImplementedError
  else if Nat.leb rows 1 then inr tt        (* empty loop *)
  else inl AttributeError.

(** * regularizers.py:1571-1572 [Regularizer_vl1wl.apply_proximal_dual] with a reference: number of channels kept
    out of C + 1, for a dual with [rows] rows; the assignment dual[:] = dual_tmp[:] needs C (or 1) channels. *)
Definition vl1wl_kept (rows C : nat) : nat := Nat.min (S C) (rows - 1).
Definition vl1wl_ok (rows C : nat) : bool := Nat.eqb (vl1wl_kept rows C) C || Nat.eqb (vl1wl_kept rows C) 1.
