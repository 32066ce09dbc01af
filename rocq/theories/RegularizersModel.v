(** Model of src/corrct/regularizers.py: the base class and the identity (l1) regulariser.
    The gradient / Laplacian / limit classes are in RegularizersMore.v. *)
From Verif Require Import Sums DataTermsModel SolversModel.

(** isinstance(norm, dt.DataFidelity_l1): l12 and l1b are subclasses (data_terms.py:535, 598, 628). *)
Definition is_l1_kind (k : kind) : bool :=
  match k with K_l1 | K_l12 _ | K_l1b _ => true | _ => false end.

(** regularizers.py:134-148 [update_dual]. *)
Definition base_update_dual (op : vec -> vec) (sigma : vec) (dual primal : vec) : vec :=
  fun i => dual i + sigma i * op primal i.

(** regularizers.py:150-162 [apply_proximal_dual]: the weight is passed to l1-type norms only. *)
Definition base_prox_dual (norm : dterm) (weight dual : vec) : vec :=
  if is_l1_kind (dt_kind norm) then proximal_dual norm weight dual else proximal_dual norm vones dual.

(** regularizers.py:188-212 [compute_update_primal]. *)
Definition base_update_primal (opT : vec -> vec) (upd_mask : option vec) (norm : dterm) (weight dual : vec) : vec :=
  let upd := mul_mask upd_mask (opT dual) in
  if is_l1_kind (dt_kind norm) then upd else fun j => upd j * weight j.

(** A regulariser after initialize_sigma_tau.  [weight] may be scalar (a constant vector) or an array; the
    norm object received assign_data(None, sigma).  apply_proximal_primal raises NotImplementedError in
    the base class (regularizers.py:164-186); the solvers that call it (FISTA) are only modelled with
    regularisers that override it, so that field is a placeholder here. *)
Definition base_reg (op opT : vec -> vec) (sigma tau weight : vec) (upd_mask : option vec) (k : kind) : reg :=
  let norm := assign_data (new_dterm k None) None sigma in
  mkReg (mul_mask upd_mask tau) vzeros (base_update_dual op sigma) (base_prox_dual norm weight)
        (base_update_primal opT upd_mask norm weight) (fun x _ => x).

(** regularizers.py:531-585 [Regularizer_l1]: identity operator, sigma = 1, tau = 1 (times the mask);
    apply_proximal_primal thresholds inside the mask and blends. *)
Definition l1_prox_primal (norm : dterm) (weight : vec) (upd_mask : option vec) (primal tau : vec) : vec :=
  let thr := vmul tau weight in
  match upd_mask with
  | Some mask =>
      let masked := match proximal_primal norm thr (vmul primal mask) with Some v => v | None => vmul primal mask end in
      fun i => primal i * (1 - mask i) + masked i
  | None => match proximal_primal norm thr primal with Some v => v | None => primal end
  end.
Definition Regularizer_l1 (weight : vec) (upd_mask : option vec) : reg :=
  let norm := assign_data (new_dterm K_l1 None) None vones in
  mkReg (mul_mask upd_mask vones) vzeros (fun dual primal => vadd dual primal) (base_prox_dual norm weight)
        (base_update_primal (fun d => d) upd_mask norm weight) (l1_prox_primal norm weight upd_mask).
