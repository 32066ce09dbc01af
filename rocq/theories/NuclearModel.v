(** data_terms.py:760-811 (nuclear-norm data term) and the multi-channel regularisers of regularizers.py:1323-1583. *)
From Verif Require Import Sums PyErr Arrays DataTermsModel SolversModel OperatorsModel RegularizersMore.

(** * DataFidelity_ln *)
(** 778-811 [apply_proximal_dual], default branch (use_fallback is False and never set): one SVD per position of the other axes, the spectral norm's
    proximal on the singular values, and back.  [spec]: the spectral norm object (default DataFidelity_l1()); its call has weight 1.
    [r], [c]: the two axes, already normalised; [bwd] = np.argsort of the forward order. *)
Definition svd_fun := nat -> nat -> (nat -> nat -> R) -> factors.
Definition ln_core (svd : svd_fun) (spec : dterm) (s : list nat) (r c : nat) (bwd : list nat) (dual : arr) : arr :=
  let f := svd_op_direct svd false s [r] [c] dual in
  svd_op_adjoint s [r] [c] bwd (fun b => let '(U, sv, Vt) := f b in (U, proximal_dual spec vones sv, Vt)).

(** np.concatenate((x, y), axis=r): the shapes must agree except along r (781-784) *)
Fixpoint same_except (r : nat) (s t : list nat) : bool :=
  match s, t, r with
  | [], [], _ => true
  | _ :: s', _ :: t', O => if list_eq_dec Nat.eq_dec s' t' then true else false
  | a :: s', b :: t', S r' => (Nat.eqb a b && same_except r' s' t')%bool
  | _, _, _ => false
  end.
Definition concat_shape (r : nat) (s t : list nat) : list nat := set_nth r (nth r s 0 + nth r t 0)%nat s.
Definition concat_axis (r : nat) (s : list nat) (x y : arr) : arr := fun l =>
  let i := nth r l 0%nat in if Nat.ltb i (nth r s 0%nat) then x l else y (set_nth r (i - nth r s 0)%nat l).
(** "dual[:] = tmp" where tmp has the shape of dual except for [k] entries along axis r: equal, or one entry broadcast, or ValueError *)
Definition assign_axis (r : nat) (s : list nat) (k : nat) (tmp : arr) : py_err + arr :=
  if Nat.eqb k (nth r s 0%nat) then inr tmp
  else if Nat.eqb k 1 then inr (fun l => tmp (set_nth r 0%nat l))
  else inl ValueError.

(** The term: its axes as given (Python, possibly negative), the spectral norm and, after assign_data with data, sigma_data with its shape
    (assign_data, 116-134, sets data and sigma_data together, so the two tests on data and on sigma_data agree). *)
Record ln_term := mkLN { ln_axes : Z * Z; ln_spec : dterm; ln_sigma_data : option (list nat * arr) }.
Definition default_ln : ln_term := mkLN (1, -1)%Z (new_dterm K_l1 None) None.
(** axes % ndim (operators.py:1013-1014) *)
Definition wrap_axis (nd : nat) (a : Z) : nat := Z.to_nat (a mod Z.of_nat nd).
(** [argsort]: np.argsort.  np.transpose refuses a repeated axis (ValueError); np.concatenate refuses an axis outside the array. *)
Definition ln_prox (svd : svd_fun) (argsort : list nat -> list nat) (t : ln_term) (s : list nat) (dual : arr) : py_err + arr :=
  let nd := length s in
  let r := wrap_axis nd (fst (ln_axes t)) in let c := wrap_axis nd (snd (ln_axes t)) in
  match ln_sigma_data t with
  | None =>
      if Nat.eqb r c then inl ValueError
      else inr (ln_core svd (ln_spec t) s r c (argsort (fwd_transpose nd [r] [c])) dual)
  | Some (sd, d) =>
      if (negb (Z.leb (- Z.of_nat nd) (fst (ln_axes t))) || negb (Z.ltb (fst (ln_axes t)) (Z.of_nat nd)) || negb (same_except r s sd))%bool then inl ValueError
      else
        let s2 := concat_shape r s sd in
        if Nat.eqb r c then inl ValueError
        else
          let tmp := ln_core svd (ln_spec t) s2 r c (argsort (fwd_transpose nd [r] [c])) (concat_axis r s dual d) in
          (* 806-809: np.take of all the rows but the last *)
          assign_axis r s (nth r s2 0 - 1)%nat tmp
  end.

(** * Regularizer_TNV, regularizers.py:1323-1358 *)
(** 1344-1346: norm = DataFidelity_ln(ln_axes=(1, 0)); 1348-1358: with a reference, q_ref = op(x_ref) with one axis added.
    op is the gradient built for the volume; np.pad refuses an array with another number of axes. *)
Record tnv_state := mkTNV { tnv_norm : ln_term; tnv_q_ref : option arr }.
Definition tnv_init (s : list nat) (axes : list Z) (mode : pad_mode) (x_ref : option (list nat * arr)) : py_err + tnv_state :=
  let norm := mkLN (1, 0)%Z (new_dterm K_l1 None) None in
  match x_ref with
  | None => inr (mkTNV norm None)
  | Some (sr, x) => if Nat.eqb (length sr) (length s) then
      inr (mkTNV norm (Some (fun l => match l with a :: _ :: l' => gradient sr axes mode x (a :: l') | _ => 0 end)))
    else inl ValueError
  end.
(** BaseRegularizer.apply_proximal_dual (153-165): DataFidelity_ln is not an l1 norm, so no weight is passed *)
Definition tnv_prox (svd : svd_fun) (argsort : list nat -> list nat) (st : tnv_state) (ds : list nat) (dual : arr) : py_err + arr :=
  ln_prox svd argsort (tnv_norm st) ds dual.

(** * Regularizer_VTV with a reference, at one pixel: [vtv_prox_ref] in RegularizersMore.v; q_ref = sigma * gradient(x_ref) (1388-1392). *)

(** * Regularizer_vl1wl, regularizers.py:1500-1583.  Dual of shape L :: C :: sp (L sub-bands, C channels).  The norms are those of VTV with
    sub-bands in the place of the derivatives (1559-1575). *)
Record vl1wl_state := mkVW { vw_lvl : pexp; vw_chan : pexp; vw_weight : R; vw_q_ref : option (list nat * arr) }.
Definition sub_of (x : arr) (l : list nat) : nat -> nat -> R := fun k c => match l with _ :: _ :: l' => x (k :: c :: l') | _ => 0 end.
Definition vl1wl_prox (st : vl1wl_state) (ds : list nat) (dual : arr) : py_err + arr :=
  let L := nth 0 ds 0%nat in let C := nth 1 ds 0%nat in
  let scaled C' (x : arr) : arr := fun l => vtv_prox (vw_lvl st) (vw_chan st) L C' (vw_weight st) (sub_of x l) (nth 0 l 0%nat) (nth 1 l 0%nat) in
  match vw_q_ref st with
  | None => inr (scaled C dual)
  | Some (sr, q) =>
      if negb (same_except 1 ds sr) then inl ValueError
      else
        let C' := (C + nth 1 sr 0)%nat in
        (* 1580-1581: dual_tmp[:, : dual_tmp.shape[0] - 1 :, ...] *)
        assign_axis 1 ds (Nat.min (L - 1) C') (scaled C' (concat_axis 1 ds dual q))
  end.
