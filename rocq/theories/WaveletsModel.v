(** Model of the two wavelet transforms of src/corrct/operators.py (500-764) on top of what PyWavelets documents. *)
From Verif Require Import Sums Arrays PyErr SolversModel OperatorsModel.

(** * The filter bank.  operators.py:509-520 [_initialize_filter_bank] takes pywt.Wavelet(name); its filter_bank is four
    coefficient lists of the same even length F: decomposition low/high pass, reconstruction low/high pass. *)
Record wbank := mkWB { wb_F : nat; wb_dec_lo : vec; wb_dec_hi : vec; wb_rec_lo : vec; wb_rec_hi : vec }.
Definition wb_dec (w : wbank) (hi : bool) : vec := if hi then wb_dec_hi w else wb_dec_lo w.
Definition wb_rec (w : wbank) (hi : bool) : vec := if hi then wb_rec_hi w else wb_rec_lo w.
(** pywt.orthogonal_filter_bank(h): the bank of the orthogonal wavelets (Haar, Daubechies, symlets, coiflets):
    rec_lo = h, rec_hi = qmf(h), the decomposition filters are the reversed reconstruction filters. *)
Definition qmf (F : nat) (h : vec) : vec := fun k => (-1) ^ k * h (F - 1 - k)%nat.
Definition rev_filter (F : nat) (h : vec) : vec := fun k => h (F - 1 - k)%nat.
Definition orthogonal_bank (F : nat) (h : vec) : wbank :=
  mkWB F (rev_filter F h) (rev_filter F (qmf F h)) h (qmf F h).

(** operators.py:512-520: the l1 norms of the filters, and the products over the letters of each label *)
Definition l1norm (F : nat) (f : vec) : R := rsum F (fun k => Rabs (f k)).

(** * pywt.swtn / pywt.iswtn (contract, not the project's code): the a-trous algorithm with periodic boundaries.
    [cshift n o x] is the line x read o samples further, circularly. *)
Definition cshift (n : nat) (o : Z) (x : vec) : vec := fun i => x (Z.to_nat ((Z.of_nat i + o) mod Z.of_nat n)).
(** one filter at dilation d (the filter upsampled by d); pywt's alignment of the decomposition filters *)
Definition swt_dec (F : nat) (f : vec) (d n : nat) (x : vec) : vec := fun i =>
  rsum F (fun k => f k * cshift n (Z.of_nat d * (Z.of_nat (F / 2) - Z.of_nat k)) x i).
(** ... and of the reconstruction filters *)
Definition swt_rec (F : nat) (f : vec) (d n : nat) (y : vec) : vec := fun i =>
  rsum F (fun k => f k * cshift n (Z.of_nat d * (Z.of_nat (F / 2) - 1 - Z.of_nat k)) y i).
(** norm=True: the decomposition bank is scaled by 1/sqrt 2, the reconstruction bank by sqrt 2 *)
Definition dec_scale (normalized : bool) : R := if normalized then / sqrt 2 else 1.
Definition rec_scale (normalized : bool) : R := if normalized then sqrt 2 else 1.
Definition scaled (c : R) (f : vec) : vec := fun k => c * f k.
Section Bank.
Variable w : wbank.
Variable normalized : bool.
(** along one axis of length n, at dilation d: the approximation (false) or the detail (true) coefficients *)
Definition dec1 (hi : bool) (d n : nat) : vec -> vec := swt_dec (wb_F w) (scaled (dec_scale normalized) (wb_dec w hi)) d n.
Definition rec1 (hi : bool) (d n : nat) : vec -> vec := swt_rec (wb_F w) (scaled (rec_scale normalized) (wb_rec w hi)) d n.

(** one level, several axes (axis, padded length): the sub-band of a label (one letter per axis, true = d) *)
Fixpoint swtn_band (d : nat) (axes : list (nat * nat)) (lab : list bool) (x : arr) : arr :=
  match axes, lab with
  | an :: axes', b :: lab' => swtn_band d axes' lab' (along (fst an) (dec1 b d (snd an)) x)
  | _, _ => x
  end.
(** one level of the inverse: the mean of the two reconstructions, axis after axis (last axis first) *)
Fixpoint iswtn_level (d : nat) (axes : list (nat * nat)) (c : list bool -> arr) : arr :=
  match axes with
  | [] => c []
  | an :: axes' => fun l =>
      (along (fst an) (rec1 false d (snd an)) (iswtn_level d axes' (fun lab => c (false :: lab))) l
       + along (fst an) (rec1 true d (snd an)) (iswtn_level d axes' (fun lab => c (true :: lab))) l) / 2
  end.
Definition all_a (axes : list (nat * nat)) : list bool := map (fun _ => false) axes.
(** all the levels: the approximation left after [level] levels starting with dilation d, and the detail dictionaries,
    coarsest level first (swtn(..., trim_approx=True)) *)
Fixpoint swtn (d level : nat) (axes : list (nat * nat)) (x : arr) : arr * list (list bool -> arr) :=
  match level with
  | O => (x, [])
  | S level' =>
      let r := swtn (2 * d) level' axes (swtn_band d axes (all_a axes) x) in
      (fst r, snd r ++ [fun lab => swtn_band d axes lab x])
  end.
(** iswtn(y): from the coarsest level (dilation 2^(level-1)) to the finest *)
Definition with_approx (axes : list (nat * nat)) (a : arr) (c : list bool -> arr) : list bool -> arr :=
  fun lab => if label_eqb lab (all_a axes) then a else c lab.
Fixpoint iswtn (axes : list (nat * nat)) (a : arr) (details : list (list bool -> arr)) : arr :=
  match details with
  | [] => a
  | c :: rest => iswtn axes (iswtn_level (2 ^ length rest) axes (with_approx axes a c)) rest
  end.
End Bank.
(** swtn refuses a length that [level] halvings do not divide (swt_max_level) *)
Definition swt_ok (level : nat) (axes : list (nat * nat)) : bool :=
  forallb (fun an => (snd an mod 2 ^ level =? 0)%nat) axes.

(** * operators.py:637-764 [TransformStationaryWavelet] *)
Record swt_transform := mkSWT {
  st_shape : list nat;             (* dir_shape *)
  st_bank : wbank; st_level : nat;
  st_axes : list Z;                (* self.axes *)
  st_pad : option pad_mode;        (* pad_on_demand *)
  st_norm : bool }.
(** 682-684: axes=None means all of them *)
Definition st_axes_of (s : list nat) (axes : option (list Z)) : list Z := match axes with None => default_axes (length s) | Some a => a end.
Definition st_new (s : list nat) (w : wbank) (level : nat) (axes : option (list Z)) (pad : option pad_mode) (normalized : bool) : swt_transform :=
  mkSWT s w level (st_axes_of s axes) pad normalized.
(** the axes as (axis, length) pairs, before the padding and after it (689-696) *)
Definition st_an (t : swt_transform) : list (nat * nat) :=
  map (fun a => (norm_axis (length (st_shape t)) a, axis_len (st_shape t) a)) (st_axes t).
Definition st_grow (t : swt_transform) (an : nat * nat) : nat * nat :=
  match st_pad t with None => an | Some _ => (fst an, (snd an + swt_pad (st_level t) (snd an))%nat) end.
Definition st_anp (t : swt_transform) : list (nat * nat) := map (st_grow t) (st_an t).
Definition st_padded_shape (t : swt_transform) : list nat :=
  fold_left (fun s an => set_nth (fst an) (snd an) s) (st_anp t) (st_shape t).
(** 698: adj_shape *)
Definition st_adj_shape (t : swt_transform) : list nat := swt_rows (st_level t) (length (st_axes t)) :: st_padded_shape t.
(** 717-726 [direct_swt]: the padding, then pywt.swtn *)
Definition st_prepare (t : swt_transform) (x : arr) : arr :=
  match st_pad t with None => x | Some m => swt_pad_all m (st_level t) (st_an t) x end.
Definition direct_swt (t : swt_transform) (x : arr) : (py_err + arr * list (list bool -> arr)) :=
  if swt_ok (st_level t) (st_anp t) then inr (swtn (st_bank t) (st_norm t) 1 (st_level t) (st_anp t) (st_prepare t x))
  else inl ValueError.
(** 751-754 [_op_direct]: [y[0]] + [y[lvl][label]] stacked along a new first axis *)
Definition stack_rows (rows : list arr) : arr := fun l =>
  match l with [] => 0 | r :: l' => nth r rows (fun _ => 0) l' end.
Definition st_op_direct (t : swt_transform) (x : arr) : (py_err + arr) :=
  match direct_swt t x with
  | inl e => inl e
  | inr y => inr (stack_rows (swt_pack (st_level t) (length (st_axes t)) (fst y)
      (fun lvl lab => nth (lvl - 1) (snd y) (fun _ _ => 0) lab)))
  end.
(** 728-748 [inverse_swt]: iswtn, then the crop *)
Definition inverse_swt (t : swt_transform) (a : arr) (details : list (list bool -> arr)) : arr :=
  let x := iswtn (st_bank t) (st_norm t) (st_anp t) a details in
  match st_pad t with None => x | Some _ => swt_crop_all (st_level t) (st_an t) x end.
(** 756-764 [_op_adjoint]: the dictionaries {label: x[row]} of each level; a label that is not in the dictionary is
    never read (the approximation 'aa..' comes from the previous level) *)
Definition st_dict (t : swt_transform) (y : arr) (lvl : nat) : list bool -> arr := fun lab =>
  match swt_unpack (length (st_axes t)) (seq 0 (swt_rows (st_level t) (length (st_axes t)))) lvl lab with
  | Some row => fun l => y (row :: l)
  | None => fun _ => 0
  end.
Definition st_op_adjoint (t : swt_transform) (y : arr) : arr :=
  inverse_swt t (fun l => y (0%nat :: l)) (map (st_dict t y) (seq 1 (st_level t))).
