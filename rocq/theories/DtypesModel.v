(** Model of what the kinds of the numbers (numpy dtype kinds) do in the solvers: which calls fail because an in-place operation would
    have to cast its result to a lower kind (numpy's "same_kind" rule: UFuncTypeError, a TypeError).  Values are those of
    SolversModel.v.  Simplifications: sizes of the numbers are ignored (no overflow; unsigned with signed is signed); operators give
    the higher of their own kind and their argument's; data terms without background (its cast is C198). *)
From Coq Require Import Reals List Bool ZArith.
Import ListNotations.
From Verif Require Import Sums PyErr DataTermsModel SolversModel.

Inductive nkind := NBool | NUnsigned | NSigned | NFloat.
Definition rank (k : nkind) : nat := match k with NBool => 0 | NUnsigned => 1 | NSigned => 2 | NFloat => 3 end.
(** kind of a binary arithmetic operation *)
Definition promote (a b : nkind) : nkind := if Nat.leb (rank a) (rank b) then b else a.
(** "target op= operand" succeeds (np.can_cast(result, target, "same_kind")); a true division needs a floating target *)
Definition inplace (target operand : nkind) : bool := Nat.leb (rank operand) (rank target).
(** the kinds of the arguments of a call *)
Record kinds := mkKinds { k_op : nkind; k_b : nkind; k_x0 : option nkind; k_xmask : option nkind; k_bmask : option nkind; k_btest : option nkind }.

(** "array *= mask" *)
Definition mask_into (target : nkind) (mask : option nkind) : py_err + nkind :=
  match mask with Some m => if inplace target m then inr target else inl TypeError | None => inr target end.
Definition bind {A B} (x : py_err + A) (f : A -> py_err + B) : py_err + B := match x with inl e => inl e | inr a => f a end.
Notation "'let*' x ':=' a 'in' b" := (bind a (fun x => b)) (at level 61, x pattern, right associativity).

(** "1 - b_test_mask" with the Python integer 1: a boolean array becomes signed, the others keep their kind *)
Definition one_minus (k : nkind) : nkind := match k with NBool => NSigned | _ => k end.
(** solvers.py:332-343 [_initialize_b_masks]; the training mask is np.ones_like(b) when none is given *)
Definition masks_kinds (K : kinds) : option nkind * option nkind :=
  match k_btest K with
  | Some t => let m := match k_bmask K with Some m => m | None => k_b K end in
              (Some (promote m (one_minus t)), Some (promote t m))
  | None => (k_bmask K, None)
  end.
(** data_terms.py:136-161 [compute_residual]: data - projection, then *= mask; subtracting two boolean arrays is a TypeError *)
Definition residual_kind (kb kAx : nkind) (mask : option nkind) : py_err + nkind :=
  match kb, kAx with
  | NBool, NBool => inl TypeError
  | _, _ => mask_into (promote kb kAx) mask
  end.
(** solvers.py:97-117 [compute_diagonal_scaling]: b_ones *= b_mask; tau = relaxation / |At b_ones| is floating (x_ones too, so its mask
    always fits); returns the kind of tau *)
Definition diagonal_kinds (K : kinds) (bm : option nkind) : py_err + nkind :=
  let* _ := mask_into (k_b K) bm in
  let* _ := mask_into NFloat (k_xmask K) in
  inr NFloat.
(** solvers.py:44-57 [power_method]: x = rand().astype(b.dtype); x /= norm; then x = A.T(x), x /= x_norm (at least one iteration) *)
Definition power_kinds (K : kinds) : py_err + nkind :=
  if inplace (k_b K) NFloat
  then let kx := promote (k_op K) (k_b K) in if inplace kx NFloat then inr kx else inl TypeError
  else inl TypeError.

(** a for loop whose body may raise *)
Fixpoint for_range_e {S : Type} (fuel ii : nat) (body : nat -> S -> py_err + S * bool) (s : S) : py_err + S :=
  match fuel with
  | O => inr s
  | Datatypes.S fuel => match body ii s with
               | inl e => inl e
               | inr (s, true) => inr s
               | inr (s, false) => for_range_e fuel (Datatypes.S ii) body s
               end
  end.
(** residuals before the loop (solvers.py:933-946, 1147-1160, 1452-1460) *)
Definition initial_kinds (P : problem) (K : kinds) (bm bt : option nkind) (kx : nkind) : py_err + unit :=
  if (is_some bt || is_some (p_tol P))%bool then
    let* _ := residual_kind (k_b K) (promote (k_op K) kx) bm in
    if is_some bt then let* _ := residual_kind (k_b K) (promote (k_op K) kx) bt in inr tt else inr tt
  else inr tt.
(** the test residual inside the loop *)
Definition test_kinds (K : kinds) (bt : option nkind) (kx : nkind) : py_err + unit :=
  if is_some bt then let* _ := residual_kind (k_b K) (promote (k_op K) kx) bt in inr tt else inr tt.

(** ** SIRT (solvers.py:908-984): the kind of x with its value; "x += upd * tau" and "x *= x_mask" are in place *)
Definition sirt_body_t (P : problem) (K : kinds) (kbm kbt : option nkind) dt dtt bm bt sigma tau (ii : nat)
    (s : nkind * (vec * info)) : py_err + (nkind * (vec * info)) * bool :=
  let '(kx, st) := s in
  let* _ := residual_kind (k_b K) (promote (k_op K) kx) kbm in
  let* _ := test_kinds K kbt kx in
  let '(st', brk) := sirt_body P dt dtt bm bt sigma tau ii st in
  if brk then inr ((kx, st'), true)
  else if inplace kx NFloat then let* k := mask_into kx (k_xmask K) in inr ((k, st'), false) else inl TypeError.
Definition sirt_typed (P : problem) (K : kinds) (iterations : nat) : py_err + (nkind * (vec * info)) :=
  let '(kbm, kbt) := masks_kinds K in
  let* kt := diagonal_kinds K kbm in
  let kx := match k_x0 K with Some k => k | None => kt end in                                     (* 924-927 *)
  let* _ := initial_kinds P K kbm kbt kx in
  let '(bm, bt) := initialize_b_masks (p_bmask P) (p_btest P) in
  let tau := diag_tau (p_n P) (p_op P) (p_regs P) (p_relax P) bm in
  let sigma := diag_sigma (p_m P) (p_op P) 1 (p_xmask P) in
  let x := pick_x0 (p_x0 P) vzeros in
  let dt := assigned P sigma in
  let dtt := assigned_test P sigma in
  let f := init_info (p_m P) dt dtt bm bt (p_tol P) (opA (p_op P) x) (new_info iterations (p_tol P)) in
  for_range_e iterations 0 (sirt_body_t P K kbm kbt dt dtt bm bt sigma tau) (kx, (x, f)).

(** ** PDHG (solvers.py:1104-1206): the dual is np.zeros_like(data) (data_terms.py:215) and is updated in place
    (data_terms.py:228-230); x_new is a new array *)
Definition pdhg_body_t (P : problem) (K : kinds) (kbm kbt : option nkind) dt dtt bm bt tau (ii : nat)
    (s : (nkind * nkind) * (pdhg_state * info)) : py_err + ((nkind * nkind) * (pdhg_state * info)) * bool :=
  let '((kx, kp), st) := s in
  if inplace kp NFloat then
    let* kp := mask_into kp kbm in                                                                (* p *= b_mask *)
    let* kx := mask_into NFloat (k_xmask K) in                                                    (* x_new *= x_mask *)
    let '(st', brk) := pdhg_body P dt dtt bm bt tau ii st in
    let* _ := initial_kinds P K kbm kbt kx in                                                     (* residuals of x_new, 1192-1204 *)
    inr (((kx, kp), st'), brk)
  else inl TypeError.
Definition pdhg_typed (P : problem) (K : kinds) (lipschitz : option R) (iterations : nat) : py_err + (nkind * (vec * info)) :=
  let '(kbm, kbt) := masks_kinds K in
  let* kt := match lipschitz with None => diagonal_kinds K kbm | Some _ => power_kinds K end in
  let kx := match k_x0 K with Some k => k | None => kt end in
  let* _ := initial_kinds P K kbm kbt kx in
  let '(bm, bt) := initialize_b_masks (p_bmask P) (p_btest P) in
  let tau := match lipschitz with
             | None => diag_tau (p_n P) (p_op P) (p_regs P) (p_relax P) bm
             | Some L => lips_tau L (p_regs P) (p_relax P) end in
  let sigma := match lipschitz with
               | None => diag_sigma (p_m P) (p_op P) (p_relax P) (p_xmask P)
               | Some L => lips_sigma L (p_relax P) end in
  let x := pick_x0 (p_x0 P) vzeros in
  let dt := assigned P sigma in
  let dtt := assigned_test P sigma in
  let s := mkPD x x vzeros (map r_init_dual (p_regs P)) in
  let f := init_info (p_m P) dt dtt bm bt (p_tol P) (opA (p_op P) x) (new_info iterations (p_tol P)) in
  let* r := for_range_e iterations 0 (pdhg_body_t P K kbm kbt dt dtt bm bt tau) ((kx, k_b K), (s, f)) in
  inr (fst (fst r), (pd_x (fst (snd r)), snd (snd r))).

(** ** FISTA (solvers.py:1396-1515): the starting volume is converted to the kind of the step sizes (1442) *)
Definition fista_body_t (P : problem) (K : kinds) (kbm kbt : option nkind) dt dtt bm bt sigma tau restart (ii : nat)
    (s : nkind * (fista_state * info)) : py_err + (nkind * (fista_state * info)) * bool :=
  let '(kx, st) := s in
  let* _ := residual_kind (k_b K) (promote (k_op K) NFloat) kbm in                                (* y is floating after the first step, as x_dtype *)
  let* kx := mask_into NFloat (k_xmask K) in
  let '(st', brk) := fista_body P dt dtt bm bt sigma tau restart ii st in
  let* _ := initial_kinds P K kbm kbt kx in
  inr ((kx, st'), brk).
Definition fista_typed (P : problem) (K : kinds) (lipschitz : option R) (restart : option nat) (iterations : nat) : py_err + (nkind * (vec * info)) :=
  let '(kbm, kbt) := masks_kinds K in
  let* kt := match lipschitz with None => diagonal_kinds K kbm | Some _ => power_kinds K end in
  let* kx := mask_into kt (k_xmask K) in                                                          (* 1443-1444 *)
  let* _ := initial_kinds P K kbm kbt kx in
  let '(bm, bt) := initialize_b_masks (p_bmask P) (p_btest P) in
  let tau := match lipschitz with
             | None => diag_tau (p_n P) (p_op P) [] (p_relax P) bm
             | Some L => lips_tau L [] (p_relax P) end in
  let sigma := match lipschitz with
               | None => diag_sigma (p_m P) (p_op P) 1 (p_xmask P)
               | Some L => lips_sigma L 1 end in
  let x := mul_mask (p_xmask P) (pick_x0 (p_x0 P) vzeros) in
  let dt := assigned P vones in
  let dtt := assigned_test P vones in
  let f := init_info (p_m P) dt dtt bm bt (p_tol P) (opA (p_op P) x) (new_info iterations (p_tol P)) in
  let* r := for_range_e iterations 0 (fista_body_t P K kbm kbt dt dtt bm bt sigma tau restart) (kx, (mkFI x x 1, f)) in
  inr (fst r, (fi_x (fst (snd r)), snd (snd r))).

(** ** MLEM (solvers.py:729-805), Kullback-Leibler (residuals are floating): tau = A.T(b_ones) keeps its kind, x starts with it *)
Definition mlem_body_t (P : problem) (K : kinds) dt dtt bm bt tau (ii : nat) (s : nkind * (vec * info)) : py_err + (nkind * (vec * info)) * bool :=
  let '(kx, st) := s in
  let '(st', brk) := mlem_body P dt dtt bm bt tau ii st in
  if brk then inr ((kx, st'), true)
  else if inplace kx NFloat then let* k := mask_into kx (k_xmask K) in inr ((k, st'), false) else inl TypeError.
Definition mlem_typed (P : problem) (K : kinds) (iterations : nat) : py_err + (nkind * (vec * info)) :=
  let '(kbm, kbt) := masks_kinds K in
  let* kones := mask_into (k_b K) kbm in
  let kt := promote (k_op K) kones in
  let* _ := mask_into kt (k_xmask K) in                                                           (* x_ones *= x_mask, 740-742 *)
  let* kx := mask_into (match k_x0 K with Some k => k | None => kt end) (k_xmask K) in            (* 747-752 *)
  let '(bm, bt) := initialize_b_masks (p_bmask P) (p_btest P) in
  let tau := opAt (p_op P) (ones_masked bm) in
  let x := mul_mask (p_xmask P) (pick_x0 (p_x0 P) vones) in
  let dt := assigned P vones in
  let dtt := assigned_test P vones in
  let Ax := opA (p_op P) x in
  let f := new_info iterations (p_tol P) in
  let f := match bt with Some _ => set_residual0_cv f (residual_norm (p_m P) dtt (compute_residual dtt Ax bt)) | None => f end in
  let f := match p_tol P with Some _ => set_residual0 f (residual_norm (p_m P) dt (compute_residual dt Ax bm)) | None => f end in
  for_range_e iterations 0 (mlem_body_t P K dt dtt bm bt tau) (kx, (x, f)).

(** ** SART (solvers.py:502-509, 573-631): no test set; the projections in the residual are converted to the data's dtype - for integer
    data they are TRUNCATED; "x -= ..." is in place *)
Definition truncate (x : R) : R := if Rlt_dec x 0 then (- IZR (Int_part (- x)))%R else IZR (Int_part x).
(** the residual of one pixel as reported: p the projection, y the datum *)
Definition sart_pixel (kb : nkind) (p y : R) : R :=
  match kb with NFloat => (p - y)%R | NBool => ((if Req_EM_T p 0 then 0 else 1) - y)%R | _ => (truncate p - y)%R end.
(** "sweeps" is whether any row is processed (at least one iteration and one projection), [k_op] the kind of A's results *)
Definition sart_kinds (K : kinds) (tol sweeps : bool) : py_err + nkind :=
  let* kones := mask_into (k_b K) (k_bmask K) in
  let kt := NFloat in                                                                             (* tau = relaxation / |...| *)
  let* _ := mask_into kt (k_xmask K) in
  let kx := match k_x0 K with Some k => k | None => kt end in
  let* _ := (if tol then residual_kind (k_b K) (k_b K) (k_bmask K) else inr kt) in
  if sweeps then
    let* _ := residual_kind (k_b K) (promote (k_op K) kx) (k_bmask K) in
    if inplace kx NFloat then mask_into kx (k_xmask K) else inl TypeError
  else inr kx.
