(** Model of src/corrct/solvers.py.  Volumes and sinograms are flattened vectors (volume: n
    entries, data: m entries); every solver operation is element-wise or an application of the
    projection operator, so flattening loses nothing.  The operator is an arbitrary quadruple of
    functions; theorems that need a matrix say so.  Progress bars, printing, dtypes: not modelled. *)
From Verif Require Import Sums DataTermsModel.

(** What the solvers use of an operator: A(x), A.T(y), A.absolute()(x), A.T.absolute()(y). *)
Record linop := mkOp { opA : vec -> vec; opAt : vec -> vec; opAabs : vec -> vec; opAtabs : vec -> vec }.

(** What the solvers use of an (initialised) regulariser, regularizers.py:99-205: tau contribution
    (initialize_sigma_tau), initialize_dual, update_dual, apply_proximal_dual, compute_update_primal,
    apply_proximal_primal. *)
Record reg := mkReg {
  r_tau : vec; r_init_dual : vec; r_update_dual : vec -> vec -> vec; r_prox_dual : vec -> vec;
  r_update_primal : vec -> vec; r_prox_primal : vec -> vec -> vec }.

Definition vmul (x y : vec) : vec := fun i => x i * y i.
Definition vadd (x y : vec) : vec := fun i => x i + y i.
Definition vsub (x y : vec) : vec := fun i => x i - y i.
Definition vones : vec := fun _ => 1.
Definition vzeros : vec := fun _ => 0.

(** numpy's x.clip(lower, upper) = minimum(maximum(x, lower), upper), either limit may be None. *)
Definition np_clip (lo up : option vec) (x : vec) : vec := fun i =>
  let v := match lo with Some l => Rmax (x i) (l i) | None => x i end in
  match up with Some u => Rmin v (u i) | None => v end.

(** "if x_mask is not None: x *= x_mask" *)
Definition mul_mask (mask : option vec) (x : vec) : vec :=
  match mask with Some m => fun i => x i * m i | None => x end.

(** The tail of every update: clip to the limits, then apply the mask
    (solvers.py:465-468 FBP, 617-622 SART, 800-803 MLEM, 979-982 SIRT, 1184-1187 PDHG, 1480-1483 FISTA). *)
Definition constrain (lo up x_mask : option vec) (x : vec) : vec := mul_mask x_mask (np_clip lo up x).

(** "for ii in range(iterations): ... break": [body] returns the new state and whether it breaks. *)
Fixpoint for_range {S : Type} (fuel ii : nat) (body : nat -> S -> S * bool) (s : S) : S :=
  match fuel with
  | O => s
  | Datatypes.S k => let '(s', brk) := body ii s in
                     if brk then s' else for_range k (Datatypes.S ii) body s'
  end.

(** solvers.py:161-201 [SolutionInfo]; arrays of zeros of length max_iterations; +inf is [None]. *)
Record info := mkInfo {
  i_iterations : nat; i_max_iterations : nat; i_tolerance : option R;
  i_residual0 : option R; i_residual0_cv : option R;
  i_residuals : vec; i_residuals_cv : vec }.
Definition new_info (max_iterations : nat) (tol : option R) : info :=
  mkInfo 0 max_iterations tol None None vzeros vzeros.
(** arr[ii] = v *)
Definition upd_at (a : vec) (ii : nat) (v : R) : vec := fun k => if Nat.eqb k ii then v else a k.
Definition set_residual0 (f : info) (r : R) : info :=
  mkInfo (i_iterations f) (i_max_iterations f) (i_tolerance f) (Some r) (i_residual0_cv f) (i_residuals f) (i_residuals_cv f).
Definition set_residual0_cv (f : info) (r : R) : info :=
  mkInfo (i_iterations f) (i_max_iterations f) (i_tolerance f) (i_residual0 f) (Some r) (i_residuals f) (i_residuals_cv f).
Definition incr_iterations (f : info) : info :=
  mkInfo (S (i_iterations f)) (i_max_iterations f) (i_tolerance f) (i_residual0 f) (i_residual0_cv f) (i_residuals f) (i_residuals_cv f).
Definition set_residual (f : info) (ii : nat) (r : R) : info :=
  mkInfo (i_iterations f) (i_max_iterations f) (i_tolerance f) (i_residual0 f) (i_residual0_cv f) (upd_at (i_residuals f) ii r) (i_residuals_cv f).
Definition set_residual_cv (f : info) (ii : nat) (r : R) : info :=
  mkInfo (i_iterations f) (i_max_iterations f) (i_tolerance f) (i_residual0 f) (i_residual0_cv f) (i_residuals f) (upd_at (i_residuals_cv f) ii r).

(** "self.tolerance is not None and self.tolerance > r" *)
Definition below_tol (tol : option R) (r : R) : bool :=
  match tol with Some t => if Rlt_dec r t then true else false | None => false end.
Definition is_some {A} (o : option A) : bool := match o with Some _ => true | None => false end.

(** solvers.py:332-343 [_initialize_b_masks]. *)
Definition initialize_b_masks (b_mask b_test_mask : option vec) : option vec * option vec :=
  match b_test_mask with
  | None => (b_mask, None)
  | Some t => let m := match b_mask with None => vones | Some m => m end in
              (Some (fun i => m i * (1 - t i)), Some (fun i => t i * m i))
  end.

(** tau[(tau / np.max(tau)) < 1e-5] = 1; relaxation / tau     (solvers.py:105-106, 114-115). *)
Definition guard_small (k : nat) (raw : vec) : vec := fun i =>
  if Rlt_dec (raw i / rmax k raw) (/ 100000) then 1 else raw i.
Definition ones_masked (mask : option vec) : vec := mul_mask mask vones.

(** solvers.py:60-117 [compute_diagonal_scaling]: (sigma, tau). *)
Definition raw_tau (op : linop) (regs : list reg) (b_mask : option vec) : vec :=
  fold_left (fun t r => vadd t (r_tau r)) regs (fun j => Rabs (opAtabs op (ones_masked b_mask) j)).
Definition raw_sigma (op : linop) (x_mask : option vec) : vec :=
  fun i => Rabs (opAabs op (ones_masked x_mask) i).
Definition diag_tau (n : nat) (op : linop) (regs : list reg) (relax_tau : R) (b_mask : option vec) : vec :=
  fun j => relax_tau / guard_small n (raw_tau op regs b_mask) j.
Definition diag_sigma (m : nat) (op : linop) (relax_sigma : R) (x_mask : option vec) : vec :=
  fun i => relax_sigma / guard_small m (raw_sigma op x_mask) i.

(** solvers.py:120-158 [compute_Lipschitz_scaling]; L is the value returned by [power_method]. *)
Definition lips_tau (L : R) (regs : list reg) (relax_tau : R) : vec :=
  fun j => relax_tau / fold_left (fun t r => t + r_tau r j) regs L.
Definition lips_sigma (L relax_sigma : R) : vec := fun _ => relax_sigma / L.

(** solvers.py:26-57 [power_method]; [x0] = random positive vector of the data space. *)
Definition vnorm (k : nat) (x : vec) : R := sqrt (norm2 k x).
Fixpoint power_loop (n : nat) (op : linop) (fuel : nat) (x : vec) (L : R) : R :=
  match fuel with
  | O => L
  | S k => let xn := fun j => x j / vnorm n x in
           let x' := opAt op (opA op xn) in power_loop n op k x' (sqrt (vnorm n x'))
  end.
Definition power_method (n m : nat) (op : linop) (b_rand : vec) (iterations : nat) : R :=
  let x := opAt op (fun i => b_rand i / vnorm m b_rand) in
  power_loop n op iterations x (vnorm n x).

(** Arguments common to SIRT, PDHG, FISTA and MLEM, and the solver attributes. *)
Record problem := mkProblem {
  p_n : nat; p_m : nat; p_op : linop; p_b : vec; p_x0 : option vec;
  p_lower : option vec; p_upper : option vec; p_xmask : option vec; p_bmask : option vec; p_btest : option vec;
  p_tol : option R; p_relax : R; p_regs : list reg; p_dterm : dterm; p_dterm_test : dterm }.

(** data_term_test.background is made equal to data_term.background (solvers.py:762-765, 940-943, 1154-1157,
    1434-1437), then both get the data. *)
Definition sync_background (t test : dterm) : dterm :=
  mkDT (dt_kind test) (dt_background t) (dt_data test) (dt_sigma test) (dt_sigma_data test) (dt_sigma1 test)
       (dt_sigma_sqrt_error test) (dt_one_sigma_error test).

Definition pick_x0 (x0 : option vec) (dflt : vec) : vec := match x0 with Some x => x | None => dflt end.

(** residual bookkeeping before the loop (solvers.py:933-946 SIRT, 1147-1160 PDHG, 1452-1460 FISTA). *)
Definition init_info (m : nat) (dt dtt : dterm) (bm bt : option vec) (tol : option R) (Ax : vec) (f : info) : info :=
  if (is_some bt || is_some tol)%bool then
    let f := set_residual0 f (residual_norm m dt (compute_residual dt Ax bm)) in
    match bt with
    | Some _ => set_residual0_cv f (residual_norm m dtt (compute_residual dtt Ax bt))
    | None => f
    end
  else f.

(** residual bookkeeping inside the loop; returns whether the tolerance was reached
    (solvers.py:957-967 SIRT, 1192-1204 PDHG, 1499-1511 FISTA). *)
Definition track (m : nat) (dt dtt : dterm) (bm bt : option vec) (tol : option R) (ii : nat) (Ax res : vec) (f : info)
  : info * bool :=
  if (is_some bt || is_some tol)%bool then
    let r := residual_norm m dt res in
    let f := set_residual f ii r in
    let f := match bt with
             | Some _ => set_residual_cv f ii (residual_norm m dtt (compute_residual dtt Ax bt))
             | None => f end in
    (f, below_tol tol r)
  else (f, false).

(** * SIRT (solvers.py:867-984) *)
(** solvers.py:969-982: regulariser duals, back-projection, update, limits, mask. *)
Definition sirt_update (P : problem) (sigma tau : vec) (x res : vec) : vec :=
  let q := map (fun r => r_prox_dual r (r_update_dual r (r_init_dual r) x)) (p_regs P) in
  let upd := fold_left (fun u qr => vsub u (r_update_primal (snd qr) (fst qr))) (combine q (p_regs P))
                       (opAt (p_op P) (vmul res sigma)) in
  constrain (p_lower P) (p_upper P) (p_xmask P) (vadd x (vmul upd tau)).

Definition sirt_body (P : problem) (dt dtt : dterm) (bm bt : option vec) (sigma tau : vec) (ii : nat)
    (s : vec * info) : (vec * info) * bool :=
  let '(x, f) := s in
  let f := incr_iterations f in
  let Ax := opA (p_op P) x in
  let res := compute_residual dt Ax bm in
  let '(f, brk) := track (p_m P) dt dtt bm bt (p_tol P) ii Ax res f in
  if brk then ((x, f), true) else ((sirt_update P sigma tau x res, f), false).

(** the data term(s) after assign_data. *)
Definition assigned (P : problem) (sigma : vec) : dterm := assign_data (p_dterm P) (Some (p_b P)) sigma.
Definition assigned_test (P : problem) (sigma : vec) : dterm :=
  assign_data (sync_background (p_dterm P) (p_dterm_test P)) (Some (p_b P)) sigma.

Definition sirt_call (P : problem) (iterations : nat) : vec * info :=
  let '(bm, bt) := initialize_b_masks (p_bmask P) (p_btest P) in
  let tau := diag_tau (p_n P) (p_op P) (p_regs P) (p_relax P) bm in
  let sigma := diag_sigma (p_m P) (p_op P) 1 (p_xmask P) in
  let x := pick_x0 (p_x0 P) vzeros in
  let dt := assigned P sigma in
  let dtt := assigned_test P sigma in
  let f := init_info (p_m P) dt dtt bm bt (p_tol P) (opA (p_op P) x) (new_info iterations (p_tol P)) in
  for_range iterations 0 (sirt_body P dt dtt bm bt sigma tau) (x, f).

(** * PDHG (solvers.py:1060-1206) *)
Record pdhg_state := mkPD { pd_x : vec; pd_xrelax : vec; pd_p : vec; pd_q : list vec }.

(** one iteration's update, solvers.py:1168-1190. *)
Definition pdhg_update (P : problem) (dt : dterm) (bm : option vec) (tau : vec) (s : pdhg_state) : pdhg_state :=
  let Ax_rlx := opA (p_op P) (pd_xrelax s) in
  let p := mul_mask bm (proximal_dual dt vones (update_dual dt (pd_p s) Ax_rlx)) in
  let q := map (fun qr => r_prox_dual (snd qr) (r_update_dual (snd qr) (fst qr) (pd_xrelax s)))
               (combine (pd_q s) (p_regs P)) in
  let upd := fold_left (fun u qr => vadd u (r_update_primal (snd qr) (fst qr))) (combine q (p_regs P)) (opAt (p_op P) p) in
  let x_new := constrain (p_lower P) (p_upper P) (p_xmask P) (vsub (pd_x s) (vmul upd tau)) in
  mkPD x_new (fun j => x_new j + (x_new j - pd_x s j)) p q.

Definition pdhg_body (P : problem) (dt dtt : dterm) (bm bt : option vec) (tau : vec) (ii : nat)
    (s : pdhg_state * info) : (pdhg_state * info) * bool :=
  let '(st, f) := s in
  let f := incr_iterations f in
  let st := pdhg_update P dt bm tau st in
  let Ax := opA (p_op P) (pd_x st) in
  let '(f, brk) := track (p_m P) dt dtt bm bt (p_tol P) ii Ax (compute_residual dt Ax bm) f in
  ((st, f), brk).

(** [precondition = Some L] is the un-preconditioned mode with power-method value L. *)
Definition pdhg_call (P : problem) (lipschitz : option R) (iterations : nat) : vec * info :=
  let '(bm, bt) := initialize_b_masks (p_bmask P) (p_btest P) in
  let tau := match lipschitz with
             | None => diag_tau (p_n P) (p_op P) (p_regs P) (p_relax P) bm
             | Some L => lips_tau L (p_regs P) (p_relax P) end in
  let sigma := match lipschitz with
               | None => diag_sigma (p_m P) (p_op P) (p_relax P) (p_xmask P)
               | Some L => lips_sigma L (p_relax P) end in
  let x := pick_x0 (p_x0 P) vzeros in
  let dt := assigned P sigma in
  let dtt := assigned_test P sigma in
  let s := mkPD x x vzeros (map r_init_dual (p_regs P)) in
  let f := init_info (p_m P) dt dtt bm bt (p_tol P) (opA (p_op P) x) (new_info iterations (p_tol P)) in
  let '(s, f) := for_range iterations 0 (pdhg_body P dt dtt bm bt tau) (s, f) in
  (pd_x s, f).

(** * FISTA (solvers.py:1349-1513) *)
Record fista_state := mkFI { fi_x : vec; fi_y : vec; fi_t : R }.

(** solvers.py:1485-1496: momentum parameter, optional restart. *)
Definition next_t (t : R) : R := (1 + sqrt (1 + 4 * t * t)) / 2.
Definition restart_now (restart : option nat) (ii : nat) : bool :=
  match restart with Some k => Nat.eqb ((ii + 1) mod k) 0 | None => false end.
Definition fista_t (restart : option nat) (ii : nat) (t : R) : R :=
  if restart_now restart ii then 1 else next_t t.

Definition fista_update (P : problem) (dt : dterm) (bm : option vec) (sigma tau : vec) (restart : option nat)
    (ii : nat) (s : fista_state) : fista_state :=
  let Ay := opA (p_op P) (fi_y s) in
  let residual := compute_residual dt Ay bm in
  let grad := opAt (p_op P) (vmul residual sigma) in
  let x_new := vadd (fi_y s) (vmul tau grad) in
  let x_new := match p_regs P with r :: _ => r_prox_primal r x_new tau | [] => x_new end in
  let x_new := constrain (p_lower P) (p_upper P) (p_xmask P) x_new in
  let t_new := fista_t restart ii (fi_t s) in
  let momentum := (fi_t s - 1) / t_new in
  mkFI x_new (fun j => x_new j + momentum * (x_new j - fi_x s j)) t_new.

Definition fista_body (P : problem) (dt dtt : dterm) (bm bt : option vec) (sigma tau : vec) (restart : option nat)
    (ii : nat) (s : fista_state * info) : (fista_state * info) * bool :=
  let '(st, f) := s in
  let f := incr_iterations f in
  let st := fista_update P dt bm sigma tau restart ii st in
  let Ax := opA (p_op P) (fi_x st) in
  let '(f, brk) := track (p_m P) dt dtt bm bt (p_tol P) ii Ax (compute_residual dt Ax bm) f in
  ((st, f), brk).

(** the data terms are assigned with the default sigma = 1 (solvers.py:1432-1437); the scalings do not see the
    regularisers (regs=[], solvers.py:1408-1413). *)
Definition fista_call (P : problem) (lipschitz : option R) (restart : option nat) (iterations : nat) : vec * info :=
  let '(bm, bt) := initialize_b_masks (p_bmask P) (p_btest P) in
  let tau := match lipschitz with
             | None => diag_tau (p_n P) (p_op P) [] (p_relax P) bm
             | Some L => lips_tau L [] (p_relax P) end in
  let sigma := match lipschitz with
               | None => diag_sigma (p_m P) (p_op P) 1 (p_xmask P)
               | Some L => lips_sigma L 1 end in
  let dt := assigned P vones in
  let dtt := assigned_test P vones in
  let x := mul_mask (p_xmask P) (pick_x0 (p_x0 P) vzeros) in
  let f := init_info (p_m P) dt dtt bm bt (p_tol P) (opA (p_op P) x) (new_info iterations (p_tol P)) in
  let '(s, f) := for_range iterations 0 (fista_body P dt dtt bm bt sigma tau restart) (mkFI x x 1, f) in
  (fi_x s, f).

(** * MLEM (solvers.py:688-805) *)
(** solvers.py:793-803. *)
Definition mlem_update (P : problem) (dt : dterm) (tau : vec) (x : vec) : vec :=
  let Ax := fun i => Rmax (add_background dt (opA (p_op P) x) i) eps32 in
  let upd := opAt (p_op P) (fun i => p_b P i / Ax i) in
  constrain (p_lower P) (p_upper P) (p_xmask P) (fun j => x j * (upd j / tau j)).

(** solvers.py:777-803; the train residual is only tracked with a tolerance. *)
Definition mlem_body (P : problem) (dt dtt : dterm) (bm bt : option vec) (tau : vec) (ii : nat)
    (s : vec * info) : (vec * info) * bool :=
  let '(x, f) := s in
  let f := incr_iterations f in
  let Ax := opA (p_op P) x in
  let f := match bt with
           | Some _ => set_residual_cv f ii (residual_norm (p_m P) dtt (compute_residual dtt Ax bt))
           | None => f end in
  match p_tol P with
  | Some t =>
      let r := residual_norm (p_m P) dt (compute_residual dt Ax bm) in
      let f := set_residual f ii r in
      if below_tol (p_tol P) r then ((x, f), true) else ((mlem_update P dt tau x, f), false)
  | None => ((mlem_update P dt tau x, f), false)
  end.

Definition mlem_call (P : problem) (iterations : nat) : vec * info :=
  let '(bm, bt) := initialize_b_masks (p_bmask P) (p_btest P) in
  let tau := opAt (p_op P) (ones_masked bm) in
  let x := mul_mask (p_xmask P) (pick_x0 (p_x0 P) vones) in
  let dt := assigned P vones in
  let dtt := assigned_test P vones in
  let Ax := opA (p_op P) x in
  let f := new_info iterations (p_tol P) in
  let f := match bt with Some _ => set_residual0_cv f (residual_norm (p_m P) dtt (compute_residual dtt Ax bt)) | None => f end in
  let f := match p_tol P with Some _ => set_residual0 f (residual_norm (p_m P) dt (compute_residual dt Ax bm)) | None => f end in
  for_range iterations 0 (mlem_body P dt dtt bm bt tau) (x, f).

(** * FBP (solvers.py:397-470): filter, back-project, clip, mask.  [filt] is the filter applied to the
    (pre-weighted) data. *)
Definition fbp_call (op : linop) (filt : vec -> vec) (pre_weights : option vec) (b : vec) (lo up x_mask : option vec) : vec :=
  constrain lo up x_mask (opAt op (filt (mul_mask pre_weights b))).

(** * SART (solvers.py:511-631).  A(x, ii) and At(y, ii) are the single-angle projectors; [d] = pixels
    per projection; data, sigma and masks are indexed by (angle, pixel); tau by (angle, voxel). *)
Record sart_op := mkSart { sA : vec -> nat -> vec; sAt : vec -> nat -> vec }.
Definition rmax2 (k d : nat) (f : nat -> nat -> R) : R := rmax k (fun a => rmax d (f a)).
Definition guard_small2 (k d : nat) (raw : nat -> nat -> R) : nat -> nat -> R := fun a i =>
  if Rlt_dec (raw a i / rmax2 k d raw) (/ 100000) then 1 else raw a i.
(** solvers.py:611-622, the inner update for one angle. *)
Definition sart_row (op : sart_op) (b : nat -> vec) (b_mask : option (nat -> vec)) (sigma tau : nat -> vec)
    (lo up x_mask : option vec) (x : vec) (a : nat) : vec :=
  let res := mul_mask (option_map (fun m => m a) b_mask) (vsub (sA op x a) (b a)) in
  constrain lo up x_mask (vsub x (vmul (sAt op (vmul res (sigma a)) a) (tau a))).
Definition sart_sweep op b b_mask sigma tau lo up x_mask (rows : list nat) (x : vec) : vec :=
  fold_left (sart_row op b b_mask sigma tau lo up x_mask) rows x.
(** scalings, solvers.py:572-589. *)
Definition sart_tau (n rows : nat) (op : sart_op) (relax : R) (b_mask : option (nat -> vec)) : nat -> vec := fun a j =>
  relax / guard_small2 rows n (fun a j => Rabs (sAt op (ones_masked (option_map (fun m => m a) b_mask)) a j)) a j.
Definition sart_sigma (d rows : nat) (op : sart_op) (x_mask : option vec) : nat -> vec := fun a i =>
  1 / guard_small2 rows d (fun a i => Rabs (sA op (ones_masked x_mask) a i)) a i.
(** without tolerance (the residual recomputation does not influence x); [rows] = np.random.permutation. *)
Definition sart_call (n d num_rows : nat) (op : sart_op) (b : nat -> vec) (b_mask : option (nat -> vec)) (relax : R)
    (x0 : option vec) (lo up x_mask : option vec) (rows : list nat) (iterations : nat) : vec :=
  for_range iterations 0
    (fun _ x => (sart_sweep op b b_mask (sart_sigma d num_rows op x_mask) (sart_tau n num_rows op relax b_mask) lo up x_mask rows x, false))
    (pick_x0 x0 vzeros).
