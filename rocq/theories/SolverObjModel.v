(** Model of the solver objects of src/corrct/solvers.py: construction (data terms copied, regularisers normalised),
    calls as heap transformers, and threads.  The numerical part of a call is SolversModel's [sirt_call] etc. *)
From Coq Require Import Ascii String.
From Verif Require Import Sums DataTermsModel SolversModel.
From Verif Require Export PyErr.

(** ** Strings: str.lower() for ASCII text (other alphabets are not modelled) *)
Definition lower_char (c : ascii) : ascii :=
  let n := nat_of_ascii c in if ((65 <=? n) && (n <=? 90))%nat%bool then ascii_of_nat (n + 32) else c.
Fixpoint lower (s : string) : string :=
  match s with EmptyString => EmptyString | String c r => String (lower_char c) (lower r) end.

(** ** Data-term objects.  A heap cell is an instance: its attributes and the shape of its background array
    ([] for a scalar: np.array(5.0) is zero-dimensional, data_terms.py:51). *)
Record dobj := mkDO { ob_t : dterm; ob_shape : list nat }.
Definition heap := list dobj.
Definition blank : dobj := mkDO (new_dterm K_l2 None) [].
Definition fetch (h : heap) (l : nat) : dobj := nth l h blank.
Fixpoint store (l : nat) (o : dobj) (h : heap) : heap :=
  match h, l with
  | [], _ => []
  | _ :: r, O => o :: r
  | x :: r, S k => x :: store k o r
  end.
(** copy.deepcopy(obj): a new instance with the same attributes *)
Definition deepcopy (h : heap) (l : nat) : heap * nat := (h ++ [fetch h l], length h).

(** ** The number type of an array; astype of the background (data_terms.py:133-134): converting to an integer type
    truncates towards zero, converting between floating types only rounds (not modelled). *)
Inductive dtype := Floating | Integer.
Definition truncate (x : R) : R := if Rle_dec 0 x then IZR (Int_part x) else - IZR (Int_part (- x)).
Definition astype (d : dtype) (x : R) : R := match d with Floating => x | Integer => truncate x end.
Definition cast_background (d : dtype) (t : dterm) : dterm :=
  mkDT (dt_kind t) (option_map (fun g i => astype d (g i)) (dt_background t)) (dt_data t) (dt_sigma t) (dt_sigma_data t)
       (dt_sigma1 t) (dt_sigma_sqrt_error t) (dt_one_sigma_error t).
(** data_terms.py:120-134 [assign_data] with an array of type [d] *)
Definition assign_cast (d : dtype) (o : dobj) (b sigma : vec) : dobj :=
  mkDO (assign_data (cast_background d (ob_t o)) (Some b) sigma) (ob_shape o).

(** ** Construction *)
Inductive sclass := C_FBP | C_SART | C_MLEM | C_SIRT | C_PDHG | C_FISTA.
(** isinstance(term, DataFidelity_l2) / DataFidelity_KL (class hierarchy, data_terms.py:283, 334, 398, 677) *)
Definition is_l2_based (k : kind) : bool := match k with K_l2 | K_wl2 _ | K_l2b _ => true | _ => false end.
Definition is_KL (k : kind) : bool := match k with K_KL => true | _ => false end.
(** what a caller may pass: a string, an instance (location), or something else *)
Inductive dt_arg := A_str (s : string) | A_obj (l : nat) | A_other.
(** The class a string selects: solvers.py:300-306 (base), 1048-1056 (PDHG), 1339-1343 (FISTA) *)
Definition named_kind (c : sclass) (s : string) : option kind :=
  let s := lower s in
  if String.eqb s "l2" then Some K_l2
  else match c with
       | C_FISTA => None
       | C_PDHG => if String.eqb s "l1" then Some K_l1 else if String.eqb s "kl" then Some K_KL else None
       | _ => if String.eqb s "kl" then Some K_KL else None
       end.
(** 307-310 (base), 1057-1058 (PDHG: anything is copied), 1344-1347 (FISTA) *)
Definition accepts_kind (c : sclass) (k : kind) : bool :=
  match c with
  | C_PDHG => true
  | C_FISTA => is_l2_based k
  | _ => (is_l2_based k || is_KL k)%bool
  end.
(** solvers.py:298-310, 1047-1058, 1337-1347 [_initialize_data_fidelity_function].  [A_other] is an object without an
    info() method, e.g. None or a number: the error message of the base class itself fails (AttributeError), FISTA raises
    ValueError, PDHG accepts it (later calls fail; here: rejected with AttributeError at once, which is when the first
    method is called on it). *)
Definition init_data_term (c : sclass) (a : dt_arg) (h : heap) : py_err + (heap * nat) :=
  match a with
  | A_str s => match named_kind c s with
               | Some k => inr (h ++ [mkDO (new_dterm k None) []], length h)
               | None => inl ValueError
               end
  | A_obj l => if accepts_kind c (dt_kind (ob_t (fetch h l))) then inr (deepcopy h l) else inl ValueError
  | A_other => inl (match c with C_FISTA => ValueError | _ => AttributeError end)
  end.
(** solvers.py:231-252 [Solver.__init__]: the test term defaults to a copy of the data term; otherwise it is initialised
    the same way and copied once more.  FBP ignores both arguments (381: super().__init__(verbose=verbose)). *)
Definition init_terms (c : sclass) (a : dt_arg) (atest : option dt_arg) (h : heap) : py_err + (heap * (nat * nat)) :=
  let '(a, atest) := match c with C_FBP => (A_str "l2", None) | _ => (a, atest) end in
  match init_data_term c a h with
  | inl e => inl e
  | inr (h, l) =>
      match match atest with None => inr (h, l) | Some at' => init_data_term c at' h end with
      | inl e => inl e
      | inr (h, lt) => let '(h, lt) := deepcopy h lt in inr (h, (l, lt))
      end
  end.

(** ** Regulariser arguments, solvers.py:312-330 [_initialize_regularizer].  [RE_other]: an element that is not derived from
    BaseRegularizer.  On failure the error message lists positions. *)
Section RegArgs.
  Context {reg : Type}.
  Inductive relem := RE_reg (r : reg) | RE_other.
  Inductive reg_arg := RA_none | RA_one (r : reg) | RA_seq (l : list relem) | RA_other.
  Inductive reg_result := RR_ok (rs : list reg) | RR_not_derived (positions : list nat) | RR_unknown.
  Definition is_reg (e : relem) : bool := match e with RE_reg _ => true | RE_other => false end.
  Definition the_regs (l : list relem) : list reg := flat_map (fun e => match e with RE_reg r => [r] | RE_other => [] end) l.
  (** 322-327: np.arange(len(check))[check], check = "is a regularizer" *)
  Definition reported (l : list relem) : list nat :=
    flat_map (fun ie => if is_reg (snd ie) then [fst ie] else []) (combine (seq 0 (length l)) l).
  Definition initialize_regularizer (a : reg_arg) : reg_result :=
    match a with
    | RA_none => RR_ok []
    | RA_one r => RR_ok [r]
    | RA_seq l => if forallb is_reg l then RR_ok (the_regs l) else RR_not_derived (reported l)
    | RA_other => RR_unknown
    end.
End RegArgs.
Arguments relem : clear implicits.
Arguments reg_arg : clear implicits.
Arguments reg_result : clear implicits.

(** ** FISTA's check of the regulariser (solvers.py:1299-1328): at most one, and a dry run of apply_proximal_primal on
    np.zeros(1): NotImplementedError rejects, any other exception passes.
    The classes by their apply_proximal_primal (regularizers.py:164-186, 275-289, 471-483, 559-584, 706-768, 995-1047,
    1179-1192, 1273-1319, 1630-1645, 1697-1714, 1764-1781). *)
Inductive fclass := F_gradient | F_laplacian | F_median | F_svd | F_user_without_primal
  | F_l1 | F_stationary (normalized : bool) | F_decimated | F_fourier | F_limit.
(** an object: its class, whether its norm has a primal proximal (all but DataFidelity_ln do), whether
    initialize_sigma_tau has run before *)
Record freg := mkFR { fr_class : fclass; fr_norm_primal : bool; fr_initialised : bool }.
Definition norm_step (r : freg) : option py_err := if fr_norm_primal r then None else Some NotImplementedError.
(** [fits]: whether the object's operator accepts the array it is given (a wrong shape is a ValueError) *)
Definition primal_step (r : freg) (fits : bool) : option py_err :=
  match fr_class r with
  | F_gradient | F_laplacian | F_median | F_svd | F_user_without_primal => Some NotImplementedError
  | F_l1 => norm_step r
  | F_stationary normalized =>
      if negb (fr_initialised r) then Some ValueError                       (* 736-737 *)
      else if negb normalized then Some NotImplementedError                 (* 739-745 *)
      else if negb fits then Some ValueError
      else Some AttributeError                                              (* 756: op() returns one array, C97 *)
  | F_decimated | F_fourier =>
      if negb (fr_initialised r) then Some ValueError                       (* 1016-1017, 1297-1298 *)
      else if negb fits then Some ValueError else norm_step r
  | F_limit => None
  end.
(** 1300-1328; the dummy has one element: [fits] only if the object was initialised for such a volume *)
Definition fista_accepts (rs : list freg) (dummy_fits : bool) : py_err + list freg :=
  match rs with
  | [] => inr []
  | [r] => match primal_step r dummy_fits with Some NotImplementedError => inl ValueError | _ => inr [r] end
  | _ => inl ValueError
  end.
(** what happens at the first iteration of a call: initialize_sigma_tau has run (solvers.py:1417-1419) and the volume fits *)
Definition fista_first_step (r : freg) : option py_err := primal_step (mkFR (fr_class r) (fr_norm_primal r) true) true.

(** ** Calls *)
Record sobj := mkSO { so_class : sclass; so_dt : nat; so_test : nat; so_regs : list reg; so_tol : option R; so_relax : R;
                      so_restart : option nat }.
Record cargs := mkCA { ca_n : nat; ca_m : nat; ca_op : linop; ca_b : vec; ca_dtype : dtype; ca_x0 : option vec;
  ca_lower : option vec; ca_upper : option vec; ca_xmask : option vec; ca_bmask : option vec; ca_btest : option vec;
  ca_lipschitz : option R; ca_iterations : nat }.
Definition the_problem (s : sobj) (a : cargs) (t test : dterm) : problem :=
  mkProblem (ca_n a) (ca_m a) (ca_op a) (ca_b a) (ca_x0 a) (ca_lower a) (ca_upper a) (ca_xmask a) (ca_bmask a) (ca_btest a)
            (so_tol s) (so_relax s) (so_regs s) t test.
(** the step sizes handed to assign_data: 924 (SIRT), 1140 (PDHG); 750 (MLEM), 1432 (FISTA) use the default 1.0 *)
Definition the_sigma (s : sobj) (a : cargs) : vec :=
  match so_class s with
  | C_SIRT => diag_sigma (ca_m a) (ca_op a) 1 (ca_xmask a)
  | C_PDHG => match ca_lipschitz a with
              | None => diag_sigma (ca_m a) (ca_op a) (so_relax s) (ca_xmask a)
              | Some L => lips_sigma L (so_relax s) end
  | _ => vones
  end.
Definition size (shape : list nat) : nat := fold_right Nat.mul 1%nat shape.
(** "if self.data_term_test.background != self.data_term.background" (762, 940, 1154, 1434): an array comparison with more
    than one element has no truth value (ValueError) *)
Definition backgrounds_differ (t test : dobj) : py_err + bool :=
  let one o := Nat.eqb (size (ob_shape o)) 1 in
  match dt_background (ob_t t), dt_background (ob_t test) with
  | None, None => inr false
  | Some _, None => if one t then inr true else inl ValueError
  | None, Some _ => if one test then inr true else inl ValueError
  | Some x, Some y => if (one t && one test)%bool then inr (if Req_EM_T (x 0%nat) (y 0%nat) then false else true) else inl ValueError
  end.
Definition sync (t test : dobj) : dobj := mkDO (sync_background (ob_t t) (ob_t test)) (ob_shape t).
(** MLEM.info (686) formats the background with ":g": a TypeError for an array with one or more dimensions *)
Definition info_error (c : sclass) (t : dobj) : option py_err :=
  match c, dt_background (ob_t t), ob_shape t with
  | C_MLEM, Some _, _ :: _ => Some TypeError
  | _, _, _ => None
  end.
(** the string returned by MLEM.info: "A + B if C else ''" is "(A + B) if C else ''"; [fmt] formats a number with %g *)
Definition mlem_info (fmt : R -> string) (t : dobj) : py_err + string :=
  match dt_background (ob_t t), ob_shape t with
  | None, _ => inr ""%string
  | Some g, [] => inr ("MLEM" ++ "(B:" ++ fmt (g 0%nat) ++ ")")%string
  | Some _, _ :: _ => inl TypeError
  end.
Definition run_numerics (s : sobj) (a : cargs) (t test : dterm) : vec * info :=
  let P := the_problem s a t test in
  match so_class s with
  | C_SIRT => sirt_call P (ca_iterations a)
  | C_MLEM => mlem_call P (ca_iterations a)
  | C_PDHG => pdhg_call P (ca_lipschitz a) (ca_iterations a)
  | C_FISTA => fista_call P (ca_lipschitz a) (so_restart s) (ca_iterations a)
  | _ => (vzeros, new_info 0 None)     (* FBP and SART do not use the data term; not modelled here *)
  end.
(** solver(A, b, iterations, ...): assign the data, build the info, compare and synchronise the backgrounds when there is a
    test mask, assign the test data, iterate *)
Definition call (s : sobj) (a : cargs) (h : heap) : heap * (py_err + (vec * info)) :=
  let sigma := the_sigma s a in
  let t := assign_cast (ca_dtype a) (fetch h (so_dt s)) (ca_b a) sigma in
  let h := store (so_dt s) t h in
  match info_error (so_class s) t with
  | Some e => (h, inl e)
  | None =>
      match ca_btest a with
      | None => (h, inr (run_numerics s a (ob_t t) (ob_t t)))
      | Some _ =>
          match backgrounds_differ t (fetch h (so_test s)) with
          | inl e => (h, inl e)
          | inr differ =>
              let test := if differ then sync t (fetch h (so_test s)) else fetch h (so_test s) in
              let test := assign_cast (ca_dtype a) test (ca_b a) sigma in
              let h := store (so_test s) test h in
              (h, inr (run_numerics s a (ob_t t) (ob_t test)))
          end
      end
  end.

(** ** A program that uses data terms and solvers *)
Record world := mkW { w_heap : heap; w_user : list nat; w_solvers : list sobj }.
Inductive arg := U_str (s : string) | U_var (u : nat) | U_other.
Inductive event :=
| E_term (k : kind) (background : option vec) (shape : list nat)        (* u = DataFidelity_k(background) *)
| E_assign (u : nat) (d : dtype) (b sigma : vec)                        (* u.assign_data(b, sigma) *)
| E_solver (c : sclass) (a : arg) (atest : option arg) (regs : list reg) (tol : option R) (relax : R) (restart : option nat)
| E_call (i : nat) (a : cargs).
Inductive outcome := O_none | O_error (e : py_err) | O_result (x : vec) (f : info).
Definition resolve (w : world) (a : arg) : dt_arg :=
  match a with
  | U_str s => A_str s
  | U_var u => match nth_error (w_user w) u with Some l => A_obj l | None => A_other end
  | U_other => A_other
  end.
Definition step (w : world) (e : event) : world * outcome :=
  match e with
  | E_term k bg shape => (mkW (w_heap w ++ [mkDO (new_dterm k bg) shape]) (w_user w ++ [length (w_heap w)]) (w_solvers w), O_none)
  | E_assign u d b sigma =>
      match nth_error (w_user w) u with
      | Some l => (mkW (store l (assign_cast d (fetch (w_heap w) l) b sigma) (w_heap w)) (w_user w) (w_solvers w), O_none)
      | None => (w, O_none)
      end
  | E_solver c a atest regs tol relax restart =>
      match init_terms c (resolve w a) (option_map (resolve w) atest) (w_heap w) with
      | inl e => (w, O_error e)
      | inr (h, (l, lt)) => (mkW h (w_user w) (w_solvers w ++ [mkSO c l lt regs tol relax restart]), O_none)
      end
  | E_call i a =>
      match nth_error (w_solvers w) i with
      | None => (w, O_none)
      | Some s => let '(h, r) := call s a (w_heap w) in
                  (mkW h (w_user w) (w_solvers w),
                   match r with inl e => O_error e | inr (x, f) => O_result x f end)
      end
  end.
Definition run (w : world) (es : list event) : world := fold_left (fun w e => fst (step w e)) es w.
Definition start : world := mkW [] [] [].

(** ** Threads: two SIRT calls whose statements interleave (e.g. parallel hyper-parameter evaluation).  One step is: assigning
    the data; the background comparison, test data and residual bookkeeping; one pass of the loop.  The loop reads the data
    terms of the object each time (solvers.py:924, 938-946, 951-982). *)
Inductive thread := T_start | T_assigned | T_loop (ii : nat) (x : vec) (f : info) | T_done (x : vec) (f : info) | T_failed (e : py_err).
Definition sirt_masks (a : cargs) := initialize_b_masks (ca_bmask a) (ca_btest a).
Definition thread_step (s : sobj) (a : cargs) (th : thread) (h : heap) : heap * thread :=
  let sigma := the_sigma s a in
  let '(bm, bt) := sirt_masks a in
  match th with
  | T_start => (store (so_dt s) (assign_cast (ca_dtype a) (fetch h (so_dt s)) (ca_b a) sigma) h, T_assigned)
  | T_assigned =>
      let t := fetch h (so_dt s) in
      let prepare h :=
        let x := pick_x0 (ca_x0 a) vzeros in
        let f := init_info (ca_m a) (ob_t (fetch h (so_dt s))) (ob_t (fetch h (so_test s))) bm bt (so_tol s) (opA (ca_op a) x)
                           (new_info (ca_iterations a) (so_tol s)) in
        (h, T_loop 0 x f) in
      match ca_btest a with
      | None => prepare h
      | Some _ =>
          match backgrounds_differ t (fetch h (so_test s)) with
          | inl e => (h, T_failed e)
          | inr _ =>   (* the assignment is skipped when the backgrounds are equal; then it would change nothing *)
              prepare (store (so_test s) (assign_cast (ca_dtype a) (sync t (fetch h (so_test s))) (ca_b a) sigma) h)
          end
      end
  | T_loop ii x f =>
      if Nat.eqb ii (ca_iterations a) then (h, T_done x f)
      else
        let P := the_problem s a (ob_t (fetch h (so_dt s))) (ob_t (fetch h (so_test s))) in
        let tau := diag_tau (ca_n a) (ca_op a) (so_regs s) (so_relax s) bm in
        let '(x', f', brk) := sirt_body P (ob_t (fetch h (so_dt s))) (ob_t (fetch h (so_test s))) bm bt sigma tau ii (x, f) in
        (h, if brk then T_done x' f' else T_loop (S ii) x' f')
  | _ => (h, th)
  end.
(** a schedule says which of the two threads runs next *)
Fixpoint interleave (s1 s2 : sobj) (a1 a2 : cargs) (sched : list bool) (st : heap * thread * thread) : heap * thread * thread :=
  match sched with
  | [] => st
  | b :: r =>
      let '(h, t1, t2) := st in
      interleave s1 s2 a1 a2 r
        (if b then let '(h, t1) := thread_step s1 a1 t1 h in (h, t1, t2)
         else let '(h, t2) := thread_step s2 a2 t2 h in (h, t1, t2))
  end.
