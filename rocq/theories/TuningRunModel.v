(** Model of src/corrct/param_tuning.py, classes [BaseParameterTuning] (593-895), [LCurve] (898-1062) and
    [CrossValidation] (1065-1256): setters, dispatch of the evaluation, reconstruction errors, loss values, performance
    measurements.  Real arithmetic instead of floating point; printing and the contents of the plots are not modelled (an
    exception raised while printing or plotting is). *)
From Coq Require Import Reals List String Bool ZArith Lra Lia.
From Verif Require Import PyErr Sums Rounding Arrays SolversModel AlignFitModel ParamTuningModel.
From Verif Require FiltersModel.
Import ListNotations.
Open Scope R_scope.

(** * Python callables: the names and kinds of the parameters (inspect.signature(f).parameters) and what the body does *)
Inductive pkind := Required | Optional | VarKw.
Record pyfun (Val A B : Type) := mkFun { f_params : list (string * pkind); f_run : A -> list (string * Val) -> py_err + B }.
Arguments f_params {Val A B}. Arguments f_run {Val A B}. Arguments mkFun {Val A B}.
Definition mem (k : string) (l : list string) : bool := existsb (String.eqb k) l.
Definition is_varkw (k : pkind) : bool := match k with VarKw => true | _ => false end.
Definition is_required (k : pkind) : bool := match k with Required => true | _ => false end.
(** f(a, **kw): the argument binds the first named parameter; a keyword that names it again, a keyword that nothing
    accepts, and a required parameter without a value are TypeErrors *)
Definition pycall {Val A B} (f : pyfun Val A B) (a : A) (kw : list (string * Val)) : py_err + B :=
  let named := filter (fun p => negb (is_varkw (snd p))) (f_params f) in
  let varkw := existsb (fun p => is_varkw (snd p)) (f_params f) in
  match named with
  | [] => inl TypeError
  | p0 :: rest =>
      if mem (fst p0) (map fst kw) then inl TypeError
      else if negb varkw && negb (forallb (fun k => mem k (map fst rest)) (map fst kw)) then inl TypeError
      else if negb (forallb (fun p => mem (fst p) (map fst kw)) (filter (fun p => is_required (snd p)) rest)) then inl TypeError
      else f_run f a kw
  end.

(** ** dictionaries: d[k] = v keeps the position of an existing key *)
Fixpoint kw_get {Val} (k : string) (d : list (string * Val)) : option Val :=
  match d with [] => None | (k', v) :: d' => if String.eqb k k' then Some v else kw_get k d' end.
Fixpoint kw_set {Val} (k : string) (v : Val) (d : list (string * Val)) : list (string * Val) :=
  match d with [] => [(k, v)] | (k', v') :: d' => if String.eqb k k' then (k, v) :: d' else (k', v') :: kw_set k v d' end.

(** * param_tuning.py:28-29 NUM_CPUS, MAX_THREADS = int(round(np.log2(NUM_CPUS + 1))) *)
Definition max_threads (num_cpus : nat) : Z := rint (FiltersModel.log2 (INR (num_cpus + 1))).

(** * the attribute parallel_eval: a bool, an int, an Executor, or something else ([PyOther c]: [c] tells whether the
    comparison with 0 is defined, e.g. a numpy integer, which is not an int) *)
Inductive par_eval := PyBool (b : bool) | PyInt (z : Z) | PyExecutor | PyOther (comparable : bool).
(** 638-640 [__init__] *)
Definition ctor_par (num_cpus : nat) (p : par_eval) : par_eval :=
  match p with PyBool true => PyInt (max_threads num_cpus) | PyBool false => PyInt 0 | _ => p end.

Section Tuning.
  Context {Hp Sol Rec Val : Type}.
  Notation kwds := (list (string * Val)).
  (** the argument of the execution function: the solver, or (without an initialization function) the hyper-parameter *)
  Inductive targ := ArgHp (h : Hp) | ArgSol (s : Sol).

  Record tuner := mkTuner {
    tn_init : option (pyfun Val Hp Sol);
    tn_exec : option (pyfun Val targ (Rec * info));
    tn_par : par_eval; tn_verbose : bool; tn_plot : bool }.

  (** 676-694, 696-710: the setters ([None]: not a callable) *)
  Definition set_task_init (t : tuner) (f : option (option (pyfun Val Hp Sol))) : py_err + tuner :=
    match f with
    | None => inr (mkTuner None (tn_exec t) (tn_par t) (tn_verbose t) (tn_plot t))
    | Some None => inl ValueError
    | Some (Some g) => if Nat.eqb (List.length (f_params g)) 1 then inr (mkTuner (Some g) (tn_exec t) (tn_par t) (tn_verbose t) (tn_plot t))
                       else inl ValueError
    end.
  Definition set_task_exec (t : tuner) (f : option (pyfun Val targ (Rec * info))) : py_err + tuner :=
    match f with
    | None => inl ValueError
    | Some g => if Nat.leb 1 (List.length (f_params g)) then inr (mkTuner (tn_init t) (Some g) (tn_par t) (tn_verbose t) (tn_plot t))
                else inl ValueError
    end.

  (** 370-415 [_compute_reconstruction], without the clock *)
  Definition compute_reconstruction (init : option (pyfun Val Hp Sol)) (exec : pyfun Val targ (Rec * info)) (kwi kwe : kwds) (h : Hp)
    : py_err + (Rec * info) :=
    match init with
    | Some g => match pycall g h kwi with inl e => inl e | inr s => pycall exec (ArgSol s) kwe end
    | None => pycall exec (ArgHp h) kwe
    end.

  (** 746-806 [process_hp_vals].  [is_open]: whether the caller's executor still accepts work (only used when parallel_eval
      is an Executor); [order]: the order in which the futures complete.  Returns the outcome and the state of the caller's
      executor: a failing task makes [_parallel_compute] (478-499) shut it down; submitting to a closed executor is a RuntimeError. *)
  Definition norm_par (num_cpus : nat) (p : par_eval) : par_eval :=
    match p with PyBool true => PyInt (max_threads num_cpus) | _ => p end.
  Definition is_nil {A} (l : list A) : bool := match l with [] => true | _ => false end.
  Definition process_hp_vals (num_cpus : nat) (dflt : Rec * info) (t : tuner) (is_open : bool) (order : list nat) (hp : list Hp) (kwi kwe : kwds)
    : (py_err + list (Rec * info)) * bool :=
    match tn_exec t with
    | None => (inl ValueError, is_open)
    | Some ex =>
        let task := compute_reconstruction (tn_init t) ex kwi kwe in
        match norm_par num_cpus (tn_par t) with
        | PyExecutor =>
            if negb is_open && negb (is_nil hp) then (inl RuntimeError, is_open)
            else match parallel_compute task dflt hp order with inl e => (inl e, false) | inr r => (inr r, is_open) end
        | PyInt z =>
            if Z.eqb z 0 then (serial_compute task dflt hp, is_open)
            else if Z.ltb z 0 then (inl ValueError, is_open)       (* ThreadPoolExecutor(max_workers=z) *)
            else (parallel_compute task dflt hp order, is_open)
        | PyBool _ => (serial_compute task dflt hp, is_open)       (* False is an int and is false *)
        | PyOther _ => (inl ValueError, is_open)
        end
    end.

  (** the report printed in verbose mode (848-858, 1033-1043, 1196-1210): hp_vals[0], parallel_eval > 0 *)
  Definition verbose_report (t : tuner) (hp : list Hp) : option py_err :=
    if tn_verbose t then
      if is_nil hp then Some IndexError
      else match tn_par t with PyOther false => Some TypeError | _ => None end
    else None.

  (** * 986-990 [LCurve.__init__]: the loss function has exactly one parameter ([None]: not a callable) *)
  Definition lcurve_init_ok (n_params : option nat) : bool := match n_params with Some n => Nat.eqb n 1 | None => false end.
  (** [self.loss_function(rec) for rec in recs] *)
  Fixpoint map_err {A B E} (f : A -> E + B) (l : list A) : E + list B :=
    match l with
    | [] => inr []
    | a :: l' => match f a with inl e => inl e | inr b => match map_err f l' with inl e => inl e | inr bs => inr (b :: bs) end end
    end.
  (** 1031-1062 [LCurve.compute_loss_values] *)
  Definition lcurve_loss (num_cpus : nat) (dflt : Rec * info) (t : tuner) (loss : Rec -> py_err + R) (is_open : bool) (order : list nat) (hp : list Hp) (kwi kwe : kwds)
    : (py_err + (list R * list Rec * list info)) * bool :=
    match verbose_report t hp with
    | Some e => (inl e, is_open)
    | None =>
        match process_hp_vals num_cpus dflt t is_open order hp kwi kwe with
        | (inl e, o) => (inl e, o)
        | (inr rs, o) => (match map_err loss (map fst rs) with inl e => inl e | inr fs => inr (fs, map fst rs, map snd rs) end, o)
        end
    end.

  (** * 1065-1256 [CrossValidation].  [inj]: a mask as an argument value. *)
  (** 1124-1129: one fresh permutation per random mask, one permutation for all the folds *)
  Definition cv_masks (shape : list nat) (cv_fraction : option R) (num_averages : nat) (perms : nat -> list nat) : list arr :=
    match cv_fraction with
    | Some f => map (fun k => create_random_test_mask shape f (perms k)) (seq 0 num_averages)
    | None => create_k_fold_test_masks shape num_averages (perms 0%nat)
    end.
  (** 1226-1231: info.residuals_cv_rel[-1] of each result *)
  Definition cv_val (f : info) : py_err + R := if Nat.eqb (i_max_iterations f) 0 then inl IndexError else inr (cv_loss f).
  (** 1212-1236: the rounds, from [ii] on; the dictionary of keyword arguments is updated in place from round to round *)
  Fixpoint cv_rounds (num_cpus : nat) (dflt : Rec * info) (t : tuner) (inj : arr -> Val) (name : string) (masks : list arr)
    (ii : nat) (is_open : bool) (orders : nat -> list nat) (hp : list Hp) (kwi kwe : kwds)
    : (py_err + list (list (Rec * info) * list R)) * bool :=
    match masks with
    | [] => (inr [], is_open)
    | m :: masks' =>
        let kwe' := kw_set name (inj m) kwe in
        match process_hp_vals num_cpus dflt t is_open (orders ii) hp kwi kwe' with
        | (inl e, o) => (inl e, o)
        | (inr rs, o) =>
            match map_err cv_val (map snd rs) with
            | inl e => (inl e, o)
            | inr fs => match cv_rounds num_cpus dflt t inj name masks' (S ii) o orders hp kwi kwe' with
                        | (inl e, o') => (inl e, o')
                        | (inr rest, o') => (inr ((rs, fs) :: rest), o')
                        end
            end
        end
    end.
  (** 1238-1239 np.mean(f_vals, axis=0), np.std(f_vals, axis=0) for [n] rounds; entry j *)
  Definition cv_mean (f : list (list R)) (j : nat) : R :=
    lsum f (fun l => nth j l 0) / INR (List.length f).
  Definition cv_std (f : list (list R)) (j : nat) : R :=
    sqrt (lsum f (fun l => (nth j l 0 - cv_mean f j) ^ 2) / INR (List.length f)).
  (** 1178-1256 [compute_loss_values].  Without rounds np.mean([]) is not an array of values: [None]. *)
  Definition cv_compute (num_cpus : nat) (dflt : Rec * info) (t : tuner) (inj : arr -> Val) (kfold : bool) (name : string) (masks : list arr)
    (is_open : bool) (orders : nat -> list nat) (hp : list Hp) (kwi kwe : kwds)
    : (py_err + (option (list R * list R) * list (list (Rec * info) * list R))) * bool :=
    match tn_exec t with
    | None => (inl ValueError, is_open)
    | Some ex =>
        if negb (mem name (map fst (f_params ex))) then (inl ValueError, is_open)
        else if (tn_verbose t && kfold && negb (is_nil hp) && is_nil masks)%bool then (inl ZeroDivisionError, is_open)
        else match verbose_report t hp with
        | Some e => (inl e, is_open)
        | None =>
            match cv_rounds num_cpus dflt t inj name masks 0 is_open orders hp kwi kwe with
            | (inl e, o) => (inl e, o)
            | (inr rs, o) =>
                let f := map snd rs in
                (inr (match rs with
                      | [] => None
                      | _ => Some (map (cv_mean f) (seq 0 (List.length hp)), map (cv_std f) (seq 0 (List.length hp)))
                      end, rs), o)
            end
        end
    end.
End Tuning.
Arguments targ : clear implicits. Arguments tuner : clear implicits.

(** * 808-895 [compute_reconstruction_error]: images of [np] pixels *)
Section RecError.
  Context {Hp Sol Val : Type} (npix : nat).
  Definition err_l1 (gnd rec : vec) : R := rsum npix (fun i => Rabs (Rabs (gnd i - rec i))).
  Definition err_l2 (gnd rec : vec) : R := sqrt (rsum npix (fun i => Rabs (gnd i - rec i) ^ 2)) ^ 2.
  (** 876-893: with plot_result, plt.subplots(2, 1) returns an array of axes, which has no method get_xticklabels *)
  Definition compute_reconstruction_error (num_cpus : nat) (dflt : vec * info) (t : tuner Hp Sol vec Val) (gnd : vec) (is_open : bool)
    (order : list nat) (hp : list Hp) (kwi kwe : list (string * Val)) : (py_err + (list R * list R)) * bool :=
    match verbose_report t hp with
    | Some e => (inl e, is_open)
    | None =>
        match process_hp_vals num_cpus dflt t is_open order hp kwi kwe with
        | (inl e, o) => (inl e, o)
        | (inr rs, o) => (if tn_plot t then inl AttributeError
                          else inr (map (fun r => err_l1 gnd (fst r)) rs, map (fun r => err_l2 gnd (fst r)) rs), o)
        end
    end.
End RecError.

(** * Performance measurements: 396-415 (a task reads the clock three times) and 463-505, 550-567 (a batch: at the start, after
    the preparation, at the end) *)
Record task_clock := mkTC { tk_0 : R; tk_1 : R; tk_2 : R }.
Definition task_perf (k : task_clock) : pm_task := mkTask (tk_1 k - tk_0 k) (tk_2 k - tk_1 k) (tk_2 k - tk_0 k).
Definition batch_perf (c0 c1 c2 : R) (ks : list task_clock) : pm_batch := mkBatch (c1 - c0) (c2 - c1) (c2 - c0) (map task_perf ks).

(** * The threads of a cross-validation (1212-1236 and 463-499).  The main thread sets the mask of the round in the shared
    dictionary, submits one task per hyper-parameter, and blocks until all have completed; a worker that runs a task reads
    the dictionary at that moment. *)
Record cvstate := mkCS {
  cs_round : nat;                       (* the current round *)
  cs_submitted : nat;                   (* tasks submitted in this round *)
  cs_dict : option nat;                 (* which round's mask is in the dictionary *)
  cs_pending : list (nat * nat);        (* (round, hyper-parameter) submitted, not yet run *)
  cs_log : list (nat * nat * option nat) (* (round, hyper-parameter, mask that the task read) *) }.
Definition cs_start : cvstate := mkCS 0 0 (Some 0%nat) [] [].      (* line 1216 of the first round done *)
Inductive cv_step (rounds nhp : nat) : cvstate -> cvstate -> Prop :=
  | cv_submit : forall s, (cs_round s < rounds)%nat -> (cs_submitted s < nhp)%nat ->
      cv_step rounds nhp s (mkCS (cs_round s) (S (cs_submitted s)) (cs_dict s) (cs_pending s ++ [(cs_round s, cs_submitted s)]) (cs_log s))
  | cv_worker : forall s l1 p l2, cs_pending s = l1 ++ p :: l2 ->
      cv_step rounds nhp s (mkCS (cs_round s) (cs_submitted s) (cs_dict s) (l1 ++ l2) (cs_log s ++ [(p, cs_dict s)]))
  | cv_next : forall s, (cs_round s < rounds)%nat -> cs_submitted s = nhp -> cs_pending s = [] ->
      cv_step rounds nhp s (mkCS (S (cs_round s)) 0 (Some (S (cs_round s))) [] (cs_log s)).
Inductive cv_reach (rounds nhp : nat) : cvstate -> Prop :=
  | cvr_start : cv_reach rounds nhp cs_start
  | cvr_step : forall s s', cv_reach rounds nhp s -> cv_step rounds nhp s s' -> cv_reach rounds nhp s'.
