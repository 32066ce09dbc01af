(** denoisers.py *)
From Verif Require Import PyErr Sums DataTermsModel SolversModel SolversSpec SolversGeneric SolversProps RegularizersModel SolversConv ParamTuningModel.

(** denoisers.py:104-118, 121-130 [denoise_image]: the PDHG problem of one denoising run. [op]: identity or convolution with the point
    spread function; [pix_weights]: the local weights; [regs]: what the regulariser constructor returns for the weight at hand.
    solvers.py:1015-1030: the solver's defaults (relaxation 0.95, no tolerance). The scalar lower limit is broadcast by clip. *)
Definition dn_dterm (pix_weights : option vec) : dterm := new_dterm (match pix_weights with None => K_l2 | Some w => K_wl2 w end) None.
Definition dn_problem (n : nat) (op : linop) (img : vec) (pix_weights : option vec) (lower_limit : option R) (regs : list reg)
    (x0 : vec) (b_test_mask : option vec) : problem :=
  mkProblem n n op img (Some x0) (option_map (fun v _ => v) lower_limit) None None None b_test_mask None (95 / 100) regs
    (dn_dterm pix_weights) (dn_dterm pix_weights).

Section Denoise.
  Context (n ndim : nat) (op : linop) (img : vec) (pix_weights : option vec) (lower_limit : option R) (regularizer : R -> list reg)
    (iterations : nat).
  (** scipy.signal.medfilt2d (library): [med] is the median-filtered image; anything but a 2-D image is refused *)
  Context (med : vec).
  Definition medfilt2d : py_err + vec := if Nat.eqb ndim 2 then inr med else inl ValueError.

  (** 121-130 [solver_exec], with the solver of 113-118 [solver_init] for weight [w] *)
  Definition dn_exec (w : R) (b_test_mask : option vec) : py_err + (vec * info) :=
    match b_test_mask with
    | None => inr (pdhg_call (dn_problem n op img pix_weights lower_limit (regularizer w) img None) None iterations)
    | Some m => match medfilt2d with
                | inl e => inl e
                | inr md => let x0 := fun i => if Rlt_dec (5 / 10) (m i) then md i else img i in
                            inr (pdhg_call (dn_problem n op img pix_weights lower_limit (regularizer w) x0 (Some m)) None iterations)
                end
    end.

  (** param_tuning.py:1211-1233 [CrossValidation.compute_loss_values]: one row of losses per mask, then the mean over the masks.
      Simplified: the runs are evaluated in order (param_tuning's schedules are the subject of C45). *)
  Fixpoint dn_losses (ws : list R) (mask : vec) : py_err + list R :=
    match ws with
    | [] => inr []
    | w :: ws' => match dn_exec w (Some mask) with
                  | inl e => inl e
                  | inr (_, f) => match dn_losses ws' mask with inl e => inl e | inr fs => inr (cv_loss f :: fs) end
                  end
    end.
  Fixpoint dn_rows (ws : list R) (masks : list vec) : py_err + list (list R) :=
    match masks with
    | [] => inr []
    | m :: ms => match dn_losses ws m with inl e => inl e | inr row => match dn_rows ws ms with inl e => inl e | inr rows => inr (row :: rows) end end
    end.
  Definition col_mean (k : nat) (rows : list (list R)) : list R :=
    map (fun i => fold_right Rplus 0 (map (fun r => nth i r 0) rows) / INR (length rows)) (seq 0 k).

  (** 132-154: [w0 :: ws] are the given weights (at least one); [masks] the random leave-out masks (num_averages = 3).
      One weight: just the image. Several: cross-validation, parabola fit on the logarithmic scale, the image and the weight. *)
  Inductive dn_result := DnImage (x : vec) | DnImageWeight (x : vec) (w : R).
  Definition denoise_image (w0 : R) (ws : list R) (masks : list vec) : py_err + dn_result :=
    match ws with
    | [] => match dn_exec w0 None with inl e => inl e | inr (x, _) => inr (DnImage x) end
    | _ => match dn_rows (w0 :: ws) masks with
           | inl e => inl e
           | inr rows =>
               match fit_func_min ScaleLog (w0 :: ws) (col_mean (length (w0 :: ws)) rows) with
               | inl _ => inl ValueError
               | inr (w, _) => match dn_exec w None with inl e => inl e | inr (x, _) => inr (DnImageWeight x w) end
               end
           end
    end.
End Denoise.
