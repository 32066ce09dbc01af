(** C166: PDHG needs no boundedness assumption: a minimiser exists, the objective approaches its value, and the volumes converge. *)
From Verif Require Import Sums DataTermsModel DataTermsProofs SolversModel SolversSpec SolversGeneric SolversProps
  RegularizersModel SolversConv SolversConvProps SolversOptProps PdhgConv Compact PdhgConvProps PdhgExistProps PdhgData PdhgDataProps LsExist MinExist PdhgSeq PdhgSeqRun.

Definition sep_dead (s : sep) : bool := match sr s with Some rho => if Req_EM_T rho 0 then true else false | None => false end.
Lemma sep_probe m sg S : (forall i, (i < m)%nat -> sep_ok (S i)) -> forall i, (i < m)%nat ->
  if sep_dead (S i) then (forall z, ds_dom (sep_spec m sg S) z -> z i = 0)
  else exists rho, 0 < rho /\ ds_dom (sep_spec m sg S) (unitv i rho) /\ ds_dom (sep_spec m sg S) (unitv i (- rho)).
Proof.
  intros HS i Hi. unfold sep_dead. cbn [sep_spec ds_dom].
  assert (Z : forall k s, (k < m)%nat -> k <> i -> sep_dom (S k) (unitv i s k)).
  { intros k s Hk Hne. unfold unitv. replace (Nat.eqb k i) with false by (symmetry; apply Nat.eqb_neq; exact Hne). destruct (HS k Hk) as (_ & _ & Hr). unfold sep_dom. destruct (sr (S k)); [rewrite Rabs_R0; exact Hr|exact I]. }
  destruct (HS i Hi) as (_ & _ & Hr). destruct (sr (S i)) as [rho|] eqn:E.
  - destruct (Req_EM_T rho 0) as [E0|E0].
    + intros z Hz. specialize (Hz i Hi). unfold sep_dom in Hz. rewrite E in Hz. apply abs_le_iff in Hz. lra.
    + exists rho. split; [lra|]. split; intros k Hk; (destruct (Nat.eq_dec k i) as [->|Hne]; [|apply Z; assumption]); unfold sep_dom, unitv; rewrite E, Nat.eqb_refl, ?Rabs_Ropp, Rabs_right; lra.
  - exists 1. split; [lra|]. split; intros k Hk; (destruct (Nat.eq_dec k i) as [->|Hne]; [|apply Z; assumption]); unfold sep_dom; rewrite E; exact I.
Qed.
Lemma setting_probe P M rs l : loss_setting P M rs l -> forall i, (i < p_m P)%nat ->
  if sep_dead (kind_sep (dt_kind (p_dterm P)) (pdhg_sigma P l) (train_mask P) (target P) i) then (forall z, ds_dom (kind_spec P l) z -> z i = 0)
  else exists rho, 0 < rho /\ ds_dom (kind_spec P l) (unitv i rho) /\ ds_dom (kind_spec P l) (unitv i (- rho)).
Proof.
  intros (H1 & H2 & H3 & H4 & H5 & H6 & H7 & H8 & H9). apply (sep_probe (p_m P) (pdhg_sigma P l) (kind_sep (dt_kind (p_dterm P)) (pdhg_sigma P l) (train_mask P) (target P))).
  intros i Hi. apply kind_sep_ok; [exact H4|exact Hi|apply H8, Hi].
Qed.

Theorem C166_minimiser_exists : forall P M rs l, loss_setting P M rs l -> exists X, minimises (obeys_limits P) (loss_objective P M rs l) X.
Proof.
  intros P M rs l HP. pose proof HP as (H1 & H2 & H3 & H4 & H5 & H6 & H7 & H8 & H9). rewrite <- (obj_ext P M rs l HP).
  apply (e_minimiser P M rs l (kind_spec P l) (fun i => sep_dead (kind_sep (dt_kind (p_dterm P)) (pdhg_sigma P l) (train_mask P) (target P) i))); try assumption.
  - apply (setting_spec P M rs l HP).
  - apply (setting_probe P M rs l HP).
Qed.
Theorem C166_rate : forall P M rs l X, loss_setting P M rs l -> minimises (obeys_limits P) (loss_objective P M rs l) X ->
  exists C, 0 <= C /\ forall it, (2 <= it)%nat -> let x := fst (pdhg_call P l it) in
    obeys_limits P x /\ loss_objective P M rs l X <= loss_objective P M rs l x <= loss_objective P M rs l X + C / sqrt (INR it).
Proof.
  intros P M rs l X HP HX. pose proof HP as (H1 & H2 & H3 & H4 & H5 & H6 & H7 & H8 & H9). pose proof (obj_ext P M rs l HP) as Eo. rewrite <- Eo in *.
  destruct (e_rate P M rs l (kind_spec P l) H1 H2 H3 (proj1 (setting_spec P M rs l HP)) H5 H6 H8 X H9 HX) as (C & C0 & HC).
  exists C. split; [exact C0|]. intros it Hit. destruct (HC it Hit) as [A B]. split; [exact A|]. split; [apply HX, A|exact B].
Qed.
Theorem C166_volumes_converge : forall P M rs l, loss_setting P M rs l -> pd_steps_strict P M rs l ->
  exists X, minimises (obeys_limits P) (loss_objective P M rs l) X /\
    forall eps, 0 < eps -> exists N, forall it, (N <= it)%nat -> forall j, (j < p_n P)%nat -> Rabs (fst (pdhg_call P l it) j - X j) < eps.
Proof.
  intros P M rs l HP Hst. pose proof HP as (H1 & H2 & H3 & H4 & H5 & H6 & H7 & H8 & H9). destruct (C166_minimiser_exists P M rs l HP) as [X0 HX0]. pose proof (obj_ext P M rs l HP) as Eo. rewrite <- Eo in *.
  pose proof (proj1 (setting_spec P M rs l HP)) as HD.
  destruct (e_saddle P M rs l (kind_spec P l) H1 H2 H3 HD H6 H8 X0 HX0) as [Z0 HS].
  apply (e_sequence P M rs l (kind_spec P l) H1 H2 H3 HD H5 H6 H8 X0 Z0 H9 Hst HS).
Qed.
(** the default: preconditioned steps, relaxation 0.95 *)
Theorem C166_default_steps : forall P M rs, p_op P = mat_op (p_m P) (p_n P) M -> p_regs P = map (model_reg (p_n P)) rs ->
  Forall rs_ok rs -> Forall (rs_steps_ok (p_n P)) rs -> kind_ok (dt_kind (p_dterm P)) (p_m P) -> limits_ok P ->
  binary_mask (p_xmask P) -> binary_mask (train_mask P) -> safe_sigma P -> safe_tau P -> p_tol P = None -> p_relax P = 95 / 100 ->
  exists X, minimises (obeys_limits P) (loss_objective P M rs None) X /\
    forall eps, 0 < eps -> exists N, forall it, (N <= it)%nat -> forall j, (j < p_n P)%nat -> Rabs (fst (pdhg_call P None it) j - X j) < eps.
Proof.
  intros P M rs H1 H2 H3 H4 H5 H6 H7 H8 H9 H10 H11 H12. apply C166_volumes_converge.
  - split; [exact H1|]. split; [exact H2|]. split; [exact H3|]. split; [exact H5|]. split; [exact H6|]. split; [exact H7|]. split; [exact H8|]. split; [|exact H11].
    apply (diag_steps_ok P M rs); try assumption. lra.
  - apply strict_diag; try assumption. lra.
Qed.
(** un-preconditioned steps: the estimate of the operator norm only has to exceed 0.95 times the norm *)
Theorem C166_lipschitz_steps : forall P M rs L Lmax, p_op P = mat_op (p_m P) (p_n P) M -> p_regs P = map (model_reg (p_n P)) rs ->
  Forall rs_ok rs -> Forall (rs_steps_ok (p_n P)) rs -> kind_ok (dt_kind (p_dterm P)) (p_m P) -> limits_ok P ->
  binary_mask (p_xmask P) -> binary_mask (train_mask P) -> p_tol P = None -> p_relax P = 95 / 100 ->
  (forall x, norm2 (p_m P) (mv (p_n P) M x) <= Lmax ^ 2 * norm2 (p_n P) x) -> 0 < Lmax -> 95 / 100 * Lmax < L ->
  exists X, minimises (obeys_limits P) (loss_objective P M rs (Some L)) X /\
    forall eps, 0 < eps -> exists N, forall it, (N <= it)%nat -> forall j, (j < p_n P)%nat -> Rabs (fst (pdhg_call P (Some L) it) j - X j) < eps.
Proof.
  intros P M rs L Lmax H1 H2 H3 H4 H5 H6 H7 H8 H9 H10 H11 H12 H13.
  assert (Hs : pd_steps_strict P M rs (Some L)).
  { apply (strict_lips P M rs L (Rmin 1 (L / Lmax))); try assumption; try lra.
    - rewrite H10. split; [lra|]. apply Rmin_glb_lt; [lra|]. apply Rmult_lt_reg_r with Lmax; [exact H12|]. unfold Rdiv at 2. rewrite Rmult_assoc, Rinv_l by lra. lra.
    - apply Rmin_l.
    - intros x. eapply Rle_trans; [apply H11|]. apply Rmult_le_compat_r; [apply rsum_nonneg; intros; apply pow2_ge_0|]. apply pow_incr. split; [lra|].
      set (w := Rmin 1 (L / Lmax)). assert (Hw : 0 < w) by (apply Rmin_glb_lt; [lra|apply Rdiv_lt_0_compat; lra]). apply Rmult_le_reg_r with w; [exact Hw|].
      replace (L / w * w) with L by (field; lra). apply Rle_trans with (Lmax * (L / Lmax)); [apply Rmult_le_compat_l; [lra|apply Rmin_r]|]. right. field. lra. }
  apply C166_volumes_converge; [|exact Hs].
  split; [exact H1|]. split; [exact H2|]. split; [exact H3|]. split; [exact H5|]. split; [exact H6|]. split; [exact H7|]. split; [exact H8|]. split; [|exact H9].
  apply strict_ok; assumption.
Qed.
(** Non-vacuity: two voxels seen only through their sum (infinitely many minimisers, unbounded level sets), default relaxation. *)
Definition seq_demo : problem :=
  mkProblem 2 1 (mat_op 1 2 (fun _ _ => 1)) (fun _ => 3) None None None None None None
    None (95 / 100) [] (new_dterm K_l1 None) (new_dterm K_l1 None).
Example C166_example : loss_setting seq_demo (fun _ _ => 1) [] None /\ pd_steps_strict seq_demo (fun _ _ => 1) [] None /\
  ~ bounded_loss seq_demo (fun _ _ => 1) [] None.
Proof.
  assert (Sg : safe_sigma seq_demo).
  { apply scaling_safe_small; change (p_m seq_demo) with 1%nat; cbn [rmax]; unfold raw_sigma, ones_masked, mul_mask; cbn; unfold mv, mat_abs, vones; cbn [rsum]; unfold Rabs, Rmax;
    repeat (match goal with |- context [Rcase_abs ?a] => destruct (Rcase_abs a) | |- context [Rle_dec ?a ?b] => destruct (Rle_dec a b) end); lra. }
  assert (Tg : safe_tau seq_demo).
  { apply scaling_safe_small; change (p_n seq_demo) with 2%nat; cbn [rmax]; unfold raw_tau, ones_masked, mul_mask; cbn; unfold mtv, mat_abs, vones; cbn [rsum]; unfold Rabs, Rmax;
    repeat (match goal with |- context [Rcase_abs ?a] => destruct (Rcase_abs a) | |- context [Rle_dec ?a ?b] => destruct (Rle_dec a b) end); lra. }
  assert (Bx : binary_mask (p_xmask seq_demo)) by (intros i; right; reflexivity). assert (Bm : binary_mask (train_mask seq_demo)) by (intros i; right; reflexivity).
  assert (St : pd_steps_strict seq_demo (fun _ _ => 1) [] None) by (apply strict_diag; try assumption; try reflexivity; try constructor; cbn; lra).
  split; [|split; [exact St|]].
  - split; [reflexivity|]. split; [reflexivity|]. split; [constructor|]. split; [exact I|]. split; [intros lo up j E; discriminate|]. split; [exact Bx|]. split; [exact Bm|]. split; [|reflexivity].
    apply strict_ok; [constructor|exact St].
  - intros H. destruct (H 3) as [Rb HR]. set (y := fun j : nat => match j with O => Rabs Rb + 1 | _ => - (Rabs Rb + 1) end).
    specialize (HR y). assert (F : obeys_limits seq_demo y) by (intros j Hj; split; [exact I|intros _; split; exact I]). specialize (HR F).
    assert (V : loss_objective seq_demo (fun _ _ => 1) [] None y <= 3).
    { unfold loss_objective, lsum. cbn [p_m seq_demo rsum map fold_right p_n]. unfold mv, target, back_at, train_mask. cbn [rsum y].
      cbn. rewrite Rabs_left1; lra. }
    specialize (HR V 0%nat ltac:(cbn; lia)). cbn [y] in HR. rewrite (Rabs_right (Rabs Rb + 1)) in HR by (pose proof (Rabs_pos Rb); lra). pose proof (Rle_abs Rb). lra.
Qed.
