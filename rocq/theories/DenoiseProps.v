(** C168: denoise_image. *)
From Coq Require Import FunctionalExtensionality.
From Verif Require Import PyErr Sums DataTermsModel DataTermsProofs SolversModel SolversSpec SolversGeneric SolversProps
  RegularizersModel SolversConv SolversConvProps SolversOptProps ParamTuningModel ParamTuningProps PdhgConv Compact PdhgConvProps PdhgExistProps PdhgData PdhgDataProps
  MinExist PdhgSeq PdhgSeqRun PdhgSeqProps KlPdhgProps DenoiseModel.

(** * Specification *)
(** weighted squared distance to the image plus regularisation *)
Definition dn_weight (pw : option vec) (i : nat) : R := match pw with None => 1 | Some w => w i end.
Definition dn_objective (n : nat) (M : mat) (pw : option vec) (img : vec) (rs : list rspec) (x : vec) : R :=
  rsum n (fun i => dn_weight pw i * (mv n M x i - img i) ^ 2 / 2) + lsum rs (fun r => rs_value n r x).
Definition above_limit (n : nat) (lower : option R) (x : vec) : Prop := match lower with None => True | Some lo => forall j, (j < n)%nat -> lo <= x j end.
Definition tends (n : nat) (f : nat -> vec) (X : vec) : Prop :=
  forall eps, 0 < eps -> exists N, forall it, (N <= it)%nat -> forall j, (j < n)%nat -> Rabs (f it j - X j) < eps.
(** what the regulariser constructor must return for weight [w], and admissible steps *)
Definition dn_setting (n : nat) (M : mat) (pw : option vec) (rs : list rspec) : Prop :=
  Forall rs_ok rs /\ Forall (rs_steps_ok n) rs /\ (forall i, (i < n)%nat -> 0 <= dn_weight pw i) /\
  scaling_safe n (raw_sigma (mat_op n n M) None) /\ scaling_safe n (raw_tau (mat_op n n M) (map (model_reg n) rs) None).
Definition one_image (r : py_err + dn_result) : vec := match r with inr (DnImage x) => x | inr (DnImageWeight x _) => x | inl _ => vzeros end.

Section Dn.
  Variables (n ndim : nat) (M : mat) (img : vec) (pw : option vec) (lower : option R) (rs_of : R -> list rspec) (med : vec).
  Let reg (w : R) : list reg := map (model_reg n) (rs_of w).
  Let P (w : R) : problem := dn_problem n (mat_op n n M) img pw lower (reg w) img None.
  Lemma dn_lim w x : obeys_limits (P w) x <-> above_limit n lower x.
  Proof.
    unfold obeys_limits, above_limit, feasible, P, dn_problem. cbn. destruct lower as [lo|]; cbn.
    - split; [intros H j Hj; apply (H j Hj); exact I|intros H j Hj; split; [exact I|intros _; split; [apply H, Hj|exact I]]].
    - split; [auto|]. intros _ j Hj. split; [exact I|]. auto.
  Qed.
  Lemma dn_obj w l x : loss_objective (P w) M (rs_of w) l x = dn_objective n M pw img (rs_of w) x.
  Proof.
    unfold loss_objective, dn_objective. cbn [P dn_problem p_m p_n p_dterm dn_dterm new_dterm dt_kind]. f_equal. apply rsum_ext. intros i Hi. unfold target, back_at, mask_at, train_mask. cbn.
    unfold dn_weight, pixel_loss. destruct pw; cbn; field.
  Qed.
  Lemma dn_steps w : dn_setting n M pw (rs_of w) -> exists X, minimises (obeys_limits (P w)) (loss_objective (P w) M (rs_of w) None) X /\ tends n (fun it => fst (pdhg_call (P w) None it)) X.
  Proof.
    intros (H1 & H2 & H3 & H4 & H5). apply (C166_default_steps (P w) M (rs_of w)); try reflexivity; try assumption.
    - unfold P, dn_problem, dn_dterm, kind_ok, new_dterm. cbn. destruct pw; cbn; [exact H3|exact I].
    - unfold limits_ok, P, dn_problem. cbn. intros lo up j E1 E2. discriminate.
    - intros i. right. reflexivity.
    - intros i. right. reflexivity.
  Qed.
  Lemma dn_strong w X : Forall rs_ok (rs_of w) -> (forall i, (i < n)%nat -> 0 <= dn_weight pw i) -> minimises (obeys_limits (P w)) (loss_objective (P w) M (rs_of w) None) X ->
    above_limit n lower X /\ forall y, above_limit n lower y -> dn_objective n M pw img (rs_of w) X + rsum n (fun i => dn_weight pw i * (mv n M y i - mv n M X i) ^ 2 / 2) <= dn_objective n M pw img (rs_of w) y.
  Proof.
    intros Hok Hw [HX HM]. split; [apply (dn_lim w), HX|]. intros y Hy. apply (dn_lim w) in Hy. set (Q := rsum n (fun i => dn_weight pw i * (mv n M y i - mv n M X i) ^ 2 / 2)).
    set (F := dn_objective n M pw img (rs_of w)).
    assert (K : forall t, 0 < t < 1 -> (1 - t) * Q <= F y - F X).
    { intros t Ht. set (z := lc t y (1 - t) X). assert (Hz : obeys_limits (P w) z) by (apply feasible_convex; [lra|exact Hy|exact HX]).
      pose proof (HM z Hz) as A. rewrite !dn_obj in A. fold F in A. pose proof (regs_convex n (rs_of w) t y X Hok ltac:(lra)) as B. fold z in B.
      assert (E : rsum n (fun i => dn_weight pw i * (mv n M z i - img i) ^ 2 / 2) = t * rsum n (fun i => dn_weight pw i * (mv n M y i - img i) ^ 2 / 2)
        + (1 - t) * rsum n (fun i => dn_weight pw i * (mv n M X i - img i) ^ 2 / 2) - t * (1 - t) * Q).
      { unfold Q. rewrite <- !rsum_scal, <- rsum_plus, <- rsum_minus. apply rsum_ext. intros i _.
        assert (Ez : mv n M z i = t * mv n M y i + (1 - t) * mv n M X i). { unfold z, mv, lc. rewrite <- !rsum_scal, <- rsum_plus. apply rsum_ext. intros; ring. }
        rewrite Ez. field. }
      unfold F, dn_objective in A |- *. rewrite E in A.
      set (dy := rsum n (fun i => dn_weight pw i * (mv n M y i - img i) ^ 2 / 2)) in *. set (dX := rsum n (fun i => dn_weight pw i * (mv n M X i - img i) ^ 2 / 2)) in *.
      set (ry := lsum (rs_of w) (fun r => rs_value n r y)) in *. set (rX := lsum (rs_of w) (fun r => rs_value n r X)) in *. set (rz := lsum (rs_of w) (fun r => rs_value n r z)) in *.
      apply Rmult_le_reg_l with t; [lra|]. assert (t * ((1 - t) * Q) = t * (1 - t) * Q) by ring. lra. }
    assert (Q0 : 0 <= Q). { apply rsum_nonneg. intros i Hi. specialize (Hw i Hi). apply Rdiv_le_0_compat; [|lra]. apply Rmult_le_pos; [exact Hw|apply pow2_ge_0]. }
    apply Rnot_lt_le. intros Neg. set (g := F y - F X) in *. assert (G : g < Q) by (unfold g; lra). assert (G0 : 0 <= g) by (specialize (K (/ 2) ltac:(lra)); lra).
    specialize (K ((Q - g) / (2 * Q))). assert (Ht : 0 < (Q - g) / (2 * Q) < 1). { split; [apply Rdiv_lt_0_compat; lra|]. apply Rmult_lt_reg_r with (2 * Q); [lra|]. unfold Rdiv. rewrite Rmult_assoc, Rinv_l by lra. lra. }
    specialize (K Ht). replace ((1 - (Q - g) / (2 * Q)) * Q) with ((Q + g) / 2) in K by (field; lra). lra.
  Qed.

  Let den := denoise_image n ndim (mat_op n n M) img pw lower reg.
  Let den_it (w : R) (it : nat) : vec := one_image (den it med w [] []).
  Lemma den_eq w it masks : den it med w [] masks = inr (DnImage (fst (pdhg_call (P w) None it))).
  Proof. unfold den, denoise_image, dn_exec. unfold P. destruct (pdhg_call _ None it) as [x f]. reflexivity. Qed.
End Dn.

(** one weight: only the image is returned, it respects the lower limit, and with more iterations it tends to a
    minimiser of  1/2 sum weight (psf * x - image)^2 + regularisation  over the images above the limit; two minimisers give
    the same blurred image wherever the weight is positive *)
Theorem C168_converges : forall n ndim M img pw lower rs_of med w masks, dn_setting n M pw (rs_of w) ->
  exists X (out : nat -> vec), (forall it, denoise_image n ndim (mat_op n n M) img pw lower (fun v => map (model_reg n) (rs_of v)) it med w [] masks = inr (DnImage (out it))) /\
    (forall it, (1 <= it)%nat -> above_limit n lower (out it)) /\ tends n out X /\ above_limit n lower X /\
    forall y, above_limit n lower y -> dn_objective n M pw img (rs_of w) X + rsum n (fun i => dn_weight pw i * (mv n M y i - mv n M X i) ^ 2 / 2) <= dn_objective n M pw img (rs_of w) y.
Proof.
  intros n ndim M img pw lower rs_of med w masks HS. destruct (dn_steps n M img pw lower rs_of w HS) as (X & HM & HT). set (P := dn_problem n (mat_op n n M) img pw lower (map (model_reg n) (rs_of w)) img None) in *.
  exists X, (fun it => fst (pdhg_call P None it)). split; [intros it; apply den_eq|]. split.
  - intros it Hit. apply (dn_lim n M img pw lower rs_of w). fold P. apply (C24_pdhg_limits P None it); [|exact Hit]. unfold limits_ok, P, dn_problem. cbn. intros lo up j E1 E2. discriminate.
  - split; [exact HT|]. destruct HS as (H1 & _ & H3 & _). apply (dn_strong n M img pw lower rs_of w X H1 H3 HM).
Qed.
(** without point spread function: the steps are admissible, the limit is the only minimiser *)
Definition no_psf : mat := idm.
Lemma id_abs n x j : (j < n)%nat -> mv n (mat_abs no_psf) x j = x j.
Proof.
  intros Hj. unfold mv, mat_abs, no_psf, idm. rewrite (rsum_ext n _ (fun k => x k * unitv j 1 k)); [rewrite unit_sum by exact Hj; ring|].
  intros k _. unfold unitv. destruct (Nat.eqb k j); rewrite ?Rabs_R0, ?Rabs_R1; ring.
Qed.
Lemma id_abs_t n x j : (j < n)%nat -> mtv n (mat_abs no_psf) x j = x j.
Proof.
  intros Hj. unfold mtv, mat_abs, no_psf, idm. rewrite (rsum_ext n _ (fun k => x k * unitv j 1 k)); [rewrite unit_sum by exact Hj; ring|].
  intros k _. unfold unitv. rewrite (Nat.eqb_sym j k). destruct (Nat.eqb k j); rewrite ?Rabs_R0, ?Rabs_R1; ring.
Qed.
Lemma rmax_range n f a b : (0 < n)%nat -> (forall j, (j < n)%nat -> a <= f j <= b) -> a <= rmax n f <= b.
Proof. intros Hn H. destruct (rmax_attained n f Hn) as (i & Hi & ->). apply H, Hi. Qed.
Theorem C168_identity_steps : forall n rs pw, (0 < n)%nat -> Forall rs_ok rs -> Forall (rs_steps_ok n) rs -> (forall j, (j < n)%nat -> lsum rs (fun r => rs_t r j) <= 99999) ->
  (forall i, (i < n)%nat -> 0 <= dn_weight pw i) -> dn_setting n no_psf pw rs.
Proof.
  intros n rs pw Hn H1 H2 H3 H4. split; [exact H1|]. split; [exact H2|]. split; [exact H4|].
  assert (A : 1 <= rmax n (raw_sigma (mat_op n n no_psf) None) <= 1).
  { apply rmax_range; [exact Hn|]. intros j Hj. unfold raw_sigma. cbn [opAabs mat_op ones_masked]. rewrite id_abs by exact Hj. unfold ones_masked, mul_mask, vones. rewrite Rabs_R1. lra. }
  assert (B : 1 <= rmax n (raw_tau (mat_op n n no_psf) (map (model_reg n) rs) None) <= 100000).
  { apply rmax_range; [exact Hn|]. intros j Hj. rewrite raw_tau_sum. cbn [opAtabs mat_op]. rewrite id_abs_t by exact Hj. unfold ones_masked, mul_mask, vones. rewrite Rabs_R1. specialize (H3 j Hj).
    assert (E : lsum (map (model_reg n) rs) (fun r => r_tau r j) = lsum rs (fun r => rs_t r j)) by (clear; induction rs as [|r rs IH]; [reflexivity|cbn [map]; rewrite !lsum_cons, IH; reflexivity]).
    rewrite E. assert (0 <= lsum rs (fun r => rs_t r j)); [|lra].
    clear -H1 H2 Hj. induction rs as [|r rs IH]; [apply Rle_refl|]. inversion H1; subst. inversion H2; subst. rewrite lsum_cons. assert (0 <= rs_t r j); [|specialize (IH H4 H6); lra].
    destruct H5 as [_ H5]. eapply Rle_trans; [|apply (H5 j Hj)]. apply Rmult_le_pos; [left; apply scale_pos; assumption|]. apply rsum_nonneg. intros; apply Rabs_pos. }
  split; apply scaling_safe_small; lra.
Qed.

(** without point spread function and with positive weights there is one minimiser only *)
Theorem C168_unique : forall n pw img rs lower X Y, (forall i, (i < n)%nat -> 0 < dn_weight pw i) ->
  (forall y, above_limit n lower y -> dn_objective n no_psf pw img rs X + rsum n (fun i => dn_weight pw i * (mv n no_psf y i - mv n no_psf X i) ^ 2 / 2) <= dn_objective n no_psf pw img rs y) ->
  above_limit n lower Y -> dn_objective n no_psf pw img rs Y <= dn_objective n no_psf pw img rs X -> forall i, (i < n)%nat -> Y i = X i.
Proof.
  intros n pw img rs lower X Y Hw HX HY Hle i Hi. specialize (HX Y HY).
  assert (T : dn_weight pw i * (mv n no_psf Y i - mv n no_psf X i) ^ 2 / 2 <= 0).
  { eapply Rle_trans; [apply (rsum_term_le n (fun i => dn_weight pw i * (mv n no_psf Y i - mv n no_psf X i) ^ 2 / 2) i)|]; [|exact Hi|lra].
    intros k Hk. specialize (Hw k Hk). apply Rdiv_le_0_compat; [|lra]. apply Rmult_le_pos; [lra|apply pow2_ge_0]. }
  unfold no_psf in T. rewrite !mv_id in T by exact Hi. specialize (Hw i Hi). pose proof (pow2_ge_0 (Y i - X i)) as Q.
  assert (Q0 : (Y i - X i) ^ 2 = 0). { apply Rle_antisym; [|exact Q]. apply Rmult_le_reg_l with (dn_weight pw i); [exact Hw|]. lra. }
  assert (Y i - X i = 0); [|lra]. apply Rsqr_0_uniq. unfold Rsqr. lra.
Qed.
(** denoising never increases the difference of two images (no point spread function, no weights) *)
Theorem C168_nonexpansive : forall n ndim img img' lower rs_of med w, dn_setting n no_psf None (rs_of w) ->
  exists X X', tends n (fun it => one_image (denoise_image n ndim (mat_op n n no_psf) img None lower (fun v => map (model_reg n) (rs_of v)) it med w [] [])) X /\
    tends n (fun it => one_image (denoise_image n ndim (mat_op n n no_psf) img' None lower (fun v => map (model_reg n) (rs_of v)) it med w [] [])) X' /\
    rsum n (fun i => (X i - X' i) ^ 2) <= rsum n (fun i => (img i - img' i) ^ 2).
Proof.
  intros n ndim img img' lower rs_of med w HS.
  destruct (C168_converges n ndim no_psf img None lower rs_of med w [] HS) as (X & out & E & _ & T & L & M1).
  destruct (C168_converges n ndim no_psf img' None lower rs_of med w [] HS) as (X' & out' & E' & _ & T' & L' & M2).
  exists X, X'. split; [|split].
  - intros eps He. destruct (T eps He) as (N & HN). exists N. intros it Hit j Hj. rewrite E. apply HN; assumption.
  - intros eps He. destruct (T' eps He) as (N & HN). exists N. intros it Hit j Hj. rewrite E'. apply HN; assumption.
  - specialize (M1 X' L'). specialize (M2 X L). unfold dn_objective in M1, M2. cbn [dn_weight] in M1, M2. unfold no_psf in M1, M2.
    set (r1 := lsum (rs_of w) (fun r => rs_value n r X)) in *. set (r2 := lsum (rs_of w) (fun r => rs_value n r X')) in *.
    assert (G : rsum n (fun i => (X i - X' i) ^ 2) <= rsum n (fun i => (img i - img' i) * (X i - X' i))).
    { assert (S1 : rsum n (fun i => 1 * (mv n idm X i - img i) ^ 2 / 2) = rsum n (fun i => (X i - img i) ^ 2 / 2)) by (apply rsum_ext; intros i Hi; rewrite mv_id by exact Hi; field).
      assert (S2 : rsum n (fun i => 1 * (mv n idm X' i - img i) ^ 2 / 2) = rsum n (fun i => (X' i - img i) ^ 2 / 2)) by (apply rsum_ext; intros i Hi; rewrite mv_id by exact Hi; field).
      assert (S3 : rsum n (fun i => 1 * (mv n idm X i - img' i) ^ 2 / 2) = rsum n (fun i => (X i - img' i) ^ 2 / 2)) by (apply rsum_ext; intros i Hi; rewrite mv_id by exact Hi; field).
      assert (S4 : rsum n (fun i => 1 * (mv n idm X' i - img' i) ^ 2 / 2) = rsum n (fun i => (X' i - img' i) ^ 2 / 2)) by (apply rsum_ext; intros i Hi; rewrite mv_id by exact Hi; field).
      assert (S5 : rsum n (fun i => 1 * (mv n idm X' i - mv n idm X i) ^ 2 / 2) = rsum n (fun i => (X i - X' i) ^ 2 / 2)) by (apply rsum_ext; intros i Hi; rewrite !mv_id by exact Hi; field).
      assert (S6 : rsum n (fun i => 1 * (mv n idm X i - mv n idm X' i) ^ 2 / 2) = rsum n (fun i => (X i - X' i) ^ 2 / 2)) by (apply rsum_ext; intros i Hi; rewrite !mv_id by exact Hi; field).
      rewrite S1, S2, S5 in M1. rewrite S3, S4, S6 in M2.
      assert (Sum : rsum n (fun i => (X' i - img i) ^ 2 / 2) + rsum n (fun i => (X i - img' i) ^ 2 / 2) - rsum n (fun i => (X i - img i) ^ 2 / 2) - rsum n (fun i => (X' i - img' i) ^ 2 / 2)
         = rsum n (fun i => (img i - img' i) * (X i - X' i))) by (rewrite <- rsum_plus, <- !rsum_minus; apply rsum_ext; intros i _; field).
      assert (Dbl : rsum n (fun i => (X i - X' i) ^ 2) = rsum n (fun i => (X i - X' i) ^ 2 / 2) + rsum n (fun i => (X i - X' i) ^ 2 / 2)) by (rewrite <- rsum_plus; apply rsum_ext; intros i _; field).
      lra. }
    assert (H2 : 2 * rsum n (fun i => (img i - img' i) * (X i - X' i)) <= rsum n (fun i => (img i - img' i) ^ 2) + rsum n (fun i => (X i - X' i) ^ 2)).
    { rewrite <- rsum_scal, <- rsum_plus. apply rsum_le. intros i _. pose proof (pow2_ge_0 ((img i - img' i) - (X i - X' i))). lra. }
    lra.
Qed.

(** an image in which the regularisers find nothing to penalise is returned unchanged, after any number of iterations *)
Lemma domreg_zero rs : Forall rs_ok rs -> domreg rs vzeros.
Proof.
  induction 1 as [|r rs Hr H IH]; [exact I|]. split; [|exact IH]. unfold dual_ok. destruct Hr as (Hw & _). destruct (rs_kind r) as [|nax N|]; [| |exact I].
  - intros i _. unfold vzeros. rewrite Rabs_R0. lra.
  - intros i _. rewrite (grp_norm_ext nax _ (fun _ => 0 * 0)) by (intros; unfold vzeros; ring). rewrite grp_norm_scale by lra. lra.
Qed.
Lemma fsreg_zero rs : fsreg rs vzeros = 0.
Proof.
  induction rs as [|r rs IH]; [reflexivity|]. cbn [fsreg]. change (shift (rs_p r) vzeros) with vzeros. rewrite IH. unfold conj_r. destruct (rs_kind r); try lra.
  rewrite rsum_zero; [lra|]. intros i _. unfold vzeros, Rdiv. ring.
Qed.
Lemma fsreg_nonneg rs z : Forall rs_ok rs -> 0 <= fsreg rs z.
Proof.
  intros H. revert z. induction H as [|r rs Hr H IH]; intros z; [apply Rle_refl|]. cbn [fsreg]. specialize (IH (shift (rs_p r) z)). assert (0 <= conj_r r z); [|lra].
  unfold conj_r. destruct Hr as (Hw & _). destruct (rs_kind r); try lra. apply rsum_nonneg. intros i _. apply Rdiv_le_0_compat; [apply pow2_ge_0|lra].
Qed.

Lemma zero_of_sum d (f s : vec) : (forall i, (i < d)%nat -> 0 < s i) -> rsum d (fun i => f i ^ 2 / s i) <= 0 -> forall i, (i < d)%nat -> f i = 0.
Proof.
  intros Hs H i Hi. pose proof (rsum_term_le d (fun i => f i ^ 2 / s i) i ltac:(intros k Hk; apply Rdiv_le_0_compat; [apply pow2_ge_0|apply Hs, Hk]) Hi) as T. cbv beta in T.
  specialize (Hs i Hi). pose proof (pow2_ge_0 (f i)) as Q. assert (f i ^ 2 = 0).
  { apply Rle_antisym; [|exact Q]. apply Rmult_le_reg_r with (/ s i); [apply Rinv_0_lt_compat; exact Hs|]. unfold Rdiv in T. lra. }
  apply Rsqr_0_uniq. unfold Rsqr. lra.
Qed.
Section Kept.
  Variables (P : problem) (M : mat) (rs : list rspec) (l : option R).
  Hypothesis HS : loss_setting P M rs l.
  Let x0 := pick_x0 (p_x0 P) vzeros.
  Hypothesis Hx0 : obeys_limits P x0.
  Hypothesis Hobj : loss_objective P M rs l x0 = 0.
  Let D := kind_spec P l.
  Let n := p_n P.
  Let m := p_m P.
  Lemma conj0 : ds_conj D vzeros = 0.
  Proof. unfold D, kind_spec, sep_spec. cbn [ds_conj]. apply rsum_zero. intros i _. unfold sep_conj, vzeros. rewrite Rabs_R0. field. Qed.
  Lemma vals0 : ds_val D (mv n M x0) <= 0 /\ lsum rs (fun r => rs_value n r x0) <= 0.
  Proof.
    destruct (setting_spec P M rs l HS) as [HD E]. destruct HD as (_ & H2 & _ & _ & _ & _ & H7 & _). specialize (H2 (mv n M x0) vzeros H7). fold D in H2. rewrite conj0, rsum_zero in H2 by (intros; unfold vzeros; ring).
    specialize (E x0). unfold data_objective in E. fold D n in E. rewrite Hobj in E. destruct HS as (_ & _ & H3 & _). pose proof (regs_nonneg n rs x0 H3). lra.
  Qed.
  Lemma kept k : let s := pdhg_iterate P l k in veq n (pd_x s) x0 /\ veq n (pd_xrelax s) x0 /\ veq m (pd_p s) vzeros /\ veq (tot rs) (stackq rs (pd_q s)) vzeros.
  Proof.
    pose proof HS as (S1 & S2 & S3 & S4 & S5 & S6 & S7 & S8 & S9). destruct vals0 as [V1 V2]. pose proof (proj1 (setting_spec P M rs l HS)) as HD. fold D in HD.
    induction k as [|k IH].
    { cbv zeta. split; [intros i _; reflexivity|]. split; [intros i _; reflexivity|]. split; [intros i _; reflexivity|].
      cbn [pdhg_iterate iterate pdhg_start pd_q]. rewrite S2. clear. induction rs as [|r rs' IH]; [intros i _; reflexivity|]. intros i Hi. cbn [map stackq]. unfold put. destruct (Nat.ltb_spec i (rs_p r)).
      - change (r_init_dual (model_reg (p_n P) r)) with vzeros. unfold effq, vzeros. destruct (rs_kind r); ring.
      - change (vzeros i) with (vzeros (i - rs_p r)%nat). apply IH. cbn [tot] in Hi. lia. }
    cbv zeta in IH |- *. destruct IH as (I1 & I2 & I3 & I4).
    assert (Mx : forall A i, mv n A (pd_xrelax (pdhg_iterate P l k)) i = mv n A x0 i) by (intros A i; apply rsum_ext; intros j Hj; rewrite (I2 j Hj); reflexivity).
    assert (P3 : veq m (pd_p (pdhg_iterate P l (S k))) vzeros).
    { rewrite (b_p_S P M l S1 k). fold n. set (u := mv n M (pd_xrelax (pdhg_iterate P l k))). set (p := pd_p (pdhg_iterate P l k)) in *. destruct HD as (H1 & H2 & _ & _ & _ & _ & H7 & _).
      destruct (H1 p u) as [Hd Hv]. specialize (Hv vzeros H7). rewrite conj0 in Hv. specialize (H2 u _ Hd). set (s := data_step P l p u) in *. fold m in Hv, H2.
      assert (Eu : u = mv n M x0) by (apply vec_ext; intros i; apply Mx). rewrite Eu in H2, Hv.
      assert (E1 : rsum m (fun i => mv n M x0 i * (vzeros i - s i)) = - rsum m (fun i => mv n M x0 i * s i)) by (rewrite <- rsum_opp; apply rsum_ext; intros; unfold vzeros; ring).
      assert (E2 : rsum m (fun i => (p i - s i) * (vzeros i - s i) / pdhg_sigma P l i) = rsum m (fun i => s i ^ 2 / pdhg_sigma P l i)) by (apply rsum_ext; intros i Hi; rewrite (I3 i Hi); unfold vzeros, Rdiv; ring).
      rewrite E1, E2 in Hv. intros i0 Hi0; apply (zero_of_sum m s (pdhg_sigma P l)); [intros i Hi; apply S8, Hi|lra|exact Hi0]. }
    assert (P4 : veq (tot rs) (stackq rs (pd_q (pdhg_iterate P l (S k)))) vzeros).
    { rewrite (q_S P rs l S2 k). fold n. pose proof (regs_vi n rs (pd_q (pdhg_iterate P l k)) (pd_xrelax (pdhg_iterate P l k)) S3 (q_len P rs l S2 k)) as V. cbv zeta in V. destruct V as [Vd V].
      specialize (V vzeros (domreg_zero rs S3)). rewrite fsreg_zero in V. pose proof (regs_sup n rs x0 _ S3 Vd) as G.
      set (z' := stackq rs (new_duals n rs (pd_q (pdhg_iterate P l k)) (pd_xrelax (pdhg_iterate P l k)))) in *. rewrite rsum_plus in V.
      assert (E1 : rsum (tot rs) (fun i => mv n (Kreg rs) (pd_xrelax (pdhg_iterate P l k)) i * (vzeros i - z' i)) = - rsum (tot rs) (fun i => mv n (Kreg rs) x0 i * z' i)) by (rewrite <- rsum_opp; apply rsum_ext; intros; rewrite Mx; unfold vzeros; ring).
      assert (E2 : rsum (tot rs) (fun i => (stackq rs (pd_q (pdhg_iterate P l k)) i - z' i) * (vzeros i - z' i) / sreg rs i) = rsum (tot rs) (fun i => z' i ^ 2 / sreg rs i)) by (apply rsum_ext; intros i Hi; rewrite (I4 i Hi); unfold vzeros, Rdiv; ring).
      rewrite E1, E2 in V. intros i0 Hi0; apply (zero_of_sum (tot rs) z' (sreg rs)); [intros i Hi; apply sreg_pos, S3|lra|exact Hi0]. }
    assert (P1 : veq n (pd_x (pdhg_iterate P l (S k))) x0).
    { intros j Hj. rewrite (x_S P M rs l S1 S2 k). fold m.
      assert (G : forall j, (j < n)%nat -> mtv (mt P rs) (Kst P M rs) (put m (pd_p (pdhg_iterate P l (S k))) (stackq rs (pd_q (pdhg_iterate P l (S k))))) j = 0).
      { intros k' _. unfold mtv. apply rsum_zero. intros i Hi. unfold mt in Hi. fold m in Hi. unfold put. destruct (Nat.ltb_spec i m); [rewrite (P3 i) by assumption|rewrite (P4 (i - m)%nat) by lia]; unfold vzeros; ring. }
      pose proof (constrain_fixed (p_lower P) (p_upper P) (p_xmask P) n x0 (fun _ => 0) (fun _ => 1) S5 S6 Hx0 ltac:(intros; lra)) as [_ F].
      rewrite <- (F ltac:(intros; lra) j Hj). unfold constrain. 
      assert (K : pd_x (pdhg_iterate P l k) j - mtv (mt P rs) (Kst P M rs) (put m (pd_p (pdhg_iterate P l (S k))) (stackq rs (pd_q (pdhg_iterate P l (S k))))) j * pdhg_tau P l j = x0 j + 0 * 1) by (rewrite G, (I1 j) by exact Hj; ring).
      unfold mul_mask, np_clip. destruct (p_xmask P), (p_lower P), (p_upper P); cbv beta; rewrite ?K; reflexivity. }
    split; [exact P1|]. split; [|split; assumption]. intros j Hj. rewrite (xr_S P l k). unfold lc. rewrite (P1 j Hj), (I1 j Hj). ring.
  Qed.
End Kept.
(** PDHG started at a volume with zero objective (exact data, nothing to regularise) returns it *)
Theorem C168_exact_start_kept : forall P M rs l it, loss_setting P M rs l -> obeys_limits P (pick_x0 (p_x0 P) vzeros) ->
  loss_objective P M rs l (pick_x0 (p_x0 P) vzeros) = 0 -> forall j, (j < p_n P)%nat -> fst (pdhg_call P l it) j = pick_x0 (p_x0 P) vzeros j.
Proof.
  intros P M rs l it HS H1 H2 j Hj. rewrite PdhgExistProps.pdhg_no_tol by apply HS. apply (kept P M rs l HS H1 H2 it), Hj.
Qed.
Lemma lsum_zero (rs : list rspec) (f : rspec -> R) : Forall (fun r => f r = 0) rs -> lsum rs f = 0.
Proof. induction 1 as [|r rs Hr H IH]; [reflexivity|]. rewrite lsum_cons, Hr, IH. ring. Qed.
Theorem C168_flat_unchanged : forall n ndim M img pw lower rs_of med w masks it, dn_setting n M pw (rs_of w) -> above_limit n lower img ->
  (forall i, (i < n)%nat -> mv n M img i = img i) -> Forall (fun r => rs_value n r img = 0) (rs_of w) ->
  exists x, denoise_image n ndim (mat_op n n M) img pw lower (fun v => map (model_reg n) (rs_of v)) it med w [] masks = inr (DnImage x) /\ forall j, (j < n)%nat -> x j = img j.
Proof.
  intros n ndim M img pw lower rs_of med w masks it HS HL HM HR. eexists. split; [apply den_eq|]. intros j Hj. set (P := dn_problem _ _ _ _ _ _ _ _).
  apply (C168_exact_start_kept P M (rs_of w) None it).
  - destruct HS as (H1 & H2 & H3 & H4 & H5). split; [reflexivity|]. split; [reflexivity|]. split; [exact H1|]. split.
    { unfold P, dn_problem, dn_dterm, kind_ok, new_dterm. cbn. destruct pw; cbn; [exact H3|exact I]. }
    split; [unfold limits_ok, P, dn_problem; cbn; intros lo up k E1 E2; discriminate|]. split; [intros i; right; reflexivity|]. split; [intros i; right; reflexivity|]. split; [|reflexivity].
    apply (diag_steps_ok P M (rs_of w)); try assumption; try reflexivity; try (cbn [P dn_problem p_relax]; lra); try (intros i; right; reflexivity).
  - apply (dn_lim n M img pw lower rs_of w). exact HL.
  - change (pick_x0 (p_x0 P) vzeros) with img. unfold P. rewrite (dn_obj n M img pw lower rs_of w). unfold dn_objective. rewrite rsum_zero by (intros i Hi; rewrite (HM i Hi); unfold Rdiv; ring).
    assert (lsum (rs_of w) (fun r => rs_value n r img) = 0); [|lra]. apply lsum_zero, HR.
  - exact Hj.
Qed.

(** several weights: fewer than three are always refused (a parabola is fitted), although a sequence of any length is documented *)
Theorem C168_two_weights_refuted : forall n ndim op img pw lower regularizer it med w0 w1 masks,
  denoise_image n ndim op img pw lower regularizer it med w0 [w1] masks = inl ValueError.
Proof.
  intros. unfold denoise_image. destruct (dn_rows _ _ _ _ _ _ _ _ _ [w0; w1] masks) as [e|rows] eqn:E.
  - f_equal. assert (L : forall ws m e', dn_losses n ndim op img pw lower regularizer it med ws m = inl e' -> e' = ValueError).
    { induction ws as [|w ws IH]; intros m e' H; [discriminate|]. cbn [dn_losses] in H. unfold dn_exec in H at 1. unfold medfilt2d in H. destruct (Nat.eqb ndim 2).
      - destruct (pdhg_call _ None it) as [x f] in H. destruct (dn_losses _ _ _ _ _ _ _ _ _ ws m) eqn:E'; [|discriminate]. injection H as <-. eapply IH, E'.
      - injection H as <-. reflexivity. }
    revert e E. induction masks as [|m ms IH]; intros e E; [discriminate|]. cbn [dn_rows] in E. destruct (dn_losses _ _ _ _ _ _ _ _ _ [w0; w1] m) eqn:E1.
    + injection E as <-. eapply L, E1.
    + destruct (dn_rows _ _ _ _ _ _ _ _ _ [w0; w1] ms) eqn:E2; [|discriminate]. injection E as <-. apply IH. reflexivity.
  - rewrite C44_bad_lengths; [reflexivity|]. left. cbn. lia.
Qed.
(** several weights only for 2-D images *)
Theorem C168_not_2d_refuted : forall n ndim op img pw lower regularizer it med w0 w1 ws m masks, ndim <> 2%nat ->
  denoise_image n ndim op img pw lower regularizer it med w0 (w1 :: ws) (m :: masks) = inl ValueError.
Proof.
  intros. unfold denoise_image. cbn [dn_rows dn_losses]. unfold dn_exec at 1. unfold medfilt2d. apply Nat.eqb_neq in H. rewrite H. reflexivity.
Qed.
(** three or more increasing positive weights, 2-D image: the returned weight lies within the given ones and the image is the one of that weight *)
Theorem C168_weight_in_range : forall n op img pw lower regularizer it med w0 ws masks, (2 <= length ws)%nat -> increasing (w0 :: ws) -> Forall (fun w => 0 < w) (w0 :: ws) ->
  exists x w, denoise_image n 2 op img pw lower regularizer it med w0 ws masks = inr (DnImageWeight x w) /\ w0 <= w <= nth (length ws - 1) ws 0 /\
    denoise_image n 2 op img pw lower regularizer it med w [] masks = inr (DnImage x).
Proof.
  intros n op img pw lower regularizer it med w0 ws masks Hl Hi Hp. unfold denoise_image at 1.
  assert (L : forall ws m, exists r, dn_losses n 2 op img pw lower regularizer it med ws m = inr r).
  { induction ws0 as [|w ws' IH]; intros m; [eexists; reflexivity|]. cbn [dn_losses]. unfold dn_exec at 1. cbn [medfilt2d Nat.eqb]. destruct (pdhg_call _ None it) as [x f]. destruct (IH m) as [r ->]. eexists; reflexivity. }
  assert (Rw : forall ws ms, exists r, dn_rows n 2 op img pw lower regularizer it med ws ms = inr r).
  { intros ws0. induction ms as [|m ms IH]; [eexists; reflexivity|]. cbn [dn_rows]. destruct (L ws0 m) as [r ->]. destruct IH as [r' ->]. eexists; reflexivity. }
  destruct (Rw (w0 :: ws) masks) as [rows ->].
  destruct (C44_fit_in_range ScaleLog (w0 :: ws) (col_mean (length (w0 :: ws)) rows) ltac:(cbn; lia) ltac:(unfold col_mean; rewrite map_length, seq_length; reflexivity) Hp Hi) as (v & y & -> & Hv & _).
  destruct ws as [|w1 ws]; [cbn in Hl; lia|]. unfold denoise_image, dn_exec. destruct (pdhg_call _ None it) as [x f] eqn:Ep. exists x, v. split; [reflexivity|]. split; [|rewrite Ep; reflexivity].
  destruct Hv as [V1 V2]. split; [exact V1|]. cbn [length] in V2 |- *. replace (S (length ws) - 1)%nat with (length ws) by lia. replace (S (S (length ws)) - 1)%nat with (S (length ws)) in V2 by lia. exact V2.
Qed.

(** Non-vacuity: two pixels, total variation with weight 1 (one difference, steps 1/2 and 1), no point spread function *)
Definition dn_rs (w : R) : list rspec := [SolversOptProps.mkRS RS_l1 1 (fun _ j => if Nat.eqb j 0 then -1 else 1) w (/ 2) vones].
Example C168_example : dn_setting 2 no_psf None (dn_rs 1) /\ above_limit 2 (Some 0) (fun j => if Nat.eqb j 0 then 3 else 0) /\
  ~ (rs_value 2 (hd (SolversOptProps.mkRS RS_l1 1 (fun _ _ => 0) 1 1 vones) (dn_rs 1)) (fun j => if Nat.eqb j 0 then 3 else 0) = 0) /\
  Forall (fun r => rs_value 2 r (fun _ => 7) = 0) (dn_rs 1) /\ increasing [1; 2; 4].
Proof.
  split; [|split; [|split; [|split]]].
  - apply C168_identity_steps; [lia| | | |intros; cbn; lra].
    + constructor; [|constructor]. unfold rs_ok. cbn. repeat split; lra.
    + constructor; [|constructor]. unfold rs_steps_ok. cbn. split.
      * intros i _. rewrite Rabs_left, Rabs_right by lra. lra.
      * intros j _. unfold vones, rs_scale. cbn. destruct (Nat.eqb j 0); [rewrite Rabs_left by lra|rewrite Rabs_right by lra]; lra.
    + intros j _. unfold lsum, dn_rs, vones. cbn. lra.
  - intros j _. destruct (Nat.eqb j 0); lra.
  - unfold rs_value. cbn. unfold mv. cbn. rewrite Rabs_left; lra.
  - constructor; [|constructor]. unfold rs_value. cbn. unfold mv. cbn. replace (0 + -1 * 7 + 1 * 7) with 0 by ring. rewrite Rabs_R0. ring.
  - intros i j H. cbn in H. destruct i as [|[|[|i]]], j as [|[|[|j]]]; cbn; try lia; lra.
Qed.
