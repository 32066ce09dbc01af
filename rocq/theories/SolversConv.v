(** Lemmas for the convergence-type theorems about the solvers. *)
From Verif Require Import Sums DataTermsModel DataTermsProofs SolversModel SolversSpec SolversGeneric RegularizersModel.

Definition mat_op (m n : nat) (M : mat) : linop := mkOp (mv n M) (mtv m M) (mv n (mat_abs M)) (mtv m (mat_abs M)).

(** * Scalings *)
Lemma scaling_safe_small k raw : 0 < rmax k raw -> rmax k raw <= 100000 -> scaling_safe k raw.
Proof.
  intros H1 H2. split; [exact H1|]. intros i Hi Hlt.
  assert (raw i < rmax k raw * / 100000).
  { apply Rmult_lt_compat_l with (r := rmax k raw) in Hlt; [|exact H1].
    replace (rmax k raw * (raw i / rmax k raw)) with (raw i) in Hlt by (field; lra). exact Hlt. }
  lra.
Qed.

Lemma guard_safe k raw i : scaling_safe k raw -> (i < k)%nat -> 0 < guard_small k raw i /\ raw i <= guard_small k raw i.
Proof.
  intros [H1 H2] Hi. unfold guard_small. destruct (Rlt_dec (raw i / rmax k raw) (/ 100000)) as [H|H].
  - split; [lra|auto].
  - split; [|lra]. apply Rnot_lt_le in H.
    apply Rmult_le_compat_r with (r := rmax k raw) in H; [|lra].
    replace (raw i / rmax k raw * rmax k raw) with (raw i) in H by (field; lra). lra.
Qed.

(** * Clipping is a projection *)
Lemma np_clip_vi lo up x y j : 
  (forall l u, lo = Some l -> up = Some u -> l j <= u j) ->
  (match lo with Some l => l j <= y | None => True end) -> (match up with Some u => y <= u j | None => True end) ->
  (x j - np_clip lo up x j) * (y - np_clip lo up x j) <= 0.
Proof.
  intros Hlu Hl Hu. unfold np_clip.
  destruct lo as [l|], up as [u|]; unfold Rmax; try (destruct (Rle_dec (x j) (l j)));
    unfold Rmin; repeat match goal with |- context [Rle_dec ?a ?b] => destruct (Rle_dec a b) end;
    try (specialize (Hlu _ _ eq_refl eq_refl));
    match goal with |- ?a * ?b <= 0 => first
      [ assert (a = 0) by lra; nra | assert (a <= 0) by lra; assert (0 <= b) by lra; nra
      | assert (0 <= a) by lra; assert (b <= 0) by lra; nra ] end.
Qed.

(** in the mask the constrained value is the clipped one; outside it is zero *)
Lemma constrain_in lo up xm x j : mask_at xm j = 1 -> constrain lo up xm x j = np_clip lo up x j.
Proof. unfold constrain, mask_at. destruct xm; simpl; intros H; [rewrite H; ring|reflexivity]. Qed.
Lemma constrain_out lo up xm x j : mask_at xm j = 0 -> constrain lo up xm x j = 0.
Proof. unfold constrain, mask_at. destruct xm; simpl; intros H; [rewrite H; ring|lra]. Qed.

Lemma feasible_in lo up xm n x j : feasible lo up xm n x -> (j < n)%nat -> mask_at xm j = 1 ->
  (match lo with Some l => l j <= x j | None => True end) /\ (match up with Some u => x j <= u j | None => True end).
Proof. intros H Hj Hm. apply (H j Hj). unfold mask_at in Hm. destruct xm; auto. Qed.
Lemma feasible_out lo up xm n x j : feasible lo up xm n x -> (j < n)%nat -> mask_at xm j = 0 -> x j = 0.
Proof. intros H Hj Hm. destruct (H j Hj) as [H1 _]. unfold mask_at in Hm. destruct xm; [auto|lra]. Qed.

Definition lims_ok (lo up : option vec) (n : nat) : Prop :=
  forall l u j, lo = Some l -> up = Some u -> (j < n)%nat -> l j <= u j.

(** variational inequality of the constraint step *)
Lemma constrain_vi lo up xm n z y j : lims_ok lo up n -> binary_mask xm -> feasible lo up xm n y -> (j < n)%nat ->
  (z j - constrain lo up xm z j) * (y j - constrain lo up xm z j) <= 0.
Proof.
  intros Hl Hb Hy Hj. destruct (Hb j) as [Hm|Hm].
  - rewrite (constrain_out _ _ _ _ _ Hm), (feasible_out _ _ _ _ _ _ Hy Hj Hm). lra.
  - rewrite (constrain_in _ _ _ _ _ Hm). destruct (feasible_in _ _ _ _ _ _ Hy Hj Hm).
    apply np_clip_vi; [intros l u H1 H2; eapply Hl; eauto|assumption|assumption].
Qed.

(** x is its own constrained gradient step iff the gradient satisfies the variational inequality *)
Lemma constrain_fixed lo up xm n x g tau : lims_ok lo up n -> binary_mask xm -> feasible lo up xm n x ->
  (forall j, (j < n)%nat -> 0 < tau j) ->
  (forall j, (j < n)%nat -> constrain lo up xm (fun j => x j + g j * tau j) j = x j) <->
  (forall y j, feasible lo up xm n y -> (j < n)%nat -> g j * (y j - x j) <= 0).
Proof.
  intros Hl Hb Hx Ht. split.
  - intros H y j Hy Hj.
    pose proof (constrain_vi lo up xm n (fun j => x j + g j * tau j) y j Hl Hb Hy Hj) as Hv. cbv beta in Hv.
    rewrite (H j Hj) in Hv. specialize (Ht j Hj).
    assert (tau j * (g j * (y j - x j)) <= 0) by lra. 
    destruct (Rle_lt_dec (g j * (y j - x j)) 0) as [?|C]; [lra|].
    pose proof (Rmult_lt_0_compat _ _ Ht C). lra.
  - intros H j Hj. set (z := fun j => x j + g j * tau j).
    set (p := constrain lo up xm z).
    assert (Hp : feasible lo up xm n p) by (apply constrain_feasible; exact Hl).
    pose proof (constrain_vi lo up xm n z x j Hl Hb Hx Hj) as Hv. fold p in Hv.
    specialize (H p j Hp Hj). specialize (Ht j Hj). unfold z in Hv.
    assert (0 <= (x j - p j) ^ 2) by apply pow2_ge_0.
    assert (tau j * (g j * (p j - x j)) <= 0).
    { rewrite <- (Rmult_0_r (tau j)). apply Rmult_le_compat_l; lra. }
    assert ((x j - p j) ^ 2 = 0) by nra.
    assert (x j - p j = 0) by (apply Rsqr_0_uniq; unfold Rsqr; lra). lra.
Qed.

(** * Matrix identities *)
Lemma mv_plus n M x d i : mv n M (fun j => x j + d j) i = mv n M x i + mv n M d i.
Proof. unfold mv. rewrite <- rsum_plus. apply rsum_ext. intros; ring. Qed.
Lemma mv_scal n M c d i : mv n M (fun j => c * d j) i = c * mv n M d i.
Proof. unfold mv. rewrite <- rsum_scal. apply rsum_ext. intros; ring. Qed.
Lemma mv_ext n M x y i : veq n x y -> mv n M x i = mv n M y i.
Proof. intros H. apply rsum_ext. intros j Hj. rewrite (H j Hj). reflexivity. Qed.
Lemma adjoint_mat m n M x y : dot m (mv n M x) y = dot n x (mtv m M y).
Proof.
  unfold dot, mv, mtv.
  rewrite (rsum_ext m _ (fun i => rsum n (fun j => M i j * x j * y i))) by (intros; symmetry; apply rsum_scal_r).
  rewrite rsum_swap. apply rsum_ext. intros j Hj. rewrite <- rsum_scal. apply rsum_ext. intros; ring.
Qed.

(** expansion of the weighted residual *)
Lemma wres_expand m n M w b x d :
  wres m n M w b (fun j => x j + d j) =
  wres m n M w b x - 2 * dot n d (mtv m M (fun i => w i * (b i - mv n M x i))) + rsum m (fun i => w i * mv n M d i ^ 2).
Proof.
  rewrite <- adjoint_mat. unfold wres, dot.
  rewrite <- rsum_scal, <- rsum_minus, <- rsum_plus. apply rsum_ext. intros i Hi. rewrite mv_plus. ring.
Qed.

Lemma wres_ext m n M w b x y : veq n x y -> wres m n M w b x = wres m n M w b y.
Proof. intros H. apply rsum_ext. intros i Hi. rewrite (mv_ext n M x y i H). reflexivity. Qed.

(** sum_i w_i (Md)_i^2 <= sum_j C_j d_j^2 when w_i * (absolute row sum over the support of d) <= v_i *)
Lemma energy_bound m n M (w v s d : vec) :
  (forall i, (i < m)%nat -> 0 <= w i) -> (forall j, (j < n)%nat -> 0 <= s j) -> 
  (forall j, (j < n)%nat -> s j * d j = d j) ->
  (forall i, (i < m)%nat -> w i * rsum n (fun j => Rabs (M i j) * s j) <= v i) ->
  rsum m (fun i => w i * mv n M d i ^ 2) <= rsum n (fun j => s j * rsum m (fun i => Rabs (M i j) * v i) * d j ^ 2).
Proof.
  intros Hw Hs Hd Hv.
  assert (H : forall i, (i < m)%nat -> w i * mv n M d i ^ 2 <= rsum n (fun j => Rabs (M i j) * v i * s j * d j ^ 2)).
  { intros i Hi.
    set (a := fun j => Rabs (M i j) * s j).
    assert (Ha : forall j, (j < n)%nat -> 0 <= a j) by (intros; apply Rmult_le_pos; [apply Rabs_pos|auto]).
    assert (H1 : mv n M d i ^ 2 <= rsum n a * rsum n (fun j => a j * d j ^ 2)).
    { pose proof (rsum_jensen_sq n a (fun j => Rabs (d j)) Ha) as HJ. cbv beta in HJ.
      rewrite (rsum_ext n (fun j => a j * Rabs (d j) ^ 2) (fun j => a j * d j ^ 2)) in HJ by (intros; rewrite pow2_abs; reflexivity).
      eapply Rle_trans; [|exact HJ].
      rewrite <- (pow2_abs (mv n M d i)). apply pow_incr. split; [apply Rabs_pos|].
      unfold mv. eapply Rle_trans; [apply rsum_abs|]. apply rsum_le. intros j Hj. unfold a.
      rewrite <- (Hd j Hj) at 1. rewrite !Rabs_mult, (Rabs_right (s j)) by (apply Rle_ge; auto). lra. }
    apply Rmult_le_compat_l with (r := w i) in H1; [|auto].
    assert (Hq : 0 <= rsum n (fun j => a j * d j ^ 2)).
    { apply rsum_nonneg. intros; apply Rmult_le_pos; [auto|apply pow2_ge_0]. }
    assert (H2 : w i * (rsum n a * rsum n (fun j => a j * d j ^ 2)) <= v i * rsum n (fun j => a j * d j ^ 2)).
    { rewrite <- Rmult_assoc. apply Rmult_le_compat_r; [exact Hq|]. apply Hv, Hi. }
    eapply Rle_trans; [exact H1|]. eapply Rle_trans; [exact H2|]. right. rewrite <- rsum_scal.
    apply rsum_ext. intros; unfold a; ring. }
  eapply Rle_trans; [apply rsum_le; exact H|]. rewrite rsum_swap. right. apply rsum_ext. intros j Hj.
  rewrite (rsum_ext m _ (fun i => (s j * d j ^ 2) * (Rabs (M i j) * v i))) by (intros; ring).
  rewrite rsum_scal. ring.
Qed.

(** * The SIRT step for the l2 data term and no regularisers *)
Definition target (P : problem) (i : nat) : R := p_b P i - back_at (dt_background (p_dterm P)) i.

Lemma l2_residual t b sigma proj bm i : dt_kind t = K_l2 ->
  compute_residual (assign_data t (Some b) sigma) proj bm i =
  (b i - back_at (dt_background t) i - proj i) * mask_at bm i.
Proof.
  intros Hk. unfold compute_residual, assign_data. simpl. rewrite Hk. unfold apply_mask, add_background, mask_at, back_at. simpl.
  destruct bm, (dt_background t); simpl; ring.
Qed.

Definition train_mask (P : problem) := fst (initialize_b_masks (p_bmask P) (p_btest P)).
(** the weights of the least-squares problem SIRT solves *)
Definition sirt_weight (P : problem) : vec := fun i => sirt_sigma P i * mask_at (train_mask P) i.

Lemma sirt_step_l2 P M x : p_op P = mat_op (p_m P) (p_n P) M -> p_regs P = [] -> dt_kind (p_dterm P) = K_l2 ->
  sirt_step P x = constrain (p_lower P) (p_upper P) (p_xmask P)
    (fun j => x j + mtv (p_m P) M (fun i => sirt_weight P i * (target P i - mv (p_n P) M x i)) j * sirt_tau P j).
Proof.
  intros Hop Hr Hk. unfold sirt_step, sirt_update. rewrite Hr. cbn [map combine fold_left]. f_equal.
  apply vec_ext. intros j. unfold vadd, vmul. f_equal. f_equal. rewrite Hop at 1. simpl. unfold mtv.
  apply rsum_ext. intros i Hi. f_equal. unfold sirt_dt, assigned. rewrite l2_residual by exact Hk.
  rewrite Hop at 1. simpl. unfold sirt_weight, train_mask, target. ring.
Qed.

Lemma ones_masked_at o i : ones_masked o i = mask_at o i.
Proof. unfold ones_masked, mul_mask, mask_at, vones. destruct o; ring. Qed.

Lemma sirt_raw_sigma P M i : p_op P = mat_op (p_m P) (p_n P) M -> 
  raw_sigma (p_op P) (p_xmask P) i = Rabs (rsum (p_n P) (fun j => Rabs (M i j) * mask_at (p_xmask P) j)).
Proof. intros Hop. unfold raw_sigma. rewrite Hop. simpl. unfold mv, mat_abs. f_equal. apply rsum_ext. intros; rewrite ones_masked_at; reflexivity. Qed.
Lemma sirt_raw_tau P M j bm : p_op P = mat_op (p_m P) (p_n P) M -> 
  raw_tau (p_op P) [] bm j = Rabs (rsum (p_m P) (fun i => Rabs (M i j) * mask_at bm i)).
Proof. intros Hop. unfold raw_tau. rewrite Hop. simpl. unfold mtv, mat_abs. f_equal. apply rsum_ext. intros; rewrite ones_masked_at; reflexivity. Qed.

Lemma binary_nonneg o i : binary_mask o -> 0 <= mask_at o i.
Proof. intros H. destruct (H i) as [-> | ->]; lra. Qed.

Definition safe_sigma (P : problem) := scaling_safe (p_m P) (raw_sigma (p_op P) (p_xmask P)).
Definition safe_tau (P : problem) := scaling_safe (p_n P) (raw_tau (p_op P) (p_regs P) (train_mask P)).

Lemma sirt_sigma_pos P i : safe_sigma P -> (i < p_m P)%nat -> 0 < sirt_sigma P i /\ sirt_sigma P i * raw_sigma (p_op P) (p_xmask P) i <= 1.
Proof.
  intros Hs Hi. destruct (guard_safe _ _ i Hs Hi) as [H1 H2]. unfold sirt_sigma, diag_sigma.
  set (g := guard_small _ _ i) in *. set (r := raw_sigma _ _ i) in *.
  assert (0 < 1 / g) by (apply Rdiv_lt_0_compat; lra). split; [assumption|].
  apply Rmult_le_compat_l with (r := 1 / g) in H2; [|lra]. replace (1 / g * g) with 1 in H2 by (field; lra). exact H2.
Qed.

Lemma sirt_decrease P M x : p_op P = mat_op (p_m P) (p_n P) M -> p_regs P = [] -> dt_kind (p_dterm P) = K_l2 ->
  lims_ok (p_lower P) (p_upper P) (p_n P) -> binary_mask (p_xmask P) -> binary_mask (train_mask P) ->
  safe_sigma P -> safe_tau P -> 0 <= p_relax P <= 2 ->
  feasible (p_lower P) (p_upper P) (p_xmask P) (p_n P) x ->
  wres (p_m P) (p_n P) M (sirt_weight P) (target P) (sirt_step P x) <= wres (p_m P) (p_n P) M (sirt_weight P) (target P) x.
Proof.
  intros Hop Hr Hk Hl Hbx Hbm Hs Ht Hrel Hx. rewrite (sirt_step_l2 P M x Hop Hr Hk).
  set (g := mtv _ M _). set (x' := constrain _ _ _ _).
  assert (Hx' : feasible (p_lower P) (p_upper P) (p_xmask P) (p_n P) x') by (apply constrain_feasible; exact Hl).
  set (d := fun j => x' j - x j).
  rewrite (wres_ext _ _ M _ _ x' (fun j => x j + d j)) by (intros j _; unfold d; ring).
  rewrite wres_expand. fold g.
  set (C := fun j => guard_small (p_n P) (raw_tau (p_op P) [] (train_mask P)) j).
  assert (HC : forall j, (j < p_n P)%nat -> 0 < C j /\ raw_tau (p_op P) [] (train_mask P) j <= C j).
  { intros j Hj. unfold safe_tau in Ht. rewrite Hr in Ht. apply (guard_safe _ _ j Ht Hj). }
  (* step quality *)
  assert (Hg : forall j, (j < p_n P)%nat -> C j * d j ^ 2 <= p_relax P * (g j * d j)).
  { intros j Hj. pose proof (constrain_vi _ _ _ _ (fun j => x j + g j * sirt_tau P j) x j Hl Hbx Hx Hj) as Hv.
    fold x' in Hv. cbv beta in Hv. destruct (HC j Hj) as [HC1 _].
    assert (Et : sirt_tau P j * C j = p_relax P).
    { unfold sirt_tau, diag_tau. rewrite Hr. unfold C, train_mask. field. apply Rgt_not_eq. exact HC1. }
    assert (Hd : d j ^ 2 <= sirt_tau P j * (g j * d j)) by (unfold d; lra).
    apply Rmult_le_compat_l with (r := C j) in Hd; [|lra].
    rewrite <- Rmult_assoc, (Rmult_comm (C j) (sirt_tau P j)), Et in Hd. exact Hd. }
  (* energy *)
  assert (He : rsum (p_m P) (fun i => sirt_weight P i * mv (p_n P) M d i ^ 2) <= rsum (p_n P) (fun j => C j * d j ^ 2)).
  { eapply Rle_trans; [apply (energy_bound _ _ M (sirt_weight P) (fun i => mask_at (train_mask P) i) (fun j => mask_at (p_xmask P) j) d)|].
    - intros i Hi. unfold sirt_weight. apply Rmult_le_pos; [left; apply (sirt_sigma_pos P i Hs Hi)|apply binary_nonneg, Hbm].
    - intros j Hj. apply binary_nonneg, Hbx.
    - intros j Hj. destruct (Hbx j) as [Hm|Hm]; rewrite Hm; [|ring].
      unfold d. rewrite (feasible_out _ _ _ _ _ _ Hx Hj Hm), (feasible_out _ _ _ _ _ _ Hx' Hj Hm). ring.
    - intros i Hi. destruct (sirt_sigma_pos P i Hs Hi) as [H1 H2]. rewrite (sirt_raw_sigma P M i Hop) in H2.
      rewrite Rabs_right in H2 by (apply Rle_ge, rsum_nonneg; intros; apply Rmult_le_pos; [apply Rabs_pos|apply binary_nonneg, Hbx]).
      unfold sirt_weight. pose proof (binary_nonneg (train_mask P) i Hbm).
      set (q := rsum _ _) in *. nra.
    - apply rsum_le. intros j Hj. apply Rmult_le_compat_r; [apply pow2_ge_0|].
      destruct (HC j Hj) as [HC1 HC2]. rewrite (sirt_raw_tau P M j _ Hop) in HC2.
      assert (Hq : 0 <= rsum (p_m P) (fun i => Rabs (M i j) * mask_at (train_mask P) i))
        by (apply rsum_nonneg; intros; apply Rmult_le_pos; [apply Rabs_pos|apply binary_nonneg, Hbm]).
      rewrite Rabs_right in HC2 by (apply Rle_ge; exact Hq).
      destruct (Hbx j) as [-> | ->]; lra. }
  assert (Hs2 : rsum (p_n P) (fun j => C j * d j ^ 2) <= p_relax P * dot (p_n P) d g).
  { unfold dot. rewrite <- rsum_scal. apply rsum_le. intros j Hj. rewrite (Rmult_comm (d j)). apply Hg, Hj. }
  assert (Hnn : 0 <= rsum (p_n P) (fun j => C j * d j ^ 2)).
  { apply rsum_nonneg. intros j Hj. apply Rmult_le_pos; [left; apply HC, Hj|apply pow2_ge_0]. }
  set (S2 := rsum (p_n P) _) in *. set (E := rsum (p_m P) (fun i => sirt_weight P i * mv (p_n P) M d i ^ 2)) in *.
  set (D := dot (p_n P) d g) in *.
  destruct (Rle_lt_dec D 0) as [HD|HD].
  - assert (HpD : p_relax P * D <= 0) by (rewrite <- (Rmult_0_r (p_relax P)); apply Rmult_le_compat_l; lra).
    assert (S2 = 0) by lra.
    (* then every C_j d_j^2 = 0 so d = 0 and D = 0 *)
    assert (Hd0 : forall j, (j < p_n P)%nat -> d j = 0).
    { intros j Hj. assert (H0 : C j * d j ^ 2 = 0).
      { apply (rsum_nonneg_zero (p_n P) (fun j => C j * d j ^ 2)); auto.
        intros k Hk2. apply Rmult_le_pos; [left; apply HC, Hk2|apply pow2_ge_0]. }
      apply Rmult_integral in H0. destruct H0 as [H0|H0]; [destruct (HC j Hj); lra|].
      apply Rsqr_0_uniq. unfold Rsqr. lra. }
    assert (D = 0). { unfold D, dot. apply rsum_zero. intros j Hj. rewrite (Hd0 j Hj). ring. }
    lra.
  - assert (p_relax P * D <= 2 * D) by (apply Rmult_le_compat_r; lra). lra.
Qed.
