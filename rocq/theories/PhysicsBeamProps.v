(** The pencil beam profile (C93). *)
From Coq Require Import Reals Lra Lia List ZArith String Bool.
From Verif Require Import Sums PyErr Arrays Rounding PhysicsModel.
Import ListNotations.
Open Scope R_scope.

Lemma eps32_pos : 0 < eps32. Proof. unfold eps32. lra. Qed.
Lemma beam_y_pos sh w x : 0 < w -> 0 < beam_y sh w x.
Proof.
  intros Hw. destruct sh; cbn [beam_y]; [apply exp_pos| |].
  - assert (0 < (w / 2) ^ 2) by (apply pow_lt; lra). apply Rdiv_lt_0_compat; [assumption|]. pose proof (pow2_ge_0 x). lra.
  - apply Rdiv_lt_0_compat; [lra|]. apply pow_lt. unfold cosh. pose proof (exp_pos (x / (w / (2 * arccosh (sqrt 2))))). pose proof (exp_pos (- (x / (w / (2 * arccosh (sqrt 2)))))). lra.
Qed.
Lemma beam_y_even sh w x : beam_y sh w (- x) = beam_y sh w x.
Proof.
  destruct sh; cbn [beam_y]; replace ((- x) ^ 2) with (x ^ 2) by ring; try reflexivity.
  assert (K : forall u, cosh (- u) = cosh u) by (intros u; unfold cosh; rewrite Ropp_involutive, Rplus_comm; reflexivity). set (t := w / _). replace (- x / t) with (- (x / t)) by (unfold Rdiv; ring). now rewrite K.
Qed.
Lemma beam_box_even v x : beam_box v (- x) = beam_box v x. Proof. unfold beam_box. now rewrite Rabs_Ropp. Qed.
Lemma beam_box_01 v x : 0 <= beam_box v x. Proof. unfold beam_box. destruct (Rle_dec _ _); lra. Qed.
Section Grid.
Variables (sh : beam_shape) (voxel fwhm : R) (ps : nat).
Hypotheses (Hv : 0 < voxel) (Hw : 0 < fwhm) (Hh : (0 < beam_half voxel ps)%nat).
Let h := beam_half voxel ps.
Let n := beam_points voxel ps.
Let x := beam_x voxel ps.
Lemma n_eq : n = (2 * h + 1)%nat. Proof. unfold n, h, beam_points. lia. Qed.
Lemma x_eq i : x i = INR (beam_voxels ps) * voxel / 2 * (INR i / INR h - 1).
Proof.
  assert (0 < INR h) by (apply lt_0_INR; exact Hh). unfold x, beam_x, linspace. fold n. rewrite n_eq. destruct (Nat.eqb_spec (2 * h + 1) 1); [unfold h in *; lia|].
  replace (2 * h + 1 - 1)%nat with (2 * h)%nat by lia. rewrite mult_INR. cbn [INR]. field. lra.
Qed.
Lemma x_rev i : (i < n)%nat -> x (n - 1 - i) = - x i.
Proof.
  intros Hi. rewrite !x_eq. assert (0 < INR h) by (apply lt_0_INR; exact Hh). rewrite n_eq in *. replace (2 * h + 1 - 1 - i)%nat with (2 * h - i)%nat by lia. rewrite minus_INR, mult_INR by lia. cbn [INR]. field. lra.
Qed.
Lemma x_mid : x h = 0. Proof. rewrite x_eq. assert (0 < INR h) by (apply lt_0_INR; exact Hh). field. lra. Qed.
Lemma conv_term_nonneg i j : 0 <= (if (Nat.leb j (i + (n - 1) / 2) && Nat.ltb (i + (n - 1) / 2 - j) n)%bool then beam_box voxel (x j) * beam_y sh fwhm (x (i + (n - 1) / 2 - j)) else 0).
Proof. destruct (_ && _)%bool; [|lra]. apply Rmult_le_pos; [apply beam_box_01|apply Rlt_le, beam_y_pos, Hw]. Qed.
Lemma conv_nonneg i : 0 <= beam_conv sh voxel fwhm ps i. Proof. unfold beam_conv, conv_same. apply rsum_nonneg. intros j _. apply conv_term_nonneg. Qed.
Lemma half_n : ((n - 1) / 2 = h)%nat. Proof. rewrite n_eq. replace (2 * h + 1 - 1)%nat with (h * 2)%nat by lia. apply Nat.div_mul. lia. Qed.
Lemma conv_mid : 0 < beam_conv sh voxel fwhm ps h.
Proof.
  unfold beam_conv, conv_same. apply (rsum_pos _ _ h).
  - fold n. rewrite n_eq. lia.
  - intros j _. apply conv_term_nonneg.
  - fold n. rewrite half_n. rewrite n_eq. destruct (Nat.leb_spec h (h + h)); [|lia]. destruct (Nat.ltb_spec (h + h - h) (2 * h + 1)); [|lia]. cbn [andb].
    apply Rmult_lt_0_compat; [|now apply beam_y_pos]. fold x. rewrite x_mid. unfold beam_box. rewrite Rabs_R0. destruct (Rle_dec _ _) as [_|X]; [lra|]. exfalso. apply X. pose proof eps32_pos. lra.
Qed.
Lemma conv_rev i : (i < n)%nat -> beam_conv sh voxel fwhm ps (n - 1 - i)%nat = beam_conv sh voxel fwhm ps i.
Proof.
  intros Hi. unfold beam_conv, conv_same. fold n. rewrite half_n. rewrite rsum_rev. apply rsum_ext. intros j Hj. fold x. rewrite n_eq in *.
  destruct (Nat.leb_spec (2 * h + 1 - 1 - j) (2 * h + 1 - 1 - i + h)) as [A|A], (Nat.ltb_spec (2 * h + 1 - 1 - i + h - (2 * h + 1 - 1 - j)) (2 * h + 1)) as [B|B],
    (Nat.leb_spec j (i + h)) as [C|C], (Nat.ltb_spec (i + h - j) (2 * h + 1)) as [D|D]; cbn [andb]; try reflexivity; try lia.
  pose proof (x_rev j) as E1. pose proof (x_rev (i + h - j)) as E2. rewrite n_eq in E1, E2. rewrite E1 by lia. rewrite beam_box_even. f_equal.
  replace (2 * h + 1 - 1 - i + h - (2 * h + 1 - 1 - j))%nat with (2 * h + 1 - 1 - (i + h - j))%nat by lia. rewrite E2 by lia. apply beam_y_even.
Qed.
Lemma conv_max : 0 < rmax n (beam_conv sh voxel fwhm ps).
Proof. apply Rlt_le_trans with (beam_conv sh voxel fwhm ps h); [apply conv_mid|]. apply rmax_ge. rewrite n_eq. lia. Qed.
Lemma sum_nonneg ii : 0 <= beam_sum sh voxel fwhm ps ii.
Proof.
  unfold beam_sum. apply rsum_nonneg. intros i _. fold n. apply Rmult_le_pos; [|destruct (Rlt_dec _ _); lra]. apply Rdiv_le_0_compat; [apply conv_nonneg|apply conv_max].
Qed.
Lemma sum_mid : 0 < beam_sum sh voxel fwhm ps ps.
Proof.
  unfold beam_sum. fold n. apply (rsum_pos _ _ h).
  - rewrite n_eq. lia.
  - intros i _. apply Rmult_le_pos; [|destruct (Rlt_dec _ _); lra]. apply Rdiv_le_0_compat; [apply conv_nonneg|apply conv_max].
  - apply Rmult_lt_0_compat; [apply Rdiv_lt_0_compat; [apply conv_mid|apply conv_max]|]. fold x. rewrite x_mid. replace (0 - (INR ps - INR ps) * voxel) with 0 by ring. rewrite Rabs_R0.
    destruct (Rlt_dec _ _) as [_|X]; [lra|]. exfalso. apply X. pose proof eps32_pos. lra.
Qed.
Lemma sum_rev ii : (ii < beam_voxels ps)%nat -> beam_sum sh voxel fwhm ps (2 * ps - ii)%nat = beam_sum sh voxel fwhm ps ii.
Proof.
  intros Hi. unfold beam_voxels in Hi. unfold beam_sum. fold n. rewrite rsum_rev. apply rsum_ext. intros i Hi'. rewrite conv_rev by exact Hi'. fold x. rewrite x_rev by exact Hi'.
  rewrite minus_INR, mult_INR by lia. cbn [INR]. replace (- x i - ((1 + 1) * INR ps - INR ii - INR ps) * voxel) with (- (x i - (INR ii - INR ps) * voxel)) by ring. rewrite Rabs_Ropp. reflexivity.
Qed.
Lemma sum_total : 0 < rsum (beam_voxels ps) (beam_sum sh voxel fwhm ps).
Proof. apply (rsum_pos _ _ ps); [unfold beam_voxels; lia|intros; apply sum_nonneg|apply sum_mid]. Qed.
End Grid.
Definition beam_extent (voxel : R) (ps : nat) : R := INR (2 * ps + 1) * voxel.
Lemma half_pos voxel ps : 1 < beam_extent voxel ps * 10 -> (0 < beam_half voxel ps)%nat.
Proof.
  intros H. unfold beam_half. replace (beam_voxels ps) with (2 * ps + 1)%nat by (unfold beam_voxels; lia). fold (beam_extent voxel ps). destruct (rceil_spec (beam_extent voxel ps * 10)) as [_ B].
  assert (1 < rceil (beam_extent voxel ps * 10))%Z by (apply lt_IZR; lra). assert (1 <= rceil (beam_extent voxel ps * 10) / 2)%Z by (apply Z.div_le_lower_bound; lia). lia.
Qed.
(** whenever the profile spans more than a tenth of a micron, it is a symmetric probability distribution over its 2 n + 1 voxels, for all three shapes *)
Theorem C93_profile : forall sh voxel fwhm ps, 0 < voxel -> 0 < fwhm -> 1 / 10 < beam_extent voxel ps -> exists y, pencil_beam_profile sh voxel fwhm ps = Some y /\
  (forall ii, 0 <= y ii) /\ rsum (2 * ps + 1) y = 1 /\ (forall ii, (ii < 2 * ps + 1)%nat -> y (2 * ps - ii)%nat = y ii) /\ 0 < y ps.
Proof.
  intros sh voxel fwhm ps Hv Hw He. assert (Hh : (0 < beam_half voxel ps)%nat) by (apply half_pos; lra).
  pose proof (conv_max sh voxel fwhm ps Hv Hw Hh) as M. pose proof (sum_total sh voxel fwhm ps Hv Hw Hh) as T. unfold pencil_beam_profile.
  destruct (Req_EM_T (rmax _ _) 0) as [X|_]; [rewrite X in M; lra|]. destruct (Req_EM_T _ 0) as [X|_]; [rewrite X in T; lra|].
  eexists. split; [reflexivity|]. assert (V : beam_voxels ps = (2 * ps + 1)%nat) by (unfold beam_voxels; lia). rewrite V in *. cbv beta. repeat split.
  - intros ii. apply Rdiv_le_0_compat; [now apply sum_nonneg|exact T].
  - rewrite (rsum_ext _ _ (fun ii => / rsum (2 * ps + 1) (beam_sum sh voxel fwhm ps) * beam_sum sh voxel fwhm ps ii)) by (intros; unfold Rdiv; ring). rewrite rsum_scal. apply Rinv_l. lra.
  - intros ii Hi. f_equal. apply sum_rev; try assumption. now rewrite V.
  - apply Rdiv_lt_0_compat; [now apply sum_mid|exact T].
Qed.
Example C93_profile_example : exists y, pencil_beam_profile Gaussian 1 2 1 = Some y /\ rsum 3 y = 1 /\ y 0%nat = y 2%nat.
Proof.
  destruct (C93_profile Gaussian 1 2 1) as (y & E & _ & S & R & _); [lra|lra|unfold beam_extent; cbn [INR Nat.mul Nat.add]; lra|]. exists y. split; [exact E|]. split; [exact S|]. symmetry. apply (R 0%nat). lia.
Qed.
(** refuted: below that size there is only one sample point, at the border: the profile is 0 / 0 *)
Theorem C93_small_voxels_refuted : forall sh voxel fwhm ps, 0 < voxel -> beam_extent voxel ps <= 1 / 10 -> eps32 < INR ps * voxel -> pencil_beam_profile sh voxel fwhm ps = None.
Proof.
  intros sh voxel fwhm ps Hv He Hp. assert (V : beam_voxels ps = (2 * ps + 1)%nat) by (unfold beam_voxels; lia).
  assert (H0 : beam_half voxel ps = 0%nat).
  { unfold beam_half. rewrite V. fold (beam_extent voxel ps). assert (rceil (beam_extent voxel ps * 10) <= 1)%Z by (apply rceil_le; lra).
    assert (rceil (beam_extent voxel ps * 10) / 2 < 1)%Z by (apply Z.div_lt_upper_bound; lia). lia. }
  unfold pencil_beam_profile. assert (N : beam_points voxel ps = 1%nat) by (unfold beam_points; rewrite H0; reflexivity). rewrite N. cbn [rmax]. destruct (Req_EM_T _ 0) as [_|X]; [reflexivity|]. exfalso. apply X.
  unfold beam_conv, conv_same. rewrite N. cbn [rsum Nat.sub Nat.div Nat.add]. assert (B : beam_box voxel (beam_x voxel ps 0) = 0).
  { unfold beam_box, beam_x. rewrite N. unfold linspace. cbn [Nat.eqb]. rewrite V. destruct (Rle_dec _ _) as [L|_]; [|reflexivity]. exfalso.
    rewrite plus_INR, mult_INR in L. cbn [INR] in L. replace (- (((1 + 1) * INR ps + 1) * voxel) / 2) with (- (INR ps * voxel + voxel / 2)) in L by field. rewrite Rabs_Ropp, Rabs_right in L; [lra|]. pose proof eps32_pos. lra. }
  rewrite B. destruct (_ && _)%bool; ring.
Qed.
Example C93_small_voxels_example : pencil_beam_profile Lorentzian (3 / 100) 1 1 = None.
Proof. apply C93_small_voxels_refuted; unfold beam_extent, eps32; cbn [INR Nat.mul Nat.add]; lra. Qed.
Theorem C93_single_voxel : forall sh voxel fwhm, 0 < voxel -> 0 < fwhm -> beam_extent voxel 0 <= 1 / 10 -> exists y, pencil_beam_profile sh voxel fwhm 0 = Some y /\ y 0%nat = 1.
Proof.
  intros sh voxel fwhm Hv Hw He. unfold beam_extent in He. cbn [Nat.mul Nat.add INR] in He.
  assert (H0 : beam_half voxel 0 = 0%nat).
  { unfold beam_half, beam_voxels. cbn [Nat.mul Nat.add INR]. assert (rceil (1 * voxel * 10) <= 1)%Z by (apply rceil_le; lra). assert (rceil (1 * voxel * 10) / 2 < 1)%Z by (apply Z.div_lt_upper_bound; lia). lia. }
  assert (N : beam_points voxel 0 = 1%nat) by (unfold beam_points; rewrite H0; reflexivity).
  assert (X : beam_x voxel 0 0 = - (voxel / 2)) by (unfold beam_x; rewrite N; unfold linspace, beam_voxels; cbn [Nat.eqb Nat.mul Nat.add INR]; field). pose proof eps32_pos as E.
  assert (A : Rabs (- (voxel / 2)) = voxel / 2) by (rewrite Rabs_Ropp; apply Rabs_right; lra).
  assert (Cv : 0 < beam_conv sh voxel fwhm 0 0%nat).
  { unfold beam_conv, conv_same. rewrite N. cbn [rsum Nat.sub Nat.div Nat.add Nat.divmod fst Nat.leb Nat.ltb andb]. rewrite X. pose proof (beam_y_pos sh fwhm (- (voxel / 2)) Hw). unfold beam_box. rewrite A. destruct (Rle_dec _ _); lra. }
  assert (S : 0 < beam_sum sh voxel fwhm 0 0%nat).
  { unfold beam_sum. rewrite N. cbn [rsum rmax]. rewrite X. cbn [INR]. replace (- (voxel / 2) - (0 - 0) * voxel) with (- (voxel / 2)) by ring. rewrite A. destruct (Rlt_dec _ _); [|lra].
    replace (beam_conv sh voxel fwhm 0 0%nat / beam_conv sh voxel fwhm 0 0%nat) with 1 by (field; lra). lra. }
  unfold pencil_beam_profile. rewrite N. cbn [rmax]. destruct (Req_EM_T _ 0) as [Z|_]; [rewrite Z in Cv; lra|]. unfold beam_voxels. cbn [Nat.mul Nat.add rsum]. destruct (Req_EM_T _ 0) as [Z|_]; [lra|].
  eexists. split; [reflexivity|]. cbv beta. field. lra.
Qed.
Theorem C93_shape_names : forall s, (exists sh, beam_shape_of s = inr sh) <-> In (lower s) ["gaussian"; "lorentzian"; "sech**2"]%string.
Proof.
  intros s. unfold beam_shape_of. destruct (String.eqb_spec (lower s) "gaussian") as [->|A]; [split; [cbn; tauto|eauto]|]. destruct (String.eqb_spec (lower s) "lorentzian") as [->|B]; [split; [cbn; tauto|eauto]|].
  destruct (String.eqb_spec (lower s) "sech**2") as [->|D]; [split; [cbn; tauto|eauto]|]. split; [intros [? X]; discriminate|]. cbn. intros [X|[X|[X|[]]]]; congruence.
Qed.
Example C93_shape_example : beam_shape_of "Gaussian" = inr Gaussian /\ beam_shape_of "SECH**2" = inr Sech2 /\ beam_shape_of "box" = inl ValueError. Proof. repeat split. Qed.
(** full width at half maximum: each beam shape is one at the centre, and half of it at half its nominal width *)
Theorem C93_half_maximum : forall sh fwhm, 0 < fwhm -> beam_y sh fwhm 0 = 1 /\ beam_y sh fwhm (fwhm / 2) = 1 / 2.
Proof.
  intros sh w Hw. destruct sh; cbn [beam_y].
  - split; [replace (-4 * ln 2 * 0 ^ 2 / w ^ 2) with 0 by (field; lra); apply exp_0|]. replace (-4 * ln 2 * (w / 2) ^ 2 / w ^ 2) with (- ln 2) by (field; lra). rewrite exp_Ropp, exp_ln by lra. lra.
  - split; field; nra.
  - assert (S2 : 1 < sqrt 2) by (rewrite <- sqrt_1; apply sqrt_lt_1; lra). assert (Q : sqrt 2 * sqrt 2 = 2) by (apply sqrt_sqrt; lra).
    assert (D : arccosh (sqrt 2) = ln (sqrt 2 + 1)) by (unfold arccosh; replace (sqrt 2 ^ 2 - 1) with 1 by nra; now rewrite sqrt_1).
    assert (L : 0 < ln (sqrt 2 + 1)) by (rewrite <- ln_1; apply ln_increasing; lra). rewrite D. split.
    + replace (0 / (w / (2 * ln (sqrt 2 + 1)))) with 0 by (field; lra). rewrite cosh_0. field.
    + replace (w / 2 / (w / (2 * ln (sqrt 2 + 1)))) with (ln (sqrt 2 + 1)) by (field; lra). unfold cosh. rewrite exp_Ropp, exp_ln by lra.
      assert (I : / (sqrt 2 + 1) = sqrt 2 - 1) by (apply Rmult_eq_reg_l with (sqrt 2 + 1); [rewrite Rinv_r by lra; nra|lra]). rewrite I.
      replace ((sqrt 2 + 1 + (sqrt 2 - 1)) / 2) with (sqrt 2) by field. replace (sqrt 2 ^ 2) with 2 by nra. reflexivity.
Qed.
