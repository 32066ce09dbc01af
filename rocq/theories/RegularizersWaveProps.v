(** Theorems C96-C98: vectorial total variation, wavelet regularisers. *)
From Verif Require Import Sums Arrays DataTermsSpec DataTermsModel SolversModel RegularizersModel OperatorsModel RegularizersMore.

(** * C96: VTV *)
Lemma grad_norm_scale der D f d k c : (forall k' c', 0 <= f k' c') ->
  (der <> P1 -> forall k' k'' c', f k' c' = f k'' c') ->
  vtv_grad_norm der D (fun k' c' => d k' c' * f k' c') k c = vtv_grad_norm der D d k c * f k c.
Proof.
  intros Hf Hi. destruct der; cbn [vtv_grad_norm].
  - rewrite Rabs_mult, (Rabs_right (f k c)) by (apply Rle_ge, Hf). reflexivity.
  - rewrite (rsum_ext D _ (fun k' => (f k c * f k c) * d k' c ^ 2)).
    + rewrite rsum_scal, Rmult_comm, sqrt_mult; [rewrite sqrt_square by apply Hf; reflexivity| |].
      * apply rsum_nonneg. intros; apply pow2_ge_0.
      * pose proof (Hf k c). nra.
    + intros k' _. rewrite (Hi ltac:(discriminate) k' k c). ring.
  - rewrite <- rsum_scal_r. apply rsum_ext. intros k' _. rewrite Rabs_mult, (Rabs_right (f k' c)) by (apply Rle_ge, Hf).
    rewrite (Hi ltac:(discriminate) k' k c). reflexivity.
Qed.
Lemma dual_norm_scale der chan D C f d k c : (forall k' c', 0 <= f k' c') ->
  (der <> P1 -> forall k' k'' c', f k' c' = f k'' c') -> (chan <> P1 -> forall k' c' c'', f k' c' = f k' c'') ->
  vtv_dual_norm der chan D C (fun k' c' => d k' c' * f k' c') k c = vtv_dual_norm der chan D C d k c * f k c.
Proof.
  intros Hf Hd Hc. destruct chan; cbn [vtv_dual_norm].
  - apply grad_norm_scale; auto.
  - rewrite (rsum_ext C _ (fun c' => (f k c * f k c) * vtv_grad_norm der D d k c' ^ 2)).
    + rewrite rsum_scal, Rmult_comm, sqrt_mult; [rewrite sqrt_square by apply Hf; reflexivity| |].
      * apply rsum_nonneg. intros; apply pow2_ge_0.
      * pose proof (Hf k c). nra.
    + intros c' _. rewrite grad_norm_scale by auto. rewrite (Hc ltac:(discriminate) k c' c). ring.
  - rewrite <- rsum_scal_r. apply rsum_ext. intros c' _. rewrite grad_norm_scale by auto.
    rewrite Rabs_mult, (Rabs_right (f k c')) by (apply Rle_ge, Hf). rewrite (Hc ltac:(discriminate) k c' c). reflexivity.
Qed.
Lemma grad_norm_indep der D d k k' c : der <> P1 -> vtv_grad_norm der D d k c = vtv_grad_norm der D d k' c.
Proof. destruct der; [congruence|reflexivity|reflexivity]. Qed.
Lemma dual_norm_indep_k der chan D C d k k' c : der <> P1 -> vtv_dual_norm der chan D C d k c = vtv_dual_norm der chan D C d k' c.
Proof.
  intros H. destruct chan; cbn [vtv_dual_norm]; [apply grad_norm_indep; auto| |].
  - f_equal. apply rsum_ext. intros c' _. rewrite (grad_norm_indep der D d k k' c' H). reflexivity.
  - apply rsum_ext. intros c' _. rewrite (grad_norm_indep der D d k k' c' H). reflexivity.
Qed.
Lemma dual_norm_indep_c der chan D C d k c c' : chan <> P1 -> vtv_dual_norm der chan D C d k c = vtv_dual_norm der chan D C d k c'.
Proof. destruct chan; [congruence|reflexivity|reflexivity]. Qed.
Lemma vtv_prox_scale der chan D C w d k c :
  vtv_prox der chan D C w d k c = d k c * (w / Rmax (vtv_dual_norm der chan D C d k c) w).
Proof. unfold vtv_prox, Rdiv. ring. Qed.
Lemma vtv_factor_nonneg (a w : R) : 0 < w -> 0 <= w / Rmax a w.
Proof. intros H. apply Rdiv_le_0_compat; [lra|]. pose proof (Rmax_r a w). lra. Qed.
Lemma vtv_dual_norm_ext der chan D C d d' k c : (forall k c, d k c = d' k c) -> vtv_dual_norm der chan D C d k c = vtv_dual_norm der chan D C d' k c.
Proof.
  intros H. assert (G : forall k c, vtv_grad_norm der D d k c = vtv_grad_norm der D d' k c).
  { intros k0 c0. destruct der; cbn [vtv_grad_norm]; [rewrite H; reflexivity| |]; [f_equal|]; apply rsum_ext; intros; rewrite H; reflexivity. }
  destruct chan; cbn [vtv_dual_norm]; [apply G| |]; [f_equal|]; apply rsum_ext; intros; rewrite G; reflexivity.
Qed.
Lemma vtv_norm_of_prox der chan D C w d k c : 0 < w ->
  vtv_dual_norm der chan D C (vtv_prox der chan D C w d) k c
  = vtv_dual_norm der chan D C d k c * (w / Rmax (vtv_dual_norm der chan D C d k c) w).
Proof.
  intros Hw.
  rewrite <- (dual_norm_scale der chan D C (fun k' c' => w / Rmax (vtv_dual_norm der chan D C d k' c') w) d k c).
  - apply vtv_dual_norm_ext. intros; apply vtv_prox_scale.
  - intros; apply vtv_factor_nonneg; exact Hw.
  - intros H k' k'' c'. rewrite (dual_norm_indep_k der chan D C d k' k'' c' H). reflexivity.
  - intros H k' c' c''. rewrite (dual_norm_indep_c der chan D C d k' c' c'' H). reflexivity.
Qed.
(** after the dual proximal step every pixel is in the ball of the chosen point-wise norms *)
Theorem C96_vtv_ball : forall der chan D C w d k c, 0 < w -> vtv_dual_norm der chan D C (vtv_prox der chan D C w d) k c <= w.
Proof.
  intros der chan D C w d k c Hw. rewrite vtv_norm_of_prox by exact Hw. set (a := vtv_dual_norm _ _ _ _ _ _ _).
  destruct (Rle_dec a w) as [H|H].
  - rewrite Rmax_right by exact H. replace (w / w) with 1 by (field; lra). lra.
  - rewrite Rmax_left by lra. replace (a * (w / a)) with w by (field; lra). lra.
Qed.
Theorem C96_vtv_inside_unchanged : forall der chan D C w d, 0 < w ->
  (forall k c, vtv_dual_norm der chan D C d k c <= w) -> forall k c, vtv_prox der chan D C w d k c = d k c.
Proof. intros der chan D C w d Hw H k c. rewrite vtv_prox_scale, Rmax_right by apply H. field. lra. Qed.
Theorem C96_vtv_idempotent : forall der chan D C w d k c, 0 < w ->
  vtv_prox der chan D C w (vtv_prox der chan D C w d) k c = vtv_prox der chan D C w d k c.
Proof. intros der chan D C w d k c Hw. apply C96_vtv_inside_unchanged; [exact Hw|]. intros; apply C96_vtv_ball; exact Hw. Qed.

(** exact Euclidean projection when neither exponent is infinite *)
Definition dsq (D C : nat) (p d : nat -> nat -> R) : R := rsum D (fun k => rsum C (fun c => (p k c - d k c) ^ 2)).
Definition ddot (D C : nat) (p d : nat -> nat -> R) : R := rsum D (fun k => rsum C (fun c => p k c * d k c)).
(** [f] decides the split: one ball *)
Lemma ball_vi n (d q : vec) (w N : R) : 0 < w -> N = sqrt (rsum n (fun i => d i ^ 2)) -> sqrt (rsum n (fun i => q i ^ 2)) <= w ->
  rsum n (fun i => (d i - d i * (w / Rmax N w)) * (q i - d i * (w / Rmax N w))) <= 0.
Proof.
  intros Hw HN Hq.
  assert (HN0 : 0 <= N) by (subst; apply sqrt_pos).
  assert (HN2 : rsum n (fun i => d i ^ 2) = N * N) by (subst; rewrite sqrt_sqrt; [reflexivity|apply rsum_nonneg; intros; apply pow2_ge_0]).
  destruct (Rle_dec N w) as [H|H].
  - rewrite Rmax_right by exact H. right. apply rsum_zero. intros i _. field. lra.
  - rewrite Rmax_left by lra.
    assert (Hdq : rsum n (fun i => d i * q i) <= N * w).
    { pose proof (rsum_CS n d q) as HCS. rewrite HN2 in HCS. set (x := rsum n (fun i => d i * q i)) in *.
      set (y := rsum n (fun i => q i ^ 2)) in *.
      assert (Hy : y <= w * w). { assert (0 <= y) by (apply rsum_nonneg; intros; apply pow2_ge_0). pose proof (sqrt_sqrt y H0). pose proof (sqrt_pos y). nra. }
      destruct (Rle_dec x (N * w)); [lra|]. exfalso. assert (N * w < x) by lra. assert (0 < N * w) by (apply Rmult_lt_0_compat; lra).
      assert ((N * w) ^ 2 < x ^ 2) by nra. nra. }
    rewrite (rsum_ext n _ (fun i => (1 - w / N) * (d i * q i) - (1 - w / N) * (w / N) * d i ^ 2)) by (intros; ring).
    rewrite rsum_minus, !rsum_scal, HN2.
    replace ((1 - w / N) * (w / N) * (N * N)) with ((1 - w / N) * (w * N)) by (field; lra).
    assert (0 <= 1 - w / N). { apply Rmult_le_reg_r with N; [lra|]. replace ((1 - w / N) * N) with (N - w) by (field; lra). lra. }
    nra.
Qed.
Lemma vi_to_projection D C p d q : ddot D C (fun k c => d k c - p k c) (fun k c => q k c - p k c) <= 0 -> dsq D C p d <= dsq D C q d.
Proof.
  intros H. unfold ddot, dsq in *.
  assert (E : rsum D (fun k => rsum C (fun c => (q k c - d k c) ^ 2)) = rsum D (fun k => rsum C (fun c => (p k c - d k c) ^ 2))
     + rsum D (fun k => rsum C (fun c => (q k c - p k c) ^ 2)) - 2 * rsum D (fun k => rsum C (fun c => (d k c - p k c) * (q k c - p k c)))).
  { rewrite <- rsum_scal, <- rsum_plus, <- rsum_minus. apply rsum_ext. intros k _.
    rewrite <- rsum_scal, <- rsum_plus, <- rsum_minus. apply rsum_ext. intros c _. ring. }
  assert (0 <= rsum D (fun k => rsum C (fun c => (q k c - p k c) ^ 2))).
  { apply rsum_nonneg. intros k _. apply rsum_nonneg. intros c _. apply pow2_ge_0. }
  lra.
Qed.
Lemma rsum_nonpos n f : (forall i, (i < n)%nat -> f i <= 0) -> rsum n f <= 0.
Proof. intros H. rewrite <- (rsum_0 n). apply rsum_le. exact H. Qed.
Lemma sqrt_sq_abs x : sqrt (x ^ 2) = Rabs x.
Proof. replace (x ^ 2) with (x²) by (unfold Rsqr; ring). apply sqrt_Rsqr_abs. Qed.
Theorem C96_vtv_projection : forall der chan D C w d q, 0 < w -> der <> Pinf -> chan <> Pinf ->
  (forall k c, (k < D)%nat -> (c < C)%nat -> vtv_dual_norm der chan D C q k c <= w) ->
  dsq D C (vtv_prox der chan D C w d) d <= dsq D C q d.
Proof.
  intros der chan D C w d q Hw Hd Hc Hq. apply vi_to_projection. unfold ddot.
  destruct der, chan; try congruence; clear Hd Hc; cbn [vtv_dual_norm vtv_grad_norm] in Hq.
  - (* P1 P1: one ball per entry *)
    apply rsum_nonpos. intros k Hk. apply rsum_nonpos. intros c Hcc. rewrite vtv_prox_scale. cbn [vtv_dual_norm vtv_grad_norm].
    pose proof (ball_vi 1 (fun _ => d k c) (fun _ => q k c) w (Rabs (d k c)) Hw) as B. cbn [rsum] in B. rewrite !Rplus_0_l, !sqrt_sq_abs in B.
    apply B; [reflexivity|apply Hq; assumption].
  - (* P1 P2: one ball per derivative *)
    apply rsum_nonpos. intros k Hk. rewrite (rsum_ext C _ (fun c => (d k c - d k c * (w / Rmax (vtv_dual_norm P1 P2 D C d k 0) w)) * (q k c - d k c * (w / Rmax (vtv_dual_norm P1 P2 D C d k 0) w)))).
    2:{ intros c _. rewrite !vtv_prox_scale. reflexivity. }
    destruct C as [|C]; [simpl; lra|].
    apply (ball_vi (S C) (d k) (q k) w).
    + exact Hw.
    + cbn [vtv_dual_norm vtv_grad_norm]. f_equal. apply rsum_ext. intros c _. rewrite <- (Rsqr_abs (d k c)) || (rewrite pow2_abs; reflexivity).
    + rewrite (rsum_ext _ _ (fun c' => Rabs (q k c') ^ 2)) by (intros; rewrite pow2_abs; reflexivity). apply (Hq k 0%nat Hk). lia.
  - (* P2 P1: one ball per channel *)
    rewrite rsum_swap. apply rsum_nonpos. intros c Hcc.
    rewrite (rsum_ext D _ (fun k => (d k c - d k c * (w / Rmax (vtv_dual_norm P2 P1 D C d 0 c) w)) * (q k c - d k c * (w / Rmax (vtv_dual_norm P2 P1 D C d 0 c) w)))).
    2:{ intros k _. rewrite !vtv_prox_scale. reflexivity. }
    destruct D as [|D]; [simpl; lra|].
    apply (ball_vi (S D) (fun k => d k c) (fun k => q k c) w).
    + exact Hw.
    + reflexivity.
    + apply (Hq 0%nat c); [lia|exact Hcc].
  - (* P2 P2: one ball *)
    destruct D as [|D]; [simpl; lra|]. destruct C as [|C]; [simpl rsum at 2; rewrite rsum_0; lra|].
    rewrite (rsum_ext (S D) _ (fun k => rsum (S C) (fun c => (d k c - d k c * (w / Rmax (vtv_dual_norm P2 P2 (S D) (S C) d 0 0) w)) * (q k c - d k c * (w / Rmax (vtv_dual_norm P2 P2 (S D) (S C) d 0 0) w))))).
    2:{ intros k _. apply rsum_ext. intros c _. rewrite !vtv_prox_scale. reflexivity. }
    assert (F : forall h : nat -> nat -> R, rsum (S D) (fun k => rsum (S C) (fun c => h k c)) = rsum (S D * S C) (fun i => h (i / S C) (i mod S C))%nat).
    { intros h. rewrite rsum_mul. apply rsum_ext. intros k _. apply rsum_ext. intros c Hcc.
      rewrite Nat.div_add_l, (Nat.div_small c), Nat.add_0_r by lia. rewrite Nat.add_comm, Nat.mod_add, Nat.mod_small by lia. reflexivity. }
    assert (S2 : forall h : nat -> nat -> R, rsum (S C) (fun c => sqrt (rsum (S D) (fun k => h k c ^ 2)) ^ 2) = rsum (S D * S C) (fun i => h (i / S C)%nat (i mod S C)%nat ^ 2)).
    { intros h. rewrite <- (F (fun k c => h k c ^ 2)). rewrite rsum_swap. apply rsum_ext. intros c _. rewrite pow2_sqrt; [reflexivity|].
      apply rsum_nonneg. intros; apply pow2_ge_0. }
    rewrite F. apply (ball_vi (S D * S C) (fun i => d (i / S C) (i mod S C))%nat (fun i => q (i / S C) (i mod S C))%nat w).
    + exact Hw.
    + cbn [vtv_dual_norm vtv_grad_norm]. rewrite S2. reflexivity.
    + rewrite <- S2. apply (Hq 0%nat 0%nat); lia.
Qed.
Example C96_example : vtv_dual_norm P2 P2 1 1 (fun _ _ => 3) 0 0 = 3 /\ vtv_prox P2 P2 1 1 2 (fun _ _ => 3) 0%nat 0%nat = 2.
Proof.
  assert (E : vtv_dual_norm P2 P2 1 1 (fun _ _ => 3) 0 0 = 3).
  { cbn [vtv_dual_norm vtv_grad_norm rsum]. rewrite !Rplus_0_l, !sqrt_sq_abs. rewrite !Rabs_right; rewrite ?Rabs_right; lra. }
  split; [exact E|]. rewrite vtv_prox_scale, E, Rmax_left by lra. field.
Qed.
(** REFUTED for the default exponents (2 over derivatives, infinity over channels): the result is feasible, but it is
    not the closest feasible point, so it is not the proximal of the conjugate. *)
Definition vtv_ex_d : nat -> nat -> R := fun _ c => match c with O => 2 | _ => 1 end.
Definition vtv_ex_q : nat -> nat -> R := fun _ c => match c with O => 1 | _ => 0 end.
Lemma vtv_ex_norm : vtv_dual_norm P2 Pinf 1 2 vtv_ex_d 0 0 = 3.
Proof.
  cbn [vtv_dual_norm vtv_grad_norm rsum vtv_ex_d]. rewrite !Rplus_0_l, !sqrt_sq_abs. rewrite (Rabs_right 2), (Rabs_right 1) by lra.
  rewrite (Rabs_right 2), (Rabs_right 1) by lra. lra.
Qed.
Theorem C96_default_not_projection_refuted : exists D C w d q, 0 < w /\
  (forall k c, vtv_dual_norm P2 Pinf D C q k c <= w) /\ dsq D C q d < dsq D C (vtv_prox P2 Pinf D C w d) d.
Proof.
  exists 1%nat, 2%nat, 1, vtv_ex_d, vtv_ex_q. split; [lra|]. split.
  - intros k c. cbn [vtv_dual_norm vtv_grad_norm rsum vtv_ex_q]. rewrite !Rplus_0_l, !sqrt_sq_abs. rewrite (Rabs_right 1), (Rabs_right 0) by lra.
    rewrite (Rabs_right 1), (Rabs_right 0) by lra. lra.
  - unfold dsq. cbn [rsum]. rewrite !vtv_prox_scale. pose proof vtv_ex_norm as E.
    rewrite (dual_norm_indep_c P2 Pinf 1 2 vtv_ex_d 0 1 0) by discriminate. rewrite E, Rmax_left by lra. cbn [vtv_ex_d vtv_ex_q]. lra.
Qed.

(** * C97: paths of the wavelet regularisers that cannot work *)
Theorem C97_swl_primal_refuted : forall normalized rows, (2 <= rows)%nat -> exists e, swl_prox_primal normalized rows = inl e.
Proof. intros [] rows H; unfold swl_prox_primal; simpl; [|eauto]. destruct (Nat.leb_spec rows 1); [lia|eauto]. Qed.
(** every decomposition with at least one level has at least two rows *)
Theorem C97_swl_primal_always : forall num_axes level, (1 <= num_axes)%nat -> (1 <= level)%nat ->
  exists e, swl_prox_primal true (1 + level * (2 ^ num_axes - 1)) = inl e.
Proof.
  intros a l Ha Hl. apply C97_swl_primal_refuted.
  assert (2 <= 2 ^ a)%nat by (change 2%nat with (2 ^ 1)%nat at 1; apply Nat.pow_le_mono_r; lia). nia.
Qed.
(** the joint threshold of the l12 version: a group should be the sub-bands of one level *)
Theorem C97_l12_one_level : forall num_axes i j, (i < 2 ^ num_axes - 1)%nat -> (j < 2 ^ num_axes - 1)%nat ->
  (swl_l12_same_group 1 i j <-> detail_level num_axes i = detail_level num_axes j).
Proof.
  intros a i j Hi Hj. unfold swl_l12_same_group, detail_level. rewrite !Nat.mod_1_r, !Nat.div_small by assumption. tauto.
Qed.
Theorem C97_l12_one_axis : forall level i j, (i < level)%nat -> (j < level)%nat ->
  (swl_l12_same_group level i j <-> detail_level 1 i = detail_level 1 j).
Proof. intros l i j Hi Hj. unfold swl_l12_same_group, detail_level. change (2 ^ 1 - 1)%nat with 1%nat. rewrite !Nat.div_1_r, !Nat.mod_small by assumption. tauto. Qed.
(** REFUTED otherwise: for every number of axes and levels above one, the first two sub-bands of the finest group
    are separated and two different levels are joined *)
Theorem C97_l12_groups_refuted : forall num_axes level, (2 <= num_axes)%nat -> (2 <= level)%nat ->
  (detail_level num_axes 0 = detail_level num_axes 1 /\ ~ swl_l12_same_group level 0 1) /\
  (exists i j, (i < level * (2 ^ num_axes - 1))%nat /\ (j < level * (2 ^ num_axes - 1))%nat /\
     swl_l12_same_group level i j /\ detail_level num_axes i <> detail_level num_axes j).
Proof.
  intros a l Ha Hl. unfold swl_l12_same_group, detail_level.
  assert (3 <= 2 ^ a - 1)%nat by (assert (4 <= 2 ^ a)%nat by (change 4%nat with (2 ^ 2)%nat; apply Nat.pow_le_mono_r; lia); lia).
  set (n := (2 ^ a - 1)%nat) in *. split; [split|].
  - rewrite !Nat.div_small by lia. reflexivity.
  - rewrite !Nat.mod_small by lia. lia.
  - exists 0%nat, (l * (n - 1))%nat. repeat split; try nia.
    + rewrite Nat.mul_comm, Nat.mod_mul by lia. apply Nat.mod_0_l. lia.
    + rewrite (Nat.div_small 0) by lia. intros E. symmetry in E. apply Nat.div_small_iff in E; nia.
Qed.
(** vl1wl with a reference: it only works when the number of sub-bands happens to match *)
Theorem C97_vl1wl_reference_refuted : forall rows C, (3 <= rows)%nat -> (2 <= C)%nat -> (vl1wl_ok rows C = true <-> rows = S C).
Proof.
  intros rows C Hr HC. unfold vl1wl_ok, vl1wl_kept. rewrite Bool.orb_true_iff, !Nat.eqb_eq. split; lia.
Qed.

(** * C98: step sizes of the wavelet regularisers *)
(** The library transforms on one axis for the Haar filters, circular boundary: one level of the stationary and one of
    the decimated transform (pywt.swtn with norm=False / pywt.wavedecn mode="periodization"), approximation part and
    detail part.  [n] the number of samples, [st] = 2^level so far. *)
Definition haar_swt_a (n st : nat) (x : vec) : vec := fun i => (x i + x ((i + st) mod n)%nat) / sqrt 2.
Definition haar_swt_d (n st : nat) (x : vec) : vec := fun i => (x i - x ((i + st) mod n)%nat) / sqrt 2.
Definition haar_dwt_a (x : vec) : vec := fun i => (x (2 * i)%nat + x (2 * i + 1)%nat) / sqrt 2.
Definition haar_dwt_d (x : vec) : vec := fun i => (x (2 * i)%nat - x (2 * i + 1)%nat) / sqrt 2.
Fixpoint swt_approx (n level st : nat) (x : vec) : vec :=
  match level with O => x | S l => swt_approx n l (2 * st) (haar_swt_a n st x) end.
Fixpoint dwt_approx (level : nat) (x : vec) : vec := match level with O => x | S l => dwt_approx l (haar_dwt_a x) end.
Lemma sqrt2_pos : 0 < sqrt 2. Proof. apply sqrt_lt_R0. lra. Qed.
Lemma sqrt2_sq : sqrt 2 * sqrt 2 = 2. Proof. apply sqrt_sqrt. lra. Qed.
Lemma const_step c : (c + c) / sqrt 2 = c * sqrt 2.
Proof. pose proof sqrt2_pos. pose proof sqrt2_sq. apply Rmult_eq_reg_r with (sqrt 2); [|lra]. replace ((c + c) / sqrt 2 * sqrt 2) with (2 * c) by (field; lra). rewrite Rmult_assoc, sqrt2_sq. ring. Qed.
Lemma swt_const n level : forall st c x, (forall i, x i = c) -> forall i, swt_approx n level st x i = c * sqrt 2 ^ level.
Proof.
  induction level as [|l IH]; intros st c x Hx i; cbn [swt_approx].
  - rewrite Hx. simpl. ring.
  - rewrite (IH (2 * st)%nat (c * sqrt 2)); [simpl; ring|]. intros j. unfold haar_swt_a. rewrite !Hx. apply const_step.
Qed.
Lemma dwt_const level : forall c x, (forall i, x i = c) -> forall i, dwt_approx level x i = c * sqrt 2 ^ level.
Proof.
  induction level as [|l IH]; intros c x Hx i; cbn [dwt_approx].
  - rewrite Hx. simpl. ring.
  - rewrite (IH (c * sqrt 2)); [simpl; ring|]. intros j. unfold haar_dwt_a. rewrite !Hx. apply const_step.
Qed.
(** the two transforms multiply energies by at most 2 per level / preserve them *)
Lemma haar_dwt_isometry n x : norm2 (2 * n) x = norm2 n (haar_dwt_a x) + norm2 n (haar_dwt_d x).
Proof.
  unfold norm2. rewrite Nat.mul_comm, rsum_mul, <- rsum_plus. apply rsum_ext. intros i _. cbn [rsum].
  unfold haar_dwt_a, haar_dwt_d. pose proof sqrt2_pos. pose proof sqrt2_sq as H2.
  rewrite Nat.add_0_r, (Nat.mul_comm i 2).
  replace (((x (2 * i)%nat + x (2 * i + 1)%nat) / sqrt 2) ^ 2) with ((x (2 * i)%nat + x (2 * i + 1)%nat) ^ 2 / (sqrt 2 * sqrt 2)) by (field; lra).
  replace (((x (2 * i)%nat - x (2 * i + 1)%nat) / sqrt 2) ^ 2) with ((x (2 * i)%nat - x (2 * i + 1)%nat) ^ 2 / (sqrt 2 * sqrt 2)) by (field; lra).
  rewrite H2. field.
Qed.
(** REFUTED for the decimated transform: one axis, four Haar levels, a constant image of 16 pixels.  The energy in the
    approximation band alone, weighted with its sigma, exceeds tau times the energy of the image, so
    sum_i sigma_i (W x)_i^2 <= tau |x|^2 fails. *)
Lemma haar_tau4 : dwl_tau 4 1 (sqrt 2) (sqrt 2) <= 2.5.
Proof.
  unfold dwl_tau, func_mult. cbn [labels label seq map flat_map app]. cbv [filter_mult count_true filter length labels label seq map flat_map app lsum fold_right].
  cbn -[sqrt INR]. pose proof sqrt2_pos as Hp. pose proof sqrt2_sq as H2. set (s := sqrt 2) in *.
  assert (1.4 <= s) by nra. assert (s <= 1.5) by nra.
  replace (INR 1) with 1 by reflexivity.
  rewrite ?Rmult_1_r, ?Rmult_1_l.
  assert (E4 : s * (s * (s * s)) = 4) by (rewrite H2; replace (s * (s * 2)) with (2 * (s * s)) by ring; rewrite H2; ring).
  assert (E3 : s * (s * s) = 2 * s) by (rewrite H2; ring).
  rewrite ?E4, ?E3, ?H2.
  assert (Ei : / s = s / 2) by (apply Rmult_eq_reg_l with s; [rewrite Rinv_r by lra; lra|lra]).
  assert (Ei2 : / (2 * s) = s / 4) by (rewrite Rinv_mult, Ei; lra).
  unfold Rdiv. rewrite ?Ei, ?Ei2. lra.
Qed.
Theorem C98_dwl_steps_refuted : exists x : vec,
  dwl_sigma_approx 4 1 (sqrt 2) (sqrt 2) * norm2 1 (dwt_approx 4 x) > dwl_tau 4 1 (sqrt 2) (sqrt 2) * norm2 16 x.
Proof.
  exists (fun _ => 1). pose proof haar_tau4 as Ht. pose proof sqrt2_sq as H2.
  assert (E4 : sqrt 2 ^ 4 = 4) by (replace (sqrt 2 ^ 4) with ((sqrt 2 * sqrt 2) ^ 2) by ring; rewrite H2; ring).
  assert (Es : dwl_sigma_approx 4 1 (sqrt 2) (sqrt 2) = 4).
  { unfold dwl_sigma_approx, func_mult. cbn [nth]. rewrite pow_1. exact E4. }
  rewrite Es. unfold norm2. cbn [rsum]. rewrite (dwt_const 4 1) by reflexivity. rewrite E4. lra.
Qed.
(** REFUTED for the stationary transform without normalisation, same image *)
Theorem C98_swl_steps_refuted : exists x : vec,
  swl_sigma 4 1 (sqrt 2) (sqrt 2) 0 * norm2 16 (swt_approx 16 4 1 x) > dwl_tau 4 1 (sqrt 2) (sqrt 2) * norm2 16 x.
Proof.
  exists (fun _ => 1). pose proof haar_tau4 as Ht. pose proof sqrt2_sq as H2.
  assert (E4 : sqrt 2 ^ 4 = 4) by (replace (sqrt 2 ^ 4) with ((sqrt 2 * sqrt 2) ^ 2) by ring; rewrite H2; ring).
  assert (Es : swl_sigma 4 1 (sqrt 2) (sqrt 2) 0 = 1 / 4).
  { unfold swl_sigma, func_mult. cbn [nth]. rewrite pow_1, E4. reflexivity. }
  rewrite Es. unfold norm2. rewrite (rsum_ext 16 _ (fun _ => 16)).
  - rewrite !rsum_const. simpl INR. lra.
  - intros i _. rewrite (swt_const 16 4 1 1) by reflexivity. rewrite E4. ring.
Qed.
(** With normalisation (sigma = 1, tau = number of sub-bands, 684-688) the condition holds for every transform that
    preserves energy. *)
Theorem C98_swl_normalized : forall n m (W : vec -> vec) level ndims, (forall x, norm2 m (W x) = norm2 n x) ->
  forall x, 1 * norm2 m (W x) <= INR (length (func_mult level ndims (sqrt 2) (sqrt 2))) * norm2 n x.
Proof.
  intros n m W level ndims HW x. rewrite HW. apply Rmult_le_compat_r; [apply norm2_nonneg|].
  apply (le_INR 1). unfold func_mult. simpl. lia.
Qed.
(** and one level of either non-normalised Haar transform is fine in one dimension *)
Theorem C98_dwl_one_level : forall n x,
  dwl_sigma_approx 1 1 (sqrt 2) (sqrt 2) * norm2 n (haar_dwt_a x) + dwl_sigma_detail 1 1 (sqrt 2) (sqrt 2) 0 * norm2 n (haar_dwt_d x)
  <= dwl_tau 1 1 (sqrt 2) (sqrt 2) * norm2 (2 * n) x.
Proof.
  intros n x. rewrite (haar_dwt_isometry n x). pose proof (norm2_nonneg n (haar_dwt_a x)). pose proof (norm2_nonneg n (haar_dwt_d x)).
  assert (Ht : sqrt 2 <= dwl_tau 1 1 (sqrt 2) (sqrt 2)).
  { unfold dwl_tau, func_mult. cbv [filter_mult count_true filter length labels label seq map flat_map app lsum fold_right].
    cbn -[sqrt INR]. pose proof sqrt2_pos as Hp. pose proof sqrt2_sq as H2. set (s := sqrt 2) in *.
    replace (INR 1) with 1 by reflexivity. rewrite ?Rmult_1_r, ?Rmult_1_l. apply Rmult_le_reg_r with s; [exact Hp|].
    match goal with |- _ <= ?r * s => replace (r * s) with 3 by (field; lra) end. lra. }
  unfold dwl_sigma_approx, dwl_sigma_detail, func_mult. cbn [nth]. rewrite !pow_1. nra.
Qed.
