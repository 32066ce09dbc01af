(** C160: MLEM converges to a maximum-likelihood volume. *)
From Verif Require Import Sums DataTermsModel DataTermsProofs SolversModel SolversSpec SolversGeneric SolversProps RegularizersModel SolversConv SolversEMProps Compact EmConv.

(** Poisson setting: non-negative matrix whose columns all count something, positive data and start, no masks, no background, no upper limit;
    a lower limit is allowed as long as it is not positive (e.g. 0) *)
Definition em_setting (P : problem) (M : mat) : Prop :=
  p_op P = mat_op (p_m P) (p_n P) M /\ nonneg_mat (p_m P) (p_n P) M /\
  (forall i, (i < p_m P)%nat -> 0 < p_b P i) /\ (forall j, (j < p_n P)%nat -> 0 < pick_x0 (p_x0 P) vones j) /\
  (forall j, (j < p_n P)%nat -> 0 < col_sum (p_m P) M j) /\
  p_upper P = None /\ p_xmask P = None /\ p_bmask P = None /\ p_btest P = None /\ dt_background (p_dterm P) = None /\
  match p_lower P with None => True | Some l => forall j, (j < p_n P)%nat -> l j <= 0 end.
(** the projections stay above the division guard *)
Definition above_guard (P : problem) (M : mat) : Prop :=
  forall k i, (i < p_m P)%nat -> eps32 <= mv (p_n P) M (mlem_volume P k) i.
(** the admissible volumes: non-negative, every pixel can be reached (finite likelihood) *)
Definition em_admissible (m n : nat) (M : mat) (u : vec) : Prop :=
  (forall j, (j < n)%nat -> 0 <= u j) /\ forall i, (i < m)%nat -> 0 < mv n M u i.

Lemma mlem_step_low P M x j : em_setting P M -> (j < p_n P)%nat -> (forall j, (j < p_n P)%nat -> 0 < x j) ->
  (forall i, (i < p_m P)%nat -> 0 < mv (p_n P) M x i) ->
  mlem_step P x j = x j * (rsum (p_m P) (fun i => M i j * (p_b P i / Rmax (mv (p_n P) M x i) eps32)) / col_sum (p_m P) M j).
Proof.
  intros (Hop & HM & Hb & _ & Hc & H2 & H3 & H4 & H5 & H6 & Hl) Hj Hx Hy. unfold mlem_step, mlem_update, constrain, mul_mask, np_clip.
  rewrite H2, H3. unfold ml_tau. rewrite H4, H5. cbn [fst snd initialize_b_masks]. rewrite Hop. simpl.
  set (v := x j * _). assert (E : v = x j * (rsum (p_m P) (fun i => M i j * (p_b P i / Rmax (mv (p_n P) M x i) eps32)) / col_sum (p_m P) M j)).
  { unfold v, mtv, col_sum, add_background, fi_dt, assigned, assign_data. simpl. rewrite H6. unfold ones_masked, mul_mask, vones. f_equal. f_equal. apply rsum_ext. intros; ring. }
  rewrite <- E. destruct (p_lower P) as [l|]; [|reflexivity]. apply Rmax_left. specialize (Hl j Hj). apply Rle_trans with 0; [exact Hl|]. rewrite E.
  apply Rmult_le_pos; [left; apply Hx, Hj|]. apply Rdiv_le_0_compat; [|apply Hc, Hj]. apply rsum_nonneg. intros i Hi. apply Rmult_le_pos; [apply HM; assumption|].
  apply Rdiv_le_0_compat; [left; apply Hb, Hi|]. eapply Rlt_le_trans; [apply eps32_pos|apply Rmax_r].
Qed.

Lemma x0_eq P M : em_setting P M -> mlem_iterate P 0 = pick_x0 (p_x0 P) vones.
Proof. intros (_ & _ & _ & _ & _ & _ & H & _). unfold mlem_iterate, ml_x0. simpl. rewrite H. reflexivity. Qed.
Lemma mv_pos m n M x i : nonneg_mat m n M -> (i < m)%nat -> (forall j, (j < n)%nat -> 0 < x j) -> (exists j, (j < n)%nat /\ 0 < M i j) -> 0 < mv n M x i.
Proof.
  intros HM Hi Hx (j & Hj & H). apply (rsum_pos n _ j Hj); [|apply Rmult_lt_0_compat; auto]. intros q Hq. apply Rmult_le_pos; [apply HM; auto|left; auto].
Qed.

(** one step as long as the guard is inactive *)
Lemma step_k P M k : em_setting P M -> (forall j, (j < p_n P)%nat -> 0 < mlem_iterate P k j) ->
  (forall i, (i < p_m P)%nat -> eps32 <= mv (p_n P) M (mlem_iterate P k) i) ->
  forall j, (j < p_n P)%nat -> mlem_iterate P (S k) j = mlem_iterate P k j * (rsum (p_m P) (fun i => M i j * (p_b P i / mv (p_n P) M (mlem_iterate P k) i)) / col_sum (p_m P) M j).
Proof.
  intros HP Hp Hg j Hj. pose proof eps32_pos. change (mlem_iterate P (S k)) with (mlem_step P (mlem_iterate P k)).
  rewrite (mlem_step_low P M _ j HP Hj Hp) by (intros i Hi; specialize (Hg i Hi); lra). f_equal. f_equal. apply rsum_ext. intros i Hi. rewrite Rmax_left by (apply Hg, Hi). reflexivity.
Qed.
Lemma all_pos P M : em_setting P M -> above_guard P M -> forall k j, (j < p_n P)%nat -> 0 < mlem_iterate P k j.
Proof.
  intros HP HG k. pose proof HP as (_ & HM & Hb & H0 & Hc & _). pose proof eps32_pos. induction k as [|k IH].
  - rewrite (x0_eq P M HP). exact H0.
  - assert (G : forall i, (i < p_m P)%nat -> eps32 <= mv (p_n P) M (mlem_iterate P k) i) by (intros i Hi; rewrite <- mlem_volume_eq; apply HG, Hi).
    apply (em_gain (p_m P) (p_n P) M (p_b P) (mlem_iterate P k) (mlem_iterate P (S k)) HM Hb IH Hc); [intros i Hi; specialize (G i Hi); lra|].
    intros j Hj. apply (step_k P M k HP IH G j Hj).
Qed.

(** the volumes converge, to a maximiser of the Poisson likelihood, and the likelihood gap is O(1/k) *)
Theorem C160_mlem_converges : forall P M, em_setting P M -> above_guard P M ->
  exists z, em_admissible (p_m P) (p_n P) M z /\
    (forall u, em_admissible (p_m P) (p_n P) M u -> log_lik (p_m P) (p_n P) M (p_b P) u <= log_lik (p_m P) (p_n P) M (p_b P) z) /\
    (forall eps, 0 < eps -> exists N, forall k, (N <= k)%nat -> forall j, (j < p_n P)%nat -> Rabs (mlem_volume P k j - z j) < eps) /\
    (forall k, kl_dist (p_n P) (col_sum (p_m P) M) z (mlem_volume P (S k)) <= kl_dist (p_n P) (col_sum (p_m P) M) z (mlem_volume P k)) /\
    (forall k, log_lik (p_m P) (p_n P) M (p_b P) z - log_lik (p_m P) (p_n P) M (p_b P) (mlem_volume P k)
               <= kl_dist (p_n P) (col_sum (p_m P) M) z (pick_x0 (p_x0 P) vones) / (INR k + 1)).
Proof.
  intros P M HP HG. pose proof HP as (Hop & HM & Hb & H0 & Hc & _).
  assert (HI : forall k i, (i < p_m P)%nat -> eps32 <= mv (p_n P) M (mlem_iterate P k) i) by (intros k i Hi; rewrite <- mlem_volume_eq; apply HG, Hi).
  pose proof (all_pos P M HP HG) as HX.
  destruct (em_converges (p_m P) (p_n P) M (p_b P) (mlem_iterate P) eps32 HM Hb Hc (HX 0%nat) eps32_pos HI) as (z & Z0 & Zy & Zm & Zc & Zd & Zr).
  - intros k j Hj. apply (step_k P M k HP (HX k) (HI k) j Hj).
  - exists z. pose proof eps32_pos. split; [split; [exact Z0|intros i Hi; specialize (Zy i Hi); lra]|]. split; [intros u [A B]; apply Zm; assumption|].
    split; [|split].
    + intros eps He. destruct (Zc eps He) as [N HN]. exists N. intros k Hk. rewrite mlem_volume_eq. apply HN, Hk.
    + intros k. rewrite !mlem_volume_eq. apply Zd.
    + intros k. rewrite mlem_volume_eq. rewrite <- (x0_eq P M HP). apply Zr.
Qed.

(** * A condition on the data and the start under which the guard is never active *)
Definition guard_condition (P : problem) (M : mat) : Prop :=
  forall i, (i < p_m P)%nat -> eps32 <= p_b P i /\ (exists j, (j < p_n P)%nat /\ 0 < M i j) /\
    p_b P i * ln eps32 - eps32 + (rsum (p_m P) (fun i => p_b P i * ln (p_b P i) - p_b P i) - (p_b P i * ln (p_b P i) - p_b P i))
      < log_lik (p_m P) (p_n P) M (p_b P) (pick_x0 (p_x0 P) vones).

Lemma poisson_term b y : 0 < b -> 0 < y -> b * ln y - y <= b * ln b - b.
Proof.
  intros Hb Hy. assert (E : ln y = ln b + ln (y / b)) by (rewrite <- ln_mult; [f_equal; field; lra|lra|apply Rdiv_lt_0_compat; lra]).
  pose proof (ln_le_sub1 (y / b) ltac:(apply Rdiv_lt_0_compat; lra)) as G. apply Rmult_le_compat_l with (r := b) in G; [|lra].
  rewrite E. replace (b * (y / b - 1)) with (y - b) in G by (field; lra). lra.
Qed.
Lemma poisson_incr b y t : 0 < y -> y <= t -> t <= b -> b * ln y - y <= b * ln t - t.
Proof.
  intros Hy Ht Hb. assert (E : ln y = ln t + ln (y / t)) by (rewrite <- ln_mult; [f_equal; field; lra|lra|apply Rdiv_lt_0_compat; lra]).
  pose proof (ln_le_sub1 (y / t) ltac:(apply Rdiv_lt_0_compat; lra)) as G. apply Rmult_le_compat_l with (r := b) in G; [|lra].
  assert (b * (y / t - 1) <= y - t).
  { replace (y - t) with (t * (y / t - 1)) by (field; lra). assert (y / t <= 1) by (apply Rmult_le_reg_r with t; [lra|]; replace (y / t * t) with y by (field; lra); lra). nra. }
  rewrite E. lra.
Qed.

Theorem C160_guard_inactive : forall P M, em_setting P M -> guard_condition P M -> above_guard P M.
Proof.
  intros P M HP HG. pose proof HP as (Hop & HM & Hb & H0 & Hc & _). pose proof eps32_pos as He.
  assert (Bound : forall u, (forall j, (j < p_n P)%nat -> 0 < u j) -> log_lik (p_m P) (p_n P) M (p_b P) (pick_x0 (p_x0 P) vones) <= log_lik (p_m P) (p_n P) M (p_b P) u ->
     forall i, (i < p_m P)%nat -> eps32 <= mv (p_n P) M u i).
  { intros u Hu HL i Hi. destruct (HG i Hi) as (G1 & G2 & G3). apply Rnot_lt_le. intros C.
    assert (Yp : forall q, (q < p_m P)%nat -> 0 < mv (p_n P) M u q) by (intros q Hq; apply (mv_pos (p_m P)); [exact HM|exact Hq|exact Hu|apply (HG q Hq)]).
    set (y := mv (p_n P) M u) in *. set (c := fun q => p_b P q * ln (p_b P q) - p_b P q) in *. set (t := fun q => p_b P q * ln (y q) - y q).
    assert (T : rsum (p_m P) t <= t i + (rsum (p_m P) c - c i)).
    { pose proof (rsum_term_le (p_m P) (fun q => c q - t q) i) as R. cbv beta in R. rewrite rsum_minus in R.
      assert (R0 : forall q, (q < p_m P)%nat -> 0 <= c q - t q) by (intros q Hq; unfold c, t; pose proof (poisson_term (p_b P q) (y q) (Hb q Hq) (Yp q Hq)); lra).
      specialize (R R0 Hi). change (rsum (p_m P) (fun q => c q)) with (rsum (p_m P) c) in R. lra. }
    change (log_lik (p_m P) (p_n P) M (p_b P) u) with (rsum (p_m P) t) in HL.
    pose proof (poisson_incr (p_b P i) (y i) eps32 (Yp i Hi) (Rlt_le _ _ C) G1) as I. change (c i) with (p_b P i * ln (p_b P i) - p_b P i) in T. unfold t in T at 2. lra. }
  assert (All : forall k, (forall j, (j < p_n P)%nat -> 0 < mlem_iterate P k j) /\ log_lik (p_m P) (p_n P) M (p_b P) (pick_x0 (p_x0 P) vones) <= log_lik (p_m P) (p_n P) M (p_b P) (mlem_iterate P k)).
  { induction k as [|k [I1 I2]]; [rewrite (x0_eq P M HP); split; [exact H0|lra]|]. pose proof (Bound _ I1 I2) as G.
    destruct (em_step (p_m P) (p_n P) M (p_b P) (mlem_iterate P k) (mlem_iterate P (S k)) HM Hb I1 Hc) as [A B]; [intros i Hi; specialize (G i Hi); lra|intros j Hj; apply (step_k P M k HP I1 G j Hj)|].
    split; [exact A|lra]. }
  intros k i Hi. rewrite mlem_volume_eq. destruct (All k) as [A B]. apply (Bound _ A B i Hi).
Qed.

(** the two together: no assumption on the run, only on the data and the start *)
Theorem C160_mlem_converges_unconditionally : forall P M, em_setting P M -> guard_condition P M ->
  exists z, em_admissible (p_m P) (p_n P) M z /\
    (forall u, em_admissible (p_m P) (p_n P) M u -> log_lik (p_m P) (p_n P) M (p_b P) u <= log_lik (p_m P) (p_n P) M (p_b P) z) /\
    forall eps, 0 < eps -> exists N, forall k, (N <= k)%nat -> forall j, (j < p_n P)%nat -> Rabs (mlem_volume P k j - z j) < eps.
Proof.
  intros P M HP HG. destruct (C160_mlem_converges P M HP (C160_guard_inactive P M HP HG)) as (z & A & B & C & _). exists z. auto.
Qed.

(** Non-vacuity: the example of C38 (one voxel, two pixels with weights 1 and 2, counts 3 and 3) satisfies the conditions *)
Example C160_example : let M := fun i (_ : nat) => if Nat.eqb i 0 then 1 else 2 in em_setting em_demo M /\ guard_condition em_demo M /\ em_admissible 2 1 M (fun _ => 2).
Proof.
  intros M. assert (L2 : 0 < ln 2) by (rewrite <- ln_1; apply ln_increasing; lra).
  assert (L3 : ln 3 < 2 * ln 2) by (replace (2 * ln 2) with (ln 2 + ln 2) by ring; rewrite <- ln_mult by lra; apply ln_increasing; lra).
  assert (LE : ln eps32 = - (23 * ln 2)) by (unfold eps32; rewrite ln_Rinv by (apply pow_lt; lra); rewrite ln_pow by lra; rewrite INR_IZR_INZ; reflexivity).
  assert (E32 : 0 < eps32 <= 1) by (split; [apply eps32_pos|unfold eps32; rewrite <- Rinv_1; apply Rinv_le_contravar; [lra|apply pow_R1_Rle; lra]]).
  split; [|split].
  - unfold em_setting. simpl. split; [reflexivity|]. split; [intros i j _ _; unfold M; destruct (Nat.eqb i 0); lra|]. split; [intros; lra|]. split; [intros; unfold vones; lra|].
    split; [intros j _; unfold col_sum, M; simpl; lra|]. repeat split.
  - intros i Hi. simpl in Hi. simpl p_m. simpl p_n. simpl p_b. simpl p_x0. split; [lra|]. split; [exists 0%nat; split; [lia|unfold M; destruct (Nat.eqb i 0); lra]|].
    unfold log_lik, mv, M, vones, pick_x0. simpl. rewrite LE. replace (0 + 1 * 1) with 1 by ring. replace (0 + 2 * 1) with 2 by ring. rewrite ln_1. lra.
  - split; [intros; lra|]. intros i _. unfold mv, M. simpl. destruct (Nat.eqb i 0); lra.
Qed.
