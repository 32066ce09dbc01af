(** Theorems C30-C32, C34, C35, C37-C40, C94: step sizes, descent, momentum, EM, power method. *)
From Verif Require Import Sums DataTermsModel DataTermsProofs SolversModel SolversSpec SolversGeneric SolversProps
  RegularizersModel SolversConv.
From Coq Require Import Permutation.

(** * C30 *)
(** [x k] = the volume returned by a k-iteration run without tolerance. *)
Definition sirt_volume (P : problem) (k : nat) : vec := fst (sirt_call (with_tol P None) k).

(** Hypotheses: the operator is an arbitrary matrix with its element-wise absolute value; l2 data term, with or
    without background; no regulariser; binary masks; consistent limits; the guard on tiny row/column
    sums is harmless (see C94); the start is feasible (for k >= 1 this is automatic by C24). *)
Theorem C30_sirt_monotone : forall P M k,
  p_op P = mat_op (p_m P) (p_n P) M -> p_regs P = [] -> dt_kind (p_dterm P) = K_l2 ->
  limits_ok P -> binary_mask (p_xmask P) -> binary_mask (train_mask P) ->
  safe_sigma P -> safe_tau P -> 0 <= p_relax P <= 2 ->
  ((1 <= k)%nat \/ obeys_limits P (pick_x0 (p_x0 P) vzeros)) ->
  wres (p_m P) (p_n P) M (sirt_weight P) (target P) (sirt_volume P (S k))
  <= wres (p_m P) (p_n P) M (sirt_weight P) (target P) (sirt_volume P k).
Proof.
  intros P M k Hop Hr Hk Hl Hbx Hbm Hs Ht Hrel H0. unfold sirt_volume. rewrite !sirt_no_tol.
  change (sirt_iterate P (S k)) with (sirt_step P (sirt_iterate P k)).
  apply sirt_decrease; auto.
  destruct H0 as [H0|H0]; [apply sirt_iterate_feasible; auto|].
  destruct k; [exact H0|apply sirt_iterate_feasible; [auto|lia]].
Qed.

(** Sufficient for the guard condition: largest absolute row / column sum positive and at most 1e5. *)
Theorem C30_scaling_condition : forall P,
  0 < rmax (p_m P) (raw_sigma (p_op P) (p_xmask P)) <= 100000 ->
  0 < rmax (p_n P) (raw_tau (p_op P) (p_regs P) (train_mask P)) <= 100000 -> safe_sigma P /\ safe_tau P.
Proof. intros P [H1 H2] [H3 H4]. split; apply scaling_safe_small; auto. Qed.

(** Non-vacuity: one voxel, one pixel, relaxation 3/2, limits [0, 10], x0 = 1. *)
Definition demo : problem :=
  mkProblem 1 1 (mat_op 1 1 (fun _ _ => 2)) (fun _ => 5) (Some vones) (Some vzeros) (Some (fun _ => 10)) None None None
    None (3/2) [] (new_dterm K_l2 None) (new_dterm K_l2 None).
Example C30_example : p_op demo = mat_op (p_m demo) (p_n demo) (fun _ _ => 2) /\ limits_ok demo /\ safe_sigma demo /\ safe_tau demo /\
  obeys_limits demo (pick_x0 (p_x0 demo) vzeros) /\ 
  wres 1 1 (fun _ _ => 2) (sirt_weight demo) (target demo) (sirt_volume demo 0) = 9/2.
Proof.
  assert (E1 : rmax (p_m demo) (raw_sigma (p_op demo) (p_xmask demo)) = 2).
  { simpl. unfold raw_sigma. simpl. unfold mv, mat_abs, ones_masked, mul_mask, vones. simpl. rewrite (Rabs_right 2) by lra.
    rewrite Rabs_right; lra. }
  assert (E2 : rmax (p_n demo) (raw_tau (p_op demo) (p_regs demo) (train_mask demo)) = 2).
  { simpl. unfold raw_tau. simpl. unfold mtv, mat_abs, ones_masked, mul_mask, vones. simpl. rewrite (Rabs_right 2) by lra.
    rewrite Rabs_right; lra. }
  destruct (C30_scaling_condition demo) as [S1 S2]; [rewrite E1; lra|rewrite E2; lra|].
  split; [reflexivity|]. split.
  { intros l u j H1 H2 _. simpl in *. injection H1 as <-. injection H2 as <-. unfold vzeros. lra. }
  split; [exact S1|]. split; [exact S2|]. split.
  { intros j Hj. split; [exact I|]. intros _. simpl. unfold vzeros, vones. lra. }
  assert (Hsg : sirt_sigma demo 0%nat = /2).
  { unfold sirt_sigma, diag_sigma, guard_small. rewrite E1. change (raw_sigma (p_op demo) (p_xmask demo) 0%nat) with (rmax (p_m demo) (raw_sigma (p_op demo) (p_xmask demo))).
    rewrite E1. destruct (Rlt_dec (2 / 2) (/ 100000)) as [C|_]; [exfalso; lra|lra]. }
  unfold wres. simpl rsum. unfold sirt_weight. rewrite Hsg. unfold sirt_volume. rewrite sirt_no_tol.
  unfold sirt_iterate, target, back_at, mask_at, mv, vones. simpl. unfold vones. lra.
Qed.

(** * C94: scale invariance of the diagonal scalings.  REFUTED. *)
(** two independent voxels, seen with weights 1e6 and 5 *)
Definition bad_mat : mat := fun i j => if Nat.eqb i j then (if Nat.eqb i 0 then 1000000 else 5) else 0.
Definition bad_problem : problem :=
  mkProblem 2 2 (mat_op 2 2 bad_mat) vzeros (Some (fun j => if Nat.eqb j 1 then 1 else 0)) None None None None None
    None 1 [] (new_dterm K_l2 None) (new_dterm K_l2 None).

Lemma bad_raw_sigma i : raw_sigma (p_op bad_problem) None i = Rabs (rsum 2 (fun j => Rabs (bad_mat i j))).
Proof. unfold raw_sigma. simpl. unfold mv, mat_abs, ones_masked, mul_mask, vones. simpl. f_equal. ring. Qed.
Lemma bad_raw_tau j : raw_tau (p_op bad_problem) [] None j = Rabs (rsum 2 (fun i => Rabs (bad_mat i j))).
Proof. unfold raw_tau. simpl. unfold mtv, mat_abs, ones_masked, mul_mask, vones. simpl. f_equal. ring. Qed.
Lemma bad_sum_r i : (i < 2)%nat -> Rabs (rsum 2 (fun j => Rabs (bad_mat i j))) = if Nat.eqb i 0 then 1000000 else 5.
Proof.
  intros Hi. destruct i as [|[|]]; [| |lia]; unfold bad_mat; simpl; rewrite ?Rabs_R0, ?(Rabs_right 1000000), ?(Rabs_right 5) by lra;
    rewrite Rabs_right; lra.
Qed.
Lemma bad_sum_c j : (j < 2)%nat -> Rabs (rsum 2 (fun i => Rabs (bad_mat i j))) = if Nat.eqb j 0 then 1000000 else 5.
Proof.
  intros Hi. destruct j as [|[|]]; [| |lia]; unfold bad_mat; simpl; rewrite ?Rabs_R0, ?(Rabs_right 1000000), ?(Rabs_right 5) by lra;
    rewrite Rabs_right; lra.
Qed.
Lemma bad_guard raw : raw 0%nat = 1000000 -> raw 1%nat = 5 -> guard_small 2 raw 1%nat = 1 /\ guard_small 2 raw 0%nat = 1000000.
Proof.
  intros H0 H1. unfold guard_small. simpl rmax. rewrite H0, H1, Rmax_left by lra.
  destruct (Rlt_dec (5 / 1000000) (/ 100000)); [|exfalso; lra].
  destruct (Rlt_dec (1000000 / 1000000) (/ 100000)); [exfalso; lra|]. auto.
Qed.

Theorem C94_scaling_refuted :
  p_relax bad_problem = 1 /\
  sirt_sigma bad_problem 1%nat * rsum 2 (fun j => Rabs (bad_mat 1%nat j)) = 5 /\
  wres 2 2 bad_mat (sirt_weight bad_problem) vzeros (sirt_volume bad_problem 0) = 25 /\
  wres 2 2 bad_mat (sirt_weight bad_problem) vzeros (sirt_volume bad_problem 1) = 14400.
Proof.
  assert (Hs : sirt_sigma bad_problem 1%nat = 1 /\ sirt_sigma bad_problem 0%nat = / 1000000).
  { unfold sirt_sigma, diag_sigma. simpl p_m. simpl p_xmask.
    destruct (bad_guard (raw_sigma (p_op bad_problem) None)) as [E1 E2];
      [rewrite bad_raw_sigma, bad_sum_r by lia; reflexivity|rewrite bad_raw_sigma, bad_sum_r by lia; reflexivity|].
    rewrite E1, E2. split; lra. }
  assert (Ht : sirt_tau bad_problem 1%nat = 1 /\ sirt_tau bad_problem 0%nat = / 1000000).
  { unfold sirt_tau, diag_tau. simpl p_n. simpl p_regs. simpl p_relax. cbn [initialize_b_masks fst p_bmask p_btest bad_problem].
    destruct (bad_guard (raw_tau (p_op bad_problem) [] None)) as [E1 E2];
      [rewrite bad_raw_tau, bad_sum_c by lia; reflexivity|rewrite bad_raw_tau, bad_sum_c by lia; reflexivity|].
    cbn [p_op bad_problem] in *. rewrite E1, E2. split; lra. }
  split; [reflexivity|]. split.
  - destruct Hs as [-> _]. unfold bad_mat. simpl. rewrite Rabs_R0, Rabs_right; lra.
  - unfold sirt_volume. rewrite !sirt_no_tol. change (sirt_iterate bad_problem 1) with (sirt_step bad_problem (sirt_iterate bad_problem 0)).
    rewrite (sirt_step_l2 bad_problem bad_mat _ eq_refl eq_refl eq_refl).
    unfold wres, sirt_weight, constrain, np_clip, mul_mask. simpl rsum.
    unfold mtv, mv, target, back_at, mask_at, sirt_iterate, vzeros, bad_mat. simpl.
    unfold sirt_weight, mask_at. simpl.
    destruct Hs as [-> ->], Ht as [-> ->]. unfold vzeros. split; lra.
Qed.

(** * C31 *)
Theorem C31_sirt_fixed_points : forall P M x,
  p_op P = mat_op (p_m P) (p_n P) M -> p_regs P = [] -> dt_kind (p_dterm P) = K_l2 ->
  limits_ok P -> binary_mask (p_xmask P) -> binary_mask (train_mask P) -> safe_sigma P -> safe_tau P -> 0 < p_relax P ->
  obeys_limits P x ->
  (veq (p_n P) (sirt_step P x) x <->
   minimises (obeys_limits P) (wres (p_m P) (p_n P) M (sirt_weight P) (target P)) x).
Proof.
  intros P M x Hop Hr Hk Hl Hbx Hbm Hs Ht Hrel Hx. rewrite (sirt_step_l2 P M x Hop Hr Hk).
  set (g := mtv (p_m P) M _).
  assert (Htau : forall j, (j < p_n P)%nat -> 0 < sirt_tau P j).
  { intros j Hj. unfold safe_tau in Ht. pose proof (guard_safe _ _ j Ht Hj) as [H1 _].
    unfold sirt_tau, diag_tau. apply Rdiv_lt_0_compat; [exact Hrel|exact H1]. }
  assert (Hw : forall i, (i < p_m P)%nat -> 0 <= sirt_weight P i).
  { intros i Hi. unfold sirt_weight. apply Rmult_le_pos; [left; apply sirt_sigma_pos; auto|apply binary_nonneg, Hbm]. }
  pose proof (constrain_fixed _ _ _ _ x g (sirt_tau P) Hl Hbx Hx Htau) as HF.
  split.
  - intros H. split; [exact Hx|]. intros y Hy.
    pose proof (proj1 HF H) as Hvi.
    rewrite (wres_ext _ _ M _ _ y (fun j => x j + (y j - x j))) by (intros j _; ring).
    rewrite wres_expand. fold g.
    assert (dot (p_n P) (fun j => y j - x j) g <= 0).
    { unfold dot. rewrite <- (rsum_0 (p_n P)). apply rsum_le. intros j Hj. rewrite Rmult_comm. apply Hvi; auto. }
    assert (0 <= rsum (p_m P) (fun i => sirt_weight P i * mv (p_n P) M (fun j => y j - x j) i ^ 2)).
    { apply rsum_nonneg. intros i Hi. apply Rmult_le_pos; [auto|apply pow2_ge_0]. }
    lra.
  - intros [_ Hmin]. intros j Hj0. refine (proj2 HF _ j Hj0). clear j Hj0. intros y j Hy Hj.
    destruct (Rle_lt_dec (g j * (y j - x j)) 0) as [?|Hpos]; [assumption|exfalso].
    (* move a little towards y in coordinate j only *)
    set (e := fun k => delta k j * (y j - x j)).
    set (Q := rsum (p_m P) (fun i => sirt_weight P i * mv (p_n P) M e i ^ 2)).
    assert (HQ : 0 <= Q) by (apply rsum_nonneg; intros i Hi; apply Rmult_le_pos; [auto|apply pow2_ge_0]).
    set (G := g j * (y j - x j)) in *.
    set (s := Rmin 1 (G / (Q + 1))).
    assert (Hs0 : 0 < s) by (unfold s; apply Rmin_glb_lt; [lra|apply Rdiv_lt_0_compat; lra]).
    assert (Hs1 : s <= 1) by apply Rmin_l.
    assert (Hs2 : s * (Q + 1) <= G).
    { assert (s <= G / (Q + 1)) by apply Rmin_r. apply Rmult_le_compat_r with (r := Q + 1) in H; [|lra].
      replace (G / (Q + 1) * (Q + 1)) with G in H by (field; lra). exact H. }
    specialize (Hmin (fun k => x k + s * e k)).
    rewrite wres_expand in Hmin. fold g in Hmin.
    assert (Hd : dot (p_n P) (fun k => s * e k) g = s * G).
    { unfold dot, e. rewrite (rsum_ext _ _ (fun k => delta k j * (s * (y j - x j) * g k))) by (intros; ring).
      rewrite rsum_delta by exact Hj. unfold G. ring. }
    assert (HE : rsum (p_m P) (fun i => sirt_weight P i * mv (p_n P) M (fun k => s * e k) i ^ 2) = s ^ 2 * Q).
    { unfold Q. rewrite <- rsum_scal. apply rsum_ext. intros i Hi. rewrite mv_scal. ring. }
    rewrite Hd, HE in Hmin.
    assert (Hf : obeys_limits P (fun k => x k + s * e k)).
    { intros k Hk'. destruct (Hx k Hk') as [A1 A2]. destruct (Hy k Hk') as [B1 B2]. unfold e.
      destruct (Nat.eq_dec k j) as [->|Hne].
      - rewrite delta_eq. split.
        + destruct (p_xmask P); [|exact I]. intros E. rewrite (A1 E), (B1 E). ring.
        + intros E. specialize (A2 E). specialize (B2 E). destruct A2 as [A2 A3], B2 as [B2 B3]. split.
          * destruct (p_lower P); [|exact I]. nra.
          * destruct (p_upper P); [|exact I]. nra.
      - rewrite delta_neq by exact Hne. rewrite Rmult_0_l, Rmult_0_r, Rplus_0_r. split; assumption. }
    specialize (Hmin Hf).
    assert (s * (s * Q) < s * (2 * G)) by (apply Rmult_lt_compat_l; nra). nra.
Qed.

(** without limits and mask: the weighted normal equations *)
Theorem C31_normal_equations : forall P M x,
  p_op P = mat_op (p_m P) (p_n P) M -> p_regs P = [] -> dt_kind (p_dterm P) = K_l2 ->
  p_lower P = None -> p_upper P = None -> p_xmask P = None -> safe_tau P -> 0 < p_relax P ->
  (veq (p_n P) (sirt_step P x) x <->
   forall j, (j < p_n P)%nat -> rsum (p_m P) (fun i => M i j * (sirt_weight P i * (target P i - mv (p_n P) M x i))) = 0).
Proof.
  intros P M x Hop Hr Hk Hlo Hup Hxm Ht Hrel. rewrite (sirt_step_l2 P M x Hop Hr Hk), Hlo, Hup, Hxm.
  assert (Htau : forall j, (j < p_n P)%nat -> 0 < sirt_tau P j).
  { intros j Hj. unfold safe_tau in Ht. pose proof (guard_safe _ _ j Ht Hj) as [H1 _].
    unfold sirt_tau, diag_tau. apply Rdiv_lt_0_compat; [exact Hrel|exact H1]. }
  unfold constrain, np_clip, mul_mask. split.
  - intros H j Hj. specialize (H j Hj). simpl in H. specialize (Htau j Hj).
    unfold mtv in H. set (g := rsum _ _) in *. assert (g * sirt_tau P j = 0) by lra.
    apply Rmult_integral in H0. destruct H0; [assumption|lra].
  - intros H j Hj. simpl. unfold mtv. rewrite (H j Hj). ring.
Qed.

(** * C32: Pock-Chambolle condition for the stacked operator *)
(** A block of rows of the stacked operator: p rows, matrix, dual step sizes, column bounds. *)
Record block := mkBlock { bk_p : nat; bk_K : mat; bk_s : vec; bk_t : vec }.
Definition block_ok (n : nat) (B : block) : Prop :=
  (forall i, (i < bk_p B)%nat -> 0 < bk_s B i /\ bk_s B i * rsum n (fun j => Rabs (bk_K B i j)) <= 1) /\
  (forall j, (j < n)%nat -> rsum (bk_p B) (fun i => Rabs (bk_K B i j)) <= bk_t B j).

(** one block: <Kx, y>^2 <= (sum t_j x_j^2)(sum y_i^2 / s_i) *)
Lemma block_cs n B x y : block_ok n B ->
  dot (bk_p B) (mv n (bk_K B) x) y ^ 2 <= rsum n (fun j => bk_t B j * x j ^ 2) * rsum (bk_p B) (fun i => y i ^ 2 / bk_s B i).
Proof.
  intros [Hs Ht].
  (* (sum_i y_i (Kx)_i)^2 <= (sum_i s_i (Kx)_i^2) (sum_i y_i^2/s_i) *)
  assert (H1 : dot (bk_p B) (mv n (bk_K B) x) y ^ 2 <=
     rsum (bk_p B) (fun i => bk_s B i * mv n (bk_K B) x i ^ 2) * rsum (bk_p B) (fun i => y i ^ 2 / bk_s B i)).
  { pose proof (rsum_CS_w (bk_p B) (bk_s B) (mv n (bk_K B) x) (fun i => y i / bk_s B i)) as H. cbv beta in H.
    rewrite (rsum_ext _ (fun i => bk_s B i * (mv n (bk_K B) x i * (y i / bk_s B i))) (fun i => mv n (bk_K B) x i * y i)) in H.
    2:{ intros i Hi. destruct (Hs i Hi). field. lra. }
    rewrite (rsum_ext _ (fun i => bk_s B i * (y i / bk_s B i) ^ 2) (fun i => y i ^ 2 / bk_s B i)) in H.
    2:{ intros i Hi. destruct (Hs i Hi). field. lra. }
    apply H. intros i Hi. left. apply Hs, Hi. }
  eapply Rle_trans; [exact H1|]. apply Rmult_le_compat_r.
  { apply rsum_nonneg. intros i Hi. apply Rdiv_le_0_compat; [apply pow2_ge_0|apply Hs, Hi]. }
  eapply Rle_trans; [apply (energy_bound (bk_p B) n (bk_K B) (bk_s B) (fun _ => 1) (fun _ => 1) x)|].
  - intros i Hi. left. apply Hs, Hi.
  - intros; lra.
  - intros; ring.
  - intros i Hi. destruct (Hs i Hi) as [_ H]. rewrite (rsum_ext n _ (fun j => Rabs (bk_K B i j))) by (intros; ring). exact H.
  - apply rsum_le. intros j Hj. apply Rmult_le_compat_r; [apply pow2_ge_0|].
    rewrite (rsum_ext _ _ (fun i => Rabs (bk_K B i j))) by (intros; ring). rewrite Rmult_1_l. auto.
Qed.

Lemma cs_add u1 u2 X1 X2 Y1 Y2 : 0 <= X1 -> 0 <= X2 -> 0 <= Y1 -> 0 <= Y2 ->
  u1 ^ 2 <= X1 * Y1 -> u2 ^ 2 <= X2 * Y2 -> (u1 + u2) ^ 2 <= (X1 + X2) * (Y1 + Y2).
Proof.
  intros HX1 HX2 HY1 HY2 H1 H2.
  assert (H : 2 * (u1 * u2) <= X1 * Y2 + X2 * Y1).
  { destruct (Rle_lt_dec (u1 * u2) 0) as [Hn|Hp]; [nra|].
    apply Rsqr_incr_0_var; [|nra]. unfold Rsqr.
    assert (u1 ^ 2 * u2 ^ 2 <= (X1 * Y1) * (X2 * Y2)) by (apply Rmult_le_compat; auto using pow2_ge_0).
    assert (0 <= (X1 * Y2 - X2 * Y1) ^ 2) by apply pow2_ge_0. nra. }
  nra.
Qed.

Definition block_t_nonneg (n : nat) (B : block) : Prop := forall j, (j < n)%nat -> 0 <= bk_t B j.
Lemma block_t_pos n B : block_ok n B -> block_t_nonneg n B.
Proof. intros [_ H] j Hj. eapply Rle_trans; [|apply H, Hj]. apply rsum_nonneg. intros; apply Rabs_pos. Qed.

Definition stack_dot (n : nat) (x : vec) (Bq : list (block * vec)) : R :=
  lsum Bq (fun bq => dot (bk_p (fst bq)) (mv n (bk_K (fst bq)) x) (snd bq)).
Definition stack_dual (Bq : list (block * vec)) : R :=
  lsum Bq (fun bq => rsum (bk_p (fst bq)) (fun i => snd bq i ^ 2 / bk_s (fst bq) i)).

Lemma stack_cs n x Bq : Forall (fun bq => block_ok n (fst bq)) Bq ->
  stack_dot n x Bq ^ 2 <= rsum n (fun j => lsum Bq (fun bq => bk_t (fst bq) j) * x j ^ 2) * stack_dual Bq /\
  0 <= rsum n (fun j => lsum Bq (fun bq => bk_t (fst bq) j) * x j ^ 2) /\ 0 <= stack_dual Bq.
Proof.
  induction Bq as [|[B q] Bq IH]; intros HF.
  - unfold stack_dot, stack_dual, lsum. simpl. split; [|split].
    + rewrite Rmult_0_r. simpl. lra.
    + apply rsum_nonneg. intros; lra.
    + lra.
  - inversion HF as [|? ? HB HF']; subst. simpl in HB. destruct (IH HF') as (H1 & H2 & H3).
    assert (E : rsum n (fun j => lsum ((B, q) :: Bq) (fun bq => bk_t (fst bq) j) * x j ^ 2) =
       rsum n (fun j => bk_t B j * x j ^ 2) + rsum n (fun j => lsum Bq (fun bq => bk_t (fst bq) j) * x j ^ 2)).
    { rewrite <- rsum_plus. apply rsum_ext. intros; unfold lsum; simpl; ring. }
    assert (HX : 0 <= rsum n (fun j => bk_t B j * x j ^ 2)).
    { apply rsum_nonneg. intros j Hj. apply Rmult_le_pos; [apply (block_t_pos n B HB j Hj)|apply pow2_ge_0]. }
    assert (HY : 0 <= rsum (bk_p B) (fun i => q i ^ 2 / bk_s B i)).
    { apply rsum_nonneg. intros i Hi. apply Rdiv_le_0_compat; [apply pow2_ge_0|apply HB, Hi]. }
    rewrite E. change (stack_dot n x ((B, q) :: Bq)) with (dot (bk_p B) (mv n (bk_K B) x) q + stack_dot n x Bq).
    change (stack_dual ((B, q) :: Bq)) with (rsum (bk_p B) (fun i => q i ^ 2 / bk_s B i) + stack_dual Bq).
    split; [|split; lra]. apply cs_add; auto. apply block_cs, HB.
Qed.

Lemma raw_tau_sum op regs bm j : raw_tau op regs bm j = Rabs (opAtabs op (ones_masked bm) j) + lsum regs (fun r => r_tau r j).
Proof.
  unfold raw_tau. set (a := fun j => Rabs (opAtabs op (ones_masked bm) j)).
  change (Rabs (opAtabs op (ones_masked bm) j)) with (a j). clearbody a. revert a.
  induction regs as [|r regs IH]; intros a; simpl; unfold lsum; simpl; [ring|].
  rewrite IH. unfold vadd, lsum. ring.
Qed.

(** [rb] describes the operators behind the regularisers; y and the regulariser duals are arbitrary; x and y live
    on the masks (the solver keeps them there). *)
Theorem C32_pdhg_steps : forall P M rb q x y,
  p_op P = mat_op (p_m P) (p_n P) M -> binary_mask (p_xmask P) -> binary_mask (train_mask P) ->
  safe_sigma P -> safe_tau P -> 0 < p_relax P <= 1 ->
  Forall2 (fun r B => block_ok (p_n P) B /\ forall j, r_tau r j = bk_t B j) (p_regs P) rb -> length q = length rb ->
  (forall j, (j < p_n P)%nat -> mask_at (p_xmask P) j = 0 -> x j = 0) ->
  (forall i, (i < p_m P)%nat -> mask_at (train_mask P) i = 0 -> y i = 0) ->
  (dot (p_m P) (mv (p_n P) M x) y + stack_dot (p_n P) x (combine rb q)) ^ 2 <=
  rsum (p_n P) (fun j => x j ^ 2 / pdhg_tau P None j) *
  (rsum (p_m P) (fun i => y i ^ 2 / pdhg_sigma P None i) + stack_dual (combine rb q)).
Proof.
  intros P M rb q x y Hop Hbx Hbm Hs Ht Hrel HF Hlen Hx Hy.
  assert (HFb : Forall (fun bq => block_ok (p_n P) (fst bq)) (combine rb q)).
  { clear - HF. assert (HB : Forall (block_ok (p_n P)) rb) by (induction HF as [|? ? ? ? [? _]]; constructor; auto).
    clear HF. revert q. induction HB as [|b0 bs0 Hb0 HB0 IHB]; intros [|q0 q1]; simpl; try constructor; simpl; auto. }
  (* restricted data block *)
  set (xm := fun j => mask_at (p_xmask P) j). set (bm := fun i => mask_at (train_mask P) i).
  set (D := mkBlock (p_m P) (fun i j => bm i * (M i j * xm j))
     (fun i => 1 / guard_small (p_m P) (raw_sigma (p_op P) (p_xmask P)) i)
     (fun j => Rabs (opAtabs (p_op P) (ones_masked (train_mask P)) j))).
  assert (Hxm : forall j, xm j = 0 \/ xm j = 1) by (intros; apply Hbx).
  assert (Hbm' : forall i, bm i = 0 \/ bm i = 1) by (intros; apply Hbm).
  assert (Habs : forall i j, Rabs (bm i * (M i j * xm j)) = bm i * (Rabs (M i j) * xm j)).
  { intros i j. rewrite !Rabs_mult. destruct (Hxm j) as [-> | ->], (Hbm' i) as [-> | ->]; rewrite ?Rabs_R0, ?Rabs_R1; reflexivity. }
  assert (HD : block_ok (p_n P) D).
  { split; simpl.
    - intros i Hi. destruct (guard_safe _ _ i Hs Hi) as [G1 G2].
      rewrite (sirt_raw_sigma P M i Hop) in G2.
      rewrite Rabs_right in G2 by (apply Rle_ge, rsum_nonneg; intros; apply Rmult_le_pos; [apply Rabs_pos|apply binary_nonneg, Hbx]).
      set (gd := guard_small _ _ i) in *. 
      assert (H1 : rsum (p_n P) (fun j => Rabs (bm i * (M i j * xm j))) <= gd).
      { rewrite (rsum_ext _ _ (fun j => bm i * (Rabs (M i j) * xm j))) by (intros; apply Habs). rewrite rsum_scal.
        assert (0 <= rsum (p_n P) (fun j => Rabs (M i j) * xm j))
          by (apply rsum_nonneg; intros; apply Rmult_le_pos; [apply Rabs_pos|apply binary_nonneg, Hbx]).
        destruct (Hbm' i) as [E0|E0]; rewrite E0; fold xm in G2; change (rsum (p_n P) (fun j : nat => Rabs (M i j) * xm j) <= gd) in G2; lra. }
      assert (0 < 1 / gd) by (apply Rdiv_lt_0_compat; lra). split; [assumption|].
      apply Rmult_le_compat_l with (r := 1 / gd) in H1; [|lra]. replace (1 / gd * gd) with 1 in H1 by (field; lra). exact H1.
    - intros j Hj. rewrite Hop. simpl. unfold mtv, mat_abs. eapply Rle_trans; [|apply Rle_abs].
      apply rsum_le. intros i Hi. rewrite Habs, ones_masked_at. fold (bm i). pose proof (Rabs_pos (M i j)).
      destruct (Hxm j) as [-> | ->], (Hbm' i) as [-> | ->]; lra. }
  pose proof (stack_cs (p_n P) x ((D, y) :: combine rb q) (Forall_cons (P := fun bq : block * vec => block_ok (p_n P) (fst bq)) (D, y) HD HFb)) as (HC & HX & HY).
  assert (E1 : stack_dot (p_n P) x ((D, y) :: combine rb q) = dot (p_m P) (mv (p_n P) M x) y + stack_dot (p_n P) x (combine rb q)).
  { unfold stack_dot at 1, lsum. simpl. fold (lsum (combine rb q) (fun bq => dot (bk_p (fst bq)) (mv (p_n P) (bk_K (fst bq)) x) (snd bq))).
    fold (stack_dot (p_n P) x (combine rb q)). f_equal. unfold dot. apply rsum_ext. intros i Hi.
    destruct (Hbm i) as [E|E]; [rewrite (Hy i Hi E); ring|]. f_equal. unfold mv. apply rsum_ext. intros j Hj.
    unfold bm. rewrite E. destruct (Hbx j) as [E'|E']; [rewrite (Hx j Hj E'); ring|]. unfold xm. rewrite E'. ring. }
  rewrite E1 in HC. eapply Rle_trans; [exact HC|].
  change (stack_dual ((D, y) :: combine rb q)) with
    (rsum (p_m P) (fun i => y i ^ 2 / (1 / guard_small (p_m P) (raw_sigma (p_op P) (p_xmask P)) i)) + stack_dual (combine rb q)) in *.
  assert (Hinv : / p_relax P >= 1) by (apply Rle_ge; rewrite <- Rinv_1; apply Rinv_le_contravar; lra).
  apply Rmult_le_compat; auto.
  - apply rsum_le. intros j Hj. unfold Rdiv. rewrite (Rmult_comm _ (/ pdhg_tau P None j)).
    apply Rmult_le_compat_r; [apply pow2_ge_0|].
    unfold safe_tau in Ht. destruct (guard_safe _ _ j Ht Hj) as [G1 G2]. rewrite raw_tau_sum in G2.
    assert (El : lsum (p_regs P) (fun r => r_tau r j) = lsum (combine rb q) (fun bq => bk_t (fst bq) j)).
    { clear - HF Hlen. revert q Hlen. induction HF as [|r B rs bs [_ HB] HF IH]; intros [|q0 q] Hlen; simpl in Hlen; try discriminate; [reflexivity|].
      unfold lsum. simpl. rewrite HB. f_equal. apply IH. lia. }
    unfold lsum at 1. simpl. fold (lsum (combine rb q) (fun bq => bk_t (fst bq) j)).
    rewrite <- El. unfold pdhg_tau, diag_tau. fold (train_mask P).
    set (gd := guard_small _ _ j) in *.
    replace (/ (p_relax P / gd)) with (/ p_relax P * gd) by (field; lra).
    assert (gd <= / p_relax P * gd) by nra. lra.
  - apply Rplus_le_compat_r. apply rsum_le. intros i Hi. unfold pdhg_sigma, diag_sigma.
    destruct (guard_safe _ _ i Hs Hi) as [G1 _]. set (gd := guard_small _ _ i) in *.
    replace (y i ^ 2 / (1 / gd)) with (y i ^ 2 * gd) by (field; lra).
    replace (y i ^ 2 / (p_relax P / gd)) with (y i ^ 2 * (/ p_relax P * gd)) by (field; lra).
    apply Rmult_le_compat_l; [apply pow2_ge_0|]. nra.
Qed.

(** Non-vacuity: the regulariser of Regularizer_l1 (identity, sigma = tau = 1) is an admissible block. *)
Example C32_example : forall n w, block_ok n (mkBlock n delta vones (r_tau (Regularizer_l1 w None))).
Proof.
  intros n w. split; simpl.
  - intros i Hi. unfold vones. split; [lra|]. rewrite Rmult_1_l.
    rewrite (rsum_single n _ i Hi); [rewrite delta_eq, Rabs_R1; lra|]. intros j Hj Hne. rewrite delta_neq by auto. apply Rabs_R0.
  - intros j Hj. unfold vones. rewrite (rsum_single n _ j Hj); [rewrite delta_eq, Rabs_R1; lra|].
    intros i Hi Hne. rewrite delta_neq by auto. apply Rabs_R0.
Qed.

(** * C34: the momentum sequence of FISTA without restarts *)
(** t_0 = 1 and t_{k+1} as used by the solver: it is the [fi_t] of the k-th state. *)
Lemma fista_t_state P l k : fi_t (fista_iterate P l None (S k)) = next_t (fi_t (fista_iterate P l None k)).
Proof. reflexivity. Qed.

Lemma next_t_eq t : next_t t ^ 2 - next_t t = t ^ 2.
Proof.
  unfold next_t. assert (H : 0 <= 1 + 4 * t * t) by nra. pose proof (sqrt_sqrt _ H).
  set (s := sqrt (1 + 4 * t * t)) in *. nra.
Qed.
Lemma next_t_ge t : 0 <= t -> t + 1/2 <= next_t t.
Proof.
  intros Ht. unfold next_t. assert (2 * t <= sqrt (1 + 4 * t * t)); [|lra].
  rewrite <- (sqrt_square (2 * t)) by lra. apply sqrt_le_1; nra.
Qed.

Theorem C34_momentum : forall P l k,
  let t := fun k => fi_t (fista_iterate P l None k) in
  t 0%nat = 1 /\ t (S k) ^ 2 - t (S k) = t k ^ 2 /\ (INR k + 2) / 2 <= t k /\ 0 <= (t k - 1) / t (S k) < 1.
Proof.
  intros P l k t.
  assert (Hge : forall k, (INR k + 2) / 2 <= t k).
  { intros j. induction j as [|j IH]; [simpl; unfold t; simpl; lra|].
    unfold t. rewrite fista_t_state. fold (t j). rewrite S_INR.
    pose proof (next_t_ge (t j)). pose proof (pos_INR j). lra. }
  split; [reflexivity|]. split; [|split].
  - unfold t. rewrite fista_t_state. apply next_t_eq.
  - apply Hge.
  - pose proof (Hge k) as H. pose proof (pos_INR k) as Hk.
    assert (H1 : t k + 1/2 <= t (S k)) by (unfold t; rewrite fista_t_state; apply next_t_ge; fold (t k); lra).
    split.
    + apply Rdiv_le_0_compat; lra.
    + apply Rmult_lt_reg_r with (t (S k)); [lra|]. unfold Rdiv. rewrite Rmult_assoc, Rinv_l by lra. lra.
Qed.

(** the extrapolation really uses that weight *)
Theorem C34_extrapolation : forall P l k j,
  let s := fista_iterate P l None k in let s' := fista_iterate P l None (S k) in
  fi_y s' j = fi_x s' j + (fi_t s - 1) / fi_t s' * (fi_x s' j - fi_x s j).
Proof. reflexivity. Qed.

(** * C35: REFUTED: at a restart the weight is t_k - 1, which exceeds 1. *)
Theorem C35_restart_refuted : forall P l, exists r k,
  let s := fista_iterate P l (Some r) k in let s' := fista_iterate P l (Some r) (S k) in
  fi_t s' = 1 /\ 1 < (fi_t s - 1) / fi_t s' /\
  forall j, fi_y s' j = fi_x s' j + (fi_t s - 1) / fi_t s' * (fi_x s' j - fi_x s j).
Proof.
  intros P l. exists 10%nat, 9%nat. cbv zeta.
  assert (E : fi_t (fista_iterate P l (Some 10%nat) 10) = 1) by reflexivity.
  assert (H : forall k, (k <= 9)%nat -> (INR k + 2) / 2 <= fi_t (fista_iterate P l (Some 10%nat) k)).
  { induction k as [|k IH]; intros Hk; [simpl; lra|].
    assert (Es : fi_t (fista_iterate P l (Some 10%nat) (S k)) = next_t (fi_t (fista_iterate P l (Some 10%nat) k))).
    { change (fi_t (fista_iterate P l (Some 10%nat) (S k))) with (fista_t (Some 10%nat) k (fi_t (fista_iterate P l (Some 10%nat) k))).
      unfold fista_t, restart_now. do 9 (destruct k as [|k]; [reflexivity|]). lia. }
    rewrite Es, S_INR. pose proof (IH ltac:(lia)). pose proof (pos_INR k).
    pose proof (next_t_ge (fi_t (fista_iterate P l (Some 10%nat) k))). lra. }
  specialize (H 9%nat (le_n 9)). simpl INR in H.
  split; [exact E|]. split; [rewrite E; lra|]. intros j. reflexivity.
Qed.

(** just after a restart the weight is zero again *)
Theorem C35_after_restart : forall P l r k, restart_now (Some r) k = true ->
  fi_y (fista_iterate P l (Some r) (S (S k))) = fi_x (fista_iterate P l (Some r) (S (S k))).
Proof.
  intros P l r k H. apply vec_ext. intros j.
  change (fi_y (fista_iterate P l (Some r) (S (S k))) j) with
    (fi_x (fista_iterate P l (Some r) (S (S k))) j +
     (fi_t (fista_iterate P l (Some r) (S k)) - 1) / fi_t (fista_iterate P l (Some r) (S (S k))) *
     (fi_x (fista_iterate P l (Some r) (S (S k))) j - fi_x (fista_iterate P l (Some r) (S k)) j)).
  replace (fi_t (fista_iterate P l (Some r) (S k))) with 1; [unfold Rdiv; ring|].
  change (fi_t (fista_iterate P l (Some r) (S k))) with (fista_t (Some r) k (fi_t (fista_iterate P l (Some r) k))).
  unfold fista_t. rewrite H. reflexivity.
Qed.
