(** Properties of processing/post.py and processing/noise.py: C65-C67, C72, C73, C127-C129. *)
From Coq Require Import Reals Lra Lia List ZArith Bool Permutation Sorting.Sorted.
Import ListNotations.
From Verif Require Import Sums Arrays OperatorsModel Rounding PyErr Fourier FourierN Reindex ProcMiscModel ProcMiscProps ProcPreModel ProcPreProps ProcPostModel.
Open Scope R_scope.

(** * C73: centre of mass *)
Section Com.
Variables (s : list nat) (a : nat).
Hypothesis Ha : (a < length s)%nat.
Let n := nth a s 0%nat.
Definition mass (vol : arr) : R := bsum s (fun l => Rabs (vol l)).
Lemma com_line_nonneg vol k : 0 <= com_line s a vol k.
Proof. apply bsum_nonneg. intros. apply Rabs_pos. Qed.
Lemma com_mass vol : rsum n (com_line s a vol) = mass vol.
Proof. unfold mass. rewrite (bsum_axis s a _ Ha), bsum_rsum. reflexivity. Qed.
Lemma com_pos_n vol : 0 < mass vol -> (0 < n)%nat.
Proof. intros H. destruct (Nat.eq_dec n 0) as [E|]; [|lia]. rewrite <- com_mass, E in H. simpl in H. lra. Qed.
(** The centre of mass of a non-zero volume is the |vol|-weighted mean of the coordinates ... *)
Theorem C73_weighted_mean vol : 0 < mass vol ->
  com1 s a vol = bsum s (fun l => Rabs (vol l) * com_coord n (nth a l 0%nat)) / mass vol.
Proof.
  intros H. unfold com1. fold n. rewrite com_mass. f_equal. rewrite (bsum_axis s a _ Ha), bsum_rsum. fold n. apply rsum_ext. intros k Hk.
  unfold com_line. rewrite Rmult_comm, <- bsum_scal. apply bsum_ext. intros l Hl. rewrite nth_ins; [ring|].
  rewrite (inb_length _ _ Hl). rewrite del_length by exact Ha. lia.
Qed.
(** ... and lies within their range. *)
Theorem C73_in_range vol : 0 < mass vol -> - (INR n - 1) / 2 <= com1 s a vol <= (INR n - 1) / 2.
Proof.
  intros H. unfold com1. fold n. rewrite com_mass.
  assert (B : forall k, (k < n)%nat -> - (INR n - 1) / 2 <= com_coord n k <= (INR n - 1) / 2).
  { intros k Hk. unfold com_coord. assert (INR k + 1 <= INR n) by (rewrite <- S_INR; apply le_INR; lia). pose proof (pos_INR k). lra. }
  split.
  - apply Rmult_le_reg_r with (mass vol); [exact H|]. unfold Rdiv at 2. rewrite Rmult_assoc, Rinv_l, Rmult_1_r by lra.
    rewrite <- com_mass, <- rsum_scal. apply rsum_le. intros k Hk. pose proof (com_line_nonneg vol k). pose proof (B k Hk). nra.
  - apply Rmult_le_reg_r with (mass vol); [exact H|]. unfold Rdiv at 1. rewrite Rmult_assoc, Rinv_l, Rmult_1_r by lra.
    rewrite <- com_mass, <- rsum_scal. apply rsum_le. intros k Hk. pose proof (com_line_nonneg vol k). pose proof (B k Hk). nra.
Qed.
(** Scaling the volume (also by a negative factor) does not move it. *)
Theorem C73_scale_invariant vol c : c <> 0 -> 0 < mass vol -> com1 s a (fun l => c * vol l) = com1 s a vol.
Proof.
  intros Hc H. unfold com1. fold n.
  assert (E : forall k, com_line s a (fun l => c * vol l) k = Rabs c * com_line s a vol k).
  { intros k. unfold com_line. rewrite <- bsum_scal. apply bsum_ext. intros. apply Rabs_mult. }
  rewrite (rsum_ext n _ (fun k => Rabs c * (com_line s a vol k * com_coord n k))) by (intros; rewrite E; ring).
  rewrite (rsum_ext n (com_line s a (fun l => c * vol l)) (fun k => Rabs c * com_line s a vol k)) by (intros; apply E).
  rewrite !rsum_scal, com_mass. field. split; [lra|]. now apply Rabs_no_R0.
Qed.
(** A volume that is mirror symmetric along the axis has its centre of mass at 0. *)
Theorem C73_symmetric_zero vol : (forall l k, inb (del a s) l -> (k < n)%nat -> Rabs (vol (ins a (n - 1 - k)%nat l)) = Rabs (vol (ins a k l))) ->
  0 < mass vol -> com1 s a vol = 0.
Proof.
  intros Hs H. unfold com1. fold n.
  assert (Z : rsum n (fun k => com_line s a vol k * com_coord n k) = 0).
  { set (S := rsum n _). assert (E : S = - S).
    { unfold S at 1. rewrite rsum_rev. unfold S. rewrite <- rsum_opp. apply rsum_ext. intros k Hk.
      assert (L : com_line s a vol (n - 1 - k) = com_line s a vol k) by (unfold com_line; apply bsum_ext; intros l Hl; now apply Hs).
      rewrite L. unfold com_coord. rewrite !minus_INR by lia. simpl (INR 1). lra. }
    lra. }
  rewrite Z. unfold Rdiv. ring.
Qed.
(** Shifting the volume by z samples along the axis, without losing mass at the border, moves the centre of mass by z. *)
Theorem C73_shift_equivariant vol vol' z : (z <= n)%nat ->
  (forall l k, inb (del a s) l -> (k < n)%nat -> vol' (ins a k l) = if (z <=? k)%nat then vol (ins a (k - z)%nat l) else 0) ->
  (forall l k, inb (del a s) l -> (n - z <= k < n)%nat -> vol (ins a k l) = 0) ->
  0 < mass vol -> com1 s a vol' = com1 s a vol + INR z.
Proof.
  intros Hz Hs Hb H. unfold com1. fold n.
  assert (L : forall k, (k < n)%nat -> com_line s a vol' k = if (z <=? k)%nat then com_line s a vol (k - z) else 0).
  { intros k Hk. unfold com_line. rewrite (bsum_ext _ _ (fun l => if (z <=? k)%nat then Rabs (vol (ins a (k - z)%nat l)) else 0)).
    2:{ intros l Hl. rewrite Hs by assumption. destruct (z <=? k)%nat; [reflexivity|apply Rabs_R0]. }
    destruct (z <=? k)%nat; [reflexivity|apply bsum_0]. }
  assert (L0 : forall k, (n - z <= k < n)%nat -> com_line s a vol k = 0).
  { intros k Hk. unfold com_line. rewrite (bsum_ext _ _ (fun _ => 0)); [apply bsum_0|]. intros l Hl. rewrite Hb by assumption. apply Rabs_R0. }
  assert (G : forall phi : nat -> R, rsum n (fun k => com_line s a vol' k * phi k) = rsum n (fun k => com_line s a vol k * phi (k + z)%nat)).
  { intros phi. replace n with (z + (n - z))%nat at 1 by lia. rewrite rsum_app.
    rewrite (rsum_zero z). 2:{ intros i Hi. rewrite L by lia. destruct (Nat.leb_spec z i); [lia|ring]. }
    replace n with ((n - z) + z)%nat at 2 by lia. rewrite rsum_app.
    rewrite (rsum_zero z (fun i => com_line s a vol (n - z + i) * phi (n - z + i + z)%nat)). 2:{ intros i Hi. rewrite L0 by lia. ring. }
    rewrite Rplus_0_l, Rplus_0_r. apply rsum_ext. intros i Hi. rewrite L by lia. destruct (Nat.leb_spec z (z + i)); [|lia].
    replace (z + i - z)%nat with i by lia. now rewrite (Nat.add_comm i z). }
  rewrite (G (com_coord n)).
  assert (M : rsum n (com_line s a vol') = mass vol).
  { rewrite <- com_mass. rewrite (rsum_ext n (com_line s a vol') (fun k => com_line s a vol' k * (fun _ => 1) k)) by (intros; ring).
    rewrite G. apply rsum_ext. intros; ring. }
  rewrite M, com_mass.
  rewrite (rsum_ext n _ (fun k => com_line s a vol k * com_coord n k + INR z * com_line s a vol k)) by (intros; unfold com_coord; rewrite plus_INR; ring).
  rewrite rsum_plus, rsum_scal, com_mass. field. lra.
Qed.
End Com.
(** all requested axes at once; all axes by default *)
Theorem C73_all_axes s vol i : (i < length s)%nat -> nth i (com s None vol) 0 = com1 s i vol /\ length (com s None vol) = length s.
Proof.
  intros Hi. unfold com. split; [|now rewrite !map_length, seq_length].
  rewrite map_map. rewrite nth_map_seq0 by exact Hi. f_equal. unfold norm_axis. destruct (Z.ltb_spec (Z.of_nat i) 0); lia.
Qed.
Example C73_example : 0 < mass [2%nat] (fun l => match l with [0%nat] => 1 | _ => -3 end)
  /\ com1 [2%nat] 0 (fun l => match l with [0%nat] => 1 | _ => -3 end) = 1 / 4.
Proof.
  split.
  - unfold mass. simpl. rewrite Rabs_R1, (Rabs_left (-3)) by lra. lra.
  - unfold com1, com_line, com_coord. simpl. rewrite Rabs_R1, (Rabs_left (-3)) by lra. field.
Qed.

(** * C66: bias-variance maps *)
(** The exact relation between the three maps. *)
Lemma mean_dev R0 x : (0 < R0)%nat -> rsum R0 (fun r => x r - mean_rec R0 x) = 0.
Proof. intros H. rewrite rsum_minus, rsum_const. unfold mean_rec. field. apply not_0_INR. lia. Qed.
Theorem C66_exact_decomposition R0 x x0 : (2 <= R0)%nat ->
  mse_map R0 x x0 = bias_sq R0 x x0 + (INR (R0 - 1) / INR R0) * var_map R0 x.
Proof.
  intros H. assert (P : INR R0 <> 0) by (apply not_0_INR; lia). assert (P1 : INR (R0 - 1) <> 0) by (apply not_0_INR; lia).
  unfold mse_map, bias_sq, var_map. set (m := mean_rec R0 x).
  rewrite (rsum_ext R0 (fun r => (x r - x0) ^ 2) (fun r => (x r - m) ^ 2 + (2 * (m - x0)) * (x r - m) + (m - x0) ^ 2)) by (intros; ring).
  rewrite !rsum_plus, rsum_scal, rsum_const. unfold m at 3. rewrite mean_dev by lia. field. split; assumption.
Qed.
(** the maps are non-negative and the mse never is below the squared bias *)
Theorem C66_bounds R0 x x0 : (2 <= R0)%nat -> 0 <= bias_sq R0 x x0 <= mse_map R0 x x0 /\ 0 <= var_map R0 x /\ mse_map R0 x x0 <= bias_sq R0 x x0 + var_map R0 x.
Proof.
  intros H. pose proof (C66_exact_decomposition R0 x x0 H) as E.
  assert (P : 0 < INR R0) by (apply lt_0_INR; lia). assert (P1 : 0 < INR (R0 - 1)) by (apply lt_0_INR; lia).
  assert (V : 0 <= var_map R0 x) by (apply Rdiv_le_0_compat; [apply rsum_nonneg; intros; apply pow2_ge_0|exact P1]).
  assert (Q : 0 <= INR (R0 - 1) / INR R0 <= 1).
  { split; [apply Rdiv_le_0_compat; lra|]. apply Rmult_le_reg_r with (INR R0); [exact P|]. unfold Rdiv. rewrite Rmult_assoc, Rinv_l, Rmult_1_r, Rmult_1_l by lra. apply le_INR. lia. }
  assert (0 <= bias_sq R0 x x0) by apply pow2_ge_0. repeat split; try lra; nra.
Qed.
(** REFUTED: the documented identity MSE = Bias^2 + Var fails whenever the realisations differ (the variance divides by R - 1,
    the error by R); it holds only when they are all equal. *)
Theorem C66_documented_identity_refuted R0 x x0 : (2 <= R0)%nat ->
  (mse_map R0 x x0 = bias_sq R0 x x0 + var_map R0 x <-> (forall r, (r < R0)%nat -> x r = mean_rec R0 x)).
Proof.
  intros H. pose proof (C66_exact_decomposition R0 x x0 H) as E.
  assert (P : 0 < INR R0) by (apply lt_0_INR; lia). assert (P1 : 0 < INR (R0 - 1)) by (apply lt_0_INR; lia).
  assert (Q : INR (R0 - 1) / INR R0 <> 1).
  { intros Q. apply (f_equal (fun t => t * INR R0)) in Q. unfold Rdiv in Q. rewrite Rmult_assoc, Rinv_l, Rmult_1_r, Rmult_1_l in Q by lra. apply INR_eq in Q. lia. }
  assert (Vz : var_map R0 x = 0 <-> (forall r, (r < R0)%nat -> x r = mean_rec R0 x)).
  { unfold var_map. split.
    - intros V. assert (S : rsum R0 (fun r => (x r - mean_rec R0 x) ^ 2) = 0).
      { apply (f_equal (fun t => t * INR (R0 - 1))) in V. unfold Rdiv in V. rewrite Rmult_assoc, Rinv_l, Rmult_1_r, Rmult_0_l in V by lra. exact V. }
      intros r Hr. pose proof (rsum_nonneg_zero _ _ (fun j _ => pow2_ge_0 _) S r Hr) as Z. cbv beta in Z. assert ((x r - mean_rec R0 x) = 0) by (apply Rsqr_0_uniq; unfold Rsqr; lra). lra.
    - intros Hr. rewrite rsum_zero; [unfold Rdiv; ring|]. intros r Hr0. rewrite (Hr r Hr0). ring. }
  rewrite <- Vz. split.
  - intros F. rewrite E in F. assert (Z : (INR (R0 - 1) / INR R0 - 1) * var_map R0 x = 0) by lra. apply Rmult_integral in Z. destruct Z; [exfalso; lra|assumption].
  - intros V. rewrite E, V. ring.
Qed.
Example C66_example : mse_map 2 (fun r => INR r) 0 = 1 / 2 /\ bias_sq 2 (fun r => INR r) 0 = 1 / 4 /\ var_map 2 (fun r => INR r) = 1 / 2.
Proof. unfold mse_map, bias_sq, var_map, mean_rec. simpl. repeat split; field. Qed.

(** * C67: scale and bias fit *)
Definition linear_map (A : vec -> vec) : Prop :=
  (forall x y a b i, A (fun j => a * x j + b * y j) i = a * A x i + b * A y i) /\ (forall x y, (forall j, x j = y j) -> forall i, A x i = A y i).
Lemma fit_residual_lin A x y a b i : linear_map A -> fit_residual A x y a b i = a * A x i + b * A ones i - y i.
Proof.
  intros [L E]. unfold fit_residual. rewrite (E (fun j => x j * a + b) (fun j => a * x j + b * ones j)) by (intros; unfold ones; ring).
  now rewrite L.
Qed.
(** ½‖A(a x + b) − y‖² is a quadratic polynomial in (a, b); the expressions handed to the optimiser are its gradient. *)
Lemma fit_expand m A x y a b a' b' : linear_map A ->
  norm2 m (fit_residual A x y a' b') / 2 = norm2 m (fit_residual A x y a b) / 2 + grad_a m A x y a b * (a' - a) + grad_b m A x y a b * (b' - b)
    + norm2 m (fun i => (a' - a) * A x i + (b' - b) * A ones i) / 2.
Proof.
  intros L. unfold grad_a, grad_b, norm2, dot.
  rewrite (rsum_ext m (fun i => fit_residual A x y a' b' i ^ 2) (fun i => (a' * A x i + b' * A ones i - y i) ^ 2)) by (intros; rewrite fit_residual_lin by exact L; reflexivity).
  rewrite (rsum_ext m (fun i => fit_residual A x y a b i ^ 2) (fun i => (a * A x i + b * A ones i - y i) ^ 2)) by (intros; rewrite fit_residual_lin by exact L; reflexivity).
  induction m as [|m IH]; cbn [rsum]; [field|]. lra.
Qed.
Theorem C67_gradient_exact_1d m A x y a b : linear_map A ->
  derivable_pt_lim (fun a' => norm2 m (fit_residual A x y a' b) / 2) a (grad_a m A x y a b)
  /\ derivable_pt_lim (fun b' => norm2 m (fit_residual A x y a b') / 2) b (grad_b m A x y a b).
Proof.
  intros L.
  assert (Q : forall (f : R -> R) t g q, (forall t', f t' = f t + g * (t' - t) + q * (t' - t) ^ 2) -> derivable_pt_lim f t g).
  { intros f t g q Hf eps He.
    assert (Hq : 0 < Rabs q + 1) by (pose proof (Rabs_pos q); lra).
    exists (mkposreal (eps / (Rabs q + 1)) (Rdiv_lt_0_compat _ _ He Hq)). intros h Hh Hd. simpl in Hd.
    rewrite Hf. replace ((f t + g * (t + h - t) + q * (t + h - t) ^ 2 - f t) / h - g) with (q * h) by (field; exact Hh).
    rewrite Rabs_mult. apply Rle_lt_trans with (Rabs q * (eps / (Rabs q + 1))).
    - apply Rmult_le_compat_l; [apply Rabs_pos|lra].
    - apply Rmult_lt_reg_r with (Rabs q + 1); [exact Hq|]. replace (Rabs q * (eps / (Rabs q + 1)) * (Rabs q + 1)) with (Rabs q * eps) by (field; lra). pose proof (Rabs_pos q). nra. }
  split.
  - apply (Q _ _ _ (norm2 m (A x) / 2)). intros a'. rewrite (fit_expand m A x y a b a' b L).
    replace (norm2 m (fun i => (a' - a) * A x i + (b - b) * A ones i)) with ((a' - a) ^ 2 * norm2 m (A x)).
    2:{ unfold norm2. rewrite <- rsum_scal. apply rsum_ext. intros; ring. }
    field.
  - apply (Q _ _ _ (norm2 m (A ones) / 2)). intros b'. rewrite (fit_expand m A x y a b a b' L).
    replace (norm2 m (fun i => (a - a) * A x i + (b' - b) * A ones i)) with ((b' - b) ^ 2 * norm2 m (A ones)).
    2:{ unfold norm2. rewrite <- rsum_scal. apply rsum_ext. intros; ring. }
    field.
Qed.
(** Where both vanish the fit is globally optimal, and only there. *)
Theorem C67_stationary_iff_minimal_1d m A x y a b : linear_map A ->
  (grad_a m A x y a b = 0 /\ grad_b m A x y a b = 0 <->
   forall a' b', norm2 m (fit_residual A x y a b) / 2 <= norm2 m (fit_residual A x y a' b') / 2).
Proof.
  intros L. split.
  - intros [Ga Gb] a' b'. rewrite (fit_expand m A x y a b a' b' L), Ga, Gb. pose proof (norm2_nonneg m (fun i => (a' - a) * A x i + (b' - b) * A ones i)). lra.
  - intros H. destruct (C67_gradient_exact_1d m A x y a b L) as [Da Db].
    assert (K : forall (f : R -> R) t g, derivable_pt_lim f t g -> (forall t', f t <= f t') -> g = 0).
    { intros f t g Df Hm. destruct (Req_dec g 0) as [|Hg]; [assumption|exfalso].
      destruct (Df (Rabs g / 2)) as [[d Hd] Hdd]; [pose proof (Rabs_pos_lt g Hg); lra|]. simpl in Hdd.
      destruct (Rlt_dec 0 g) as [P|P].
      - specialize (Hdd (- (d / 2))). rewrite Rabs_Ropp, Rabs_right in Hdd by lra. specialize (Hdd ltac:(lra) ltac:(lra)).
        pose proof (Hm (t + - (d / 2))). apply Rabs_def2 in Hdd. rewrite (Rabs_right g) in Hdd by lra.
        assert ((f (t + - (d / 2)) - f t) / - (d / 2) <= 0). { unfold Rdiv. rewrite Rinv_opp. apply Ropp_le_cancel. rewrite Ropp_0, Ropp_mult_distr_r, Ropp_involutive. apply Rmult_le_pos; [lra|]. left. apply Rinv_0_lt_compat. lra. }
        lra.
      - specialize (Hdd (d / 2)). rewrite Rabs_right in Hdd by lra. specialize (Hdd ltac:(lra) ltac:(lra)).
        pose proof (Hm (t + d / 2)). apply Rabs_def2 in Hdd. rewrite (Rabs_left g) in Hdd by lra.
        assert (0 <= (f (t + d / 2) - f t) / (d / 2)) by (apply Rdiv_le_0_compat; lra). lra. }
    split.
    + apply (K _ _ _ Da). intros a'. apply H.
    + apply (K _ _ _ Db). intros b'. apply H.
Qed.
(** a consistent image is recovered exactly: when the data are c·A x + e·A 1, (c, e) is stationary *)
Theorem C67_consistent_data_1d m A x y c e : linear_map A -> (forall i, (i < m)%nat -> y i = c * A x i + e * A ones i) ->
  grad_a m A x y c e = 0 /\ grad_b m A x y c e = 0.
Proof.
  intros L Hy. apply (C67_stationary_iff_minimal_1d m A x y c e L). intros a' b'.
  assert (Z0 : norm2 m (fit_residual A x y c e) = 0).
  { unfold norm2. apply rsum_zero. intros i Hi. rewrite fit_residual_lin by exact L. rewrite Hy by exact Hi. ring. }
  rewrite Z0. pose proof (norm2_nonneg m (fit_residual A x y a' b')). lra.
Qed.
Definition id_map : vec -> vec := fun x => x.
Lemma id_map_linear : linear_map id_map.
Proof. split; unfold id_map; auto. Qed.
Example C67_example : grad_a 2 id_map (fun i => INR i) (fun i => 2 * INR i + 3) 2 3 = 0.
Proof. apply (C67_consistent_data_1d 2 id_map (fun i => INR i) _ 2 3 id_map_linear). intros. unfold id_map, ones. ring. Qed.
(** REFUTED for 2-D data: the objective uses the spectral norm, the gradient belongs to the Frobenius norm.
    Image = the 2x2 identity, data 0, bias 0: the objective is a²/2 while the gradient is 2 a. *)
Definition eye2 : vec := fun i => match i with 0%nat | 3%nat => 1 | _ => 0 end.
Theorem C67_spectral_norm_refuted a : 0 <= a ->
  fit_objective [2%nat; 2%nat] (fit_residual id_map eye2 (fun _ => 0) a 0) (inr (a ^ 2 / 2))
  /\ grad_a 4 id_map eye2 (fun _ => 0) a 0 = 2 * a
  /\ derivable_pt_lim (fun a' => a' ^ 2 / 2) a a.
Proof.
  intros Ha. split; [|split].
  - apply (Obj2 _ _ 2%nat 2%nat a); [reflexivity|]. unfold is_spectral_norm, fit_residual, id_map, eye2, norm2. split; [exact Ha|split].
    + intros v. simpl. right. ring.
    + exists (fun i => match i with 0%nat => 1 | _ => 0 end). simpl. split; ring.
  - unfold grad_a, dot, norm2, id_map, eye2, ones. simpl. ring.
  - replace a with (/ 2 * (INR 2 * a ^ 1)) at 2 by (simpl; field).
    intros eps He. destruct (derivable_pt_lim_scal (fun t => t ^ 2) (/ 2) a _ (derivable_pt_lim_pow a 2) eps He) as [d Hd].
    exists d. intros h Hh Hdh. specialize (Hd h Hh Hdh). unfold mult_real_fct in Hd.
    replace ((a + h) ^ 2 / 2 - a ^ 2 / 2) with (/ 2 * (a + h) ^ 2 - / 2 * a ^ 2) by field. exact Hd.
Qed.
(** REFUTED for 3-D data (the usual stack of projections): every evaluation of the objective raises. *)
Theorem C67_nd_raises_refuted d0 d1 d2 rest r o : fit_objective (d0 :: d1 :: d2 :: rest) r o -> o = inl ValueError.
Proof. intros H. inversion H; try discriminate. reflexivity. Qed.

(** * C65: Fourier ring correlation *)
(** the weight with which the pixel l enters the ring k *)
Definition ring_w (s : list nat) (k : nat) (l : list nat) : R :=
  (if Nat.eqb (az_lower AzFourier s l) k then INR (az_lower AzFourier s l) + 1 - az_radius AzFourier s l else 0)
  + (if Nat.eqb (S (az_lower AzFourier s l)) k then az_radius AzFourier s l - INR (az_lower AzFourier s l) else 0).
Lemma ring_w_nonneg s k l : 0 <= ring_w s k l.
Proof. unfold ring_w. pose proof (az_lower_bounds AzFourier s l). destruct (Nat.eqb _ _), (Nat.eqb _ _); lra. Qed.
Lemma az_ring s img k : az_profile AzFourier s img k = bsum s (fun l => ring_w s k l * img l).
Proof. unfold az_profile. apply bsum_ext. intros l _. unfold ring_w, az_w_l, az_w_u. destruct (Nat.eqb _ _), (Nat.eqb _ _); ring. Qed.
Lemma cabs2_nonneg z : 0 <= cabs2 z.
Proof. unfold cabs2. pose proof (pow2_ge_0 (fst z)). pose proof (pow2_ge_0 (snd z)). lra. Qed.
(** complex Cauchy-Schwarz with non-negative weights *)
Lemma bsum_CS s f g : bsum s (fun l => f l * g l) ^ 2 <= bsum s (fun l => f l ^ 2) * bsum s (fun l => g l ^ 2).
Proof. rewrite !bsum_flat. pose proof (rsum_CS (size s) (fun k => f (unflat s k)) (fun k => g (unflat s k))) as H. lra. Qed.
Lemma sqrt_fold_sq x : 0 <= x -> sqrt x ^ 2 = x.
Proof. intros. rewrite <- Rsqr_pow2. now apply Rsqr_sqrt. Qed.
Lemma frc_CS s (F1 F2 : carr) k :
  az_profile AzFourier s (fun l => fst (F1 l *c conj (F2 l))) k ^ 2 + az_profile AzFourier s (fun l => snd (F1 l *c conj (F2 l))) k ^ 2
  <= az_profile AzFourier s (fun l => cabs2 (F1 l)) k * az_profile AzFourier s (fun l => cabs2 (F2 l)) k.
Proof.
  rewrite !az_ring.
  set (X := bsum s (fun l => ring_w s k l * fst (F1 l *c conj (F2 l)))).
  set (Y := bsum s (fun l => ring_w s k l * snd (F1 l *c conj (F2 l)))).
  set (P := bsum s (fun l => ring_w s k l * cabs2 (F1 l))). set (Q := bsum s (fun l => ring_w s k l * cabs2 (F2 l))).
  assert (HP : 0 <= P) by (apply bsum_nonneg; intros l _; apply Rmult_le_pos; [apply ring_w_nonneg|apply cabs2_nonneg]).
  assert (HQ : 0 <= Q) by (apply bsum_nonneg; intros l _; apply Rmult_le_pos; [apply ring_w_nonneg|apply cabs2_nonneg]).
  (* for all real a, c, d:  sum w |a F1 - (c + i d) F2|^2 >= 0 *)
  assert (G : forall c d, 0 <= P - 2 * (c * X + d * Y) + (c ^ 2 + d ^ 2) * Q).
  { intros c d. apply Rle_trans with (bsum s (fun l => ring_w s k l * ((fst (F1 l) - (c * fst (F2 l) - d * snd (F2 l))) ^ 2 + (snd (F1 l) - (c * snd (F2 l) + d * fst (F2 l))) ^ 2))).
    { apply bsum_nonneg. intros l _. apply Rmult_le_pos; [apply ring_w_nonneg|]. match goal with |- 0 <= ?u ^ 2 + ?v ^ 2 => pose proof (pow2_ge_0 u); pose proof (pow2_ge_0 v); lra end. }
    right. unfold P, X, Y, Q.
    rewrite (bsum_ext s (fun l => ring_w s k l * ((fst (F1 l) - (c * fst (F2 l) - d * snd (F2 l))) ^ 2 + (snd (F1 l) - (c * snd (F2 l) + d * fst (F2 l))) ^ 2))
      (fun l => (ring_w s k l * cabs2 (F1 l) + (- 1) * (2 * (c * (ring_w s k l * fst (F1 l *c conj (F2 l))) + d * (ring_w s k l * snd (F1 l *c conj (F2 l)))))) + (c ^ 2 + d ^ 2) * (ring_w s k l * cabs2 (F2 l)))).
    2:{ intros l _. unfold cabs2, Cmul, conj. simpl. ring. }
    rewrite !bsum_plus, !bsum_scal, bsum_plus, !bsum_scal. ring. }
  destruct (Req_dec Q 0) as [Z|Z].
  - (* X = Y = 0 *)
    rewrite Z in *. destruct (Req_dec (X ^ 2 + Y ^ 2) 0) as [E|E]; [lra|].
    pose proof (pow2_ge_0 X). pose proof (pow2_ge_0 Y). assert (Hpos : 0 < X ^ 2 + Y ^ 2) by lra.
    specialize (G (X * ((P + 1) / (X ^ 2 + Y ^ 2))) (Y * ((P + 1) / (X ^ 2 + Y ^ 2)))).
    replace (X * ((P + 1) / (X ^ 2 + Y ^ 2)) * X + Y * ((P + 1) / (X ^ 2 + Y ^ 2)) * Y) with (P + 1) in G by (field; lra). lra.
  - assert (Hq : 0 < Q) by lra. specialize (G (X / Q) (Y / Q)).
    apply Rmult_le_compat_r with (r := Q) in G; [|lra].
    replace ((P - 2 * (X / Q * X + Y / Q * Y) + ((X / Q) ^ 2 + (Y / Q) ^ 2) * Q) * Q) with (P * Q - (X ^ 2 + Y ^ 2)) in G by (field; lra). lra.
Qed.
Theorem C65_one_pair_in_unit_interval s F1 F2 k : 0 <= frc_one s F1 F2 k <= 1.
Proof.
  unfold frc_one. set (X := az_profile _ _ (fun l => fst _) k). set (Y := az_profile _ _ (fun l => snd _) k).
  set (P := az_profile _ _ (fun l => cabs2 (F1 l)) k). set (Q := az_profile _ _ (fun l => cabs2 (F2 l)) k).
  cbv zeta. pose proof (frc_CS s F1 F2 k) as CS. fold X Y P Q in CS.
  assert (HP : 0 <= P) by (apply C63_profile_nonneg; intros; apply cabs2_nonneg).
  assert (HQ : 0 <= Q) by (apply C63_profile_nonneg; intros; apply cabs2_nonneg).
  assert (0 <= P * Q) by (apply Rmult_le_pos; assumption).
  pose proof (sqrt_pos (X ^ 2 + Y ^ 2)).
  destruct (Req_EM_T (P * Q) 0) as [E|E].
  - rewrite E in *. replace (0 + 1) with 1 by ring. rewrite sqrt_1. assert (X ^ 2 + Y ^ 2 = 0) by (pose proof (pow2_ge_0 X); pose proof (pow2_ge_0 Y); lra).
    rewrite H1, sqrt_0. unfold Rdiv. rewrite Rinv_1. lra.
  - rewrite Rplus_0_r. assert (Hs : 0 < sqrt (P * Q)) by (apply sqrt_lt_R0; lra). split.
    + apply Rdiv_le_0_compat; assumption.
    + apply Rmult_le_reg_r with (sqrt (P * Q)); [exact Hs|]. unfold Rdiv. rewrite Rmult_assoc, Rinv_l, Rmult_1_r, Rmult_1_l by lra. now apply sqrt_le_1_alt.
Qed.
Theorem C65_stack_in_unit_interval m s mask img1 img2 k : (0 < m)%nat -> 0 <= frc_stack m s mask img1 img2 k <= 1.
Proof.
  intros Hm. unfold frc_stack. assert (P : 0 < INR m) by (apply lt_0_INR; lia). split.
  - apply Rdiv_le_0_compat; [|exact P]. apply rsum_nonneg. intros. apply C65_one_pair_in_unit_interval.
  - apply Rmult_le_reg_r with (INR m); [exact P|]. unfold Rdiv. rewrite Rmult_assoc, Rinv_l by lra.
    rewrite Rmult_1_r, Rmult_1_l. apply Rle_trans with (rsum m (fun _ => 1)); [apply rsum_le; intros; apply C65_one_pair_in_unit_interval|]. rewrite rsum_const. lra.
Qed.
Lemma hann_nonneg M i : 0 <= hann M i.
Proof. unfold hann. pose proof (COS_bound (2 * PI * INR i / (INR M - 1))). lra. Qed.
(** smoothing keeps the curve in [0,1]; the window is non-negative, so its sum is zero or positive *)
Theorem C65_smoothed_in_unit_interval m s mask smooth img1 img2 k v : (0 < m)%nat ->
  compute_frc m s mask smooth img1 img2 k = Some v -> 0 <= v <= 1.
Proof.
  intros Hm. unfold compute_frc, smooth_curve. destruct (smooth <=? 1)%nat; [intros E; inversion E; now apply C65_stack_in_unit_interval|].
  destruct (Req_EM_T (hann_sum smooth) 0) as [|N]; [discriminate|]. intros E. inversion E; clear E. clear H0 v.
  assert (P : 0 < hann_sum smooth). { assert (0 <= hann_sum smooth) by (apply rsum_nonneg; intros; apply hann_nonneg). lra. }
  assert (W : forall e, 0 <= hann smooth e / hann_sum smooth) by (intros; apply Rdiv_le_0_compat; [apply hann_nonneg|exact P]).
  split.
  - apply rsum_nonneg. intros e _. apply Rmult_le_pos; [apply W|apply C65_stack_in_unit_interval; exact Hm].
  - apply Rle_trans with (rsum smooth (fun e => / hann_sum smooth * hann smooth e)).
    + apply rsum_le. intros e _. pose proof (C65_stack_in_unit_interval m s mask img1 img2 (clamp_idx (az_len AzFourier s) smooth k e) Hm) as [A B].
      pose proof (W e) as We. unfold Rdiv in *. replace (/ hann_sum smooth * hann smooth e) with (hann smooth e * / hann_sum smooth * 1) by ring. now apply Rmult_le_compat_l.
    + rewrite rsum_scal. fold (hann_sum smooth). rewrite Rinv_l by lra. lra.
Qed.
(** a window of at least three points has a positive sum: the curve is defined *)
Theorem C65_smoothing_defined M n f k : (M <> 2)%nat -> exists v, smooth_curve M n f k = Some v.
Proof.
  intros HM. unfold smooth_curve. destruct (Nat.leb_spec M 1); [eauto|]. destruct (Req_EM_T (hann_sum M) 0) as [E|E]; [exfalso|eauto].
  assert (H3 : (3 <= M)%nat) by lia.
  assert (P : 0 < hann M 1).
  { unfold hann. simpl (INR 1). assert (HI : 3 <= INR M) by (replace 3 with (INR 3) by (simpl; lra); apply le_INR; lia).
    pose proof PI_RGT_0. set (t := 2 * PI * 1 / (INR M - 1)).
    assert (T : 0 < t <= PI).
    { split; unfold t; [apply Rdiv_lt_0_compat; lra|]. apply Rmult_le_reg_r with (INR M - 1); [lra|]. unfold Rdiv. rewrite Rmult_assoc, Rinv_l by lra. nra. }
    pose proof (cos_decreasing_1 0 t ltac:(lra) ltac:(lra) ltac:(lra) ltac:(lra) ltac:(lra)) as C. rewrite cos_0 in C. lra. }
  pose proof (rsum_pos M (hann M) 1 ltac:(lia) (fun j _ => hann_nonneg M j) P) as S. unfold hann_sum in E. lra.
Qed.
(** REFUTED for smooth = 2: the symmetric two-point Hann window is (0, 0), the normalisation divides by zero and the whole
    curve is NaN (which is not in [0,1]). *)
Theorem C65_smooth_two_refuted m s mask img1 img2 k : compute_frc m s mask 2 img1 img2 k = None.
Proof.
  unfold compute_frc, smooth_curve. cbn [Nat.leb]. destruct (Req_EM_T (hann_sum 2) 0) as [|N]; [reflexivity|]. exfalso. apply N.
  unfold hann_sum, hann. simpl. replace (2 * PI * 0 / (1 + 1 - 1)) with 0 by field. replace (2 * PI * 1 / (1 + 1 - 1)) with (2 * PI) by field.
  rewrite cos_0, cos_2PI. lra.
Qed.
(** An image against a non-zero multiple of itself: exactly 1 on every ring with signal. *)
Theorem C65_multiple_is_one s F1 F2 c k : c <> 0 -> (forall l, inb s l -> F2 l = RtoC c *c F1 l) ->
  0 < az_profile AzFourier s (fun l => cabs2 (F1 l)) k -> frc_one s F1 F2 k = 1.
Proof.
  intros Hc HF HP. unfold frc_one. set (P := az_profile AzFourier s (fun l => cabs2 (F1 l)) k) in *.
  assert (E1 : az_profile AzFourier s (fun l => fst (F1 l *c conj (F2 l))) k = c * P).
  { unfold P. rewrite !az_ring, <- bsum_scal. apply bsum_ext. intros l Hl. rewrite HF by exact Hl. unfold cabs2, Cmul, conj, RtoC. simpl. ring. }
  assert (E2 : az_profile AzFourier s (fun l => snd (F1 l *c conj (F2 l))) k = 0).
  { rewrite az_ring. rewrite (bsum_ext s _ (fun _ => 0)); [apply bsum_0|]. intros l Hl. rewrite HF by exact Hl. unfold Cmul, conj, RtoC. simpl. ring. }
  assert (E3 : az_profile AzFourier s (fun l => cabs2 (F2 l)) k = c ^ 2 * P).
  { unfold P. rewrite !az_ring, <- bsum_scal. apply bsum_ext. intros l Hl. rewrite HF by exact Hl. unfold cabs2, Cmul, RtoC. simpl. ring. }
  rewrite E1, E2, E3. cbv zeta. replace ((c * P) ^ 2 + 0 ^ 2) with ((c * P) ^ 2) by ring. replace (P * (c ^ 2 * P)) with ((c * P) ^ 2) by ring.
  assert (Hn : (c * P) ^ 2 <> 0) by (apply pow_nonzero; apply Rmult_integral_contrapositive; split; lra).
  destruct (Req_EM_T ((c * P) ^ 2) 0) as [|_]; [contradiction|]. rewrite Rplus_0_r.
  assert (0 < sqrt ((c * P) ^ 2)) by (apply sqrt_lt_R0; pose proof (pow2_ge_0 (c * P)); lra). field. lra.
Qed.
Lemma fftn_scal_ext s axes c x y : axes_ok s axes -> (forall l, inb s l -> y l = c *c x l) -> forall l, inb s l -> fftn s axes y l = c *c fftn s axes x l.
Proof.
  intros Hax E. induction axes as [|a t IH]; intros l Hl; [apply E, Hl|]. inversion Hax as [|? ? Ha Ht]; subst. specialize (IH Ht).
  cbn [fftn fold_right]. fold (fftn s t x) (fftn s t y). unfold calong.
  rewrite <- dft_scal. apply dft_ext. intros i Hi. apply IH. now apply inb_set.
Qed.
Theorem C65_identical_images_one m s mask smooth (img1 img2 : nat -> arr) (c : nat -> R) k : (smooth <= 1)%nat -> (0 < m)%nat ->
  (forall i, c i <> 0) -> (forall i l, inb s l -> img2 i l = c i * img1 i l) ->
  (forall i, (i < m)%nat -> 0 < az_profile AzFourier s (fun l => cabs2 (spectrum_f s mask (img1 i) l)) k) ->
  compute_frc m s mask smooth img1 img2 k = Some 1.
Proof.
  intros Hs Hm Hc Hi Hp. unfold compute_frc, smooth_curve. destruct (Nat.leb_spec smooth 1); [|lia]. f_equal. unfold frc_stack.
  rewrite (rsum_ext m _ (fun _ => 1)).
  - rewrite rsum_const. field. apply not_0_INR. lia.
  - intros i Him. apply (C65_multiple_is_one _ _ _ (c i)); [apply Hc| |now apply Hp]. intros l Hl. unfold spectrum_f.
    apply fftn_scal_ext; [|intros l' Hl'|exact Hl].
    + apply Forall_forall. intros a Ha. apply in_seq in Ha. lia.
    + unfold masked. destruct mask as [mm|]; rewrite Hi by exact Hl'; unfold RtoC, Cmul; simpl; f_equal; ring.
Qed.
(** Swapping the two images does not change the curve. *)
Theorem C65_symmetric m s mask smooth img1 img2 k : compute_frc m s mask smooth img1 img2 k = compute_frc m s mask smooth img2 img1 k.
Proof.
  assert (O : forall F1 F2 k, frc_one s F1 F2 k = frc_one s F2 F1 k).
  { intros F1 F2 k0. unfold frc_one.
    rewrite (C63_locality AzFourier s (fun l => fst (F1 l *c conj (F2 l))) (fun l => fst (F2 l *c conj (F1 l))) k0) by (intros; unfold Cmul, conj; simpl; ring).
    assert (E : az_profile AzFourier s (fun l => snd (F1 l *c conj (F2 l))) k0 = - az_profile AzFourier s (fun l => snd (F2 l *c conj (F1 l))) k0).
    { rewrite !az_ring, <- bsum_opp. apply bsum_ext. intros. unfold Cmul, conj; simpl; ring. }
    rewrite E. cbv zeta. rewrite (Rmult_comm (az_profile AzFourier s (fun l => cabs2 (F1 l)) k0)).
    f_equal. f_equal. ring. }
  assert (S : forall k, frc_stack m s mask img1 img2 k = frc_stack m s mask img2 img1 k).
  { intros k0. unfold frc_stack. f_equal. apply rsum_ext. intros. apply O. }
  unfold compute_frc, smooth_curve. destruct (smooth <=? 1)%nat; [now rewrite S|]. destruct (Req_EM_T _ _); [reflexivity|]. f_equal.
  apply rsum_ext. intros. now rewrite S.
Qed.
Example C65_example : frc_one [1%nat] (fun _ => (1, 0)) (fun _ => (0, 2)) 0 = 1.
Proof.
  assert (A : az_profile AzFourier [1%nat] (fun _ => 1) 0 = 1).
  { unfold az_profile, az_w_l, az_w_u. cbn [bsum rsum].
    assert (Rd : az_radius AzFourier [1%nat] [0%nat] = 0). { unfold az_radius. simpl. replace (0 * (0 * 1) + 0) with 0 by ring. apply sqrt_0. }
    assert (L : az_lower AzFourier [1%nat] [0%nat] = 0%nat). { unfold az_lower. rewrite Rd. pose proof (az_lower_bounds AzFourier [1%nat] [0%nat]) as B. rewrite Rd in B. unfold az_lower in B. rewrite Rd in B. pose proof (pos_INR (Z.to_nat (rfloor 0))). assert (INR (Z.to_nat (rfloor 0)) = INR 0) by (simpl; lra). now apply INR_eq. }
    rewrite L, Rd. simpl. ring. }
  assert (G : forall v, az_profile AzFourier [1%nat] (fun _ => v) 0 = v).
  { intros v. transitivity (v * az_profile AzFourier [1%nat] (fun _ => 1) 0); [|rewrite A; ring]. rewrite !az_ring, <- bsum_scal. apply bsum_ext. intros; ring. }
  unfold frc_one. rewrite !G. unfold cabs2, Cmul, conj. simpl. destruct (Req_EM_T _ 0) as [E|E]; [lra|].
  match goal with |- sqrt ?a / sqrt ?b = 1 => replace a with 4 by ring; replace b with 4 by ring end.
  assert (0 < sqrt 4) by (apply sqrt_lt_R0; lra). field. lra.
Qed.

(** the threshold curve *)
Theorem C65_threshold_range snrt r : 0 < snrt -> 1 <= r -> 0 < frc_threshold snrt r <= 1 /\ (r = 1 -> frc_threshold snrt r = 1).
Proof.
  intros Hs Hr. unfold frc_threshold. assert (Q : 0 < sqrt snrt) by (apply sqrt_lt_R0; lra).
  assert (S1 : 1 <= sqrt r) by (rewrite <- sqrt_1; now apply sqrt_le_1_alt).
  assert (I : 0 < / sqrt r <= 1) by (split; [apply Rinv_0_lt_compat; lra|rewrite <- Rinv_1; apply Rinv_le_contravar; lra]).
  unfold Rdiv. set (u := / sqrt r) in *.
  assert (D : 0 < snrt + 1 + 2 * sqrt snrt * u) by nra.
  split; [split|].
  - apply Rmult_lt_0_compat; [nra|apply Rinv_0_lt_compat; exact D].
  - apply Rmult_le_reg_r with (snrt + 1 + 2 * sqrt snrt * u); [exact D|]. rewrite Rmult_assoc, Rinv_l by lra. nra.
  - intros ->. unfold u. rewrite sqrt_1, Rinv_1. field. lra.
Qed.
(** larger rings have lower thresholds *)
Theorem C65_threshold_antitone snrt r r' : 0 < snrt -> 1 <= r <= r' -> frc_threshold snrt r' <= frc_threshold snrt r.
Proof.
  intros Hs [Hr Hr']. unfold frc_threshold. assert (Q : 0 < sqrt snrt) by (apply sqrt_lt_R0; lra).
  assert (S1 : 1 <= sqrt r) by (rewrite <- sqrt_1; now apply sqrt_le_1_alt).
  assert (S2 : sqrt r <= sqrt r') by now apply sqrt_le_1_alt.
  assert (U : / sqrt r' <= / sqrt r) by (apply Rinv_le_contravar; lra).
  assert (U0 : 0 < / sqrt r') by (apply Rinv_0_lt_compat; lra). unfold Rdiv.
  set (u' := / sqrt r') in *. set (u := / sqrt r) in *. set (q := sqrt snrt) in *.
  assert (E : snrt = q * q) by (unfold q; rewrite sqrt_sqrt; lra).
  assert (D : 0 < snrt + 1 + 2 * q * u) by nra. assert (D' : 0 < snrt + 1 + 2 * q * u') by nra.
  apply Rmult_le_reg_r with (snrt + 1 + 2 * q * u'); [exact D'|]. rewrite Rmult_assoc, Rinv_l, Rmult_1_r by lra.
  apply Rmult_le_reg_r with (snrt + 1 + 2 * q * u); [exact D|].
  replace ((snrt + (2 * q + 1) * u) * / (snrt + 1 + 2 * q * u) * (snrt + 1 + 2 * q * u') * (snrt + 1 + 2 * q * u)) with ((snrt + (2 * q + 1) * u) * (snrt + 1 + 2 * q * u')) by (field; lra).
  (* difference = (u - u') ((2q+1)(snrt+1) - 2 q snrt) *)
  assert (K : 0 <= (u - u') * ((2 * q + 1) * (snrt + 1) - 2 * q * snrt)) by (apply Rmult_le_pos; [lra|nra]). nra.
Qed.
Theorem C65_ring_size d k : (1 <= d <= 3)%nat -> 1 <= ring_size d k.
Proof.
  intros Hd. unfold ring_size. destruct k as [|k]; [lra|]. pose proof PI_4. pose proof PI2_3_2. assert (Hk : 1 <= INR (S k)) by (rewrite S_INR; pose proof (pos_INR k); lra).
  assert (P3 : 3 < PI) by (pose proof PI2_3_2; unfold PI2 in *; lra).
  assert (d = 1 \/ d = 2 \/ d = 3)%nat as [->|[->| ->]] by lia; [lra|nra|]. assert (1 <= INR (S k) ^ 2) by nra. nra.
Qed.
Theorem C65_argument_checks s1 s2 : frc_check s1 s2 = inr tt <-> s2 = Some s1.
Proof.
  unfold frc_check. destruct s2 as [s2|].
  - destruct (list_eq_dec _ _ _) as [->|N]; split; intros H; try congruence; try reflexivity.
  - destruct (existsb _ _); split; discriminate.
Qed.

(** * C127: resolution estimate *)
(** For one threshold curve: the returned point is the first bin interval from 1 on where the curves cross, and lies on both. *)
Theorem C127_first_crossing n frc t px py : estimate_resolution n None frc t = inr (Some (px, py)) ->
  exists i, (1 <= i)%nat /\ (S i < n)%nat /\ INR i <= px <= INR i + 1
    /\ py = frc i + (px - INR i) * (frc (S i) - frc i) /\ py = t 0%nat i + (px - INR i) * (t 0%nat (S i) - t 0%nat i)
    /\ (forall j, (1 <= j <= i)%nat -> (frc 1%nat < t 0%nat 1%nat <-> frc j < t 0%nat j)).
Proof.
  unfold estimate_resolution. intros H. destruct (C64_point_on_both_curves _ _ _ _ _ _ _ H) as (lo & hi & i & W & B & Hn & X & R1 & E1 & E2 & F).
  unfold window in W. inversion W; subst lo hi. exists i. repeat split; try lia; try lra; try assumption.
  - intros A. apply (above_spec frc (L_array (t 0%nat)) 1) in A. apply (above_spec frc (L_array (t 0%nat)) j). rewrite <- A. apply (no_crossing_const _ _ 1 (i - 1)); [|lia].
    intros j' Hj'. destruct (crossing frc (L_array (t 0%nat)) j') eqn:C; [|reflexivity]. specialize (F j' ltac:(lia) C). simpl in F. lia.
  - intros A. apply (above_spec frc (L_array (t 0%nat)) j) in A. apply (above_spec frc (L_array (t 0%nat)) 1). rewrite <- A. symmetry. apply (no_crossing_const _ _ 1 (i - 1)); [|lia].
    intros j' Hj'. destruct (crossing frc (L_array (t 0%nat)) j') eqn:C; [|reflexivity]. specialize (F j' ltac:(lia) C). simpl in F. lia.
Qed.
(** None exactly when the curves do not cross from bin 1 on. *)
Theorem C127_none_iff n frc t : (2 <= n)%nat ->
  (estimate_resolution n None frc t = inr None <->
   (forall i, (1 <= i <= n - 1)%nat -> frc i < t 0%nat i) \/ (forall i, (1 <= i <= n - 1)%nat -> t 0%nat i <= frc i)).
Proof. intros Hn. unfold estimate_resolution. apply (C64_none_iff n frc (L_array (t 0%nat)) P_first _ 1 (n - 1)); [reflexivity|lia]. Qed.
Theorem C127_no_error n frc t : exists r, estimate_resolution n None frc t = inr r.
Proof.
  unfold estimate_resolution. destruct (lines_intersection _ _ _ _ _) as [e|r] eqn:E; [|eauto].
  apply C64_errors in E as [_ [E|E]]; discriminate.
Qed.
(** REFUTED for a stack of thresholds (compute_frc with theo_threshold=False and unused axes): a resolution is never found; when
    the curves do cross an IndexError is raised. *)
Theorem C127_stacked_thresholds_refuted n q frc t : (forall p, estimate_resolution n (Some q) frc t <> inr (Some p))
  /\ (forall j, (1 <= j)%nat -> (S j < n)%nat -> (0 < q)%nat -> (forall i k, t i k = t 0%nat k) ->
        (forall k, frc k = frc 0%nat) -> frc 0%nat < t 0%nat j -> t 0%nat (S j) <= frc 0%nat ->
        estimate_resolution n (Some q) frc t = inl IndexError
        /\ exists p, estimate_resolution n None frc t = inr (Some p)).
Proof.
  split.
  - intros p. unfold estimate_resolution. cbv zeta. destruct (crossings _ _ _ _); discriminate.
  - intros j H1 H2 Hq Ht Hf A B.
    assert (P : INR q <> 0) by (apply not_0_INR; lia). assert (Pn : INR n <> 0) by (apply not_0_INR; lia). split.
    + unfold estimate_resolution. cbv zeta.
      match goal with |- match ?c with _ => _ end = _ => assert (I : In j c) end.
      { apply in_crossings. split; [lia|]. apply crossing_spec. left. cbn [line2_at].
        rewrite (rsum_ext n frc (fun _ => frc 0%nat)) by (intros; apply Hf). rewrite rsum_const.
        rewrite (rsum_ext q (fun i => t i j) (fun _ => t 0%nat j)) by (intros; apply Ht).
        rewrite (rsum_ext q (fun i => t i (S j)) (fun _ => t 0%nat (S j))) by (intros; apply Ht). rewrite !rsum_const.
        replace (INR n * frc 0%nat / INR n) with (frc 0%nat) by (field; exact Pn).
        replace (INR q * t 0%nat j / INR q) with (t 0%nat j) by (field; exact P).
        replace (INR q * t 0%nat (S j) / INR q) with (t 0%nat (S j)) by (field; exact P). lra. }
      destruct (crossings _ _ _ _); [destruct I|reflexivity].
    + unfold estimate_resolution. apply (C64_found n frc (L_array (t 0%nat)) P_first _ 1 (n - 1) j); [reflexivity|lia|discriminate|].
      left. cbn [line2_at]. rewrite (Hf j), (Hf (S j)). lra.
Qed.
Example C127_example : estimate_resolution 3 None (fun k => 1 - INR k / 2) (fun _ _ => 1 / 4) = inr (Some (3 / 2, 1 / 4)).
Proof.
  destruct (C64_found 3 (fun k => 1 - INR k / 2) (L_array (fun _ => 1 / 4)) P_first (Some (Some 1%nat, None)) 1 2 1) as [[px py] H];
    [reflexivity|lia|discriminate|right; simpl; lra|].
  unfold estimate_resolution. rewrite H. destruct (C64_point_on_both_curves _ _ _ _ _ _ _ H) as (lo & hi & i & W & B & Hn & X & R1 & E1 & E2 & F).
  assert (i = 1%nat) by (inversion W; subst; simpl in B; lia). subst i. simpl in *. f_equal. f_equal. f_equal; lra.
Qed.

(** * C128: Poisson variances *)
Lemma dpl_inv y : y <> 0 -> derivable_pt_lim (fun t => / t) y (- / y ^ 2).
Proof.
  intros Hy. pose proof (derivable_pt_lim_div (fct_cte 1) id y 0 1 (derivable_pt_lim_const 1 y) (derivable_pt_lim_id y) Hy) as D.
  unfold fct_cte, id, div_fct, Rsqr in D. replace ((0 * y - 1 * 1) / (y * y)) with (- / y ^ 2) in D by (field; exact Hy).
  intros e He. destruct (D e He) as [d Hd]. exists d. intros h Hh Hhd. specialize (Hd h Hh Hhd). unfold Rdiv in *. rewrite !Rmult_1_l in Hd. exact Hd.
Qed.
(** Above the floor, the un-normalised variance of Is/I0 is the first-order (delta method) propagation of the two variances. *)
Theorem C128_poisson_delta_method eps Is I0 var dIs dI0 : 0 < eps -> eps <= Is -> eps <= I0 ->
  derivable_pt_lim (fun x => x / I0) Is dIs -> derivable_pt_lim (fun y => Is / y) I0 dI0 ->
  variance_poisson eps Is (Some I0) var None = dIs ^ 2 * Rabs Is + dI0 ^ 2 * (match var with Some v => v | None => Rabs I0 end).
Proof.
  intros He H1 H2 D1 D2.
  assert (E1 : dIs = / I0).
  { apply (uniqueness_limite (fun x => x / I0) Is); [exact D1|]. pose proof (derivable_pt_lim_scal id (/ I0) Is 1 (derivable_pt_lim_id Is)) as D. rewrite Rmult_1_r in D.
    intros e Hee. destruct (D e Hee) as [d Hd]. exists d. intros h Hh Hhd. specialize (Hd h Hh Hhd). unfold mult_real_fct, id in Hd. unfold Rdiv at 2 3. rewrite (Rmult_comm (Is + h)), (Rmult_comm Is). exact Hd. }
  assert (E2 : dI0 = Is * - / I0 ^ 2).
  { apply (uniqueness_limite (fun y => Is / y) I0); [exact D2|]. pose proof (derivable_pt_lim_scal (fun t => / t) Is I0 _ (dpl_inv I0 ltac:(lra))) as D. exact D. }
  unfold variance_poisson. rewrite !Rmax_left by lra. rewrite E1, E2. destruct var; field; lra.
Qed.
Theorem C128_poisson_no_reference eps Is var norm : variance_poisson eps Is None var norm = Rabs Is.
Proof. reflexivity. Qed.
(** never negative, and positive as soon as there is signal *)
Theorem C128_nonneg eps Is I0 norm : 0 < eps -> (match norm with Some m => 0 < m | None => True end) ->
  0 <= variance_poisson eps Is (Some I0) None norm /\ 0 <= variance_transmission eps Is I0 None norm
  /\ (Is <> 0 -> 0 < variance_poisson eps Is (Some I0) None norm /\ 0 < variance_transmission eps Is I0 None norm).
Proof.
  intros He Hn. unfold variance_poisson, variance_transmission. cbv zeta.
  pose proof (Rmax_r Is eps) as A. pose proof (Rmax_r I0 eps) as B. set (x := Rmax Is eps) in *. set (y := Rmax I0 eps) in *.
  pose proof (Rabs_pos Is) as P1. pose proof (Rabs_pos I0) as P2.
  assert (X : 0 < / x ^ 2) by (apply Rinv_0_lt_compat, pow_lt; lra). assert (Y : 0 < / y ^ 2) by (apply Rinv_0_lt_compat, pow_lt; lra).
  assert (Q1 : 0 < x ^ 2 / y ^ 2) by (apply Rdiv_lt_0_compat; apply pow_lt; lra). assert (Q2 : 0 < x / y) by (apply Rdiv_lt_0_compat; lra).
  assert (S : 0 <= Rabs Is / x ^ 2 + Rabs I0 / y ^ 2) by (unfold Rdiv; nra).
  assert (S' : Is <> 0 -> 0 < Rabs Is / x ^ 2 + Rabs I0 / y ^ 2).
  { intros N. pose proof (Rabs_pos_lt Is N). unfold Rdiv. assert (0 < Rabs Is * / x ^ 2) by (apply Rmult_lt_0_compat; lra). nra. }
  assert (T1 : 0 <= x ^ 2 / y ^ 2 * (Rabs Is / x ^ 2 + Rabs I0 / y ^ 2)) by (apply Rmult_le_pos; lra).
  assert (T2 : 0 <= x / y * (Rabs Is / x ^ 2 + Rabs I0 / y ^ 2)) by (apply Rmult_le_pos; lra).
  repeat split.
  - destruct norm as [m|]; [apply Rmult_le_pos|]; lra.
  - destruct norm as [m|]; [apply Rmult_le_pos|]; lra.
  - assert (0 < x ^ 2 / y ^ 2 * (Rabs Is / x ^ 2 + Rabs I0 / y ^ 2)) by (apply Rmult_lt_0_compat; [lra|now apply S']). destruct norm as [m|]; [apply Rmult_lt_0_compat|]; lra.
  - assert (0 < x / y * (Rabs Is / x ^ 2 + Rabs I0 / y ^ 2)) by (apply Rmult_lt_0_compat; [lra|now apply S']). destruct norm as [m|]; [apply Rmult_lt_0_compat|]; lra.
Qed.
(** REFUTED for the linearised transmission -ln(Is/I0): the delta method gives |Is|/Is² + var_I0/I0²; the code's value carries
    an extra factor Is/I0, so the two agree only where nothing was absorbed. *)
Theorem C128_transmission_refuted eps Is I0 var dIs dI0 : 0 < eps -> eps <= Is -> eps <= I0 ->
  (match var with Some v => 0 <= v | None => True end) ->
  derivable_pt_lim (fun x => - ln (x / I0)) Is dIs -> derivable_pt_lim (fun y => - ln (Is / y)) I0 dI0 ->
  variance_transmission eps Is I0 var None = Is / I0 * (dIs ^ 2 * Rabs Is + dI0 ^ 2 * (match var with Some v => v | None => Rabs I0 end))
  /\ (variance_transmission eps Is I0 var None = dIs ^ 2 * Rabs Is + dI0 ^ 2 * (match var with Some v => v | None => Rabs I0 end) <-> Is = I0).
Proof.
  intros He H1 H2 Hv D1 D2.
  assert (E1 : dIs = - / Is).
  { apply (uniqueness_limite (fun x => - ln (x / I0)) Is); [exact D1|].
    pose proof (derivable_pt_lim_opp _ _ _ (derivable_pt_lim_ln Is ltac:(lra))) as D.
    intros e Hee. destruct (D e Hee) as [[d Hdp] Hd]. assert (Hm : 0 < Rmin d (Is / 2)) by (apply Rmin_pos; lra).
    exists (mkposreal _ Hm). intros h Hh Hhd. simpl in *.
    assert (Rabs h < d /\ Rabs h < Is / 2) as [B1 B2] by (split; eapply Rlt_le_trans; try exact Hhd; [apply Rmin_l|apply Rmin_r]).
    specialize (Hd h Hh B1). unfold opp_fct in Hd. apply Rabs_def2 in B2.
    unfold Rdiv at 2 3. rewrite !ln_mult by (try lra; apply Rinv_0_lt_compat; lra).
    replace ((- (ln (Is + h) + ln (/ I0)) - - (ln Is + ln (/ I0))) / h - - / Is) with ((- ln (Is + h) - - ln Is) / h - - / Is) by (field; lra). exact Hd. }
  assert (E2 : dI0 = / I0).
  { apply (uniqueness_limite (fun y => - ln (Is / y)) I0); [exact D2|].
    pose proof (derivable_pt_lim_ln I0 ltac:(lra)) as D.
    intros e Hee. destruct (D e Hee) as [[d Hdp] Hd]. assert (Hm : 0 < Rmin d (I0 / 2)) by (apply Rmin_pos; lra).
    exists (mkposreal _ Hm). intros h Hh Hhd. simpl in *.
    assert (Rabs h < d /\ Rabs h < I0 / 2) as [B1 B2] by (split; eapply Rlt_le_trans; try exact Hhd; [apply Rmin_l|apply Rmin_r]).
    specialize (Hd h Hh B1). apply Rabs_def2 in B2.
    unfold Rdiv at 2 3. rewrite !ln_mult by (try lra; apply Rinv_0_lt_compat; lra). rewrite !ln_Rinv by lra.
    replace ((- (ln Is + - ln (I0 + h)) - - (ln Is + - ln I0)) / h - / I0) with ((ln (I0 + h) - ln I0) / h - / I0) by (field; lra). exact Hd. }
  assert (E : variance_transmission eps Is I0 var None = Is / I0 * (dIs ^ 2 * Rabs Is + dI0 ^ 2 * (match var with Some v => v | None => Rabs I0 end))).
  { unfold variance_transmission. rewrite !Rmax_left by lra. rewrite E1, E2. destruct var; field; lra. }
  split; [exact E|]. rewrite E. set (V := dIs ^ 2 * Rabs Is + _).
  assert (HV : 0 < V).
  { unfold V. rewrite E1. rewrite (Rabs_right Is) by lra. replace ((- / Is) ^ 2 * Is) with (/ Is) by (field; lra). assert (0 < / Is) by (apply Rinv_0_lt_compat; lra).
    pose proof (pow2_ge_0 dI0). destruct var; [nra|]. pose proof (Rabs_pos I0). nra. }
  split.
  - intros Q. assert (Is / I0 = 1) by (apply Rmult_eq_reg_r with V; lra). apply (f_equal (fun t => t * I0)) in H. unfold Rdiv in H. rewrite Rmult_assoc, Rinv_l in H by lra. lra.
  - intros ->. unfold Rdiv. rewrite Rinv_r by lra. ring.
Qed.
Example C128_example : variance_poisson (/ 8) 2 (Some 4) None None = 2 / 16 + 1 / 16 /\ variance_transmission (/ 8) 2 4 None None = 3 / 8.
Proof. unfold variance_poisson, variance_transmission. rewrite !Rmax_left by lra. rewrite (Rabs_right 2), (Rabs_right 4) by lra. split; field. Qed.

(** * C129: power spectrum *)
Definition csize (s axes : list nat) : nat := fold_right (fun a p => (nth a s 0 * p)%nat) 1%nat axes.
Lemma rsum_cabs2_dft n x : rsum n (fun k => cabs2 (dft n x k)) = INR n * rsum n (fun j => cabs2 (x j)).
Proof.
  pose proof (f_equal fst (parseval n x x)) as P. unfold csum, Cmul, RtoC in P. cbn [fst snd] in P.
  rewrite Rmult_0_l, Rminus_0_r in P.
  rewrite (rsum_ext n (fun k => cabs2 (dft n x k)) (fun i => fst (dft n x i) * fst (conj (dft n x i)) - snd (dft n x i) * snd (conj (dft n x i)))) by (intros; unfold cabs2, conj; cbn [fst snd]; ring).
  rewrite P. f_equal. apply rsum_ext. intros; unfold cabs2, conj; cbn [fst snd]; ring.
Qed.
Lemma fftn_parseval s axes x : axes_ok s axes -> bsum s (fun l => cabs2 (fftn s axes x l)) = INR (csize s axes) * bsum s (fun l => cabs2 (x l)).
Proof.
  intros H. induction H as [|a t Ha Ht IH]; [simpl; ring|]. cbn [fftn fold_right csize]. fold (fftn s t x) (csize s t).
  rewrite mult_INR, Rmult_assoc, <- IH.
  rewrite (bsum_axis s a _ Ha), (bsum_axis s a (fun l => cabs2 (fftn s t x l)) Ha), <- bsum_scal. apply bsum_ext. intros l Hl.
  assert (Len : (a <= length l)%nat) by (rewrite (inb_length _ _ Hl), del_length by exact Ha; lia).
  rewrite <- (rsum_cabs2_dft (nth a s 0%nat) (fun i => fftn s t x (ins a i l))). apply rsum_ext. intros k Hk. f_equal.
  unfold calong. rewrite nth_ins by exact Len. apply dft_ext. intros i Hi. now rewrite set_ins by exact Len.
Qed.
Lemma csize_seq s pre : csize (pre ++ s) (seq (length pre) (length s)) = size s.
Proof.
  revert pre. induction s as [|n s IH]; intros pre; [reflexivity|]. cbn [length seq csize fold_right]. fold (csize (pre ++ n :: s) (seq (S (length pre)) (length s))).
  rewrite app_nth2, Nat.sub_diag by lia. cbn [nth]. change (size (n :: s)) with (n * size s)%nat. f_equal.
  specialize (IH (pre ++ [n])). rewrite app_length, <- app_assoc in IH. simpl in IH. rewrite Nat.add_1_r in IH. exact IH.
Qed.
Lemma csize_all s : csize s (seq 0 (length s)) = size s.
Proof. exact (csize_seq s []). Qed.
(** Every bin is non-negative ... *)
Theorem C129_nonneg s mask smooth img k v : power_spectrum s mask smooth img k = Some v -> 0 <= v.
Proof.
  assert (B : forall k v, ps_bin s mask img k = Some v -> 0 <= v).
  { intros k0 v0. unfold ps_bin. destruct (Req_EM_T _ 0) as [|N]; [discriminate|]. intros E. inversion E. unfold ps_raw.
    assert (P1 : 0 <= az_profile AzFourier s (fun _ => 1) k0) by (apply C63_profile_nonneg; intros; lra).
    assert (P2 : 0 <= az_profile AzFourier s (fun l => cabs2 (spectrum_f s mask img l)) k0) by (apply C63_profile_nonneg; intros; apply cabs2_nonneg).
    destruct (Req_dec (INR (min_side_n s) ^ length s) 0) as [Z0|Z0].
    - rewrite Z0. unfold Rdiv. rewrite Rinv_0. lra.
    - apply Rdiv_le_0_compat; [apply Rdiv_le_0_compat; lra|]. assert (0 <= INR (min_side_n s) ^ length s) by (apply pow_le, pos_INR). lra. }
  unfold power_spectrum, smooth_opt. destruct (smooth <=? 1)%nat; [apply B|]. destruct (Req_EM_T (hann_sum smooth) 0) as [|N]; [discriminate|].
  assert (P : 0 < hann_sum smooth). { assert (0 <= hann_sum smooth) by (apply rsum_nonneg; intros; apply hann_nonneg). lra. }
  assert (G : forall m f, (forall i w, f i = Some w -> 0 <= w) -> forall w, opt_sum m f = Some w -> 0 <= w).
  { induction m as [|m IH]; intros f Hf w; simpl; [intros E; inversion E; lra|]. destruct (opt_sum m f) as [a|] eqn:Ea; [|discriminate]. destruct (f m) as [b|] eqn:Eb; [|discriminate].
    intros E; inversion E. pose proof (IH f Hf a Ea). pose proof (Hf m b Eb). lra. }
  apply G. intros i w. destruct (Req_EM_T (hann smooth i) 0); [intros E; inversion E; lra|]. destruct (ps_bin _ _ _ _) as [u|] eqn:Eu; [|discriminate].
  intros E; inversion E. apply Rmult_le_pos; [apply Rdiv_le_0_compat; [apply hann_nonneg|exact P]|now apply B in Eu].
Qed.
(** ... and the bins, weighted with the ring sizes, add up to the energy of the (tapered) image: nothing is lost or counted twice. *)
Theorem C129_energy s mask img : s <> [] -> (forall n, In n s -> (0 < n)%nat) ->
  rsum (az_len AzFourier s) (fun k => az_profile AzFourier s (fun _ => 1) k * match ps_bin s mask img k with Some v => v | None => 0 end) * INR (min_side_n s) ^ length s
  = INR (size s) * bsum s (fun l => (match mask with Some m => img l * m l | None => img l end) ^ 2).
Proof.
  intros Hne Hpos.
  assert (Hm : 0 < INR (min_side_n s) ^ length s).
  { apply pow_lt. apply lt_0_INR. unfold min_side_n. destruct s as [|n t]; [congruence|].
    assert (G : forall l d, (0 < d)%nat -> (forall n, In n l -> (0 < n)%nat) -> (0 < fold_right Nat.min d l)%nat).
      { induction l as [|x l IH]; intros d Hd Hl; simpl; [exact Hd|]. apply Nat.min_glb_lt; [apply Hl; now left|apply IH; [exact Hd|intros; apply Hl; now right]]. }
      apply G; [apply Hpos; now left|exact Hpos]. }
  rewrite <- rsum_scal_r.
  rewrite (rsum_ext _ _ (az_profile AzFourier s (fun l => cabs2 (spectrum_f s mask img l)))).
  2:{ intros k _. unfold ps_bin. destruct (Req_EM_T (az_profile AzFourier s (fun _ => 1) k) 0) as [E|E].
      - (* an empty ring carries no energy *)
        rewrite E. rewrite Rmult_0_l, Rmult_0_l. symmetry. rewrite az_ring. rewrite az_ring in E.
        assert (W : forall l, inb s l -> ring_w s k l = 0).
        { intros l Hl. rewrite bsum_flat in E. rewrite <- (unflat_flat s l Hl).
          pose proof (rsum_nonneg_zero _ _ (fun j _ => Rmult_le_pos _ _ (ring_w_nonneg s k (unflat s j)) Rle_0_1) E (flat s l) (flat_lt s l Hl)) as Z0. cbv beta in Z0. lra. }
        rewrite (bsum_ext s _ (fun _ => 0)); [apply bsum_0|]. intros l Hl. rewrite W by exact Hl. ring.
      - unfold ps_raw. field. split; first [exact E|lra]. }
  rewrite C63_total_conserved. unfold spectrum_f. rewrite fftn_parseval by (apply Forall_forall; intros a Ha; apply in_seq in Ha; lia).
  f_equal.
  - f_equal. apply csize_all.
  - apply bsum_ext. intros l _. unfold masked, cabs2, RtoC. cbn [fst snd]. destruct mask; ring.
Qed.

(** The rings that are returned are never empty: without smoothing no value is NaN. *)
Lemma min_side_le s : forall n, In n s -> (min_side_n s <= n)%nat.
Proof.
  unfold min_side_n. assert (G : forall l d n, In n l -> (fold_right Nat.min d l <= n)%nat).
  { induction l as [|x l IH]; intros d n [].
    - subst. simpl. lia.
    - simpl. specialize (IH d n H). lia. }
  intros n. apply G.
Qed.
Lemma coord_small d k : (k < d / 2)%nat -> az_coord AzFourier d k = INR k.
Proof.
  intros H. unfold az_coord. destruct (Nat.leb_spec k ((d - 1) / 2)) as [|L]; [reflexivity|]. exfalso.
  pose proof (Nat.div_mod d 2 ltac:(lia)). pose proof (Nat.mod_upper_bound d 2 ltac:(lia)). pose proof (Nat.div_mod (d - 1) 2 ltac:(lia)). pose proof (Nat.mod_upper_bound (d - 1) 2 ltac:(lia)). lia.
Qed.
Theorem C129_rings_nonempty s mask img k : s <> [] -> (k < ps_cut_off s)%nat -> exists v, power_spectrum s mask 1 img k = Some v.
Proof.
  intros Hne Hk. unfold power_spectrum, smooth_opt. cbn [Nat.leb]. unfold ps_bin.
  destruct (Req_EM_T (az_profile AzFourier s (fun _ => 1) k) 0) as [E|]; [exfalso|eauto].
  unfold ps_cut_off in Hk. destruct s as [|n t]; [congruence|]. set (s := n :: t) in *.
  assert (Side : forall m, In m s -> (k < m / 2)%nat).
  { intros m Hm. apply Nat.lt_le_trans with (min_side_n s / 2)%nat; [exact Hk|]. apply Nat.div_le_mono; [lia|]. now apply min_side_le. }
  assert (Pos : forall m, In m s -> (k < m)%nat).
  { intros m Hm. pose proof (Side m Hm). pose proof (Nat.div_le_upper_bound m 2 m ltac:(lia) ltac:(lia)). lia. }
  set (l := k :: map (fun _ => 0%nat) t).
  assert (Hl : inb s l).
  { apply inb_cons. split; [apply Pos; now left|]. assert (F : forall m, In m t -> (k < m)%nat) by (intros; apply Pos; now right). clear -F. induction t; simpl; [constructor|]. apply inb_cons. split; [specialize (F a (or_introl eq_refl)); lia|]. apply IHt. intros; apply F; now right. }
  assert (Z0 : forall u, az_sumsq AzFourier u (map (fun _ => 0%nat) u) = 0).
  { induction u as [|a u IH]; simpl; [reflexivity|]. rewrite IH. ring. }
  assert (Rad : az_radius AzFourier s l = INR k).
  { unfold az_radius, s, l. cbn [az_sumsq]. rewrite Z0, coord_small by (apply Side; now left). rewrite Rplus_0_r. rewrite sqrt_pow2; [reflexivity|apply pos_INR]. }
  assert (Low : az_lower AzFourier s l = k).
  { pose proof (az_lower_bounds AzFourier s l) as [B1 B2]. rewrite Rad in B1, B2. apply INR_le in B1. rewrite <- S_INR in B2. apply INR_lt in B2. lia. }
  assert (W : 0 < ring_w s k l).
  { unfold ring_w. rewrite Low, Rad, Nat.eqb_refl. destruct (Nat.eqb_spec (S k) k); [lia|]. lra. }
  rewrite az_ring, bsum_flat in E.
  pose proof (rsum_nonneg_zero _ _ (fun j _ => Rmult_le_pos _ _ (ring_w_nonneg s k (unflat s j)) Rle_0_1) E (flat s l) (flat_lt s l Hl)) as Z1. cbv beta in Z1.
  rewrite unflat_flat in Z1 by exact Hl. lra.
Qed.
(** REFUTED with smoothing: the profile of a 1-D signal always ends in an empty ring; a smoothing window of 7 points (also
    6; the default of 5 just misses it) drags that 0/0 into the last returned bin. *)
Lemma coord_1d_abs n i : (i < n)%nat -> exists m, (m <= n / 2)%nat /\ az_radius AzFourier [n] [i] = INR m.
Proof.
  intros Hi. unfold az_radius. cbn [az_sumsq]. rewrite Rplus_0_r. unfold az_coord.
  pose proof (Nat.div_mod n 2 ltac:(lia)). pose proof (Nat.mod_upper_bound n 2 ltac:(lia)). pose proof (Nat.div_mod (n - 1) 2 ltac:(lia)). pose proof (Nat.mod_upper_bound (n - 1) 2 ltac:(lia)).
  destruct (Nat.leb_spec i ((n - 1) / 2)) as [L|L].
  - exists i. split; [lia|]. apply sqrt_pow2, pos_INR.
  - exists (n - i)%nat. split; [lia|]. replace ((INR i - INR n) ^ 2) with (INR (n - i) ^ 2) by (rewrite minus_INR by lia; ring). apply sqrt_pow2, pos_INR.
Qed.
Lemma lower_of_int dom s l m : az_radius dom s l = INR m -> az_lower dom s l = m.
Proof. intros E. pose proof (az_lower_bounds dom s l) as [B1 B2]. rewrite E in B1, B2. apply INR_le in B1. rewrite <- S_INR in B2. apply INR_lt in B2. lia. Qed.
Lemma last_ring_empty_1d n : az_profile AzFourier [n] (fun _ => 1) (S (n / 2)) = 0.
Proof.
  rewrite az_ring. rewrite (bsum_ext [n] _ (fun _ => 0)); [apply bsum_0|]. intros l Hl.
  destruct l as [|i l]; [inversion Hl|]. apply inb_cons in Hl as [Hi Hl]. inversion Hl; subst.
  destruct (coord_1d_abs n i Hi) as (m & Hm & E). pose proof (lower_of_int _ _ _ _ E) as Lo. unfold ring_w. rewrite Lo, E.
  destruct (Nat.eqb_spec m (S (n / 2))); [lia|]. destruct (Nat.eqb _ _); ring.
Qed.
Lemma az_len_1d n : (0 < n)%nat -> az_len AzFourier [n] = S (S (n / 2)).
Proof.
  intros Hn. unfold az_len. f_equal. set (L := map _ _).
  assert (A : forall x, In x L -> (x <= S (n / 2))%nat).
  { intros x Hx. unfold L in Hx. apply in_map_iff in Hx as (k & Ek & Hk). apply in_seq in Hk. subst x.
    assert (Hi : inb [n] (unflat [n] k)) by (apply unflat_inb; lia). destruct (unflat [n] k) as [|i l] eqn:E; [inversion Hi|]. apply inb_cons in Hi as [Hi Hl]. inversion Hl; subst.
    destruct (coord_1d_abs n i Hi) as (m & Hm & Er). rewrite (lower_of_int _ _ _ _ Er). lia. }
  assert (B : In (S (n / 2)) L).
  { unfold L. apply in_map_iff.
    pose proof (Nat.div_mod n 2 ltac:(lia)). pose proof (Nat.mod_upper_bound n 2 ltac:(lia)). pose proof (Nat.div_mod (n - 1) 2 ltac:(lia)). pose proof (Nat.mod_upper_bound (n - 1) 2 ltac:(lia)).
    set (i := (n / 2)%nat) in *. assert (Hi : (i < n)%nat) by lia. assert (Hb : inb [n] [i]) by (apply inb_cons; split; [exact Hi|constructor]).
    exists (flat [n] [i]). rewrite unflat_flat by exact Hb. split; [|apply in_seq; split; [lia|apply flat_lt, Hb]]. f_equal.
    apply lower_of_int. unfold az_radius. cbn [az_sumsq]. rewrite Rplus_0_r. unfold az_coord. destruct (Nat.leb_spec i ((n - 1) / 2)) as [Q|Q].
    - apply sqrt_pow2, pos_INR.
    - assert (n = 2 * i)%nat by lia. rewrite H3 at 1. rewrite mult_INR. simpl (INR 2). replace ((INR i - (1 + 1) * INR i) ^ 2) with (INR i ^ 2) by ring. apply sqrt_pow2, pos_INR. }
  apply Nat.le_antisymm; [|now apply list_max_ge].
  apply list_max_le. apply Forall_forall. exact A.
Qed.
Lemma opt_sum_none m f e : (e < m)%nat -> f e = None -> opt_sum m f = None.
Proof.
  revert e. induction m as [|m IH]; intros e He Hf; [lia|]. simpl. destruct (Nat.eq_dec e m) as [->|N].
  - rewrite Hf. destruct (opt_sum m f); reflexivity.
  - rewrite (IH e) by (try lia; assumption). reflexivity.
Qed.
Theorem C129_smoothing_nan_refuted n mask img : (2 <= n)%nat -> power_spectrum [n] mask 7 img (ps_cut_off [n] - 1) = None.
Proof.
  intros Hn. unfold power_spectrum, smooth_opt. cbn [Nat.leb]. destruct (Req_EM_T (hann_sum 7) 0) as [|_]; [reflexivity|].
  apply (opt_sum_none 7 _ 1); [lia|].
  assert (H1 : 0 < hann 7 1).
  { unfold hann. simpl (INR 1). replace (2 * PI * 1 / (INR 7 - 1)) with (PI / 3) by (simpl; field). rewrite cos_PI3. lra. }
  destruct (Req_EM_T (hann 7 1) 0) as [|_]; [lra|].
  assert (Hc : (1 <= n / 2)%nat) by (apply Nat.div_le_lower_bound; lia).
  rewrite az_len_1d by lia. replace (clamp_idx (S (S (n / 2))) 7 (ps_cut_off [n] - 1) 1) with (S (n / 2)).
  - unfold ps_bin. rewrite last_ring_empty_1d. destruct (Req_EM_T 0 0); [reflexivity|lra].
  - unfold clamp_idx, ps_cut_off, min_side_n. cbn [hd fold_right]. rewrite Nat.min_id. change (7 / 2)%nat with 3%nat. lia.
Qed.
Example C129_example : exists v, power_spectrum [4%nat; 5%nat] None 1 (fun l => INR (nth 0 l 0%nat)) 1 = Some v /\ 0 <= v.
Proof. destruct (C129_rings_nonempty [4%nat; 5%nat] None (fun l => INR (nth 0 l 0%nat)) 1) as [v Hv]; [discriminate|cbv; lia|]. exists v. split; [exact Hv|now apply C129_nonneg in Hv]. Qed.

(** * C72: variance weights *)
Lemma rinsert_perm x l : Permutation (x :: l) (rinsert x l).
Proof. induction l as [|y t IH]; simpl; [reflexivity|]. destruct (Rle_dec x y); [reflexivity|]. rewrite perm_swap. now constructor. Qed.
Lemma rsort_perm l : Permutation l (rsort l).
Proof. induction l as [|x t IH]; simpl; [constructor|]. rewrite <- rinsert_perm. now constructor. Qed.
Lemma lsum_perm_ l m : Permutation l m -> lsum_ l = lsum_ m.
Proof. induction 1; unfold lsum_ in *; simpl; lra. Qed.
Lemma lmin_spec p l : (forall x, In x (p :: l) -> lmin p l <= x) /\ In (lmin p l) (p :: l).
Proof.
  unfold lmin. induction l as [|y t [IH1 IH2]]; simpl.
  - split; [intros x [->|[]]; lra|now left].
  - split.
    + intros x [->|[->|H]]; [eapply Rle_trans; [apply Rmin_r|apply IH1; now left]|apply Rmin_l|eapply Rle_trans; [apply Rmin_r|apply IH1; now right]].
    + unfold Rmin. destruct (Rle_dec _ _); [right; now left|]. destruct IH2 as [E|E]; [left; exact E|right; now right].
Qed.
Lemma in_positives x l : In x (positives l) <-> In x l /\ 0 < x.
Proof. unfold positives. rewrite filter_In. destruct (Rlt_dec 0 x); intuition (try lra; try discriminate). Qed.
(** The floor of the accepted variances: at least eps and at least the smallest positive variance, one of which it is unless
    it is the percentile's variance. *)
Lemma min_variance_spec eps pc vals mnv : 0 < eps -> min_variance eps pc vals = inr mnv ->
  eps <= mnv /\ (exists x, In x vals /\ 0 < x <= mnv).
Proof.
  intros He. unfold min_variance. cbv zeta. destruct (nth_error _ _) as [v|]; [|discriminate]. destruct (positives vals) as [|p ps] eqn:P; [discriminate|].
  intros E. inversion E; subst mnv. clear E. split.
  - eapply Rle_trans; [|apply Rmax_r]. apply Rmax_r.
  - exists (lmin p ps). destruct (lmin_spec p ps) as [_ I]. rewrite <- P in I. apply in_positives in I as [I1 I2]. repeat split; [exact I1|exact I2|apply Rmax_l].
Qed.
Section Weight.
Variables (normalized use_std semilog : bool) (mnv : R).
Hypothesis Hm : 0 < mnv.
Lemma weight_mono v v' : Rabs v <= Rabs v' -> weight_of normalized use_std semilog mnv v' <= weight_of normalized use_std semilog mnv v
  /\ 0 < weight_of normalized use_std semilog mnv v' .
Proof.
  intros H. unfold weight_of. cbv zeta.
  assert (A : mnv <= Rmax (Rabs v) mnv <= Rmax (Rabs v') mnv). { split; [apply Rmax_r|]. apply Rle_max_compat_r, H. }
  set (i := Rmax (Rabs v) mnv) in *. set (i' := Rmax (Rabs v') mnv) in *.
  assert (B : exists lo, 0 < lo /\ (normalized = true -> 1 <= lo) /\ lo <= (if normalized then i / mnv else i) <= (if normalized then i' / mnv else i')).
  { destruct normalized.
    - exists 1. repeat split; try lra.
      + apply Rmult_le_reg_r with mnv; [exact Hm|]. unfold Rdiv. rewrite Rmult_assoc, Rinv_l; lra.
      + apply Rmult_le_compat_r; [left; now apply Rinv_0_lt_compat|lra].
    - exists mnv. repeat split; try lra. }
  destruct B as (lo & L0 & L1 & B). set (j := if normalized then i / mnv else i) in *. set (j' := if normalized then i' / mnv else i') in *.
  assert (C : exists lo, 0 < lo /\ (normalized = true -> 1 <= lo) /\ lo <= (if use_std then sqrt j else j) <= (if use_std then sqrt j' else j')).
  { destruct use_std; [|exists lo; repeat split; try assumption; lra]. exists (sqrt lo). repeat split.
    - now apply sqrt_lt_R0.
    - intros N. rewrite <- sqrt_1. apply sqrt_le_1_alt. now apply L1.
    - apply sqrt_le_1_alt; lra.
    - apply sqrt_le_1_alt; lra. }
  clear B L0 L1 lo. destruct C as (lo & L0 & L1 & C). set (g := if use_std then sqrt j else j) in *. set (g' := if use_std then sqrt j' else j') in *.
  assert (D : exists lo, 0 < lo /\ lo <= (if semilog then ln (g + (if normalized then 0 else 1)) + 1 else g) <= (if semilog then ln (g' + (if normalized then 0 else 1)) + 1 else g')).
  { destruct semilog; [|exists lo; repeat split; try assumption; lra]. exists 1. split; [lra|].
    assert (Q : 1 <= g + (if normalized then 0 else 1)). { destruct normalized; [specialize (L1 eq_refl); lra|lra]. }
    assert (M : forall a b, 1 <= a <= b -> ln a <= ln b). { intros a b [H1 H2]. destruct (Req_dec a b) as [->|N]; [lra|]. left. apply ln_increasing; lra. }
    split.
    - pose proof (M 1 _ ltac:(split; [apply Rle_refl|exact Q])). rewrite ln_1 in *. lra.
    - pose proof (M _ (g' + (if normalized then 0 else 1)) ltac:(split; [exact Q|lra])). lra. }
  destruct D as (d & D0 & D1). unfold Rdiv. rewrite !Rmult_1_l. split; [apply Rinv_le_contravar; lra|apply Rinv_0_lt_compat; lra].
Qed.
Lemma weight_floor v : Rabs v <= mnv -> weight_of normalized use_std semilog mnv v = weight_of normalized use_std semilog mnv mnv.
Proof. intros H. unfold weight_of. rewrite (Rmax_right (Rabs v)) by exact H. rewrite (Rabs_right mnv), Rmax_right by lra. reflexivity. Qed.
End Weight.
Lemma weight_normalized use_std semilog mnv : 0 < mnv -> weight_of true use_std semilog mnv mnv = 1.
Proof.
  intros H. unfold weight_of. cbv zeta. rewrite Rabs_right, Rmax_right by lra. replace (mnv / mnv) with 1 by (field; lra).
  assert (E : (if use_std then sqrt 1 else 1) = 1) by (destruct use_std; [apply sqrt_1|reflexivity]). rewrite E.
  replace (ln (1 + 0) + 1) with 1 by (rewrite Rplus_0_r, ln_1; ring). destruct semilog; field.
Qed.
(** the samples inside a (boolean or absent) mask *)
Definition inside (mk : mask_kind) (i : nat) : Prop := match mk with MaskNone => True | MaskBool m => m i = true | MaskInt _ => False end.
Definition outside (mk : mask_kind) (i : nat) : Prop := match mk with MaskNone => False | MaskBool m => m i = false | MaskInt m => m i = 0%nat end.
(** Zero outside the mask; inside positive, at most the weight of the smallest accepted variance, and antitone. *)
Theorem C72_weights eps n var pc mk nrm std log w : 0 < eps -> compute_variance_weight eps n var pc mk nrm std log = inr w ->
  exists mnv, eps <= mnv
    /\ (forall i, outside mk i -> w i = 0)
    /\ (forall i, inside mk i -> 0 < w i <= weight_of nrm std log mnv mnv)
    /\ (forall i, inside mk i -> Rabs (var i) <= mnv -> w i = weight_of nrm std log mnv mnv)
    /\ (forall i j, inside mk i -> inside mk j -> Rabs (var i) <= Rabs (var j) -> w j <= w i).
Proof.
  intros He. unfold compute_variance_weight. destruct (min_variance eps pc (selected n var mk)) as [|mnv] eqn:E; [discriminate|].
  intros W. inversion W; subst w. clear W. destruct (min_variance_spec _ _ _ _ He E) as [Hm _]. exists mnv.
  assert (M1 : forall i, inside mk i -> mask_at mk i = 1). { intros i. unfold mask_at, inside. destruct mk; [reflexivity|intros ->; reflexivity|intros []]. }
  split; [exact Hm|]. split; [|split; [|split]].
  - intros i. unfold outside, mask_at. destruct mk; [intros []|intros ->; ring|intros ->; simpl; ring].
  - intros i Hi. rewrite (M1 i Hi), Rmult_1_r. split; [apply (weight_mono nrm std log mnv ltac:(lra) (var i) (var i)); lra|].
    destruct (Rle_dec (Rabs (var i)) mnv) as [L|L]; [right; apply weight_floor; lra|].
    apply (weight_mono nrm std log mnv ltac:(lra) mnv (var i)). rewrite (Rabs_right mnv); lra.
  - intros i Hi L. rewrite (M1 i Hi), Rmult_1_r. apply weight_floor; lra.
  - intros i j Hi Hj L. rewrite (M1 i Hi), (M1 j Hj), !Rmult_1_r. apply weight_mono; lra.
Qed.
(** Normalised: between 0 and 1 for every option combination, and 1 is reached inside the mask. *)
Theorem C72_normalized eps n var pc mk std log w : 0 < eps -> compute_variance_weight eps n var pc mk true std log = inr w ->
  (forall i, inside mk i -> 0 < w i <= 1)
  /\ (match mk with MaskInt _ => True | _ => exists i, (i < n)%nat /\ inside mk i /\ w i = 1 end).
Proof.
  intros He. unfold compute_variance_weight. destruct (min_variance eps pc (selected n var mk)) as [|mnv] eqn:E; [discriminate|].
  intros W. pose proof W as W'. assert (W2 : compute_variance_weight eps n var pc mk true std log = inr w) by (unfold compute_variance_weight; rewrite E; exact W).
  destruct (min_variance_spec _ _ _ _ He E) as [Hm (x & Ix & X0 & X1)].
  inversion W; subst w. clear W W'.
  assert (M1 : forall i, inside mk i -> mask_at mk i = 1). { intros i. unfold mask_at, inside. destruct mk; [reflexivity|intros ->; reflexivity|intros []]. }
  split.
  - intros i Hi. rewrite (M1 i Hi), Rmult_1_r. split; [apply (weight_mono true std log mnv ltac:(lra) (var i) (var i)); lra|].
    rewrite <- (weight_normalized std log mnv) by lra.
    destruct (Rle_dec (Rabs (var i)) mnv) as [L|L]; [right; rewrite (weight_floor true std log mnv ltac:(lra) _ L); reflexivity|].
    apply (weight_mono true std log mnv ltac:(lra) mnv (var i)). rewrite (Rabs_right mnv); lra.
  - assert (G : match mk with MaskInt _ => True | _ => exists i, (i < n)%nat /\ inside mk i /\ Rabs (var i) = x end).
    { unfold selected in Ix. destruct mk as [|m|m]; [| |exact I].
      - apply in_map_iff in Ix as (i & Ei & Hi). apply in_seq in Hi. exists i. simpl. repeat split; [lia|exact Ei].
      - apply in_map_iff in Ix as (i & Ei & Hi). apply filter_In in Hi as [Hi Mi]. apply in_seq in Hi. exists i. simpl. repeat split; [lia|exact Mi|exact Ei]. }
    destruct mk as [|m|m]; [| |exact I]; destruct G as (i & G1 & G2 & G3); exists i; (split; [exact G1|split; [exact G2|]]);
      rewrite (M1 i G2), Rmult_1_r, <- (weight_normalized std log mnv) by lra; apply weight_floor; lra.
Qed.
(** The values outside a boolean mask have no influence. *)
Theorem C72_mask_isolates eps n var var' pc m nrm std log : (forall i, m i = true -> var i = var' i) ->
  match compute_variance_weight eps n var pc (MaskBool m) nrm std log, compute_variance_weight eps n var' pc (MaskBool m) nrm std log with
  | inl e, inl e' => e = e' | inr w, inr w' => forall i, w i = w' i | _, _ => False end.
Proof.
  intros H. unfold compute_variance_weight. replace (selected n var' (MaskBool m)) with (selected n var (MaskBool m)).
  - destruct (min_variance _ _ _) as [e|mnv]; [reflexivity|]. intros i. simpl. destruct (m i) eqn:Mi; [rewrite H by exact Mi; reflexivity|ring].
  - unfold selected. apply map_ext_in. intros i Hi. apply filter_In in Hi as [_ Mi]. now rewrite H.
Qed.
(** A percentile of at most 1 and one positive variance are enough for the computation to succeed. *)
Lemma count_below_lt pc total : pc <= 1 -> 0 < total -> forall l acc, l <> [] -> acc + lsum_ l = total -> (forall x, In x l -> 0 <= x) ->
  (count_below pc total acc l < length l)%nat.
Proof.
  intros Hp Ht. assert (Le : forall l acc, (count_below pc total acc l <= length l)%nat).
  { induction l as [|x t IH]; intros acc; simpl; [lia|]. specialize (IH (acc + x)). destruct (Req_EM_T total 0); [lia|]. destruct (Rlt_dec _ _); lia. }
  induction l as [|x t IH]; intros acc Hne Hs Hpos; [congruence|]. simpl. destruct t as [|y t].
  - unfold lsum_ in Hs. simpl in Hs. destruct (Req_EM_T total 0); [lra|]. destruct (Rlt_dec _ _) as [L|]; [|simpl; lia].
    exfalso. replace (acc + x) with total in L by lra. unfold Rdiv in L. rewrite Rinv_r in L by lra. lra.
  - specialize (IH (acc + x) ltac:(discriminate)). assert (S1 : acc + x + lsum_ (y :: t) = total) by (unfold lsum_ in *; simpl in *; lra).
    specialize (IH S1 ltac:(intros; apply Hpos; now right)). destruct (Req_EM_T total 0); [lia|]. destruct (Rlt_dec _ _); lia.
Qed.
Lemma selected_nonneg n var mk x : In x (selected n var mk) -> 0 <= x.
Proof. unfold selected. destruct mk; intros H; apply in_map_iff in H as (i & <- & _); apply Rabs_pos. Qed.
Lemma lsum_pos_ l : (forall x, In x l -> 0 <= x) -> (exists x, In x l /\ 0 < x) -> 0 < lsum_ l.
Proof.
  unfold lsum_. induction l as [|y t IH]; intros Hn (x & Hx & Px); [destruct Hx|]. simpl.
  assert (N : 0 <= fold_right Rplus 0 t). { clear -Hn. assert (Ht : forall x, In x t -> 0 <= x) by (intros; apply Hn; now right). clear Hn. induction t; simpl; [lra|]. pose proof (Ht a (or_introl eq_refl)). assert (0 <= fold_right Rplus 0 t) by (apply IHt; intros; apply Ht; now right). lra. }
  pose proof (Hn y (or_introl eq_refl)). destruct Hx as [->|Hx]; [lra|]. assert (0 < fold_right Rplus 0 t) by (apply IH; [intros; apply Hn; now right|eauto]). lra.
Qed.
Theorem C72_defined eps n var pc mk nrm std log : pc <= 1 -> (exists x, In x (selected n var mk) /\ 0 < x) ->
  exists w, compute_variance_weight eps n var pc mk nrm std log = inr w.
Proof.
  intros Hp Hx. unfold compute_variance_weight, min_variance. cbv zeta. set (vals := selected n var mk) in *.
  assert (Pm := rsort_perm vals).
  assert (Hn : forall x, In x (rsort vals) -> 0 <= x) by (intros x Hi; apply (selected_nonneg n var mk); apply (Permutation_in _ (Permutation_sym Pm)); exact Hi).
  assert (Hs : 0 < lsum_ (rsort vals)). { apply lsum_pos_; [exact Hn|]. destruct Hx as (x & Hi & Px). exists x. split; [now apply (Permutation_in _ Pm)|exact Px]. }
  assert (Hne : rsort vals <> []). { destruct Hx as (x & Hi & _). apply (Permutation_in _ Pm) in Hi. intros E. rewrite E in Hi. destruct Hi. }
  pose proof (count_below_lt pc (lsum_ (rsort vals)) Hp Hs (rsort vals) 0 Hne ltac:(lra) Hn) as L.
  rewrite Nat.min_l by lia. destruct (nth_error (rsort vals) _) as [v|] eqn:En; [|apply nth_error_None in En; lia].
  destruct (positives vals) as [|p ps] eqn:P; [|eauto]. exfalso. destruct Hx as (x & Hi & Px).
  assert (I : In x (positives vals)) by (apply in_positives; auto). rewrite P in I. destruct I.
Qed.
(** REFUTED: an all-zero variance map, a percentile above 1 and an empty mask raise instead of giving weights ... *)
Lemma count_above_all pc total : 1 < pc -> 0 < total -> forall l acc, 0 <= acc -> acc + lsum_ l <= total -> (forall x, In x l -> 0 <= x) ->
  count_below pc total acc l = length l.
Proof.
  intros Hp Ht. induction l as [|x t IH]; intros acc Ha Hs Hn; [reflexivity|]. simpl.
  assert (N : 0 <= lsum_ t). { assert (Hnt : forall y, In y t -> 0 <= y) by (intros; apply Hn; now right). clear -Hnt. unfold lsum_. induction t; simpl; [lra|]. pose proof (Hnt a (or_introl eq_refl)). assert (0 <= fold_right Rplus 0 t) by (apply IHt; intros; apply Hnt; now right). lra. }
  unfold lsum_ in Hs. simpl in Hs. fold (lsum_ t) in Hs. pose proof (Hn x (or_introl eq_refl)).
  rewrite IH by (try lra; intros; apply Hn; now right). destruct (Req_EM_T total 0); [lra|]. destruct (Rlt_dec _ _) as [|L]; [reflexivity|]. exfalso. apply L.
  apply Rle_lt_trans with 1; [|exact Hp]. apply Rmult_le_reg_r with total; [exact Ht|]. unfold Rdiv. rewrite Rmult_assoc, Rinv_l; lra.
Qed.
Theorem C72_raises_refuted eps n var pc mk nrm std log :
  ((forall x, In x (selected n var mk) -> x = 0) -> selected n var mk <> [] -> compute_variance_weight eps n var pc mk nrm std log = inl ValueError)
  /\ ((exists x, In x (selected n var mk) /\ 0 < x) -> 1 < pc -> compute_variance_weight eps n var pc mk nrm std log = inl IndexError)
  /\ (selected n var mk = [] -> compute_variance_weight eps n var pc mk nrm std log = inl IndexError).
Proof.
  unfold compute_variance_weight, min_variance. cbv zeta. set (vals := selected n var mk) in *. assert (Pm := rsort_perm vals).
  assert (Hn : forall x, In x (rsort vals) -> 0 <= x) by (intros x Hi; apply (selected_nonneg n var mk); apply (Permutation_in _ (Permutation_sym Pm)); exact Hi).
  split; [|split].
  - intros H Hne. assert (Hz : lsum_ (rsort vals) = 0).
    { rewrite <- (lsum_perm_ _ _ Pm). clear -H. unfold lsum_. induction vals; simpl; [reflexivity|]. rewrite IHvals by (intros; apply H; now right). rewrite (H a) by now left. ring. }
    rewrite Hz. assert (C0 : forall l acc, count_below pc 0 acc l = 0%nat). { induction l as [|x t IH]; intros; simpl; [reflexivity|]. rewrite IH. destruct (Req_EM_T 0 0); [reflexivity|lra]. }
    rewrite C0. destruct (rsort vals) as [|v t] eqn:E. { exfalso. apply Hne. apply Permutation_nil. apply Permutation_sym. exact Pm. }
    cbn [length Nat.min nth_error]. destruct (positives vals) as [|p ps] eqn:P; [reflexivity|]. exfalso.
    assert (I : In p (positives vals)) by (rewrite P; now left). apply in_positives in I as [I1 I2]. rewrite (H p I1) in I2. lra.
  - intros Hx Hp. assert (Hs : 0 < lsum_ (rsort vals)). { apply lsum_pos_; [exact Hn|]. destruct Hx as (x & Hi & Px). exists x. split; [now apply (Permutation_in _ Pm)|exact Px]. }
    rewrite (count_above_all pc _ Hp Hs) by (try lra; exact Hn). rewrite Nat.min_id. destruct (nth_error (rsort vals) (length (rsort vals))) eqn:E; [|reflexivity].
    assert (nth_error (rsort vals) (length (rsort vals)) <> None) by congruence. apply nth_error_Some in H. lia.
  - intros E. rewrite E. reflexivity.
Qed.
(** ... and a 0/1 integer mask is taken as a list of indices when the floor is computed: here the second of two samples is
    selected, but the floor comes from the first one, and the normalised maximum is not 1. *)
Theorem C72_integer_mask_refuted eps : 0 < eps < 1 -> exists w w',
  compute_variance_weight eps 2 (fun i => match i with 0%nat => 1 | _ => 4 end) 0 (MaskInt (fun i => i)) true false false = inr w
  /\ compute_variance_weight eps 2 (fun i => match i with 0%nat => 1 | _ => 4 end) 0 (MaskBool (fun i => match i with 0%nat => false | _ => true end)) true false false = inr w'
  /\ w 1%nat = 1 / 4 /\ w' 1%nat = 1 /\ w 0%nat = 0 /\ w' 0%nat = 0.
Proof.
  intros He.
  assert (A1 : Rabs 1 = 1) by (apply Rabs_right; lra). assert (A4 : Rabs 4 = 4) by (apply Rabs_right; lra).
  assert (E1 : min_variance eps 0 [1; 4] = inr 1).
  { unfold min_variance, positives. simpl. destruct (Rle_dec 1 4); [|lra]. simpl. unfold lsum_. simpl.
    destruct (Req_EM_T _ 0); [lra|]. destruct (Rlt_dec ((0 + 1) / _) 0) as [L|_]; [exfalso; assert (0 < (0 + 1) / (1 + (4 + 0))) by (apply Rdiv_lt_0_compat; lra); lra|].
    destruct (Rlt_dec _ 0) as [L|_]; [exfalso; assert (0 < (0 + 1 + 4) / (1 + (4 + 0))) by (apply Rdiv_lt_0_compat; lra); lra|].
    simpl. destruct (Rlt_dec 0 1); [|lra]. destruct (Rlt_dec 0 4); [|lra]. simpl. f_equal. rewrite (Rmin_right 4 1) by lra. rewrite (Rmax_left 1 eps) by lra. apply Rmax_left; lra. }
  assert (E2 : min_variance eps 0 [4] = inr 4).
  { unfold min_variance, positives. simpl. unfold lsum_. simpl. destruct (Req_EM_T _ 0); [lra|].
    destruct (Rlt_dec _ 0) as [L|_]; [exfalso; assert (0 < (0 + 4) / (4 + 0)) by (apply Rdiv_lt_0_compat; lra); lra|].
    simpl. destruct (Rlt_dec 0 4); [|lra]. simpl. f_equal. rewrite (Rmax_left 4 eps) by lra. apply Rmax_left; lra. }
  unfold compute_variance_weight, selected. cbn [seq map filter]. rewrite A1, A4, E1, E2. eexists. eexists. split; [reflexivity|]. split; [reflexivity|].
  unfold weight_of, mask_at. cbv zeta. rewrite A1, A4. rewrite !Rmax_left by lra. simpl. repeat split; try field. rewrite Rmax_right by lra. lra.
Qed.
Example C72_example : exists w, compute_variance_weight (/ 8) 2 (fun i => INR (S i)) (1 / 2) MaskNone true true true = inr w.
Proof. apply C72_defined; [lra|]. exists 1. split; [|lra]. unfold selected. simpl. left. apply Rabs_R1. Qed.
