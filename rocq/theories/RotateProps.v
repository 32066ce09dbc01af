(** Rotation of images: rotate_proj_stack (C217), and the attenuation of C55 with scikit-image's actual rotation (C218). *)
From Coq Require Import Reals Lra Lia List ZArith Bool.
Import ListNotations.
From Verif Require Import Sums PyErr Arrays Rounding BackendsModel BackendsGeomProps RotScaleModel ConeBeamModel RotateModel.
Open Scope R_scope.

(** * the interpolation weights *)
Lemma hat_nonneg t : 0 <= hat t. Proof. apply Rmax_l. Qed.
Lemma hat_0 : hat 0 = 1. Proof. unfold hat. rewrite Rabs_R0, Rmax_right; lra. Qed.
Lemma hat_far t : 1 <= Rabs t -> hat t = 0. Proof. intros H. unfold hat. apply Rmax_left. lra. Qed.
Definition clamp01 (t : R) : R := Rmax 0 (Rmin 1 t).
Lemma hat_clamp t : hat t = clamp01 (t + 1) - clamp01 t.
Proof.
  assert (C0 : forall z, z <= 0 -> clamp01 z = 0) by (intros z L; unfold clamp01; rewrite Rmin_right, Rmax_left; lra).
  assert (C1 : forall z, 1 <= z -> clamp01 z = 1) by (intros z L; unfold clamp01; rewrite Rmin_left, Rmax_right; lra).
  assert (C2 : forall z, 0 <= z <= 1 -> clamp01 z = z) by (intros z L; unfold clamp01; rewrite Rmin_right, Rmax_right; lra).
  unfold hat. destruct (Rle_dec 0 t) as [P|P].
  - rewrite Rabs_right by lra. rewrite (C1 (t + 1)) by lra. destruct (Rle_dec t 1) as [Q|Q].
    + rewrite C2, Rmax_right; lra.
    + rewrite C1, Rmax_left; lra.
  - rewrite Rabs_left by lra. rewrite (C0 t) by lra. destruct (Rle_dec (- 1) t) as [Q|Q].
    + rewrite C2, Rmax_right; lra.
    + rewrite C0, Rmax_left; lra.
Qed.
Lemma hat_sum n y : rsum n (fun k => hat (y - INR k)) = clamp01 (y + 1) - clamp01 (y + 1 - INR n).
Proof.
  induction n as [|n IH]; [cbn; ring_simplify (y + 1 - 0); lra|].
  change (rsum (S n) ?f) with (rsum n f + f n). rewrite IH, hat_clamp, S_INR.
  replace (y - INR n + 1) with (y + 1 - INR n) by ring. replace (y + 1 - (INR n + 1)) with (y - INR n) by ring. ring.
Qed.
Lemma clamp01_range t : 0 <= clamp01 t <= 1.
Proof. unfold clamp01, Rmax, Rmin. repeat (destruct (Rle_dec _ _)); lra. Qed.
Lemma hat_sum_le n y : 0 <= rsum n (fun k => hat (y - INR k)) <= 1.
Proof.
  split; [apply rsum_nonneg; intros; apply hat_nonneg|]. rewrite hat_sum. pose proof (clamp01_range (y + 1)). pose proof (clamp01_range (y + 1 - INR n)). lra.
Qed.
Lemma hat_sum_in n y : 0 <= y <= INR n - 1 -> rsum n (fun k => hat (y - INR k)) = 1.
Proof.
  intros H. rewrite hat_sum. assert (E1 : clamp01 (y + 1) = 1) by (unfold clamp01; rewrite Rmin_left, Rmax_right; lra).
  assert (E0 : clamp01 (y + 1 - INR n) = 0) by (unfold clamp01; rewrite Rmin_right, Rmax_left; lra). lra.
Qed.
Lemma hat_int (a b : nat) : hat (INR a - INR b) = if Nat.eqb b a then 1 else 0.
Proof.
  destruct (Nat.eqb_spec b a) as [-> |N]; [replace (INR a - INR a) with 0 by ring; apply hat_0|]. apply hat_far.
  destruct (Nat.lt_total a b) as [L|[L|L]]; [|congruence|]; apply le_INR in L; rewrite S_INR in L.
  - rewrite Rabs_left1; lra.
  - rewrite Rabs_right; lra.
Qed.
Lemma pick_one n (a : nat) f : (a < n)%nat -> rsum n (fun k => hat (INR a - INR k) * f k) = f a.
Proof.
  intros H. rewrite (rsum_single n _ a); [|exact H|].
  - rewrite hat_int, Nat.eqb_refl. ring.
  - intros k Hk Hn. rewrite hat_int. destruct (Nat.eqb_spec k a); [contradiction|ring].
Qed.
(** a position on the grid picks that pixel *)
Lemma rotate_at H W deg x i j (a b : nat) : src_row H W deg i j = INR a -> src_col H W deg i j = INR b -> (a < H)%nat -> (b < W)%nat ->
  skt_rotate H W deg x i j = x a b.
Proof.
  intros Ea Eb Ha Hb. unfold skt_rotate. rewrite Ea, Eb.
  rewrite (rsum_ext H _ (fun k => hat (INR a - INR k) * rsum W (fun l => hat (INR b - INR l) * x k l))).
  - rewrite pick_one by exact Ha. apply pick_one. exact Hb.
  - intros k _. rewrite <- rsum_scal. apply rsum_ext. intros l _. ring.
Qed.

(** * rotation of one image *)
(** no rotation gives the image back; half a turn reverses both axes; a quarter turn of a square image *)
Lemma rotate_0 H W x i j : (i < H)%nat -> (j < W)%nat -> skt_rotate H W 0 x i j = x i j.
Proof.
  intros Hi Hj. apply rotate_at; auto; unfold src_row, src_col, rad; rewrite Rmult_0_l, sin_0, cos_0; ring.
Qed.
Lemma rad_180 : rad (-180) = - PI. Proof. unfold rad. field. Qed.
Lemma rotate_m180 H W x i j : (i < H)%nat -> (j < W)%nat -> skt_rotate H W (- 180) x i j = x (H - 1 - i)%nat (W - 1 - j)%nat.
Proof.
  intros Hi Hj. apply rotate_at; try lia; unfold src_row, src_col; replace (rad (- 180)) with (- PI) by (unfold rad; field);
    rewrite sin_neg, cos_neg, sin_PI, cos_PI; unfold centre; rewrite !minus_INR by lia; cbn [INR]; field.
Qed.
Lemma rotate_m90 N x i j : (i < N)%nat -> (j < N)%nat -> skt_rotate N N (- 90) x i j = x (N - 1 - j)%nat i.
Proof.
  intros Hi Hj. apply rotate_at; try lia; unfold src_row, src_col; replace (rad (- 90)) with (- (PI / 2)) by (unfold rad; field);
    rewrite sin_neg, cos_neg, sin_PI2, cos_PI2; unfold centre; rewrite ?minus_INR by lia; cbn [INR]; field.
Qed.
Lemma rotate_scal H W deg c x i j : skt_rotate H W deg (fun k l => c * x k l) i j = c * skt_rotate H W deg x i j.
Proof.
  unfold skt_rotate. rewrite <- rsum_scal. apply rsum_ext. intros k _. rewrite <- rsum_scal. apply rsum_ext. intros l _. ring.
Qed.
Lemma rotate_plus H W deg x y i j : skt_rotate H W deg (fun k l => x k l + y k l) i j = skt_rotate H W deg x i j + skt_rotate H W deg y i j.
Proof.
  unfold skt_rotate. rewrite <- rsum_plus. apply rsum_ext. intros k _. rewrite <- rsum_plus. apply rsum_ext. intros l _. ring.
Qed.
Lemma rotate_const H W deg c i j : skt_rotate H W deg (fun _ _ => c) i j =
  c * (rsum H (fun k => hat (src_row H W deg i j - INR k)) * rsum W (fun l => hat (src_col H W deg i j - INR l))).
Proof.
  unfold skt_rotate. rewrite <- rsum_scal_r, <- rsum_scal. apply rsum_ext. intros k _. rewrite <- !rsum_scal. apply rsum_ext. intros l _. ring.
Qed.
Lemma rotate_mono H W deg x y i j : (forall k l, (k < H)%nat -> (l < W)%nat -> x k l <= y k l) ->
  skt_rotate H W deg x i j <= skt_rotate H W deg y i j.
Proof.
  intros L. unfold skt_rotate. apply rsum_le. intros k Hk. apply rsum_le. intros l Hl.
  apply Rmult_le_compat_l; [|apply L; assumption]. apply Rmult_le_pos; apply hat_nonneg.
Qed.
Lemma rotate_range H W deg x lo hi i j : lo <= 0 <= hi -> (forall k l, (k < H)%nat -> (l < W)%nat -> lo <= x k l <= hi) ->
  lo <= skt_rotate H W deg x i j <= hi.
Proof.
  intros [Hlo Hhi] Hx.
  pose proof (hat_sum_le H (src_row H W deg i j)) as A. pose proof (hat_sum_le W (src_col H W deg i j)) as B.
  assert (P : 0 <= rsum H (fun k => hat (src_row H W deg i j - INR k)) * rsum W (fun l => hat (src_col H W deg i j - INR l)) <= 1).
  { split; [apply Rmult_le_pos; lra|]. rewrite <- (Rmult_1_r 1). apply Rmult_le_compat; lra. }
  split.
  - eapply Rle_trans; [|apply (rotate_mono H W deg (fun _ _ => lo)); intros; apply Hx; assumption]. rewrite rotate_const. nra.
  - eapply Rle_trans; [apply (rotate_mono H W deg x (fun _ _ => hi)); intros; apply Hx; assumption|]. rewrite rotate_const. nra.
Qed.
Lemma rotate_ext H W deg x y i j : (forall k l, (k < H)%nat -> (l < W)%nat -> x k l = y k l) -> skt_rotate H W deg x i j = skt_rotate H W deg y i j.
Proof. intros E. apply Rle_antisym; apply rotate_mono; intros; rewrite E by assumption; lra. Qed.

(** * C217: rotate_proj_stack *)
(** every projection is turned on its own: the result at angle w only depends on the projection of angle w *)
Theorem C217_per_projection : forall t V W U x y deg rx ry w,
  rotate_proj_stack t [V; W; U] x deg = inr rx -> rotate_proj_stack t [V; W; U] y deg = inr ry ->
  (forall v u, (v < V)%nat -> (u < U)%nat -> x [v; w; u] = y [v; w; u]) ->
  forall v u, rx [v; w; u] = ry [v; w; u].
Proof.
  intros t V W U x y deg rx ry w Ex Ey E v u. injection Ex as <-. injection Ey as <-. cbn [nth]. f_equal. apply rotate_ext.
  intros k l Hk Hl. rewrite E by assumption. reflexivity.
Qed.
(** by 0 degrees: unchanged; by 180: both detector axes reversed; by 90, square detector: the row index becomes the column *)
Theorem C217_special_angles : forall V W U x v w u, (v < V)%nat -> (u < U)%nat ->
  (exists r, rotate_proj_stack SFloat [V; W; U] x 0 = inr r /\ r [v; w; u] = x [v; w; u]) /\
  (exists r, rotate_proj_stack SFloat [V; W; U] x 180 = inr r /\ r [v; w; u] = x [V - 1 - v; w; U - 1 - u]%nat) /\
  (V = U -> exists r, rotate_proj_stack SFloat [V; W; U] x 90 = inr r /\ r [v; w; u] = x [V - 1 - u; w; v]%nat).
Proof.
  intros V W U x v w u Hv Hu. split; [|split].
  - eexists. split; [reflexivity|]. cbn [nth stored as_float]. rewrite Ropp_0. apply (rotate_0 V U (fun k m => x [k; w; m])); assumption.
  - eexists. split; [reflexivity|]. cbn [nth stored as_float]. apply (rotate_m180 V U (fun k m => x [k; w; m])); assumption.
  - intros E. rewrite <- E in *. eexists. split; [reflexivity|]. cbn [nth stored as_float].
    apply (rotate_m90 V (fun k m => x [k; w; m])); assumption.
Qed.
(** at any angle the values stay within the range of the data and 0, and rotating is linear in the data *)
Theorem C217_range : forall V W U x deg lo hi, lo <= 0 <= hi -> (forall l, inb [V; W; U] l -> lo <= x l <= hi) ->
  exists r, rotate_proj_stack SFloat [V; W; U] x deg = inr r /\ forall l, inb [V; W; U] l -> lo <= r l <= hi.
Proof.
  intros V W U x deg lo hi H0 Hx. eexists. split; [reflexivity|]. intros l Hl.
  unfold inb in Hl. inversion Hl as [|v V' l1 s1 Hv Hl1]; subst. inversion Hl1 as [|w W' l2 s2 Hw Hl2]; subst.
  inversion Hl2 as [|u U' l3 s3 Hu Hl3]; subst. cbn [nth stored as_float]. apply rotate_range; [exact H0|].
  intros k m Hk Hm. apply Hx. unfold inb. repeat constructor; assumption.
Qed.
Theorem C217_linear : forall V W U x y a b deg, exists rx ry r,
  rotate_proj_stack SFloat [V; W; U] x deg = inr rx /\ rotate_proj_stack SFloat [V; W; U] y deg = inr ry /\
  rotate_proj_stack SFloat [V; W; U] (fun l => a * x l + b * y l) deg = inr r /\ forall v w u, r [v; w; u] = a * rx [v; w; u] + b * ry [v; w; u].
Proof.
  intros V W U x y a b deg. do 3 eexists. repeat (split; [reflexivity|]). intros v w u. cbn [nth stored as_float].
  rewrite <- !rotate_scal, <- rotate_plus. reflexivity.
Qed.
(** away from the border a flat field stays flat: wherever the pixel comes from inside of the detector *)
Theorem C217_flat : forall V W U c deg v w u, 0 <= src_row V U (- deg) v u <= INR V - 1 -> 0 <= src_col V U (- deg) v u <= INR U - 1 ->
  exists r, rotate_proj_stack SFloat [V; W; U] (fun _ => c) deg = inr r /\ r [v; w; u] = c.
Proof.
  intros V W U c deg v w u Hv Hu. eexists. split; [reflexivity|]. cbn [nth stored as_float]. rewrite rotate_const, !hat_sum_in by assumption. ring.
Qed.
(** the source position is the exact rotation about the centre of the detector: same distance from the centre *)
Theorem C217_rigid : forall V U deg v u,
  (src_row V U deg v u - centre V) ^ 2 + (src_col V U deg v u - centre U) ^ 2 = (INR v - centre V) ^ 2 + (INR u - centre U) ^ 2.
Proof.
  intros V U deg v u. unfold src_row, src_col. pose proof (sin2_cos2 (rad deg)) as S. unfold Rsqr in S.
  set (s := sin (rad deg)) in *. set (c := cos (rad deg)) in *. set (a := INR u - centre U). set (b := INR v - centre V).
  replace ((s * a + c * b + centre V - centre V) ^ 2 + (c * a - s * b + centre U - centre U) ^ 2) with ((s * s + c * c) * (b ^ 2 + a ^ 2)) by ring.
  rewrite S. ring.
Qed.
(** stacks of fewer or more axes are refused *)
Theorem C217_rank : forall t s x deg, length s <> 3%nat -> rotate_proj_stack t s x deg = inl IndexError.
Proof. intros t s x deg H. destruct s as [|a [|b [|c [|d s]]]]; try reflexivity. exfalso. apply H. reflexivity. Qed.
(** REFUTED "an integer stack can be rotated": whatever the angle, the result is zero everywhere unless a pixel is saturated *)
Theorem C217_integer_refuted : forall b V W U x deg, (1 <= b)%nat ->
  (forall l, inb [V; W; U] l -> 0 <= x l <= 2 ^ b - 2) ->
  exists r, rotate_proj_stack (SUint b) [V; W; U] x deg = inr r /\ forall v w u, (w < W)%nat -> r [v; w; u] = 0.
Proof.
  intros b V W U x deg Hb Hx. eexists. split; [reflexivity|]. intros v w u Hw. cbn [nth stored as_float].
  assert (P : 2 <= 2 ^ b). { destruct b as [|b]; [lia|]. cbn [pow]. pose proof (pow_R1_Rle 2 b ltac:(lra)). lra. }
  set (M := (2 ^ b - 2) / (2 ^ b - 1)).
  assert (HM : 0 <= M < 1).
  { unfold M. split.
    - apply Rmult_le_pos; [lra|]. apply Rlt_le, Rinv_0_lt_compat. lra.
    - apply (Rmult_lt_reg_r (2 ^ b - 1)); [lra|]. unfold Rdiv. rewrite Rmult_assoc, Rinv_l by lra. lra. }
  pose proof (rotate_range V U (- deg) (fun k m => x [k; w; m] / (2 ^ b - 1)) 0 M v u ltac:(lra)) as R.
  destruct R as [R1 R2].
  { intros k m Hk Hm. assert (I : 0 <= x [k; w; m] <= 2 ^ b - 2) by (apply Hx; unfold inb; repeat constructor; assumption).
    assert (J : 0 < / (2 ^ b - 1)) by (apply Rinv_0_lt_compat; lra). unfold M, Rdiv. split; [apply Rmult_le_pos; lra|apply Rmult_le_compat_r; lra]. }
  set (r := skt_rotate _ _ _ _ _ _) in *. unfold trunc0. destruct (Rle_dec 0 r) as [L|L]; [|contradiction].
  change (Int_part r) with (rfloor r). rewrite (rfloor_unique r 0) by lra. reflexivity.
Qed.
Theorem C217_example : exists r, rotate_proj_stack (SUint 16) [2; 1; 2]%nat (fun _ => 1000) 0 = inr r /\ r [0; 0; 0]%nat = 0 /\
  exists q, rotate_proj_stack SFloat [2; 1; 2]%nat (fun _ => 1000) 0 = inr q /\ q [0; 0; 0]%nat = 1000.
Proof.
  destruct (C217_integer_refuted 16 2 1 2 (fun _ => 1000) 0) as [r [E Z]]; [lia|intros; lra|].
  exists r. split; [exact E|]. split; [apply Z; lia|].
  destruct (C217_special_angles 2 1 2 (fun _ => 1000) 0 0 0) as [H _]; [lia|lia|exact H].
Qed.

(** * C218: compute_attenuation with this rotation *)
Theorem C218_rotation_is_interpolation : forall H W, interpolating H W (skt_rotate H W).
Proof.
  intros H W. exists (fun a i j k l => hat (src_row H W a i j - INR k) * hat (src_col H W a i j - INR l)). split; [|reflexivity].
  intros. apply Rmult_le_pos; apply hat_nonneg.
Qed.
(** the attenuation of one slice with scikit-image's rotation *)
Definition att (h w : nat) : R -> bool -> img -> img := att_slice (skt_rotate (BackendsGeomProps.padded h w h) (BackendsGeomProps.padded h w w)) h w.
Theorem C218_attenuation : forall h w angle inv x,
  (forall i j, (i < h)%nat -> (j < w)%nat -> 0 <= x i j) ->
  (forall i j, 0 < att h w angle inv x i j <= 1) /\
  (forall y, (forall i j, (i < h)%nat -> (j < w)%nat -> x i j <= y i j) -> forall i j, att h w angle inv y i j <= att h w angle inv x i j) /\
  (forall y i j, att h w angle inv (fun p q => x p q + y p q) i j = att h w angle inv x i j * att h w angle inv y i j).
Proof.
  intros h w angle inv x Hx. assert (G : good_rot h w (skt_rotate (BackendsGeomProps.padded h w h) (BackendsGeomProps.padded h w w))) by apply C218_rotation_is_interpolation.
  split; [|split].
  - apply C55_range; assumption.
  - intros y Hy. apply C55_monotone; assumption.
  - intros y. apply C55_multiplicative. exact G.
Qed.
Theorem C218_transparent : forall h w angle inv i j, att h w angle inv (fun _ _ => 0) i j = 1.
Proof. intros. apply C55_transparent; [apply C218_rotation_is_interpolation|reflexivity]. Qed.
(** straight beam: the transmission from the first row to the centre of the pixel *)
Theorem C218_angle_zero : forall h w x i j, (i < h)%nat -> (j < w)%nat ->
  att h w 0 false x i j = exp (- (rsum i (fun k => x k j) + x i j / 2)).
Proof.
  intros h w x i j Hi Hj. apply C55_angle_zero; try lia. intros y p q Hp Hq. apply rotate_0; assumption.
Qed.
