(** Theorems about [fit_image_rotation_and_scale] (C206). *)
From Coq Require Import Reals Lra Lia List ZArith Bool.
Import ListNotations.
From Verif Require Import Sums Rounding PyErr Arrays Reindex ParamTuningModel ProcPreModel ProcPreProps Fourier FourierBox AlignFitModel AlignFitProps AlignXcProps RotScaleModel.
Open Scope R_scope.

(** ** the correlation of an image with its copy moved along the rows only: exact for any number of columns *)
Definition moved_rows (a n : nat) (t : Z) (p d : arr) : Prop := forall i j, (i < a)%nat -> (j < n)%nat -> d [i; j] = p [imod a (Z.of_nat i - t); j].
Lemma moved_rows_moved a n t p d : moved_rows a n t p d -> moved [a; n] [t; 0%Z] p d.
Proof.
  intros H l I. inversion I as [|i a' l1 s1 Hi I1]; subst. inversion I1 as [|j n' l2 s2 Hj I2]; subst. inversion I2; subst.
  rewrite H by assumption. unfold tadd. cbn [zl map zadd tor].
  assert (E : imod n (Z.of_nat j + - 0) = j) by (rewrite Z.opp_0, Z.add_0_r; now apply imod_small). rewrite E. reflexivity.
Qed.
Section peak.
Variables (a m : nat) (c : list nat -> R) (b : nat).
Hypothesis Ha : (2 <= a)%nat.
Hypothesis Hm : (2 <= m)%nat.
Hypothesis Hb : (2 <= b)%nat.
Hypothesis Hc : forall k, 0 <= c k.
Hypothesis c10 : 0 < c [1%nat; 0%nat].
Hypothesis c01 : 0 < c [0%nat; 1%nat].
Let G (u1 u2 : Z) : R := bsum [a; b] (fun k => c k * fst (chi [a; m] k [u1; u2])).
Lemma G_even u1 u2 : G (- u1) (- u2) = G u1 u2.
Proof. unfold G. apply bsum_ext. intros k _. f_equal. change [(- u1)%Z; (- u2)%Z] with (map Z.opp [u1; u2]). rewrite chi_opp. reflexivity. Qed.
Lemma G_le u1 u2 : G u1 u2 <= G 0 0 /\ (G u1 u2 = G 0 0 -> (u1 mod Z.of_nat a = 0)%Z /\ (u2 mod Z.of_nat m = 0)%Z).
Proof.
  assert (E0 : forall k, fst (chi [a; m] k [0%Z; 0%Z]) = 1).
  { intros k. change [0%Z; 0%Z] with (repeat 0%Z (length [a; m])). rewrite chi_0. reflexivity. }
  assert (L : forall k, inb [a; b] k -> c k * fst (chi [a; m] k [u1; u2]) <= c k * fst (chi [a; m] k [0%Z; 0%Z])).
  { intros k _. rewrite E0. apply Rmult_le_compat_l; [apply Hc|apply chi_le1]. }
  split; [apply bsum_le; exact L|]. intros E. pose proof (bsum_diff_zero [a; b] _ _ L E) as D.
  assert (Q : forall k, inb [a; b] k -> 0 < c k -> chi [a; m] k [u1; u2] = C1).
  { intros k I P. apply chi_eq1. specialize (D k I). cbv beta in D. rewrite E0 in D. apply (Rmult_eq_reg_l (c k)); lra. }
  split.
  - specialize (Q [1%nat; 0%nat] ltac:(repeat constructor; lia) c10). cbn [chi] in Q. rewrite Z.mul_1_l, Z.mul_0_l, w_0 in Q. apply w_eq1; [lia|].
    rewrite <- Q. ring.
  - specialize (Q [0%nat; 1%nat] ltac:(repeat constructor; lia) c01). cbn [chi] in Q. rewrite Z.mul_1_l, Z.mul_0_l, w_0 in Q. apply w_eq1; [lia|].
    rewrite <- Q. ring.
Qed.
End peak.
Lemma bsum_le' s f g : (forall k, inb s k -> f k <= g k) -> bsum s f <= bsum s g. Proof. apply bsum_le. Qed.
Lemma rows_found : forall fit nrm eps dec a n p d t, (2 <= a)%nat -> (2 <= n)%nat -> 0 < eps -> (forall f, fits fit 3 (centred 3) f) ->
  moved_rows a n t p d -> dftN [a; n] (fun l => RtoC (p l)) [1; 0]%nat <> C0 -> dftN [a; n] (fun l => RtoC (p l)) [0; 1]%nat <> C0 ->
  exists z, fit_shifts_xc fit true nrm eps dec [a] n d p = inr [IZR z; 0] /\ signed a t z.
Proof.
  intros fit nrm eps dec a n p d t Ha Hn He F M0 P10 P01. pose proof (moved_rows_moved a n t p d M0) as M.
  assert (P : pos [a; n]) by (repeat constructor; lia).
  set (m := (2 * (n / 2 + 1 - 1))%nat). assert (Hm : (2 <= m)%nat) by (unfold m; pose proof (Nat.div_le_mono 2 n 2 ltac:(lia) Hn); change (2 / 2)%nat with 1%nat in *; lia).
  assert (Pm : pos [a; m]) by (repeat constructor; lia).
  set (b := (n / 2 + 1)%nat). assert (Hb : (2 <= b)%nat) by (unfold b, m in *; lia).
  set (X := xc_spectrum [a; n] d p). set (wt := xc_weight nrm eps [a; b] X).
  assert (W : forall k, 0 < wt k) by (intros; now apply weight_pos).
  set (c := fun k => hw b (last k 0%nat) * (wt k * cabs2 (dftN [a; n] (fun l => RtoC (p l)) k))).
  set (N := / INR (size [a; m])). assert (N0 : 0 < N) by (apply Rinv_0_lt_compat, size_pos, Pm).
  set (G := fun u1 u2 => bsum [a; b] (fun k => c k * fst (chi [a; m] k [u1; u2]))).
  assert (H1 : forall k j, 0 < hw k j) by (intros; unfold hw; destruct (_ || _)%bool; lra).
  assert (CC : forall i j, xcorr true nrm eps [a] n d p [i; j] = N * G (Z.of_nat i - t)%Z (Z.of_nat j)).
  { intros i j. unfold xcorr. change ([a] ++ [n]) with [a; n]. fold X. unfold xc_bins. change ([a] ++ [(n / 2 + 1)%nat]) with [a; b]. fold wt. unfold irfftnN.
    change (n / 2 + 1)%nat with b. change (2 * (b - 1))%nat with m. change ([a] ++ [m]) with [a; m]. change ([a] ++ [b]) with [a; b]. fold N. f_equal. unfold G.
    apply bsum_ext. intros k I. unfold c. rewrite Rmult_assoc. f_equal. unfold X. rewrite (xc_spectrum_moved [a; n] [t; 0%Z] p d k P eq_refl M).
    set (r := cabs2 _). inversion I as [|k1 a' l1 s1 Hk1 I1]; subst. inversion I1 as [|k2 n' l2 s2 Hk2 I2]; subst. inversion I2; subst.
    cbn [chi zl map]. rewrite Z.mul_0_r, w_0.
    replace (Z.of_nat k1 * (Z.of_nat i - t))%Z with (Z.of_nat k1 * Z.of_nat i + - (Z.of_nat k1 * t))%Z by ring. rewrite w_add, w_neg.
    rewrite <- (fst_RtoC_mul (wt [k1; k2] * r)). f_equal. rewrite conj_mul, conj_mul, !conj_C1.
    replace (RtoC (wt [k1; k2] * r)) with (RtoC (wt [k1; k2]) *c RtoC r) by cr. ring. }
  assert (C0' : forall k, 0 <= c k). { intros k. unfold c. apply Rmult_le_pos; [left; apply H1|apply Rmult_le_pos; [left; apply W|apply cabs2_nonneg]]. }
  assert (Cp : forall k, dftN [a; n] (fun l => RtoC (p l)) k <> C0 -> 0 < c k).
  { intros k Hk. unfold c. apply Rmult_lt_0_compat; [apply H1|apply Rmult_lt_0_compat; [apply W|]]. destruct (cabs2_nonneg (dftN [a; n] (fun l => RtoC (p l)) k)) as [?|E]; [assumption|].
    exfalso. apply Hk, cabs2_zero. now symmetry. }
  pose proof (G_le a m c b Ha Hm Hb C0' (Cp _ P10) (Cp _ P01)) as GL. pose proof (G_even a m c b) as GE.
  change (forall u1 u2, G u1 u2 <= G 0%Z 0%Z /\ (G u1 u2 = G 0%Z 0%Z -> (u1 mod Z.of_nat a = 0)%Z /\ (u2 mod Z.of_nat m = 0)%Z)) in GL.
  change (forall u1 u2, G (- u1)%Z (- u2)%Z = G u1 u2) in GE.
  assert (GP : forall u1 u2 v1 v2, (u1 mod Z.of_nat a = v1 mod Z.of_nat a)%Z -> (u2 mod Z.of_nat m = v2 mod Z.of_nat m)%Z -> G u1 u2 = G v1 v2).
  { intros u1 u2 v1 v2 E1 E2. unfold G. apply bsum_ext. intros k I. f_equal. f_equal. inversion I as [|k1 a' l1 s1 Hk1 I1]; subst. inversion I1 as [|k2 n' l2 s2 Hk2 I2]; subst. inversion I2; subst.
    cbn [chi]. f_equal; [|f_equal]; apply w_congr; try lia; rewrite Z.mul_mod by lia; [rewrite E1|rewrite E2]; rewrite <- Z.mul_mod by lia; reflexivity. }
  set (it := imod a t). assert (It : (it < a)%nat) by (apply imod_lt; lia). assert (Eit : (Z.of_nat it mod Z.of_nat a = t mod Z.of_nat a)%Z) by (unfold it; rewrite imod_of by lia; apply Z.mod_mod; lia).
  set (cc := xcorr true nrm eps [a] n d p).
  assert (Z0 : forall x y, (x mod Z.of_nat a = y mod Z.of_nat a)%Z <-> ((x - y) mod Z.of_nat a = 0)%Z).
  { intros x y. split; intros E; [rewrite Zminus_mod, E, Z.sub_diag; reflexivity|]. replace x with (y + (x - y))%Z by ring. rewrite Z.add_mod, E, Z.add_0_r, Z.mod_mod by lia. reflexivity. }
  assert (Pk : cc [it; 0%nat] = N * G 0%Z 0%Z).
  { unfold cc. rewrite CC. f_equal. apply GP; [|reflexivity]. apply Z0 in Eit. rewrite Eit. reflexivity. }
  assert (AM : argmax [a; m] cc = [it; 0%nat]).
  { apply argmax_unique; [repeat constructor; lia|]. intros l I Ne. inversion I as [|i a' l1 s1 Hi I1]; subst. inversion I1 as [|j n' l2 s2 Hj I2]; subst. inversion I2; subst.
    rewrite Pk. unfold cc. rewrite CC. apply Rmult_lt_compat_l; [exact N0|]. destruct (GL (Z.of_nat i - t)%Z (Z.of_nat j)) as [[L|E] Q]; [exact L|]. exfalso. apply Ne. destruct (Q E) as [Q1 Q2].
    apply Z0 in Q1. rewrite <- Eit in Q1. rewrite !Z.mod_small in Q1 by lia. rewrite Z.mod_small in Q2 by lia. f_equal; [lia|f_equal; lia]. }
  assert (Rf : forall ax, In ax [0; 1]%nat -> exists val, refine_max_position_1d fit dec 3 None (peak_line [a; m] cc [it; 0%nat] ax) = inr (0, val)).
  { assert (L1 : forall z, (z mod Z.of_nat a <> 0)%Z -> G z 0%Z < G 0%Z 0%Z).
    { intros z Hz. destruct (GL z 0%Z) as [[L|E] Q]; [exact L|]. destruct (Q E). contradiction. }
    assert (L2 : forall z, (z mod Z.of_nat m <> 0)%Z -> G 0%Z z < G 0%Z 0%Z).
    { intros z Hz. destruct (GL 0%Z z) as [[L|E] Q]; [exact L|]. destruct (Q E). contradiction. }
    assert (V0 : forall i, peak_line [a; m] cc [it; 0%nat] 0%nat i = N * G (Z.of_nat i - 1)%Z 0%Z).
    { intros i. unfold peak_line. cbn [nth set_nth]. unfold cc. rewrite CC. f_equal. apply GP; [|reflexivity]. rewrite imod_of by lia. rewrite Zminus_mod_idemp_l.
      apply Z0. replace (Z.of_nat it + (Z.of_nat i - 1) - t - (Z.of_nat i - 1))%Z with (Z.of_nat it - t)%Z by ring. now apply Z0. }
    assert (V1 : forall i, peak_line [a; m] cc [it; 0%nat] 1%nat i = N * G 0%Z (Z.of_nat i - 1)%Z).
    { intros i. unfold peak_line. cbn [nth set_nth]. unfold cc. rewrite CC. f_equal. apply GP.
      - apply Z0 in Eit. rewrite Eit. reflexivity.
      - rewrite imod_of by lia. rewrite Z.mod_mod by lia. reflexivity. }
    intros ax [<- | [<- | []]]; apply refine_zero; try apply F; rewrite ?V0, ?V1.
    - f_equal. exact (GE 1%Z 0%Z).
    - apply Rmult_lt_compat_l; [exact N0|]. apply L1. change (Z.of_nat 0 - 1)%Z with (- (1))%Z. rewrite Z.mod_opp_l_nz; rewrite ?Z.mod_small; lia.
    - f_equal. exact (GE 0%Z 1%Z).
    - apply Rmult_lt_compat_l; [exact N0|]. apply L2. change (Z.of_nat 0 - 1)%Z with (- (1))%Z. rewrite Z.mod_opp_l_nz; rewrite ?Z.mod_small; lia. }
  exists (fftfreq a it). split; [|apply fftfreq_signed; lia]. unfold fit_shifts_xc. unfold xc_out. change ([a] ++ [(2 * (n / 2 + 1 - 1))%nat]) with [a; m]. fold cc. rewrite AM.
  destruct (Nat.eqb_spec (size [a; m]) 0) as [E|_]; [exfalso; pose proof (size_pos_of _ Pm); lia|]. change (length [a; m]) with 2%nat. change (seq 0 2) with [0; 1]%nat.
  rewrite (refine_axes_zero fit dec [a; m] ([a] ++ [n]) cc [it; 0%nat] [0; 1]%nat Rf). cbn [map nth app]. unfold fftfreq at 2. cbn [Nat.ltb]. destruct (Nat.ltb_spec 0 ((n - 1) / 2 + 1)); [|lia]. reflexivity.
Qed.

(** ** the modulus of the spectrum at signed frequencies *)
Definition modulus (V U : nat) (win img : arr) (a b : Z) : R := cabs (dftN [V; U] (fun l => RtoC (img l * win l)) [imod V a; imod U b]).
Lemma shifted_modulus V U win img i j : shifted_spectrum V U win img i j = modulus V U win img (Z.of_nat i - Z.of_nat (V / 2)) (Z.of_nat j - Z.of_nat (U / 2)).
Proof. reflexivity. Qed.
Lemma cabs_conj z : cabs (conj z) = cabs z. Proof. unfold cabs. now rewrite cabs2_conj_eq. Qed.
Lemma cabs_unit u z : cabs2 u = 1 -> cabs (u *c z) = cabs z. Proof. intros H. unfold cabs. rewrite cabs2_mul, H, Rmult_1_l. reflexivity. Qed.
Lemma imod_opp n a : (0 < n)%nat -> imod n (- Z.of_nat (imod n a)) = imod n (- a).
Proof. intros H. apply imod_mod; [exact H|]. rewrite imod_of by exact H. replace (- (a mod Z.of_nat n))%Z with (0 - a mod Z.of_nat n)%Z by ring. rewrite Zminus_mod_idemp_r. reflexivity. Qed.
Lemma modulus_even V U win img a b : (0 < V)%nat -> (0 < U)%nat -> modulus V U win img (- a) (- b) = modulus V U win img a b.
Proof.
  intros HV HU. unfold modulus. assert (P : pos [V; U]) by (repeat constructor; assumption).
  assert (I : inb [V; U] [imod V a; imod U b]) by (repeat constructor; now apply imod_lt).
  pose proof (dftN_real [V; U] (fun l => img l * win l) _ P I) as D. unfold tneg in D. cbn [zl map tor] in D. rewrite !imod_opp in D by assumption. rewrite D. apply cabs_conj.
Qed.

(** ** order-1 interpolation around the centre *)
Lemma hat_even t : hat (- t) = hat t. Proof. unfold hat. now rewrite Rabs_Ropp. Qed.
Lemma hat_far t : 1 <= Rabs t -> hat t = 0. Proof. intros H. unfold hat. apply Rmax_left. lra. Qed.
Lemma hat_nonneg t : 0 <= hat t. Proof. apply Rmax_l. Qed.
Definition zsum (h : nat) (f : Z -> R) : R := rsum (2 * h - 1) (fun i => f (Z.of_nat i - Z.of_nat (h - 1))%Z).
Lemma zsum_ext h f g : (forall a, f a = g a) -> zsum h f = zsum h g. Proof. intros H. apply rsum_ext. intros. apply H. Qed.
Lemma zsum_rev h f : (0 < h)%nat -> zsum h (fun a => f (- a)%Z) = zsum h f.
Proof. intros H. unfold zsum. rewrite (rsum_rev _ (fun i => f (Z.of_nat i - Z.of_nat (h - 1))%Z)). apply rsum_ext. intros i Hi. f_equal. lia. Qed.
Lemma zsum_swap h g (f : Z -> Z -> R) : zsum h (fun a => zsum g (f a)) = zsum g (fun b => zsum h (fun a => f a b)).
Proof. unfold zsum. apply rsum_swap. Qed.
Definition interp (h g : nat) (M : Z -> Z -> R) (dy dx : R) : R := zsum h (fun a => zsum g (fun b => M a b * (hat (dy - IZR a) * hat (dx - IZR b)))).
Lemma interp_point h g M dy dx : (0 < h)%nat -> (0 < g)%nat -> (forall a b, M (- a)%Z (- b)%Z = M a b) -> interp h g M (- dy) (- dx) = interp h g M dy dx.
Proof.
  intros Hh Hg E. unfold interp. rewrite <- (zsum_rev h _ Hh). apply zsum_ext. intros a. rewrite <- (zsum_rev g _ Hg). apply zsum_ext. intros b.
  rewrite E, !opp_IZR. rewrite <- (hat_even (dy - IZR a)), <- (hat_even (dx - IZR b)). repeat f_equal; ring.
Qed.
Lemma interp_quarter h M1 M2 dy dx : (0 < h)%nat -> (forall a b, M2 a b = M1 b (- a)%Z) -> interp h h M2 dy dx = interp h h M1 dx (- dy).
Proof.
  intros Hh E. unfold interp. rewrite <- (zsum_rev h _ Hh). rewrite zsum_swap. apply zsum_ext. intros b. apply zsum_ext. intros a. rewrite E, Z.opp_involutive, opp_IZR.
  rewrite <- (hat_even (- dy - IZR a)). replace (- (- dy - IZR a)) with (dy - - IZR a) by ring. ring.
Qed.
Lemma rsum_centred h y (f : Z -> R) : (0 < h)%nat -> - (INR h - 1) <= y ->
  rsum (2 * h) (fun i => f (Z.of_nat i - Z.of_nat h)%Z * hat (y + INR h - INR i)) = zsum h (fun a => f a * hat (y - IZR a)).
Proof.
  intros Hh Hy. replace (2 * h)%nat with (S (2 * h - 1)) by lia. rewrite rsum_S_l. change (INR 0) with 0. rewrite (hat_far (y + INR h - 0)) by (rewrite Rabs_right; lra). rewrite Rmult_0_r, Rplus_0_l.
  unfold zsum. apply rsum_ext. intros i Hi. replace (Z.of_nat (S i) - Z.of_nat h)%Z with (Z.of_nat i - Z.of_nat (h - 1))%Z by lia. f_equal. f_equal.
  rewrite minus_IZR, <- !INR_IZR_INZ, S_INR, minus_INR by lia. change (INR 1) with 1. ring.
Qed.
Lemma inside_centre h y : Rabs y <= INR h - 1 -> inside (2 * h) (y + INR h) = true.
Proof.
  intros H. unfold inside. rewrite mult_INR. change (INR 2) with 2.
  assert (- (INR h - 1) <= y <= INR h - 1) by (revert H; unfold Rabs; destruct (Rcase_abs y); lra).
  destruct (Rle_dec 0 (y + INR h)); [|lra]. destruct (Rle_dec (y + INR h) (2 * INR h - 1)); [reflexivity|lra].
Qed.
Lemma half_even h : (2 * h / 2 = h)%nat. Proof. rewrite Nat.mul_comm. apply Nat.div_mul. lia. Qed.
Lemma warp_centred h g win img dy dx : (0 < h)%nat -> (0 < g)%nat -> Rabs dy <= INR h - 1 -> Rabs dx <= INR g - 1 ->
  warp_at (2 * h) (2 * g) (shifted_spectrum (2 * h) (2 * g) win img) (dy + INR h) (dx + INR g) = interp h g (modulus (2 * h) (2 * g) win img) dy dx.
Proof.
  intros Hh Hg Hy Hx. unfold warp_at. rewrite !inside_centre by assumption. cbn [andb]. unfold interp.
  assert (Ly : - (INR h - 1) <= dy) by (revert Hy; unfold Rabs; destruct (Rcase_abs dy); lra).
  assert (Lx : - (INR g - 1) <= dx) by (revert Hx; unfold Rabs; destruct (Rcase_abs dx); lra).
  rewrite (rsum_ext (2 * h) _ (fun i => zsum g (fun b => modulus (2 * h) (2 * g) win img (Z.of_nat i - Z.of_nat h)%Z b * hat (dx - IZR b)) * hat (dy + INR h - INR i))).
  - rewrite (rsum_centred h dy (fun a => zsum g (fun b => modulus (2 * h) (2 * g) win img a b * hat (dx - IZR b))) Hh Ly). apply zsum_ext. intros a.
    unfold zsum. rewrite <- rsum_scal_r. apply rsum_ext. intros i _. ring.
  - intros i _. rewrite <- (rsum_centred g dx (fun b => modulus (2 * h) (2 * g) win img (Z.of_nat i - Z.of_nat h)%Z b) Hg Lx). rewrite <- rsum_scal_r. apply rsum_ext. intros j _.
    rewrite shifted_modulus, !half_even. ring.
Qed.

(** ** polar sampling *)
Definition angle (row : nat) : R := INR row / (INR polar_rows / (2 * PI)).
Lemma angle_add row k : angle (row + k) = angle row + INR k * (PI / 180).
Proof. unfold angle. rewrite plus_INR. unfold polar_rows. replace (INR 360) with 360 by (rewrite INR_IZR_INZ; reflexivity). field. apply PI_neq0. Qed.
Lemma angle_half row : angle (row + 180) = angle row + PI.
Proof. rewrite angle_add. f_equal. replace (INR 180) with 180 by (rewrite INR_IZR_INZ; reflexivity). field. Qed.
Lemma angle_quarter row : angle (row + 90) = PI / 2 + angle row.
Proof. rewrite angle_add. replace (INR 90) with 90 by (rewrite INR_IZR_INZ; reflexivity). field. Qed.
Lemma sin_half x : sin (x + PI) = - sin x. Proof. rewrite neg_sin. reflexivity. Qed.
Lemma cos_half x : cos (x + PI) = - cos x. Proof. rewrite neg_cos. reflexivity. Qed.
Lemma sin_quarter x : sin (PI / 2 + x) = cos x. Proof. symmetry. apply cos_sin. Qed.
Lemma cos_quarter x : cos (PI / 2 + x) = - sin x. Proof. rewrite sin_cos. ring. Qed.
Lemma ln3 : 1 <= ln 3.
Proof. rewrite <- (ln_exp 1). destruct (exp_le_3) as [L|E]; [left; apply ln_increasing; [apply exp_pos|exact L]|right; now rewrite E]. Qed.
Lemma ln5 : 5 / 4 <= ln 5.
Proof.
  assert (E : forall n x, 0 < x -> ln (x ^ n) = INR n * ln x) by (intros; apply ln_pow; assumption).
  assert (L : ln (3 ^ 5) < ln (5 ^ 4)) by (apply ln_increasing; lra). rewrite !E in L by lra. rewrite !INR_IZR_INZ in L. cbn [Z.of_nat Pos.of_succ_nat Pos.succ] in L.
  pose proof ln3. lra.
Qed.
Lemma ln_le1 x : 0 < x -> ln x <= x - 1.
Proof. intros H. pose proof (exp_ineq1_le (ln x)) as E. rewrite exp_ln in E by exact H. lra. Qed.
Lemma polar_inside radius col : (5 <= radius)%nat -> (col < radius)%nat -> exp (INR col / klog radius) <= INR radius - 1.
Proof.
  intros H Hc. set (R0 := INR radius). assert (HR : 5 <= R0) by (unfold R0; replace 5 with (INR 5) by (rewrite INR_IZR_INZ; reflexivity); now apply le_INR).
  assert (LR : 5 / 4 <= ln R0). { pose proof ln5. destruct HR as [L|E]; [|rewrite <- E; lra]. apply ln_increasing in L; lra. }
  assert (HcR : INR col <= R0 - 1) by (unfold R0; change 1 with (INR 1); rewrite <- (minus_INR radius 1) by lia; apply le_INR; lia). pose proof (pos_INR col).
  rewrite <- (exp_ln (R0 - 1)) by lra. unfold klog. fold R0.
  assert (Q : ln R0 - ln (R0 - 1) <= / (R0 - 1)).
  { pose proof (ln_le1 (R0 / (R0 - 1)) ltac:(apply Rdiv_lt_0_compat; lra)) as L. unfold Rdiv in L at 1. rewrite ln_mult in L by (try apply Rinv_0_lt_compat; lra). rewrite ln_Rinv in L by lra. replace (R0 / (R0 - 1) - 1) with (/ (R0 - 1)) in L by (field; lra). exact L. }
  assert (T : / (R0 - 1) <= ln R0 / R0).
  { apply (Rmult_le_reg_l ((R0 - 1) * R0)); [nra|]. replace ((R0 - 1) * R0 * / (R0 - 1)) with R0 by (field; lra). replace ((R0 - 1) * R0 * (ln R0 / R0)) with ((R0 - 1) * ln R0) by (field; lra). nra. }
  assert (B : INR col / (R0 / ln R0) <= ln (R0 - 1)).
  { replace (INR col / (R0 / ln R0)) with (INR col * (ln R0 / R0)) by (field; lra). assert (0 < ln R0 / R0) by (apply Rdiv_lt_0_compat; lra).
    apply Rle_trans with ((R0 - 1) * (ln R0 / R0)); [nra|]. replace ((R0 - 1) * (ln R0 / R0)) with (ln R0 - ln R0 / R0) by (field; lra). lra. }
  destruct B as [B|B]; [left; now apply exp_increasing|right; now rewrite B].
Qed.
Lemma sin_le1 x : Rabs (sin x) <= 1. Proof. apply Rabs_le. pose proof (SIN_bound x). lra. Qed.
Lemma cos_le1 x : Rabs (cos x) <= 1. Proof. apply Rabs_le. pose proof (COS_bound x). lra. Qed.
Definition rho (radius col : nat) : R := exp (INR col / klog radius).
Lemma polar_interp h g win img i j : let radius := Nat.min h g in (5 <= radius)%nat -> (j < radius - 1)%nat ->
  polar_spectrum (2 * h) (2 * g) win img [i; j] =
  interp h g (modulus (2 * h) (2 * g) win img) (rho radius (S j) * sin (angle i)) (rho radius (S j) * cos (angle i)).
Proof.
  intros radius H5 Hj. unfold polar_spectrum, warp_polar. cbn [nth]. unfold polar_radius. rewrite !half_even. fold radius.
  replace (2 * h - h)%nat with h by lia. replace (2 * g - g)%nat with g by lia. fold (angle i). fold (rho radius (S j)).
  pose proof (polar_inside radius (S j) H5 ltac:(lia)) as B. fold (rho radius (S j)) in B. assert (P : 0 < rho radius (S j)) by apply exp_pos.
  assert (Lh : INR radius <= INR h) by (apply le_INR; unfold radius; lia). assert (Lg : INR radius <= INR g) by (apply le_INR; unfold radius; lia).
  apply warp_centred; try (unfold radius in H5; lia); rewrite Rabs_mult, (Rabs_right (rho _ _)) by lra.
  - pose proof (sin_le1 (angle i)). pose proof (Rabs_pos (sin (angle i))). nra.
  - pose proof (cos_le1 (angle i)). pose proof (Rabs_pos (cos (angle i))). nra.
Qed.
Lemma polar_period h g win img i j : (5 <= Nat.min h g)%nat -> (j < Nat.min h g - 1)%nat ->
  polar_spectrum (2 * h) (2 * g) win img [(i + 180)%nat; j] = polar_spectrum (2 * h) (2 * g) win img [i; j].
Proof.
  intros H5 Hj. rewrite !polar_interp by assumption. rewrite angle_half, sin_half, cos_half. rewrite <- !Ropp_mult_distr_r. apply interp_point; try lia.
  intros a b. apply modulus_even; lia.
Qed.

(** ** specification *)
(** np.rot90 of an N x N image (counter-clockwise quarter turn, rows counted downwards), and a half turn of a V x U image *)
Definition quarter_turn (N : nat) (img out : arr) : Prop := forall i j, (i < N)%nat -> (j < N)%nat -> out [i; j] = img [j; (N - 1 - i)%nat].
Definition half_turn (V U : nat) (img out : arr) : Prop := forall i j, (i < V)%nat -> (j < U)%nat -> out [i; j] = img [(V - 1 - i)%nat; (U - 1 - j)%nat].
(** the image does not look the same, in the polar spectrum, at all angles or at all radii: the first angular and the first radial
    harmonic do not vanish *)
Definition polar_contrast (V U : nat) (win img : arr) : Prop := let s := [180; polar_radius V U - 1]%nat in
  dftN s (fun l => RtoC (polar_spectrum V U win img l)) [1; 0]%nat <> C0 /\ dftN s (fun l => RtoC (polar_spectrum V U win img l)) [0; 1]%nat <> C0.

(** ** what turns do to the spectrum *)
Lemma modulus_ext V U win img win' img' a b : (forall i j, (i < V)%nat -> (j < U)%nat -> img [i; j] * win [i; j] = img' [i; j] * win' [i; j]) ->
  modulus V U win img a b = modulus V U win' img' a b.
Proof.
  intros H. unfold modulus. f_equal. apply dftN_ext. intros l I. inversion I as [|i a' l1 s1 Hi I1]; subst. inversion I1 as [|j n' l2 s2 Hj I2]; subst. inversion I2; subst.
  now rewrite H.
Qed.
Definition windowed (win img : arr) : carrN := fun l => RtoC (img l * win l).
Lemma dft2 V U (x : carrN) a b : (0 < V)%nat -> (0 < U)%nat -> dftN [V; U] x [imod V a; imod U b] =
  csum V (fun i => csum U (fun j => x [i; j] *c conj (w V (a * Z.of_nat i) *c w U (b * Z.of_nat j)))).
Proof.
  intros HV HU. unfold dftN. rewrite cbsum_cons. apply csum_ext. intros i Hi. rewrite cbsum_cons. apply csum_ext. intros j Hj. rewrite cbsum_nil. cbn [zl map chi].
  do 2 f_equal. rewrite !(Z.mul_comm (Z.of_nat (imod _ _))). rewrite (Z.mul_comm a), (Z.mul_comm b).
  assert (E : forall n z t, (0 < n)%nat -> w n (z * Z.of_nat (imod n t)) = w n (z * t)).
  { intros n z t Hn. apply w_congr; [exact Hn|]. rewrite imod_of by exact Hn. apply Zmult_mod_idemp_r. }
  rewrite !E by assumption. ring.
Qed.
Lemma modulus_quarter N win img out a b : (0 < N)%nat -> quarter_turn N win win -> quarter_turn N img out ->
  modulus N N win out a b = modulus N N win img b (- a).
Proof.
  intros HN W Q. unfold modulus. rewrite !dft2 by assumption.
  set (ph := w N (- (a * (Z.of_nat N - 1)))). rewrite <- (cabs_unit ph (csum N (fun i => csum N (fun j => RtoC (img [i; j] * win [i; j]) *c conj (w N (b * Z.of_nat i) *c w N (- a * Z.of_nat j))))))
    by apply cabs2_w. f_equal.
  rewrite <- csum_scal. rewrite csum_swap. apply csum_ext. intros i Hi. rewrite csum_rev. rewrite <- csum_scal. apply csum_ext. intros j Hj.
  rewrite Q, W by lia. replace (N - 1 - (N - 1 - j))%nat with j by lia. replace (Z.of_nat (N - 1 - j)) with (Z.of_nat N - 1 - Z.of_nat j)%Z by lia. unfold ph.
  rewrite !conj_mul, <- !w_neg.
  replace (- (a * (Z.of_nat N - 1 - Z.of_nat j)))%Z with (- (a * (Z.of_nat N - 1)) + - (- a * Z.of_nat j))%Z by ring. rewrite w_add. ring.
Qed.
Lemma modulus_half V U win img out a b : (0 < V)%nat -> (0 < U)%nat -> half_turn V U win win -> half_turn V U img out ->
  modulus V U win out a b = modulus V U win img a b.
Proof.
  intros HV HU W Q. rewrite <- (modulus_even V U win img a b HV HU). unfold modulus. rewrite !dft2 by assumption.
  set (ph := w V (- (a * (Z.of_nat V - 1))) *c w U (- (b * (Z.of_nat U - 1)))).
  rewrite <- (cabs_unit ph (csum V (fun i => csum U (fun j => RtoC (img [i; j] * win [i; j]) *c conj (w V (- a * Z.of_nat i) *c w U (- b * Z.of_nat j))))))
    by (unfold ph; rewrite cabs2_mul, !cabs2_w; ring). f_equal.
  rewrite <- csum_scal. rewrite csum_rev. apply csum_ext. intros i Hi. rewrite <- csum_scal. rewrite csum_rev. apply csum_ext. intros j Hj.
  rewrite Q, W by lia. replace (V - 1 - (V - 1 - i))%nat with i by lia. replace (U - 1 - (U - 1 - j))%nat with j by lia.
  replace (Z.of_nat (V - 1 - i)) with (Z.of_nat V - 1 - Z.of_nat i)%Z by lia. replace (Z.of_nat (U - 1 - j)) with (Z.of_nat U - 1 - Z.of_nat j)%Z by lia. unfold ph.
  rewrite !conj_mul, <- !w_neg.
  replace (- (a * (Z.of_nat V - 1 - Z.of_nat i)))%Z with (- (a * (Z.of_nat V - 1)) + - (- a * Z.of_nat i))%Z by ring.
  replace (- (b * (Z.of_nat U - 1 - Z.of_nat j)))%Z with (- (b * (Z.of_nat U - 1)) + - (- b * Z.of_nat j))%Z by ring. rewrite !w_add. ring.
Qed.
Lemma modulus_rolled V U win img out s t a b : (0 < V)%nat -> (0 < U)%nat -> (forall i j, (i < V)%nat -> (j < U)%nat -> win [i; j] = 1) ->
  moved [V; U] [s; t] img out -> modulus V U win out a b = modulus V U win img a b.
Proof.
  intros HV HU W M. unfold modulus. assert (P : pos [V; U]) by (repeat constructor; assumption).
  assert (I0 : forall l, inb [V; U] l -> win l = 1).
  { intros l I. inversion I as [|i a' l1 s1 Hi I1]; subst. inversion I1 as [|j n' l2 s2 Hj I2]; subst. inversion I2; subst. now apply W. }
  rewrite (dftN_ext [V; U] _ (fun l => RtoC (img (tadd [V; U] l (map Z.opp [s; t]))))).
  - rewrite (dftN_shift [V; U] (fun l => RtoC (img l)) [s; t] _ P eq_refl). rewrite cabs_unit by (rewrite cabs2_conj_eq; apply cabs2_chi). f_equal. apply dftN_ext. intros l I.
    rewrite I0 by exact I. f_equal. ring.
  - intros l I. rewrite I0 by exact I. rewrite Rmult_1_r. f_equal. now apply M.
Qed.
(** ** padding *)
Lemma pad_even mode N : Nat.Even N -> Nat.Even (pad_size mode N).
Proof. intros [m ->]. destruct mode; cbn [pad_size]; [|now exists m]. rewrite half_even. exists (2 * m)%nat. lia. Qed.
Lemma padded_quarter mode N img out : Nat.Even N -> quarter_turn N img out -> quarter_turn (pad_size mode N) (padded mode N N img) (padded mode N N out).
Proof.
  intros [m ->] Q. destruct mode as [[|]|]; cbn [pad_size padded]; [| |exact Q]; intros i j Hi Hj; cbn [nth]; rewrite half_even in *.
  - destruct (Nat.leb_spec m i), (Nat.ltb_spec i (m + 2 * m)), (Nat.leb_spec m j), (Nat.ltb_spec j (m + 2 * m)), (Nat.leb_spec m (2 * m + 2 * m - 1 - i)), (Nat.ltb_spec (2 * m + 2 * m - 1 - i) (m + 2 * m));
      cbn [andb]; try reflexivity; try lia. rewrite Q by lia. f_equal. f_equal. f_equal. lia.
  - rewrite Q by lia. f_equal. f_equal. f_equal. lia.
Qed.
Lemma padded_half mode V U img out : (0 < V)%nat -> (0 < U)%nat -> half_turn V U img out -> half_turn (pad_size mode V) (pad_size mode U) (padded mode V U img) (padded mode V U out).
Proof.
  intros HV HU Q. destruct mode as [[|]|]; cbn [pad_size padded]; [| |exact Q]; intros i j Hi Hj; cbn [nth].
  - set (v := (V / 2)%nat) in *. set (u := (U / 2)%nat) in *.
    destruct (Nat.leb_spec v i), (Nat.ltb_spec i (v + V)), (Nat.leb_spec u j), (Nat.ltb_spec j (u + U)), (Nat.leb_spec v (V + 2 * v - 1 - i)), (Nat.ltb_spec (V + 2 * v - 1 - i) (v + V)),
      (Nat.leb_spec u (U + 2 * u - 1 - j)), (Nat.ltb_spec (U + 2 * u - 1 - j) (u + U));
      cbn [andb]; try reflexivity; try lia. rewrite Q by lia. f_equal. f_equal; [lia|]. f_equal. lia.
  - set (v := (V / 2)%nat) in *. set (u := (U / 2)%nat) in *. rewrite Q by lia. f_equal. f_equal; [lia|]. f_equal. lia.
Qed.

Lemma half_rows : (polar_rows / 2 = 180)%nat. Proof. reflexivity. Qed.
Lemma zpad_in s x l : inb s l -> zpad s x l = x l.
Proof. intros H. unfold zpad. now rewrite (proj2 (in_box_inb s l (inb_length _ _ H)) H). Qed.
Lemma dft_moved s t p d k : pos s -> length t = length s -> moved s t p d -> dftN s (fun l => RtoC (d l)) k <> C0 -> dftN s (fun l => RtoC (p l)) k <> C0.
Proof.
  intros P L M H E. apply H. rewrite (dftN_ext s _ (fun l => RtoC (p (tadd s l (map Z.opp t))))) by (intros l I; f_equal; now apply M).
  rewrite (dftN_shift s (fun l => RtoC (p l)) t k P L), E. ring.
Qed.
Lemma dft_zpad s x k : dftN s (fun l => RtoC (zpad s x l)) k = dftN s (fun l => RtoC (x l)) k.
Proof. apply dftN_ext. intros l I. now rewrite zpad_in. Qed.
(** the answer when the polar image of the first is the second's, moved by t rows (modulo half a turn) *)
Lemma answer fit eps pad win V U img1 img2 t : (5 <= polar_radius (pad_size pad V) (pad_size pad U))%nat -> 0 < eps -> (forall f, fits fit 3 (centred 3) f) ->
  moved_rows 180 (polar_radius (pad_size pad V) (pad_size pad U) - 1) t (polar_spectrum (pad_size pad V) (pad_size pad U) win (padded pad V U img2))
    (polar_spectrum (pad_size pad V) (pad_size pad U) win (padded pad V U img1)) ->
  polar_contrast (pad_size pad V) (pad_size pad U) win (padded pad V U img1) ->
  exists z, fit_image_rotation_and_scale fit eps pad win V U img1 V U img2 = inr (IZR z, 1) /\ signed 180 t z.
Proof.
  intros H5 He F M [P10 P01]. unfold fit_image_rotation_and_scale. rewrite !Nat.eqb_refl. cbn [andb negb].
  set (VV := pad_size pad V) in *. set (UU := pad_size pad U) in *. set (n := (polar_radius VV UU - 1)%nat) in *.
  set (d := polar_spectrum VV UU win (padded pad V U img1)) in *. set (p := polar_spectrum VV UU win (padded pad V U img2)) in *.
  assert (Ps : pos [180; n]%nat) by (repeat constructor; unfold n; lia).
  assert (M' : moved_rows 180 n t (zpad [180; n]%nat p) (zpad [180; n]%nat d)).
  { intros i j Hi Hj. assert (Hp : (imod 180 (Z.of_nat i - t) < 180)%nat) by (apply imod_lt; lia). rewrite !zpad_in; [now apply M|..]; (constructor; [assumption|constructor; [assumption|constructor]]). }
  pose proof (moved_rows_moved _ _ _ _ _ M') as MM.
  unfold fit_shifts_vu_xc. rewrite half_rows. change ([180%nat] ++ [n]) with [180; n]%nat.
  destruct (rows_found fit NormEach eps 2 180 n (zpad [180; n]%nat p) (zpad [180; n]%nat d) t ltac:(lia) ltac:(unfold n; lia) He F M') as (z & E & S).
  - apply (dft_moved [180; n]%nat [t; 0%Z] _ _ _ Ps eq_refl MM). rewrite dft_zpad. exact P10.
  - apply (dft_moved [180; n]%nat [t; 0%Z] _ _ _ Ps eq_refl MM). rewrite dft_zpad. exact P01.
  - exists z. split; [|exact S]. rewrite E. cbn [nth]. f_equal. f_equal.
    + replace (INR 180) with 180 by (rewrite INR_IZR_INZ; reflexivity). field.
    + unfold Rdiv. rewrite Rmult_0_l. apply exp_0.
Qed.
Lemma even_half N : Nat.Even N -> exists h, N = (2 * h)%nat /\ (N / 2 = h)%nat.
Proof. intros [h ->]. exists h. split; [reflexivity|apply half_even]. Qed.
(** sampling over more than half a turn *)
Lemma rows_wrap V U win img i j (k : nat) : Nat.Even V -> Nat.Even U -> (5 <= polar_radius V U)%nat -> (j < polar_radius V U - 1)%nat ->
  polar_spectrum V U win img [imod 180 (Z.of_nat i + Z.of_nat k); j] = polar_spectrum V U win img [(i + k)%nat; j].
Proof.
  intros EV EU H5 Hj. destruct (even_half V EV) as (h & -> & Eh). destruct (even_half U EU) as (g & -> & Eg). unfold polar_radius in *. rewrite Eh, Eg in *.
  rewrite <- Nat2Z.inj_add. set (n := (i + k)%nat). assert (En : imod 180 (Z.of_nat n) = (n mod 180)%nat) by (unfold imod; rewrite <- Nat2Z.inj_mod; apply Nat2Z.id). rewrite En.
  rewrite (Nat.div_mod n 180) at 2 by lia. generalize (n / 180)%nat. intros q. generalize (n mod 180)%nat. intros r. induction q as [|q IH]; [f_equal; f_equal; lia|].
  rewrite IH. replace (180 * S q + r)%nat with (180 * q + r + 180)%nat by lia. symmetry. now apply polar_period.
Qed.

(** ** C206: the angle between the polar spectra is found, modulo half a turn, with scale one *)
Theorem C206_rotation : forall fit eps pad win V U img1 img2 (k : nat), Nat.Even V -> Nat.Even U ->
  (5 <= polar_radius (pad_size pad V) (pad_size pad U))%nat -> 0 < eps -> (forall f, fits fit 3 (centred 3) f) ->
  (forall i j, (i < 180)%nat -> (j < polar_radius (pad_size pad V) (pad_size pad U) - 1)%nat ->
     polar_spectrum (pad_size pad V) (pad_size pad U) win (padded pad V U img2) [i; j] = polar_spectrum (pad_size pad V) (pad_size pad U) win (padded pad V U img1) [(i + k)%nat; j]) ->
  polar_contrast (pad_size pad V) (pad_size pad U) win (padded pad V U img1) ->
  exists z, fit_image_rotation_and_scale fit eps pad win V U img1 V U img2 = inr (IZR z, 1) /\ signed 180 (Z.of_nat k) z.
Proof.
  intros fit eps pad win V U img1 img2 k EV EU H5 He F H PC. apply answer; try assumption. pose proof (pad_even pad V EV) as EV'. pose proof (pad_even pad U EU) as EU'.
  set (VV := pad_size pad V) in *. set (UU := pad_size pad U) in *. intros i j Hi Hj.
  assert (Hk : (imod 180 (Z.of_nat i - Z.of_nat k) < 180)%nat) by (apply imod_lt; lia). rewrite H by assumption.
  rewrite <- (rows_wrap VV UU win _ (imod 180 (Z.of_nat i - Z.of_nat k)) j k) by assumption. f_equal. f_equal.
  transitivity (imod 180 (Z.of_nat i)); [symmetry; now apply imod_small|]. apply imod_mod; [lia|]. rewrite imod_of by lia. rewrite Zplus_mod_idemp_l. f_equal. ring.
Qed.
(** the same image: no rotation, no scaling *)
Theorem C206_same : forall fit eps pad win V U img, Nat.Even V -> Nat.Even U ->
  (5 <= polar_radius (pad_size pad V) (pad_size pad U))%nat -> 0 < eps -> (forall f, fits fit 3 (centred 3) f) ->
  polar_contrast (pad_size pad V) (pad_size pad U) win (padded pad V U img) ->
  fit_image_rotation_and_scale fit eps pad win V U img V U img = inr (0, 1).
Proof.
  intros fit eps pad win V U img EV EU H5 He F PC.
  destruct (C206_rotation fit eps pad win V U img img 0 EV EU H5 He F) as (z & E & S1 & S2); [intros i j _ _; now rewrite Nat.add_0_r|exact PC|].
  rewrite E. assert (z = 0)%Z as ->; [|reflexivity]. change (Z.of_nat 0) with 0%Z in S1. rewrite Z.mod_0_l in S1 by lia. apply Z.mod_divide in S1; [|lia]. destruct S1 as [q ->]. lia.
Qed.
(** a quarter turn in either direction: -90 degrees both times *)
Lemma signed_90 z : signed 180 90 z -> z = (-90)%Z.
Proof. intros [S1 S2]. change (90 mod Z.of_nat 180)%Z with 90%Z in S1. pose proof (Z.div_mod z (Z.of_nat 180) ltac:(lia)) as D. rewrite S1 in D. lia. Qed.
Lemma polar_quarter N win img out i j : Nat.Even N -> (5 <= polar_radius N N)%nat -> (j < polar_radius N N - 1)%nat -> quarter_turn N win win -> quarter_turn N img out ->
  polar_spectrum N N win out [i; j] = polar_spectrum N N win img [(i + 90)%nat; j].
Proof.
  intros EN H5 Hj W Q. destruct (even_half N EN) as (h & -> & Eh). unfold polar_radius in *. rewrite Eh in *. rewrite !polar_interp by assumption.
  rewrite angle_quarter, sin_quarter, cos_quarter, <- Ropp_mult_distr_r. apply interp_quarter; [lia|]. intros a b. apply modulus_quarter; [lia|exact W|exact Q].
Qed.
Theorem C206_quarter_turn : forall fit eps pad win N img turned, Nat.Even N ->
  (5 <= polar_radius (pad_size pad N) (pad_size pad N))%nat -> 0 < eps -> (forall f, fits fit 3 (centred 3) f) ->
  quarter_turn (pad_size pad N) win win -> quarter_turn N img turned ->
  polar_contrast (pad_size pad N) (pad_size pad N) win (padded pad N N img) ->
  fit_image_rotation_and_scale fit eps pad win N N img N N turned = inr (-90, 1) /\ fit_image_rotation_and_scale fit eps pad win N N turned N N img = inr (-90, 1).
Proof.
  intros fit eps pad win N img out EN H5 He F W Q PC. pose proof (pad_even pad N EN) as EN'. pose proof (padded_quarter pad N img out EN Q) as Q'.
  set (NN := pad_size pad N) in *.
  assert (D : forall i j, (i < 180)%nat -> (j < polar_radius NN NN - 1)%nat -> polar_spectrum NN NN win (padded pad N N out) [i; j] = polar_spectrum NN NN win (padded pad N N img) [(i + 90)%nat; j]).
  { intros i j _ Hj. now apply polar_quarter. }
  assert (D' : forall i j, (i < 180)%nat -> (j < polar_radius NN NN - 1)%nat -> polar_spectrum NN NN win (padded pad N N img) [i; j] = polar_spectrum NN NN win (padded pad N N out) [(i + 90)%nat; j]).
  { intros i j Hi Hj. rewrite (polar_quarter NN win (padded pad N N img) (padded pad N N out)) by assumption. replace (i + 90 + 90)%nat with (i + 180)%nat by lia. rewrite <- rows_wrap by assumption. f_equal. f_equal.
    transitivity (imod 180 (Z.of_nat i)); [symmetry; now apply imod_small|]. apply imod_mod; [lia|]. change (Z.of_nat 180) with (1 * 180)%Z. rewrite Z_mod_plus_full. reflexivity. }
  split.
  - destruct (C206_rotation fit eps pad win N N img out 90 EN EN H5 He F D PC) as (z & E & S). rewrite E. rewrite (signed_90 z S). reflexivity.
  - assert (PC' : polar_contrast NN NN win (padded pad N N out)).
    { destruct PC as [P1 P2]. fold NN in P1, P2. set (s := [180; polar_radius NN NN - 1]%nat) in *. assert (Ps : pos s) by (unfold s; repeat constructor; lia).
      assert (M : moved s [90; 0]%Z (polar_spectrum NN NN win (padded pad N N out)) (polar_spectrum NN NN win (padded pad N N img))).
      { apply moved_rows_moved. intros i j Hi Hj. rewrite D by (try assumption; apply imod_lt; lia).
        rewrite <- rows_wrap by assumption. f_equal. f_equal. transitivity (imod 180 (Z.of_nat i)); [symmetry; now apply imod_small|]. apply imod_mod; [lia|].
        rewrite imod_of by lia. rewrite Zplus_mod_idemp_l. f_equal. lia. }
      split; apply (dft_moved s [90; 0]%Z _ _ _ Ps eq_refl M); assumption. }
    destruct (C206_rotation fit eps pad win N N out img 90 EN EN H5 He F D' PC') as (z & E & S). rewrite E. rewrite (signed_90 z S). reflexivity.
Qed.
(** the answer only depends on the moduli of the spectra *)
Lemma answer_modulus fit eps pad win V U img1 img2 img2' :
  (forall a b, modulus (pad_size pad V) (pad_size pad U) win (padded pad V U img2') a b = modulus (pad_size pad V) (pad_size pad U) win (padded pad V U img2) a b) ->
  fit_image_rotation_and_scale fit eps pad win V U img1 V U img2' = fit_image_rotation_and_scale fit eps pad win V U img1 V U img2.
Proof.
  intros H. unfold fit_image_rotation_and_scale. rewrite !Nat.eqb_refl. cbn [andb negb]. set (VV := pad_size pad V) in *. set (UU := pad_size pad U) in *.
  assert (E : forall l, polar_spectrum VV UU win (padded pad V U img2') l = polar_spectrum VV UU win (padded pad V U img2) l).
  { intros l. unfold polar_spectrum, warp_polar, warp_at. destruct (_ && _)%bool; [|reflexivity]. apply rsum_ext. intros i _. apply rsum_ext. intros j _. rewrite !shifted_modulus, H. reflexivity. }
  assert (E' : forall (d : arr), fit_shifts_vu_xc fit false true NormEach eps 2 [(polar_rows / 2)%nat] (polar_radius VV UU - 1) d (polar_spectrum VV UU win (padded pad V U img2')) =
    fit_shifts_vu_xc fit false true NormEach eps 2 [(polar_rows / 2)%nat] (polar_radius VV UU - 1) d (polar_spectrum VV UU win (padded pad V U img2))).
  { intros d. f_equal. apply FunctionalExtensionality.functional_extensionality. exact E. }
  rewrite E'. reflexivity.
Qed.
(** a half turn of the second image never changes the answer, for images of any size and any other image *)
Theorem C206_half_turn : forall fit eps pad win V U img1 img2 turned, (0 < V)%nat -> (0 < U)%nat ->
  half_turn (pad_size pad V) (pad_size pad U) win win -> half_turn V U img2 turned ->
  fit_image_rotation_and_scale fit eps pad win V U img1 V U turned = fit_image_rotation_and_scale fit eps pad win V U img1 V U img2.
Proof.
  intros fit eps pad win V U img1 img2 out HV HU W Q. apply answer_modulus. intros a b.
  apply modulus_half; try assumption; [destruct pad; cbn [pad_size]; lia..|]. now apply padded_half.
Qed.
(** without window and padding, a circular displacement of the second image does not change it either *)
Theorem C206_displaced : forall fit eps win V U img1 img2 rolled s t, (0 < V)%nat -> (0 < U)%nat ->
  (forall i j, (i < V)%nat -> (j < U)%nat -> win [i; j] = 1) -> moved [V; U] [s; t] img2 rolled ->
  fit_image_rotation_and_scale fit eps None win V U img1 V U rolled = fit_image_rotation_and_scale fit eps None win V U img1 V U img2.
Proof. intros. apply answer_modulus. intros a b. cbn [pad_size padded]. now apply (modulus_rolled V U win img2 rolled s t). Qed.
(** images of different shapes *)
Theorem C206_shapes : forall fit eps pad win V1 U1 img1 V2 U2 img2, V1 <> V2 \/ U1 <> U2 ->
  fit_image_rotation_and_scale fit eps pad win V1 U1 img1 V2 U2 img2 = inl ValueError.
Proof.
  intros. unfold fit_image_rotation_and_scale. destruct (Nat.eqb_spec V1 V2), (Nat.eqb_spec U1 U2); cbn [andb negb]; try reflexivity. lia.
Qed.

(** ** an odd number of rows: the centre of the polar grid is one row below the zero frequency *)
Lemma modulus_stripes V U win img (f : nat -> R) a b : (0 < V)%nat -> (0 < U)%nat -> (forall i j, (i < V)%nat -> (j < U)%nat -> win [i; j] = 1 /\ img [i; j] = f j) ->
  (a mod Z.of_nat V <> 0)%Z -> modulus V U win img a b = 0.
Proof.
  intros HV HU H Na. unfold modulus. rewrite dft2 by assumption.
  rewrite (csum_ext V _ (fun i => conj (w V (Z.of_nat i * a)) *c csum U (fun j => RtoC (f j) *c conj (w U (b * Z.of_nat j))))).
  - rewrite csum_scal_r. rewrite <- csum_conj. rewrite w_orth by assumption. destruct (Z.eqb_spec (a mod Z.of_nat V) 0); [contradiction|].
    replace (conj C0) with C0 by cr. replace (C0 *c csum U (fun j => RtoC (f j) *c conj (w U (b * Z.of_nat j)))) with C0 by ring. unfold cabs, cabs2, C0. cbn [fst snd].
    transitivity (sqrt 0); [f_equal; ring|apply sqrt_0].
  - intros i Hi. rewrite <- csum_scal. apply csum_ext. intros j Hj. destruct (H i j Hi Hj) as [-> ->]. rewrite Rmult_1_r, conj_mul, (Z.mul_comm a). ring.
Qed.
Lemma angle_range i : (i < 180)%nat -> 0 <= angle i <= PI.
Proof.
  intros Hi. pose proof PI_RGT_0. assert (E : angle i = INR i * (PI / 180)). { rewrite <- (Nat.add_0_l i). rewrite angle_add. unfold angle. simpl (INR 0). cbn [Nat.add]. unfold Rdiv. ring. }
  rewrite E. pose proof (pos_INR i). assert (INR i <= 180) by (replace 180 with (INR 180) by (rewrite INR_IZR_INZ; reflexivity); apply le_INR; lia). split; [apply Rmult_le_pos; lra|]. nra.
Qed.
Lemma polar_stripes_odd : forall h U win img (f : nat -> R) i j, (0 < U)%nat -> (i < 180)%nat ->
  (forall i j, (i < 2 * h + 1)%nat -> (j < U)%nat -> win [i; j] = 1 /\ img [i; j] = f j) -> polar_spectrum (2 * h + 1) U win img [i; j] = 0.
Proof.
  intros h U win img f i j HU Hi H. unfold polar_spectrum, warp_polar. cbn [nth]. fold (angle i). set (r := exp _). assert (Hr : 0 < r) by apply exp_pos. unfold warp_at.
  destruct (_ && _)%bool; [|reflexivity]. rewrite <- (rsum_0 (2 * h + 1)). apply rsum_ext. intros i' Hi'. rewrite <- (rsum_0 U). apply rsum_ext. intros j' Hj'.
  assert (E2 : ((2 * h + 1) / 2 = h)%nat) by (symmetry; apply (Nat.div_unique _ 2 h 1); lia). rewrite shifted_modulus, E2.
  destruct (Nat.eq_dec i' h) as [-> | Ne].
  - rewrite (hat_far (r * sin (angle i) + INR (2 * h + 1 - h) - INR h)); [ring|]. replace (2 * h + 1 - h)%nat with (S h) by lia. rewrite S_INR.
    destruct (angle_range i Hi) as [A1 A2]. pose proof (sin_ge_0 _ A1 A2). assert (0 <= r * sin (angle i)) by (apply Rmult_le_pos; lra). rewrite Rabs_right; lra.
  - assert (N : ((Z.of_nat i' - Z.of_nat h) mod Z.of_nat (2 * h + 1) <> 0)%Z).
    { intros Q. apply Z.mod_divide in Q; [|lia]. destruct Q as [q Q]. assert (q = 0 \/ q <= -1 \/ 1 <= q)%Z as [-> | [L|L]] by lia; nia. }
    rewrite (modulus_stripes (2 * h + 1) U win img f); [ring|lia|exact HU|exact H|exact N].
Qed.
Theorem C206_odd_refuted : forall fit eps win h U img1 img2 (f : nat -> R), (0 < U)%nat -> (forall f, fits fit 3 (centred 3) f) ->
  (forall i j, (i < 2 * h + 1)%nat -> (j < U)%nat -> win [i; j] = 1) -> (forall i j, (i < 2 * h + 1)%nat -> (j < U)%nat -> img1 [i; j] = f j) ->
  fit_image_rotation_and_scale fit eps None win (2 * h + 1) U img1 (2 * h + 1) U img2 = inl ValueError.
Proof.
  intros fit eps win h U img1 img2 f HU F W I1. unfold fit_image_rotation_and_scale. rewrite !Nat.eqb_refl. cbn [andb negb pad_size padded]. set (n := (polar_radius (2 * h + 1) U - 1)%nat).
  set (p := polar_spectrum (2 * h + 1) U win img2). set (d := polar_spectrum (2 * h + 1) U win img1).
  assert (D : forall l, zpad [180; n]%nat d l = 0 \/ ~ inb [180; n]%nat l).
  { intros l. destruct (in_box [180; n]%nat l) eqn:E; [|left; unfold zpad; now rewrite E]. 
    destruct l as [|i [|j [|]]]; try (right; intros I; apply inb_length in I; discriminate I). left. apply in_box_inb in E; [|reflexivity]. inversion E; subst. inversion H4; subst.
    rewrite zpad_in by exact E. apply (polar_stripes_odd h U win img1 f); try assumption. intros. split; [now apply W|now apply I1]. }
  unfold fit_shifts_vu_xc, fit_shifts_xc. rewrite half_rows. change ([180%nat] ++ [n]) with [180; n]%nat. destruct (Nat.eqb _ 0); [reflexivity|].
  set (cc := xcorr _ _ _ _ _ _ _).
  assert (Z0 : forall l, cc l = 0).
  { intros l. unfold cc, xcorr, irfftnN. rewrite <- (Rmult_0_r (/ INR (size ([180%nat] ++ [(2 * (n / 2 + 1 - 1))%nat])))). f_equal.
    rewrite <- (bsum_0 ([180%nat] ++ [(n / 2 + 1)%nat])). apply bsum_ext. intros k _.
    assert (Q : dftN ([180%nat] ++ [n]) (fun l0 => RtoC (zpad [180; n]%nat d l0)) k = C0).
    { unfold dftN. rewrite (cbsum_ext _ _ (fun _ => C0)).
      - unfold cbsum, C0. cbn [fst snd]. rewrite bsum_0. reflexivity.
      - intros l0 I. destruct (D l0) as [-> | N]; [cr|contradiction]. }
    unfold xc_spectrum at 2. rewrite Q. match goal with |- _ * fst (?a *c (C0 *c ?b) *c ?c) = 0 => replace (a *c (C0 *c b) *c c) with C0 by ring end. cbn [fst]. unfold C0. cbn [fst]. ring. }
  set (so := xc_out _ _ _). change (length so) with 2%nat. cbn [seq refine_axes]. change (Nat.eqb 2 0) with false. cbv iota.
  assert (E : refine_max_position_1d fit 2 3 None (peak_line so cc (argmax so cc) 0) = inl ValueError).
  { unfold refine_max_position_1d, refine_with. pose proof (F (peak_line so cc (argmax so cc) 0)) as L. unfold fits in L. apply fit3_unique in L. rewrite L.
    unfold interp3, vertex_of. unfold peak_line. rewrite !Z0. cbn [nth]. destruct (Req_EM_T _ 0) as [_|N]; [reflexivity|]. exfalso. apply N. lra. }
  rewrite E. reflexivity.
Qed.

(** ** a case that meets the hypotheses: a plane wave along u, 10 x 10 pixels *)
Definition wave : arr := fun l => cos (2 * PI * (INR (2 * nth 1 l 0%nat) / INR 10)).
Definition flat : arr := fun _ => 1.
Lemma wave_w i j : RtoC (wave [i; j] * flat [i; j]) = RtoC (1 / 2) *c (w 10 (Z.of_nat j * 2) +c w 10 (Z.of_nat j * -2)).
Proof.
  unfold wave, flat. cbn [nth]. replace (Z.of_nat j * -2)%Z with (- (Z.of_nat j * 2))%Z by ring. rewrite w_neg. unfold w, cis, RtoC, Cmul, Cadd, conj. cbn [fst snd].
  replace (INR (2 * j)) with (IZR (Z.of_nat j * 2)) by (rewrite INR_IZR_INZ; f_equal; lia). apply C_eq; cbn [fst snd]; lra.
Qed.
Definition row_sum (b : Z) : C := csum 10 (fun j => RtoC (wave [0; j]%nat * flat [0; j]%nat) *c conj (w 10 (b * Z.of_nat j))).
Lemma row_sum_value b : row_sum b = RtoC (1 / 2) *c ((if Z.eqb ((2 - b) mod 10) 0 then RtoC 10 else C0) +c (if Z.eqb ((-2 - b) mod 10) 0 then RtoC 10 else C0)).
Proof.
  unfold row_sum. pose proof (w_orth 10 (2 - b) ltac:(lia)) as E1. pose proof (w_orth 10 (-2 - b) ltac:(lia)) as E2. change (Z.of_nat 10) with 10%Z in *.
  assert (E10 : INR 10 = 10) by (rewrite INR_IZR_INZ; reflexivity). rewrite E10 in E1, E2. rewrite <- E1, <- E2. rewrite <- csum_plus, <- csum_scal. apply csum_ext. intros j _.
  rewrite wave_w, <- w_neg. replace (Z.of_nat j * (2 - b))%Z with (Z.of_nat j * 2 + - (b * Z.of_nat j))%Z by ring. replace (Z.of_nat j * (-2 - b))%Z with (Z.of_nat j * -2 + - (b * Z.of_nat j))%Z by ring.
  rewrite !w_add. ring.
Qed.
Lemma wave_modulus0 a b : (a mod 10 <> 0)%Z -> modulus 10 10 flat wave a b = 0.
Proof. intros H. apply (modulus_stripes 10 10 flat wave (fun j => wave [0; j]%nat)); try lia; try exact H. intros i j _ _. split; reflexivity. Qed.
Lemma cabs_RtoC r : 0 <= r -> cabs (RtoC r) = r.
Proof. intros H. unfold cabs, cabs2, RtoC. cbn [fst snd]. transitivity (sqrt (r * r)); [f_equal; ring|]. now apply sqrt_square. Qed.
Lemma wave_modulus b : modulus 10 10 flat wave 0 b = cabs (RtoC 10 *c row_sum b).
Proof.
  unfold modulus. rewrite dft2 by lia. f_equal. rewrite (csum_ext 10 _ (fun _ => row_sum b)); [rewrite csum_const; f_equal; f_equal; rewrite INR_IZR_INZ; reflexivity|].
  intros i _. unfold row_sum. apply csum_ext. intros j _. rewrite Z.mul_0_l, w_0. f_equal. f_equal. ring.
Qed.
Lemma wave_two : modulus 10 10 flat wave 0 2 = 50.
Proof.
  rewrite wave_modulus, row_sum_value. change ((2 - 2) mod 10 =? 0)%Z with true. change ((-2 - 2) mod 10 =? 0)%Z with false. cbv iota.
  replace (RtoC 10 *c (RtoC (1 / 2) *c (RtoC 10 +c C0))) with (RtoC 50) by (unfold RtoC, C0, Cmul, Cadd; cbn [fst snd]; apply C_eq; cbn [fst snd]; lra). apply cabs_RtoC. lra.
Qed.
Lemma wave_none b : (-5 < b < 5)%Z -> b <> 2%Z -> b <> (-2)%Z -> modulus 10 10 flat wave 0 b = 0.
Proof.
  intros Hb N1 N2. rewrite wave_modulus, row_sum_value.
  assert (E : ((2 - b) mod 10 =? 0)%Z = false /\ ((-2 - b) mod 10 =? 0)%Z = false) by (assert (b = -4 \/ b = -3 \/ b = -1 \/ b = 0 \/ b = 1 \/ b = 3 \/ b = 4)%Z as Q by lia; destruct Q as [-> | [-> | [-> | [-> | [-> | [-> | ->]]]]]]; split; reflexivity).
  destruct E as [-> ->]. replace (RtoC 10 *c (RtoC (1 / 2) *c (C0 +c C0))) with (RtoC 0) by (unfold RtoC, C0, Cmul, Cadd; cbn [fst snd]; apply C_eq; cbn [fst snd]; lra). apply cabs_RtoC. lra.
Qed.
Lemma wave_interp dy dx : interp 5 5 (modulus 10 10 flat wave) dy dx = 50 * hat dy * (hat (dx - 2) + hat (dx + 2)).
Proof.
  assert (E2 : modulus 10 10 flat wave 0 (-2) = 50) by (rewrite <- wave_two, <- (modulus_even 10 10 flat wave 0 2) by lia; reflexivity).
  unfold interp, zsum. change (2 * 5 - 1)%nat with 9%nat. change (Z.of_nat (5 - 1)) with 4%Z.
  rewrite (rsum_single 9 _ 4%nat); [|lia|].
  2:{ intros i Hi Ne. rewrite <- (rsum_0 9). apply rsum_ext. intros j Hj. rewrite wave_modulus0; [ring|].
    assert (i = 0 \/ i = 1 \/ i = 2 \/ i = 3 \/ i = 5 \/ i = 6 \/ i = 7 \/ i = 8)%nat as Q by lia. destruct Q as [-> | [-> | [-> | [-> | [-> | [-> | [-> | ->]]]]]]]; discriminate. }
  change (Z.of_nat 4 - 4)%Z with 0%Z. cbn [rsum].
  change (Z.of_nat 0 - 4)%Z with (-4)%Z. change (Z.of_nat 1 - 4)%Z with (-3)%Z. change (Z.of_nat 2 - 4)%Z with (-2)%Z. change (Z.of_nat 3 - 4)%Z with (-1)%Z. change (Z.of_nat 5 - 4)%Z with 1%Z.
  change (Z.of_nat 4 - 4)%Z with 0%Z. change (Z.of_nat 6 - 4)%Z with 2%Z. change (Z.of_nat 7 - 4)%Z with 3%Z. change (Z.of_nat 8 - 4)%Z with 4%Z.
  rewrite E2, wave_two. rewrite !wave_none by (lia || discriminate). rewrite Rminus_0_r. replace (dx - -2) with (dx + 2) by ring. ring.
Qed.
Lemma ln_ratio (a b : R) (m n : nat) : 0 < a -> 0 < b -> a ^ m < b ^ n -> INR m * ln a < INR n * ln b.
Proof. intros A B H. rewrite <- !ln_pow by assumption. apply ln_increasing; [now apply pow_lt|exact H]. Qed.
Lemma rho2 : 1 < rho 5 2 < 3.
Proof.
  unfold rho, klog. assert (E2 : INR 2 = 2) by reflexivity. assert (E5 : INR 5 = 5) by (rewrite INR_IZR_INZ; reflexivity). rewrite E2, E5. pose proof ln5.
  replace (2 / (5 / ln 5)) with (2 * ln 5 / 5) by (field; lra). split; [rewrite <- exp_0; apply exp_increasing; lra|].
  rewrite <- (exp_ln 3) by lra. apply exp_increasing. pose proof (ln_ratio 5 3 2 5 ltac:(lra) ltac:(lra) ltac:(simpl; lra)) as L. rewrite E2, E5 in L. lra.
Qed.
Lemma rho4 : 10 <= rho 5 4 * rho 5 4.
Proof.
  unfold rho, klog. assert (E4 : INR 4 = 4) by (rewrite INR_IZR_INZ; reflexivity). assert (E5 : INR 5 = 5) by (rewrite INR_IZR_INZ; reflexivity). assert (E8 : INR 8 = 8) by (rewrite INR_IZR_INZ; reflexivity). rewrite E4, E5. pose proof ln5.
  rewrite <- exp_plus. rewrite <- (exp_ln 10) at 1 by lra. left. apply exp_increasing. replace (4 / (5 / ln 5) + 4 / (5 / ln 5)) with (8 * ln 5 / 5) by (field; lra).
  pose proof (ln_ratio 10 5 5 8 ltac:(lra) ltac:(lra) ltac:(simpl; lra)) as L. rewrite E8, E5 in L. lra.
Qed.
Lemma hat_near t : hat t <> 0 -> Rabs t < 1.
Proof. intros H. destruct (Rlt_dec (Rabs t) 1); [assumption|]. exfalso. apply H, hat_far. lra. Qed.
Definition wpolar := polar_spectrum 10 10 flat wave.
Lemma wpolar_value i j : (j < 4)%nat -> wpolar [i; j] = 50 * hat (rho 5 (S j) * sin (angle i)) * (hat (rho 5 (S j) * cos (angle i) - 2) + hat (rho 5 (S j) * cos (angle i) + 2)).
Proof. intros Hj. unfold wpolar. rewrite (polar_interp 5 5) by (simpl; lia). apply wave_interp. Qed.
Lemma wpolar_nonneg i j : (j < 4)%nat -> 0 <= wpolar [i; j].
Proof.
  intros Hj. rewrite wpolar_value by exact Hj. apply Rmult_le_pos; [apply Rmult_le_pos; [lra|apply hat_nonneg]|]. apply Rplus_le_le_0_compat; apply hat_nonneg.
Qed.
Lemma wpolar_support i j : (j < 4)%nat -> wpolar [i; j] <> 0 -> Rabs (rho 5 (S j) * sin (angle i)) < 1 /\ 1 < Rabs (rho 5 (S j) * cos (angle i)) < 3.
Proof.
  intros Hj. rewrite wpolar_value by exact Hj. set (y := _ * sin _). set (x := _ * cos _). intros N. split; [apply hat_near; intros E; apply N; rewrite E; ring|].
  destruct (Req_dec (hat (x - 2)) 0) as [E1|E1].
  - assert (E2 : hat (x + 2) <> 0) by (intros E; apply N; rewrite E1, E; ring). apply hat_near, Rabs_def2 in E2. rewrite Rabs_left by lra. lra.
  - apply hat_near, Rabs_def2 in E1. rewrite Rabs_right by lra. lra.
Qed.
Lemma wpolar_first : 0 < wpolar [0; 1]%nat.
Proof.
  rewrite wpolar_value by lia. assert (A0 : angle 0 = 0) by (unfold angle; simpl (INR 0); unfold Rdiv; ring). rewrite A0, sin_0, cos_0, Rmult_0_r, Rmult_1_r. destruct rho2 as [L1 L2].
  assert (H0 : hat 0 = 1) by (unfold hat; rewrite Rabs_R0, Rminus_0_r; apply Rmax_right; lra). rewrite H0.
  assert (H1 : 0 < hat (rho 5 2 - 2)). { unfold hat. eapply Rlt_le_trans; [|apply Rmax_r]. unfold Rabs. destruct (Rcase_abs _); lra. }
  pose proof (hat_nonneg (rho 5 2 + 2)). lra.
Qed.
Lemma wpolar_last i : wpolar [i; 3%nat] = 0.
Proof.
  destruct (Req_dec (wpolar [i; 3%nat]) 0) as [E|E]; [exact E|exfalso]. apply wpolar_support in E as [E1 [_ E3]]; [|lia]. pose proof rho4 as Q. pose proof (sin2_cos2 (angle i)) as T. unfold Rsqr in T.
  apply Rabs_def2 in E1, E3. set (r := rho 5 4) in *. set (s := sin (angle i)) in *. set (c := cos (angle i)) in *.
  assert (r * r = (r * s) * (r * s) + (r * c) * (r * c)) by nra. nra.
Qed.
Example C206_wave : polar_contrast 10 10 flat wave.
Proof.
  unfold polar_contrast. change (polar_radius 10 10 - 1)%nat with 4%nat. fold wpolar. unfold dftN. split; intros E.
  - apply (f_equal fst) in E. unfold cbsum in E. cbn [fst bsum] in E.
    assert (P : 0 < rsum 180 (fun i => rsum 4 (fun j => fst (RtoC (wpolar [i; j]) *c conj (chi [180; 4] [1; 0] (zl [i; j]))%nat)))); [|unfold C0 in E; cbn [fst] in E; lra].
    assert (T : forall i j, (i < 180)%nat -> (j < 4)%nat -> 0 <= fst (RtoC (wpolar [i; j]) *c conj (chi [180; 4] [1; 0] (zl [i; j]))%nat) /\ (wpolar [i; j] <> 0 -> 0 < fst (RtoC (wpolar [i; j]) *c conj (chi [180; 4] [1; 0] (zl [i; j]))%nat))).
    { intros i j Hi Hj. assert (V : fst (RtoC (wpolar [i; j]) *c conj (chi [180; 4] [1; 0] (zl [i; j]))%nat) = wpolar [i; j] * cos (2 * angle i)).
      { cbn [zl map chi]. change (Z.of_nat 0) with 0%Z. rewrite Z.mul_0_l, w_0. rewrite fst_RtoC_mul. f_equal. replace (w 180 (Z.of_nat 1 * Z.of_nat i) *c (C1 *c C1)) with (w 180 (Z.of_nat 1 * Z.of_nat i)) by ring.
        unfold w, cis, conj. cbn [fst]. f_equal. change (Z.of_nat 1) with 1%Z. rewrite Z.mul_1_l, <- INR_IZR_INZ. unfold angle, polar_rows.
        replace (INR 360) with 360 by (rewrite INR_IZR_INZ; reflexivity). replace (INR 180) with 180 by (rewrite INR_IZR_INZ; reflexivity). field. apply PI_neq0. }
      rewrite V. destruct (Req_dec (wpolar [i; j]) 0) as [Z0|N0]; [rewrite Z0; split; [lra|intros Q; exfalso; now apply Q]|].
      pose proof (wpolar_nonneg i j Hj). destruct (wpolar_support i j Hj N0) as [S1 [S2 _]]. rewrite cos_2a.
      assert (C : 0 < cos (angle i) * cos (angle i) - sin (angle i) * sin (angle i)).
      { set (r := rho 5 (S j)) in *. assert (0 < r) by apply exp_pos. rewrite Rabs_mult, (Rabs_right r) in S1, S2 by lra.
        assert (L : Rabs (sin (angle i)) < Rabs (cos (angle i))) by (apply (Rmult_lt_reg_l r); lra). apply Rsqr_lt_abs_1 in L. unfold Rsqr in L. lra. }
      split; [left|intros _]; apply Rmult_lt_0_compat; lra. }
    apply Rlt_le_trans with (rsum 4 (fun j => fst (RtoC (wpolar [0%nat; j]) *c conj (chi [180; 4] [1; 0] (zl [0%nat; j]))%nat))).
    + apply Rlt_le_trans with (fst (RtoC (wpolar [0; 1]%nat) *c conj (chi [180; 4] [1; 0] (zl [0; 1]))%nat)).
      * apply T; try lia. pose proof wpolar_first. lra.
      * apply (rsum_term_le 4 (fun j => fst (RtoC (wpolar [0%nat; j]) *c conj (chi [180; 4] [1; 0] (zl [0%nat; j]))%nat))); [intros j Hj; apply T; lia|lia].
    + apply (rsum_term_le 180 (fun i => rsum 4 (fun j => fst (RtoC (wpolar [i; j]) *c conj (chi [180; 4] [1; 0] (zl [i; j]))%nat)))); [|lia]. intros i Hi. apply rsum_nonneg. intros j Hj. now apply T.
  - apply (f_equal snd) in E. unfold cbsum in E. cbn [snd bsum] in E.
    assert (V : forall i j, (j < 4)%nat -> snd (RtoC (wpolar [i; j]) *c conj (chi [180; 4] [0; 1] (zl [i; j]))%nat) = wpolar [i; j] * - sin (PI / 2 * INR j)).
    { intros i j Hj. cbn [zl map chi]. change (Z.of_nat 0) with 0%Z. rewrite Z.mul_0_l, w_0. replace (C1 *c (w 4 (Z.of_nat 1 * Z.of_nat j) *c C1)) with (w 4 (Z.of_nat 1 * Z.of_nat j)) by ring.
      unfold w, cis, conj, RtoC, Cmul. cbn [fst snd]. change (Z.of_nat 1) with 1%Z. rewrite Z.mul_1_l, <- INR_IZR_INZ. replace (INR 4) with 4 by (rewrite INR_IZR_INZ; reflexivity).
      replace (2 * PI * (INR j / 4)) with (PI / 2 * INR j) by field. ring. }
    assert (Row : forall i, rsum 4 (fun j => snd (RtoC (wpolar [i; j]) *c conj (chi [180; 4] [0; 1] (zl [i; j]))%nat)) = - wpolar [i; 1%nat]).
    { intros i. cbn [rsum]. rewrite !V by lia. rewrite wpolar_last. change (INR 0) with 0. change (INR 1) with 1. change (INR 2) with 2. rewrite Rmult_0_r, sin_0, Rmult_1_r, sin_PI2.
      replace (PI / 2 * 2) with PI by field. rewrite sin_PI. ring. }
    rewrite (rsum_ext 180 _ (fun i => - wpolar [i; 1%nat])) in E by (intros; apply Row). rewrite rsum_opp in E. unfold C0 in E. cbn [snd] in E.
    pose proof (rsum_term_le 180 (fun i => wpolar [i; 1%nat]) 0 ltac:(intros; apply wpolar_nonneg; lia) ltac:(lia)) as L. cbv beta in L. pose proof wpolar_first. lra.
Qed.
Example C206_wave_turn : forall fit eps, 0 < eps -> (forall f, fits fit 3 (centred 3) f) ->
  fit_image_rotation_and_scale fit eps None flat 10 10 wave 10 10 (fun l => wave [nth 1 l 0; 9 - nth 0 l 0]%nat) = inr (-90, 1).
Proof.
  intros fit eps He F. apply (C206_quarter_turn fit eps None flat 10 wave (fun l => wave [nth 1 l 0; 9 - nth 0 l 0]%nat)); try assumption.
  - exists 5%nat. reflexivity.
  - cbn. lia.
  - intros i j _ _. reflexivity.
  - intros i j _ _. reflexivity.
  - exact C206_wave.
Qed.
(** with eleven pixels instead of ten, a plane wave along u is compared with nothing *)
Example C206_wave_odd : forall fit eps img2, (forall f, fits fit 3 (centred 3) f) ->
  fit_image_rotation_and_scale fit eps None flat 11 11 (fun l => cos (2 * PI * (INR (2 * nth 1 l 0%nat) / INR 11))) 11 11 img2 = inl ValueError.
Proof. intros fit eps img2 F. apply (C206_odd_refuted fit eps flat 5 11 _ img2 (fun j => cos (2 * PI * (INR (2 * j) / INR 11)))); try assumption; try lia; reflexivity. Qed.
