(** C208: the classical filters of filtered back-projection. *)
From Coq Require Import Reals Lra Lia List ZArith Bool String.
From Verif Require Import Sums Arrays OperatorsModel OperatorsProps PyErr Fourier FiltersModel FiltersProps FbpFilterModel.
From Verif Require SolverObjModel.
Import ListNotations.
Open Scope R_scope.

(** ** The taps *)
Lemma odds_nth h q : (q < 2 * h)%nat -> nth q (odds (4 * h)) 0%nat = Nat.min (2 * q + 1) (4 * h - (2 * q + 1)).
Proof.
  intros Hq. unfold odds. replace (4 * h / 4)%nat with h by (rewrite Nat.mul_comm, Nat.div_mul; lia).
  replace (4 * h / 2)%nat with (2 * h)%nat by (replace (4 * h)%nat with (2 * h * 2)%nat by lia; rewrite Nat.div_mul; lia).
  destruct (lt_dec q h) as [L|L].
  - rewrite app_nth1 by (now rewrite map_length, seq_length).
    rewrite (nth_indep _ 0%nat (2 * 0 + 1)%nat) by (now rewrite map_length, seq_length).
    rewrite (map_nth (fun j => (2 * j + 1)%nat)), seq_nth by exact L. lia.
  - rewrite app_nth2 by (rewrite map_length, seq_length; lia). rewrite map_length, seq_length.
    rewrite (nth_indep _ 0%nat (2 * h - 1 - 2 * 0)%nat) by (rewrite map_length, seq_length; lia).
    rewrite (map_nth (fun j => (2 * h - 1 - 2 * j)%nat)), seq_nth by lia. lia.
Qed.
Lemma odd_div2 i : Nat.odd i = true -> (i = 2 * (i / 2) + 1)%nat.
Proof.
  intros H. apply Nat.odd_spec in H. destruct H as [m ->]. rewrite Nat.add_comm, Nat.mul_comm, Nat.div_add by lia. cbn. lia.
Qed.
Lemma taps_eq h i : (i < 4 * h)%nat -> taps (4 * h) i =
  if Nat.eqb i 0 then 1 / 4 else if Nat.odd i then - 1 / (PI * INR (Nat.min i (4 * h - i)%nat)) ^ 2 else 0.
Proof.
  intros Hi. unfold taps. destruct (Nat.eqb i 0); [reflexivity|]. destruct (Nat.odd i) eqn:O; [|reflexivity].
  pose proof (odd_div2 i O) as E. rewrite odds_nth by lia. now rewrite <- E.
Qed.
Lemma odd_compl h i : (i <= 4 * h)%nat -> Nat.odd (4 * h - i) = Nat.odd i.
Proof.
  intros Hi. assert (E : Nat.odd ((4 * h - i) + i) = xorb (Nat.odd (4 * h - i)) (Nat.odd i)) by apply Nat.odd_add.
  replace (4 * h - i + i)%nat with (2 * (2 * h))%nat in E by lia.
  replace (Nat.odd (2 * (2 * h))) with false in E by (symmetry; rewrite Nat.odd_mul; reflexivity).
  destruct (Nat.odd (4 * h - i)), (Nat.odd i); cbn in E; congruence.
Qed.
Lemma taps_even h i : (0 < i < 4 * h)%nat -> taps (4 * h) (4 * h - i)%nat = taps (4 * h) i.
Proof.
  intros Hi. rewrite !taps_eq by lia. destruct (Nat.eqb_spec (4 * h - i) 0); [lia|]. destruct (Nat.eqb_spec i 0); [lia|].
  rewrite odd_compl by lia. destruct (Nat.odd i); [|reflexivity]. replace (4 * h - (4 * h - i))%nat with i by lia. now rewrite Nat.min_comm.
Qed.
Lemma padded_size n : exists h, (16 <= h)%nat /\ get_padding_size n = (4 * h)%nat /\ exists q, h = (2 ^ q)%nat.
Proof.
  pose proof (C59_large_enough n) as [L _]. destruct (C59_power_of_two n) as [k Hk].
  destruct k as [|[|k]]; [change (2 ^ 0)%nat with 1%nat in Hk; lia|change (2 ^ 1)%nat with 2%nat in Hk; lia|]. rewrite !Nat.pow_succ_r' in Hk. exists (2 ^ k)%nat. split; [lia|]. split; [lia|]. now exists k.
Qed.

(** ** The sum of the squares: sum of 1 / ((2 j + 1) pi)^2 stays below 1 / 8 *)
Lemma csc_sum q : (0 <= q)%nat -> rsum (2 ^ q) (fun j => / sin (INR (2 * j + 1) * PI / (4 * 2 ^ q)) ^ 2) = 2 * 4 ^ q.
Proof.
  intros _. induction q as [|q IH].
  - cbn [Nat.pow rsum]. rewrite Rplus_0_l. replace (INR (2 * 0 + 1) * PI / (4 * 2 ^ 0)) with (PI / 4) by (cbn; lra).
    rewrite sin_PI4. replace (1 / sqrt 2) with (/ sqrt 2) by (unfold Rdiv; ring). rewrite pow_inv. replace (sqrt 2 ^ 2) with 2 by (rewrite pow2_sqrt; lra). cbn. lra.
  - replace (2 ^ S q)%nat with (2 ^ q + 2 ^ q)%nat by (cbn [Nat.pow]; lia). rewrite rsum_app.
    rewrite (rsum_rev (2 ^ q) (fun i => / sin (INR (2 * (2 ^ q + i) + 1) * PI / (4 * 2 ^ S q)) ^ 2)), <- rsum_plus.
    replace (2 * 4 ^ S q) with (4 * (2 * 4 ^ q)) by (cbn [pow]; ring). rewrite <- IH, <- rsum_scal. apply rsum_ext. intros j Hj.
    assert (P2 : 0 < 2 ^ q) by (apply pow_lt; lra). pose proof PI_RGT_0 as Hpi.
    assert (Ej : INR (2 * j + 1) < 2 * 2 ^ q).
    { assert (H : (2 * j + 1 < 2 * 2 ^ q)%nat) by lia. apply lt_INR in H. rewrite (mult_INR 2 (2 ^ q)), INR_pow2 in H. exact H. }
    assert (Ej0 : 0 < INR (2 * j + 1)) by (apply lt_0_INR; lia).
    set (a := INR (2 * j + 1) * PI / (4 * 2 ^ S q)).
    assert (Ea : INR (2 * j + 1) * PI / (4 * 2 ^ q) = 2 * a) by (unfold a; cbn [pow]; field; lra).
    assert (Eb : INR (2 * (2 ^ q + (2 ^ q - 1 - j)) + 1) * PI / (4 * 2 ^ S q) = PI / 2 - a).
    { unfold a. replace (2 * (2 ^ q + (2 ^ q - 1 - j)) + 1)%nat with (4 * 2 ^ q - (2 * j + 1))%nat by lia.
      rewrite minus_INR by lia. rewrite (mult_INR 4), INR_pow2. replace (INR 4) with 4 by (rewrite INR_IZR_INZ; reflexivity). cbn [pow]. field. lra. }
    rewrite Eb, Ea, sin_shift, sin_2a.
    assert (A0 : 0 < a) by (unfold a; apply Rdiv_lt_0_compat; [apply Rmult_lt_0_compat; assumption|cbn [pow]; lra]).
    assert (A1 : a < PI / 4).
    { unfold a. apply Rmult_lt_reg_r with (4 * 2 ^ S q); [cbn [pow]; lra|]. unfold Rdiv. rewrite Rmult_assoc, Rinv_l by (cbn [pow]; lra). cbn [pow]. nra. }
    assert (S0 : 0 < sin a) by (apply sin_gt_0; lra). assert (C0 : 0 < cos a) by (apply cos_gt_0; lra).
    pose proof (sin2_cos2 a) as T. unfold Rsqr in T.
    replace (/ sin a ^ 2 + / cos a ^ 2) with ((sin a * sin a + cos a * cos a) / (sin a ^ 2 * cos a ^ 2)) by (field; lra). rewrite T. field. lra.
Qed.
Lemma odd_squares q : rsum (2 ^ q) (fun j => 1 / (PI * INR (2 * j + 1)) ^ 2) < 1 / 8.
Proof.
  pose proof (csc_sum q ltac:(lia)) as H. pose proof PI_RGT_0 as Hpi. assert (P2 : 0 < 2 ^ q) by (apply pow_lt; lra).
  assert (L : forall j, (j < 2 ^ q)%nat -> 1 / (PI * INR (2 * j + 1)) ^ 2 < / (16 * 4 ^ q) * / sin (INR (2 * j + 1) * PI / (4 * 2 ^ q)) ^ 2).
  { intros j Hj. set (a := INR (2 * j + 1) * PI / (4 * 2 ^ q)). assert (Ej0 : 0 < INR (2 * j + 1)) by (apply lt_0_INR; lia).
    assert (Ej : INR (2 * j + 1) < 2 * 2 ^ q).
    { assert (Hl : (2 * j + 1 < 2 * 2 ^ q)%nat) by lia. apply lt_INR in Hl. rewrite (mult_INR 2 (2 ^ q)), INR_pow2 in Hl. exact Hl. }
    assert (A0 : 0 < a) by (unfold a; apply Rdiv_lt_0_compat; [apply Rmult_lt_0_compat; assumption|lra]).
    assert (A1 : a < PI / 2).
    { unfold a. apply Rmult_lt_reg_r with (4 * 2 ^ q); [lra|]. unfold Rdiv. rewrite Rmult_assoc, Rinv_l by lra. nra. }
    assert (S0 : 0 < sin a) by (apply sin_gt_0; lra). pose proof (sin_lt_x a A0) as SX.
    assert (E4 : 16 * 4 ^ q = (4 * 2 ^ q) ^ 2) by (rewrite Rpow_mult_distr, <- (pow_mult 2 q 2), Nat.mul_comm, pow_mult; replace (2 ^ 2) with 4 by ring; ring).
    rewrite E4. replace (PI * INR (2 * j + 1)) with (4 * 2 ^ q * a) by (unfold a; field; lra).
    replace (1 / (4 * 2 ^ q * a) ^ 2) with (/ (4 * 2 ^ q) ^ 2 * / a ^ 2) by (field; lra).
    apply Rmult_lt_compat_l; [apply Rinv_0_lt_compat, pow_lt; lra|]. apply Rinv_lt_contravar; [apply Rmult_lt_0_compat; apply pow_lt; lra|nra]. }
  assert (S : forall N, (0 < N <= 2 ^ q)%nat -> rsum N (fun j => 1 / (PI * INR (2 * j + 1)) ^ 2) < rsum N (fun j => / (16 * 4 ^ q) * / sin (INR (2 * j + 1) * PI / (4 * 2 ^ q)) ^ 2)).
  { induction N as [|N IH]; intros HN; [lia|]. cbn [rsum]. specialize (L N ltac:(lia)). destruct N as [|N].
    - cbn [rsum]. lra.
    - specialize (IH ltac:(lia)). lra. }
  assert (N0 : (0 < 2 ^ q)%nat) by (pose proof (Nat.pow_nonzero 2 q); lia).
  specialize (S (2 ^ q)%nat ltac:(lia)). rewrite rsum_scal, H in S. assert (P4 : 0 < 4 ^ q) by (apply pow_lt; lra).
  replace (/ (16 * 4 ^ q) * (2 * 4 ^ q)) with (1 / 8) in S by (field; lra). exact S.
Qed.
(** the taps but the first: their absolute values sum to less than 1 / 4 *)
Lemma abs_taps q : rsum (4 * 2 ^ q) (fun i => Rabs (taps (4 * 2 ^ q) i)) < 1 / 2.
Proof.
  set (h := (2 ^ q)%nat). assert (Hh : (0 < h)%nat) by (unfold h; pose proof (Nat.pow_nonzero 2 q); lia).
  replace (4 * h)%nat with ((h + h) * 2)%nat at 1 by lia. rewrite rsum_mul. cbn [rsum].
  set (T := fun j => 1 / (PI * INR (2 * j + 1)) ^ 2). assert (B : rsum h T < 1 / 8) by apply odd_squares.
  assert (TP : forall j, 0 < T j).
  { intros j. unfold T. apply Rdiv_lt_0_compat; [lra|]. apply pow_lt. apply Rmult_lt_0_compat; [apply PI_RGT_0|apply lt_0_INR; lia]. }
  rewrite (rsum_ext (h + h) _ (fun i => (if Nat.eqb i 0 then 1 / 4 else 0) + T (Nat.min i (2 * h - 1 - i)))).
  - rewrite rsum_plus. rewrite (rsum_single (h + h) (fun i => if Nat.eqb i 0 then 1 / 4 else 0) 0); [|lia|intros i _ Hi; destruct (Nat.eqb_spec i 0); [lia|reflexivity]].
    cbn [Nat.eqb]. rewrite rsum_app. rewrite (rsum_ext h (fun i => T (Nat.min i (2 * h - 1 - i))) T) by (intros i Hi; f_equal; lia).
    rewrite (rsum_rev h (fun i => T (Nat.min (h + i) (2 * h - 1 - (h + i))))). rewrite (rsum_ext h (fun i => T (Nat.min (h + (h - 1 - i)) _)) T) by (intros i Hi; f_equal; lia). lra.
  - intros i Hi. rewrite Rplus_0_l. rewrite !taps_eq by lia. rewrite Nat.add_0_r.
    replace (Nat.odd (i * 2)) with false by (symmetry; rewrite Nat.odd_mul, andb_false_r; reflexivity).
    replace (Nat.odd (i * 2 + 1)) with true by (symmetry; rewrite Nat.odd_add, Nat.odd_mul, andb_false_r; reflexivity).
    destruct (Nat.eqb_spec (i * 2 + 1) 0); [lia|].
    assert (E : Rabs (- 1 / (PI * INR (Nat.min (i * 2 + 1) (4 * h - (i * 2 + 1)))) ^ 2) = T (Nat.min i (2 * h - 1 - i))).
    { replace (Nat.min (i * 2 + 1) (4 * h - (i * 2 + 1))) with (2 * Nat.min i (2 * h - 1 - i) + 1)%nat by lia.
      replace (- 1 / (PI * INR (2 * Nat.min i (2 * h - 1 - i) + 1)) ^ 2) with (- T (Nat.min i (2 * h - 1 - i))).
      - rewrite Rabs_Ropp. apply Rabs_right. left. apply TP.
      - unfold T. field. split; [apply not_0_INR; lia|]. apply PI_neq0. }
    rewrite E. destruct (Nat.eqb_spec i 0) as [->|N].
    + cbn [Nat.mul Nat.eqb]. rewrite (Rabs_right (1 / 4)) by lra. ring.
    + destruct (Nat.eqb_spec (i * 2) 0); [lia|]. rewrite Rabs_R0. ring.
Qed.

(** ** The ramp *)
Lemma fst_w n k : fst (w n k) = cos (2 * PI * (IZR k / INR n)). Proof. reflexivity. Qed.
Lemma ramp_cos n k : ramp n k = 2 * rsum n (fun i => taps n i * fst (w n (- (Z.of_nat i * Z.of_nat k)))).
Proof.
  unfold ramp, dft, csum. cbn [fst]. f_equal. apply rsum_ext. intros i _. unfold Cmul, RtoC. cbn [fst snd]. ring.
Qed.
Lemma ramp_bounds q k : 0 < ramp (4 * 2 ^ q) k < 1.
Proof.
  set (P := (4 * 2 ^ q)%nat). rewrite ramp_cos. pose proof (abs_taps q) as B. fold P in B.
  assert (HP : (0 < P)%nat) by (unfold P; pose proof (Nat.pow_nonzero 2 q); lia).
  destruct P as [|m] eqn:EP; [lia|]. rewrite rsum_S_l in *. rewrite <- EP in *.
  assert (T0 : taps P 0%nat = 1 / 4) by reflexivity. rewrite T0 in *. rewrite (Rabs_right (1 / 4)) in B by lra.
  replace (fst (w P (- (Z.of_nat 0 * Z.of_nat k)))) with 1 by (cbn [Z.of_nat Z.mul Z.opp]; rewrite w_0; reflexivity).
  assert (A : Rabs (rsum m (fun i => taps P (S i) * fst (w P (- (Z.of_nat (S i) * Z.of_nat k))))) <= rsum m (fun i => Rabs (taps P (S i)))).
  { eapply Rle_trans; [apply rsum_abs|]. apply rsum_le. intros i _. rewrite Rabs_mult. rewrite <- Rmult_1_r. apply Rmult_le_compat_l; [apply Rabs_pos|].
    rewrite fst_w. apply Rabs_le. apply COS_bound. }
  pose proof (Rle_abs (rsum m (fun i => taps P (S i) * fst (w P (- (Z.of_nat (S i) * Z.of_nat k)))))) as A1.
  pose proof (Rle_abs (- rsum m (fun i => taps P (S i) * fst (w P (- (Z.of_nat (S i) * Z.of_nat k)))))) as A2. rewrite Rabs_Ropp in A2. lra.
Qed.
Lemma real_even_dft n (x : vec) k : (0 < n)%nat -> (forall i, (0 < i < n)%nat -> x (n - i)%nat = x i) -> snd (dft n (fun j => RtoC (x j)) k) = 0.
Proof.
  intros Hn Hx. assert (E : dft n (fun j => RtoC (x j)) k = conj (dft n (fun j => RtoC (x j)) k)).
  { unfold dft. rewrite csum_conj. rewrite <- (csum_reflect n (fun i => RtoC (x i) *c w n (- (Z.of_nat i * Z.of_nat k))) 0 Hn). apply csum_ext. intros i Hi.
    rewrite conj_mul. f_equal.
    - destruct (Nat.eq_dec i 0) as [->|N]; [rewrite imod_0; cr|]. rewrite Z.sub_0_l, imod_neg_small by lia. rewrite Hx by lia. cr.
    - rewrite <- w_neg, Z.opp_involutive. rewrite w_imod_neg by exact Hn. f_equal. lia. }
  apply (f_equal snd) in E. cbn [conj snd] in E. change (snd (conj ?z)) with (- snd z) in E. unfold conj in E. cbn [snd] in E. lra.
Qed.
Lemma ramp_dft h k : (0 < h)%nat -> RtoC (ramp (4 * h) k) = RtoC 2 *c dft (4 * h) (fun i => RtoC (taps (4 * h) i)) k.
Proof.
  intros Hh. pose proof (real_even_dft (4 * h) (taps (4 * h)) k ltac:(lia) (taps_even h)) as Z.
  apply C_eq; unfold ramp, RtoC, Cmul; cbn [fst snd]; [ring|]. fold (RtoC). change (fun i : nat => (taps (4 * h) i, 0)) with (fun i : nat => RtoC (taps (4 * h) i)). rewrite Z. ring.
Qed.
Lemma ramp_even n k : (0 < k < n)%nat -> ramp n (n - k)%nat = ramp n k.
Proof.
  intros Hk. unfold ramp. f_equal. rewrite real_spec_sym by exact Hk. reflexivity.
Qed.

(** ** The windows *)
Lemma shift_idx h k : (k < 4 * h)%nat -> imod (4 * h) (Z.of_nat k - Z.of_nat (4 * h / 2)) = (if k <? 2 * h then k + 2 * h else k - 2 * h)%nat.
Proof.
  intros Hk. replace (4 * h / 2)%nat with (2 * h)%nat by (replace (4 * h)%nat with (2 * h * 2)%nat by lia; rewrite Nat.div_mul; lia).
  destruct (Nat.ltb_spec k (2 * h)).
  - unfold imod. rewrite <- (Z.mod_add _ 1) by lia. rewrite Z.mod_small by lia. lia.
  - unfold imod. rewrite Z.mod_small by lia. lia.
Qed.
Lemma freq_eq h k : (0 < h)%nat -> (k < 4 * h)%nat -> freq (4 * h) k = (if (k <? 2 * h)%nat then INR k else INR k - INR (4 * h)) / INR (4 * h).
Proof.
  intros Hh Hk. unfold freq. replace ((4 * h - 1) / 2 + 1)%nat with (2 * h)%nat.
  - destruct (k <? 2 * h)%nat; reflexivity.
  - replace (4 * h - 1)%nat with (1 + (2 * h - 1) * 2)%nat by lia. rewrite Nat.div_add by lia. change (1 / 2)%nat with 0%nat. lia.
Qed.
Lemma freq_neg h k : (0 < h)%nat -> (0 < k < 4 * h)%nat -> k <> (2 * h)%nat -> freq (4 * h) (4 * h - k) = - freq (4 * h) k.
Proof.
  intros Hh Hk N. rewrite !freq_eq by lia. assert (P : INR (4 * h) <> 0) by (apply not_0_INR; lia).
  destruct (Nat.ltb_spec (4 * h - k) (2 * h)), (Nat.ltb_spec k (2 * h)); try lia; rewrite minus_INR by lia; field; exact P.
Qed.
Lemma freq_range h k : (0 < h)%nat -> (0 < k < 4 * h)%nat -> freq (4 * h) k <> 0 /\ - / 2 <= freq (4 * h) k <= / 2.
Proof.
  intros Hh Hk. rewrite freq_eq by lia. assert (P : 0 < INR (4 * h)) by (apply lt_0_INR; lia).
  assert (P4 : INR (4 * h) = 2 * INR (2 * h)) by (rewrite <- mult_INR' || (rewrite !mult_INR, !INR_IZR_INZ; cbn [Z.of_nat Pos.of_succ_nat Pos.succ]; ring)).
  assert (K0 : 0 < INR k) by (apply lt_0_INR; lia).
  destruct (Nat.ltb_spec k (2 * h)) as [L|L].
  - apply lt_INR in L. split; [intros E; apply Rmult_eq_compat_r with (r := INR (4 * h)) in E; unfold Rdiv in E; rewrite Rmult_assoc, Rinv_l in E; lra|].
    split; apply Rmult_le_reg_r with (INR (4 * h)); try exact P; unfold Rdiv; rewrite ?Rmult_assoc, ?Rinv_l by lra; lra.
  - apply le_INR in L. assert (K1 : INR k < INR (4 * h)) by (apply lt_INR; lia).
    split; [intros E; apply Rmult_eq_compat_r with (r := INR (4 * h)) in E; unfold Rdiv in E; rewrite Rmult_assoc, Rinv_l in E; lra|].
    split; apply Rmult_le_reg_r with (INR (4 * h)); try exact P; unfold Rdiv; rewrite ?Rmult_assoc, ?Rinv_l by lra; lra.
Qed.
Lemma sinc_range x : x <> 0 -> - (PI / 2) <= x <= PI / 2 -> 0 <= sin x / x <= 1.
Proof.
  intros N Hx. pose proof PI_RGT_0. assert (G : forall y, 0 < y <= PI / 2 -> 0 <= sin y / y <= 1).
  { intros y Hy. pose proof (sin_lt_x y ltac:(lra)). pose proof (sin_gt_0 y ltac:(lra) ltac:(lra)).
    split; apply Rmult_le_reg_r with y; try lra; unfold Rdiv; rewrite ?Rmult_assoc, ?Rinv_l by lra; lra. }
  destruct (Rlt_dec 0 x) as [P|P]; [apply G; lra|]. specialize (G (- x) ltac:(lra)). rewrite sin_neg in G.
  replace (- sin x / - x) with (sin x / x) in G by (field; exact N). exact G.
Qed.
Lemma window_range name h k : (0 < h)%nat -> (k < 4 * h)%nat -> 0 <= window name (4 * h) k <= 1.
Proof.
  intros Hh Hk. pose proof PI_RGT_0 as Hpi. destruct name; cbn [window]; try (unfold fftshift; rewrite shift_idx by exact Hk); cbv beta.
  - lra.
  - destruct (Nat.eqb_spec k 0); [lra|]. destruct (freq_range h k Hh ltac:(lia)) as [N R]. apply sinc_range; [|nra].
    intros E. apply Rmult_integral in E. lra.
  - set (j := (if (k <? 2 * h)%nat then (k + 2 * h)%nat else (k - 2 * h)%nat)). assert (Hj : (j < 4 * h)%nat) by (unfold j; destruct (Nat.ltb_spec k (2 * h)); lia).
    assert (P : 0 < INR (4 * h)) by (apply lt_0_INR; lia). apply lt_INR in Hj. pose proof (pos_INR j).
    split; [|apply SIN_bound]. apply sin_ge_0.
    + apply Rmult_le_pos; [nra|]. left. now apply Rinv_0_lt_compat.
    + apply Rmult_le_reg_r with (INR (4 * h)); [exact P|]. unfold Rdiv. rewrite Rmult_assoc, Rinv_l by lra. nra.
  - pose proof (COS_bound (2 * PI * INR (if (k <? 2 * h)%nat then (k + 2 * h)%nat else (k - 2 * h)%nat) / INR (4 * h - 1))). lra.
  - pose proof (COS_bound (2 * PI * INR (if (k <? 2 * h)%nat then (k + 2 * h)%nat else (k - 2 * h)%nat) / INR (4 * h - 1))). lra.
Qed.
(** ramp, Shepp-Logan and cosine windows are symmetric in the frequency *)
Definition symmetric (name : fbp_name) : bool := match name with Hamming | Hann => false | _ => true end.
Lemma window_even name h k : symmetric name = true -> (0 < h)%nat -> (0 < k < 4 * h)%nat -> window name (4 * h) (4 * h - k)%nat = window name (4 * h) k.
Proof.
  intros S Hh Hk. destruct (Nat.eq_dec k (2 * h)) as [->|N]; [f_equal; lia|]. destruct name; try discriminate S; cbn [window]; [reflexivity| |].
  - destruct (Nat.eqb_spec (4 * h - k) 0); [lia|]. destruct (Nat.eqb_spec k 0); [lia|]. rewrite freq_neg by assumption.
    destruct (freq_range h k Hh Hk) as [F _]. rewrite Ropp_mult_distr_r_reverse, sin_neg. field. split; [exact F|apply PI_neq0].
  - unfold fftshift. rewrite !shift_idx by lia. assert (P : INR (4 * h) <> 0) by (apply not_0_INR; lia).
    destruct (Nat.ltb_spec (4 * h - k) (2 * h)), (Nat.ltb_spec k (2 * h)); try lia.
    + replace (PI * INR (k - 2 * h) / INR (4 * h)) with (PI - PI * INR (4 * h - k + 2 * h) / INR (4 * h)).
      * symmetry. apply sin_PI_x.
      * replace (k - 2 * h)%nat with (4 * h - (4 * h - k + 2 * h))%nat by lia. rewrite minus_INR by lia. field. exact P.
    + replace (PI * INR (4 * h - k - 2 * h) / INR (4 * h)) with (PI - PI * INR (k + 2 * h) / INR (4 * h)).
      * apply sin_PI_x.
      * replace (4 * h - k - 2 * h)%nat with (4 * h - (k + 2 * h))%nat by lia. rewrite minus_INR by lia. field. exact P.
Qed.

(** ** C208: names *)
(** Exactly the five names are accepted, in any capitalisation; anything else raises ValueError. *)
Theorem C208_names s : (In (SolverObjModel.lower s) ["ramp"; "shepp-logan"; "cosine"; "hamming"; "hann"]%string <-> exists d, fbp_init s = inr d) /\
  (forall e, fbp_init s = inl e -> e = ValueError) /\
  (forall d, fbp_init s = inr d -> SolverObjModel.lower s = match d with Ramp => "ramp" | SheppLogan => "shepp-logan" | Cosine => "cosine" | Hamming => "hamming" | Hann => "hann" end%string).
Proof.
  unfold fbp_init, fbp_names. cbn [find fst snd].
  destruct (String.eqb_spec "ramp" (SolverObjModel.lower s)) as [<-|N1]; [split; [split; [eexists; reflexivity|cbn; auto]|split; [discriminate|intros d [= <-]; reflexivity]]|].
  destruct (String.eqb_spec "shepp-logan" (SolverObjModel.lower s)) as [<-|N2]; [split; [split; [eexists; reflexivity|cbn; auto]|split; [discriminate|intros d [= <-]; reflexivity]]|].
  destruct (String.eqb_spec "cosine" (SolverObjModel.lower s)) as [<-|N3]; [split; [split; [eexists; reflexivity|cbn; auto]|split; [discriminate|intros d [= <-]; reflexivity]]|].
  destruct (String.eqb_spec "hamming" (SolverObjModel.lower s)) as [<-|N4]; [split; [split; [eexists; reflexivity|cbn; auto]|split; [discriminate|intros d [= <-]; reflexivity]]|].
  destruct (String.eqb_spec "hann" (SolverObjModel.lower s)) as [<-|N5]; [split; [split; [eexists; reflexivity|cbn; auto 6]|split; [discriminate|intros d [= <-]; reflexivity]]|].
  split; [split; [cbn; intros [H|[H|[H|[H|[H|[]]]]]]; congruence|intros [d H]; discriminate]|split; [intros e [= <-]; reflexivity|discriminate]].
Qed.

(** ** C208: the response *)
(** Every filter lies between zero and the ramp, and the ramp between zero and one, excluded: in particular the ramp does not remove the mean. *)
Theorem C208_response name n k : (k < get_padding_size n)%nat -> let P := get_padding_size n in
  0 <= fourier_filter name P k <= fourier_filter Ramp P k /\ 0 < fourier_filter Ramp P k < 1.
Proof.
  intros Hk P. unfold P in *. destruct (padded_size n) as (h & Hh & E & q & Eq). rewrite E in *. unfold fourier_filter. cbn [window]. rewrite Rmult_1_r.
  pose proof (window_range name h k ltac:(lia) Hk) as W. rewrite Eq in *. pose proof (ramp_bounds q k) as R. split; [|exact R]. nra.
Qed.

(** ** C208: the real and the complex transform *)
Lemma fbp_bins name use_rfft n_angles n : fits use_rfft n (fbp_compute (fourier_filter name) use_rfft n_angles n).
Proof. left. reflexivity. Qed.
(** For the symmetric windows the two settings of use_rfft give the same filtered lines, whatever the data and the padding. *)
Theorem C208_rfft_agrees name mode n_angles n x : (name = Ramp \/ name = SheppLogan \/ name = Cosine) ->
  exists y z, filter_fbp name mode true n_angles n x = inr y /\ filter_fbp name mode false n_angles n x = inr z /\ forall i, (i < n)%nat -> y i = z i.
Proof.
  intros Hn. assert (S : symmetric name = true) by (destruct Hn as [-> | [-> | ->]]; reflexivity).
  unfold filter_fbp, fbp_call, fbp_compute.
  apply (C60_rfft_agrees mode n (fun k => fourier_filter name (get_padding_size n) k * PI / (2 * INR n_angles)) x).
  intros k Hk. destruct (padded_size n) as (h & Hh & E & q & Eq). rewrite E in *. unfold fourier_filter. rewrite ramp_even by exact Hk. rewrite window_even by (assumption || lia). reflexivity.
Qed.
Lemma filter_at_big f k : fst f <> 1%nat -> filter_at f k = snd f k.
Proof. intros H. unfold filter_at. destruct (Nat.eqb_spec (fst f) 1); [contradiction|reflexivity]. Qed.
(** the spectrum the code inverts: the stored values, mirrored when the real transform is used *)
Definition spectrum (use_rfft : bool) (P : nat) (F : vec) : vec := fun k => if use_rfft then F (if (k <=? P / 2)%nat then k else (P - k)%nat) else F k.
Lemma eff_real use_rfft m (F : vec) k : (1 < m)%nat -> (k < 2 * m)%nat ->
  eff use_rfft (num_bins use_rfft (2 * m)) (filter_at (num_bins use_rfft (2 * m), fun k => RtoC (F k))) k = RtoC (spectrum use_rfft (2 * m) F k).
Proof.
  intros Hm Hk. unfold eff, spectrum. destruct use_rfft.
  - unfold num_bins. rewrite half_double. unfold herm. replace (m + 1 - 1)%nat with m by lia. rewrite !filter_at_big by (cbn [fst]; lia). cbn [fst snd].
    destruct (Nat.eqb_spec k 0) as [->|]; [reflexivity|]. destruct (Nat.ltb_spec k m), (Nat.leb_spec k m); try lia; [reflexivity| |].
    + destruct (Nat.eqb_spec k m) as [->|]; [reflexivity|lia].
    + destruct (Nat.eqb_spec k m); [lia|]. cr.
  - unfold num_bins. rewrite filter_at_big by (cbn [fst]; lia). reflexivity.
Qed.
Lemma fst_idft n (E : vec) d : fst (idft n (fun k => RtoC (E k)) (imod n d)) = / INR n * rsum n (fun k => E k * fst (w n (d * Z.of_nat k))) \/ n = 0%nat.
Proof.
  destruct n as [|n]; [right; reflexivity|left]. unfold idft, csum. unfold Cmul, RtoC. cbn [fst snd]. rewrite Rmult_0_l, Rminus_0_r. f_equal. apply rsum_ext. intros k _.
  rewrite (w_imod (S n) d (Z.of_nat k)) by lia. ring.
Qed.
Definition kernel (use_rfft : bool) (P : nat) (F : vec) (d : Z) : R := / INR P * rsum P (fun k => spectrum use_rfft P F k * fst (w P (d * Z.of_nat k))).
Definition scaled (name : fbp_name) (n_angles n : nat) : vec := fun k => fourier_filter name (get_padding_size n) k * PI / (2 * INR n_angles).
Lemma fbp_kernel name use_rfft n_angles n x : exists y, filter_fbp name PadConstant use_rfft n_angles n x = inr y /\
  forall i, (i < n)%nat -> y i = rsum n (fun j => x j * kernel use_rfft (get_padding_size n) (scaled name n_angles n) (Z.of_nat i - Z.of_nat j)).
Proof.
  unfold filter_fbp, fbp_call.
  apply (C60_is_linear_convolution use_rfft n (fbp_compute (fourier_filter name) use_rfft n_angles n) x (kernel use_rfft (get_padding_size n) (scaled name n_angles n)) (fbp_bins name use_rfft n_angles n)).
  intros d _. unfold impulse, kernel. destruct (padding_even n) as (m & Hm & E).
  rewrite to_real_eff. replace (fbp_compute (fourier_filter name) use_rfft n_angles n) with (num_bins use_rfft (get_padding_size n), fun k => RtoC (scaled name n_angles n k)) by reflexivity.
  rewrite E, len_eq. rewrite (idft_ext (2 * m) _ (fun k => RtoC (spectrum use_rfft (2 * m) (scaled name n_angles n) k))) by (intros; apply eff_real; lia).
  destruct (fst_idft (2 * m) (spectrum use_rfft (2 * m) (scaled name n_angles n)) d) as [H|H]; [exact H|lia].
Qed.
(** REFUTED for the Hamming and Hann windows: numpy's windows are symmetric about (P - 1) / 2, not about the zero frequency at P / 2, and the
    real transform uses one half of them.  A single bright pixel is filtered differently, whatever the widths and the number of angles. *)
Lemma window_shift name h k : name = Hamming \/ name = Hann -> (0 < h)%nat -> (0 < k < 2 * h)%nat ->
  window name (4 * h) k < window name (4 * h) (4 * h - k)%nat.
Proof.
  intros Hn Hh Hk. pose proof PI_RGT_0 as Hpi. set (M := INR (4 * h - 1)). assert (PM : 0 < M) by (apply lt_0_INR; lia).
  set (a := 2 * PI * INR (k + 2 * h) / M). set (b := 2 * PI * INR (2 * h - k) / M).
  assert (C : cos b < cos a).
  { assert (E : cos a - cos b = - 2 * sin ((a - b) / 2) * sin ((a + b) / 2)) by (rewrite form2; ring).
    assert (Ed : (a - b) / 2 = 2 * PI * INR k / M) by (unfold a, b; rewrite plus_INR, minus_INR by lia; field; lra).
    assert (Es : (a + b) / 2 = 2 * PI * INR (2 * h) / M) by (unfold a, b; rewrite plus_INR, minus_INR by lia; field; lra).
    assert (M4 : M = 2 * INR (2 * h) - 1) by (unfold M; rewrite minus_INR by lia; rewrite !mult_INR, !INR_IZR_INZ; cbn [Z.of_nat Pos.of_succ_nat Pos.succ]; ring).
    assert (Kh : INR k + 1 <= INR (2 * h)) by (rewrite <- S_INR; apply le_INR; lia). assert (K0 : 0 < INR k) by (apply lt_0_INR; lia).
    assert (H2 : 2 <= INR (2 * h)) by (change 2 with (INR 2); apply le_INR; lia).
    assert (S1 : 0 < sin ((a - b) / 2)).
    { rewrite Ed. apply sin_gt_0; [apply Rdiv_lt_0_compat; nra|]. apply Rmult_lt_reg_r with M; [exact PM|]. unfold Rdiv. rewrite Rmult_assoc, Rinv_l by lra. nra. }
    assert (S2 : sin ((a + b) / 2) < 0).
    { rewrite Es. apply sin_lt_0.
      - apply Rmult_lt_reg_r with M; [exact PM|]. unfold Rdiv. rewrite Rmult_assoc, Rinv_l by lra. nra.
      - apply Rmult_lt_reg_r with M; [exact PM|]. unfold Rdiv. rewrite Rmult_assoc, Rinv_l by lra. nra. }
    nra. }
  assert (I1 : imod (4 * h) (Z.of_nat k - Z.of_nat (4 * h / 2)) = (k + 2 * h)%nat) by (rewrite shift_idx by lia; destruct (Nat.ltb_spec k (2 * h)); lia).
  assert (I2 : imod (4 * h) (Z.of_nat (4 * h - k) - Z.of_nat (4 * h / 2)) = (2 * h - k)%nat) by (rewrite shift_idx by lia; destruct (Nat.ltb_spec (4 * h - k) (2 * h)); lia).
  destruct Hn as [-> | ->]; cbn [window]; unfold fftshift; rewrite I1, I2; fold M; fold a; fold b; lra.
Qed.
Theorem C208_rfft_refuted name n_angles n : (name = Hamming \/ name = Hann) -> (0 < n_angles)%nat -> (0 < n)%nat ->
  let x := fun j => if Nat.eqb j 0 then 1 else 0 in
  exists y z, filter_fbp name PadConstant true n_angles n x = inr y /\ filter_fbp name PadConstant false n_angles n x = inr z /\ y 0%nat < z 0%nat.
Proof.
  intros Hn Ha Hn0 x. destruct (fbp_kernel name true n_angles n x) as (y & Ey & Hy). destruct (fbp_kernel name false n_angles n x) as (z & Ez & Hz).
  exists y, z. split; [exact Ey|]. split; [exact Ez|]. rewrite (Hy 0%nat Hn0), (Hz 0%nat Hn0).
  assert (D : forall g : nat -> R, rsum n (fun j => x j * g j) = g 0%nat).
  { intros g. rewrite (rsum_single n _ 0); [unfold x; cbn; ring|exact Hn0|]. intros i _ Hi. unfold x. destruct (Nat.eqb_spec i 0); [contradiction|ring]. }
  rewrite (D (fun j => kernel true _ _ (Z.of_nat 0 - Z.of_nat j))), (D (fun j => kernel false _ _ (Z.of_nat 0 - Z.of_nat j))).
  unfold kernel. destruct (padded_size n) as (h & Hh & E & q & Eq). rewrite E. set (P := (4 * h)%nat).
  assert (P0 : 0 < INR P) by (apply lt_0_INR; unfold P; lia). apply Rmult_lt_compat_l; [now apply Rinv_0_lt_compat|].
  set (c := PI / (2 * INR n_angles)). assert (A0 : 0 < INR n_angles) by now apply lt_0_INR.
  assert (C0 : 0 < c) by (apply Rdiv_lt_0_compat; [apply PI_RGT_0|lra]).
  assert (T : forall k, (k < P)%nat -> spectrum true P (scaled name n_angles n) k * fst (w P ((Z.of_nat 0 - Z.of_nat 0) * Z.of_nat k)) <=
                                     spectrum false P (scaled name n_angles n) k * fst (w P ((Z.of_nat 0 - Z.of_nat 0) * Z.of_nat k)) /\
    ((2 * h < k)%nat -> spectrum true P (scaled name n_angles n) k * fst (w P ((Z.of_nat 0 - Z.of_nat 0) * Z.of_nat k)) <
                      spectrum false P (scaled name n_angles n) k * fst (w P ((Z.of_nat 0 - Z.of_nat 0) * Z.of_nat k)))).
  { intros k Hk. replace ((Z.of_nat 0 - Z.of_nat 0) * Z.of_nat k)%Z with 0%Z by lia. rewrite w_0. change (fst C1) with 1. rewrite !Rmult_1_r.
    unfold spectrum, scaled. rewrite E. fold P.
    replace (P / 2)%nat with (2 * h)%nat by (unfold P; replace (4 * h)%nat with (2 * h * 2)%nat by lia; rewrite Nat.div_mul; lia).
    destruct (Nat.leb_spec k (2 * h)); [split; [lra|lia]|]. unfold fourier_filter, P in *. rewrite ramp_even by lia.
    pose proof (window_shift name h (4 * h - k) Hn ltac:(lia) ltac:(lia)) as W. replace (4 * h - (4 * h - k))%nat with k in W by lia.
    assert (Rk : 0 < ramp (4 * h) k) by (rewrite Eq; apply ramp_bounds).
    replace (ramp (4 * h) k * window name (4 * h) (4 * h - k)%nat * PI / (2 * INR n_angles)) with (ramp (4 * h) k * window name (4 * h) (4 * h - k)%nat * c) by (unfold c; field; lra).
    replace (ramp (4 * h) k * window name (4 * h) k * PI / (2 * INR n_angles)) with (ramp (4 * h) k * window name (4 * h) k * c) by (unfold c; field; lra).
    assert (X : ramp (4 * h) k * window name (4 * h) (4 * h - k)%nat * c < ramp (4 * h) k * window name (4 * h) k * c) by (apply Rmult_lt_compat_r; [exact C0|]; apply Rmult_lt_compat_l; assumption).
    split; [lra|intros _; exact X]. }
  assert (G : forall N f g, (forall k, (k < N)%nat -> f k <= g k) -> (exists k, (k < N)%nat /\ f k < g k) -> rsum N f < rsum N g).
  { intros N f g Hle (k & Hk & Hlt). assert (0 < rsum N (fun i => g i - f i)).
    { apply (rsum_pos N (fun i => g i - f i) k Hk); [intros j Hj; specialize (Hle j Hj); lra|lra]. }
    rewrite rsum_minus in H. lra. }
  apply G; [intros k Hk; apply T; exact Hk|]. exists (2 * h + 1)%nat. split; [unfold P; lia|]. apply T; unfold P; lia.
Qed.

(** ** C208: what the filters do to the data *)
(** The ramp filter is the convolution with the Ram-Lak kernel, 1/2 at zero, -2 / (pi d)^2 at odd and zero at even distances, times
    pi / (2 number of angles): for lines of any length, without wrap-around and without truncation, for both transforms. *)
Definition ram_lak (d : Z) : R := if Z.eqb d 0 then 1 / 2 else if Z.odd d then - 2 / (PI * IZR d) ^ 2 else 0.
Lemma spectrum_even use_rfft h F k : (0 < h)%nat -> (forall i, (0 < i < 4 * h)%nat -> F (4 * h - i)%nat = F i) -> (k < 4 * h)%nat -> spectrum use_rfft (4 * h) F k = F k.
Proof.
  intros Hh HF Hk. unfold spectrum. destruct use_rfft; [|reflexivity]. destruct (k <=? 4 * h / 2)%nat eqn:E; [reflexivity|].
  apply Nat.leb_gt in E. apply HF. lia.
Qed.
Lemma taps_offset h d : (0 < h)%nat -> (- Z.of_nat (2 * h) < d < Z.of_nat (2 * h))%Z -> 2 * taps (4 * h) (imod (4 * h) d) = ram_lak d.
Proof.
  intros Hh Hd. unfold ram_lak. destruct (Z.eqb_spec d 0) as [->|N]; [rewrite imod_0; cbn; lra|].
  assert (Q : forall a, (0 < a < 2 * h)%nat -> 2 * taps (4 * h) a = if Nat.odd a then - 2 / (PI * INR a) ^ 2 else 0).
  { intros a Ha. rewrite taps_eq by lia. destruct (Nat.eqb_spec a 0); [lia|]. destruct (Nat.odd a); [|ring]. rewrite Nat.min_l by lia. field. split; [apply not_0_INR; lia|apply PI_neq0]. }
  assert (Ev : forall a, (0 < a)%nat -> Z.odd (Z.of_nat a) = Nat.odd a).
  { intros a _. destruct (Nat.Even_or_Odd a) as [[m ->]|[m ->]].
    - rewrite Nat.odd_mul. rewrite Nat2Z.inj_mul, Z.odd_mul. reflexivity.
    - rewrite Nat2Z.inj_add, Nat2Z.inj_mul, Z.odd_add, Z.odd_mul, Nat.odd_add, Nat.odd_mul. reflexivity. }
  destruct (Z_lt_dec 0 d) as [L|L].
  - replace d with (Z.of_nat (Z.to_nat d)) by lia. rewrite imod_small by lia. rewrite Q by lia. rewrite Ev by lia. now rewrite <- INR_IZR_INZ.
  - replace d with (- Z.of_nat (Z.to_nat (- d)))%Z by lia. rewrite imod_neg_small by lia. rewrite taps_even by lia. rewrite Q by lia.
    rewrite Z.odd_opp, Ev by lia. rewrite opp_IZR, <- INR_IZR_INZ. destruct (Nat.odd _); [|reflexivity]. replace ((PI * - INR (Z.to_nat (- d))) ^ 2) with ((PI * INR (Z.to_nat (- d))) ^ 2) by ring. reflexivity.
Qed.
Theorem C208_ram_lak use_rfft n_angles n x : (0 < n_angles)%nat ->
  exists y, filter_fbp Ramp PadConstant use_rfft n_angles n x = inr y /\
  forall i, (i < n)%nat -> y i = PI / (2 * INR n_angles) * rsum n (fun j => x j * ram_lak (Z.of_nat i - Z.of_nat j)).
Proof.
  intros Ha. destruct (fbp_kernel Ramp use_rfft n_angles n x) as (y & E & H). exists y. split; [exact E|]. intros i Hi. rewrite (H i Hi), <- rsum_scal.
  apply rsum_ext. intros j Hj. set (d := (Z.of_nat i - Z.of_nat j)%Z). assert (A0 : 0 < INR n_angles) by now apply lt_0_INR.
  destruct (padded_size n) as (h & Hh & EP & _). pose proof (C59_large_enough n) as [_ L]. rewrite EP in L.
  rewrite <- (taps_offset h d) by (unfold d; lia). unfold kernel, scaled. rewrite EP.
  rewrite (rsum_ext (4 * h) _ (fun k => PI / (2 * INR n_angles) * (fst (RtoC 2 *c dft (4 * h) (fun i => RtoC (taps (4 * h) i)) k) * fst (w (4 * h) (d * Z.of_nat k))))).
  - rewrite rsum_scal. destruct (fst_idft (4 * h) (fun k => fst (RtoC 2 *c dft (4 * h) (fun i => RtoC (taps (4 * h) i)) k)) d) as [F|F]; [|lia].
    rewrite (idft_ext (4 * h) _ (fun k => RtoC 2 *c dft (4 * h) (fun i => RtoC (taps (4 * h) i)) k)) in F.
    + rewrite idft_scal, idft_dft in F by (apply imod_lt; lia).
      replace (fst (RtoC 2 *c RtoC (taps (4 * h) (imod (4 * h) d)))) with (2 * taps (4 * h) (imod (4 * h) d)) in F by (unfold Cmul, RtoC; cbn [fst snd]; ring).
      set (S := rsum (4 * h) (fun i0 => fst (RtoC 2 *c dft (4 * h) (fun i1 => RtoC (taps (4 * h) i1)) i0) * fst (w (4 * h) (d * Z.of_nat i0)))) in *.
      transitivity (PI / (2 * INR n_angles) * (x j * (/ INR (4 * h) * S))); [ring|]. rewrite <- F. ring.
    + intros k Hk. rewrite <- ramp_dft by lia. reflexivity.
  - intros k Hk. rewrite spectrum_even; [|lia| |exact Hk].
    + rewrite <- ramp_dft by lia. unfold fourier_filter. cbn [window fst RtoC]. field. lra.
    + intros q Hq. unfold fourier_filter. cbn [window]. now rewrite ramp_even by exact Hq.
Qed.
(** Every filter commutes with reversing the line (up to the padding mode, which here is zero padding). *)
Lemma cos_w P d k : fst (w P (- d * k)) = fst (w P (d * k)).
Proof. rewrite Z.mul_opp_l, w_neg. reflexivity. Qed.
Theorem C208_mirror name use_rfft n_angles n x :
  exists y y', filter_fbp name PadConstant use_rfft n_angles n x = inr y /\
    filter_fbp name PadConstant use_rfft n_angles n (fun j => x (n - 1 - j)%nat) = inr y' /\ forall i, (i < n)%nat -> y' i = y (n - 1 - i)%nat.
Proof.
  destruct (fbp_kernel name use_rfft n_angles n x) as (y & E & H). destruct (fbp_kernel name use_rfft n_angles n (fun j => x (n - 1 - j)%nat)) as (y' & E' & H').
  exists y, y'. split; [exact E|]. split; [exact E'|]. intros i Hi. rewrite (H' i Hi), (H (n - 1 - i)%nat) by lia.
  rewrite rsum_rev. apply rsum_ext. intros j Hj. cbv beta. replace (n - 1 - (n - 1 - j))%nat with j by lia. f_equal.
  unfold kernel. f_equal. apply rsum_ext. intros k _. f_equal.
  replace (Z.of_nat i - Z.of_nat (n - 1 - j))%Z with (- (Z.of_nat (n - 1 - i) - Z.of_nat j))%Z by lia. apply cos_w.
Qed.
(** The filters are positive operators bounded by pi / (2 number of angles): the filtered line never anti-correlates with the line, and the
    inner product is at most that fraction of the energy.  The ramp and Hamming filters lose nothing: the lower bound is a positive fraction. *)
Lemma quadratic n P (E : vec) x : rsum n (fun i => x i * rsum n (fun j => x j * (/ INR P * rsum P (fun k => E k * fst (w P ((Z.of_nat i - Z.of_nat j) * Z.of_nat k)))))) =
  / INR P * rsum P (fun k => E k * cabs2 (csum n (fun i => RtoC (x i) *c w P (Z.of_nat i * Z.of_nat k)))).
Proof.
  assert (K : forall k, cabs2 (csum n (fun i => RtoC (x i) *c w P (Z.of_nat i * Z.of_nat k))) = rsum n (fun i => rsum n (fun j => x i * x j * fst (w P ((Z.of_nat i - Z.of_nat j) * Z.of_nat k))))).
  { intros k. set (X := csum n (fun i => RtoC (x i) *c w P (Z.of_nat i * Z.of_nat k))).
    assert (H : RtoC (cabs2 X) = csum n (fun i => csum n (fun j => RtoC (x i * x j) *c w P ((Z.of_nat i - Z.of_nat j) * Z.of_nat k)))).
    { rewrite <- cabs2_conj. unfold X. rewrite csum_conj. rewrite <- csum_scal_r. apply csum_ext. intros i _. rewrite <- csum_scal. apply csum_ext. intros j _.
      rewrite conj_mul, <- w_neg. replace ((Z.of_nat i - Z.of_nat j) * Z.of_nat k)%Z with (Z.of_nat i * Z.of_nat k + - (Z.of_nat j * Z.of_nat k))%Z by ring. rewrite w_add. cr. }
    apply (f_equal fst) in H. cbn [fst RtoC] in H. rewrite H. unfold csum. cbn [fst]. apply rsum_ext. intros i _. apply rsum_ext. intros j _. unfold Cmul, RtoC. cbn [fst snd]. ring. }
  rewrite (rsum_ext P _ (fun k => rsum n (fun i => rsum n (fun j => E k * (x i * x j * fst (w P ((Z.of_nat i - Z.of_nat j) * Z.of_nat k))))))).
  - rewrite rsum_swap, <- rsum_scal. apply rsum_ext. intros i _. rewrite rsum_swap, <- !rsum_scal. apply rsum_ext. intros j _. rewrite <- !rsum_scal. apply rsum_ext. intros k _. ring.
  - intros k _. rewrite K, <- rsum_scal. apply rsum_ext. intros i _. now rewrite <- rsum_scal.
Qed.
Lemma energy n P x : (0 < P)%nat -> (n <= P)%nat -> / INR P * rsum P (fun k => 1 * cabs2 (csum n (fun i => RtoC (x i) *c w P (Z.of_nat i * Z.of_nat k)))) = rsum n (fun i => x i ^ 2).
Proof.
  intros HP Hn. rewrite <- (quadratic n P (fun _ => 1) x). apply rsum_ext. intros i Hi. assert (P0 : INR P <> 0) by (apply not_0_INR; lia).
  rewrite (rsum_single n _ i Hi).
  - replace ((Z.of_nat i - Z.of_nat i))%Z with 0%Z by lia. rewrite (rsum_ext P _ (fun _ => 1)) by (intros k _; rewrite Z.mul_0_l, w_0; cbn; ring). rewrite rsum_const. field. exact P0.
  - intros j Hj N. pose proof (w_orth P (Z.of_nat i - Z.of_nat j) HP) as O.
    assert (M : ((Z.of_nat i - Z.of_nat j) mod Z.of_nat P <> 0)%Z) by (intros Z0; apply N; symmetry; now apply (mod_sub_0 P); try lia).
    apply (f_equal fst) in O. unfold csum in O. cbn [fst] in O.
    rewrite (rsum_ext P _ (fun k => fst (w P (Z.of_nat k * (Z.of_nat i - Z.of_nat j))))) by (intros k _; rewrite Rmult_1_l; do 2 f_equal; ring). rewrite O.
    destruct (Z.eqb_spec ((Z.of_nat i - Z.of_nat j) mod Z.of_nat P) 0); [contradiction|]. cbn. ring.
Qed.
Lemma spectrum_range use_rfft P F lo hi k : (forall q, (q < P)%nat -> lo <= F q <= hi) -> (k < P)%nat -> lo <= spectrum use_rfft P F k <= hi.
Proof. intros H Hk. unfold spectrum. destruct use_rfft; [|now apply H]. destruct (Nat.leb_spec k (P / 2)); apply H; [exact Hk|]. pose proof (Nat.div_le_upper_bound P 2 P). lia. Qed.
Lemma between n use_rfft F lo hi x : (forall q, (q < get_padding_size n)%nat -> lo <= F q <= hi) ->
  lo * rsum n (fun i => x i ^ 2) <= rsum n (fun i => x i * rsum n (fun j => x j * kernel use_rfft (get_padding_size n) F (Z.of_nat i - Z.of_nat j))) <= hi * rsum n (fun i => x i ^ 2).
Proof.
  intros HF. pose proof (C59_large_enough n) as [L1 L2]. set (P := get_padding_size n) in *. unfold kernel. rewrite quadratic.
  rewrite <- (energy n P x) by lia. assert (IP : 0 < / INR P) by (apply Rinv_0_lt_compat, lt_0_INR; lia).
  set (X := fun k => cabs2 (csum n (fun i => RtoC (x i) *c w P (Z.of_nat i * Z.of_nat k)))). change (fun k => 1 * cabs2 _) with (fun k => 1 * X k).
  change (fun k => spectrum use_rfft P F k * cabs2 _) with (fun k => spectrum use_rfft P F k * X k).
  assert (S : lo * rsum P (fun k => 1 * X k) <= rsum P (fun k => spectrum use_rfft P F k * X k) <= hi * rsum P (fun k => 1 * X k)).
  { rewrite <- !rsum_scal. split; apply rsum_le; intros k Hk; pose proof (spectrum_range use_rfft P F lo hi k HF Hk); pose proof (cabs2_nonneg (csum n (fun i => RtoC (x i) *c w P (Z.of_nat i * Z.of_nat k)))); fold (X k) in *; nra. }
  split; nra.
Qed.
Theorem C208_positive name use_rfft n_angles n x : (0 < n_angles)%nat ->
  exists y, filter_fbp name PadConstant use_rfft n_angles n x = inr y /\
  0 <= rsum n (fun i => x i * y i) <= PI / (2 * INR n_angles) * rsum n (fun i => x i ^ 2).
Proof.
  intros Ha. destruct (fbp_kernel name use_rfft n_angles n x) as (y & E & H). exists y. split; [exact E|]. assert (A0 : 0 < INR n_angles) by now apply lt_0_INR.
  set (c := PI / (2 * INR n_angles)). assert (C0 : 0 < c) by (apply Rdiv_lt_0_compat; [apply PI_RGT_0|lra]).
  rewrite (rsum_ext n _ (fun i => x i * rsum n (fun j => x j * kernel use_rfft (get_padding_size n) (scaled name n_angles n) (Z.of_nat i - Z.of_nat j)))) by (intros i Hi; now rewrite (H i Hi)).
  destruct (between n use_rfft (scaled name n_angles n) 0 c x) as [B1 B2].
  - intros q Hq. destruct (C208_response name n q Hq) as [R1 R2]. unfold scaled.
    replace (fourier_filter name (get_padding_size n) q * PI / (2 * INR n_angles)) with (fourier_filter name (get_padding_size n) q * c) by (unfold c; field; lra). split; nra.
  - split; lra.
Qed.
Theorem C208_injective name n : name = Ramp \/ name = Hamming -> exists e, 0 < e /\ forall use_rfft n_angles x, (0 < n_angles)%nat ->
  exists y, filter_fbp name PadConstant use_rfft n_angles n x = inr y /\ e / INR n_angles * rsum n (fun i => x i ^ 2) <= rsum n (fun i => x i * y i).
Proof.
  intros Hn. pose proof (C59_large_enough n) as [L1 _]. destruct (padded_size n) as (h & Hh & EP & q & Eq).
  destruct (rmin_attained (get_padding_size n) (ramp (get_padding_size n)) ltac:(lia)) as (k0 & Hk0 & M).
  set (e0 := rmin (get_padding_size n) (ramp (get_padding_size n))) in *. assert (E0 : 0 < e0) by (rewrite M, EP, Eq; apply ramp_bounds).
  pose proof PI_RGT_0 as Hpi. exists (8 / 100 * e0 * PI / 2). split; [nra|]. intros use_rfft n_angles x Ha. assert (A0 : 0 < INR n_angles) by now apply lt_0_INR.
  destruct (fbp_kernel name use_rfft n_angles n x) as (y & E & H). exists y. split; [exact E|].
  set (c := PI / (2 * INR n_angles)). assert (C0 : 0 < c) by (apply Rdiv_lt_0_compat; [apply PI_RGT_0|lra]).
  rewrite (rsum_ext n (fun i => x i * y i) (fun i => x i * rsum n (fun j => x j * kernel use_rfft (get_padding_size n) (scaled name n_angles n) (Z.of_nat i - Z.of_nat j)))) by (intros i Hi; now rewrite (H i Hi)).
  destruct (between n use_rfft (scaled name n_angles n) (8 / 100 * e0 * c) c x) as [B1 _].
  - intros p Hp. destruct (C208_response name n p Hp) as [R1 R2]. unfold scaled.
    replace (fourier_filter name (get_padding_size n) p * PI / (2 * INR n_angles)) with (fourier_filter name (get_padding_size n) p * c) by (unfold c; field; lra).
    assert (Mp : e0 <= ramp (get_padding_size n) p) by (apply rmin_le; exact Hp).
    assert (W : 8 / 100 <= window name (get_padding_size n) p).
    { destruct Hn as [-> | ->]; cbn [window]; [lra|]. unfold fftshift.
      pose proof (COS_bound (2 * PI * INR (imod (get_padding_size n) (Z.of_nat p - Z.of_nat (get_padding_size n / 2))) / INR (get_padding_size n - 1))). lra. }
    assert (X : 8 / 100 * e0 <= fourier_filter name (get_padding_size n) p) by (unfold fourier_filter; nra).
    split; [|nra]. apply Rmult_le_compat_r; [lra|exact X].
  - replace (8 / 100 * e0 * PI / 2 / INR n_angles) with (8 / 100 * e0 * c) by (unfold c; field; lra). exact B1.
Qed.

(** ** Examples *)
(** a line of three pixels with one bright pixel in the middle, four angles: the side lobes of the ramp are -2 / pi^2 of pi / 8 *)
Example C208_example use_rfft : exists y, filter_fbp Ramp PadConstant use_rfft 4 3 (fun j => if Nat.eqb j 1 then 1 else 0) = inr y /\
  y 1%nat = PI / 16 /\ y 0%nat = - / (4 * PI) /\ y 2%nat = - / (4 * PI).
Proof.
  destruct (C208_ram_lak use_rfft 4 3 (fun j => if Nat.eqb j 1 then 1 else 0) ltac:(lia)) as (y & E & H). exists y. split; [exact E|].
  pose proof PI_neq0. rewrite (H 0%nat), (H 1%nat), (H 2%nat) by lia. cbn [rsum Nat.eqb].
  replace (INR 4) with 4 by (rewrite INR_IZR_INZ; reflexivity).
  change (ram_lak (Z.of_nat 0 - Z.of_nat 1)) with (- 2 / (PI * -1) ^ 2). change (ram_lak (Z.of_nat 2 - Z.of_nat 1)) with (- 2 / (PI * 1) ^ 2).
  change (ram_lak (Z.of_nat 1 - Z.of_nat 1)) with (1 / 2). repeat split; field; assumption.
Qed.
Example C208_name_example : fbp_init "Shepp-LOGAN" = inr SheppLogan /\ fbp_init "shepp logan" = inl ValueError.
Proof. split; reflexivity. Qed.
