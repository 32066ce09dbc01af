(** Floor, ceiling, Python's // and % on reals, base-10 logarithm and power. *)
From Coq Require Export Reals Lra Lia ZArith List.
From Verif Require Export Sums.
Open Scope R_scope.

Definition rfloor (x : R) : Z := Int_part x.
Definition rceil (x : R) : Z := (- Int_part (- x))%Z.
(** Python's floor division and modulo for a positive divisor *)
Definition rfloordiv (x y : R) : Z := rfloor (x / y).
Definition rmod (x y : R) : R := x - y * IZR (rfloordiv x y).

Lemma rfloor_spec x : IZR (rfloor x) <= x < IZR (rfloor x) + 1.
Proof. unfold rfloor. destruct (base_Int_part x). lra. Qed.
Lemma rceil_spec x : IZR (rceil x) - 1 < x <= IZR (rceil x).
Proof. unfold rceil. rewrite opp_IZR. pose proof (rfloor_spec (- x)) as H. unfold rfloor in H. lra. Qed.
Lemma IZR_lt_succ_inv a b : IZR a < IZR b + 1 -> (a <= b)%Z.
Proof. intros H. rewrite <- plus_IZR in H. apply lt_IZR in H. lia. Qed.
Lemma rfloor_unique x z : IZR z <= x < IZR z + 1 -> rfloor x = z.
Proof. intros H. pose proof (rfloor_spec x). apply Z.le_antisymm; apply IZR_lt_succ_inv; lra. Qed.
Lemma rceil_unique x z : IZR z - 1 < x <= IZR z -> rceil x = z.
Proof. intros H. pose proof (rceil_spec x). apply Z.le_antisymm; apply IZR_lt_succ_inv; lra. Qed.
Lemma rfloor_le x z : IZR z <= x -> (z <= rfloor x)%Z.
Proof. intros H. apply IZR_lt_succ_inv. pose proof (rfloor_spec x). lra. Qed.
Lemma rfloor_nonneg x : 0 <= x -> (0 <= rfloor x)%Z.
Proof. intros H. apply rfloor_le. exact H. Qed.
Lemma rceil_le x z : x <= IZR z -> (rceil x <= z)%Z.
Proof. intros H. apply IZR_lt_succ_inv. pose proof (rceil_spec x). lra. Qed.
Lemma rfloor_IZR z : rfloor (IZR z) = z.
Proof. apply rfloor_unique. lra. Qed.
Lemma rceil_IZR z : rceil (IZR z) = z.
Proof. apply rceil_unique. lra. Qed.
Lemma rfloor_add_Z x z : rfloor (x + IZR z) = (rfloor x + z)%Z.
Proof. apply rfloor_unique. rewrite plus_IZR. pose proof (rfloor_spec x). lra. Qed.
Lemma rmod_bounds x y : 0 < y -> 0 <= rmod x y < y.
Proof.
  intros Hy. unfold rmod, rfloordiv. pose proof (rfloor_spec (x / y)) as [H1 H2].
  apply Rmult_le_compat_l with (r := y) in H1; [|lra]. apply Rmult_lt_compat_l with (r := y) in H2; [|lra].
  replace (y * (x / y)) with x in H1, H2 by (field; lra). lra.
Qed.
Lemma rmod_eq x y : x = y * IZR (rfloordiv x y) + rmod x y.
Proof. unfold rmod. ring. Qed.
Lemma rmod_unique x y z r : 0 < y -> x = y * IZR z + r -> 0 <= r < y -> rfloordiv x y = z /\ rmod x y = r.
Proof.
  intros Hy E Hr. assert (H : rfloordiv x y = z).
  { apply rfloor_unique. subst x. replace ((y * IZR z + r) / y) with (IZR z + r / y) by (field; lra).
    assert (0 <= r / y) by (apply Rdiv_le_0_compat; lra).
    assert (r / y < 1) by (apply Rmult_lt_reg_r with y; [lra|]; replace (r / y * y) with r by (field; lra); lra). lra. }
  split; [exact H|]. unfold rmod. rewrite H. lra.
Qed.

Definition log10 (x : R) : R := ln x / ln 10.
Definition pow10 (y : R) : R := Rpower 10 y.
Lemma ln10_pos : 0 < ln 10.
Proof. rewrite <- ln_1. apply ln_increasing; lra. Qed.
Lemma pow10_pos y : 0 < pow10 y. Proof. apply exp_pos. Qed.
Lemma pow10_log10 x : 0 < x -> pow10 (log10 x) = x.
Proof. intros H. unfold pow10, log10, Rpower. pose proof ln10_pos. replace (ln x / ln 10 * ln 10) with (ln x) by (field; lra). apply exp_ln, H. Qed.
Lemma log10_pow10 y : log10 (pow10 y) = y.
Proof. unfold pow10, log10, Rpower. rewrite ln_exp. pose proof ln10_pos. field. lra. Qed.
Lemma pow10_lt a b : a < b -> pow10 a < pow10 b.
Proof. intros H. apply Rpower_lt; lra. Qed.
Lemma pow10_le a b : a <= b -> pow10 a <= pow10 b.
Proof. intros [H| ->]; [left; apply pow10_lt, H|lra]. Qed.
Lemma pow10_le_inv a b : pow10 a <= pow10 b -> a <= b.
Proof. intros H. destruct (Rle_dec a b) as [|n]; [assumption|]. apply Rnot_le_lt, pow10_lt in n. lra. Qed.
Lemma pow10_plus a b : pow10 (a + b) = pow10 a * pow10 b.
Proof. apply Rpower_plus. Qed.
Lemma pow10_minus a b : pow10 (a - b) = pow10 a / pow10 b.
Proof. unfold Rminus. rewrite pow10_plus. unfold pow10 at 2. rewrite Rpower_Ropp. reflexivity. Qed.
Lemma log10_le a b : 0 < a -> a <= b -> log10 a <= log10 b.
Proof. intros Ha H. apply pow10_le_inv. rewrite !pow10_log10; lra. Qed.
Lemma log10_lt a b : 0 < a -> a < b -> log10 a < log10 b.
Proof.
  intros Ha H. destruct (Rlt_dec (log10 a) (log10 b)) as [|n]; [assumption|]. apply Rnot_lt_le, pow10_le in n.
  rewrite !pow10_log10 in n; lra.
Qed.
Lemma log10_div a b : 0 < a -> 0 < b -> log10 (a / b) = log10 a - log10 b.
Proof.
  intros Ha Hb. rewrite <- (log10_pow10 (log10 a - log10 b)), pow10_minus, !pow10_log10 by assumption. reflexivity.
Qed.
Lemma pow10_pow y k : pow10 y ^ k = pow10 (INR k * y).
Proof.
  induction k as [|k IH].
  - simpl. rewrite Rmult_0_l. unfold pow10. rewrite Rpower_O; lra.
  - rewrite S_INR. cbn [pow]. rewrite IH, <- pow10_plus. f_equal. ring.
Qed.
