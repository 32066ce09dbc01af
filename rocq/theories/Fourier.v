(** Complex numbers as pairs of reals and the discrete Fourier transform: a small library with no model content. *)
From Verif Require Import Sums Arrays.
From Coq Require Import Reals Lra Lia List ZArith FunctionalExtensionality Ring.
Import ListNotations.
Open Scope R_scope.

(** * Complex numbers *)
Definition C := (R * R)%type.
Definition C0 : C := (0, 0).
Definition C1 : C := (1, 0).
Definition Cadd (a b : C) : C := (fst a + fst b, snd a + snd b).
Definition Cmul (a b : C) : C := (fst a * fst b - snd a * snd b, fst a * snd b + snd a * fst b).
Definition Copp (a : C) : C := (- fst a, - snd a).
Definition Csub (a b : C) : C := Cadd a (Copp b).
Definition RtoC (r : R) : C := (r, 0).
Definition conj (a : C) : C := (fst a, - snd a).
Definition cabs2 (a : C) : R := fst a ^ 2 + snd a ^ 2.
Lemma C_eq (a b : C) : fst a = fst b -> snd a = snd b -> a = b.
Proof. destruct a, b; simpl; intros -> ->; reflexivity. Qed.
Ltac cr := apply C_eq; unfold Csub, Cadd, Cmul, Copp, RtoC, conj, C0, C1; simpl; ring.
Lemma C_ring : ring_theory C0 C1 Cadd Cmul Csub Copp eq.
Proof. constructor; intros; cr. Qed.
Add Ring C_Ring : C_ring.
Infix "+c" := Cadd (at level 50, left associativity).
Infix "*c" := Cmul (at level 40, left associativity).
Lemma Cmul_integral a b : a *c b = C0 -> a = C0 \/ b = C0.
Proof.
  destruct a as [a1 a2], b as [b1 b2]. unfold Cmul, C0; simpl. intros H. injection H as H1 H2.
  assert (K : (a1 * a1 + a2 * a2) * (b1 * b1 + b2 * b2) = 0).
  { replace ((a1 * a1 + a2 * a2) * (b1 * b1 + b2 * b2)) with ((a1 * b1 - a2 * b2) ^ 2 + (a1 * b2 + a2 * b1) ^ 2) by ring. rewrite H1, H2. ring. }
  apply Rmult_integral in K. destruct K as [K|K]; [left|right]; f_equal; nra.
Qed.
Lemma conj_mul a b : conj (a *c b) = conj a *c conj b. Proof. cr. Qed.
Lemma conj_add a b : conj (a +c b) = conj a +c conj b. Proof. cr. Qed.
Lemma conj_conj a : conj (conj a) = a. Proof. apply C_eq; simpl; [reflexivity|ring]. Qed.
Lemma cabs2_mul a b : cabs2 (a *c b) = cabs2 a * cabs2 b.
Proof. unfold cabs2, Cmul; simpl. ring. Qed.
Lemma cabs2_conj a : a *c conj a = RtoC (cabs2 a). Proof. unfold cabs2. cr. Qed.
Lemma cabs2_nonneg a : 0 <= cabs2 a. Proof. unfold cabs2. nra. Qed.

(** * Sums *)
Definition csum (n : nat) (f : nat -> C) : C := (rsum n (fun i => fst (f i)), rsum n (fun i => snd (f i))).
Lemma csum_S n f : csum (S n) f = csum n f +c f n. Proof. reflexivity. Qed.
Lemma csum_ext n f g : (forall i, (i < n)%nat -> f i = g i) -> csum n f = csum n g.
Proof. intros H. unfold csum. f_equal; apply rsum_ext; intros i Hi; rewrite H by exact Hi; reflexivity. Qed.
Lemma csum_plus n f g : csum n (fun i => f i +c g i) = csum n f +c csum n g.
Proof. unfold csum, Cadd; simpl. f_equal; apply rsum_plus. Qed.
Lemma csum_scal n c f : csum n (fun i => c *c f i) = c *c csum n f.
Proof.
  unfold csum, Cmul; simpl. f_equal; rewrite ?rsum_minus, ?rsum_plus, !rsum_scal; reflexivity.
Qed.
Lemma csum_scal_r n c f : csum n (fun i => f i *c c) = csum n f *c c.
Proof. rewrite (csum_ext n _ (fun i => c *c f i)) by (intros; ring). rewrite csum_scal. ring. Qed.
Lemma csum_0 n : csum n (fun _ => C0) = C0.
Proof. unfold csum, C0; simpl. f_equal; apply rsum_0. Qed.
Lemma csum_swap n m (f : nat -> nat -> C) : csum n (fun i => csum m (f i)) = csum m (fun j => csum n (fun i => f i j)).
Proof. unfold csum; simpl. f_equal; apply rsum_swap. Qed.
Lemma csum_single n f k : (k < n)%nat -> (forall i, (i < n)%nat -> i <> k -> f i = C0) -> csum n f = f k.
Proof.
  intros Hk H. apply C_eq; unfold csum; simpl.
  - apply (rsum_single n (fun i => fst (f i)) k Hk). intros i Hi Hne. rewrite H by assumption. reflexivity.
  - apply (rsum_single n (fun i => snd (f i)) k Hk). intros i Hi Hne. rewrite H by assumption. reflexivity.
Qed.
Lemma csum_const n c : csum n (fun _ => c) = RtoC (INR n) *c c.
Proof. unfold csum. rewrite !rsum_const. cr. Qed.
Lemma csum_conj n f : conj (csum n f) = csum n (fun i => conj (f i)).
Proof. unfold conj, csum; simpl. f_equal. symmetry. apply rsum_opp. Qed.
Lemma csum_RtoC n f : csum n (fun i => RtoC (f i)) = RtoC (rsum n f).
Proof. unfold csum, RtoC; simpl. f_equal. apply rsum_0. Qed.
Lemma csum_rev n f : csum n f = csum n (fun i => f (n - 1 - i)%nat).
Proof. unfold csum. f_equal; [apply (rsum_rev n (fun i => fst (f i)))|apply (rsum_rev n (fun i => snd (f i)))]. Qed.
Lemma csum_S_l n f : csum (S n) f = f 0%nat +c csum n (fun i => f (S i)).
Proof. unfold csum. rewrite !rsum_S_l. reflexivity. Qed.

(** * Roots of unity *)
Definition cis (t : R) : C := (cos t, sin t).
Lemma cis_add a b : cis (a + b) = cis a *c cis b.
Proof. apply C_eq; unfold cis, Cmul; simpl; [apply cos_plus|rewrite sin_plus; ring]. Qed.
Lemma cis_neg a : cis (- a) = conj (cis a).
Proof. apply C_eq; unfold cis, conj; simpl; [apply cos_neg|apply sin_neg]. Qed.
Lemma cis_0 : cis 0 = C1.
Proof. unfold cis, C1. rewrite cos_0, sin_0. reflexivity. Qed.
Lemma cis_2PI_nat (m : nat) : cis (2 * PI * INR m) = C1.
Proof.
  apply C_eq; unfold cis, C1; simpl.
  - replace (2 * PI * INR m) with (0 + 2 * INR m * PI) by ring. rewrite cos_period. apply cos_0.
  - replace (2 * PI * INR m) with (0 + 2 * INR m * PI) by ring. rewrite sin_period. apply sin_0.
Qed.
Lemma cis_2PI (k : Z) : cis (2 * PI * IZR k) = C1.
Proof.
  destruct (Z_le_gt_dec 0 k) as [H|H].
  - rewrite <- (Z2Nat.id k) by exact H. rewrite <- INR_IZR_INZ. apply cis_2PI_nat.
  - replace (2 * PI * IZR k) with (- (2 * PI * IZR (- k))) by (rewrite opp_IZR; ring). rewrite cis_neg.
    rewrite <- (Z2Nat.id (- k)) by lia. rewrite <- INR_IZR_INZ, cis_2PI_nat. apply C_eq; simpl; ring.
Qed.
(** e^{2 pi i k / n} *)
Definition w (n : nat) (k : Z) : C := cis (2 * PI * (IZR k / INR n)).
Lemma w_add n a b : w n (a + b) = w n a *c w n b.
Proof. unfold w. rewrite <- cis_add. f_equal. rewrite plus_IZR. unfold Rdiv. ring. Qed.
Lemma w_0 n : w n 0 = C1.
Proof. unfold w. replace (2 * PI * (0 / INR n)) with 0 by (unfold Rdiv; ring). apply cis_0. Qed.
Lemma w_neg n k : w n (- k) = conj (w n k).
Proof. unfold w. rewrite <- cis_neg. f_equal. rewrite opp_IZR. unfold Rdiv. ring. Qed.
Lemma w_period n k : (0 < n)%nat -> w n (k * Z.of_nat n) = C1.
Proof.
  intros Hn. unfold w. replace (2 * PI * (IZR (k * Z.of_nat n) / INR n)) with (2 * PI * IZR k); [apply cis_2PI|].
  rewrite mult_IZR, <- INR_IZR_INZ. field. apply not_0_INR. lia.
Qed.
Lemma w_mod n k : (0 < n)%nat -> w n k = w n (k mod Z.of_nat n).
Proof.
  intros Hn. rewrite (Z.div_mod k (Z.of_nat n)) at 1 by lia. rewrite w_add. rewrite Z.mul_comm, w_period by exact Hn. ring.
Qed.
Lemma w_congr n a b : (0 < n)%nat -> (a mod Z.of_nat n = b mod Z.of_nat n)%Z -> w n a = w n b.
Proof. intros Hn H. rewrite (w_mod n a), (w_mod n b), H by exact Hn. reflexivity. Qed.
Lemma w_inv n k : w n k *c w n (- k) = C1.
Proof. rewrite <- w_add, Z.add_opp_diag_r. apply w_0. Qed.
Lemma w_eq1 n k : (0 < n)%nat -> w n k = C1 -> (k mod Z.of_nat n = 0)%Z.
Proof.
  intros Hn H. unfold w, cis, C1 in H. injection H as Hc Hs.
  apply sin_eq_0_0 in Hs as [m Hm].
  assert (Hn0 : INR n <> 0) by (apply not_0_INR; lia). pose proof PI_RGT_0 as Hpi.
  assert (E : (2 * k = m * Z.of_nat n)%Z).
  { apply eq_IZR. rewrite !mult_IZR, <- INR_IZR_INZ.
    assert (IZR 2 * (IZR k / INR n) = IZR m) by (apply (Rmult_eq_reg_r PI); lra).
    rewrite <- H. field. exact Hn0. }
  destruct (Z.Even_or_Odd m) as [[q Hq]|[q Hq]].
  - apply Z.mod_divide; [lia|]. exists q. lia.
  - exfalso. rewrite Hm, Hq in Hc. rewrite plus_IZR, mult_IZR in Hc.
    replace ((IZR 2 * IZR q + 1) * PI) with (2 * PI * IZR q + PI) in Hc by ring.
    rewrite neg_cos in Hc. assert (C : cis (2 * PI * IZR q) = C1) by apply cis_2PI. injection C as C _. lra.
Qed.
(** geometric sums *)
Lemma w_mul_S n (j : nat) k : w n (Z.of_nat (S j) * k) = w n (Z.of_nat j * k) *c w n k.
Proof. rewrite <- w_add. f_equal. lia. Qed.
Lemma w_geom n m k : (Csub C1 (w n k)) *c csum m (fun j => w n (Z.of_nat j * k)) = Csub C1 (w n (Z.of_nat m * k)).
Proof.
  induction m as [|m IH].
  - unfold csum; simpl. rewrite w_0. unfold Csub. apply C_eq; simpl; ring.
  - rewrite csum_S, w_mul_S. transitivity ((Csub C1 (w n k)) *c csum m (fun j => w n (Z.of_nat j * k)) +c (Csub C1 (w n k)) *c w n (Z.of_nat m * k)); [ring|].
    rewrite IH. unfold Csub. ring.
Qed.
Theorem w_orth n k : (0 < n)%nat ->
  csum n (fun j => w n (Z.of_nat j * k)) = if Z.eqb (k mod Z.of_nat n) 0 then RtoC (INR n) else C0.
Proof.
  intros Hn. destruct (Z.eqb_spec (k mod Z.of_nat n) 0) as [E|E].
  - rewrite (csum_ext n _ (fun _ => C1)). { rewrite csum_const. cr. }
    intros i Hi. rewrite (w_congr n _ 0) by (try assumption; rewrite Z.mul_mod, E by lia; rewrite Z.mul_0_r; reflexivity). apply w_0.
  - pose proof (w_geom n n k) as G. rewrite (Z.mul_comm (Z.of_nat n)), w_period in G by exact Hn.
    assert (Z0 : Csub C1 C1 = C0) by cr. rewrite Z0 in G. apply Cmul_integral in G as [G|G]; [|exact G].
    exfalso. apply E. apply w_eq1; [exact Hn|]. apply C_eq; unfold Csub, Cadd, Copp, C0, C1 in *; simpl in *; injection G as G1 G2; lra.
Qed.

(** * One-dimensional transform *)
Definition cvec := nat -> C.
Definition dft (n : nat) (x : cvec) : cvec := fun k => csum n (fun j => x j *c w n (- (Z.of_nat j * Z.of_nat k))).
Definition idft (n : nat) (X : cvec) : cvec := fun j => RtoC (/ INR n) *c csum n (fun k => X k *c w n (Z.of_nat j * Z.of_nat k)).
Lemma mod_sub_0 n i j : (i < n)%nat -> (j < n)%nat -> ((Z.of_nat i - Z.of_nat j) mod Z.of_nat n = 0)%Z -> i = j.
Proof.
  intros Hi Hj H. apply Z.mod_divide in H; [|lia]. destruct H as [q Hq]. assert (q = 0)%Z by nia. subst. lia.
Qed.
Lemma idft_dft n x j : (j < n)%nat -> idft n (dft n x) j = x j.
Proof.
  intros Hj. unfold idft, dft.
  rewrite (csum_ext n _ (fun k => csum n (fun i => x i *c w n (Z.of_nat k * (Z.of_nat j - Z.of_nat i))))).
  2:{ intros k Hk. rewrite <- csum_scal_r. apply csum_ext. intros i Hi.
      replace (Z.of_nat k * (Z.of_nat j - Z.of_nat i))%Z with (- (Z.of_nat i * Z.of_nat k) + Z.of_nat j * Z.of_nat k)%Z by lia. rewrite w_add. ring. }
  rewrite csum_swap. rewrite (csum_ext n _ (fun i => x i *c (if Z.eqb ((Z.of_nat j - Z.of_nat i) mod Z.of_nat n) 0 then RtoC (INR n) else C0))).
  2:{ intros i Hi. rewrite csum_scal, w_orth by lia. reflexivity. }
  rewrite (csum_single n _ j Hj).
  2:{ intros i Hi Hne. destruct (Z.eqb_spec ((Z.of_nat j - Z.of_nat i) mod Z.of_nat n) 0) as [E|E]; [|ring]. exfalso. apply Hne. symmetry. eapply mod_sub_0; eauto. }
  rewrite Z.sub_diag, Z.mod_0_l by lia. simpl Z.eqb. assert (INR n <> 0) by (apply not_0_INR; lia).
  apply C_eq; unfold Cmul, RtoC; simpl; field; assumption.
Qed.
Lemma dft_idft n X k : (k < n)%nat -> dft n (idft n X) k = X k.
Proof.
  intros Hk. unfold idft, dft.
  rewrite (csum_ext n _ (fun j => csum n (fun i => RtoC (/ INR n) *c X i *c w n (Z.of_nat j * (Z.of_nat i - Z.of_nat k))))).
  2:{ intros j Hj. rewrite <- csum_scal, <- csum_scal_r. apply csum_ext. intros i Hi.
      replace (Z.of_nat j * (Z.of_nat i - Z.of_nat k))%Z with (Z.of_nat j * Z.of_nat i + - (Z.of_nat j * Z.of_nat k))%Z by lia. rewrite w_add. ring. }
  rewrite csum_swap. rewrite (csum_ext n _ (fun i => RtoC (/ INR n) *c X i *c (if Z.eqb ((Z.of_nat i - Z.of_nat k) mod Z.of_nat n) 0 then RtoC (INR n) else C0))).
  2:{ intros i Hi. rewrite csum_scal, w_orth by lia. reflexivity. }
  rewrite (csum_single n _ k Hk).
  2:{ intros i Hi Hne. destruct (Z.eqb_spec ((Z.of_nat i - Z.of_nat k) mod Z.of_nat n) 0) as [E|E]; [|ring]. exfalso. apply Hne. eapply mod_sub_0; eauto. }
  rewrite Z.sub_diag, Z.mod_0_l by lia. simpl Z.eqb. assert (INR n <> 0) by (apply not_0_INR; lia).
  apply C_eq; unfold Cmul, RtoC; simpl; field; assumption.
Qed.
Lemma dft_ext n x y k : (forall j, (j < n)%nat -> x j = y j) -> dft n x k = dft n y k.
Proof. intros H. unfold dft. apply csum_ext. intros j Hj. rewrite H by exact Hj. reflexivity. Qed.
Lemma idft_ext n x y k : (forall j, (j < n)%nat -> x j = y j) -> idft n x k = idft n y k.
Proof. intros H. unfold idft. f_equal. apply csum_ext. intros j Hj. rewrite H by exact Hj. reflexivity. Qed.
Lemma dft_plus n x y k : dft n (fun j => x j +c y j) k = dft n x k +c dft n y k.
Proof. unfold dft. rewrite <- csum_plus. apply csum_ext. intros; ring. Qed.
Lemma dft_scal n c x k : dft n (fun j => c *c x j) k = c *c dft n x k.
Proof. unfold dft. rewrite <- csum_scal. apply csum_ext. intros; ring. Qed.
Lemma idft_plus n x y k : idft n (fun j => x j +c y j) k = idft n x k +c idft n y k.
Proof. unfold idft. rewrite (csum_ext n _ (fun i => x i *c w n (Z.of_nat k * Z.of_nat i) +c y i *c w n (Z.of_nat k * Z.of_nat i))) by (intros; ring). rewrite csum_plus. ring. Qed.
Lemma idft_scal n c x k : idft n (fun j => c *c x j) k = c *c idft n x k.
Proof. unfold idft. rewrite (csum_ext n _ (fun i => c *c (x i *c w n (Z.of_nat k * Z.of_nat i)))) by (intros; ring). rewrite csum_scal. ring. Qed.

(** indices modulo n *)
Definition imod (n : nat) (k : Z) : nat := Z.to_nat (k mod Z.of_nat n).
Lemma imod_lt n k : (0 < n)%nat -> (imod n k < n)%nat.
Proof. intros H. unfold imod. pose proof (Z.mod_pos_bound k (Z.of_nat n) ltac:(lia)). lia. Qed.
Lemma imod_of n k : (0 < n)%nat -> Z.of_nat (imod n k) = (k mod Z.of_nat n)%Z.
Proof. intros H. unfold imod. apply Z2Nat.id. apply Z.mod_pos_bound. lia. Qed.
Lemma imod_small n i : (i < n)%nat -> imod n (Z.of_nat i) = i.
Proof. intros H. unfold imod. rewrite Z.mod_small by lia. apply Nat2Z.id. Qed.
Lemma w_imod n k a : (0 < n)%nat -> w n (Z.of_nat (imod n k) * a) = w n (k * a).
Proof. intros H. apply w_congr; [exact H|]. rewrite imod_of by exact H. rewrite Z.mul_mod_idemp_l by lia. reflexivity. Qed.
Lemma w_imod_neg n k a : (0 < n)%nat -> w n (- (Z.of_nat (imod n k) * a)) = w n (- (k * a)).
Proof. intros H. rewrite !w_neg, w_imod by exact H. reflexivity. Qed.
(** a sum over one period can be re-indexed by any shift or reflection *)
Lemma rsum_shift n (f : nat -> R) s : (0 < n)%nat -> rsum n (fun i => f (imod n (Z.of_nat i + s))) = rsum n f.
Proof.
  intros Hn. transitivity (rsum n (fun i => rsum n (fun j => delta j (imod n (Z.of_nat i + s)) * f j))).
  { apply rsum_ext. intros i Hi. symmetry. apply (rsum_delta n (imod n (Z.of_nat i + s)) f). apply imod_lt; exact Hn. }
  rewrite rsum_swap. apply rsum_ext. intros j Hj.
  rewrite (rsum_single n _ (imod n (Z.of_nat j - s))); [|apply imod_lt; exact Hn|].
  - assert (E : imod n (Z.of_nat (imod n (Z.of_nat j - s)) + s) = j).
    { unfold imod at 1. rewrite imod_of by exact Hn. rewrite Z.add_mod_idemp_l by lia. replace (Z.of_nat j - s + s)%Z with (Z.of_nat j) by lia. apply (imod_small n j Hj). }
    rewrite E, delta_eq. ring.
  - intros i Hi Hne. rewrite delta_neq; [ring|]. intros E. apply Hne. subst j.
    unfold imod at 1. rewrite imod_of by exact Hn. rewrite Zminus_mod_idemp_l. replace (Z.of_nat i + s - s)%Z with (Z.of_nat i) by lia. symmetry. apply (imod_small n i Hi).
Qed.
Lemma rsum_reflect n (f : nat -> R) s : (0 < n)%nat -> rsum n (fun i => f (imod n (s - Z.of_nat i))) = rsum n f.
Proof.
  intros Hn. transitivity (rsum n (fun i => rsum n (fun j => delta j (imod n (s - Z.of_nat i)) * f j))).
  { apply rsum_ext. intros i Hi. symmetry. apply (rsum_delta n (imod n (s - Z.of_nat i)) f). apply imod_lt; exact Hn. }
  rewrite rsum_swap. apply rsum_ext. intros j Hj.
  rewrite (rsum_single n _ (imod n (s - Z.of_nat j))); [|apply imod_lt; exact Hn|].
  - assert (E : imod n (s - Z.of_nat (imod n (s - Z.of_nat j))) = j).
    { unfold imod at 1. rewrite imod_of by exact Hn. rewrite Zminus_mod_idemp_r. replace (s - (s - Z.of_nat j))%Z with (Z.of_nat j) by lia. apply (imod_small n j Hj). }
    rewrite E, delta_eq. ring.
  - intros i Hi Hne. rewrite delta_neq; [ring|]. intros E. apply Hne. subst j.
    unfold imod at 1. rewrite imod_of by exact Hn. rewrite Zminus_mod_idemp_r. replace (s - (s - Z.of_nat i))%Z with (Z.of_nat i) by lia. symmetry. apply (imod_small n i Hi).
Qed.
Lemma csum_shift n (f : nat -> C) s : (0 < n)%nat -> csum n (fun i => f (imod n (Z.of_nat i + s))) = csum n f.
Proof. intros H. unfold csum. f_equal; [apply (rsum_shift n (fun i => fst (f i)))|apply (rsum_shift n (fun i => snd (f i)))]; exact H. Qed.
Lemma csum_reflect n (f : nat -> C) s : (0 < n)%nat -> csum n (fun i => f (imod n (s - Z.of_nat i))) = csum n f.
Proof. intros H. unfold csum. f_equal; [apply (rsum_reflect n (fun i => fst (f i)))|apply (rsum_reflect n (fun i => snd (f i)))]; exact H. Qed.
(** circular convolution *)
Definition cconv (n : nat) (x h : cvec) : cvec := fun i => csum n (fun j => x j *c h (imod n (Z.of_nat i - Z.of_nat j))).
Lemma dft_cconv n x h k : (0 < n)%nat -> dft n (cconv n x h) k = dft n x k *c dft n h k.
Proof.
  intros Hn. unfold dft at 1, cconv.
  rewrite (csum_ext n _ (fun i => csum n (fun j => x j *c h (imod n (Z.of_nat i - Z.of_nat j)) *c w n (- (Z.of_nat i * Z.of_nat k))))) by (intros; rewrite csum_scal_r; reflexivity).
  rewrite csum_swap. unfold dft. rewrite <- csum_scal_r. apply csum_ext. intros j Hj.
  rewrite <- (csum_shift n (fun i => h i *c w n (- (Z.of_nat i * Z.of_nat k))) (- Z.of_nat j)) by exact Hn.
  rewrite <- csum_scal. apply csum_ext. intros i Hi. rewrite w_imod_neg by exact Hn. rewrite Z.add_opp_r.
  replace (- (Z.of_nat i * Z.of_nat k))%Z with (- (Z.of_nat j * Z.of_nat k) + - ((Z.of_nat i - Z.of_nat j) * Z.of_nat k))%Z by lia. rewrite w_add. ring.
Qed.
Lemma idft_mul n X Y i : (0 < n)%nat -> (i < n)%nat -> idft n (fun k => X k *c Y k) i = cconv n (idft n X) (idft n Y) i.
Proof.
  intros Hn Hi. rewrite <- (idft_dft n (cconv n (idft n X) (idft n Y)) i Hi). apply idft_ext. intros k Hk.
  rewrite dft_cconv, !dft_idft by assumption. reflexivity.
Qed.
(** Parseval *)
Lemma parseval n x y : csum n (fun k => dft n x k *c conj (dft n y k)) = RtoC (INR n) *c csum n (fun j => x j *c conj (y j)).
Proof.
  destruct n as [|m]; [cr|]. set (n := S m). assert (Hn : (0 < n)%nat) by (unfold n; lia).
  rewrite (csum_ext n _ (fun k => csum n (fun j => x j *c conj (dft n y k) *c w n (- (Z.of_nat j * Z.of_nat k))))).
  2:{ intros k Hk. unfold dft at 1. rewrite <- csum_scal_r. apply csum_ext. intros; ring. }
  rewrite csum_swap, <- csum_scal. apply csum_ext. intros j Hj.
  assert (E : csum n (fun k => conj (dft n y k) *c w n (- (Z.of_nat j * Z.of_nat k))) = RtoC (INR n) *c conj (y j)).
  { rewrite <- (idft_dft n y j Hj). unfold idft. rewrite conj_mul, csum_conj.
    assert (conj (RtoC (/ INR n)) = RtoC (/ INR n)) by cr. rewrite H.
    transitivity ((RtoC (INR n) *c RtoC (/ INR n)) *c csum n (fun k => conj (dft n y k) *c w n (- (Z.of_nat j * Z.of_nat k)))).
    - assert (RtoC (INR n) *c RtoC (/ INR n) = C1). { assert (INR n <> 0) by (apply not_0_INR; lia). apply C_eq; unfold Cmul, RtoC; simpl; field; assumption. }
      rewrite H0. ring.
    - rewrite (csum_ext n (fun i => conj (dft n y i *c w n (Z.of_nat j * Z.of_nat i))) (fun k => conj (dft n y k) *c w n (- (Z.of_nat j * Z.of_nat k)))) by (intros; rewrite conj_mul, w_neg; reflexivity). ring. }
  rewrite (csum_ext n _ (fun k => x j *c (conj (dft n y k) *c w n (- (Z.of_nat j * Z.of_nat k))))) by (intros; ring).
  rewrite csum_scal, E. ring.
Qed.
(** Hermitian symmetry of the transform of real data *)
Lemma dft_real_sym n (x : vec) k : (0 < n)%nat -> dft n (fun j => RtoC (x j)) (imod n (- k)) = conj (dft n (fun j => RtoC (x j)) (imod n k)).
Proof.
  intros Hn. unfold dft. rewrite csum_conj. apply csum_ext. intros j Hj. rewrite conj_mul, <- w_neg, Z.opp_involutive.
  rewrite !(Z.mul_comm (Z.of_nat j)). rewrite w_imod_neg, w_imod by exact Hn. rewrite Z.mul_opp_l, Z.opp_involutive. f_equal. cr.
Qed.
(** a Hermitian spectrum has a real inverse *)
Lemma idft_herm_real n X j : (0 < n)%nat -> (forall k, (k < n)%nat -> X (imod n (- Z.of_nat k)) = conj (X k)) -> snd (idft n X j) = 0.
Proof.
  intros Hn H. assert (E : conj (idft n X j) = idft n X j).
  { unfold idft. rewrite conj_mul, csum_conj. f_equal; [cr|].
    rewrite <- (csum_reflect n (fun k => X k *c w n (Z.of_nat j * Z.of_nat k)) 0) by exact Hn. apply csum_ext. intros k Hk.
    rewrite conj_mul, <- w_neg. rewrite !(Z.mul_comm (Z.of_nat j)). rewrite w_imod by exact Hn.
    change (0 - Z.of_nat k)%Z with (- Z.of_nat k)%Z. rewrite (H k Hk). f_equal. f_equal. lia. }
  apply (f_equal snd) in E. change (- snd (idft n X j) = snd (idft n X j)) in E. lra.
Qed.
Lemma RtoC_fst (a : C) : snd a = 0 -> a = RtoC (fst a).
Proof. intros H. apply C_eq; simpl; [reflexivity|exact H]. Qed.
