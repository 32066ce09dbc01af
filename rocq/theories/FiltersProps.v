(** C59-C62, C113-C115: filters of filters.py *)
From Verif Require Import Sums Rounding Arrays OperatorsModel OperatorsProps PyErr Fourier FiltersModel.
From Coq Require Import Lra Lia.
Import ListNotations.

(** * C59: padding size *)
Lemma ln2_pos : 0 < ln 2. Proof. rewrite <- ln_1. apply ln_increasing; lra. Qed.
Lemma log2_pow k : log2 (2 ^ k) = INR k.
Proof.
  unfold log2. pose proof ln2_pos. induction k as [|k IH]; simpl pow; [rewrite ln_1; simpl; field; lra|].
  rewrite ln_mult by (try lra; apply pow_lt; lra). rewrite S_INR, <- IH. field. lra.
Qed.
Lemma log2_lt a b : 0 < a -> a < b -> log2 a < log2 b.
Proof. intros. unfold log2. pose proof ln2_pos. apply Rmult_lt_compat_r; [apply Rinv_0_lt_compat; lra|]. apply ln_increasing; lra. Qed.
Lemma INR_pow2 k : INR (2 ^ k) = 2 ^ k.
Proof. rewrite pow_INR. simpl. f_equal; ring. Qed.
Definition pexp2 (n : nat) : nat := Z.to_nat (rceil (log2 (INR (2 * n)))).
Lemma pexp2_spec n : (0 < n)%nat -> (2 * n <= 2 ^ pexp2 n)%nat /\ (2 ^ pexp2 n < 4 * n)%nat.
Proof.
  intros Hn. assert (H1 : 1 <= INR n) by (apply (le_INR 1); lia).
  assert (H2 : INR (2 * n) = 2 * INR n) by (rewrite mult_INR; simpl; ring).
  pose proof (rceil_spec (log2 (INR (2 * n)))) as [S1 S2].
  assert (Hp : 0 <= log2 (INR (2 * n))).
  { unfold log2. apply Rmult_le_pos; [|left; apply Rinv_0_lt_compat; apply ln2_pos]. rewrite <- ln_1.
    destruct (Rle_lt_or_eq_dec 1 (INR (2 * n)) ltac:(lra)) as [L|L]; [left; apply ln_increasing; lra|rewrite <- L; lra]. }
  assert (Hz : (0 <= rceil (log2 (INR (2 * n))))%Z) by (apply le_IZR; lra).
  assert (E : INR (pexp2 n) = IZR (rceil (log2 (INR (2 * n))))).
  { unfold pexp2. rewrite INR_IZR_INZ, Z2Nat.id by exact Hz. reflexivity. }
  split.
  - apply INR_le. rewrite INR_pow2. destruct (Rle_lt_dec (INR (2 * n)) (2 ^ pexp2 n)) as [L|L]; [exact L|exfalso].
    apply log2_lt in L; [|apply pow_lt; lra]. rewrite log2_pow in L. lra.
  - apply INR_lt. rewrite INR_pow2. destruct (Rlt_le_dec (2 ^ pexp2 n) (INR (4 * n))) as [L|L]; [exact L|exfalso].
    assert (L2 : INR (2 * n) <= 2 ^ pexp2 n / 2) by (rewrite mult_INR in L; simpl in L; lra).
    destruct (pexp2 n) as [|k] eqn:Ek.
    + rewrite H2 in L2. simpl in L2. lra.
    + assert (L3 : INR (2 * n) <= 2 ^ k) by (rewrite H2 in *; simpl in L2; lra).
      assert (L4 : log2 (INR (2 * n)) <= INR k).
      { rewrite <- (log2_pow k). destruct L3 as [L3|L3]; [left; apply log2_lt; [lra|exact L3]|rewrite L3; lra]. }
      rewrite S_INR in E. lra.
Qed.
Theorem C59_power_of_two n : exists k, get_padding_size n = (2 ^ k)%nat.
Proof.
  unfold get_padding_size. fold (pexp2 n). destruct (Nat.max_spec 64 (2 ^ pexp2 n)) as [[_ ->]|[_ ->]]; [exists (pexp2 n)|exists 6%nat]; reflexivity.
Qed.
Theorem C59_large_enough n : (64 <= get_padding_size n /\ 2 * n <= get_padding_size n)%nat.
Proof.
  unfold get_padding_size. fold (pexp2 n). destruct n as [|n]; [split; lia|]. pose proof (pexp2_spec (S n) ltac:(lia)). lia.
Qed.
(** and no power of two at least 64 that is large enough is smaller *)
Theorem C59_smallest n k : (64 <= 2 ^ k -> 2 * n <= 2 ^ k -> get_padding_size n <= 2 ^ k)%nat.
Proof.
  intros H1 H2. unfold get_padding_size. fold (pexp2 n). apply Nat.max_lub; [exact H1|].
  destruct n as [|n]; [pose proof (Nat.pow_nonzero 2 k ltac:(lia)); unfold pexp2, log2; replace (INR (2 * 0)) with 0 by reflexivity|].
  - assert (E0 : ln 0 = 0) by (unfold ln; destruct (Rlt_dec 0 0) as [Hbad|Hok]; [exfalso; lra|reflexivity]).
    assert (E : rceil (ln 0 / ln 2) = 0%Z) by (rewrite E0; unfold Rdiv; rewrite Rmult_0_l; apply (rceil_IZR 0)).
    rewrite E. simpl. lia.
  - pose proof (pexp2_spec (S n) ltac:(lia)) as [_ U].
    destruct (le_lt_dec (pexp2 (S n)) k) as [L|L]; [apply Nat.pow_le_mono_r; lia|exfalso].
    assert (2 ^ S k <= 2 ^ pexp2 (S n))%nat by (apply Nat.pow_le_mono_r; lia). simpl in H. lia.
Qed.
(** distinct offsets between two data samples never fall on the same sample of the padded period: no wrap-around *)
Theorem C59_no_wraparound n (d d' : Z) : (- Z.of_nat n < d < Z.of_nat n)%Z -> (- Z.of_nat n < d' < Z.of_nat n)%Z ->
  imod (get_padding_size n) d = imod (get_padding_size n) d' -> d = d'.
Proof.
  intros H1 H2 E. pose proof (C59_large_enough n) as [L1 L2]. set (P := get_padding_size n) in *.
  apply (f_equal Z.of_nat) in E. rewrite !imod_of in E by lia.
  pose proof (Z.div_mod d (Z.of_nat P) ltac:(lia)). pose proof (Z.div_mod d' (Z.of_nat P) ltac:(lia)).
  set (q := (d / Z.of_nat P)%Z) in *. set (q' := (d' / Z.of_nat P)%Z) in *.
  assert (d - d' = Z.of_nat P * (q - q'))%Z by lia. assert (q - q' = 0)%Z by nia. nia.
Qed.
Example C59_values : get_padding_size 100 = 256%nat /\ get_padding_size 32 = 64%nat /\ get_padding_size 33 = 128%nat.
Proof.
  assert (A : forall n k, (0 < n)%nat -> (2 * n <= 2 ^ k)%nat -> (2 ^ k < 4 * n)%nat -> pexp2 n = k).
  { intros n k Hn H1 H2. pose proof (pexp2_spec n Hn) as [U1 U2].
    destruct (Nat.lt_trichotomy (pexp2 n) k) as [L|[L|L]]; [|exact L|]; exfalso.
    - assert (2 ^ S (pexp2 n) <= 2 ^ k)%nat by (apply Nat.pow_le_mono_r; lia). simpl in H. lia.
    - assert (2 ^ S k <= 2 ^ pexp2 n)%nat by (apply Nat.pow_le_mono_r; lia). simpl in H. lia. }
  unfold get_padding_size. fold (pexp2 100) (pexp2 32) (pexp2 33).
  rewrite (A 100%nat 8%nat), (A 32%nat 6%nat), (A 33%nat 7%nat) by (simpl; lia). repeat split; reflexivity.
Qed.

(** * C60: applying a filter *)
Lemma padding_even n : exists m, (31 < m)%nat /\ get_padding_size n = (2 * m)%nat.
Proof.
  pose proof (C59_large_enough n) as [L _]. destruct (C59_power_of_two n) as [k Hk]. destruct k as [|k]; [simpl in Hk; lia|].
  exists (2 ^ k)%nat. split; [simpl in Hk; lia|]. rewrite Hk. simpl. lia.
Qed.
Lemma half_double m : (2 * m / 2 = m)%nat. Proof. rewrite Nat.mul_comm. apply Nat.div_mul. lia. Qed.
Lemma pad_roll_inside mode P n x j : (n <= P)%nat -> (j < n)%nat -> pad_roll mode P n x j = x j.
Proof.
  intros H1 H2. unfold pad_roll. assert (pad_lo P n + n <= P)%nat.
  { unfold pad_lo. pose proof (Nat.div_mod (P - n + 1) 2 ltac:(lia)). destruct (Nat.eq_dec n P); [subst; rewrite Nat.sub_diag in *; simpl in *; lia|]. lia. }
  rewrite Nat.mod_small by lia. rewrite Nat.add_comm. apply np_pad_inside. exact H2.
Qed.
(** the spectrum whose inverse the code computes *)
Definition eff (use_rfft : bool) (bins : nat) (F : cvec) : cvec := if use_rfft then herm bins F else F.
Lemma to_real_eff use_rfft bins F j : to_real use_rfft bins F j = fst (idft (to_real_len use_rfft bins) (eff use_rfft bins F) j).
Proof. destruct use_rfft; reflexivity. Qed.
Lemma imod_neg_small n k : (0 < k < n)%nat -> imod n (- Z.of_nat k) = (n - k)%nat.
Proof.
  intros H. unfold imod. rewrite <- (Z.mod_add _ 1) by lia. rewrite Z.mod_small by lia. lia.
Qed.
Lemma imod_0 n : imod n 0 = 0%nat. Proof. unfold imod. destruct n; reflexivity. Qed.
Lemma real_spec_sym n (x : vec) k : (0 < k < n)%nat -> dft n (fun j => RtoC (x j)) (n - k)%nat = conj (dft n (fun j => RtoC (x j)) k).
Proof. intros H. rewrite <- (imod_neg_small n k H), dft_real_sym by lia. rewrite imod_small by lia. reflexivity. Qed.
Lemma real_spec_0 n (x : vec) : (0 < n)%nat -> snd (dft n (fun j => RtoC (x j)) 0%nat) = 0.
Proof.
  intros H. pose proof (dft_real_sym n x 0 H) as E. rewrite Z.opp_0, imod_0 in E. apply (f_equal snd) in E.
  change (snd (dft n (fun j => RtoC (x j)) 0%nat) = - snd (dft n (fun j => RtoC (x j)) 0%nat)) in E. lra.
Qed.
Lemma real_spec_nyq m (x : vec) : (0 < m)%nat -> snd (dft (2 * m) (fun j => RtoC (x j)) m) = 0.
Proof.
  intros H. pose proof (real_spec_sym (2 * m) x m ltac:(lia)) as E. replace (2 * m - m)%nat with m in E by lia. apply (f_equal snd) in E.
  change (snd (dft (2 * m) (fun j => RtoC (x j)) m) = - snd (dft (2 * m) (fun j => RtoC (x j)) m)) in E. lra.
Qed.
Lemma fst_mul_real (a b : C) : snd a = 0 -> RtoC (fst (a *c b)) = a *c RtoC (fst b).
Proof. intros H. apply C_eq; unfold Cmul, RtoC; simpl; rewrite H; ring. Qed.
(** multiplying the half spectrum of real data multiplies the full one *)
Lemma herm_mul m (x : vec) (F : cvec) k : (0 < m)%nat -> (k < 2 * m)%nat ->
  herm (m + 1) (fun k => dft (2 * m) (fun j => RtoC (x j)) k *c F k) k = dft (2 * m) (fun j => RtoC (x j)) k *c herm (m + 1) F k.
Proof.
  intros Hm Hk. unfold herm. replace (m + 1 - 1)%nat with m by lia. destruct (Nat.eqb_spec k 0) as [->|].
  { apply fst_mul_real. apply real_spec_0. lia. }
  destruct (Nat.ltb_spec k m); [reflexivity|]. destruct (Nat.eqb_spec k m) as [->|].
  { apply fst_mul_real. apply real_spec_nyq. exact Hm. }
  rewrite conj_mul, (real_spec_sym (2 * m) x k) by lia. rewrite conj_conj. reflexivity.
Qed.
Lemma eff_mul use_rfft m (x : vec) (F : cvec) k : (0 < m)%nat -> (k < 2 * m)%nat ->
  eff use_rfft (num_bins use_rfft (2 * m)) (fun k => to_fourier (2 * m) x k *c F k) k = to_fourier (2 * m) x k *c eff use_rfft (num_bins use_rfft (2 * m)) F k.
Proof.
  intros Hm Hk. destruct use_rfft; [|reflexivity]. unfold eff, num_bins, to_fourier. rewrite half_double. apply herm_mul; assumption.
Qed.
Lemma len_eq use_rfft m : to_real_len use_rfft (num_bins use_rfft (2 * m)) = (2 * m)%nat.
Proof. destruct use_rfft; [|reflexivity]. unfold to_real_len, irfft_len, num_bins. rewrite half_double. lia. Qed.
(** the filter in real space, as the code would show it (before the shift) *)
Definition impulse (use_rfft : bool) (n : nat) (f : filt) : vec :=
  to_real use_rfft (num_bins use_rfft (get_padding_size n)) (filter_at f).
Definition fits (use_rfft : bool) (n : nat) (f : filt) : Prop := fst f = num_bins use_rfft (get_padding_size n) \/ fst f = 1%nat.
Lemma apply_some mode use_rfft n f x : fits use_rfft n f -> exists y, apply_filter mode use_rfft n f x = inr y /\
  y = to_real use_rfft (num_bins use_rfft (get_padding_size n)) (fun k => to_fourier (get_padding_size n) (pad_roll mode (get_padding_size n) n x) k *c filter_at f k).
Proof.
  intros H. unfold apply_filter. replace (Nat.eqb (fst f) (num_bins use_rfft (get_padding_size n)) || Nat.eqb (fst f) 1)%bool with true; [eexists; split; reflexivity|].
  destruct H as [-> | ->]; rewrite Nat.eqb_refl; [reflexivity|rewrite Bool.orb_true_r; reflexivity].
Qed.
Theorem C60_wrong_length mode use_rfft n f x : ~ fits use_rfft n f -> apply_filter mode use_rfft n f x = inl ValueError.
Proof.
  intros H. unfold apply_filter, fits in *. destruct (Nat.eqb_spec (fst f) (num_bins use_rfft (get_padding_size n))); [tauto|].
  destruct (Nat.eqb_spec (fst f) 1); [tauto|]. reflexivity.
Qed.
(** for every data, pad mode, FFT kind and (complex) filter: circular convolution of the padded line with the filter *)
Theorem C60_is_circular_convolution mode use_rfft n f x : fits use_rfft n f ->
  exists y, apply_filter mode use_rfft n f x = inr y /\ forall i, (i < n)%nat ->
    let P := get_padding_size n in
    y i = rsum P (fun j => pad_roll mode P n x j * impulse use_rfft n f (imod P (Z.of_nat i - Z.of_nat j))).
Proof.
  intros Hf. destruct (apply_some mode use_rfft n f x Hf) as (y & E & Hy). exists y. split; [exact E|]. intros i Hi. cbv zeta.
  subst y. unfold impulse. destruct (padding_even n) as (m & Hm & HP). pose proof (C59_large_enough n) as [_ L]. rewrite HP in *.
  set (pr := pad_roll mode (2 * m) n x). rewrite to_real_eff, len_eq.
  rewrite (idft_ext (2 * m) _ (fun k => to_fourier (2 * m) pr k *c eff use_rfft (num_bins use_rfft (2 * m)) (filter_at f) k)) by (intros; apply eff_mul; lia).
  unfold to_fourier. rewrite (idft_mul (2 * m) (dft (2 * m) (fun j => RtoC (pr j)))) by lia. unfold cconv, csum. cbn [fst]. apply rsum_ext. intros j Hj.
  rewrite to_real_eff, len_eq. rewrite idft_dft by exact Hj. unfold Cmul, RtoC. cbn [fst snd]. ring.
Qed.
(** zero padding: the filter acts on the data by linear convolution, whatever its length; [g] is the kernel by offset *)
Theorem C60_is_linear_convolution use_rfft n f x (g : Z -> R) : fits use_rfft n f ->
  (forall d, (- Z.of_nat n < d < Z.of_nat n)%Z -> impulse use_rfft n f (imod (get_padding_size n) d) = g d) ->
  exists y, apply_filter PadConstant use_rfft n f x = inr y /\ forall i, (i < n)%nat ->
    y i = rsum n (fun j => x j * g (Z.of_nat i - Z.of_nat j)%Z).
Proof.
  intros Hf Hg. destruct (C60_is_circular_convolution PadConstant use_rfft n f x Hf) as (y & E & Hy). exists y. split; [exact E|]. intros i Hi.
  rewrite (Hy i Hi). cbv zeta. pose proof (C59_large_enough n) as [_ L]. set (P := get_padding_size n) in *.
  replace P with (n + (P - n))%nat at 1 by lia. rewrite rsum_app.
  rewrite (rsum_zero (P - n)).
  2:{ intros k Hk. unfold pad_roll, np_pad. assert (Z0 : pad_index PadConstant n (Z.of_nat ((n + k + pad_lo P n) mod P) - Z.of_nat (pad_lo P n)) = None).
      { unfold pad_index. assert (Hlo : (2 * pad_lo P n <= P - n + 1)%nat) by (unfold pad_lo; pose proof (Nat.div_mod (P - n + 1) 2 ltac:(lia)); lia).
        destruct (lt_dec (n + k + pad_lo P n) P) as [Q|Q].
        - rewrite Nat.mod_small by exact Q. destruct (Z.leb_spec 0 (Z.of_nat (n + k + pad_lo P n) - Z.of_nat (pad_lo P n))); destruct (Z.ltb_spec (Z.of_nat (n + k + pad_lo P n) - Z.of_nat (pad_lo P n)) (Z.of_nat n)); simpl; try reflexivity; lia.
        - replace (n + k + pad_lo P n)%nat with ((n + k + pad_lo P n - P) + 1 * P)%nat by lia. rewrite Nat.mod_add by lia. rewrite Nat.mod_small by lia.
          destruct (Z.leb_spec 0 (Z.of_nat (n + k + pad_lo P n - P) - Z.of_nat (pad_lo P n))); simpl; try reflexivity; lia. }
      rewrite Z0. simpl. ring. }
  rewrite Rplus_0_r. apply rsum_ext. intros j Hj. rewrite pad_roll_inside by lia. rewrite Hg by lia. reflexivity.
Qed.
(** the all-pass filter (no filter given) is the identity, for every width, data, pad mode and FFT kind *)
Theorem C60_all_pass mode use_rfft n x : exists y, apply_filter mode use_rfft n (init_filter None) x = inr y /\
  forall i, (i < n)%nat -> y i = x i.
Proof.
  destruct (apply_some mode use_rfft n (init_filter None) x (or_intror eq_refl)) as (y & E & Hy). exists y. split; [exact E|]. intros i Hi.
  subst y. destruct (padding_even n) as (m & Hm & HP). pose proof (C59_large_enough n) as [_ L]. rewrite HP in *.
  rewrite to_real_eff, len_eq. rewrite (idft_ext (2 * m) _ (to_fourier (2 * m) (pad_roll mode (2 * m) n x))).
  - unfold to_fourier. rewrite idft_dft by lia. simpl. apply pad_roll_inside; lia.
  - intros k Hk. rewrite eff_mul by lia. replace (eff use_rfft (num_bins use_rfft (2 * m)) (filter_at (init_filter None)) k) with C1; [ring|].
    unfold eff, herm, filter_at, init_filter. destruct use_rfft; [|reflexivity]. simpl fst. simpl snd. destruct (Nat.eqb k 0); [reflexivity|]. simpl Nat.eqb. cbv iota.
    destruct (Nat.ltb k _); [reflexivity|]. destruct (Nat.eqb k _); [reflexivity|]. apply C_eq; simpl; ring.
Qed.
(** linear in the data (on the lines of one width) and in the filter *)
Theorem C60_linear_in_filter mode use_rfft n (m : nat) (c : nat -> R) (F : nat -> cvec) x : 
  exists y, apply_filter mode use_rfft n (num_bins use_rfft (get_padding_size n), fun k => csum m (fun i => RtoC (c i) *c F i k)) x = inr y /\
  forall i, (i < n)%nat -> exists z, (forall j, (j < m)%nat -> apply_filter mode use_rfft n (num_bins use_rfft (get_padding_size n), F j) x = inr (z j)) /\
     y i = rsum m (fun j => c j * z j i).
Proof.
  set (B := num_bins use_rfft (get_padding_size n)).
  destruct (apply_some mode use_rfft n (B, fun k => csum m (fun i => RtoC (c i) *c F i k)) x (or_introl eq_refl)) as (y & E & Hy).
  exists y. split; [exact E|]. intros i Hi.
  exists (fun j => to_real use_rfft B (fun k => to_fourier (get_padding_size n) (pad_roll mode (get_padding_size n) n x) k *c filter_at (B, F j) k)).
  split. { intros j Hj. destruct (apply_some mode use_rfft n (B, F j) x (or_introl eq_refl)) as (z & Ez & Hz). rewrite Ez, Hz. reflexivity. }
  subst y. set (X := to_fourier (get_padding_size n) (pad_roll mode (get_padding_size n) n x)).
  rewrite to_real_eff. fold B.
  assert (K : idft (to_real_len use_rfft B) (eff use_rfft B (fun k => X k *c filter_at (B, fun k => csum m (fun i => RtoC (c i) *c F i k)) k)) i =
              csum m (fun j => RtoC (c j) *c idft (to_real_len use_rfft B) (eff use_rfft B (fun k => X k *c filter_at (B, F j) k)) i)).
  { unfold idft. rewrite (csum_ext m _ (fun j => RtoC (/ INR (to_real_len use_rfft B)) *c csum (to_real_len use_rfft B) (fun k => RtoC (c j) *c (eff use_rfft B (fun k => X k *c filter_at (B, F j) k) k *c w (to_real_len use_rfft B) (Z.of_nat i * Z.of_nat k))))).
    2:{ intros j Hj. rewrite csum_scal. ring. }
    rewrite csum_scal, csum_swap. f_equal. apply csum_ext. intros k Hk.
    rewrite (csum_ext m _ (fun j => (RtoC (c j) *c eff use_rfft B (fun k => X k *c filter_at (B, F j) k) k) *c w (to_real_len use_rfft B) (Z.of_nat i * Z.of_nat k))) by (intros; ring).
    rewrite csum_scal_r. f_equal.
    assert (S0 : forall q (G : nat -> C), X q *c csum m (fun j => RtoC (c j) *c G j) = csum m (fun j => RtoC (c j) *c (X q *c G j))).
    { intros q G. rewrite <- csum_scal. apply csum_ext. intros; ring. }
    assert (SF : forall q, X q *c filter_at (B, fun k => csum m (fun i => RtoC (c i) *c F i k)) q = csum m (fun j => RtoC (c j) *c (X q *c filter_at (B, F j) q))).
    { intros q. unfold filter_at. simpl fst. simpl snd. destruct (Nat.eqb B 1); apply S0. }
    assert (RF : forall G : nat -> C, RtoC (fst (csum m (fun j => RtoC (c j) *c G j))) = csum m (fun j => RtoC (c j) *c RtoC (fst (G j)))).
    { intros G. apply C_eq; unfold csum; simpl; [apply rsum_ext; intros; ring|symmetry; apply rsum_zero; intros; ring]. }
    unfold eff. destruct use_rfft; [|apply SF]. unfold herm. rewrite !SF. destruct (Nat.eqb k 0); [apply RF|]. destruct (Nat.ltb k (B - 1)); [reflexivity|].
    destruct (Nat.eqb k (B - 1)); [apply RF|]. rewrite csum_conj. apply csum_ext. intros j Hj. rewrite conj_mul. f_equal. cr. }
  rewrite K. unfold csum; simpl fst. apply rsum_ext. intros j Hj. rewrite to_real_eff. fold X. unfold Cmul, RtoC; simpl. ring.
Qed.
(** the real FFT with half of a symmetric real filter gives what the complex FFT gives with all of it *)
Theorem C60_rfft_agrees mode n (H : vec) x : (forall k, (0 < k < get_padding_size n)%nat -> H (get_padding_size n - k)%nat = H k) ->
  exists y z, apply_filter mode true n ((get_padding_size n / 2 + 1)%nat, fun k => RtoC (H k)) x = inr y /\
    apply_filter mode false n (get_padding_size n, fun k => RtoC (H k)) x = inr z /\ forall i, (i < n)%nat -> y i = z i.
Proof.
  intros HS. destruct (C60_is_circular_convolution mode true n ((get_padding_size n / 2 + 1)%nat, fun k => RtoC (H k)) x (or_introl eq_refl)) as (y & E & Hy).
  destruct (C60_is_circular_convolution mode false n (get_padding_size n, fun k => RtoC (H k)) x (or_introl eq_refl)) as (z & E' & Hz).
  exists y, z. split; [exact E|]. split; [exact E'|]. intros i Hi. rewrite (Hy i Hi), (Hz i Hi). cbv zeta.
  apply rsum_ext. intros j Hj. f_equal. unfold impulse. destruct (padding_even n) as (m & Hm & HP). rewrite HP in *.
  rewrite !to_real_eff, !len_eq. f_equal. apply idft_ext. intros k Hk. unfold eff, num_bins, filter_at. cbn [fst snd]. rewrite !half_double.
  replace (Nat.eqb (m + 1) 1) with false by (symmetry; apply Nat.eqb_neq; lia). replace (Nat.eqb (2 * m) 1) with false by (symmetry; apply Nat.eqb_neq; lia).
  unfold herm. replace (m + 1 - 1)%nat with m by lia. destruct (Nat.eqb_spec k 0) as [->|]; [reflexivity|]. destruct (Nat.ltb_spec k m); [reflexivity|].
  destruct (Nat.eqb_spec k m) as [->|]; [reflexivity|]. rewrite HS by lia. apply C_eq; simpl; ring.
Qed.
(** several filters: entry i is what filter i alone gives *)
Theorem C60_many_filters mode use_rfft n fs x ys : apply_filters mode use_rfft n fs x = inr ys ->
  length ys = length fs /\ forall i, (i < length fs)%nat -> apply_filter mode use_rfft n (nth i fs (0%nat, fun _ => C0)) x = inr (nth i ys (fun _ => 0)).
Proof.
  revert ys. induction fs as [|f fs IH]; intros ys E; simpl in E; [injection E as <-; split; [reflexivity|simpl; lia]|].
  destruct (apply_filter mode use_rfft n f x) as [e|y] eqn:Ef; [discriminate|]. destruct (apply_filters mode use_rfft n fs x) as [e|t]; [discriminate|].
  injection E as <-. destruct (IH t eq_refl) as [L N]. split; [simpl; lia|]. intros [|i] Hi; [exact Ef|]. apply N. simpl in Hi. lia.
Qed.
Theorem C60_fbp_always_applies ff mode use_rfft n_angles n x : exists y, fbp_call ff mode use_rfft n_angles n x = inr y.
Proof.
  destruct (apply_some mode use_rfft n (fbp_compute ff use_rfft n_angles n) x) as (y & E & _); [|exists y; exact E].
  left. unfold fbp_compute, num_bins. simpl. reflexivity.
Qed.
(** the FBP filter: whatever the number of angles, angles x result is pi/2 times what the bare Fourier filter gives *)
Theorem C60_fbp_scaling ff mode use_rfft n_angles n x : (0 < n_angles)%nat ->
  exists y z, fbp_call ff mode use_rfft n_angles n x = inr y /\
    apply_filter mode use_rfft n (num_bins use_rfft (get_padding_size n), fun k => RtoC (ff (get_padding_size n) k)) x = inr z /\
    forall i, (i < n)%nat -> INR n_angles * y i = PI / 2 * z i.
Proof.
  intros Ha. assert (Pa : 0 < INR n_angles) by (apply lt_0_INR; exact Ha). set (P := get_padding_size n). set (B := num_bins use_rfft P).
  destruct (apply_some mode use_rfft n (fbp_compute ff use_rfft n_angles n) x (or_introl eq_refl)) as (y & E & Hy).
  destruct (apply_some mode use_rfft n (B, fun k => RtoC (ff P k)) x (or_introl eq_refl)) as (z & Ez & Hz).
  exists y, z. split; [exact E|]. split; [exact Ez|]. intros i Hi.
  destruct (C60_linear_in_filter mode use_rfft n 1 (fun _ => PI / 2 / INR n_angles) (fun _ k => RtoC (ff P k)) x) as (y' & E' & H').
  destruct (H' i Hi) as (w' & Hw & Hs). specialize (Hw 0%nat ltac:(lia)). change (apply_filter mode use_rfft n (B, fun k => RtoC (ff P k)) x = inr (w' 0%nat)) in Hw. rewrite Ez in Hw. injection Hw as Hw.
  cbn [rsum] in Hs. rewrite Rplus_0_l, <- Hw in Hs.
  assert (Y : y i = y' i).
  { destruct (apply_some mode use_rfft n (B, fun k => csum 1 (fun i => RtoC (PI / 2 / INR n_angles) *c RtoC (ff P k))) x (or_introl eq_refl)) as (y2 & E2 & H2).
    change (apply_filter mode use_rfft n (B, fun k => csum 1 (fun i => RtoC (PI / 2 / INR n_angles) *c RtoC (ff P k))) x = inr y') in E'. rewrite E2 in E'. injection E' as E'. rewrite <- E', H2, Hy. rewrite !to_real_eff. f_equal.
    fold P. fold B. unfold idft. f_equal. apply csum_ext. intros k _. f_equal.
    assert (S : forall q, filter_at (fbp_compute ff use_rfft n_angles n) q = filter_at (B, fun k => csum 1 (fun _ => RtoC (PI / 2 / INR n_angles) *c RtoC (ff P k))) q).
    { assert (S1 : forall q, RtoC (ff P q * PI / (2 * INR n_angles)) = csum 1 (fun _ => RtoC (PI / 2 / INR n_angles) *c RtoC (ff P q))).
      { intros q. apply C_eq; unfold csum, RtoC, Cmul; cbn [fst snd rsum]; [field; lra|ring]. }
      intros q. unfold filter_at, fbp_compute. cbn [fst snd]. fold P. change (if use_rfft then (P / 2 + 1)%nat else P) with B. destruct (Nat.eqb B 1); apply S1. }
    unfold eff. destruct use_rfft; [|rewrite S; reflexivity]. unfold herm. rewrite !S. reflexivity. }
  rewrite Y, Hs. field. lra.
Qed.
(** the constructor keeps the real part of the given filter: real filters are unchanged, purely imaginary ones give zero *)
Theorem C60_given_filter f : fst (init_filter (Some f)) = fst f /\
  ((forall k, snd (snd f k) = 0) -> forall k, snd (init_filter (Some f)) k = snd f k).
Proof. split; [reflexivity|]. intros H k. unfold init_filter. cbn [fst snd]. apply C_eq; cbn [fst snd RtoC]; [reflexivity|]. symmetry. apply H. Qed.
Theorem C60_imaginary_filter_dropped mode use_rfft n f x : fits use_rfft n f -> (forall k, fst (snd f k) = 0) ->
  exists y, apply_filter mode use_rfft n (init_filter (Some f)) x = inr y /\ forall i, (i < n)%nat -> y i = 0.
Proof.
  intros Hf H0. destruct (C60_is_circular_convolution mode use_rfft n (init_filter (Some f)) x Hf) as (y & E & Hy). exists y. split; [exact E|].
  intros i Hi. rewrite (Hy i Hi). cbv zeta. apply rsum_zero. intros j Hj.
  assert (Z0 : forall k, filter_at (init_filter (Some f)) k = C0).
  { intros k. unfold filter_at, init_filter. cbn [fst snd]. rewrite !H0. destruct (Nat.eqb _ 1); reflexivity. }
  unfold impulse. rewrite to_real_eff. unfold idft. rewrite (csum_ext _ _ (fun _ => C0)).
  - unfold csum, Cmul, RtoC. cbn [fst snd C0]. rewrite !rsum_zero by reflexivity. ring.
  - intros k _. assert (E0 : forall c, c = C0 -> c *c w (to_real_len use_rfft (num_bins use_rfft (get_padding_size n))) (Z.of_nat (imod (get_padding_size n) (Z.of_nat i - Z.of_nat j)) * Z.of_nat k) = C0).
    { intros c ->. unfold Cmul, C0. cbn [fst snd]. apply C_eq; cbn [fst snd]; ring. }
    apply E0. unfold eff, herm. destruct use_rfft; [|apply Z0]. rewrite !Z0. destruct (Nat.eqb k 0); [reflexivity|]. destruct (Nat.ltb k _); [reflexivity|].
    destruct (Nat.eqb k _); [reflexivity|]. unfold conj, C0. cbn [fst snd]. apply C_eq; cbn [fst snd]; ring.
Qed.
Example C60_given_filter_example : fits true 10 ((get_padding_size 10 / 2 + 1)%nat, fun k => (0, 1)).
Proof. left. reflexivity. Qed.

(** * C62: the real-space filter *)
Definition valid_rfft (n : nat) (f : filt) : Prop := fst f = (n / 2 + 1)%nat /\ snd (snd f 0%nat) = 0 /\ snd (snd f (n / 2)%nat) = 0.
Definition valid_fft (n : nat) (f : filt) : Prop := fst f = n /\ forall k, (k < n)%nat -> snd f (imod n (- Z.of_nat k)) = conj (snd f k).
Definition valid (use_rfft : bool) (n : nat) (f : filt) : Prop := if use_rfft then valid_rfft n f else valid_fft n f.
Lemma herm_sym m F k : (0 < m)%nat -> (k < 2 * m)%nat -> herm (m + 1) F (imod (2 * m) (- Z.of_nat k)) = conj (herm (m + 1) F k).
Proof.
  intros Hm Hk. destruct (Nat.eq_dec k 0) as [->|Hk0].
  { change (Z.of_nat 0) with 0%Z. rewrite Z.opp_0, imod_0. unfold herm. simpl. cr. }
  rewrite imod_neg_small by lia. unfold herm. replace (m + 1 - 1)%nat with m by lia.
  destruct (Nat.eqb_spec (2 * m - k) 0); [lia|]. destruct (Nat.eqb_spec k 0); [lia|].
  destruct (Nat.ltb_spec (2 * m - k) m); destruct (Nat.ltb_spec k m); try lia.
  - destruct (Nat.eqb_spec k m); [lia|]. rewrite conj_conj. reflexivity.
  - destruct (Nat.eqb_spec (2 * m - k) m); [lia|]. f_equal. f_equal. lia.
  - assert (k = m) by lia. subst k. replace (2 * m - m)%nat with m by lia. rewrite Nat.eqb_refl. cr.
Qed.
Lemma eff_valid use_rfft m f k : (0 < m)%nat -> valid use_rfft (2 * m) f -> (k < num_bins use_rfft (2 * m))%nat ->
  eff use_rfft (fst f) (snd f) k = snd f k.
Proof.
  intros Hm Hv Hk. destruct use_rfft; [|reflexivity]. destruct Hv as (L & V0 & V1). unfold num_bins in Hk. rewrite half_double in *. unfold eff. rewrite L. unfold herm.
  replace (m + 1 - 1)%nat with m by lia. destruct (Nat.eqb_spec k 0) as [->|]; [symmetry; apply RtoC_fst; exact V0|].
  destruct (Nat.ltb_spec k m); [reflexivity|]. destruct (Nat.eqb_spec k m) as [->|]; [symmetry; apply RtoC_fst; exact V1|lia].
Qed.
Lemma valid_len use_rfft m f : valid use_rfft (2 * m) f -> fst f = num_bins use_rfft (2 * m) /\ to_real_len use_rfft (fst f) = (2 * m)%nat.
Proof.
  intros Hv. assert (E : fst f = num_bins use_rfft (2 * m)) by (destruct use_rfft; [destruct Hv; assumption|destruct Hv; assumption]).
  split; [exact E|]. rewrite E. apply len_eq.
Qed.
Lemma real_of_valid use_rfft m f j : (0 < m)%nat -> valid use_rfft (2 * m) f ->
  RtoC (to_real use_rfft (fst f) (snd f) j) = idft (2 * m) (eff use_rfft (fst f) (snd f)) j.
Proof.
  intros Hm Hv. destruct (valid_len use_rfft m f Hv) as [L1 L2]. rewrite to_real_eff, L2. symmetry. apply RtoC_fst. apply idft_herm_real; [lia|].
  intros k Hk. destruct use_rfft; [|destruct Hv as [_ Hv]; apply Hv; exact Hk].
  unfold eff. rewrite L1. unfold num_bins. rewrite half_double. apply herm_sym; assumption.
Qed.
Lemma dft_of_shift n (x : cvec) s k : (0 < n)%nat -> dft n (fun i => x (imod n (Z.of_nat i + s))) k = w n (s * Z.of_nat k) *c dft n x k.
Proof.
  intros Hn. unfold dft. rewrite <- (csum_shift n (fun j => x j *c w n (- (Z.of_nat j * Z.of_nat k))) s) by exact Hn. rewrite <- csum_scal. apply csum_ext. intros i Hi.
  rewrite w_imod_neg by exact Hn. replace (- ((Z.of_nat i + s) * Z.of_nat k))%Z with (- (s * Z.of_nat k) + - (Z.of_nat i * Z.of_nat k))%Z by lia.
  rewrite w_add. transitivity ((w n (s * Z.of_nat k) *c w n (- (s * Z.of_nat k))) *c (x (imod n (Z.of_nat i + s)) *c w n (- (Z.of_nat i * Z.of_nat k)))); [rewrite w_inv; ring|ring].
Qed.
Lemma w_half m k : (0 < m)%nat -> w (2 * m) (- Z.of_nat m * Z.of_nat k) = RtoC ((-1) ^ k).
Proof.
  intros Hm. assert (B : w (2 * m) (- Z.of_nat m) = RtoC (-1)).
  { unfold w. replace (2 * PI * (IZR (- Z.of_nat m) / INR (2 * m))) with (- PI).
    - rewrite cis_neg. unfold cis. rewrite cos_PI, sin_PI. apply C_eq; simpl; ring.
    - rewrite opp_IZR, <- INR_IZR_INZ, mult_INR. simpl (INR 2). field. apply not_0_INR. lia. }
  induction k as [|k IH]; [rewrite Z.mul_0_r, w_0; reflexivity|].
  replace (- Z.of_nat m * Z.of_nat (S k))%Z with (- Z.of_nat m * Z.of_nat k + - Z.of_nat m)%Z by lia. rewrite w_add, IH, B. apply C_eq; simpl; ring.
Qed.
(** reading the real-space filter and writing it back multiplies entry k of the response by (-1)^k *)
Theorem C62_round_trip_alternates use_rfft m f k : (0 < m)%nat -> valid use_rfft (2 * m) f -> (k < num_bins use_rfft (2 * m))%nat ->
  snd (set_filter_real use_rfft (get_filter_real use_rfft f)) k = RtoC ((-1) ^ k) *c snd f k.
Proof.
  intros Hm Hv Hk. destruct (valid_len use_rfft m f Hv) as [L1 L2]. unfold set_filter_real, get_filter_real. cbn [fst snd]. rewrite L2. unfold to_fourier, fftshift.
  assert (Hk2 : (k < 2 * m)%nat) by (destruct use_rfft; unfold num_bins in Hk; rewrite ?half_double in Hk; lia).
  rewrite half_double. rewrite (dft_ext (2 * m) _ (fun i => idft (2 * m) (eff use_rfft (fst f) (snd f)) (imod (2 * m) (Z.of_nat i + - Z.of_nat m)))).
  2:{ intros j Hj. rewrite <- Z.add_opp_r. apply real_of_valid; assumption. }
  rewrite dft_of_shift, dft_idft, w_half by lia. rewrite eff_valid with (m := m) by assumption. reflexivity.
Qed.
(** undoing the shift first makes it the identity *)
Theorem C62_shifted_round_trip use_rfft m f k : (0 < m)%nat -> valid use_rfft (2 * m) f -> (k < num_bins use_rfft (2 * m))%nat ->
  let r := get_filter_real use_rfft f in
  snd (set_filter_real use_rfft (fst r, ifftshift (fst r) (snd r))) k = snd f k.
Proof.
  intros Hm Hv Hk. cbv zeta. destruct (valid_len use_rfft m f Hv) as [L1 L2]. unfold set_filter_real, get_filter_real. cbn [fst snd]. rewrite L2. unfold to_fourier, fftshift, ifftshift.
  assert (Hk2 : (k < 2 * m)%nat) by (destruct use_rfft; unfold num_bins in Hk; rewrite ?half_double in Hk; lia).
  rewrite half_double. rewrite (dft_ext (2 * m) _ (idft (2 * m) (eff use_rfft (fst f) (snd f)))).
  - rewrite dft_idft by lia. apply eff_valid with (m := m); assumption.
  - intros j Hj. rewrite real_of_valid with (m := m) by assumption. f_equal. rewrite imod_of by lia. unfold imod. rewrite Zminus_mod_idemp_l.
    replace (Z.of_nat j + Z.of_nat m - Z.of_nat m)%Z with (Z.of_nat j) by lia. apply imod_small. exact Hj.
Qed.
Definition real_round_trip_is_identity : Prop := forall use_rfft m f k, (0 < m)%nat -> valid use_rfft (2 * m) f -> (k < num_bins use_rfft (2 * m))%nat ->
  snd (set_filter_real use_rfft (get_filter_real use_rfft f)) k = snd f k.
Theorem C62_round_trip_refuted : ~ real_round_trip_is_identity.
Proof.
  intros H. assert (V : valid true (2 * 1) (2%nat, fun _ => C1)) by (repeat split).
  specialize (H true 1%nat (2%nat, fun _ => C1) 1%nat ltac:(lia) V ltac:(unfold num_bins; simpl; lia)).
  rewrite (C62_round_trip_alternates true 1 _ 1) in H by (auto; unfold num_bins; simpl; lia). apply (f_equal fst) in H. simpl in H. lra.
Qed.
