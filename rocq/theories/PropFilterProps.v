(** * C220: the real-space propagation filter and the half spectrum *)
From Coq Require Import Reals Lra Lia List ZArith String Bool.
From Verif Require Import Sums PyErr Arrays Reindex Fourier FourierBox AlignFitModel AlignMiscProps AlignMarkerProps GhostScaleProps ProcMiscProps PhysicsModel PhaseModel PhaseProps PropFilterModel.
Import ListNotations.
Open Scope R_scope.

(** the middle pixel, where fftshift puts the origin *)
Definition middle (s : list nat) : list Z := map (fun n => Z.of_nat (n / 2)) s.
Lemma middle_length s : List.length (middle s) = List.length s. Proof. apply map_length. Qed.
Lemma middle_opp s : map Z.opp (middle s) = map (fun n => (- Z.of_nat (n / 2))%Z) s. Proof. unfold middle. now rewrite map_map. Qed.
(** a periodic move by [d] pixels away from the middle *)
Definition from_middle (s : list nat) (d : list Z) : list nat := tor s (zadd (middle s) d).

(** an even spectrum has a real inverse transform *)
Lemma even_real s (F : list nat -> R) l : pos s -> (forall k, inb s k -> F (tneg s k) = F k) ->
  idftN s (fun k => RtoC (F k)) l = RtoC (fst (idftN s (fun k => RtoC (F k)) l)).
Proof.
  intros P H. set (X := fun k => RtoC (F k)).
  assert (E : conj (idftN s X l) = idftN s X l).
  { unfold idftN. rewrite conj_mul, conj_RtoC. f_equal. rewrite cbsum_conj.
    assert (G : cbsum s (fun k => X (tneg s k) *c chi s (tneg s k) (zl l)) = cbsum s (fun k => X k *c chi s k (zl l))).
    { apply C_eq; unfold cbsum; cbn [fst snd]; [apply (bsum_tneg s (fun k => fst (X k *c chi s k (zl l))) P)|apply (bsum_tneg s (fun k => snd (X k *c chi s k (zl l))) P)]. }
    rewrite <- G. apply cbsum_ext. intros k Hk. rewrite conj_mul. unfold X. rewrite H by exact Hk. rewrite conj_RtoC, chi_tneg by assumption. reflexivity. }
  assert (Z : snd (idftN s X l) = 0). { apply (f_equal snd) in E. unfold conj in E. cbn [snd] in E. lra. }
  apply C_eq; unfold RtoC; cbn [fst snd]; [reflexivity|exact Z].
Qed.
Lemma filter_even t s pix dist wl db k : inb s k -> prop_filter t s pix dist wl db (tneg s k) = prop_filter t s pix dist wl db k.
Proof. intros I. unfold prop_filter. now rewrite freq_sq_tneg. Qed.

(** the value of the filter [d] pixels from the middle *)
Lemma idft_from t s pix dist wl db d : pos s -> List.length d = List.length s ->
  prop_filter_direct t s pix dist wl db (from_middle s d)
  = fst (RtoC (/ INR (size s)) *c cbsum s (fun k => RtoC (prop_filter t s pix dist wl db k) *c chi s k d)).
Proof.
  intros P L. unfold prop_filter_direct, fftshiftN, idftN, from_middle. do 2 f_equal. apply cbsum_ext. intros k _. f_equal.
  assert (I : inb s (tor s (zadd (middle s) d))) by (apply tor_inb; [exact P|rewrite zadd_length by (now rewrite middle_length); apply middle_length]).
  rewrite chi_tadd by (try assumption; now rewrite map_length).
  rewrite chi_tor by (try assumption; rewrite zadd_length by (now rewrite middle_length); apply middle_length).
  rewrite chi_add by (now rewrite middle_length).
  rewrite <- middle_opp.
  rewrite chi_opp. replace (chi s k (middle s) *c chi s k d *c conj (chi s k (middle s))) with (chi s k d *c (chi s k (middle s) *c conj (chi s k (middle s)))) by ring.
  rewrite chi_inv. ring.
Qed.

(** Point symmetry: the same number of pixels on either side of the middle gives the same value. *)
Theorem C220_symmetric t s pix dist wl db d : pos s -> List.length d = List.length s ->
  prop_filter_direct t s pix dist wl db (from_middle s (map Z.opp d)) = prop_filter_direct t s pix dist wl db (from_middle s d).
Proof.
  intros P L. rewrite !idft_from by (rewrite ?map_length; assumption).
  unfold Cmul, RtoC, cbsum. cbn [fst snd]. rewrite !Rmult_0_l. do 2 f_equal. apply bsum_ext. intros k _. rewrite chi_opp. unfold conj. cbn [fst snd]. ring.
Qed.

(** The two filters returned are a Fourier pair: with its middle moved to the origin the real-space one has the Fourier one
    as its spectrum, at every frequency. *)
Theorem C220_fourier_pair t s pix dist wl db k : pos s -> inb s k ->
  dftN s (fun l => RtoC (prop_filter_direct t s pix dist wl db (tadd s l (middle s)))) k = RtoC (prop_filter t s pix dist wl db k).
Proof.
  intros P I. rewrite <- (dftN_idftN s (fun k => RtoC (prop_filter t s pix dist wl db k)) k I). apply dftN_ext. intros l Il.
  rewrite even_real by (try exact P; intros; now apply filter_even). f_equal. unfold prop_filter_direct, fftshiftN.
  rewrite <- middle_opp.
  rewrite tadd_back by (try assumption; apply middle_length). reflexivity.
Qed.

(** Filtering an image by a periodic convolution with the real-space filter is multiplying its spectrum by the other. *)
Theorem C220_convolution t s pix dist wl db x l : pos s -> inb s l ->
  propagate s (prop_filter t s pix dist wl db) x l
  = RtoC (bsum s (fun m => x m * prop_filter_direct t s pix dist wl db (from_middle s (zadd (zl l) (map Z.opp (zl m)))))).
Proof.
  intros P I. set (F := prop_filter t s pix dist wl db).
  assert (Ll : forall m, inb s m -> List.length (zl m) = List.length s) by (intros m Hm; rewrite zl_length; now apply inb_length).
  assert (Q : forall d, List.length d = List.length s ->
    RtoC (/ INR (size s)) *c cbsum s (fun k => RtoC (F k) *c chi s k d) = RtoC (prop_filter_direct t s pix dist wl db (from_middle s d))).
  { intros d Ld. rewrite idft_from by assumption. fold F.
    assert (D : forall k, chi s k d = chi s k (zl (tor s d))) by (intros k; symmetry; now apply chi_tor).
    rewrite (cbsum_ext s (fun k => RtoC (F k) *c chi s k d) (fun k => RtoC (F k) *c chi s k (zl (tor s d)))) by (intros; now rewrite D).
    apply (even_real s F (tor s d) P). intros k Hk. now apply filter_even. }
  unfold propagate, idftN, dftN.
  transitivity (cbsum s (fun m => RtoC (x m) *c (RtoC (/ INR (size s)) *c cbsum s (fun k => RtoC (F k) *c chi s k (zadd (zl l) (map Z.opp (zl m))))))).
  - rewrite <- cbsum_scal. rewrite (cbsum_ext s _ (fun k => cbsum s (fun m => RtoC (x m) *c (RtoC (/ INR (size s)) *c (RtoC (F k) *c chi s k (zadd (zl l) (map Z.opp (zl m)))))))).
    + rewrite cbsum_swap. apply cbsum_ext. intros m _. now rewrite !cbsum_scal.
    + intros k _. idtac.
      transitivity (cbsum s (fun m => (RtoC (/ INR (size s)) *c (RtoC (F k) *c chi s k (zl l))) *c (RtoC (x m) *c conj (chi s k (zl m))))).
      * rewrite cbsum_scal. ring.
      * apply cbsum_ext. intros m Hm. rewrite chi_add by (rewrite map_length, !Ll by assumption; reflexivity). rewrite chi_opp. ring.
  - rewrite (cbsum_ext s _ (fun m => RtoC (x m * prop_filter_direct t s pix dist wl db (from_middle s (zadd (zl l) (map Z.opp (zl m))))))).
    + unfold cbsum, RtoC. cbn [fst snd]. f_equal. apply bsum_0.
    + intros m Hm. rewrite Q by (rewrite zadd_length; [now apply Ll|rewrite map_length, !Ll by assumption; reflexivity]). apply C_eq; unfold Cmul, RtoC; cbn [fst snd]; ring.
Qed.

(** The half spectrum returned with use_rfft is the kept half of the full one, for lines of even and odd length. *)
Lemma freq_sq_snoc s n k j pix : List.length k = List.length s ->
  freq_sq (s ++ [n]) (k ++ [j]) pix = freq_sq s k pix + (IZR (fftfreq n j) / (INR n * pix)) ^ 2.
Proof.
  unfold freq_sq, lsum. revert k. induction s as [|m s IH]; intros [|a k] L; cbn [List.length] in L; try lia.
  - cbn [app combine fold_right fst snd]. ring.
  - cbn [app combine fold_right fst snd]. rewrite IH by lia. ring.
Qed.
Lemma fftfreq_half n j : (j <= n / 2)%nat -> (j < n)%nat -> IZR (fftfreq n j) = INR j \/ IZR (fftfreq n j) = - INR j.
Proof.
  intros H Hn. unfold fftfreq. destruct (Nat.ltb_spec j ((n - 1) / 2 + 1)) as [L|L]; [left; now rewrite INR_IZR_INZ|]. right.
  assert (E : (n = 2 * j)%nat).
  { pose proof (Nat.div_mod n 2 ltac:(lia)). pose proof (Nat.mod_upper_bound n 2 ltac:(lia)). pose proof (Nat.div_mod (n - 1) 2 ltac:(lia)). pose proof (Nat.mod_upper_bound (n - 1) 2 ltac:(lia)). lia. }
  subst n. rewrite minus_IZR, <- !INR_IZR_INZ, mult_INR. cbn [INR]. ring.
Qed.
Theorem C220_half_spectrum t s n pix dist wl db k j : inb s k -> (j <= n / 2)%nat -> (j < n)%nat ->
  half_filter t s n pix dist wl db k j = prop_filter t (s ++ [n]) pix dist wl db (k ++ [j]).
Proof.
  intros I H Hn. assert (E : half_freq_sq s n pix k j = freq_sq (s ++ [n]) (k ++ [j]) pix).
  { rewrite freq_sq_snoc by now apply inb_length. unfold half_freq_sq. f_equal. unfold Rdiv. rewrite !Rpow_mult_distr. f_equal.
    destruct (fftfreq_half n j H Hn) as [-> | ->]; ring. }
  unfold half_filter, prop_filter. now rewrite E.
Qed.
Lemma inb_snoc_inv s n l : inb (s ++ [n]) l -> exists k j, l = k ++ [j] /\ inb s k /\ (j < n)%nat.
Proof.
  revert l. induction s as [|m s IH]; intros [|i l] H; try (inversion H; fail); apply inb_cons in H as [Hi H].
  - destruct l; [|inversion H]. exists [], i. repeat split; [constructor|assumption].
  - destruct (IH _ H) as (k & j & -> & Ik & Hj). exists (i :: k), j. repeat split; [now apply inb_cons|assumption].
Qed.
(** ... and gives the same real-space filter. *)
Theorem C220_half_direct t s n pix dist wl db l : pos s -> (0 < n)%nat ->
  half_filter_direct t s n pix dist wl db l = prop_filter_direct t (s ++ [n]) pix dist wl db l.
Proof.
  intros P Hn. assert (PP : pos (s ++ [n])) by (apply Forall_app; split; [exact P|now constructor]).
  unfold half_filter_direct, prop_filter_direct, fftshiftN, irfftN. f_equal. apply idftN_ext. intros k I.
  unfold mirrored. destruct (inb_snoc_inv s n k I) as (a & j & -> & Ia & Hj). rewrite removelast_last, !last_last.
  destruct (Nat.leb_spec j (n / 2)) as [L|L]; [now rewrite C220_half_spectrum|].
  rewrite tneg_snoc by now apply inb_length. rewrite removelast_last, last_last, conj_RtoC.
  assert (E : imod n (- Z.of_nat j) = (n - j)%nat).
  { rewrite (imod_mod n _ (Z.of_nat (n - j))); [apply imod_small; lia|lia|]. rewrite Nat2Z.inj_sub by lia.
    replace (Z.of_nat n - Z.of_nat j)%Z with (- Z.of_nat j + 1 * Z.of_nat n)%Z by lia. now rewrite Z.mod_add by lia. }
  assert (Q : (n - j <= n / 2)%nat).
  { pose proof (Nat.div_mod n 2 ltac:(lia)). pose proof (Nat.mod_upper_bound n 2 ltac:(lia)). lia. }
  rewrite C220_half_spectrum.
  - f_equal. rewrite <- (filter_even t (s ++ [n]) pix dist wl db (a ++ [j])) by exact I. now rewrite tneg_snoc by (now apply inb_length).
  - now apply tneg_inb.
  - rewrite E. exact Q.
  - rewrite E. lia.
Qed.

(** The real-space TIE filter (defocusing the right way) is largest, in absolute value, at the middle pixel, where it is
    the mean of the Fourier one and so at least 1. *)
Theorem C220_tie_peak s pix dist wl db d : pos s -> 0 <= db * dist * wl -> List.length d = List.length s ->
  1 <= prop_filter_direct TIE s pix dist wl db (from_middle s (repeat 0%Z (List.length s)))
  /\ Rabs (prop_filter_direct TIE s pix dist wl db (from_middle s d)) <= prop_filter_direct TIE s pix dist wl db (from_middle s (repeat 0%Z (List.length s))).
Proof.
  intros P H L. rewrite !idft_from by (rewrite ?repeat_length; assumption || reflexivity).
  assert (S0 : 0 < INR (size s)) by (apply lt_0_INR, size_pos_of, P).
  assert (R1 : forall c z, fst (RtoC c *c z) = c * fst z) by (intros; unfold Cmul, RtoC; cbn [fst snd]; ring).
  rewrite !R1. unfold cbsum. cbn [fst snd].
  assert (E0 : bsum s (fun k => fst (RtoC (prop_filter TIE s pix dist wl db k) *c chi s k (repeat 0%Z (List.length s)))) = bsum s (fun k => prop_filter TIE s pix dist wl db k)).
  { apply bsum_ext. intros k _. rewrite R1, chi_0. cbn [C1 fst]. ring. }
  rewrite E0. assert (G : forall k, 1 <= prop_filter TIE s pix dist wl db k) by (intros; now apply C91_tie_never_vanishes).
  split.
  - apply Rmult_le_reg_l with (INR (size s)); [exact S0|]. rewrite <- Rmult_assoc, Rinv_r, Rmult_1_l, Rmult_1_r by lra.
    rewrite <- bsum_1. apply bsum_le. intros; apply G.
  - rewrite Rabs_mult, Rabs_pos_eq by (left; now apply Rinv_0_lt_compat). apply Rmult_le_compat_l; [left; now apply Rinv_0_lt_compat|].
    assert (C : forall k, - 1 <= fst (chi s k d) <= 1).
    { intros k. pose proof (cabs2_chi s k d) as Q. unfold cabs2 in Q. pose proof (pow2_ge_0 (snd (chi s k d))). split; nra. }
    apply Rabs_le. split.
    + rewrite <- bsum_opp. apply bsum_le. intros k _. rewrite R1. pose proof (G k). pose proof (C k). nra.
    + apply bsum_le. intros k _. rewrite R1. pose proof (G k). pose proof (C k). nra.
Qed.

(** No propagation: the real-space filter is one at the middle pixel and zero elsewhere. *)
Theorem C220_zero_distance t s pix wl db l : inb s l ->
  prop_filter_direct t s pix 0 wl db (tadd s l (middle s)) = if list_eq_dec_nat l (repeat 0%nat (List.length s)) then 1 else 0.
Proof.
  intros I. pose proof (pos_inb s l I) as P. unfold prop_filter_direct, fftshiftN. rewrite <- middle_opp, tadd_back by (try assumption; apply middle_length).
  assert (F1 : forall k, prop_filter t s pix 0 wl db k = 1).
  { intros k. unfold prop_filter, ctf_response, tie_response. destruct t; [|ring]. replace (0 * wl * PI * freq_sq s k pix) with 0 by ring. rewrite cos_0, sin_0. ring. }
  set (D := fun m => RtoC (if list_eq_dec_nat m (repeat 0%nat (List.length s)) then 1 else 0)).
  assert (I0 : inb s (repeat 0%nat (List.length s))) by now apply zeros_inb.
  assert (E : forall k, inb s k -> RtoC (prop_filter t s pix 0 wl db k) = dftN s D k).
  { intros k Hk. rewrite F1. unfold dftN. rewrite (cbsum_single s (repeat 0%nat (List.length s))); [|exact I0|].
    - unfold D. destruct (list_eq_dec_nat _ _) as [_|N]; [|now elim N]. replace (zl (repeat 0%nat (List.length s))) with (repeat 0%Z (List.length s)).
      + rewrite chi_0, conj_C1. apply C_eq; unfold Cmul, RtoC, C1; cbn [fst snd]; ring.
      + unfold zl. clear. induction s; cbn; [reflexivity|now f_equal].
    - intros m _ Hm. unfold D. destruct (list_eq_dec_nat m _) as [e|_]; [now elim Hm|]. apply C_eq; unfold Cmul, RtoC, C0; cbn [fst snd]; ring. }
  rewrite (idftN_ext s _ _ l E), idftN_dftN by exact I. unfold D, RtoC. reflexivity.
Qed.

(** Non-trivial cases: a line of three pixels; the half spectrum of a 2 x 3 image holds two of its three columns. *)
Theorem C220_example : half_filter TIE [2%nat] 3 1 1 1 (9 / PI) [1%nat] 1 = 1 + 9 * (/ 4 + / 9)
  /\ prop_filter TIE [2; 3]%nat 1 1 1 (9 / PI) [1; 2]%nat = 1 + 9 * (/ 4 + / 9)
  /\ from_middle [2; 3]%nat [1; -1]%Z = [0; 0]%nat.
Proof.
  assert (PI <> 0) by (pose proof PI_RGT_0; lra).
  split; [|split].
  - unfold half_filter, tie_response, half_freq_sq, freq_sq, lsum. cbn. field. assumption.
  - unfold prop_filter, tie_response, freq_sq, lsum. cbn. field. assumption.
  - reflexivity.
Qed.
