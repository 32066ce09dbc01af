(** Properties of the Fourier operator and regularizer (C116, C117, C118). *)
From Coq Require Import Reals Lra Lia List ZArith FunctionalExtensionality.
Import ListNotations.
From Verif Require Import Sums Arrays DataTermsModel DataTermsProofs OperatorsModel Rounding Fourier FourierN FourierOpModel PyErr.
Open Scope R_scope.

(** ** C116: the operator and its transpose are adjoint, and the operator preserves inner products *)
Definition axis_valid (s : list nat) (ax : Z) : Prop := (- Z.of_nat (length s) <= ax < Z.of_nat (length s))%Z.
Definition axes_valid (s : list nat) (axes : option (list Z)) : Prop :=
  match axes with None => True | Some l => Forall (axis_valid s) l end.
Lemma norm_axis_lt s ax : axis_valid s ax -> (norm_axis (length s) ax < length s)%nat.
Proof. unfold axis_valid, norm_axis. intros H. destruct (Z.ltb_spec ax 0); lia. Qed.
Lemma default_axes_valid s : Forall (axis_valid s) (default_axes (length s)).
Proof.
  apply Forall_forall. intros a Ha. unfold default_axes in Ha. apply in_map_iff in Ha. destruct Ha as (i & <- & Hi).
  apply in_seq in Hi. unfold axis_valid. lia.
Qed.
Lemma fourier_axes_ok s axes : axes_valid s axes -> axes_ok s (fourier_axes s axes).
Proof.
  intros H. unfold fourier_axes, axes_ok.
  assert (K : Forall (axis_valid s) (match axes with None => default_axes (length s) | Some a => a end)).
  { destruct axes; [exact H|apply default_axes_valid]. }
  induction K as [|a t Ha Ht IH]; simpl; constructor; [apply norm_axis_lt, Ha|exact IH].
Qed.
Lemma adot_2 s x y : adot (2%nat :: s) x y = bsum s (fun l => x (0%nat :: l) * y (0%nat :: l) + x (1%nat :: l) * y (1%nat :: l)).
Proof. unfold adot. simpl. rewrite bsum_plus. lra. Qed.
Lemma fft_adjoint s axes x y : axes_ok s axes ->
  adot (2%nat :: s) (fourier_fft DFloat s axes x) y = adot s x (fourier_ifft s axes y).
Proof.
  intros H. rewrite adot_2. simpl.
  pose proof (fftn_adjoint_ortho s axes (fun m => RtoC (x m)) (fun m => (y (0%nat :: m), y (1%nat :: m))) H) as E.
  unfold cdot in E. simpl in E. rewrite E. unfold adot. apply bsum_ext. intros l Hl. unfold fourier_ifft. ring.
Qed.
Lemma ifft_fft s axes x l : axes_ok s axes -> inb s l -> fourier_ifft s axes (fourier_fft DFloat s axes x) l = x l.
Proof.
  intros H Hl. unfold fourier_ifft, fourier_fft. simpl.
  replace (fun m => (fst (fftn_ortho s axes (fun m0 => RtoC (x m0)) m), snd (fftn_ortho s axes (fun m0 => RtoC (x m0)) m)))
    with (fftn_ortho s axes (fun m0 => RtoC (x m0)))
    by (apply functional_extensionality; intros m; destruct (fftn_ortho _ _ _ m); reflexivity).
  rewrite (ifftn_fftn_ortho s axes _ H l Hl). reflexivity.
Qed.
Theorem C116_fourier_adjoint : forall s axes x y, axes_valid s axes ->
  adot (2%nat :: s) (call (transform_fourier s axes) x) y = adot s x (call (transpose (transform_fourier s axes)) y).
Proof. intros s axes x y H. apply fft_adjoint, fourier_axes_ok, H. Qed.
Theorem C116_fourier_inverse : forall s axes x l, axes_valid s axes -> inb s l ->
  call (transpose (transform_fourier s axes)) (call (transform_fourier s axes) x) l = x l.
Proof. intros s axes x l H Hl. apply ifft_fft; [apply fourier_axes_ok, H|exact Hl]. Qed.
Theorem C116_fourier_isometry : forall s axes x z, axes_valid s axes ->
  adot (2%nat :: s) (call (transform_fourier s axes) x) (call (transform_fourier s axes) z) = adot s x z.
Proof.
  intros s axes x z H. rewrite C116_fourier_adjoint by exact H. unfold adot. apply bsum_ext. intros l Hl.
  rewrite C116_fourier_inverse by assumption. reflexivity.
Qed.
(** The zero-frequency coefficient is the sum of the samples over sqrt(n): a 1-D value that pins the transform down. *)
Theorem C116_fourier_dc : forall n x, (0 < n)%nat ->
  call (transform_fourier [n] None) x [0; 0]%nat = rsum n (fun i => x [i]) / sqrt (INR n) /\
  call (transform_fourier [n] None) x [1; 0]%nat = 0.
Proof.
  intros n x Hn.
  assert (E : csum n (fun j => RtoC (x [j]) *c w n (- (Z.of_nat j * Z.of_nat 0))) = RtoC (rsum n (fun i => x [i]))).
  { rewrite <- csum_RtoC. apply csum_ext. intros j _. rewrite Z.mul_0_r. change (- 0)%Z with 0%Z. rewrite w_0. ring. }
  assert (F : fftn_ortho [n] [0%nat] (fun m => RtoC (x m)) [0%nat] = RtoC (/ sqrt (INR n)) *c RtoC (rsum n (fun i => x [i]))).
  { rewrite <- E. reflexivity. }
  change (call (transform_fourier [n] None) x [0; 0]%nat) with (fst (fftn_ortho [n] [0%nat] (fun m => RtoC (x m)) [0%nat])).
  change (call (transform_fourier [n] None) x [1; 0]%nat) with (snd (fftn_ortho [n] [0%nat] (fun m => RtoC (x m)) [0%nat])).
  rewrite F. unfold RtoC, Cmul; simpl. split; [unfold Rdiv; ring|ring].
Qed.
(** An integer array is not transformed faithfully: the coefficients are truncated. *)
Lemma sqrt2_gt1 : 1 < sqrt (INR 2). Proof. rewrite <- sqrt_1 at 1. apply sqrt_lt_1; simpl; lra. Qed.
Theorem C116_integer_input_refuted : exists (x : arr), x [0%nat] = 1 /\ x [1%nat] = 0 /\
  (forall l, fourier_fft DInt [2%nat] [0%nat] x l = 0 \/ ~ inb [2; 2]%nat l) /\
  fourier_ifft [2%nat] [0%nat] (fourier_fft DInt [2%nat] [0%nat] x) [0%nat] <> x [0%nat].
Proof.
  set (x := fun l : list nat => match l with [0%nat] => 1 | _ => 0 end).
  assert (HZ : forall l, fourier_fft DInt [2%nat] [0%nat] x l = 0 \/ ~ inb [2; 2]%nat l).
  { intros l. destruct (Nat.eq_dec (length l) 2) as [Hlen|Hlen].
    2:{ right. intros H. apply inb_length in H. simpl in H. lia. }
    left. destruct l as [|c [|k [|? ?]]]; simpl in Hlen; try lia. unfold fourier_fft.
    cbn [fftn_ortho fold_right nth]. unfold calong, dfto, dft. cbn [set_nth nth]. rewrite !csum_S.
    change (csum 0 _) with C0. simpl Z.of_nat. rewrite Z.mul_0_l. change (- 0)%Z with 0%Z. rewrite w_0. simpl.
    pose proof sqrt2_gt1 as H2. change (INR 2) with (1 + 1) in H2.
    assert (0 < / sqrt (1 + 1) < 1). { split; [apply Rinv_0_lt_compat; lra|]. pose proof (Rinv_lt_contravar 1 (sqrt (1 + 1)) ltac:(lra) H2) as Q. rewrite Rinv_1 in Q. exact Q. }
    set (r := / sqrt (1 + 1)) in *.
    destruct (Nat.eqb c 0).
    - match goal with |- context [Rlt_dec ?a 0] => replace a with r by ring end.
      destruct (Rlt_dec r 0); [lra|]. rewrite (rfloor_unique r 0) by (simpl; lra). reflexivity.
    - match goal with |- context [Rlt_dec ?a 0] => replace a with 0 by ring end.
      destruct (Rlt_dec 0 0); [lra|]. rewrite (rfloor_unique 0 0) by (simpl; lra). reflexivity. }
  exists x. split; [reflexivity|]. split; [reflexivity|]. split; [exact HZ|].
  unfold fourier_ifft. cbn [ifftn_ortho fold_right nth]. unfold calong, idfto. cbn [set_nth nth]. rewrite !csum_S. change (csum 0 _) with C0.
  assert (Y : forall c k, (c < 2)%nat -> (k < 2)%nat -> fourier_fft DInt [2%nat] [0%nat] x [c; k] = 0).
  { intros c k Hc Hk. destruct (HZ [c; k]) as [E|E]; [exact E|]. exfalso. apply E. apply inb_cons. split; [exact Hc|]. apply inb_cons. split; [exact Hk|]. constructor. }
  rewrite !Y by lia. unfold Cmul, Cadd, C0, RtoC. simpl. lra.
Qed.
Example C116_example : axes_valid [3; 4; 5]%nat (Some [-1; 0]%Z) /\ fourier_axes [3; 4; 5]%nat (Some [-1; 0]%Z) = [2; 0]%nat.
Proof. split; [repeat constructor; unfold axis_valid; simpl; lia|reflexivity]. Qed.

(** ** C117: the frequency mask of the Fourier regularizer *)
(** axes counted from the end, as the default ones *)
Definition neg_axes (s : list nat) (axes : list Z) : Prop := Forall (fun ax => (- Z.of_nat (length s) <= ax < 0)%Z) axes.
Lemma fft_coord_neg s c l ax : (- Z.of_nat (length s) <= ax < 0)%Z ->
  fft_coord s (c :: l) ax = fftfreq (nth (norm_axis (length s) ax) s 0%nat) (nth (norm_axis (length s) ax) l 0%nat).
Proof.
  intros H. unfold fft_coord, norm_axis. destruct (Z.ltb_spec ax 0); [|lia].
  replace (Z.to_nat (ax + Z.of_nat (S (length s)))) with (S (Z.to_nat (ax + Z.of_nat (length s)))) by lia. reflexivity.
Qed.
Lemma fftfreq_0 n k : (k < n)%nat -> fftfreq n k = 0 <-> k = 0%nat.
Proof.
  intros H. assert (0 < INR n) by (apply lt_0_INR; lia). unfold fftfreq.
  assert (0 < / INR n) by (apply Rinv_0_lt_compat; lra).
  destruct (Nat.leb_spec k ((n - 1) / 2)).
  - split; intros E; [|rewrite E; unfold Rdiv; simpl; ring].
    destruct k; [reflexivity|]. exfalso. assert (0 < INR (S k)) by (apply lt_0_INR; lia). unfold Rdiv in E. nra.
  - split; intros E; [|lia]. exfalso. apply lt_INR in H. unfold Rdiv in E. nra.
Qed.
Lemma fftfreq_neg n k : (k < n)%nat -> fftfreq n (imod n (- Z.of_nat k)) ^ 2 = fftfreq n k ^ 2.
Proof.
  intros H. assert (0 < INR n) by (apply lt_0_INR; lia).
  destruct (Nat.eq_dec k 0) as [->|Hk].
  - change (- Z.of_nat 0)%Z with (Z.of_nat 0). rewrite imod_small by lia. reflexivity.
  - assert (E : imod n (- Z.of_nat k) = (n - k)%nat).
    { apply Nat2Z.inj. rewrite imod_of by lia. rewrite <- (Z_mod_plus_full (- Z.of_nat k) 1). rewrite Z.mod_small by lia. lia. }
    rewrite E. unfold fftfreq. rewrite minus_INR by lia.
    pose proof (Nat.div_mod (n - 1) 2 ltac:(lia)) as D1. pose proof (Nat.mod_upper_bound (n - 1) 2 ltac:(lia)) as D2.
    set (h := ((n - 1) / 2)%nat) in *. set (r := ((n - 1) mod 2)%nat) in *.
    destruct (Nat.leb_spec k h) as [A|A]; destruct (Nat.leb_spec (n - k) h) as [B|B]; try lia.
    + field. lra.
    + field. lra.
    + assert (n = (2 * k)%nat) by lia. rewrite H1 at 1 2 3. rewrite mult_INR. simpl (INR 2).
      assert (INR n = 2 * INR k) by (rewrite H1 at 1; rewrite mult_INR; reflexivity).
      assert (0 < INR k) by (apply lt_0_INR; lia). rewrite H2. field. lra.
Qed.
Lemma lsumsq_nonneg c : 0 <= lsumsq c.
Proof. induction c as [|a t IH]; simpl; [lra|]. pose proof (pow2_ge_0 a). simpl in *. nra. Qed.
Lemma lsumsq_0 c : lsumsq c = 0 <-> Forall (fun v => v = 0) c.
Proof.
  induction c as [|a t IH]; simpl; [split; [constructor|reflexivity]|].
  pose proof (lsumsq_nonneg t). split; intros H0.
  - assert (a = 0) by nra. constructor; [assumption|]. apply IH. subst. lra.
  - inversion H0; subst. rewrite (proj2 IH) by assumption. ring.
Qed.
Lemma coords_all0 s c l axes : neg_axes s axes -> inb s l ->
  Forall (fun v => v = 0) (map (fft_coord s (c :: l)) axes) <->
  (forall ax, In ax axes -> nth (norm_axis (length s) ax) l 0%nat = 0%nat).
Proof.
  intros Hax Hl. rewrite Forall_map, Forall_forall. unfold neg_axes in Hax. rewrite Forall_forall in Hax.
  split; intros H ax Hin.
  - specialize (H ax Hin). rewrite fft_coord_neg in H by (apply Hax, Hin). apply fftfreq_0 in H; [exact H|].
    apply inb_nth; [exact Hl|]. apply norm_axis_lt. unfold axis_valid. specialize (Hax ax Hin). lia.
  - rewrite fft_coord_neg by (apply Hax, Hin). apply fftfreq_0; [|apply H, Hin].
    apply inb_nth; [exact Hl|]. apply norm_axis_lt. unfold axis_valid. specialize (Hax ax Hin). lia.
Qed.
Lemma forallb_eq0 c : forallb (fun v => if Req_EM_T v 0 then true else false) c = true <-> Forall (fun v => v = 0) c.
Proof.
  rewrite forallb_forall, Forall_forall. split; intros H v Hv; specialize (H v Hv); destruct (Req_EM_T v 0); congruence.
Qed.
(** With axes counted from the end, every filter vanishes exactly at the zero frequency of the listed axes, weights
    lie in [0, 1], and the real and imaginary parts get the same weight. *)
Theorem C117_fft_mask : forall f s axes c l, neg_axes s axes -> inb s l ->
  0 <= fft_sigma f s axes (c :: l) <= 1 /\
  fft_sigma f s axes (c :: l) = fft_sigma f s axes (0%nat :: l) /\
  (fft_sigma f s axes (c :: l) = 0 <-> (forall ax, In ax axes -> nth (norm_axis (length s) ax) l 0%nat = 0%nat)).
Proof.
  intros f s axes c l Hax Hl.
  assert (EC : map (fft_coord s (c :: l)) axes = map (fft_coord s (0%nat :: l)) axes).
  { apply map_ext_in. intros ax Hin. unfold neg_axes in Hax. rewrite Forall_forall in Hax. rewrite !fft_coord_neg by (apply Hax, Hin). reflexivity. }
  rewrite <- (coords_all0 s c l axes Hax Hl).
  assert (EX : forall u, 0 <= u -> 0 <= 1 - exp (- u) <= 1 /\ (1 - exp (- u) = 0 <-> u = 0)).
  { intros u Hu. pose proof (exp_pos (- u)). destruct (Req_dec u 0) as [->|Hne].
    - rewrite Ropp_0, exp_0. split; [lra|]. split; intros; lra.
    - assert (exp (- u) < exp 0) by (apply exp_increasing; lra). rewrite exp_0 in H0. split; [lra|]. split; intros; lra. }
  pose proof (lsumsq_nonneg (map (fft_coord s (c :: l)) axes)) as Hn.
  unfold fft_sigma. rewrite <- EC. split; [|split; [reflexivity|]].
  - destruct f.
    + destruct (forallb _ _); lra.
    + replace (- sqrt (lsumsq (map (fft_coord s (c :: l)) axes)) * 12) with (- (sqrt (lsumsq (map (fft_coord s (c :: l)) axes)) * 12)) by ring.
      apply EX. pose proof (sqrt_pos (lsumsq (map (fft_coord s (c :: l)) axes))). lra.
    + replace (- lsumsq (map (fft_coord s (c :: l)) axes) * 36) with (- (lsumsq (map (fft_coord s (c :: l)) axes) * 36)) by ring.
      apply EX. lra.
  - rewrite <- lsumsq_0. destruct f.
    + rewrite lsumsq_0, <- forallb_eq0. destruct (forallb _ _); split; intros; try reflexivity; try lra; congruence.
    + replace (- sqrt (lsumsq (map (fft_coord s (c :: l)) axes)) * 12) with (- (sqrt (lsumsq (map (fft_coord s (c :: l)) axes)) * 12)) by ring.
      pose proof (sqrt_pos (lsumsq (map (fft_coord s (c :: l)) axes))) as Hs.
      rewrite (proj2 (EX _ (Rmult_le_pos _ 12 Hs ltac:(lra)))). split; intros H.
      * apply sqrt_eq_0; [exact Hn|lra].
      * rewrite H, sqrt_0. ring.
    + replace (- lsumsq (map (fft_coord s (c :: l)) axes) * 36) with (- (lsumsq (map (fft_coord s (c :: l)) axes) * 36)) by ring.
      rewrite (proj2 (EX _ (Rmult_le_pos _ 36 Hn ltac:(lra)))). lra.
Qed.
(** With axes counted from the start the mask is built from the wrong axes: for a 2-D image and axes (0, 1) the
    frequencies (0, j) are all left free, and the real and imaginary parts of the rest are weighted differently. *)
Theorem C117_fft_mask_positive_axes_refuted : forall n m j, (1 <= j < m)%nat -> (0 < n)%nat ->
  inb [n; m] [0%nat; j] /\
  fft_sigma F_delta [n; m] [0; 1]%Z [0; 0; j]%nat = 0 /\
  fft_sigma F_delta [n; m] [0; 1]%Z [1; 0; j]%nat = 1 /\
  fft_sigma F_delta [n; m] [-2; -1]%Z [0; 0; j]%nat = 1.
Proof.
  intros n m j Hj Hn. split; [repeat constructor; lia|]. unfold fft_sigma, fft_coord. simpl.
  assert (Z0 : fftfreq n 0 = 0) by (apply fftfreq_0; lia). assert (Z2 : fftfreq 2 0 = 0) by (apply fftfreq_0; lia).
  assert (N2 : fftfreq 2 1 <> 0) by (rewrite fftfreq_0 by lia; lia).
  assert (NJ : fftfreq m j <> 0) by (rewrite fftfreq_0 by lia; lia).
  repeat match goal with |- context [Req_EM_T ?a ?b] => destruct (Req_EM_T a b); simpl; try contradiction end; auto; try lra.
Qed.
Example C117_example : neg_axes [5; 6]%nat [-2; -1]%Z /\ inb [5; 6]%nat [2; 3]%nat.
Proof. split; repeat constructor; simpl; lia. Qed.

(** ** C118: the primal proximal step of the Fourier regularizer *)
Theorem C118_default_norm_refuted : forall s axes sigma t x, fft_prox_primal N_l12 s axes sigma t x = inl NotImplementedError.
Proof. reflexivity. Qed.
(** the penalty: weighted l1 norm of the real and imaginary parts of the coefficients *)
Definition fft_penalty (s axes : list nat) (sigma : arr) (t : R) (z : arr) : R :=
  bsum (2%nat :: s) (fun l => t * (sigma l * Rabs (fourier_fft DFloat s axes z l))).
Definition dist2 (s : list nat) (x y : arr) : R := bsum s (fun l => (x l - y l) ^ 2).
(** z is the proximal point of x: the unique minimiser, with the strong-convexity margin *)
Definition is_prox_point (s : list nat) (pen : arr -> R) (x p : arr) : Prop :=
  forall z, 1 / 2 * dist2 s p x + pen p + 1 / 2 * dist2 s z p <= 1 / 2 * dist2 s z x + pen z.
(** a mask with values 0 and 1 that is even in the frequency and ignores real/imaginary *)
Definition binary_mask (s axes : list nat) (sigma : arr) : Prop :=
  (forall c l, inb s l -> (c < 2)%nat -> sigma (c :: l) = 0 \/ sigma (c :: l) = 1) /\
  (forall c l, inb s l -> (c < 2)%nat -> sigma (c :: negs s axes l) = sigma (c :: l)).
Lemma soft_odd v t : 0 <= t -> soft_threshold1 (- v) t = - soft_threshold1 v t.
Proof.
  intros Ht. destruct (soft_cases v t Ht) as [[H E]|[[H E]|[H E]]]; destruct (soft_cases (- v) t Ht) as [[H' E']|[[H' E']|[H' E']]];
    rewrite E, E'; rewrite ?Rabs_Ropp in *; try lra; exfalso; unfold Rabs in *; destruct (Rcase_abs v); lra.
Qed.
Lemma soft_1d c t v : 0 <= t ->
  1 / 2 * (soft_threshold1 c t - c) ^ 2 + t * Rabs (soft_threshold1 c t) + 1 / 2 * (v - soft_threshold1 c t) ^ 2 <= 1 / 2 * (v - c) ^ 2 + t * Rabs v.
Proof.
  intros Ht. pose proof (Rle_abs v) as A1. pose proof (Rle_abs (- v)) as A2. rewrite Rabs_Ropp in A2.
  destruct (soft_cases c t Ht) as [[H E]|[[H E]|[H E]]]; rewrite E.
  - rewrite Rabs_R0. assert (- t <= c <= t) by (unfold Rabs in H; destruct (Rcase_abs c); lra).
    assert (c * v <= t * Rabs v). { unfold Rabs in *. destruct (Rcase_abs v); nra. } nra.
  - rewrite Rabs_right by lra. nra.
  - rewrite Rabs_left by lra. nra.
Qed.
Lemma prox_elem c sg t v : 0 <= t -> sg = 0 \/ sg = 1 ->
  let p := soft_threshold1 (c * sg) t + c * (1 - sg) in
  1 / 2 * (p - c) ^ 2 + t * (sg * Rabs p) + 1 / 2 * (v - p) ^ 2 <= 1 / 2 * (v - c) ^ 2 + t * (sg * Rabs v).
Proof.
  intros Ht [-> | ->]; cbv zeta.
  - rewrite Rmult_0_r, soft_zero. nra.
  - rewrite Rmult_1_r. replace (soft_threshold1 c t + c * (1 - 1)) with (soft_threshold1 c t) by ring.
    pose proof (soft_1d c t v Ht). lra.
Qed.
Lemma dist2_adot s x y : dist2 s x y = adot s x x - 2 * adot s x y + adot s y y.
Proof.
  unfold dist2, adot. rewrite <- (bsum_scal s 2). unfold Rminus. rewrite <- bsum_opp, <- !bsum_plus. apply bsum_ext. intros; ring.
Qed.
Lemma fft_dist s axes x z : axes_ok s axes ->
  dist2 (2%nat :: s) (fourier_fft DFloat s axes x) (fourier_fft DFloat s axes z) = dist2 s x z.
Proof.
  intros H. rewrite !dist2_adot.
  assert (E : forall a b, adot (2%nat :: s) (fourier_fft DFloat s axes a) (fourier_fft DFloat s axes b) = adot s a b).
  { intros a b. rewrite fft_adjoint by exact H. unfold adot. apply bsum_ext. intros l Hl. rewrite ifft_fft by assumption. reflexivity. }
  rewrite !E. reflexivity.
Qed.
Lemma fft_sym s axes x l : axes_ok s axes -> NoDup axes -> inb s l ->
  fourier_fft DFloat s axes x (0%nat :: negs s axes l) = fourier_fft DFloat s axes x (0%nat :: l) /\
  fourier_fft DFloat s axes x (1%nat :: negs s axes l) = - fourier_fft DFloat s axes x (1%nat :: l).
Proof.
  intros H Hnd Hl. simpl. pose proof (fftn_conj s axes (fun m => RtoC (x m)) l H Hnd Hl) as E.
  replace (cconj (fun m => RtoC (x m))) with (fun m => RtoC (x m)) in E
    by (apply functional_extensionality; intros m; unfold cconj, conj, RtoC; simpl; f_equal; ring).
  pose proof (f_equal fst E) as E1. pose proof (f_equal snd E) as E2. unfold conj in E1, E2. simpl in E1, E2. split; lra.
Qed.
(** coefficients with conjugate symmetry are reproduced by inverse-then-forward transform *)
Lemma fft_ifft s axes y c l : axes_ok s axes -> NoDup axes -> inb s l -> (c < 2)%nat ->
  (forall m, inb s m -> y (0%nat :: negs s axes m) = y (0%nat :: m) /\ y (1%nat :: negs s axes m) = - y (1%nat :: m)) ->
  fourier_fft DFloat s axes (fourier_ifft s axes y) (c :: l) = y (c :: l).
Proof.
  intros H Hnd Hl Hc Hsym. set (Y := fun m : list nat => (y (0%nat :: m), y (1%nat :: m)) : C).
  assert (Hreal : ceq s (fun m => RtoC (fourier_ifft s axes y m)) (ifftn_ortho s axes Y)).
  { intros m Hm. unfold fourier_ifft. fold Y. symmetry. apply RtoC_fst.
    pose proof (ifftn_conj s axes Y m H Hnd Hm) as E.
    rewrite (ifo_ceq s axes (fun m0 => conj (Y (negs s axes m0))) Y) in E; [|intros k Hk; destruct (Hsym k Hk) as [S0 S1]; unfold Y, conj; simpl; rewrite S0, S1, Ropp_involutive; reflexivity|exact Hm].
    apply (f_equal snd) in E. unfold conj in E. simpl in E. lra. }
  pose proof (ceq_trans s _ _ _ (fo_ceq s axes _ _ Hreal) (fftn_ifftn_ortho s axes Y H) l Hl) as E.
  unfold fourier_fft. rewrite E. unfold Y. simpl. destruct c as [|[|c]]; simpl; [reflexivity|reflexivity|lia].
Qed.
Lemma prox_sym s axes sigma t x l : 0 <= t -> axes_ok s axes -> NoDup axes -> binary_mask s axes sigma -> inb s l ->
  let p := fun l => soft_threshold1 (fourier_fft DFloat s axes x l * sigma l) t + fourier_fft DFloat s axes x l * (1 - sigma l) in
  p (0%nat :: negs s axes l) = p (0%nat :: l) /\ p (1%nat :: negs s axes l) = - p (1%nat :: l).
Proof.
  intros Ht H Hnd [_ Hs] Hl. cbv zeta. destruct (fft_sym s axes x l H Hnd Hl) as [E0 E1]. rewrite E0, E1, !Hs by (auto; lia).
  split; [reflexivity|]. rewrite <- Ropp_mult_distr_l, soft_odd by exact Ht. ring.
Qed.
(** For a 0/1 mask the step is exactly the proximal point of the masked l1 penalty. *)
Theorem C118_fft_prox : forall s axes sigma t x, 0 <= t -> axes_ok s axes -> NoDup axes -> binary_mask s axes sigma ->
  exists p, fft_prox_primal N_l1 s axes sigma t x = inr p /\ is_prox_point s (fft_penalty s axes sigma t) x p.
Proof.
  intros s axes sigma t x Ht H Hnd Hm. eexists. split; [reflexivity|]. intros z. set (p := fft_prox_l1 s axes sigma t x).
  rewrite <- !(fft_dist s axes) by exact H. unfold fft_penalty, dist2. rewrite <- !bsum_scal, <- !bsum_plus.
  apply bsum_le. intros l Hl. destruct l as [|c l]; [inversion Hl|]. apply inb_cons in Hl. destruct Hl as [Hc Hl].
  assert (E : fourier_fft DFloat s axes p (c :: l) =
    soft_threshold1 (fourier_fft DFloat s axes x (c :: l) * sigma (c :: l)) t + fourier_fft DFloat s axes x (c :: l) * (1 - sigma (c :: l))).
  { unfold p, fft_prox_l1. apply (fft_ifft s axes (fun l => soft_threshold1 (fourier_fft DFloat s axes x l * sigma l) t + fourier_fft DFloat s axes x l * (1 - sigma l)) c l H Hnd Hl Hc).
    intros m Hmm. apply prox_sym; assumption. }
  rewrite E. apply (prox_elem _ _ _ _ Ht). apply Hm; assumption.
Qed.
(** The "delta" filter gives such a mask. *)
Lemma negs_nth_in s axes l a : inb s l -> NoDup axes -> In a axes -> (a < length s)%nat ->
  nth a (negs s axes l) 0%nat = imod (nth a s 0%nat) (- Z.of_nat (nth a l 0%nat)).
Proof.
  intros Hl Hnd Hin Ha. induction axes as [|b t IH]; [destruct Hin|]. inversion Hnd; subst. simpl.
  assert (La : length (negs s t l) = length s) by (apply inb_length, negs_inb, Hl).
  destruct (Nat.eq_dec a b) as [->|Hab].
  - unfold neg1. rewrite nth_set_nth by (rewrite La; exact Ha). rewrite negs_nth by assumption. reflexivity.
  - unfold neg1. rewrite nth_set_nth_ne by exact Hab. destruct Hin as [E|Hin]; [congruence|]. apply IH; assumption.
Qed.
Theorem C118_delta_mask : forall s axes, neg_axes s axes -> NoDup (map (norm_axis (length s)) axes) ->
  binary_mask s (map (norm_axis (length s)) axes) (fft_sigma F_delta s axes).
Proof.
  intros s axes Hax Hnd. split.
  - intros c l Hl Hc. unfold fft_sigma. destruct (forallb _ _); auto.
  - intros c l Hl Hc.
    assert (B : forall m, inb s m -> fft_sigma F_delta s axes (c :: m) = 0 \/ fft_sigma F_delta s axes (c :: m) = 1) by (intros m Hm; unfold fft_sigma; destruct (forallb _ _); auto).
    assert (Q : fft_sigma F_delta s axes (c :: negs s (map (norm_axis (length s)) axes) l) = 0 <-> fft_sigma F_delta s axes (c :: l) = 0).
    { destruct (C117_fft_mask F_delta s axes c l Hax Hl) as (_ & _ & E1).
      destruct (C117_fft_mask F_delta s axes c _ Hax (negs_inb s (map (norm_axis (length s)) axes) l Hl)) as (_ & _ & E2).
      rewrite E1, E2. unfold neg_axes in Hax. rewrite Forall_forall in Hax.
      assert (K : forall ax, In ax axes -> (nth (norm_axis (length s) ax) (negs s (map (norm_axis (length s)) axes) l) 0%nat = 0%nat <-> nth (norm_axis (length s) ax) l 0%nat = 0%nat)).
      { intros ax Hin. assert (Ha : (norm_axis (length s) ax < length s)%nat) by (apply norm_axis_lt; unfold axis_valid; specialize (Hax ax Hin); lia).
        rewrite negs_nth_in; [|exact Hl|exact Hnd|apply in_map; exact Hin|exact Ha].
        pose proof (inb_nth s _ l Hl Ha) as Hlt. set (n := nth (norm_axis (length s) ax) s 0%nat) in *. set (k := nth (norm_axis (length s) ax) l 0%nat) in *.
        rewrite <- (fftfreq_0 n (imod n (- Z.of_nat k))) by (apply imod_lt; lia). rewrite <- (fftfreq_0 n k) by exact Hlt.
        pose proof (fftfreq_neg n k Hlt). split; intros Z; rewrite Z in *; nra. }
      split; intros Q ax Hin; apply K; auto. }
    destruct (B l Hl) as [E|E]; destruct (B _ (negs_inb s (map (norm_axis (length s)) axes) l Hl)) as [E'|E']; rewrite E, E'; try reflexivity.
    + apply Q in E. lra.
    + apply Q in E'. lra.
Qed.
(** For a mask with fractional values (the "exp" and "exp2" filters) it is not: one coefficient already differs. *)
Theorem C118_fractional_mask_refuted : exists (x : arr) sigma t p z, 0 < t /\ (forall l, 0 <= sigma l <= 1) /\
  fft_prox_primal N_l1 [1%nat] [0%nat] sigma t x = inr p /\
  1 / 2 * dist2 [1%nat] z x + fft_penalty [1%nat] [0%nat] sigma t z < 1 / 2 * dist2 [1%nat] p x + fft_penalty [1%nat] [0%nat] sigma t p.
Proof.
  assert (F : forall x : arr, fourier_fft DFloat [1%nat] [0%nat] x [0; 0]%nat = x [0%nat] /\ fourier_fft DFloat [1%nat] [0%nat] x [1; 0]%nat = 0).
  { intros x. unfold fourier_fft. cbn [fftn_ortho fold_right nth]. unfold calong, dfto, dft. cbn [set_nth nth]. rewrite csum_S. change (csum 0 _) with C0.
    simpl Z.of_nat. rewrite Z.mul_0_l. change (- 0)%Z with 0%Z. rewrite w_0. simpl. rewrite sqrt_1, Rinv_1. split; ring. }
  assert (I : forall y : arr, fourier_ifft [1%nat] [0%nat] y [0]%nat = y [0; 0]%nat).
  { intros y. unfold fourier_ifft. cbn [ifftn_ortho fold_right nth]. unfold calong, idfto. cbn [set_nth nth]. rewrite csum_S. change (csum 0 _) with C0.
    simpl Z.of_nat. rewrite Z.mul_0_l. rewrite w_0. simpl. rewrite sqrt_1, Rinv_1. ring. }
  exists (fun _ => 1), (fun _ => 1 / 2), (1 / 4), (fft_prox_l1 [1%nat] [0%nat] (fun _ => 1 / 2) (1 / 4) (fun _ => 1)), (fun _ => 7 / 8).
  split; [lra|]. split; [intros; lra|]. split; [reflexivity|].
  assert (P : fft_prox_l1 [1%nat] [0%nat] (fun _ => 1 / 2) (1 / 4) (fun _ => 1) [0%nat] = 3 / 4).
  { unfold fft_prox_l1. rewrite I. rewrite (proj1 (F (fun _ => 1))).
    destruct (soft_cases (1 * (1 / 2)) (1 / 4)) as [[H E]|[[H E]|[H E]]]; try lra.
    rewrite Rabs_right in H by lra. lra. }
  unfold fft_penalty, dist2. cbn [bsum rsum]. rewrite !(proj1 (F _)), !(proj2 (F _)), P, Rabs_R0, !Rabs_right by lra. lra.
Qed.
Example C118_example : axes_ok [5; 6]%nat (map (norm_axis 2) [-2; -1]%Z) /\ NoDup (map (norm_axis 2) [-2; -1]%Z).
Proof.
  split.
  - apply (fourier_axes_ok [5; 6]%nat (Some [-2; -1]%Z)). repeat (constructor; [unfold axis_valid; simpl; lia|]). constructor.
  - simpl. constructor; [compute; intros [HH|[]]; discriminate|]. constructor; [intros []|]. constructor.
Qed.
