(** Theorems C74, C83, C132: sub-pixel refinement by parabolas. *)
From Coq Require Import Reals Lra Lia List ZArith Bool.
Import ListNotations.
From Verif Require Import Sums Rounding PyErr Arrays ParamTuningModel ParamTuningProps ProcPreModel ProcPreProps AlignFitModel.
Open Scope R_scope.

(** ** np.around *)
Lemma rint_near x : Rabs (IZR (rint x) - x) <= 1 / 2.
Proof.
  unfold rint. pose proof (rfloor_spec x) as H. set (k := rfloor x) in *.
  destruct (Rlt_dec (x - IZR k) (1 / 2)); [apply Rabs_le; lra|].
  destruct (Rlt_dec (1 / 2) (x - IZR k)); [rewrite plus_IZR; apply Rabs_le; lra|].
  destruct (Z.even k); [|rewrite plus_IZR]; apply Rabs_le; lra.
Qed.
Lemma rint_Z z : rint (IZR z) = z.
Proof. unfold rint. rewrite rfloor_IZR. replace (IZR z - IZR z) with 0 by ring. destruct (Rlt_dec 0 (1 / 2)); [reflexivity|lra]. Qed.
Lemma rint_mono x y : x <= y -> (rint x <= rint y)%Z.
Proof.
  intros H. destruct (Z_lt_le_dec (rint y) (rint x)) as [L|L]; [|exact L]. exfalso.
  assert (Hx := rint_near x). assert (Hy := rint_near y). apply Rabs_def2' in Hx || idtac.
  assert (X : IZR (rint x) - x <= 1 / 2) by (pose proof (Rle_abs (IZR (rint x) - x)); lra).
  assert (Y : y - IZR (rint y) <= 1 / 2) by (pose proof (Rle_abs (-(IZR (rint y) - y))); rewrite Rabs_Ropp in *; lra).
  assert (Q : IZR (rint y) + 1 <= IZR (rint x)) by (rewrite <- plus_IZR; apply IZR_le; lia).
  assert (E : x = y) by lra. subst y. lia.
Qed.
Lemma pow10_d_pos d : 0 < 10 ^ d. Proof. apply pow_lt. lra. Qed.
Lemma around_near d x : Rabs (np_around d x - x) <= / (2 * 10 ^ d).
Proof.
  unfold np_around. pose proof (pow10_d_pos d) as P. pose proof (rint_near (x * 10 ^ d)) as H.
  replace (IZR (rint (x * 10 ^ d)) / 10 ^ d - x) with ((IZR (rint (x * 10 ^ d)) - x * 10 ^ d) * / 10 ^ d) by (field; lra).
  rewrite Rabs_mult, (Rabs_right (/ 10 ^ d)) by (left; now apply Rinv_0_lt_compat).
  replace (/ (2 * 10 ^ d)) with (1 / 2 * / 10 ^ d) by (field; lra). apply Rmult_le_compat_r; [left; now apply Rinv_0_lt_compat|exact H].
Qed.
Lemma around_mono d x y : x <= y -> np_around d x <= np_around d y.
Proof.
  intros H. unfold np_around. pose proof (pow10_d_pos d) as P. apply Rmult_le_compat_r; [left; now apply Rinv_0_lt_compat|].
  apply IZR_le, rint_mono. apply Rmult_le_compat_r; lra.
Qed.
Lemma around_fix d z : np_around d (IZR z / 10 ^ d) = IZR z / 10 ^ d.
Proof. unfold np_around. pose proof (pow10_d_pos d). replace (IZR z / 10 ^ d * 10 ^ d) with (IZR z) by (field; lra). now rewrite rint_Z. Qed.
Lemma pow10_IZR d : 10 ^ d = IZR (10 ^ Z.of_nat d).
Proof. rewrite <- pow_IZR. reflexivity. Qed.
Lemma around_Z d z : np_around d (IZR z) = IZR z.
Proof.
  pose proof (pow10_d_pos d) as P. replace (IZR z) with (IZR (z * 10 ^ Z.of_nat d) / 10 ^ d) at 1 2; [apply around_fix|].
  rewrite mult_IZR, <- pow10_IZR. field. lra.
Qed.
Lemma around_0 d : np_around d 0 = 0. Proof. apply (around_Z d 0). Qed.
Lemma around_half d : np_around d (1 / 2) <= 1 / 2.
Proof.
  destruct d as [|d].
  - unfold np_around. cbn [pow]. rewrite Rmult_1_r. assert (F : rfloor (1 / 2) = 0%Z) by (apply rfloor_unique; simpl; lra).
    unfold rint. rewrite F. destruct (Rlt_dec (1 / 2 - 0) (1 / 2)); [lra|]. destruct (Rlt_dec (1 / 2) (1 / 2 - 0)); [lra|]. simpl. lra.
  - pose proof (pow10_d_pos d). replace (1 / 2) with (IZR (5 * 10 ^ Z.of_nat d) / 10 ^ (S d)).
    + rewrite around_fix. lra.
    + rewrite mult_IZR, <- pow10_IZR. cbn [pow]. field. lra.
Qed.
Lemma around_neg_half d : - (1 / 2) <= np_around d (- (1 / 2)).
Proof.
  destruct d as [|d].
  - unfold np_around. cbn [pow]. rewrite Rmult_1_r. assert (F : rfloor (- (1 / 2)) = (-1)%Z) by (apply rfloor_unique; simpl; lra).
    unfold rint. rewrite F. destruct (Rlt_dec (- (1 / 2) - -1) (1 / 2)); [lra|]. destruct (Rlt_dec (1 / 2) (- (1 / 2) - -1)); [lra|]. simpl. lra.
  - pose proof (pow10_d_pos d). replace (- (1 / 2)) with (IZR (- 5 * 10 ^ Z.of_nat d) / 10 ^ (S d)).
    + rewrite around_fix. lra.
    + rewrite mult_IZR, <- pow10_IZR. cbn [pow]. field. lra.
Qed.

(** ** the least-squares parabola *)
Lemma lsq_exact m xs ys cs ps : polyfit_contract 2 m xs ys cs -> length ps = 3%nat ->
  (forall i, (i < m)%nat -> ys i = peval ps (xs i)) -> forall i, (i < m)%nat -> peval cs (xs i) = ys i.
Proof.
  intros [Hl H] Lp E i Hi. specialize (H ps Lp).
  rewrite (rsum_ext m (fun i => (peval ps (xs i) - ys i) ^ 2) (fun _ => 0)) in H by (intros j Hj; rewrite (E j Hj); ring).
  rewrite rsum_0 in H.
  assert (Z0 : rsum m (fun i => (peval cs (xs i) - ys i) ^ 2) = 0).
  { apply Rle_antisym; [exact H|]. apply rsum_nonneg. intros. apply pow2_ge_0. }
  pose proof (rsum_nonneg_zero m _ (fun j _ => pow2_ge_0 (peval cs (xs j) - ys j)) Z0 i Hi) as Q. cbv beta in Q. nra.
Qed.
Lemma poly_eq_coeffs cs ps : length cs = 3%nat -> length ps = 3%nat -> (forall x, peval (psub cs ps) x = 0) -> cs = ps.
Proof.
  intros L1 L2. destruct cs as [|a [|b [|c []]]]; try discriminate. destruct ps as [|a' [|b' [|c' []]]]; try discriminate. cbn [psub peval].
  intros H. assert (H0 := H 0). assert (H1 := H 1). assert (H2 := H (-1)). repeat f_equal; lra.
Qed.
Lemma lsq_unique m xs ys cs ps : (3 <= m)%nat -> polyfit_contract 2 m xs ys cs -> length ps = 3%nat ->
  (forall i j, (i < j < 3)%nat -> xs i <> xs j) -> (forall i, (i < m)%nat -> ys i = peval ps (xs i)) -> cs = ps.
Proof.
  intros Hm H Lp D E. assert (L := proj1 H). apply poly_eq_coeffs; [exact L|exact Lp|].
  apply (poly_roots 3 (psub cs ps) xs); [rewrite psub_length; lia|exact D|].
  intros i Hi. rewrite psub_spec by lia. rewrite (lsq_exact m xs ys cs ps H Lp E i) by lia. rewrite E by lia. ring.
Qed.
(** three samples are interpolated *)
Definition interp3 (f : vec) : list R := [f 1%nat; (f 2%nat - f 0%nat) / 2; (f 2%nat + f 0%nat) / 2 - f 1%nat].
Lemma centred3 i : centred 3 i = INR i - 1. Proof. unfold centred. simpl. lra. Qed.
Lemma interp3_at f i : (i < 3)%nat -> peval (interp3 f) (centred 3 i) = f i.
Proof. intros H. rewrite centred3. unfold interp3. cbn [peval]. destruct i as [|[|[|]]]; try lia; cbn [INR]; field. Qed.
Lemma fit3_unique cs f : polyfit_contract 2 3 (centred 3) f cs -> cs = interp3 f.
Proof.
  intros H. apply (lsq_unique 3 (centred 3) f); [lia|exact H|reflexivity| |].
  - intros i j Hij. rewrite !centred3. intros E. apply Rplus_eq_reg_r in E. apply INR_eq in E. lia.
  - intros i Hi. symmetry. now apply interp3_at.
Qed.
Lemma fit3_exists f : polyfit_contract 2 3 (centred 3) f (interp3 f).
Proof.
  split; [reflexivity|]. intros ds _. rewrite (rsum_ext 3 _ (fun _ => 0)) by (intros i Hi; rewrite interp3_at by exact Hi; ring).
  rewrite rsum_0. apply rsum_nonneg. intros. apply pow2_ge_0.
Qed.
Lemma rmin_centred m : (0 < m)%nat -> rmin m (centred m) = - (INR m - 1) / 2.
Proof.
  intros H. apply Rle_antisym.
  - pose proof (rmin_le m (centred m) 0 H) as Q. unfold centred in Q at 2. simpl INR in Q. lra.
  - destruct (rmin_attained m (centred m) H) as (i & Hi & ->). unfold centred. pose proof (pos_INR i). lra.
Qed.
Lemma rmax_centred m : (0 < m)%nat -> rmax m (centred m) = (INR m - 1) / 2.
Proof.
  intros H. apply Rle_antisym.
  - destruct (rmax_attained m (centred m) H) as (i & Hi & ->). unfold centred. apply le_INR in Hi. rewrite S_INR in Hi. lra.
  - pose proof (rmax_ge m (centred m) (m - 1) ltac:(lia)) as Q. unfold centred in Q at 1. rewrite minus_INR in Q by lia. simpl INR in Q. lra.
Qed.

(** * C74 *)
(** the vertex of the parabola through the three samples, and its height *)
Definition vertex3 (f : vec) : R := (f 0%nat - f 2%nat) / (2 * (f 0%nat + f 2%nat - 2 * f 1%nat)).
Definition height3 (f : vec) : R := f 1%nat - (f 2%nat - f 0%nat) ^ 2 / (8 * (f 0%nat + f 2%nat - 2 * f 1%nat)).
Definition mid_max (f : vec) : Prop := f 0%nat <= f 1%nat /\ f 2%nat <= f 1%nat /\ ~ (f 0%nat = f 1%nat /\ f 2%nat = f 1%nat).
Lemma mid_max_neg f : mid_max f -> f 0%nat + f 2%nat - 2 * f 1%nat < 0.
Proof. intros (H1 & H2 & H3). destruct (Rle_lt_or_eq_dec _ _ H1) as [|E1]; [lra|]. destruct (Rle_lt_or_eq_dec _ _ H2) as [|E2]; [lra|]. exfalso. now apply H3. Qed.
Lemma vertex3_half f : mid_max f -> - (1 / 2) <= vertex3 f <= 1 / 2.
Proof.
  intros H. pose proof (mid_max_neg f H) as N. destruct H as (H1 & H2 & _). unfold vertex3.
  set (D := f 0%nat + f 2%nat - 2 * f 1%nat) in *. set (A := f 0%nat - f 2%nat).
  assert (B : - (- D) <= A <= - D) by (unfold A, D in *; lra).
  assert (E : A / (2 * D) * (2 * D) = A) by (field; lra). nra.
Qed.
Lemma vertex_interp f : f 0%nat + f 2%nat - 2 * f 1%nat <> 0 -> vertex_of (interp3 f) = Some (vertex3 f).
Proof.
  intros N. unfold vertex_of, interp3. cbn [nth]. destruct (Req_EM_T ((f 2%nat + f 0%nat) / 2 - f 1%nat) 0) as [E|E]; [exfalso; lra|].
  f_equal. unfold vertex3. field. lra.
Qed.
Lemma vertex_flat f : f 0%nat + f 2%nat - 2 * f 1%nat = 0 -> vertex_of (interp3 f) = None.
Proof. intros N. unfold vertex_of, interp3. cbn [nth]. destruct (Req_EM_T ((f 2%nat + f 0%nat) / 2 - f 1%nat) 0) as [E|E]; [reflexivity|exfalso; lra]. Qed.

Theorem C74_refine_interior : forall fit d f, fits fit 3 (centred 3) f -> mid_max f ->
  exists x val, refine_max_position_1d fit d 3 None f = inr (x, val) /\ - (1 / 2) <= x <= 1 / 2 /\ Rabs (x - vertex3 f) <= / (2 * 10 ^ d).
Proof.
  intros fit d f F M. pose proof (mid_max_neg f M) as N. pose proof (vertex3_half f M) as V. unfold refine_max_position_1d.
  rewrite (fit3_unique _ _ F). unfold refine_with. rewrite vertex_interp by lra.
  rewrite rmin_centred, rmax_centred by lia. replace (- (INR 3 - 1) / 2) with (-1) by (simpl; lra). replace ((INR 3 - 1) / 2) with 1 by (simpl; lra).
  assert (B : - (1 / 2) <= np_around d (vertex3 f) <= 1 / 2).
  { split; [eapply Rle_trans; [apply around_neg_half|apply around_mono; lra]|eapply Rle_trans; [apply around_mono|apply around_half]; lra]. }
  destruct (Rlt_dec (-1) (np_around d (vertex3 f))); [|lra]. destruct (Rlt_dec (np_around d (vertex3 f)) 1); [|lra].
  eexists _, _. split; [reflexivity|]. split; [exact B|apply around_near].
Qed.
(** the exact vertex really is the maximum of the parabola through the samples *)
Theorem C74_vertex_is_maximum : forall f, mid_max f -> forall x, peval (interp3 f) x <= peval (interp3 f) (vertex3 f) /\
  peval (interp3 f) (vertex3 f) = height3 f /\ f 1%nat <= height3 f.
Proof.
  intros f M x. pose proof (mid_max_neg f M) as N. unfold interp3, height3, vertex3. cbn [peval].
  set (D := f 0%nat + f 2%nat - 2 * f 1%nat) in *. replace ((f 2%nat + f 0%nat) / 2 - f 1%nat) with (D / 2) by (unfold D; lra).
  set (A := f 2%nat - f 0%nat). replace (f 0%nat - f 2%nat) with (- A) by (unfold A; ring).
  assert (E : f 1%nat + - A / (2 * D) * (A / 2 + - A / (2 * D) * (D / 2 + - A / (2 * D) * 0)) = f 1%nat - A ^ 2 / (8 * D)) by (field; lra).
  assert (S : f 1%nat - A ^ 2 / (8 * D) - (f 1%nat + x * (A / 2 + x * (D / 2 + x * 0))) = - (A + 2 * D * x) ^ 2 / (8 * D)) by (field; lra).
  assert (P : 0 <= - (A + 2 * D * x) ^ 2 / (8 * D)).
  { replace (- (A + 2 * D * x) ^ 2 / (8 * D)) with ((A + 2 * D * x) ^ 2 / (8 * - D)) by (field; lra). apply Rdiv_le_0_compat; [apply pow2_ge_0|lra]. }
  split; [rewrite E; lra|]. split; [exact E|].
  assert (P' : 0 <= A ^ 2 / (8 * - D)) by (apply Rdiv_le_0_compat; [apply pow2_ge_0|lra]).
  replace (A ^ 2 / (8 * - D)) with (- (A ^ 2 / (8 * D))) in P' by (field; lra). lra.
Qed.
(** equal samples: no vertex, an error *)
Theorem C74_flat_error : forall fit d f, fits fit 3 (centred 3) f -> f 0%nat = f 1%nat -> f 2%nat = f 1%nat ->
  refine_max_position_1d fit d 3 None f = inl ValueError.
Proof.
  intros fit d f F E0 E2. unfold refine_max_position_1d. rewrite (fit3_unique _ _ F). unfold refine_with. rewrite vertex_flat by lra. reflexivity.
Qed.
(** coordinates must match the values in number *)
Theorem C74_bad_lengths : forall fit d m k xs f, k <> m -> refine_max_position_1d fit d m (Some (k, xs)) f = inl ValueError.
Proof. intros fit d m k xs f H. unfold refine_max_position_1d. apply Nat.eqb_neq in H. rewrite H. reflexivity. Qed.
(** the returned value is close to the height of the vertex: the two roundings cost at most ... *)
Theorem C74_vertex_value : forall fit d f x val, fits fit 3 (centred 3) f -> mid_max f ->
  refine_max_position_1d fit d 3 None f = inr (x, val) ->
  Rabs (val - height3 f) <= (Rabs (f 2%nat - f 0%nat) / 4 + 1) * / (2 * 10 ^ d).
Proof.
  intros fit d f x val F M. pose proof (mid_max_neg f M) as N. unfold refine_max_position_1d. rewrite (fit3_unique _ _ F). unfold refine_with.
  rewrite vertex_interp by lra. destruct (Rlt_dec _ _); [|discriminate]. destruct (Rlt_dec _ _); [|discriminate].
  intros E. injection E as E1 E2. subst val. set (v := np_around d (vertex3 f)) in *.
  unfold interp3. cbn [nth].
  assert (H : f 1%nat + v * ((f 2%nat - f 0%nat) / 2) / 2 = height3 f + (v - vertex3 f) * ((f 2%nat - f 0%nat) / 4)).
  { unfold height3, vertex3. field. lra. }
  set (val := f 1%nat + v * ((f 2%nat - f 0%nat) / 2) / 2) in *. pose proof (around_near d val) as Q1. pose proof (around_near d (vertex3 f)) as Q2. fold v in Q2.
  replace (np_around d val - height3 f) with ((np_around d val - val) + (v - vertex3 f) * ((f 2%nat - f 0%nat) / 4)) by (rewrite H; ring).
  eapply Rle_trans; [apply Rabs_triang|]. rewrite Rabs_mult.
  replace (Rabs ((f 2%nat - f 0%nat) / 4)) with (Rabs (f 2%nat - f 0%nat) / 4) by (unfold Rdiv; rewrite Rabs_mult, (Rabs_right (/ 4)) by lra; reflexivity).
  assert (Q3 : Rabs (v - vertex3 f) * (Rabs (f 2%nat - f 0%nat) / 4) <= / (2 * 10 ^ d) * (Rabs (f 2%nat - f 0%nat) / 4)).
  { apply Rmult_le_compat_r; [|exact Q2]. pose proof (Rabs_pos (f 2%nat - f 0%nat)). lra. }
  lra.
Qed.
(** the value is rounded: it can be below the sampled maximum *)
Definition demo3 (a b c : R) : vec := fun i => match i with O => a | 1%nat => b | _ => c end.
Theorem C74_vertex_value_refuted : exists fit f x val, fits fit 3 (centred 3) f /\ mid_max f /\
  refine_max_position_1d fit 2 3 None f = inr (x, val) /\ val < f 1%nat.
Proof.
  exists (fun _ _ ys => interp3 ys), (demo3 0 (4 / 1000) 0). unfold mid_max, demo3.
  set (f := fun i : nat => match i with O => 0 | 1%nat => 4 / 1000 | _ => 0 end).
  assert (E : refine_max_position_1d (fun _ _ ys => interp3 ys) 2 3 None f = inr (0, 0)).
  { unfold refine_max_position_1d, refine_with. rewrite vertex_interp by (unfold f; lra).
    replace (vertex3 f) with 0 by (unfold vertex3, f; field). rewrite around_0. rewrite rmin_centred, rmax_centred by lia.
    destruct (Rlt_dec (- (INR 3 - 1) / 2) 0) as [|q]; [|exfalso; apply q; simpl; lra]. destruct (Rlt_dec 0 ((INR 3 - 1) / 2)) as [|q]; [|exfalso; apply q; simpl; lra].
    repeat f_equal. unfold interp3, f. cbn [nth]. replace (4 / 1000 + 0 * ((0 - 0) / 2) / 2) with (4 / 1000) by field.
    unfold np_around. replace (4 / 1000 * 10 ^ 2) with (4 / 10) by (simpl; field).
    assert (F : rfloor (4 / 10) = 0%Z) by (apply rfloor_unique; simpl; lra). unfold rint. rewrite F.
    destruct (Rlt_dec (4 / 10 - 0) (1 / 2)); [simpl; field|lra]. }
  exists 0, 0. split; [apply fit3_exists|]. split; [split; [lra|split; [lra|]]; intros [? ?]; lra|]. split; [exact E|lra].
Qed.
(** any number of samples of an exact concave parabola: the rounded vertex, or an error when it is not strictly inside *)
Theorem C74_exact_parabola : forall fit d m c b a f, (3 <= m)%nat -> fits fit m (centred m) f -> a <> 0 ->
  (forall i, (i < m)%nat -> f i = c + b * centred m i + a * centred m i ^ 2) ->
  let v := np_around d (- b / (2 * a)) in
  (Rabs v < (INR m - 1) / 2 -> exists val, refine_max_position_1d fit d m None f = inr (v, val)) /\
  ((INR m - 1) / 2 <= Rabs v -> refine_max_position_1d fit d m None f = inl ValueError).
Proof.
  intros fit d m c b a f Hm F Ha E v.
  assert (U : fit m (centred m) f = [c; b; a]).
  { apply (lsq_unique m (centred m) f); [exact Hm|exact F|reflexivity| |].
    - intros i j Hij. unfold centred. intros Q. apply Rplus_eq_reg_r in Q. apply INR_eq in Q. lia.
    - intros i Hi. rewrite E by exact Hi. cbn [peval]. ring. }
  unfold refine_max_position_1d. rewrite U. unfold refine_with, vertex_of. cbn [nth]. destruct (Req_EM_T a 0); [contradiction|].
  fold v. rewrite rmin_centred, rmax_centred by lia. split; intros H.
  - apply Rabs_def2 in H as [H1 H2]. destruct (Rlt_dec (- (INR m - 1) / 2) v); [|lra]. destruct (Rlt_dec v ((INR m - 1) / 2)); [|lra]. eexists. reflexivity.
  - destruct (Rlt_dec (- (INR m - 1) / 2) v); [|reflexivity]. destruct (Rlt_dec v ((INR m - 1) / 2)); [|reflexivity].
    exfalso. assert (Rabs v < (INR m - 1) / 2) by (apply Rabs_def1; lra). lra.
Qed.
Example C74_example : mid_max (demo3 1 3 2) /\ vertex3 (demo3 1 3 2) = 1 / 6.
Proof. unfold mid_max, vertex3, demo3. split; [split; [lra|split; [lra|]]; intros [? ?]; lra|field]. Qed.

(** * C132: fit_parabola_min *)
(** the fit of three points in increasing position is the interpolating parabola *)
Lemma fit3_quad fit xs ys : fits fit 3 xs ys -> xs 0%nat < xs 1%nat -> xs 1%nat < xs 2%nat ->
  exists c b a, fit 3%nat xs ys = [c; b; a] /\ forall k, (k < 3)%nat -> c + b * xs k + a * xs k ^ 2 = ys k.
Proof.
  intros F H1 H2. destruct (quad_coeffs (xs 0%nat) (xs 1%nat) (xs 2%nat) (ys 0%nat) (ys 1%nat) (ys 2%nat)) as [[c b] a] eqn:Q.
  apply quad_interp in Q; [|lra|lra|lra]. destruct Q as (Q0 & Q1 & Q2). exists c, b, a. split.
  - apply (lsq_unique 3 xs ys); [lia|exact F|reflexivity| |].
    + intros i j Hij. destruct i as [|[|i]], j as [|[|[|j]]]; try lia; lra.
    + intros i Hi. cbn [peval]. destruct i as [|[|[|i]]]; [|..|lia]; nra.
  - intros k Hk. destruct k as [|[|[|k]]]; [exact Q0|exact Q1|exact Q2|lia].
Qed.
(** the hypothesis on the library, for this call *)
Definition parabola_fits (fit : fitter) (s : fscale) (hp f : list R) : Prop :=
  let i := fit_first (length f) (argmin f) in
  fits fit 3 (fun k => to_fit s (nth (i + k) hp 0)) (fun k => nth (i + k) f 0).
Theorem C132_bad_lengths : forall fit s d hp f, (length hp < 3)%nat \/ (length f < 3)%nat \/ length hp <> length f ->
  fit_parabola_min fit s d hp f = inl ValueError.
Proof.
  intros fit s d hp f H. unfold fit_parabola_min.
  destruct (Nat.ltb_spec (length hp) 3), (Nat.ltb_spec (length f) 3), (Nat.eqb_spec (length hp) (length f)); try reflexivity; lia.
Qed.
(** the returned parameter is always inside the tested range; its value exceeds no measured value by more than the rounding *)
Theorem C132_in_range : forall fit s d hp f, (3 <= length hp)%nat -> length f = length hp -> scale_ok s hp -> increasing hp ->
  parabola_fits fit s hp f ->
  exists v y b, fit_parabola_min fit s d hp f = inr (v, y, b) /\ nth 0 hp 0 <= v <= nth (length hp - 1) hp 0 /\
    (forall i, (i < length f)%nat -> y <= nth i f 0 + / (2 * 10 ^ d)) /\
    (b = false -> v = nth (argmin f) hp 0 /\ forall i, (i < length f)%nat -> y <= nth i f 0).
Proof.
  intros fit s d hp f Hn Hlen Hs Hinc F. unfold fit_parabola_min.
  replace (Nat.ltb (length hp) 3) with false by (symmetry; apply Nat.ltb_ge; lia).
  replace (Nat.ltb (length f) 3) with false by (symmetry; apply Nat.ltb_ge; lia).
  replace (Nat.eqb (length hp) (length f)) with true by (symmetry; apply Nat.eqb_eq; lia).
  cbn [orb negb]. destruct (argmin_spec f) as [Hm Hmin]; [intros ->; simpl in *; lia|]. unfold parabola_fits in F. set (mp := argmin f) in *.
  destruct (fit_first_range (length f) mp ltac:(lia) Hm) as [Hi Hmi]. set (i := fit_first (length f) mp) in *.
  assert (Hmeas : nth 0 hp 0 <= nth mp hp 0 <= nth (length hp - 1) hp 0).
  { split.
    - destruct (Nat.eq_dec mp 0) as [->|]; [lra|]. left. apply Hinc. lia.
    - destruct (Nat.eq_dec mp (length hp - 1)) as [->|]; [lra|]. left. apply Hinc. lia. }
  assert (U : 0 < / (2 * 10 ^ d)) by (apply Rinv_0_lt_compat; pose proof (pow10_d_pos d); lra).
  destruct (fit3_quad _ _ _ F) as (c & b & a & E & Q); [apply to_fit_lt; trivial; lia|apply to_fit_lt; trivial; lia|].
  rewrite E. cbn [nth].
  assert (M : exists v y b0, inr (nth mp hp 0, nth mp f 0, false) = @inr py_err _ (v, y, b0) /\ nth 0 hp 0 <= v <= nth (length hp - 1) hp 0 /\
    (forall i, (i < length f)%nat -> y <= nth i f 0 + / (2 * 10 ^ d)) /\ (b0 = false -> v = nth mp hp 0 /\ forall i, (i < length f)%nat -> y <= nth i f 0)).
  { exists (nth mp hp 0), (nth mp f 0), false. split; [reflexivity|]. split; [exact Hmeas|]. split; [intros j Hj; specialize (Hmin j Hj); lra|]. intros _. split; [reflexivity|exact Hmin]. }
  destruct (Rle_dec a 0) as [Ha|Ha]; [exact M|].
  destruct (Rlt_dec _ (nth 0 hp 0)) as [Hlo|Hlo]; [exact M|].
  destruct (Rlt_dec (nth (length hp - 1) hp 0) _) as [Hhi|Hhi]; [exact M|].
  eexists _, _, _. split; [reflexivity|]. split; [lra|]. split; [|discriminate]. intros j Hj. specialize (Hmin j Hj).
  set (yv := c + - b / (2 * a) * b / 2). assert (V : yv <= nth mp f 0).
  { assert (Hc : mp = (i + 0)%nat \/ mp = (i + 1)%nat \/ mp = (i + 2)%nat) by lia.
    clearbody mp i. destruct Hc as [Hc | [Hc | Hc]]; rewrite Hc; [rewrite <- (Q 0%nat) by lia|rewrite <- (Q 1%nat) by lia|rewrite <- (Q 2%nat) by lia]; apply vertex_min; lra. }
  pose proof (around_near d yv) as A. pose proof (Rle_abs (np_around d yv - yv)). lra.
Qed.
(** an interior minimum (the three losses not all equal): the parabola through the three points is convex and its vertex,
    which lies between the neighbours, is returned rounded - unless the rounding pushes it out of the tested range, in which
    case the measured minimum is returned *)
Theorem C132_interior_minimum : forall fit s d hp f, (3 <= length hp)%nat -> length f = length hp -> scale_ok s hp -> increasing hp ->
  parabola_fits fit s hp f ->
  let m := argmin f in (0 < m < length f - 1)%nat -> nth m f 0 < nth (m - 1) f 0 \/ nth m f 0 < nth (m + 1) f 0 ->
  exists c b a, 0 < a /\
    (forall k, (k < 3)%nat -> let x := to_fit s (nth (m - 1 + k) hp 0) in c + b * x + a * x ^ 2 = nth (m - 1 + k) f 0) /\
    let x := - b / (2 * a) in
    nth (m - 1) hp 0 <= from_fit s x <= nth (m + 1) hp 0 /\
    let v := from_fit s (np_around d x) in
    fit_parabola_min fit s d hp f =
      inr (if Rlt_dec v (nth 0 hp 0) then (nth m hp 0, nth m f 0, false) else
           if Rlt_dec (nth (length hp - 1) hp 0) v then (nth m hp 0, nth m f 0, false) else
           (v, np_around d (c + b * x + a * x ^ 2), true)).
Proof.
  intros fit s d hp f Hn Hlen Hs Hinc F m Hm Hneq.
  destruct (C44_interior_minimum s hp f Hn Hlen Hs Hinc Hm Hneq) as (v0 & y0 & _ & V & c & b & a & Ha & Ev & _ & _ & Q). fold m in V, Q.
  exists c, b, a. split; [exact Ha|]. split; [exact Q|]. cbv zeta. split; [rewrite <- Ev; exact V|]. unfold fit_parabola_min.
  replace (Nat.ltb (length hp) 3) with false by (symmetry; apply Nat.ltb_ge; lia).
  replace (Nat.ltb (length f) 3) with false by (symmetry; apply Nat.ltb_ge; lia).
  replace (Nat.eqb (length hp) (length f)) with true by (symmetry; apply Nat.eqb_eq; lia). cbn [orb negb]. fold m.
  unfold parabola_fits in F. fold m in F.
  replace (fit_first (length f) m) with (m - 1)%nat in * by (unfold fit_first; destruct (Nat.eqb_spec m 0); [lia|]; destruct (Nat.eqb_spec m (length f - 1)); lia).
  assert (U : fit 3%nat (fun k => to_fit s (nth (m - 1 + k) hp 0)) (fun k => nth (m - 1 + k) f 0) = [c; b; a]).
  { apply (lsq_unique 3 (fun k => to_fit s (nth (m - 1 + k) hp 0)) (fun k => nth (m - 1 + k) f 0)); [lia|exact F|reflexivity| |].
    - intros i j Hij. apply Rlt_not_eq. apply to_fit_lt; trivial. lia.
    - intros i Hi. rewrite <- (Q i Hi). cbn [peval]. ring. }
  rewrite U. cbn [nth]. destruct (Rle_dec a 0); [lra|].
  replace (c + - b / (2 * a) * b / 2) with (c + b * (- b / (2 * a)) + a * (- b / (2 * a)) ^ 2) by (field; lra).
  destruct (Rlt_dec _ (nth 0 hp 0)); [reflexivity|]. destruct (Rlt_dec _ _); reflexivity.
Qed.
(** REFUTED: "an interior minimum gives the vertex of the parabola up to the requested decimals": a range finer than the decimals
    is rounded out of the range, and the measured point is returned *)
Theorem C132_fine_range_refuted : forall fit, parabola_fits fit ScaleLinear [1 / 1000; 2 / 1000; 4 / 1000] [3; 1; 3] ->
  fit_parabola_min fit ScaleLinear 2 [1 / 1000; 2 / 1000; 4 / 1000] [3; 1; 3] = inr (2 / 1000, 1, false).
Proof.
  intros fit F. set (hp := [1 / 1000; 2 / 1000; 4 / 1000]) in *. set (f := [3; 1; 3]) in *.
  assert (A : argmin f = 1%nat). { unfold f, argmin. simpl. destruct (Rlt_dec 1 3); [|lra]. destruct (Rlt_dec 3 1); [lra|reflexivity]. }
  assert (I : increasing hp). { intros i j H. unfold hp in *. simpl in H. destruct i as [|[|[|i]]], j as [|[|[|j]]]; simpl; try lia; lra. }
  destruct (C132_interior_minimum fit ScaleLinear 2 hp f ltac:(simpl; lia) eq_refl Logic.I I F) as (c & b & a & Ha & Q & V & E).
  { rewrite A. simpl. lia. } { rewrite A. simpl. lra. }
  rewrite A in *. cbn [from_fit] in *. change (1 - 1)%nat with 0%nat in *. change (1 + 1)%nat with 2%nat in *. unfold hp in V. cbn [nth] in V. fold hp in V.
  assert (R0 : np_around 2 (- b / (2 * a)) <= 0).
  { replace 0 with (np_around 2 (4 / 1000)); [apply around_mono; lra|].
    unfold np_around. replace (4 / 1000 * 10 ^ 2) with (4 / 10) by (simpl; field). assert (F' : rfloor (4 / 10) = 0%Z) by (apply rfloor_unique; simpl; lra). unfold rint. rewrite F'.
    destruct (Rlt_dec (4 / 10 - 0) (1 / 2)); [simpl; field|lra]. }
  rewrite E. destruct (Rlt_dec (np_around 2 (- b / (2 * a))) (nth 0 hp 0)) as [|q]; [reflexivity|]. exfalso. apply q. unfold hp. simpl. lra.
Qed.
Example C132_example : exists fit, parabola_fits fit ScaleLinear [1; 2; 3] [3; 1; 2].
Proof.
  exists (fun _ _ _ => [8; - 13 / 2; 3 / 2]). unfold parabola_fits.
  assert (A : argmin [3; 1; 2] = 1%nat). { unfold argmin. simpl. destruct (Rlt_dec 1 3); [|lra]. destruct (Rlt_dec 2 1); [lra|reflexivity]. }
  rewrite A. split; [reflexivity|]. intros ds _. rewrite (rsum_ext 3 _ (fun _ => 0)).
  - rewrite rsum_0. apply rsum_nonneg. intros. apply pow2_ge_0.
  - intros i Hi. destruct i as [|[|[|i]]]; [..|lia]; cbn; lra.
Qed.

(** * C83: the two-dimensional refinement *)
Lemma poly_zero3 (a b c : R) (xs : vec) : (forall i j, (i < j < 3)%nat -> xs i <> xs j) ->
  (forall i, (i < 3)%nat -> a + b * xs i + c * xs i ^ 2 = 0) -> a = 0 /\ b = 0 /\ c = 0.
Proof.
  intros D H. assert (P : forall x, peval [a; b; c] x = 0).
  { apply (poly_roots 3 [a; b; c] xs); [reflexivity|exact D|]. intros i Hi. cbn [peval]. pose proof (H i Hi). lra. }
  assert (P0 := P 0). assert (P1 := P 1). assert (P2 := P (-1)). cbn [peval] in *. lra.
Qed.
Lemma fits2_unique ny nx ys xs f c q : (3 <= ny)%nat -> (3 <= nx)%nat -> (forall i j, (i < j < 3)%nat -> ys i <> ys j) ->
  (forall i j, (i < j < 3)%nat -> xs i <> xs j) -> length q = 6%nat -> fits2 ny nx ys xs f c ->
  (forall i j, (i < ny)%nat -> (j < nx)%nat -> f i j = quad2 q (ys i) (xs j)) -> c = q.
Proof.
  intros Hy Hx Dy Dx Lq [Lc H] E. specialize (H q Lq).
  assert (Z0 : rsum ny (fun i => rsum nx (fun j => (quad2 c (ys i) (xs j) - f i j) ^ 2)) = 0).
  { apply Rle_antisym.
    - eapply Rle_trans; [exact H|]. right. apply rsum_zero. intros i Hi. apply rsum_zero. intros j Hj. rewrite E by assumption. ring.
    - apply rsum_nonneg. intros. apply rsum_nonneg. intros. apply pow2_ge_0. }
  assert (P : forall i j, (i < 3)%nat -> (j < 3)%nat -> quad2 c (ys i) (xs j) - quad2 q (ys i) (xs j) = 0).
  { intros i j Hi Hj. rewrite <- E by lia.
    assert (R1 := rsum_nonneg_zero ny _ (fun i _ => rsum_nonneg nx _ (fun j _ => pow2_ge_0 (quad2 c (ys i) (xs j) - f i j))) Z0 i ltac:(lia)). cbv beta in R1.
    assert (R2 := rsum_nonneg_zero nx _ (fun j _ => pow2_ge_0 (quad2 c (ys i) (xs j) - f i j)) R1 j ltac:(lia)). cbv beta in R2. nra. }
  destruct c as [|c0 [|c1 [|c2 [|c3 [|c4 [|c5 []]]]]]]; try discriminate.
  destruct q as [|q0 [|q1 [|q2 [|q3 [|q4 [|q5 []]]]]]]; try discriminate. unfold quad2 in P. cbn [nth] in P.
  assert (X : forall i, (i < 3)%nat -> (c0 - q0) + (c1 - q1) * ys i + (c4 - q4) * ys i ^ 2 = 0 /\ (c2 - q2) + (c3 - q3) * ys i = 0 /\ c5 - q5 = 0).
  { intros i Hi. apply (poly_zero3 _ _ _ xs Dx). intros j Hj. pose proof (P i j Hi Hj). lra. }
  assert (Y1 : c0 - q0 = 0 /\ c1 - q1 = 0 /\ c4 - q4 = 0) by (apply (poly_zero3 _ _ _ ys Dy); intros i Hi; apply X; exact Hi).
  assert (Y2 : c2 - q2 = 0 /\ c3 - q3 = 0 /\ 0 = 0).
  { apply (poly_zero3 _ _ _ ys Dy). intros i Hi. destruct (X i Hi) as (_ & E2 & _). lra. }
  assert (Y3 := proj2 (proj2 (X 0%nat ltac:(lia)))). repeat f_equal; lra.
Qed.
(** samples of a quadratic with a unique stationary point, coordinates given by the caller *)
Definition stationary (q : list R) (v : R * R) : Prop :=
  nth 1 q 0 + nth 3 q 0 * snd v + 2 * nth 4 q 0 * fst v = 0 /\ nth 2 q 0 + nth 3 q 0 * fst v + 2 * nth 5 q 0 * snd v = 0.
Lemma stationary_unique q v : det2 q <> 0 -> stationary q v -> vertex2 q = v.
Proof.
  intros D [H1 H2]. unfold vertex2. destruct v as [y x]. cbn [fst snd] in *. f_equal; apply (Rmult_eq_reg_r (det2 q)); try exact D.
  - replace ((nth 3 q 0 * nth 2 q 0 - 2 * nth 5 q 0 * nth 1 q 0) / det2 q * det2 q) with (nth 3 q 0 * nth 2 q 0 - 2 * nth 5 q 0 * nth 1 q 0) by (field; exact D).
    unfold det2. nra.
  - replace ((nth 3 q 0 * nth 1 q 0 - 2 * nth 4 q 0 * nth 2 q 0) / det2 q * det2 q) with (nth 3 q 0 * nth 1 q 0 - 2 * nth 4 q 0 * nth 2 q 0) by (field; exact D).
    unfold det2. nra.
Qed.
Definition inside (ny nx : nat) (ys xs : vec) (v : R * R) : Prop := rmin ny ys <= fst v <= rmax ny ys /\ rmin nx xs <= snd v <= rmax nx xs.
Lemma refine2_result c ny nx fy fx v : let '(ys, ysc) := axis2 ny fy in let '(xs, xsc) := axis2 nx fx in
  vertex2 (rescale2 ysc xsc c) = v ->
  (inside ny nx ys xs v -> refine_max_position_2d c ny nx fy fx = inr v) /\ (~ inside ny nx ys xs v -> refine_max_position_2d c ny nx fy fx = inl ValueError).
Proof.
  destruct (axis2 ny fy) as [ys ysc] eqn:Ey, (axis2 nx fx) as [xs xsc] eqn:Ex. intros E. unfold refine_max_position_2d. rewrite Ey, Ex, E.
  destruct v as [vy vx]. unfold inside. cbn [fst snd].
  destruct (Rlt_dec vy (rmin ny ys)); [split; [lra|reflexivity]|]. destruct (Rlt_dec vx (rmin nx xs)); [split; [lra|reflexivity]|].
  destruct (Rlt_dec (rmax ny ys) vy); [split; [lra|reflexivity]|]. destruct (Rlt_dec (rmax nx xs) vx); [split; [lra|reflexivity]|].
  split; [reflexivity|]. intros H. exfalso. apply H. lra.
Qed.
Theorem C83_given_coordinates : forall ny nx ys xs f c q v, (3 <= ny)%nat -> (3 <= nx)%nat ->
  (forall i j, (i < j < 3)%nat -> ys i <> ys j) -> (forall i j, (i < j < 3)%nat -> xs i <> xs j) -> length q = 6%nat -> fits2 ny nx ys xs f c ->
  (forall i j, (i < ny)%nat -> (j < nx)%nat -> f i j = quad2 q (ys i) (xs j)) -> det2 q <> 0 -> stationary q v ->
  (inside ny nx ys xs v -> refine_max_position_2d c ny nx (Some ys) (Some xs) = inr v) /\
  (~ inside ny nx ys xs v -> refine_max_position_2d c ny nx (Some ys) (Some xs) = inl ValueError).
Proof.
  intros ny nx ys xs f c q v Hy Hx Dy Dx Lq F E D S. apply (refine2_result c ny nx (Some ys) (Some xs) v).
  rewrite (fits2_unique ny nx ys xs f c q Hy Hx Dy Dx Lq F E). rewrite <- (stationary_unique q v D S).
  unfold vertex2, det2, rescale2. cbn [nth]. unfold det2 in D. f_equal; field; (intros Z0; apply D; lra).
Qed.

(** default coordinates: with the vertex at pixel offset v from the centre of the grid the function returns v divided by the SQUARE of
    the half size of the grid along each axis: the coefficients are multiplied by the scaling instead of divided by it *)
Definition half (n : nat) : R := (INR n - 1) / 2.
Lemma unit_grid_inj n i j : (2 <= n)%nat -> (i < j)%nat -> unit_grid n i <> unit_grid n j.
Proof.
  intros Hn Hij E. unfold unit_grid in E. assert (P : 0 < 2 / (INR n - 1)) by (apply Rdiv_lt_0_compat; [lra|]; apply le_INR in Hn; simpl in Hn; lra).
  apply Rplus_eq_reg_l, Rmult_eq_reg_r in E; [apply INR_eq in E; lia|lra].
Qed.
Lemma half_pos n : (3 <= n)%nat -> 0 < half n.
Proof. intros H. unfold half. apply le_INR in H. simpl in H. lra. Qed.
Lemma centred_unit n i : (2 <= n)%nat -> centred n i = half n * unit_grid n i.
Proof. intros H. unfold centred, half, unit_grid. assert (INR n - 1 <> 0) by (apply le_INR in H; simpl in H; lra). field. assumption. Qed.
Lemma rmin_unit n : (2 <= n)%nat -> rmin n (unit_grid n) = -1 /\ rmax n (unit_grid n) = 1.
Proof.
  intros H. assert (P : 0 < INR n - 1) by (apply le_INR in H; simpl in H; lra).
  assert (Q : 0 < 2 / (INR n - 1)) by (apply Rdiv_lt_0_compat; lra). split; apply Rle_antisym.
  - pose proof (rmin_le n (unit_grid n) 0 ltac:(lia)) as E. unfold unit_grid in E at 2. simpl INR in E. lra.
  - destruct (rmin_attained n (unit_grid n) ltac:(lia)) as (i & Hi & ->). unfold unit_grid. pose proof (pos_INR i). nra.
  - destruct (rmax_attained n (unit_grid n) ltac:(lia)) as (i & Hi & ->). unfold unit_grid. apply le_INR in Hi. rewrite S_INR in Hi.
    assert (E : (INR n - 1) * (2 / (INR n - 1)) = 2) by (field; lra). nra.
  - pose proof (rmax_ge n (unit_grid n) (n - 1) ltac:(lia)) as E. unfold unit_grid in E at 1. rewrite minus_INR in E by lia. simpl INR in E.
    assert (E' : (INR n - 1) * (2 / (INR n - 1)) = 2) by (field; lra). lra.
Qed.
Theorem C83_default_coordinates : forall ny nx f c q v, (3 <= ny)%nat -> (3 <= nx)%nat -> length q = 6%nat ->
  fits2 ny nx (unit_grid ny) (unit_grid nx) f c ->
  (forall i j, (i < ny)%nat -> (j < nx)%nat -> f i j = quad2 q (centred ny i) (centred nx j)) -> det2 q <> 0 -> stationary q v ->
  let r := (fst v / half ny ^ 2, snd v / half nx ^ 2) in
  (Rabs (fst r) <= 1 /\ Rabs (snd r) <= 1 -> refine_max_position_2d c ny nx None None = inr r) /\
  (~ (Rabs (fst r) <= 1 /\ Rabs (snd r) <= 1) -> refine_max_position_2d c ny nx None None = inl ValueError).
Proof.
  intros ny nx f c q v Hy Hx Lq F E D S r. pose proof (half_pos ny Hy) as Py. pose proof (half_pos nx Hx) as Px.
  assert (U : c = rescale2 (half ny) (half nx) q).
  { apply (fits2_unique ny nx (unit_grid ny) (unit_grid nx) f); try assumption; try reflexivity.
    - intros i j Hij. apply unit_grid_inj; lia.
    - intros i j Hij. apply unit_grid_inj; lia.
    - intros i j Hi Hj. rewrite E by assumption. rewrite !centred_unit by lia. unfold quad2, rescale2. cbn [nth]. ring. }
  assert (V : vertex2 (rescale2 (half ny) (half nx) c) = r).
  { rewrite U. unfold r. rewrite <- (stationary_unique q v D S). unfold vertex2, det2, rescale2 in *. cbn [nth fst snd].
    f_equal; field; (repeat split; try lra; intros Z0; apply D; try lra).
    all: (assert (Z1 : (4 * nth 4 q 0 * nth 5 q 0 - nth 3 q 0 ^ 2) * (half ny ^ 4 * half nx ^ 4) = 0) by (eapply eq_trans; [|exact Z0]; ring);
          apply Rmult_integral in Z1 as [|Z1]; [lra|exfalso; assert (0 < half ny ^ 4 * half nx ^ 4) by (apply Rmult_lt_0_compat; apply pow_lt; lra); lra]). }
  destruct (refine2_result c ny nx None None r V) as [R1 R2]. cbn [axis2] in *. fold (half ny) (half nx) in *.
  destruct (rmin_unit ny ltac:(lia)) as [y1 y2]. destruct (rmin_unit nx ltac:(lia)) as [x1 x2]. unfold inside in R1, R2. rewrite y1, y2, x1, x2 in R1, R2.
  split; intros H.
  - apply R1. destruct H as [H1 H2]. pose proof (Rle_abs (fst r)). pose proof (Rle_abs (- fst r)). pose proof (Rle_abs (snd r)). pose proof (Rle_abs (- snd r)). rewrite !Rabs_Ropp in *. lra.
  - apply R2. intros [Q1 Q2]. apply H. split; apply Rabs_le; lra.
Qed.
(** so it is right on 3 x 3 grids, the only size the package uses it with *)
Corollary C83_three_by_three : forall f c q v, length q = 6%nat -> fits2 3 3 (unit_grid 3) (unit_grid 3) f c ->
  (forall i j, (i < 3)%nat -> (j < 3)%nat -> f i j = quad2 q (INR i - 1) (INR j - 1)) -> det2 q <> 0 -> stationary q v ->
  Rabs (fst v) <= 1 -> Rabs (snd v) <= 1 -> refine_max_position_2d c 3 3 None None = inr v.
Proof.
  intros f c q v Lq F E D S H1 H2.
  destruct (C83_default_coordinates 3 3 f c q v ltac:(lia) ltac:(lia) Lq F) as [R1 _]; try assumption.
  - intros i j Hi Hj. rewrite !centred3. now apply E.
  - replace (half 3) with 1 in R1 by (unfold half; simpl; lra). replace (fst v / 1 ^ 2) with (fst v) in R1 by field. replace (snd v / 1 ^ 2) with (snd v) in R1 by field.
    rewrite R1 by (cbn; split; assumption). now destruct v.
Qed.
(** REFUTED for other sizes: samples of - (y - 1)^2 - x^2 on a 5 x 5 grid (centre at 0): the vertex (1, 0) is returned as (1/4, 0) *)
Definition q_demo : list R := [-1; 2; 0; 0; -1; -1].
Theorem C83_grid_refuted : forall c, fits2 5 5 (unit_grid 5) (unit_grid 5) (fun i j => - (centred 5 i - 1) ^ 2 - centred 5 j ^ 2) c ->
  stationary q_demo (1, 0) /\ (forall y x, quad2 q_demo y x = - (y - 1) ^ 2 - x ^ 2) /\ refine_max_position_2d c 5 5 None None = inr (1 / 4, 0).
Proof.
  intros c F. assert (S : stationary q_demo (1, 0)) by (unfold stationary, q_demo; cbn; lra).
  assert (Q : forall y x, quad2 q_demo y x = - (y - 1) ^ 2 - x ^ 2) by (intros; unfold quad2, q_demo; cbn [nth]; ring).
  split; [exact S|]. split; [exact Q|].
  destruct (C83_default_coordinates 5 5 _ c q_demo (1, 0) ltac:(lia) ltac:(lia) eq_refl F) as [R1 _]; [intros; now rewrite Q|unfold det2, q_demo; cbn; lra|exact S|].
  cbn [fst snd] in R1. replace (half 5) with 2 in R1 by (unfold half; simpl; lra).
  replace (1 / 2 ^ 2) with (1 / 4) in R1 by (simpl; field). replace (0 / 2 ^ 2) with 0 in R1 by (simpl; field).
  apply R1. rewrite Rabs_R0, Rabs_right by lra. lra.
Qed.
Example C83_example : fits2 5 5 (unit_grid 5) (unit_grid 5) (fun i j => - (centred 5 i - 1) ^ 2 - centred 5 j ^ 2) [-1; 4; 0; 0; -4; -4].
Proof.
  split; [reflexivity|]. intros c' _. rewrite rsum_zero.
  - apply rsum_nonneg. intros. apply rsum_nonneg. intros. apply pow2_ge_0.
  - intros i Hi. apply rsum_zero. intros j Hj. rewrite !centred_unit by lia. replace (half 5) with 2 by (unfold half; simpl; lra).
    unfold quad2. cbn [nth]. match goal with |- ?a ^ 2 = 0 => replace a with 0 by ring end. ring.
Qed.
