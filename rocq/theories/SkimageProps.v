(** Properties of the scikit-image backend (model: SkimageModel.v).  [radon1 a b t im] and [smear m N t line] stand for what
    scikit-image computes for one angle; the theorems hold for every such pair of functions. *)
From Coq Require Import Reals Lra Lia List ZArith Bool.
Import ListNotations.
From Verif Require Import Sums PyErr Arrays Rounding GeometryModel BackendsModel ConeBeamModel SkimageModel.
Open Scope R_scope.

(** an n x n image as an array of two indices *)
Definition as_img (x : arr) : nat -> nat -> R := fun i j => x [i; j].

(** ** construction *)
Theorem C211_accepted : forall g angles shift pg,
  (is_3D g = false /\ shift = None /\ pg = None -> exists r, sk_init g angles shift pg = inr r) /\
  (is_3D g = true \/ shift <> None \/ pg <> None -> sk_init g angles shift pg = inl ValueError).
Proof.
  intros g angles shift pg. unfold sk_init. split.
  - intros (A & -> & ->). rewrite A. eexists. reflexivity.
  - intros [A | [A | A]]; destruct (is_3D g); try discriminate; try reflexivity; destruct shift; try (now destruct A); try reflexivity; destruct pg; try (now destruct A); reflexivity.
Qed.
Lemma eff_unit : forall n, Z.to_nat (rfloor (INR n * 1)) = n.
Proof. intros n. rewrite Rmult_1_r, INR_IZR_INZ, rfloor_IZR. apply Nat2Z.id. Qed.
(** the shape announced for an n x n volume of unit voxels, and the angles, in degrees *)
Theorem C211_shape : forall n angles,
  sk_init (mkVG [n; n] 1) angles None None = inr ([List.length angles; n], map (fun a => a * 180 / PI) angles).
Proof. intros. unfold sk_init, base_prj_shape, vol_eff, shape_zxy, is_3D. cbn [vg_xyz vg_vox rev app List.length Nat.eqb Nat.sub firstn nth map last andb given]. rewrite !eff_unit. reflexivity. Qed.
(** half voxels of an even volume: half the samples *)
Theorem C211_shape_half : forall h angles,
  sk_init (mkVG [2 * h; 2 * h]%nat (/ 2)) angles None None = inr ([List.length angles; h], map (fun a => a * 180 / PI) angles).
Proof.
  intros. assert (E : Z.to_nat (rfloor (INR (2 * h) * / 2)) = h).
  { replace (INR (2 * h) * / 2) with (INR h) by (rewrite mult_INR; change (INR 2) with 2; lra). rewrite INR_IZR_INZ, rfloor_IZR. apply Nat2Z.id. }
  unfold sk_init, base_prj_shape, vol_eff, shape_zxy, is_3D. cbn [vg_xyz vg_vox rev app List.length Nat.eqb Nat.sub firstn nth map last andb given]. rewrite !E. reflexivity.
Qed.

Section Props.
Variable radon1 : nat -> nat -> R -> (nat -> nat -> R) -> nat -> R.
Variable smear : nat -> nat -> R -> (nat -> R) -> nat -> nat -> R.
Local Notation fp := (sk_fp radon1).
Local Notation bp := (sk_bp smear).
(** the size of the announced sinogram, [unit voxels] *)
Local Notation ps n theta := [List.length theta; n].

(** ** slices *)
Lemma clip_in : forall n i, (0 <= i <= Z.of_nat n)%Z -> clip n i = Z.to_nat i.
Proof. intros. unfold clip. destruct (Z.ltb_spec i 0); [lia|]. rewrite Z.min_r by lia. reflexivity. Qed.
Lemma skipn_one : forall (l : list R) k, (k < List.length l)%nat -> firstn 1 (skipn k l) = [nth k l 0].
Proof. induction l as [|a l IH]; intros k Hk; cbn [List.length] in Hk; [lia|]. destruct k; [reflexivity|]. cbn [skipn nth]. apply IH. lia. Qed.
Lemma slice_nonneg : forall (l : list R) i, (0 <= i < Z.of_nat (List.length l))%Z -> py_slice l i (i + 1) = [nth (Z.to_nat i) l 0].
Proof.
  intros l i Hi. unfold py_slice. rewrite !clip_in by lia. replace (Z.to_nat (i + 1) - Z.to_nat i)%nat with 1%nat by lia.
  apply skipn_one. lia.
Qed.
Lemma slice_neg : forall (l : list R) i, (- Z.of_nat (List.length l) <= i <= -2)%Z ->
  py_slice l i (i + 1) = [nth (Z.to_nat (Z.of_nat (List.length l) + i)) l 0].
Proof.
  intros l i Hi. unfold py_slice, clip. destruct (Z.ltb_spec i 0); [|lia]. destruct (Z.ltb_spec (i + 1) 0); [|lia].
  replace (Z.to_nat (Z.min (Z.of_nat (List.length l)) (Z.max 0 (Z.of_nat (List.length l) + (i + 1)))) - Z.to_nat (Z.min (Z.of_nat (List.length l)) (Z.max 0 (Z.of_nat (List.length l) + i))))%nat with 1%nat by lia.
  rewrite skipn_one by lia. do 2 f_equal. lia.
Qed.
Lemma slice_empty : forall (l : list R) i, (i = -1 \/ Z.of_nat (List.length l) <= i \/ i < - Z.of_nat (List.length l))%Z -> py_slice l i (i + 1) = [].
Proof.
  intros l i Hi. unfold py_slice.
  replace (clip (List.length l) (i + 1) - clip (List.length l) i)%nat with 0%nat; [reflexivity|].
  unfold clip. destruct (Z.ltb_spec i 0), (Z.ltb_spec (i + 1) 0); lia.
Qed.

Lemma squeeze_col : forall n, (2 <= n)%nat -> squeeze [n; 1%nat] = [n].
Proof. intros. unfold squeeze. cbn [filter]. destruct (Nat.eqb_spec n 1); [lia|]. reflexivity. Qed.
Lemma unsqueeze_col : forall n u, (2 <= n)%nat -> unsqueeze [n; 1%nat] [u] = [u; 0%nat].
Proof. intros. cbn [unsqueeze]. destruct (Nat.eqb_spec n 1); [lia|]. reflexivity. Qed.

(** ** forward projection: one row per angle, each the single-angle projection *)
Lemma fp_rows_spec : forall n x theta im, (2 <= n)%nat ->
  fp_rows radon1 im n [n; n] x theta = inr (map (fun a u => store (given im) (radon1 n n a (fun i j => match im with Some M => x [i; j] * / M | None => x [i; j] end) u)) theta).
Proof.
  intros n x theta im Hn. induction theta as [|a l IH]; [reflexivity|]. cbn [fp_rows map]. unfold radon at 1.
  cbn [List.length]. rewrite Nat.min_id, squeeze_col by exact Hn. unfold assign_row at 1. rewrite Nat.eqb_refl. rewrite IH.
  unfold sq_arr. do 2 f_equal. apply Coq.Logic.FunctionalExtensionality.functional_extensionality. intros u. rewrite unsqueeze_col by exact Hn. reflexivity.
Qed.
Lemma nth_map_line : forall (f : R -> nat -> R) theta k, (k < List.length theta)%nat -> nth k (map f theta) (fun _ => 0) = f (nth k theta 0).
Proof. intros f theta. induction theta as [|a l IH]; intros k Hk; cbn [List.length] in Hk; [lia|]. destruct k; [reflexivity|]. cbn [map nth]. apply IH. lia. Qed.

Theorem C211_fp_rows : forall n x theta, (2 <= n)%nat ->
  exists p : arr, fp (ps n theta) theta None [n; n] x None = inr (ps n theta, p) /\
  forall k, (k < List.length theta)%nat ->
    (forall u, p [k; u] = radon1 n n (nth k theta 0) (as_img x) u) /\
    exists line : arr, fp (ps n theta) theta None [n; n] x (Some (Z.of_nat k)) = inr ([n], line) /\ forall u, line [u] = p [k; u].
Proof.
  intros n x theta Hn. eexists. split.
  - unfold sk_fp. cbn [last]. rewrite fp_rows_spec by exact Hn. reflexivity.
  - intros k Hk. cbn [nth].
    assert (E : forall u, nth k (map (fun a u0 => store (given (@None R)) (radon1 n n a (fun i j => x [i; j]) u0)) theta) (fun _ => 0) u = radon1 n n (nth k theta 0) (as_img x) u).
    { intros u. rewrite (nth_map_line (fun a u0 => store (given (@None R)) (radon1 n n a (fun i j => x [i; j]) u0)) theta k Hk). reflexivity. }
    split; [exact E|]. eexists. split.
    + unfold sk_fp. rewrite slice_nonneg by lia. rewrite Nat2Z.id. unfold radon. cbn [List.length]. rewrite Nat.min_id, squeeze_col by exact Hn. reflexivity.
    + intros u. rewrite E. unfold sq_arr. rewrite unsqueeze_col by exact Hn. reflexivity.
Qed.

(** ** back-projection: the plain sum of the single-angle back-projections; the factor pi/2 of iradon is undone *)
Lemma smear_back : forall s, s * (PI / (2 * 1)) * 2 / PI = s.
Proof. intros. field. apply PI_neq0. Qed.
Lemma bp_rows_spec : forall n y theta k w b, (1 <= n)%nat -> (k + List.length theta <= w)%nat ->
  exists vols, bp_rows smear b [n; n] w n y k theta = inr vols /\
  forall i j, (i < n)%nat -> (j < n)%nat -> fold_right (fun (v : arr) acc => v [i; j] + acc) 0 vols =
    rsum (List.length theta) (fun q => store b (smear n n (nth q theta 0) (fun u => y [(k + q)%nat; u]) i j * (PI / (2 * 1)))).
Proof.
  intros n y theta. induction theta as [|a l IH]; intros k w b Hn Hk.
  - exists []. split; reflexivity.
  - cbn [List.length] in Hk. destruct (IH (S k) w b Hn ltac:(lia)) as (vols & E & F).
    cbn [bp_rows]. destruct (Nat.leb_spec w k); [lia|]. cbn [last iradon]. unfold assign_img at 1. cbn [List.length Nat.sub nth]. rewrite Nat.eqb_refl. cbn [andb orb].
    rewrite E. eexists. split; [reflexivity|]. intros i j Hi Hj. cbn [fold_right]. rewrite F by assumption. cbn [List.length Nat.sub nth].
    rewrite rsum_S_l. rewrite Nat.add_0_r. f_equal.
    + destruct (Nat.eqb_spec n 1) as [->|]; [|reflexivity]. replace i with 0%nat by lia. replace j with 0%nat by lia. reflexivity.
    + apply rsum_ext. intros q Hq. rewrite Nat.add_succ_r. reflexivity.
Qed.
Theorem C211_bp_sum : forall n y theta, (1 <= n)%nat ->
  exists v : arr, bp [n; n] theta false (ps n theta) y None = inr ([n; n], v) /\
  (forall i j, (i < n)%nat -> (j < n)%nat -> v [i; j] = rsum (List.length theta) (fun k => smear n n (nth k theta 0) (fun u => y [k; u]) i j)) /\
  forall k, (k < List.length theta)%nat ->
    exists vk : arr, bp [n; n] theta false [n] (fun q => y [k; nth 0 q 0%nat]) (Some (Z.of_nat k)) = inr ([n; n], vk) /\
    forall i j, vk [i; j] = smear n n (nth k theta 0) (fun u => y [k; u]) i j.
Proof.
  intros n y theta Hn. destruct (bp_rows_spec n y theta 0 (List.length theta) false Hn ltac:(lia)) as (vols & E & F).
  eexists. split; [unfold sk_bp; rewrite E; reflexivity|]. split.
  - intros i j Hi Hj. cbv beta. rewrite F by assumption.
    rewrite (rsum_ext (List.length theta) _ (fun k => smear n n (nth k theta 0) (fun u => y [k; u]) i j * (PI / (2 * 1)))) by (intros; reflexivity).
    rewrite rsum_scal_r. apply smear_back.
  - intros k Hk. eexists. split.
    + unfold sk_bp. rewrite slice_nonneg by lia. rewrite Nat2Z.id. cbn [iradon last]. reflexivity.
    + intros i j. cbn [nth]. apply smear_back.
Qed.

(** ** adjointness: if smearing is the adjoint of the projection, angle by angle, then [bp] is the adjoint of [fp] *)
Definition per_angle_adjoint (n : nat) (theta : list R) : Prop :=
  forall a im line, In a theta -> rsum n (fun u => radon1 n n a im u * line u) = rsum n (fun i => rsum n (fun j => im i j * smear n n a line i j)).
Theorem C211_adjoint : forall n x y theta p v, (2 <= n)%nat -> per_angle_adjoint n theta ->
  fp (ps n theta) theta None [n; n] x None = inr (ps n theta, p) -> bp [n; n] theta false (ps n theta) y None = inr ([n; n], v) ->
  rsum (List.length theta) (fun k => rsum n (fun u => p [k; u] * y [k; u])) = rsum n (fun i => rsum n (fun j => x [i; j] * v [i; j])).
Proof.
  intros n x y theta p v Hn A P V. destruct (C211_fp_rows n x theta Hn) as (p' & P' & HP). destruct (C211_bp_sum n y theta ltac:(lia)) as (v' & V' & HV & _).
  rewrite P' in P. injection P as <-. rewrite V' in V. injection V as <-.
  transitivity (rsum (List.length theta) (fun k => rsum n (fun i => rsum n (fun j => x [i; j] * smear n n (nth k theta 0) (fun u => y [k; u]) i j)))).
  - apply rsum_ext. intros k Hk. destruct (HP k Hk) as [E _]. transitivity (rsum n (fun u => radon1 n n (nth k theta 0) (as_img x) u * y [k; u])); [|exact (A (nth k theta 0) (as_img x) (fun u => y [k; u]) (nth_In theta 0 Hk))]. apply rsum_ext. intros u _. rewrite E. reflexivity.
  - rewrite rsum_swap. apply rsum_ext. intros i Hi. rewrite rsum_swap. apply rsum_ext. intros j Hj. rewrite HV by assumption. rewrite <- rsum_scal. reflexivity.
Qed.

(** ** one angle: which projection an index selects *)
Theorem C211_single_angle : forall n x y theta i, (2 <= n)%nat -> (- Z.of_nat (List.length theta) <= i < Z.of_nat (List.length theta))%Z -> i <> (-1)%Z ->
  let k := Z.to_nat (if (i <? 0)%Z then Z.of_nat (List.length theta) + i else i) in
  (exists l : arr, fp (ps n theta) theta None [n; n] x (Some i) = inr ([n], l) /\ forall u, l [u] = radon1 n n (nth k theta 0) (as_img x) u) /\
  (exists v : arr, bp [n; n] theta false [n] y (Some i) = inr ([n; n], v) /\ forall r c, v [r; c] = smear n n (nth k theta 0) (fun u => y [u]) r c).
Proof.
  intros n x y theta i Hn Hi Hi1 k.
  assert (E : py_slice theta i (i + 1) = [nth k theta 0]).
  { unfold k. destruct (Z.ltb_spec i 0); [apply slice_neg; lia|apply slice_nonneg; lia]. }
  split; eexists; (split; [|]).
  - unfold sk_fp. rewrite E. unfold radon. cbn [List.length]. rewrite Nat.min_id, squeeze_col by exact Hn. reflexivity.
  - intros u. unfold sq_arr. rewrite unsqueeze_col by exact Hn. reflexivity.
  - unfold sk_bp. rewrite E. cbn [iradon last]. reflexivity.
  - intros r c. cbn [nth]. apply smear_back.
Qed.
(** index -1 (in range for a Python sequence) and indices out of range: [fp] returns, without complaint, an array with no samples;
    [bp] raises *)
Theorem C211_minus_one_refuted : forall n x y theta i N, (2 <= n)%nat -> (i = -1 \/ Z.of_nat (List.length theta) <= i \/ i < - Z.of_nat (List.length theta))%Z ->
  (exists l : arr, fp (ps n theta) theta None [n; n] x (Some i) = inr ([n; 0%nat], l)) /\ bp [n; n] theta false [N] y (Some i) = inl ValueError.
Proof.
  intros n x y theta i N Hn Hi. rewrite <- and_comm. split.
  - unfold sk_bp. rewrite slice_empty by exact Hi. reflexivity.
  - eexists. unfold sk_fp. rewrite slice_empty by exact Hi. unfold radon. rewrite Nat.min_id. cbn [List.length]. unfold squeeze. cbn [filter].
    destruct (Nat.eqb_spec n 1); [lia|]. reflexivity.
Qed.

(** ** voxels of another size, with another number of samples: the announced shape cannot be filled *)
Theorem C211_voxel_size_refuted : forall n m x theta, (2 <= n)%nat -> m <> n -> theta <> [] ->
  fp (ps m theta) theta None [n; n] x None = inl ValueError /\
  (forall k, (k < List.length theta)%nat -> exists l : arr, fp (ps m theta) theta None [n; n] x (Some (Z.of_nat k)) = inr ([n], l)).
Proof.
  intros n m x theta Hn Hm Ht. split.
  - destruct theta as [|a l]; [now destruct Ht|]. unfold sk_fp. cbn [last fp_rows]. unfold radon. cbn [List.length]. rewrite Nat.min_id, squeeze_col by exact Hn.
    unfold assign_row. destruct (Nat.eqb_spec n m); [lia|]. destruct (Nat.eqb_spec n 1); [lia|]. reflexivity.
  - intros k Hk. eexists. unfold sk_fp. rewrite slice_nonneg by lia. unfold radon. cbn [List.length]. rewrite Nat.min_id, squeeze_col by exact Hn. reflexivity.
Qed.
(** a volume of one slice, [n, n, 1]: accepted by the constructor, refused by every projection *)
Theorem C211_one_slice_refuted : forall n x angles i,
  (exists r, sk_init (mkVG [n; n; 1%nat] 1) angles None None = inr r) /\
  shape_zxy (mkVG [n; n; 1%nat] 1) = [1; n; n]%nat /\
  forall r, angles <> [] -> fp r (map (fun a => a * 180 / PI) angles) None [1; n; n]%nat x i = inl ValueError.
Proof.
  intros n x angles i. split; [|split].
  - eexists. reflexivity.
  - reflexivity.
  - intros r Ha. destruct angles as [|a l]; [now destruct Ha|]. destruct i; reflexivity.
Qed.

(** ** integer arrays *)
Lemma trunc0_small : forall t, Rabs t < 1 -> trunc0 t = 0%Z.
Proof.
  intros t H. apply Rabs_def2 in H. destruct H as [H1 H2]. unfold trunc0. destruct (Rle_dec 0 t).
  - rewrite <- (rfloor_unique t 0) by (simpl; lra). unfold rfloor. reflexivity.
  - assert (X : Int_part (- t) = 0%Z) by (rewrite <- (rfloor_unique (- t) 0) by (simpl; lra); reflexivity). rewrite X. reflexivity.
Qed.
(** integer volumes: unless a projection reaches the largest integer of the dtype, every sinogram is zero, while the single-angle
    projections are not *)
Theorem C211_integer_volume_refuted : forall n x theta M, (2 <= n)%nat -> 0 < M ->
  (forall a im u c, radon1 n n a (fun i j => im i j * c) u = radon1 n n a im u * c) ->
  (forall a u, In a theta -> Rabs (radon1 n n a (as_img x) u) < M) ->
  exists p : arr, fp (ps n theta) theta (Some M) [n; n] x None = inr (ps n theta, p) /\
  forall k, (k < List.length theta)%nat ->
    (forall u, p [k; u] = 0) /\
    exists l : arr, fp (ps n theta) theta (Some M) [n; n] x (Some (Z.of_nat k)) = inr ([n], l) /\ forall u, l [u] = radon1 n n (nth k theta 0) (as_img x) u / M.
Proof.
  intros n x theta M Hn HM Hlin Hsmall. eexists. split.
  - unfold sk_fp. cbn [last]. rewrite fp_rows_spec by exact Hn. reflexivity.
  - intros k Hk. split.
    + intros u. cbn [nth]. rewrite (nth_map_line (fun a u0 => store (given (Some M)) (radon1 n n a (fun i j => x [i; j] * / M) u0)) theta k Hk).
      cbn [given]. unfold store. rewrite (Hlin _ (fun i j => x [i; j])). rewrite trunc0_small; [reflexivity|].
      rewrite Rabs_mult, (Rabs_right (/ M)) by (apply Rle_ge, Rlt_le, Rinv_0_lt_compat; exact HM).
      apply (Rmult_lt_reg_r M); [exact HM|]. rewrite Rmult_assoc, Rinv_l, Rmult_1_r, Rmult_1_l by lra. apply (Hsmall (nth k theta 0) u (nth_In theta 0 Hk)).
    + eexists. split.
      * unfold sk_fp. rewrite slice_nonneg by lia. rewrite Nat2Z.id. unfold radon. cbn [List.length]. rewrite Nat.min_id, squeeze_col by exact Hn. reflexivity.
      * intros u. unfold sq_arr. rewrite unsqueeze_col by exact Hn. cbn [nth]. rewrite (Hlin _ (fun i j => x [i; j])). reflexivity.
Qed.
Lemma PI_lt4 : PI < 4.
Proof. destruct (PI_ineq 1) as [_ H]. unfold tg_alt, PI_tg in H. cbn [sum_f_R0 Nat.mul Nat.add pow INR] in H. lra. Qed.
(** integer sinograms: every angle is truncated on its own, before the factor 2/pi: a pixel where each of the w angles smears exactly 1
    gets 2 w / pi instead of w *)
Theorem C211_integer_sinogram_refuted : forall n y theta, (1 <= n)%nat ->
  exists v : arr, bp [n; n] theta true (ps n theta) y None = inr ([n; n], v) /\
  forall i j, (i < n)%nat -> (j < n)%nat -> (forall k, (k < List.length theta)%nat -> smear n n (nth k theta 0) (fun u => y [k; u]) i j = 1) ->
    v [i; j] = INR (List.length theta) * 2 / PI.
Proof.
  intros n y theta Hn. destruct (bp_rows_spec n y theta 0 (List.length theta) true Hn ltac:(lia)) as (vols & E & F).
  eexists. split; [unfold sk_bp; rewrite E; reflexivity|]. intros i j Hi Hj H. cbv beta. rewrite F by assumption.
  rewrite (rsum_ext (List.length theta) _ (fun _ => 1)).
  - rewrite rsum_const. lra.
  - intros k Hk. cbn [Nat.add]. rewrite H by exact Hk. replace (1 * (PI / (2 * 1))) with (PI / 2) by field. unfold store, trunc0. destruct (Rle_dec 0 (PI / 2)) as [L|L].
    + assert (X : rfloor (PI / 2) = 1%Z). { pose proof PI_lt4. pose proof PI2_1. apply rfloor_unique. split; lra. }
      unfold rfloor in X. rewrite X. reflexivity.
    + exfalso. apply L. pose proof PI_RGT_0. lra.
Qed.
End Props.

(** ** a concrete case: projection along the first axis, and its adjoint *)
Definition columns : nat -> nat -> R -> (nat -> nat -> R) -> nat -> R := fun a b _ im u => rsum a (fun i => im i u).
Definition spread : nat -> nat -> R -> (nat -> R) -> nat -> nat -> R := fun _ _ _ line _ j => line j.
Theorem C211_adjoint_example : forall n theta, per_angle_adjoint columns spread n theta.
Proof.
  intros n theta a im line _. unfold columns, spread. rewrite rsum_swap. apply rsum_ext. intros u _. rewrite <- rsum_scal_r. reflexivity.
Qed.
(** hence, with constant lines: two angles of ones, sizes 3: the float back-projection is 2 everywhere, the integer one 4/pi *)
Theorem C211_integer_example : exists v w : arr,
  sk_bp spread [3; 3]%nat [0; 90] false [2; 3]%nat (fun _ => 1) None = inr ([3; 3]%nat, v) /\ v [1; 2]%nat = 2 /\
  sk_bp spread [3; 3]%nat [0; 90] true [2; 3]%nat (fun _ => 1) None = inr ([3; 3]%nat, w) /\ w [1; 2]%nat = 4 / PI.
Proof.
  destruct (C211_bp_sum spread 3 (fun _ => 1) [0; 90] ltac:(lia)) as (v & V & HV & _).
  destruct (C211_integer_sinogram_refuted spread 3 (fun _ => 1) [0; 90] ltac:(lia)) as (u & U & HU).
  exists v, u. split; [exact V|]. split; [|split; [exact U|]].
  - rewrite HV by lia. unfold spread. cbn [List.length rsum]. lra.
  - rewrite HU; [cbn [List.length INR]; field; apply PI_neq0|lia|lia|]. intros k _. reflexivity.
Qed.
