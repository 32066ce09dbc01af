(** C55, C108, C110: geometry set-up of the backends and the attenuation maps. *)
From Coq Require Import Lia Lra.
From Verif Require Import Sums Rounding PyErr GeometryModel BackendsModel.
Import ListNotations.
Local Open Scope R_scope.

(** * C108: what initialize_geometry does with the caller's ProjectionGeometry *)
Definition leaves_caller_geometry (setup : vol_geom -> nat -> prj_geom -> list nat * prj_geom) : Prop :=
  forall g n pg, snd (setup g n pg) = pg.
Theorem C108_direct_leaves_geometry : leaves_caller_geometry direct_setup.
Proof. intros g n pg. reflexivity. Qed.
Theorem C108_given_shape_untouched g n pg d : g_shape pg = Some d -> snd (astra_setup g n pg) = pg.
Proof. intros H. unfold astra_setup. rewrite H. destruct (is_3D g); reflexivity. Qed.
(** 2-D parallel geometry without a detector shape *)
Definition pg2 : prj_geom := mkPG GParallel2d [V3 0 (-1) 0] [vzero] [V3 1 0 0] [V3 0 0 1] [V3 0 0 (-1)] 1 None.
Lemma floor_int n k : (INR n * 1 = IZR (Z.of_nat k)) -> Z.to_nat (rfloor (INR n * 1)) = k.
Proof. intros ->. rewrite rfloor_IZR. apply Nat2Z.id. Qed.
Theorem C108_mutates_geometry_refuted : ~ leaves_caller_geometry astra_setup.
Proof.
  intros H. specialize (H (mkVG [10; 10]%nat 1) 5%nat pg2). apply (f_equal g_shape) in H. cbn in H. discriminate.
Qed.
(** consequence: the same geometry object used for a second volume keeps the detector of the first one, while a fresh
    object would have given a detector matching the second volume *)
Theorem C108_stale_detector n m angles : n <> m ->
  let pg' := snd (astra_setup (mkVG [n; n] 1) angles pg2) in
  fst (astra_setup (mkVG [m; m] 1) angles pg2) = [angles; m] /\ fst (astra_setup (mkVG [m; m] 1) angles pg') = [angles; n].
Proof.
  intros Hn. assert (F : forall k, Z.to_nat (rfloor (INR k * 1)) = k) by (intros k; apply floor_int; rewrite Rmult_1_r; apply INR_IZR_INZ).
  cbv zeta. unfold astra_setup, base_prj_shape, vol_eff, shape_zxy, is_3D. cbn. rewrite !F. split; reflexivity.
Qed.
(** the projection shape: rows from the detector when it is given, else the effective volume size *)
Theorem C108_projection_shape g n pg x y : vg_xyz g = [x; y] ->
  fst (astra_setup g n pg) = [n; match g_shape pg with Some d => last d 0%nat | None => Z.to_nat (rfloor (INR y * vg_vox g)) end].
Proof.
  intros E. unfold astra_setup, base_prj_shape, vol_eff, shape_zxy, is_3D. rewrite E. cbn. destruct (g_shape pg); cbn; auto.
Qed.
Theorem C108_projection_shape_3d g n pg x y z : vg_xyz g = [x; y; z] -> (1 < z)%nat -> 
  fst (astra_setup g n pg) = match g_shape pg with
     | Some d => firstn (List.length d - 1) d ++ [n; last d 0%nat]
     | None => [Z.to_nat (rfloor (INR z * vg_vox g)); n; Z.to_nat (rfloor (INR y * vg_vox g))] end.
Proof.
  intros E Hz. unfold astra_setup, base_prj_shape, vol_eff, shape_zxy, is_3D. rewrite E. cbn [List.length Nat.eqb last andb].
  destruct (Nat.ltb_spec 1 z); [|lia]. destruct (g_shape pg); reflexivity.
Qed.

(** * C110: the two ASTRA interfaces for volumes with a voxel size other than 1 *)
Theorem C110_vectors_agree_iff w ratio vox : w <> vzero -> ratio <> 0 -> vox <> 0 ->
  (astra_vector w ratio vox = direct_vector w ratio vox <-> vox = 1).
Proof.
  intros Hw Hr Hv. unfold astra_vector, direct_vector, vscal. destruct w as [a b c]. cbn [vx vy vz].
  assert (Hri : / ratio <> 0) by (apply Rinv_neq_0_compat; assumption).
  split.
  - intros H. injection H as H1 H2 H3.
    assert (K : forall t, / vox * (/ ratio * t) = / ratio * t -> t <> 0 -> vox = 1).
    { intros t Ht Ht0. assert (Hp : / ratio * t <> 0) by (apply Rmult_integral_contrapositive_currified; assumption).
      assert (/ vox = 1) by (apply (Rmult_eq_reg_r (/ ratio * t)); [lra|assumption]).
      apply (f_equal Rinv) in H. rewrite Rinv_inv, Rinv_1 in H. assumption. }
    destruct (Req_dec a 0) as [->|Ha]; [|eauto]. destruct (Req_dec b 0) as [->|Hb]; [|eauto]. destruct (Req_dec c 0) as [->|Hc]; [|eauto].
    exfalso. apply Hw. reflexivity.
  - intros ->. rewrite Rinv_1, !Rmult_1_l. reflexivity.
Qed.
(** width covered by a detector made of [n] pixels spaced by the vector [u]; width of the volume *)
Definition det_width (npix : nat) (u : vec3) : R := INR npix * vnorm u.
Definition vol_width (n : nat) (vox : R) : R := INR n * vox.
Lemma vnorm_e1 c : 0 <= c -> vnorm (V3 c 0 0) = c.
Proof. intros H. unfold vnorm, vdot. cbn. replace (c * c + 0 * 0 + 0 * 0) with (c * c) by ring. apply sqrt_square. assumption. Qed.
Lemma floor_pix n vox : 0 < vox -> IZR (rfloor (INR n * vox)) = INR (Z.to_nat (rfloor (INR n * vox))).
Proof.
  intros H. rewrite (INR_IZR_INZ (Z.to_nat _)), Z2Nat.id; [reflexivity|]. apply rfloor_nonneg. apply Rmult_le_pos; [apply pos_INR|lra].
Qed.
(** the direct interface covers the volume up to one detector pixel *)
Theorem C110_direct_covers n vox : 0 < vox ->
  vol_width n vox - 1 < det_width (Z.to_nat (rfloor (INR n * vox))) (direct_vector (V3 1 0 0) 1 vox) <= vol_width n vox.
Proof.
  intros H. assert (E : direct_vector (V3 1 0 0) 1 vox = V3 1 0 0) by (unfold direct_vector, vscal; cbn; f_equal; field).
  rewrite E. unfold det_width, vol_width. rewrite vnorm_e1 by lra. rewrite Rmult_1_r, <- floor_pix by assumption.
  pose proof (rfloor_spec (INR n * vox)). lra.
Qed.
(** the traditional interface covers at most n units of a volume that is n * vox wide *)
Theorem C110_traditional_width n vox : 0 < vox ->
  det_width (Z.to_nat (rfloor (INR n * vox))) (astra_vector (V3 1 0 0) 1 vox) <= INR n.
Proof.
  intros H. assert (E : astra_vector (V3 1 0 0) 1 vox = V3 (/ vox) 0 0) by (unfold astra_vector, vscal; cbn; f_equal; field; lra).
  rewrite E. unfold det_width.
  assert (0 < / vox) by (apply Rinv_0_lt_compat; assumption). rewrite vnorm_e1 by lra. rewrite <- floor_pix by assumption.
  pose proof (rfloor_spec (INR n * vox)) as [Hf _].
  apply Rle_trans with (INR n * vox * / vox); [apply Rmult_le_compat_r; lra|]. right. field. lra.
Qed.
Definition detector_covers_volume (vector : vec3 -> R -> R -> vec3) : Prop := forall n vox, 0 < vox ->
  vol_width n vox - 1 <= det_width (Z.to_nat (rfloor (INR n * vox))) (vector (V3 1 0 0) 1 vox).
Theorem C110_direct_detector_covers : detector_covers_volume direct_vector.
Proof. intros n vox H. pose proof (C110_direct_covers n vox H). lra. Qed.
Theorem C110_traditional_detector_refuted : ~ detector_covers_volume astra_vector.
Proof.
  intros H. specialize (H 4%nat 2 ltac:(lra)). pose proof (C110_traditional_width 4 2 ltac:(lra)). unfold vol_width in H. simpl INR in *. lra.
Qed.
(** with unit voxels (the default) the two agree *)
Theorem C110_unit_voxels n : det_width (Z.to_nat (rfloor (INR n * 1))) (astra_vector (V3 1 0 0) 1 1) = vol_width n 1.
Proof.
  assert (E : astra_vector (V3 1 0 0) 1 1 = V3 1 0 0) by (unfold astra_vector, vscal; cbn; f_equal; field).
  rewrite E. unfold det_width, vol_width. rewrite vnorm_e1 by lra. rewrite <- floor_pix by lra. rewrite !Rmult_1_r.
  rewrite INR_IZR_INZ, rfloor_IZR. reflexivity.
Qed.

(** * C55: attenuation maps *)
(** shape: the map has exactly the shape of the volume *)
Lemma edge_pos h w n : (1 <= h)%nat -> (1 <= w)%nat -> (n = h \/ n = w) -> (1 <= att_edge h w n)%nat.
Proof.
  intros Hh Hw Hn. assert (H1 : 1 <= INR h) by (apply (le_INR 1); assumption). assert (H2 : 1 <= INR w) by (apply (le_INR 1); assumption).
  assert (Hs : INR n < sqrt (INR h * INR h + INR w * INR w)).
  { assert (0 <= INR n) by apply pos_INR. rewrite <- (sqrt_square (INR n)) at 1 by assumption. apply sqrt_lt_1.
    - apply Rmult_le_pos; assumption.
    - nra.
    - destruct Hn; subst n; nra. }
  unfold att_edge, nceil, att_min_size. pose proof (rceil_spec (sqrt (INR h * INR h + INR w * INR w))) as [_ Hc].
  match goal with |- (1 <= Z.to_nat (rceil ?t))%nat => pose proof (rceil_spec t) as [_ Hc2]; assert (Ht : 0 < t) by lra; assert (Hz : 0 < IZR (rceil t)) by lra end.
  apply lt_IZR in Hz. lia.
Qed.
Theorem C55_shape shape : (2 <= List.length shape)%nat ->
  (forall k, (k < List.length shape)%nat -> (1 <= nth k shape 0)%nat) -> att_shape shape = shape.
Proof.
  intros HL Hp. set (n := List.length shape) in *. unfold att_shape. fold n.
  assert (Hh := Hp (n - 2)%nat ltac:(lia)). assert (Hw := Hp (n - 1)%nat ltac:(lia)).
  assert (C : forall m, m = nth (n - 2) shape 0%nat \/ m = nth (n - 1) shape 0%nat ->
            crop_len m (att_edge (nth (n - 2) shape 0%nat) (nth (n - 1) shape 0%nat) m) = m).
  { intros m Hm. unfold crop_len. pose proof (edge_pos _ _ m Hh Hw Hm). destruct (Nat.eqb_spec (att_edge (nth (n - 2) shape 0%nat) (nth (n - 1) shape 0%nat) m) 0); [lia|]. lia. }
  rewrite !C by auto.
  rewrite <- (firstn_skipn (n - 2) shape) at 4. f_equal.
  assert (L2 : List.length (skipn (n - 2) shape) = 2%nat) by (rewrite skipn_length; fold n; lia).
  assert (N : forall k, nth k (skipn (n - 2) shape) 0%nat = nth (n - 2 + k) shape 0%nat).
  { intros k. rewrite <- (firstn_skipn (n - 2) shape) at 2. rewrite app_nth2; rewrite firstn_length; fold n; [|lia]. f_equal. lia. }
  destruct (skipn (n - 2) shape) as [|a [|b [|]]]; try discriminate. pose proof (N 0%nat) as N0. pose proof (N 1%nat) as N1. cbn in N0, N1.
  rewrite N0, N1. f_equal; [f_equal; lia|]. f_equal. f_equal. lia.
Qed.
(** The slice is padded far enough to be turned by any angle -- to at least its diagonal -- and by less than three pixels more. *)
Theorem C55_padding h w n : (1 <= h)%nat -> (1 <= w)%nat -> (n = h \/ n = w) ->
  sqrt (INR h * INR h + INR w * INR w) <= INR (n + 2 * att_edge h w n) < sqrt (INR h * INR h + INR w * INR w) + 3.
Proof.
  intros Hh Hw Hn. pose proof (edge_pos h w n Hh Hw Hn) as P. unfold att_edge, nceil, att_min_size in *.
  set (D := sqrt (INR h * INR h + INR w * INR w)) in *. pose proof (rceil_spec D) as C. set (t := (IZR (rceil D) - INR n) / 2) in *. pose proof (rceil_spec t) as Ct.
  assert (E : INR (Z.to_nat (rceil t)) = IZR (rceil t)).
  { rewrite INR_IZR_INZ, Z2Nat.id; [reflexivity|]. destruct (Z.le_gt_cases 0 (rceil t)) as [Q|Q]; [exact Q|]. exfalso. rewrite (Z2Nat.inj_neg (Z.pos xH)) in P || (assert (Z.to_nat (rceil t) = 0%nat) by lia; lia). }
  rewrite plus_INR, mult_INR, E. cbn [INR]. unfold t in *. lra.
Qed.
Example C55_shape_witness : att_shape [3; 4; 5]%nat = [3; 4; 5]%nat.
Proof. apply C55_shape; [simpl; lia|]. intros k Hk. simpl in Hk. destruct k as [|[|[|]]]; simpl; lia. Qed.

(** image rotation by interpolation: every output sample is a combination of the input samples with non-negative weights
    (order=1, mode constant, cval=0, clip=False) *)
Definition interpolating (H W : nat) (rot : R -> img -> img) : Prop :=
  exists wt : R -> nat -> nat -> nat -> nat -> R,
    (forall a i j k l, 0 <= wt a i j k l) /\
    forall a x i j, rot a x i j = rsum H (fun k => rsum W (fun l => wt a i j k l * x k l)).
Definition padded (h w n : nat) : nat := (n + 2 * att_edge h w n)%nat.
(** the rotation of the padded slice *)
Definition good_rot (h w : nat) (rot : R -> img -> img) : Prop := interpolating (padded h w h) (padded h w w) rot.

Lemma rot_lin H W rot : interpolating H W rot -> forall a x y i j,
  rot a (fun p q => x p q + y p q) i j = rot a x i j + rot a y i j.
Proof.
  intros (wt & _ & E) a x y i j. rewrite !E, <- rsum_plus. apply rsum_ext. intros k _. rewrite <- rsum_plus. apply rsum_ext. intros l _. ring.
Qed.
Lemma rot_mono H W rot : interpolating H W rot -> forall a x y i j,
  (forall k l, (k < H)%nat -> (l < W)%nat -> x k l <= y k l) -> rot a x i j <= rot a y i j.
Proof.
  intros (wt & P & E) a x y i j Hxy. rewrite !E. apply rsum_le. intros k Hk. apply rsum_le. intros l Hl.
  apply Rmult_le_compat_l; [apply P|]. auto.
Qed.
Lemma rot_ext H W rot : interpolating H W rot -> forall a x y i j,
  (forall k l, (k < H)%nat -> (l < W)%nat -> x k l = y k l) -> rot a x i j = rot a y i j.
Proof. intros G a x y i j Hxy. apply Rle_antisym; apply (rot_mono _ _ _ G); intros; rewrite Hxy; auto; lra. Qed.
Lemma rot_zero H W rot : interpolating H W rot -> forall a x i j, (forall k l, x k l = 0) -> rot a x i j = 0.
Proof.
  intros (wt & _ & E) a x i j Hx. rewrite E. apply rsum_zero. intros k _. apply rsum_zero. intros l _. rewrite Hx. ring.
Qed.
Lemma pad2_mono h w eh ew x y : (forall i j, (i < h)%nat -> (j < w)%nat -> x i j <= y i j) -> forall i j, pad2 h w eh ew x i j <= pad2 h w eh ew y i j.
Proof.
  intros Hxy i j. unfold pad2. destruct (Nat.leb_spec eh i), (Nat.ltb_spec i (eh + h)), (Nat.leb_spec ew j), (Nat.ltb_spec j (ew + w)); cbn [andb]; try lra.
  apply Hxy; lia.
Qed.
(** stronger local absorption gives a darker map, everywhere *)
Theorem C55_monotone h w rot angle inv x y : good_rot h w rot ->
  (forall i j, (i < h)%nat -> (j < w)%nat -> x i j <= y i j) ->
  forall i j, att_slice rot h w angle inv y i j <= att_slice rot h w angle inv x i j.
Proof.
  intros G Hxy i j. unfold att_slice. cbv zeta. set (a := (if inv then angle + PI else angle) * (180 / PI)).
  match goal with |- exp (- ?p) <= exp (- ?q) => assert (K : q <= p) end.
  { apply (rot_mono _ _ _ G). intros k l _ _. unfold cumsum_half. apply rsum_le. intros m _. apply Rmult_le_compat_r; [lra|].
    unfold roll_add. apply Rplus_le_compat; apply (rot_mono _ _ _ G); intros; apply pad2_mono; assumption. }
  destruct K as [K| ->]; [|lra]. left. apply exp_increasing. lra.
Qed.
(** no absorption: transmission 1 everywhere *)
Theorem C55_transparent h w rot angle inv x : good_rot h w rot -> (forall i j, (i < h)%nat -> (j < w)%nat -> x i j = 0) ->
  forall i j, att_slice rot h w angle inv x i j = 1.
Proof.
  intros G Hx i j. unfold att_slice. cbv zeta.
  rewrite (rot_zero _ _ _ G); [rewrite Ropp_0; apply exp_0|].
  intros k l. unfold cumsum_half. apply rsum_zero. intros m _. unfold roll_add.
  rewrite !(rot_zero _ _ _ G); [field| |]; intros p q; unfold pad2;
    destruct (Nat.leb_spec (att_edge h w h) p), (Nat.ltb_spec p (att_edge h w h + h)), (Nat.leb_spec (att_edge h w w) q), (Nat.ltb_spec q (att_edge h w w + w)); cbn [andb]; try reflexivity; apply Hx; lia.
Qed.
(** for non-negative absorption coefficients the values are transmission factors: 0 < t <= 1 *)
Theorem C55_range h w rot angle inv x : good_rot h w rot -> (forall i j, (i < h)%nat -> (j < w)%nat -> 0 <= x i j) ->
  forall i j, 0 < att_slice rot h w angle inv x i j <= 1.
Proof.
  intros G Hx i j. split; [apply exp_pos|].
  rewrite <- (C55_transparent h w rot angle inv (fun _ _ => 0) G (fun _ _ _ _ => eq_refl) i j). apply C55_monotone; assumption.
Qed.
(** absorption coefficients add: the transmission factors multiply (Beer-Lambert) *)
Theorem C55_multiplicative h w rot angle inv x y : good_rot h w rot ->
  forall i j, att_slice rot h w angle inv (fun p q => x p q + y p q) i j = att_slice rot h w angle inv x i j * att_slice rot h w angle inv y i j.
Proof.
  intros G i j. unfold att_slice. cbv zeta. set (a := (if inv then angle + PI else angle) * (180 / PI)).
  rewrite <- exp_plus. f_equal. rewrite <- Ropp_plus_distr. f_equal.
  rewrite <- (rot_lin _ _ _ G). apply (rot_ext _ _ _ G). intros k l _ _. unfold cumsum_half. rewrite <- rsum_plus. apply rsum_ext. intros m _.
  unfold roll_add.
  assert (P : forall p q, rot (- a) (pad2 h w (att_edge h w h) (att_edge h w w) (fun p q => x p q + y p q)) p q =
     rot (- a) (pad2 h w (att_edge h w h) (att_edge h w w) x) p q + rot (- a) (pad2 h w (att_edge h w h) (att_edge h w w) y) p q).
  { intros p q. rewrite <- (rot_lin _ _ _ G). apply (rot_ext _ _ _ G). intros k' l' _ _. unfold pad2.
    destruct ((_ && _)%bool); ring. }
  rewrite !P. field.
Qed.
(** at angle 0 the map is the transmission from the first row to the centre of the pixel *)
Lemma half_sums x i : rsum (S i) (fun k => (x k + match k with O => 0 | S k' => x k' end) / 2) = rsum i x + x i / 2.
Proof.
  induction i as [|i IH]; [simpl; field|]. change (rsum (S (S i)) ?f) with (rsum (S i) f + f (S i)). rewrite IH. simpl. field.
Qed.
Theorem C55_angle_zero h w rot x : (1 <= h)%nat -> (1 <= w)%nat ->
  (forall y i j, (i < padded h w h)%nat -> (j < padded h w w)%nat -> rot 0 y i j = y i j) ->
  forall i j, (i < h)%nat -> (j < w)%nat ->
  att_slice rot h w 0 false x i j = exp (- (rsum i (fun k => x k j) + x i j / 2)).
Proof.
  intros Hh Hw G i j Hi Hj. unfold att_slice. cbv zeta. unfold padded in G. rewrite Rmult_0_l, Ropp_0, G by lia. f_equal. f_equal.
  set (eh := att_edge h w h). set (ew := att_edge h w w).
  assert (He : (1 <= eh)%nat) by (apply edge_pos; auto).
  unfold cumsum_half. transitivity (rsum (S (i + eh)) (fun k => (pad2 h w eh ew x k (j + ew)%nat + match k with O => 0 | S k' => pad2 h w eh ew x k' (j + ew)%nat end) / 2)).
  { apply rsum_ext. intros k Hk. unfold roll_add. fold eh ew in G. rewrite !G by (try apply Nat.mod_upper_bound; lia). f_equal. f_equal. destruct k as [|k].
    - rewrite Nat.mod_small by lia. unfold pad2. destruct (Nat.leb_spec eh (0 + (h + 2 * eh) - 1)), (Nat.ltb_spec (0 + (h + 2 * eh) - 1) (eh + h)); cbn [andb]; try reflexivity; lia.
    - replace (S k + (h + 2 * eh) - 1)%nat with (k + 1 * (h + 2 * eh))%nat by lia. rewrite Nat.mod_add by lia. rewrite Nat.mod_small by lia. reflexivity. }
  rewrite (half_sums (fun k => pad2 h w eh ew x k (j + ew)%nat)).
  assert (P : forall k, (k < h)%nat -> pad2 h w eh ew x (eh + k)%nat (j + ew)%nat = x k j).
  { intros k Hk. unfold pad2. destruct (Nat.leb_spec eh (eh + k)), (Nat.ltb_spec (eh + k) (eh + h)), (Nat.leb_spec ew (j + ew)), (Nat.ltb_spec (j + ew) (ew + w)); cbn [andb]; try lia. f_equal; lia. }
  replace (i + eh)%nat with (eh + i)%nat by lia. rewrite rsum_app, P by assumption. rewrite rsum_zero, Rplus_0_l.
  - f_equal. apply rsum_ext. intros k Hk. apply P. lia.
  - intros k Hk. unfold pad2. destruct (Nat.leb_spec eh k); [lia|]. reflexivity.
Qed.
(** the hypotheses are met: the identity map is an interpolation, exact at angle 0 *)
Lemma id_interpolating H W : interpolating H W (fun _ y i j => if (Nat.ltb i H && Nat.ltb j W)%bool then y i j else 0).
Proof.
  exists (fun _ i j k l => delta k i * delta l j). split.
  - intros a i j k l. unfold delta. destruct (Nat.eqb k i), (Nat.eqb l j); lra.
  - intros a y i j. destruct (Nat.ltb_spec i H) as [Hi|Hi]; cbn [andb].
    + destruct (Nat.ltb_spec j W) as [Hj|Hj].
      * transitivity (rsum H (fun k => delta k i * y k j)); [symmetry; apply (rsum_delta H i (fun k => y k j)); assumption|].
        apply rsum_ext. intros k _. rewrite <- (rsum_delta W j (fun l => delta k i * y k l)) by assumption. apply rsum_ext. intros l _. ring.
      * symmetry. apply rsum_zero. intros k _. apply rsum_zero. intros l Hl. rewrite (delta_neq l j) by lia. ring.
    + symmetry. apply rsum_zero. intros k Hk. apply rsum_zero. intros l _. rewrite (delta_neq k i) by lia. ring.
Qed.
Example C55_witness : att_slice (fun _ y => y) 2 2 0 false (fun _ _ => 1) 1%nat 0%nat = exp (- (3 / 2)) /\
  exists rot, good_rot 2 2 rot.
Proof.
  split; [|eexists; apply id_interpolating]. rewrite C55_angle_zero by (auto; lia). f_equal. simpl. field.
Qed.
