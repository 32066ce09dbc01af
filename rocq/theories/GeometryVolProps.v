(** C49, C50, C106, C107: volume shapes, cone-beam pre-weights, displacement projection, geometries built from data
    (models.py). *)
From Coq Require Import Lra Lia Ascii String.
From Verif Require Import Sums PyErr GeometryModel GeometryProps.
Import ListNotations.
Local Open Scope R_scope.

(** * C49 *)
Theorem C49_volume_round_trip shape g : get_vol_geom_from_volume shape = inr g -> shape_zxy g = shape.
Proof.
  unfold get_vol_geom_from_volume. destruct (Nat.ltb_spec (List.length shape) 2) as [H|H]; [discriminate|].
  intros E; injection E as <-. unfold shape_zxy. cbn [vg_xyz].
  set (n := List.length shape) in *.
  assert (Hs : shape = firstn (n - 2) shape ++ [nth (n - 2) shape 0%nat; nth (n - 1) shape 0%nat]).
  { rewrite <- (firstn_skipn (n - 2) shape) at 1. f_equal.
    pose proof (skipn_length (n - 2) shape) as Hk. fold n in Hk.
    rewrite <- (firstn_skipn (n - 2) shape) at 2 3.
    rewrite !app_nth2; rewrite firstn_length_le by (fold n; lia); try lia.
    replace (n - 2 - (n - 2))%nat with 0%nat by lia. replace (n - 1 - (n - 2))%nat with 1%nat by lia.
    destruct (skipn (n - 2) shape) as [|a [|b [|]]]; simpl in Hk; try lia. reflexivity. }
  set (z := firstn (n - 2) shape) in *. set (a := nth (n - 2) shape 0%nat) in *. set (b := nth (n - 1) shape 0%nat) in *.
  simpl. rewrite rev_app_distr || idtac. rewrite rev_involutive.
  rewrite <- app_assoc. simpl.
  rewrite app_length. simpl.
  replace (List.length z + 2 - 2)%nat with (List.length z) by lia.
  rewrite firstn_app, firstn_all, Nat.sub_diag. simpl. rewrite app_nil_r.
  rewrite !app_nth2 by lia. replace (List.length z + 2 - 1 - List.length z)%nat with 1%nat by lia. rewrite Nat.sub_diag.
  simpl. symmetry. exact Hs.
Qed.
Theorem C49_accepts_exactly_2d_and_up shape : (exists g, get_vol_geom_from_volume shape = inr g) <-> (2 <= List.length shape)%nat.
Proof.
  unfold get_vol_geom_from_volume. destruct (Nat.ltb_spec (List.length shape) 2); split; intros; try lia; eauto.
  destruct H0; discriminate.
Qed.
Theorem C49_get_3d g : (List.length (vg_xyz g) = 2 \/ List.length (vg_xyz g) = 3)%nat ->
  List.length (vg_xyz (vg_get_3d g)) = 3%nat /\ vg_get_3d (vg_get_3d g) = vg_get_3d g /\
  vg_vox (vg_get_3d g) = vg_vox g /\ mask_shape (vg_get_3d g) = mask_shape g /\ is_square (vg_get_3d g) = is_square g /\
  fold_right Nat.mul 1%nat (vg_xyz (vg_get_3d g)) = fold_right Nat.mul 1%nat (vg_xyz g) /\
  (List.length (vg_xyz g) = 2%nat -> shape_zxy (vg_get_3d g) = 1%nat :: shape_zxy g).
Proof.
  destruct g as [xyz vox]. unfold vg_get_3d. cbn [vg_xyz vg_vox].
  intros [H|H]; destruct xyz as [|x [|y [|z [|]]]]; simpl in H; try lia; cbn [List.length Nat.eqb vg_xyz]; repeat split;
    try (intros; simpl in *; lia).
Qed.
(** the 3-D test holds exactly for volumes with more than one slice *)
Theorem C49_is_3D_iff shape g : (List.length shape = 2 \/ List.length shape = 3)%nat -> get_vol_geom_from_volume shape = inr g ->
  (is_3D g = true <-> exists z x y, shape = [z; x; y] /\ (1 < z)%nat).
Proof.
  intros H Hg. unfold get_vol_geom_from_volume in Hg. destruct shape as [|a [|b [|c [|]]]]; simpl in H; try lia;
    cbn [List.length Nat.ltb Nat.leb] in Hg; injection Hg as <-; unfold is_3D; simpl.
  - split; [discriminate|]. intros (z & x & y & E & _). discriminate.
  - split.
    + intros E. exists a, b, c. split; [reflexivity|]. destruct a as [|[|]]; try discriminate. lia.
    + intros (z & x & y & E & Hz). injection E as -> -> ->. destruct z as [|[|]]; try lia. reflexivity.
Qed.
(** the extent is symmetric, and its width along every axis is number of voxels times voxel size *)
Theorem C49_extent g i : (i < List.length (vg_xyz g))%nat ->
  nth (2 * i) (extent g) 0 = - nth (2 * i + 1) (extent g) 0 /\
  nth (2 * i + 1) (extent g) 0 - nth (2 * i) (extent g) 0 = INR (nth i (vg_xyz g) 0%nat) * vg_vox g.
Proof.
  unfold extent. destruct g as [xyz vox]. cbn [vg_xyz vg_vox]. revert i. induction xyz as [|x l IH]; intros i Hi; [simpl in Hi; lia|].
  destruct i as [|i].
  - simpl. split; field.
  - replace (2 * S i)%nat with (S (S (2 * i))) by lia. replace (S (S (2 * i)) + 1)%nat with (S (S (2 * i + 1))) by lia.
    cbn [flat_map app nth]. apply IH. simpl in Hi. lia.
Qed.
Theorem C49_is_square_iff shape g n : List.length shape = n -> get_vol_geom_from_volume shape = inr g ->
  (is_square g = true <-> nth (n - 2) shape 0%nat = nth (n - 1) shape 0%nat) /\
  mask_shape g = [nth (n - 2) shape 0%nat; nth (n - 1) shape 0%nat].
Proof.
  intros <- Hg. unfold get_vol_geom_from_volume in Hg. destruct (Nat.ltb _ 2); [discriminate|]. injection Hg as <-.
  split; [apply Nat.eqb_eq|reflexivity].
Qed.
Example C49_ex : exists g, get_vol_geom_from_volume [4; 5; 6]%nat = inr g /\ shape_zxy g = [4; 5; 6]%nat /\ vg_xyz g = [5; 6; 4]%nat.
Proof. eexists; repeat split. Qed.

(** * C50 *)
(** cosine of the angle between two directions *)
Definition cos_angle (a b : vec3) : R := vdot a b / (vnorm a * vnorm b).
Definition vsub (a b : vec3) : vec3 := vadd a (vscal (-1) b).

Lemma vdot_le_norms a b : vdot a b <= vnorm a * vnorm b.
Proof.
  apply Rsqr_incr_0_var; [|apply Rmult_le_pos; apply vnorm_nonneg].
  unfold Rsqr. replace (vnorm a * vnorm b * (vnorm a * vnorm b)) with (vdot a a * vdot b b) by (rewrite <- !vnorm_sq; ring).
  unfold vdot.
  assert (0 <= (vx a * vy b - vy a * vx b) ^ 2 + (vx a * vz b - vz a * vx b) ^ 2 + (vy a * vz b - vz a * vy b) ^ 2) by (repeat apply Rplus_le_le_0_compat; apply pow2_ge_0).
  nra.
Qed.
Lemma weight_perp src p : vdot p src = 0 -> src <> vzero ->
  weight_of src vzero p = cos_angle (vsub vzero src) (vsub p src) /\ 0 < weight_of src vzero p <= 1.
Proof.
  intros Hp Hs. unfold weight_of. replace (vadd vzero src) with src by v3.
  assert (Hsq : 0 < vdot src src).
  { destruct (Rle_lt_or_eq_dec 0 (vdot src src) (vdot_self_nonneg _)) as [|E]; [assumption|].
    exfalso. apply Hs. apply vnorm_0_inv. unfold vnorm. rewrite <- E. apply sqrt_0. }
  assert (Hn : 0 < vnorm src) by (apply sqrt_lt_R0; assumption).
  assert (E1 : vdot (vadd p src) (vadd p src) = vdot p p + vdot src src).
  { transitivity (vdot p p + vdot src src + 2 * vdot p src); [unfold vdot, vadd; simpl; ring|]. rewrite Hp. ring. }
  assert (E2 : vdot (vsub p src) (vsub p src) = vdot p p + vdot src src).
  { transitivity (vdot p p + vdot src src - 2 * vdot p src); [unfold vdot, vsub, vadd, vscal; simpl; ring|]. rewrite Hp. ring. }
  assert (Hpp : 0 <= vdot p p) by apply vdot_self_nonneg.
  assert (Hq : 0 < vnorm (vadd p src)) by (unfold vnorm; rewrite E1; apply sqrt_lt_R0; lra).
  unfold guard0. destruct (Req_EM_T (vnorm (vadd p src)) 0); [lra|]. rewrite Rplus_0_r.
  split.
  - unfold cos_angle. replace (vnorm (vsub p src)) with (vnorm (vadd p src)) by (unfold vnorm; rewrite E1, E2; reflexivity).
    replace (vnorm (vsub vzero src)) with (vnorm src) by (unfold vnorm; f_equal; unfold vdot, vsub, vadd, vscal, vzero; simpl; ring).
    replace (vdot (vsub vzero src) (vsub p src)) with (vnorm src * vnorm src).
    + field. split; lra.
    + rewrite vnorm_sq. transitivity (vdot src src - vdot p src); [rewrite Hp; ring|]. unfold vdot, vsub, vadd, vscal, vzero; simpl; ring.
  - split; [apply Rdiv_lt_0_compat; assumption|].
    apply Rmult_le_reg_r with (vnorm (vadd p src)); [assumption|]. unfold Rdiv. rewrite Rmult_assoc, Rinv_l, Rmult_1_r, Rmult_1_l by lra.
    unfold vnorm. rewrite E1. apply sqrt_le_1_alt. lra.
Qed.

(** detector centred on the rotation axis and perpendicular to the source direction: cosine weights, at every
    projection and for every sample point; [pixel_xyz] are the sample points used by the code *)
Theorem C50_centred_detector_cosine g s W : g_type g = GCone -> get_pre_weights g (Some s) = Some W ->
  forall w, nth w (g_det g) vzero = vzero -> nth w (g_src g) vzero <> vzero ->
  vdot (nth w (g_u g) vzero) (nth w (g_src g) vzero) = 0 -> vdot (nth w (g_v g) vzero) (nth w (g_src g) vzero) = 0 ->
  forall iv iu,
    let src := nth w (g_src g) vzero in
    let pix := pixel_xyz s (nth w (g_u g) vzero) (nth w (g_v g) vzero) iv iu in
    W iv w iu = cos_angle (vsub vzero src) (vsub pix src) /\ 0 < W iv w iu <= 1.
Proof.
  intros Ht Hw w Hd Hs Hu Hv iv iu. cbv zeta. unfold get_pre_weights in Hw. rewrite Ht in Hw. injection Hw as <-.
  rewrite Hd. apply weight_perp; [|assumption].
  unfold pixel_xyz. destruct s as [|su [|sv [|]]].
  - unfold vdot, vzero; simpl; ring.
  - rewrite <- (Rmult_0_r (pixel_coord su iu)), <- Hu. unfold vdot, vscal; simpl; ring.
  - match goal with |- vdot (vadd (vscal ?a ?u) (vscal ?b ?v)) ?s = 0 =>
      transitivity (a * vdot u s + b * vdot v s); [unfold vdot, vadd, vscal; simpl; ring|]; rewrite Hu, Hv; ring end.
  - unfold vdot, vzero; simpl; ring.
Qed.
(** the hypotheses are met by every rotation of the default cone-beam geometry *)
Theorem C50_default_cone_geometry dist dir angles g0 g s W : 0 < dist ->
  get_prj_geom_cone dist NoShift dir None = inr g0 -> rotate g0 angles false = inr g -> get_pre_weights g (Some s) = Some W ->
  forall w, (w < List.length angles)%nat -> forall iv iu, 0 < W iv w iu <= 1.
Proof.
  intros Hd H0 Hr Hw w Hi iv iu.
  unfold get_prj_geom_cone in H0. apply ebind_inv in H0 as (r & Hdir & H0). simpl in H0. injection H0 as <-.
  set (g0 := mkPG _ _ _ _ _ _ _ _) in Hr.
  assert (Hrot : forall f, In f fields -> List.length (f g) = List.length angles).
  { rewrite (rotate_plain _ _ r) in Hr by reflexivity. cbv zeta in Hr. cbn [g0 g_src g_det g_u g_v] in Hr.
    rewrite !bcast_single_r in Hr. cbn [ebind] in Hr. injection Hr as <-.
    intros f [<-|[<-|[<-|[<-|[]]]]]; simpl; rewrite !map_length; reflexivity. }
  pose proof (C48_rotate_rows _ _ _ _ Hr) as Hrows. pose proof (C48_rotate_rigid _ _ _ _ Hr) as Hrig.
  assert (Lf : forall f, In f fields -> (w < List.length (f g))%nat) by (intros f Hf; rewrite (Hrot f Hf); assumption).
  assert (I1 : In g_src fields) by (simpl; tauto). assert (I2 : In g_det fields) by (simpl; tauto).
  assert (I3 : In g_u fields) by (simpl; tauto). assert (I4 : In g_v fields) by (simpl; tauto).
  assert (Ht : g_type g = GCone).
  { apply rotate_inv in Hr as (_ & _ & _ & -> & _). reflexivity. }
  apply (C50_centred_detector_cosine g s W Ht Hw w).
  - rewrite (Hrows g_det I2 w (Lf _ I2)).
    change (brow vzero (g_det g0) w) with vzero. apply vnorm_0_inv. unfold vnorm. rewrite rotvec_dot. apply vnorm_zero.
  - intros E. pose proof (Hrig g_src g_src I1 I1 w (Lf _ I1) (Lf _ I1)) as Hx. rewrite E in Hx.
    change (brow vzero (g_src g0) w) with (V3 0 (- dist) 0) in Hx. unfold vdot, vzero in Hx; simpl in Hx. nra.
  - rewrite (Hrig g_u g_src I3 I1 w (Lf _ I3) (Lf _ I1)).
    change (brow vzero (g_src g0) w) with (V3 0 (- dist) 0). change (brow vzero (g_u g0) w) with (V3 1 0 0). unfold vdot; simpl; ring.
  - rewrite (Hrig g_v g_src I4 I1 w (Lf _ I4) (Lf _ I1)).
    change (brow vzero (g_src g0) w) with (V3 0 (- dist) 0). change (brow vzero (g_v g0) w) with (V3 0 0 1). unfold vdot; simpl; ring.
Qed.

Lemma vnorm_sqrt x y z c : x * x + y * y + z * z = c -> vnorm (V3 x y z) = sqrt c.
Proof. intros <-. reflexivity. Qed.
Lemma sqrt_sq c : 0 <= c -> sqrt (c * c) = c.
Proof. intros. apply sqrt_square. assumption. Qed.
(** detector at distance d behind the rotation axis, source at the same distance d before it (magnification 2):
    source and detector vectors are added instead of subtracted, so the central weight is 0 instead of 1 *)
Theorem C50_detector_distance_refuted : exists g0 g W,
  get_prj_geom_cone 10 NoShift Clockwise None = inr g0 /\ set_detector_shifts_vu g0 None None [10] = inr g /\
  get_pre_weights g (Some [3%nat; 3%nat]) = Some W /\
  let src := nth 0 (g_src g) vzero in let det := nth 0 (g_det g) vzero in
  pixel_xyz [3%nat; 3%nat] (nth 0 (g_u g) vzero) (nth 0 (g_v g) vzero) 1 1 = vzero /\
  cos_angle (vsub det src) (vsub det src) = 1 /\ W 1%nat 0%nat 1%nat = 0.
Proof.
  eexists. eexists. eexists. split; [reflexivity|]. split; [reflexivity|]. split; [reflexivity|]. cbv zeta.
  assert (Epix : pixel_xyz [3%nat; 3%nat] (V3 1 0 0) (V3 0 0 1) 1 1 = vzero).
  { unfold pixel_xyz, pixel_coord, linspace. cbn [Nat.eqb Nat.sub]. v3; simpl INR; field. }
  split; [exact Epix|]. cbn [g_src g_det nth map combine repeat fst snd]. split.
  - unfold cos_angle. rewrite vnorm_sq. apply Rinv_r. unfold vdot, vsub, vadd, vscal, vzero; simpl. lra.
  - change (weight_of (V3 0 (-10) 0) (vadd (vadd vzero (vscal 0 (V3 1 0 0))) (V3 0 10 0)) (pixel_xyz [3%nat; 3%nat] (V3 1 0 0) (V3 0 0 1) 1 1) = 0).
    rewrite Epix. unfold weight_of.
    replace (vadd (vadd (vadd vzero (vscal 0 (V3 1 0 0))) (V3 0 10 0)) (V3 0 (-10) 0)) with vzero by v3.
    rewrite vnorm_zero. unfold Rdiv. ring.
Qed.
(** a detector shifted sideways (rot_axis_shift_pix) gets weights above 1 *)
Theorem C50_rotation_axis_shift_refuted : exists g W,
  get_prj_geom_cone 1 (ScalarShift 1) Clockwise None = inr g /\ get_pre_weights g (Some [2%nat]) = Some W /\
  1 < W 0%nat 0%nat 0%nat.
Proof.
  eexists. eexists. split; [reflexivity|]. split; [reflexivity|].
  change (1 < weight_of (V3 0 (- (1)) 0) (vadd (vadd vzero (vscal (0 + 1) (V3 1 0 0))) (V3 0 0 0)) (vscal (pixel_coord 2 0) (V3 1 0 0))).
  unfold weight_of, pixel_coord, linspace. cbn [Nat.eqb Nat.sub].
  replace (vadd (vadd (vadd vzero (vscal (0 + 1) (V3 1 0 0))) (V3 0 0 0)) (V3 0 (- (1)) 0)) with (V3 1 (-1) 0) by v3.
  replace (vadd (vscal (- INR 2 / 2 + INR 0 * (INR 2 / 2 - - INR 2 / 2) / INR 1) (V3 1 0 0)) (V3 1 (-1) 0)) with (V3 0 (-1) 0) by (v3; simpl INR; field).
  rewrite (vnorm_sqrt 1 (-1) 0 2) by ring. rewrite (vnorm_sqrt 0 (-1) 0 1) by ring. rewrite sqrt_1.
  unfold guard0. destruct (Req_EM_T 1 0); [lra|]. rewrite Rplus_0_r. unfold Rdiv. rewrite Rinv_1, Rmult_1_r.
  rewrite <- sqrt_1 at 1. apply sqrt_lt_1_alt. lra.
Qed.
(** the sample points are not the pixel centres: they are spread over s instead of s - 1 pixel pitches *)
Theorem C50_sample_points_not_pixel_centres s i : (2 <= s)%nat ->
  pixel_coord s i = (INR i - (INR s - 1) / 2) * (INR s / (INR s - 1)).
Proof.
  intros H. unfold pixel_coord, linspace. destruct (Nat.eqb_spec s 1); [lia|].
  rewrite minus_INR by lia. simpl INR at 4. assert (2 <= INR s) by (apply (le_INR 2); assumption). simpl (INR 1). field. lra.
Qed.
(** a detector with a single pixel is sampled at its edge *)
Theorem C50_single_pixel_refuted : pixel_coord 1 0 = - (1 / 2).
Proof. unfold pixel_coord, linspace; simpl. field. Qed.

(** * C106: displacement projection *)
Theorem C106_displacement_3d g z y x : ndim (g_type g) = inr 3%nat ->
  project_displacement g [z; y; x] = inr [map (fun w => vdot w (V3 x y z)) (g_v g); map (fun w => vdot w (V3 x y z)) (g_u g)].
Proof.
  intros H. unfold project_displacement. rewrite H. cbn [ebind List.length Nat.eqb negb rev app]. f_equal. f_equal; [|f_equal];
    apply map_ext; intros w; unfold take_dot, vdot; simpl; ring.
Qed.
Theorem C106_displacement_2d g y x : ndim (g_type g) = inr 2%nat ->
  project_displacement g [y; x] = inr [map (fun w => vx w * x + vy w * y) (g_u g)].
Proof.
  intros H. unfold project_displacement. rewrite H. cbn [ebind List.length Nat.eqb negb rev app]. f_equal. f_equal.
  apply map_ext; intros w; unfold take_dot; simpl; ring.
Qed.
(** rotating the geometry by a, or the displaced object by -a, gives the same shift on the detector *)
Theorem C106_rotation_covariance d a w p :
  vdot (rotvec_apply (vscal a d) w) p = vdot w (rotvec_apply (vscal (- a) d) p).
Proof.
  rewrite <- (rotvec_dot (vscal a d) w (rotvec_apply (vscal (- a) d) p)). f_equal.
  rewrite rotvec_add. replace (- a + a) with 0 by ring. rewrite rotvec_0. reflexivity.
Qed.
Theorem C106_rotated_displacement g d angles g' x y z : ndim (g_type g) = inr 3%nat -> g_rot g = [d] ->
  List.length (g_u g) = 1%nat -> List.length (g_v g) = 1%nat -> rotate g angles false = inr g' ->
  let back a := rotvec_apply (vscal (- a) d) (V3 x y z) in
  project_displacement g' [z; y; x] =
    inr [map (fun a => vdot (nth 0 (g_v g) vzero) (back a)) angles; map (fun a => vdot (nth 0 (g_u g) vzero) (back a)) angles].
Proof.
  intros H3 Hd Lu Lv Hr back. apply rotate_inv in Hr as (rots & Hb & Hall & Ht & _).
  rewrite C106_displacement_3d by (rewrite Ht; assumption).
  rewrite Hd, bcast_single_r in Hb. injection Hb as <-.
  pose proof (Hall g_u ltac:(simpl; tauto)) as Hu. pose proof (Hall g_v ltac:(simpl; tauto)) as Hv.
  destruct (g_u g) as [|u [|]]; simpl in Lu; try lia. destruct (g_v g) as [|v [|]]; simpl in Lv; try lia.
  rewrite bcast_single_r in Hu, Hv. injection Hu as <-. injection Hv as <-.
  rewrite !map_map. unfold eff_angle, back. cbn [nth]. f_equal. f_equal; [|f_equal]; apply map_ext; intros a; apply C106_rotation_covariance.
Qed.
Theorem C106_wrong_dimension_raises g disp nd : ndim (g_type g) = inr nd -> List.length disp <> nd ->
  project_displacement g disp = inl ValueError.
Proof.
  intros H Hn. unfold project_displacement. rewrite H. cbn [ebind].
  destruct (Nat.eqb_spec nd (List.length disp)); [congruence|reflexivity].
Qed.

(** * C107: geometries built from data *)
(** default format "dvwu": a stack [.., v, w, u] *)
Lemma dims_wu w u : exists f, get_data_dims [w; u] "dvwu" = inr f /\ f "u"%char = Some u /\ f "v"%char = None.
Proof. eexists. split; [reflexivity|]. split; reflexivity. Qed.
Lemma dims_vwu v w u : exists f, get_data_dims [v; w; u] "dvwu" = inr f /\ f "u"%char = Some u /\ f "v"%char = Some v.
Proof. eexists. split; [reflexivity|]. split; reflexivity. Qed.
(** for every format made of distinct letters, dimension names are read off the right-aligned format *)
Theorem C107_data_dims shape fmt i c : (List.length shape <= String.length fmt)%nat ->
  NoDup (list_ascii_of_string fmt) -> (i < List.length shape)%nat ->
  nth_error (list_ascii_of_string fmt) (String.length fmt - List.length shape + i) = Some c ->
  exists f, get_data_dims shape fmt = inr f /\ f c = Some (nth i shape 0%nat).
Proof.
  intros Hl Hnd Hi Hc. unfold get_data_dims. destruct (Nat.ltb_spec (String.length fmt) (List.length shape)); [lia|].
  eexists. split; [reflexivity|]. cbv beta.
  set (k := (String.length fmt - List.length shape)%nat) in *.
  assert (Hsk : nth_error (skipn k (list_ascii_of_string fmt)) i = Some c).
  { rewrite <- Hc. clear. revert k. generalize (list_ascii_of_string fmt). intros l k. revert l.
    induction k as [|k IH]; intros l; [reflexivity|]. destruct l; simpl; [destruct i; reflexivity|apply IH]. }
  assert (Hnd' : NoDup (skipn k (list_ascii_of_string fmt))).
  { revert Hnd. clear. generalize (list_ascii_of_string fmt). intros l. revert l. induction k as [|k IH]; intros l Hn; [assumption|].
    destruct l; simpl; [constructor|]. apply IH. inversion Hn; assumption. }
  assert (Hlen : List.length (skipn k (list_ascii_of_string fmt)) = List.length shape).
  { rewrite skipn_length. assert (E : List.length (list_ascii_of_string fmt) = String.length fmt).
    { clear. induction fmt; simpl; congruence. } rewrite E. unfold k. lia. }
  revert Hsk Hnd' Hlen. generalize (skipn k (list_ascii_of_string fmt)). clear Hc Hl Hnd H k. intros chars.
  assert (G : forall chars shape i acc, nth_error chars i = Some c -> NoDup chars -> List.length chars = List.length shape -> (i < List.length shape)%nat ->
     fold_left (fun acc p => if Ascii.eqb (fst p) c then Some (snd p) else acc) (combine chars shape) acc = Some (nth i shape 0%nat)).
  { clear. induction chars as [|a chars IH]; intros shape i acc Hn Hnd Hl Hi; [destruct i; discriminate|].
    destruct shape as [|x shape]; [simpl in Hi; lia|]. inversion Hnd as [|? ? Hnin Hnd']; subst.
    assert (Hskip : forall chars shape acc, ~ In c chars ->
      fold_left (fun acc p => if Ascii.eqb (fst p) c then Some (snd p) else acc) (combine chars shape) acc = acc :> option nat).
    { clear. induction chars as [|b chars IHc]; intros shape acc Hb; [reflexivity|]. destruct shape as [|y shape]; [reflexivity|].
      simpl. destruct (Ascii.eqb_spec b c); [subst; exfalso; apply Hb; left; reflexivity|].
      apply IHc. intros Hin; apply Hb; right; assumption. }
    destruct i as [|i]; simpl in Hn.
    - injection Hn as ->. simpl. rewrite Ascii.eqb_refl. apply Hskip. assumption.
    - simpl. apply IH; [assumption|assumption|simpl in Hl; lia|simpl in Hi; lia]. }
  intros. apply G; assumption.
Qed.
(** volume built from projection data: U x U x V voxels, of physical width U - padding whatever the super-sampling *)
Theorem C107_volume_from_data shape fmt pad s dims un f u : get_data_dims shape fmt = inr f -> f "u"%char = Some u ->
  (1 <= s)%nat -> pad = PadInt un \/ (exists a b, pad = PadSeq [a; b] /\ (a + b = 2 * un)%Z) ->
  get_vol_geom_from_data shape pad fmt s = inr dims ->
  exists xyz vox, dims = (xyz, vox) /\
    nth 0 xyz 0%Z = nth 1 xyz 0%Z /\
    IZR (nth 0 xyz 0%Z) * vox = INR u - 2 * IZR un /\
    (forall v, f "v"%char = Some v -> List.length xyz = 3%nat /\ IZR (nth 2 xyz 0%Z) * vox = INR v) /\
    (f "v"%char = None -> List.length xyz = 2%nat).
Proof.
  intros Hf Hu Hs Hp H. unfold get_vol_geom_from_data in H. rewrite Hf in H. cbn [ebind] in H. rewrite Hu in H.
  assert (Hun : (match pad with
           | PadSeq [a; b] => inr (Z.of_nat u - (a + b))%Z
           | PadSeq _ => inl ValueError
           | PadInt p => inr (Z.of_nat u - p * 2)%Z
           end) = inr (Z.of_nat u - un * 2)%Z :> py_err + Z).
  { destruct Hp as [-> | (a & b & -> & E)]; [reflexivity|]. f_equal. lia. }
  rewrite Hun in H. cbn [ebind] in H. injection H as <-. eexists. eexists. split; [reflexivity|].
  assert (Hs0 : INR s <> 0) by (apply not_0_INR; lia).
  assert (Hz : IZR (Z.of_nat s) = INR s) by (symmetry; apply INR_IZR_INZ).
  split; [reflexivity|]. split.
  { cbn [app map nth]. rewrite mult_IZR, Hz, minus_IZR, mult_IZR, <- INR_IZR_INZ. field. assumption. }
  split.
  - intros v Hv. rewrite Hv. split; [reflexivity|]. cbn [app map nth]. rewrite mult_IZR, Hz, <- INR_IZR_INZ. field. assumption.
  - intros Hv. rewrite Hv. reflexivity.
Qed.
(** projection and volume geometry built from the same 3-D stack agree on the detector *)
Theorem C107_projection_and_volume_agree v w u pg vg xyz vox :
  get_prj_geom_parallel true NoShift Clockwise (Some ([v; w; u], "dvwu"%string)) = inr pg ->
  get_vol_geom_from_data [v; w; u] (PadInt 0) "dvwu" 1 = inr vg -> vg = (xyz, vox) ->
  g_shape pg = Some [v; u] /\ xyz = [Z.of_nat u; Z.of_nat u; Z.of_nat v] /\ vox = 1.
Proof.
  intros Hp Hv ->. injection Hp as <-. injection Hv as <- <-. split; [reflexivity|]. split.
  - cbn [Nat.mul]. repeat f_equal; lia.
  - field.
Qed.
