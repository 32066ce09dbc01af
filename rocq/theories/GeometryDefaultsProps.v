(** C210: default geometries, rotation directions, source shifts, mismatched rows (models.py). *)
From Coq Require Import Ascii String.
From Verif Require Import Sums GeometryModel GeometryProps GeometryMoreProps GeometryVolProps GeometryDefaultsModel.
Import ListNotations.
Local Open Scope R_scope.

(** ** Specification *)
(** the rotation axis that a name or a vector stands for; names are compared without regard to case *)
Inductive axis_named : dir_arg -> vec3 -> Prop :=
| clockwise_axis s : lower s = "clockwise"%string -> axis_named (DirName s) (V3 0 0 (-1))
| counter_axis s : lower s = "counter-clockwise"%string -> axis_named (DirName s) (V3 0 0 1)
| given_axis a : axis_named (DirVec a) a.
(** detector positions for a requested rotation-axis shift: one row at the origin, one row moved along x, or one row per
    position, moved along x and (three-dimensional geometries, when vertical positions are given) along z *)
Inductive detector_at (three : bool) : shift_arg -> list vec3 -> Prop :=
| no_shift : detector_at three NoShift [V3 0 0 0]
| one_shift c : detector_at three (ScalarShift c) [V3 c 0 0]
| many_shifts us : detector_at three (ArrayShift [us]) (map (fun u => V3 u 0 0) us)
| many_shifts_vu (l : list (R * R)) :
    detector_at three (ArrayShift [map fst l; map snd l]) (map (fun p => V3 (snd p) 0 (if three then fst p else 0)) l).
(** the shape of the detector for a data shape whose dimensions are known to be [f] *)
Definition detector_shape (three : bool) (f : ascii -> option nat) (s : list nat) : Prop :=
  exists u, f "u"%char = Some u /\ if three then exists v, f "v"%char = Some v /\ s = [v; u] else s = [u].

(** ** Rotation direction *)
Theorem C210_direction d a : get_rot_axis_dir (decode_dir d) = inr a <-> axis_named d a.
Proof.
  unfold decode_dir. destruct d as [s|b].
  - cbn [existsb rot_dirs_valid].
    destruct (String.eqb_spec (lower s) "clockwise") as [E|E].
    + cbn [orb negb get_rot_axis_dir]. split.
      * intros H. injection H as <-. constructor. assumption.
      * intros H. inversion H as [s' E'|s' E'|]; subst; [reflexivity|]. rewrite E in E'. discriminate.
    + cbn [orb]. destruct (String.eqb_spec (lower s) "counter-clockwise") as [E2|E2].
      * cbn [orb negb get_rot_axis_dir]. split.
        -- intros H. injection H as <-. apply counter_axis. assumption.
        -- intros H. inversion H as [s' E'|s' E'|]; subst; [congruence|reflexivity].
      * cbn [orb negb get_rot_axis_dir]. split; [discriminate|].
        intros H. inversion H as [s' E'|s' E'|]; subst; congruence.
  - simpl. split.
    + intros H. injection H as <-. constructor.
    + intros H. inversion H. reflexivity.
Qed.
Theorem C210_unknown_direction_raises d : (forall a, ~ axis_named d a) ->
  get_rot_axis_dir (decode_dir d) = inl ValueError.
Proof.
  intros H. destruct (get_rot_axis_dir (decode_dir d)) as [e|a] eqn:E.
  - unfold get_rot_axis_dir in E. destruct (decode_dir d); congruence.
  - exfalso. apply (H a). apply C210_direction. assumption.
Qed.
Lemma named_dir d a : axis_named d a -> get_rot_axis_dir (decode_dir d) = inr a.
Proof. apply C210_direction. Qed.

(** ** Content of the default geometries *)
Lemma single_vscal_rows u us : bcast (fun w s => vscal s w) [u] us = inr (map (fun s => vscal s u) us).
Proof. apply bcast_single_l. Qed.
Lemma iadd_same {A B} (f : A -> B -> A) a b : List.length b = List.length a ->
  iadd f a b = inr (map (fun p => f (fst p) (snd p)) (combine a b)).
Proof. intros H. unfold iadd. rewrite H, Nat.eqb_refl. reflexivity. Qed.
Lemma iadd_single {A B} (f : A -> B -> A) a y : iadd f a [y] = inr (map (fun x => f x y) a).
Proof.
  unfold iadd. destruct (Nat.eqb_spec (List.length [y]) (List.length a)) as [E|E]; [|reflexivity].
  destruct a as [|x [|]]; simpl in E; try lia. reflexivity.
Qed.
Lemma zero_plus_map {A} (f : A -> vec3) l :
  map (fun p : vec3 * vec3 => vadd (fst p) (snd p)) (combine (repeat vzero (List.length l)) (map f l)) = map f l.
Proof.
  induction l as [|x l IH]; [reflexivity|]. cbn [List.length repeat map combine fst snd]. rewrite IH. f_equal.
  unfold vadd, vzero. cbn [vx vy vz]. rewrite !Rplus_0_l. destruct (f x); reflexivity.
Qed.
Lemma combine_maps {A B C} (f : A -> B) (g : A -> C) l : combine (map f l) (map g l) = map (fun x => (f x, g x)) l.
Proof. induction l as [|x l IH]; [reflexivity|]. cbn [map combine]. rewrite IH. reflexivity. Qed.

Lemma shift_default ty src axis three sh det : ndim ty = inr (if three : bool then 3%nat else 2%nat) -> detector_at three sh det ->
  apply_shift (mkPG ty [src] [vzero] [V3 1 0 0] [V3 0 0 1] [axis] 1 None) sh
  = inr (mkPG ty [src] det [V3 1 0 0] [V3 0 0 1] [axis] 1 None).
Proof.
  intros Hn Hd. destruct Hd as [|c|us|l].
  - reflexivity.
  - unfold apply_shift, set_detector_shifts_vu. cbv zeta.
    cbn [shifts_rows map last upd_last rev app List.length Nat.ltb Nat.leb andb Nat.eqb negb g_det g_u g_v g_type g_src g_rot g_ratio g_shape].
    rewrite bcast_single_l. cbn [ebind map]. rewrite iadd_single. cbn [ebind]. rewrite Hn. cbn [ebind].
    rewrite Bool.andb_false_r. cbn [ebind]. rewrite iadd_single. cbn [ebind map repeat].
    do 3 f_equal. apply vec3_eq; cbn; ring.
  - unfold apply_shift, set_detector_shifts_vu. cbv zeta.
    cbn [shifts_rows last List.length g_det g_u g_v g_type g_src g_rot g_ratio g_shape].
    cbn [Nat.ltb Nat.leb andb].
    rewrite bcast_single_l. cbn [ebind map]. rewrite iadd_same by (rewrite map_length, repeat_length; reflexivity).
    rewrite zero_plus_map. cbn [ebind]. rewrite Hn. cbn [ebind Nat.eqb]. rewrite Bool.andb_false_r. cbn [ebind].
    rewrite iadd_single. cbn [ebind]. do 2 f_equal. rewrite map_map. apply map_ext. intros u. apply vec3_eq; cbn; ring.
  - unfold apply_shift, set_detector_shifts_vu. cbv zeta.
    cbn [shifts_rows last List.length g_det g_u g_v g_type g_src g_rot g_ratio g_shape].
    cbn [Nat.ltb Nat.leb andb].
    rewrite bcast_single_l. cbn [ebind]. rewrite iadd_same by (rewrite !map_length, repeat_length; reflexivity).
    rewrite zero_plus_map. cbn [ebind]. rewrite Hn. cbn [ebind]. cbn [Nat.eqb Nat.sub nth]. rewrite Bool.andb_true_r.
    destruct three; cbn [Nat.eqb].
    + rewrite bcast_single_l. cbn [ebind]. rewrite iadd_same by (rewrite !map_length; reflexivity). cbn [ebind].
      rewrite iadd_single. cbn [ebind]. do 2 f_equal. rewrite !map_map, combine_maps, !map_map.
      apply map_ext. intros p. apply vec3_eq; cbn; ring.
    + cbn [ebind]. rewrite iadd_single. cbn [ebind]. do 2 f_equal. rewrite !map_map.
      apply map_ext. intros p. apply vec3_eq; cbn; ring.
Qed.

(** parallel beam: direction of the beam +y, detector axes +x and +z, one voxel per pixel *)
Theorem C210_parallel_default gt three sh d axis det :
  lower gt = (if three : bool then "3d" else "2d")%string -> axis_named d axis -> detector_at three sh det ->
  prj_geom_parallel gt sh d None =
  inr (mkPG (if three then GParallel3d else GParallel2d) [V3 0 (-1) 0] det [V3 1 0 0] [V3 0 0 1] [axis] 1 None).
Proof.
  intros Ht Hd Hs. unfold prj_geom_parallel. rewrite Ht. apply named_dir in Hd.
  destruct three; cbn [String.eqb Ascii.eqb Bool.eqb]; unfold get_prj_geom_parallel; rewrite Hd; cbn [ebind].
  - rewrite (shift_default GParallel3d _ _ true _ det) by (try reflexivity; assumption). reflexivity.
  - rewrite (shift_default GParallel2d _ _ false _ det) by (try reflexivity; assumption). reflexivity.
Qed.
(** cone beam: source at the requested distance before the rotation axis, detector on the axis *)
Theorem C210_cone_default dist sh d axis det : axis_named d axis -> detector_at true sh det ->
  prj_geom_cone dist sh d None = inr (mkPG GCone [V3 0 (- dist) 0] det [V3 1 0 0] [V3 0 0 1] [axis] 1 None).
Proof.
  intros Hd Hs. apply named_dir in Hd. unfold prj_geom_cone, get_prj_geom_cone. rewrite Hd. cbn [ebind].
  rewrite (shift_default GCone _ _ true _ det) by (try reflexivity; assumption). reflexivity.
Qed.
(** a direction that names no axis raises, whatever else is requested *)
Theorem C210_bad_direction_raises gt dist sh d data : (forall a, ~ axis_named d a) ->
  prj_geom_parallel gt sh d data = inl ValueError /\ prj_geom_cone dist sh d data = inl ValueError.
Proof.
  intros H. apply C210_unknown_direction_raises in H. unfold prj_geom_parallel, prj_geom_cone, get_prj_geom_parallel, get_prj_geom_cone.
  rewrite H. cbn [ebind]. split; [|reflexivity]. destruct (String.eqb (lower gt) "3d"), (String.eqb (lower gt) "2d"); reflexivity.
Qed.
(** a geometry type that is neither 2d nor 3d is noticed only when a shift is requested *)
Theorem C210_unknown_type gt d axis : lower gt <> "2d"%string -> lower gt <> "3d"%string -> axis_named d axis ->
  (exists g, prj_geom_parallel gt NoShift d None = inr g /\ ndim (g_type g) = inl ValueError) /\
  (forall c, prj_geom_parallel gt (ScalarShift c) d None = inl ValueError).
Proof.
  intros H2 H3 Hd. apply named_dir in Hd. unfold prj_geom_parallel.
  destruct (String.eqb_spec (lower gt) "3d") as [|_]; [congruence|].
  destruct (String.eqb_spec (lower gt) "2d") as [|_]; [congruence|]. rewrite Hd. cbn [ebind]. split.
  - eexists. split; reflexivity.
  - intros c. unfold apply_shift, set_detector_shifts_vu. cbv zeta.
    cbn [shifts_rows map last upd_last rev app List.length Nat.ltb Nat.leb andb Nat.eqb negb g_det g_u g_v g_type g_src g_rot g_ratio g_shape].
    rewrite bcast_single_l. cbn [ebind map]. rewrite iadd_single. reflexivity.
Qed.

(** ** Detector shape from the data *)
Lemma set_shape_fields ty s dt u v r q sh : set_shape (mkPG ty s dt u v r q None) sh = mkPG ty s dt u v r q (Some sh).
Proof. reflexivity. Qed.
Theorem C210_parallel_shape gt three sh d axis det shape fmt f :
  lower gt = (if three : bool then "3d" else "2d")%string -> axis_named d axis -> detector_at three sh det ->
  get_data_dims shape fmt = inr f ->
  (forall s, detector_shape three f s -> prj_geom_parallel gt sh d (Some (shape, fmt)) =
     inr (mkPG (if three then GParallel3d else GParallel2d) [V3 0 (-1) 0] det [V3 1 0 0] [V3 0 0 1] [axis] 1 (Some s))) /\
  ((forall s, ~ detector_shape three f s) -> prj_geom_parallel gt sh d (Some (shape, fmt)) = inl ValueError).
Proof.
  intros Ht Hd Hs Hf. apply named_dir in Hd. unfold prj_geom_parallel. rewrite Ht.
  destruct three; cbn [String.eqb Ascii.eqb Bool.eqb]; unfold get_prj_geom_parallel; rewrite Hd; cbn [ebind].
  - rewrite (shift_default GParallel3d _ _ true _ det) by (try reflexivity; assumption). cbn [ebind]. rewrite Hf. cbn [ebind]. split.
    + intros s (u & -> & v & -> & ->). rewrite set_shape_fields. reflexivity.
    + intros Hn. destruct (f "u"%char) as [u|] eqn:Eu; [|reflexivity]. destruct (f "v"%char) as [v|] eqn:Ev; [|reflexivity].
      exfalso. apply (Hn [v; u]). exists u. split; [assumption|]. exists v. split; [assumption|reflexivity].
  - rewrite (shift_default GParallel2d _ _ false _ det) by (try reflexivity; assumption). cbn [ebind]. rewrite Hf. cbn [ebind]. split.
    + intros s (u & -> & ->). rewrite set_shape_fields. reflexivity.
    + intros Hn. destruct (f "u"%char) as [u|] eqn:Eu; [|reflexivity].
      exfalso. apply (Hn [u]). exists u. split; [assumption|reflexivity].
Qed.
Theorem C210_cone_shape dist sh d axis det shape fmt f :
  axis_named d axis -> detector_at true sh det -> get_data_dims shape fmt = inr f ->
  (forall s, detector_shape true f s -> prj_geom_cone dist sh d (Some (shape, fmt)) =
     inr (mkPG GCone [V3 0 (- dist) 0] det [V3 1 0 0] [V3 0 0 1] [axis] 1 (Some s))) /\
  ((forall s, ~ detector_shape true f s) -> prj_geom_cone dist sh d (Some (shape, fmt)) = inl ValueError).
Proof.
  intros Hd Hs Hf. apply named_dir in Hd. unfold prj_geom_cone, get_prj_geom_cone. rewrite Hd. cbn [ebind].
  rewrite (shift_default GCone _ _ true _ det) by (try reflexivity; assumption). cbn [ebind]. rewrite Hf. cbn [ebind]. split.
  - intros s (u & -> & v & -> & ->). rewrite set_shape_fields. reflexivity.
  - intros Hn. destruct (f "v"%char) as [v|] eqn:Ev; [|reflexivity]. destruct (f "u"%char) as [u|] eqn:Eu; [|reflexivity].
    exfalso. apply (Hn [v; u]). exists u. split; [assumption|]. exists v. split; [assumption|reflexivity].
Qed.
(** the default format: a stack of sinograms, one sinogram, too many dimensions *)
Theorem C210_default_format gt dist v w u :
  (lower gt = "3d"%string ->
     (exists g, prj_geom_parallel gt NoShift (DirName "clockwise") (Some ([v; w; u], "dvwu"%string)) = inr g /\ g_shape g = Some [v; u]) /\
     prj_geom_parallel gt NoShift (DirName "clockwise") (Some ([w; u], "dvwu"%string)) = inl ValueError) /\
  (lower gt = "2d"%string ->
     exists g, prj_geom_parallel gt NoShift (DirName "clockwise") (Some ([w; u], "dvwu"%string)) = inr g /\ g_shape g = Some [u]) /\
  (exists g, prj_geom_cone dist NoShift (DirName "clockwise") (Some ([v; w; u], "dvwu"%string)) = inr g /\ g_shape g = Some [v; u]) /\
  prj_geom_cone dist NoShift (DirName "clockwise") (Some ([w; u], "dvwu"%string)) = inl ValueError.
Proof.
  unfold prj_geom_parallel. split; [|split; [|split]].
  - intros ->. split; [eexists; split; reflexivity|reflexivity].
  - intros ->. eexists; split; reflexivity.
  - eexists; split; reflexivity.
  - reflexivity.
Qed.

(** a data shape longer than the format raises IndexError (for a known direction and shift) *)
Theorem C210_format_too_short gt three dist sh d axis det shape fmt :
  lower gt = (if three : bool then "3d" else "2d")%string -> axis_named d axis -> detector_at three sh det ->
  (String.length fmt < List.length shape)%nat ->
  prj_geom_parallel gt sh d (Some (shape, fmt)) = inl IndexError /\
  (three = true -> prj_geom_cone dist sh d (Some (shape, fmt)) = inl IndexError) /\
  forall pad s, get_vol_geom_from_data shape pad fmt s = inl IndexError.
Proof.
  intros Ht Hd Hs Hl. apply named_dir in Hd.
  assert (E : get_data_dims shape fmt = inl IndexError).
  { unfold get_data_dims. destruct (Nat.ltb_spec (String.length fmt) (List.length shape)) as [_|L]; [reflexivity|lia]. }
  split; [|split].
  - unfold prj_geom_parallel. rewrite Ht.
    destruct three; cbn [String.eqb Ascii.eqb Bool.eqb]; unfold get_prj_geom_parallel; rewrite Hd; cbn [ebind].
    + rewrite (shift_default GParallel3d _ _ true _ det) by (try reflexivity; assumption). cbn [ebind]. rewrite E. reflexivity.
    + rewrite (shift_default GParallel2d _ _ false _ det) by (try reflexivity; assumption). cbn [ebind]. rewrite E. reflexivity.
  - intros ->. unfold prj_geom_cone, get_prj_geom_cone. rewrite Hd. cbn [ebind].
    rewrite (shift_default GCone _ _ true _ det) by (try reflexivity; assumption). cbn [ebind]. rewrite E. reflexivity.
  - intros pad s. unfold get_vol_geom_from_data. rewrite E. reflexivity.
Qed.
(** ** Sense of rotation.  [turn] is +1 for clockwise and -1 for counter-clockwise; the ASTRA patch reverses the angles of
    two-dimensional geometries. *)
Inductive turns : vec3 -> R -> Prop :=
| turns_clockwise : turns (V3 0 0 (-1)) 1
| turns_counter : turns (V3 0 0 1) (-1).
Lemma turn_vec axis s a x y z : turns axis s ->
  rotvec_apply (vscal a axis) (V3 x y z) = V3 (cos a * x + s * sin a * y) (cos a * y - s * sin a * x) z.
Proof.
  intros [|]; rewrite rotvec_scal;
    match goal with |- context [vnorm ?v] => assert (N : vnorm v = 1) by
      (unfold vnorm, vdot; simpl; match goal with |- sqrt ?x = _ => replace x with 1 by ring end; apply sqrt_1) end;
    rewrite N; destruct (Req_EM_T 1 0); try lra; rewrite Rmult_1_r, Rinv_1; unfold rodrigues; v3.
Qed.
Theorem C210_sense_of_rotation ty D axis s angles patch : In ty [GParallel2d; GParallel3d; GCone; GFanflat] -> turns axis s ->
  let t := if (patch && match ty with GParallel2d | GFanflat => true | _ => false end)%bool then - s else s in
  rotate (mkPG ty [V3 0 (- D) 0] [V3 0 0 0] [V3 1 0 0] [V3 0 0 1] [axis] 1 None) angles patch =
  inr (mkPG ty (map (fun a => V3 (- (t * D * sin a)) (- (D * cos a)) 0) angles) (map (fun _ => V3 0 0 0) angles)
         (map (fun a => V3 (cos a) (- (t * sin a)) 0) angles) (map (fun _ => V3 0 0 1) angles) [axis] 1 None).
Proof.
  intros Hty Hs t.
  assert (Main : forall sg : R, (sg = 1 \/ sg = -1) -> t = sg * s ->
    rotate (mkPG ty [V3 0 (- D) 0] [V3 0 0 0] [V3 1 0 0] [V3 0 0 1] [axis] 1 None) (map (fun a => sg * a) angles) false =
    inr (mkPG ty (map (fun a => V3 (- (t * D * sin a)) (- (D * cos a)) 0) angles) (map (fun _ => V3 0 0 0) angles)
         (map (fun a => V3 (cos a) (- (t * sin a)) 0) angles) (map (fun _ => V3 0 0 1) angles) [axis] 1 None)).
  { intros sg Hsg Ht.
    assert (Hc : forall a, cos (sg * a) = cos a) by (intros a; destruct Hsg as [-> | ->];
      [f_equal; ring|replace (-1 * a) with (- a) by ring; apply cos_neg]).
    assert (Hi : forall a, s * sin (sg * a) = t * sin a) by (intros a; rewrite Ht; destruct Hsg as [-> | ->];
      [replace (1 * a) with a by ring; ring|replace (-1 * a) with (- a) by ring; rewrite sin_neg; ring]).
    rewrite (rotate_plain _ _ axis) by reflexivity. cbv zeta. cbn [g_src g_det g_u g_v g_type g_rot g_ratio g_shape].
    rewrite !bcast_single_r. cbn [ebind]. rewrite !map_map.
    assert (E : forall x y z (k : R -> vec3),
       (forall a, V3 (cos a * x + t * sin a * y) (cos a * y - t * sin a * x) z = k a) ->
       map (fun a => rotvec_apply (vscal (sg * a) axis) (V3 x y z)) angles = map k angles).
    { intros x y z k Hk. apply map_ext. intros a. rewrite (turn_vec _ _ _ _ _ _ Hs), Hc, Hi. apply Hk. }
    do 2 f_equal; apply E; intros a; apply vec3_eq; cbn; ring. }
  assert (E1 : map (fun a => 1 * a) angles = angles) by (rewrite <- (map_id angles) at 2; apply map_ext; intros; ring).
  assert (Em : map (fun a => -1 * a) angles = map Ropp angles) by (apply map_ext; intros; ring).
  destruct patch.
  - destruct ty; cbn [andb] in t; try (destruct Hty as [?|[?|[?|[?|[]]]]]; discriminate).
    + specialize (Main (-1) (or_intror eq_refl)). rewrite Em in Main. rewrite <- Main by (unfold t; ring). reflexivity.
    + specialize (Main 1 (or_introl eq_refl)). rewrite E1 in Main. rewrite <- Main by (unfold t; ring). reflexivity.
    + specialize (Main 1 (or_introl eq_refl)). rewrite E1 in Main. rewrite <- Main by (unfold t; ring). reflexivity.
    + specialize (Main (-1) (or_intror eq_refl)). rewrite Em in Main. rewrite <- Main by (unfold t; ring). reflexivity.
  - specialize (Main 1 (or_introl eq_refl)). rewrite E1 in Main. rewrite <- Main by (unfold t; cbn [andb]; ring). reflexivity.
Qed.

(** ** Source positions *)
(** the source keeps its coordinate along the beam; the others are replaced (z becomes 0 when no vertical position is given) *)
Theorem C210_source_positions g three (l : list (R * R)) ys : ndim (g_type g) = inr (if three : bool then 3%nat else 2%nat) ->
  map vy (g_src g) = ys -> (List.length ys = List.length l \/ List.length ys = 1%nat) ->
  (exists g', set_source_shifts_vu g (Some [map fst l; map snd l]) = inr g' /\
     List.length (g_src g') = List.length l /\
     g_det g' = g_det g /\ g_u g' = g_u g /\ g_v g' = g_v g /\ g_rot g' = g_rot g /\ g_type g' = g_type g /\
     g_ratio g' = g_ratio g /\ g_shape g' = g_shape g /\
     forall i, (i < List.length l)%nat ->
       nth i (g_src g') vzero = V3 (snd (nth i l (0, 0))) (nth (if Nat.eqb (List.length ys) 1 then 0 else i) ys 0)
                                   (if three then fst (nth i l (0, 0)) else 0)) /\
  (exists g', set_source_shifts_vu g (Some [map snd l]) = inr g' /\ List.length (g_src g') = List.length l /\
     forall i, (i < List.length l)%nat ->
       nth i (g_src g') vzero = V3 (snd (nth i l (0, 0))) (nth (if Nat.eqb (List.length ys) 1 then 0 else i) ys 0) 0).
Proof.
  intros Hn Hy Hl.
  assert (Ls : List.length (g_src g) = List.length ys) by (rewrite <- Hy, map_length; reflexivity).
  set (P1 := map (fun u : R => V3 u 0 0) (map snd l)).
  assert (I1 : exists p1, iadd (fun p y => V3 (vx p) y (vz p)) P1 ys = inr p1 /\ List.length p1 = List.length l /\
     forall i, (i < List.length l)%nat -> nth i p1 vzero = V3 (snd (nth i l (0, 0))) (nth (if Nat.eqb (List.length ys) 1 then 0 else i) ys 0) 0).
  { assert (E : exists p1, iadd (fun p y => V3 (vx p) y (vz p)) P1 ys = inr p1).
    { unfold iadd, P1. rewrite !map_length. destruct (Nat.eqb_spec (List.length ys) (List.length l)); [eauto|].
      destruct ys as [|y [|]]; simpl in *; try lia; eauto. }
    destruct E as [p1 E]. exists p1. split; [assumption|]. destruct (iadd_len _ _ _ _ E) as (L & _ & N).
    unfold P1 in L, N. rewrite !map_length in L, N. split; [assumption|]. intros i Hi. rewrite (N vzero 0 i Hi).
    rewrite map_map. rewrite (nth_indep _ vzero ((fun p : R * R => V3 (snd p) 0 0) (0, 0))) by (rewrite map_length; assumption).
    rewrite (map_nth (fun p : R * R => V3 (snd p) 0 0)). cbn [vx vz]. reflexivity. }
  destruct I1 as (p1 & E1 & L1 & N1).
  assert (Guard : forall n, n = List.length l ->
     (Nat.ltb 1 (List.length (g_src g)) && Nat.ltb 1 n && negb (Nat.eqb (List.length (g_src g)) n))%bool = false).
  { intros n ->. rewrite Ls. destruct Hl as [->|E]; [rewrite Nat.eqb_refl; apply Bool.andb_false_r|]. rewrite E. reflexivity. }
  split.
  - unfold set_source_shifts_vu. cbv zeta. cbn [last]. rewrite (Guard (List.length (map snd l))) by apply map_length.
    rewrite Hy. fold P1. rewrite E1. cbn [ebind]. rewrite Hn. cbn [ebind List.length Nat.eqb Nat.sub nth].
    destruct three; cbn [Nat.eqb andb].
    + rewrite iadd_same by (rewrite map_length; symmetry; assumption). cbn [ebind]. eexists. split; [reflexivity|].
      cbn [g_src g_det g_u g_v g_rot g_type g_ratio g_shape].
      split; [rewrite map_length, combine_length, map_length, L1, Nat.min_id; reflexivity|]. repeat (split; [reflexivity|]).
      intros i Hi.
      set (F := fun p : vec3 * R => V3 (vx (fst p)) (vy (fst p)) (snd p)).
      rewrite (nth_indep _ vzero (F (vzero, fst (0, 0)))) by (rewrite map_length, combine_length, map_length, L1, Nat.min_id; assumption).
      rewrite (map_nth F), combine_nth by (rewrite map_length; assumption).
      rewrite (map_nth (@fst R R) l (0, 0)). unfold F. cbn [fst snd]. rewrite N1 by assumption. reflexivity.
    + eexists. split; [reflexivity|]. cbn [g_src g_det g_u g_v g_rot g_type g_ratio g_shape]. split; [assumption|].
      repeat (split; [reflexivity|]). exact N1.
  - unfold set_source_shifts_vu. cbv zeta. cbn [last]. rewrite (Guard (List.length (map snd l))) by apply map_length.
    rewrite Hy. fold P1. rewrite E1. cbn [ebind]. rewrite Hn. cbn [ebind List.length Nat.eqb]. rewrite Bool.andb_false_r. cbn [ebind].
    eexists. split; [reflexivity|]. cbn [g_src]. split; [assumption|exact N1].
Qed.
(** no position requested: nothing changes; several sources and another number of positions: ValueError *)
Theorem C210_source_none g : set_source_shifts_vu g None = inr g.
Proof. reflexivity. Qed.
Theorem C210_source_mismatch_raises g rows : (1 < List.length (g_src g))%nat ->
  List.length (last rows []) <> List.length (g_src g) -> set_source_shifts_vu g (Some rows) = inl ValueError.
Proof.
  intros Hs Hn. unfold set_source_shifts_vu. cbv zeta.
  destruct (Nat.ltb_spec 1 (List.length (g_src g))) as [_|]; [|lia].
  destruct (Nat.eqb_spec (List.length (g_src g)) (List.length (last rows []))) as [E|_]; [congruence|]. cbn [negb].
  rewrite Bool.andb_true_r. cbn [andb].
  destruct (Nat.ltb_spec 1 (List.length (last rows []))) as [_|L]; [reflexivity|].
  unfold iadd. rewrite !map_length. destruct (Nat.eqb_spec (List.length (g_src g)) (List.length (last rows []))) as [E|_]; [congruence|].
  destruct (map vy (g_src g)) as [|y [|y2 r]] eqn:E; try reflexivity; apply (f_equal (@List.length R)) in E; rewrite map_length in E; simpl in E; lia.
Qed.

(** ** Mismatched numbers of angles *)
Lemma bcast_error {A B C} (f : A -> B -> C) la lb e : bcast f la lb = inl e -> e = ValueError.
Proof.
  unfold bcast. destruct (Nat.eqb _ _); [discriminate|].
  destruct la as [|a [|]], lb as [|b [|]]; intros H; congruence.
Qed.
Theorem C210_rotate_mismatch_raises g d angles patch f : g_rot g = [d] -> In f fields ->
  (1 < List.length angles)%nat -> (1 < List.length (f g))%nat -> List.length (f g) <> List.length angles ->
  rotate g angles patch = inl ValueError.
Proof.
  intros Hd Hf Ha Hg Hne. destruct (rotate g angles patch) as [e|g'] eqn:E.
  - f_equal. unfold rotate in E.
    destruct (if patch then ebind (ndim (g_type g)) (fun nd => inr (Nat.eqb nd 2)) else inr false) as [e0|neg] eqn:En.
    { cbn [ebind] in E. injection E as <-. destruct patch; [|discriminate]. destruct (g_type g); cbn in En; congruence. }
    cbn [ebind] in E. set (as_ := if neg then map Ropp angles else angles) in E.
    destruct (bcast vscal as_ (g_rot g)) as [e0|rots] eqn:Er; cbn [ebind] in E;
      [injection E as <-; exact (bcast_error _ _ _ _ Er)|].
    destruct (bcast rotvec_apply rots (g_src g)) as [e0|] eqn:E1; cbn [ebind] in E; [injection E as <-; exact (bcast_error _ _ _ _ E1)|].
    destruct (bcast rotvec_apply rots (g_det g)) as [e0|] eqn:E2; cbn [ebind] in E; [injection E as <-; exact (bcast_error _ _ _ _ E2)|].
    destruct (bcast rotvec_apply rots (g_u g)) as [e0|] eqn:E3; cbn [ebind] in E; [injection E as <-; exact (bcast_error _ _ _ _ E3)|].
    destruct (bcast rotvec_apply rots (g_v g)) as [e0|] eqn:E4; cbn [ebind] in E; [injection E as <-; exact (bcast_error _ _ _ _ E4)|].
    discriminate.
  - exfalso. apply rotate_inv in E as (rots & Hr & Hall & _). rewrite Hd, bcast_single_r in Hr. injection Hr as <-.
    specialize (Hall f Hf). destruct (bcast_inv _ _ _ _ Hall) as (_ & D & _). rewrite !map_length in D. lia.
Qed.

(** ** Combining vertical and horizontal shifts *)
Theorem C210_combined_shifts (l : list (R * R)) : List.length l <> 1%nat ->
  combine_shifts [List.length l] [List.length l] (map fst l) (map snd l) = inr [map fst l; map snd l] /\
  detector_at true (ArrayShift [map fst l; map snd l]) (map (fun p => V3 (snd p) 0 (fst p)) l).
Proof.
  intros Hl. split; [|exact (many_shifts_vu true l)].
  unfold combine_shifts. rewrite !map_length, Nat.eqb_refl. cbn [forallb negb].
  destruct (Nat.eqb_spec (List.length l) 1) as [E|_]; [congruence|]. cbn [andb filter].
  destruct (Nat.ltb 1 (List.length l)); reflexivity.
Qed.
(** arrays with several long axes, or of different sizes, are refused *)
Theorem C210_combine_refuses shape_v shape_u vs us :
  ((exists a b c p q, (1 < p)%nat /\ (1 < q)%nat /\ (shape_v = a ++ p :: b ++ q :: c \/ shape_u = a ++ p :: b ++ q :: c)) \/
   List.length vs <> List.length us) ->
  combine_shifts shape_v shape_u vs us = inl ValueError.
Proof.
  assert (Two : forall s a b c p q, (1 < p)%nat -> (1 < q)%nat -> s = a ++ p :: b ++ q :: c ->
     Nat.ltb 1 (List.length (filter (fun n => Nat.ltb 1 n) s)) = true).
  { intros s a b c p q Hp Hq ->. apply Nat.ltb_lt. rewrite filter_app, app_length. cbn [filter].
    destruct (Nat.ltb_spec 1 p) as [_|]; [|lia]. cbn [List.length]. rewrite filter_app, app_length. cbn [filter].
    destruct (Nat.ltb_spec 1 q) as [_|]; [|lia]. cbn [List.length]. lia. }
  intros [(a & b & c & p & q & Hp & Hq & [E|E])|E]; unfold combine_shifts.
  - rewrite (Two _ _ _ _ _ _ Hp Hq E). reflexivity.
  - rewrite (Two shape_u _ _ _ _ _ Hp Hq E). destruct (Nat.ltb _ _); reflexivity.
  - destruct (Nat.ltb _ _); [reflexivity|]. destruct (Nat.ltb _ _); [reflexivity|].
    destruct (Nat.eqb_spec (List.length vs) (List.length us)); [congruence|]. reflexivity.
Qed.
(** one vertical and one horizontal shift (a single projection) are refused too *)
Theorem C210_combine_single_refuted v u : combine_shifts [1%nat] [1%nat] [v] [u] = inl ValueError.
Proof. reflexivity. Qed.

(** ** C50: a pixel at distance zero from the (mirrored) source has a finite weight: the numerator itself *)
Theorem C50_zero_distance g s W w iv iu : g_type g = GCone -> get_pre_weights g (Some s) = Some W ->
  let src := nth w (g_src g) vzero in let det := nth w (g_det g) vzero in
  vadd (pixel_xyz s (nth w (g_u g) vzero) (nth w (g_v g) vzero) iv iu) (vadd det src) = vzero ->
  W iv w iu = vnorm (vadd det src).
Proof.
  intros Ht Hw. cbv zeta. intros Hz. unfold get_pre_weights in Hw. rewrite Ht in Hw. injection Hw as <-.
  unfold weight_of. rewrite Hz, vnorm_zero. unfold guard0. destruct (Req_EM_T 0 0) as [_|]; [|congruence]. field.
Qed.

(** ** The hypotheses are met *)
Example C210_ex : axis_named (DirName "Clockwise") (V3 0 0 (-1)) /\ axis_named (DirName "Counter-CLOCKWISE") (V3 0 0 1) /\
  (forall a, ~ axis_named (DirName "anticlockwise") a) /\
  lower "3D" = "3d"%string /\
  detector_at true (ArrayShift [[5; 6]; [1; 2]]) [V3 1 0 5; V3 2 0 6] /\
  detector_shape true (fun c => if Ascii.eqb c "u" then Some 7%nat else if Ascii.eqb c "v" then Some 3%nat else None) [3; 7]%nat.
Proof.
  split; [constructor; reflexivity|]. split; [apply counter_axis; reflexivity|]. split.
  { intros a H. inversion H as [s E|s E|]; subst; discriminate. }
  split; [reflexivity|]. split; [exact (many_shifts_vu true [(5, 1); (6, 2)])|].
  exists 7%nat. split; [reflexivity|]. exists 3%nat. split; reflexivity.
Qed.
