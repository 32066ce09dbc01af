(** C49-C51, C101-C106: tilt, slicing, lifting, detector shifts, displacement projection, pre-weights, volume shapes
    (models.py). *)
From Coq Require Import Lra Lia String.
From Verif Require Import Sums PyErr GeometryModel GeometryProps.
Import ListNotations.
Local Open Scope R_scope.

(** * C51: detector tilt *)
(** what the documentation promises: the rotations of all the (angle, axis) pairs are applied in order *)
Fixpoint apply_all (pairs : list (R * vec3)) (p : vec3) : vec3 :=
  match pairs with [] => p | (a, x) :: rest => apply_all rest (rotvec_apply (vscal a x) p) end.

Lemma tilt_loop_fields ts pairs g :
  g_det (tilt_loop ts pairs g) = map (apply_all pairs) (g_det g) /\
  g_u (tilt_loop ts pairs g) = map (apply_all pairs) (g_u g) /\
  g_v (tilt_loop ts pairs g) = map (apply_all pairs) (g_v g) /\
  g_src (tilt_loop ts pairs g) = (if ts then map (apply_all pairs) (g_src g) else g_src g) /\
  g_type (tilt_loop ts pairs g) = g_type g /\ g_rot (tilt_loop ts pairs g) = g_rot g.
Proof.
  revert g. induction pairs as [|[a x] pairs IH]; intros g; simpl.
  - rewrite !map_id. destruct ts; rewrite ?map_id; repeat split; reflexivity.
  - destruct (IH (tilt_step ts a x g)) as (E1 & E2 & E3 & E4 & E5 & E6).
    rewrite E1, E2, E3, E4, E5, E6. unfold tilt_step; simpl. rewrite !map_map. destruct ts; rewrite ?map_map; repeat split; reflexivity.
Qed.

(** with one axis per angle, every rotation is applied, in order, to the detector (and to the source iff requested) *)
Theorem C51_matching_axes_all_applied g angles axes ts : List.length axes = List.length angles ->
  exists g', set_detector_tilt g angles (Axes axes) ts = inr g' /\
    g_det g' = map (apply_all (combine angles axes)) (g_det g) /\
    g_u g' = map (apply_all (combine angles axes)) (g_u g) /\
    g_v g' = map (apply_all (combine angles axes)) (g_v g) /\
    g_src g' = (if ts then map (apply_all (combine angles axes)) (g_src g) else g_src g).
Proof.
  intros H. unfold set_detector_tilt. rewrite H, Nat.eqb_refl, Bool.andb_false_r.
  eexists. split; [reflexivity|]. destruct (tilt_loop_fields ts (combine angles axes) g) as (E1 & E2 & E3 & E4 & _). auto.
Qed.
Theorem C51_one_angle_one_axis g a x ts :
  exists g', set_detector_tilt g [a] (Axis1 x) ts = inr g' /\
    g_det g' = map (rotvec_apply (vscal a x)) (g_det g) /\ g_u g' = map (rotvec_apply (vscal a x)) (g_u g) /\
    g_v g' = map (rotvec_apply (vscal a x)) (g_v g) /\
    g_src g' = (if ts then map (rotvec_apply (vscal a x)) (g_src g) else g_src g).
Proof. eexists. split; [reflexivity|]. simpl. auto. Qed.

Lemma apply_all_dot pairs p q : vdot (apply_all pairs p) (apply_all pairs q) = vdot p q.
Proof. revert p q. induction pairs as [|[a x] l IH]; intros p q; simpl; [reflexivity|]. rewrite IH. apply rotvec_dot. Qed.
(** the detector stays rigid under any accepted tilt *)
Theorem C51_tilt_rigid g angles ax ts g' : set_detector_tilt g angles ax ts = inr g' ->
  exists m : vec3 -> vec3, (forall p q, vdot (m p) (m q) = vdot p q) /\
    g_det g' = map m (g_det g) /\ g_u g' = map m (g_u g) /\ g_v g' = map m (g_v g) /\
    g_src g' = (if ts then map m (g_src g) else g_src g).
Proof.
  unfold set_detector_tilt. intros H.
  assert (E : exists pairs, g' = tilt_loop ts pairs g).
  { destruct ax as [a|l]; [eexists; injection H as <-; reflexivity|].
    destruct (_ && _)%bool; [discriminate|]. eexists; injection H as <-; reflexivity. }
  destruct E as [pairs ->]. exists (apply_all pairs). split; [apply apply_all_dot|].
  destruct (tilt_loop_fields ts pairs g) as (E1 & E2 & E3 & E4 & _). auto.
Qed.

(** with a single axis, all the angles but the first one are silently ignored *)
Theorem C51_single_axis_ignores_angles g a rest x ts :
  set_detector_tilt g (a :: rest) (Axis1 x) ts = set_detector_tilt g [a] (Axis1 x) ts.
Proof. unfold set_detector_tilt. simpl. destruct rest; reflexivity. Qed.
(** with a single angle, all the axes but the first one are silently ignored *)
Theorem C51_single_angle_ignores_axes g a x rest ts :
  set_detector_tilt g [a] (Axes (x :: rest)) ts = set_detector_tilt g [a] (Axis1 x) ts.
Proof. unfold set_detector_tilt. simpl. destruct rest; reflexivity. Qed.

Lemma vnorm_y : vnorm (V3 0 1 0) = 1.
Proof. unfold vnorm, vdot; simpl. replace (0 * 0 + 1 * 1 + 0 * 0) with 1 by ring. apply sqrt_1. Qed.
(** hence a tilt by the angles (0, pi) about the default axis does nothing, instead of flipping the detector *)
Theorem C51_tilt_refuted : exists g angles x g', set_detector_tilt g angles (Axis1 x) false = inr g' /\
  g_u g' <> map (apply_all (map (fun a => (a, x)) angles)) (g_u g).
Proof.
  exists (mkPG GParallel3d [V3 0 (-1) 0] [vzero] [V3 1 0 0] [V3 0 0 1] [V3 0 0 (-1)] 1 None), [0; PI], (V3 0 1 0).
  eexists. split; [reflexivity|]. simpl. rewrite !rotvec_0, rotvec_scal, vnorm_y.
  destruct (Req_EM_T 1 0); [lra|]. rewrite Rmult_1_r. unfold rodrigues. rewrite cos_PI, sin_PI.
  intros H. injection H as H _ _. simpl in H. lra.
Qed.

(** * C101: slicing *)
Lemma map_nth_seq {A} (d : A) l : map (fun i => nth i l d) (seq 0 (List.length l)) = l.
Proof.
  induction l as [|a l IH]; [reflexivity|]. simpl. f_equal. rewrite <- seq_shift, map_map. exact IH.
Qed.
Lemma slice_inv idx l l' : slice_array idx l = inr l' ->
  ((List.length l <= 1)%nat /\ l' = l) \/ ((1 < List.length l)%nat /\ Forall (fun i => (i < List.length l)%nat) idx /\
     l' = map (fun i => nth i l vzero) idx).
Proof.
  unfold slice_array, take_rows. destruct (Nat.ltb_spec 1 (List.length l)).
  - destruct (forallb _ _) eqn:E; [|discriminate]. intros H'; injection H' as <-. right. repeat split; auto.
    apply Forall_forall. intros i Hi. rewrite forallb_forall in E. apply Nat.ltb_lt. apply E, Hi.
  - intros H'; injection H' as <-. left. split; [lia|reflexivity].
Qed.

(** taking a subset of the projections of a rotated geometry = rotating by the subset of the angles *)
Theorem C101_slice_of_rotation g d angles idx g1 g2 :
  g_rot g = [d] -> (2 <= List.length angles)%nat -> idx <> [] ->
  (forall f, In f fields -> List.length (f g) = 1%nat) ->
  rotate g angles false = inr g1 -> getitem g1 idx = inr g2 ->
  rotate g (map (fun i => nth i angles 0) idx) false = inr g2.
Proof.
  intros Hd Hn Hne H1 Hr Hg. rewrite (rotate_plain g _ d Hd). cbv zeta.
  rewrite (rotate_plain g _ d Hd) in Hr. cbv zeta in Hr.
  unfold getitem in Hg.
  apply ebind_inv in Hg as (s & Hs & Hg). apply ebind_inv in Hg as (e & He & Hg).
  apply ebind_inv in Hg as (u & Hu & Hg). apply ebind_inv in Hg as (v & Hv & Hg). injection Hg as <-.
  apply ebind_inv in Hr as (s1 & Hs1 & Hr). apply ebind_inv in Hr as (e1 & He1 & Hr).
  apply ebind_inv in Hr as (u1 & Hu1 & Hr). apply ebind_inv in Hr as (v1 & Hv1 & Hr). injection Hr as <-.
  cbn [g_src g_det g_u g_v g_type g_rot g_ratio g_shape] in *.
  assert (Key : forall l l1 l2, List.length l = 1%nat ->
     bcast rotvec_apply (map (fun a => vscal a d) angles) l = inr l1 -> slice_array idx l1 = inr l2 ->
     bcast rotvec_apply (map (fun a => vscal a d) (map (fun i => nth i angles 0) idx)) l = inr l2).
  { intros l l1 l2 Hl Hb Hsl. destruct l as [|w [|]]; simpl in Hl; try lia.
    rewrite bcast_single_r in Hb. injection Hb as <-.
    rewrite bcast_single_r. f_equal.
    apply slice_inv in Hsl. rewrite !map_length in Hsl. destruct Hsl as [[? _]|(_ & Hall & ->)]; [lia|].
    rewrite !map_map. apply map_ext_in. intros i Hi.
    rewrite Forall_forall in Hall. specialize (Hall i Hi).
    set (F := fun a => rotvec_apply (vscal a d) w).
    rewrite (nth_indep _ vzero (F 0)) by (rewrite map_length; assumption). rewrite (map_nth F). reflexivity. }
  rewrite (Key _ _ _ (H1 g_src ltac:(simpl; tauto)) Hs1 Hs), (Key _ _ _ (H1 g_det ltac:(simpl; tauto)) He1 He),
    (Key _ _ _ (H1 g_u ltac:(simpl; tauto)) Hu1 Hu), (Key _ _ _ (H1 g_v ltac:(simpl; tauto)) Hv1 Hv). reflexivity.
Qed.
(** slicing selects exactly the requested rows (in order, with repetitions) of every per-angle field *)
Theorem C101_slice_rows g idx g' : getitem g idx = inr g' ->
  forall f, In f fields ->
    ((List.length (f g) <= 1)%nat -> f g' = f g) /\
    ((1 < List.length (f g))%nat -> f g' = map (fun i => nth i (f g) vzero) idx /\ Forall (fun i => (i < List.length (f g))%nat) idx).
Proof.
  intros Hg f Hf. unfold getitem in Hg.
  apply ebind_inv in Hg as (s & Hs & Hg). apply ebind_inv in Hg as (e & He & Hg).
  apply ebind_inv in Hg as (u & Hu & Hg). apply ebind_inv in Hg as (v & Hv & Hg). injection Hg as <-.
  destruct Hf as [<-|[<-|[<-|[<-|[]]]]]; cbn [g_src g_det g_u g_v];
    match goal with H : slice_array idx ?l = inr ?r |- context [?r = ?l] => apply slice_inv in H as [[Ha Hb]|(Ha & Hb & Hc)] end;
    split; intros; try lia; auto.
Qed.
(** with a single projection the index is ignored: asking for two copies, or for an out-of-range projection, returns one *)
Theorem C101_single_projection_ignores_index_refuted : exists g idx g',
  List.length (g_u g) = 1%nat /\ idx = [5%nat; 7%nat] /\ getitem g idx = inr g' /\ List.length (g_u g') <> List.length idx.
Proof.
  exists (mkPG GParallel3d [V3 0 (-1) 0] [vzero] [V3 1 0 0] [V3 0 0 1] [V3 0 0 (-1)] 1 None), [5%nat; 7%nat].
  eexists. split; [reflexivity|]. split; [reflexivity|]. split; [reflexivity|]. simpl. lia.
Qed.

(** * C102: lifting to 3-D; C103: scaled fields *)
Theorem C102_get_3d_is_3d g g' : g_type g <> GFanflat -> pg_get_3d g = inr g' -> ndim (g_type g') = inr 3%nat.
Proof.
  intros Hf. unfold pg_get_3d. destruct (g_type g) eqn:E; cbn [ndim ebind Nat.eqb]; intros H; try discriminate;
    try (injection H as <-); simpl; rewrite ?E; try reflexivity. contradiction.
Qed.
Theorem C102_get_3d_idempotent g g' : pg_get_3d g = inr g' ->
  (forall s, g_shape g = Some s -> (1 <= List.length s <= 2)%nat) -> pg_get_3d g' = inr g'.
Proof.
  intros H Hs. unfold pg_get_3d in *. destruct (g_type g) eqn:E; cbn [ndim ebind Nat.eqb] in H; try discriminate;
    injection H as <-; cbn [g_type replace_2d_3d ndim ebind Nat.eqb]; rewrite ?E; cbn [ndim ebind Nat.eqb]; try reflexivity.
  cbn [replace_2d_3d g_src g_det g_u g_v g_rot g_ratio g_shape]. f_equal. f_equal.
  destruct (g_shape g) as [s|] eqn:Es; [|reflexivity]. specialize (Hs s eq_refl). simpl. f_equal.
  unfold pad_shape2. destruct s as [|a [|b [|]]]; simpl in *; try lia; reflexivity.
Qed.
(** the vectors are untouched and a 1-D detector becomes one row high *)
Theorem C102_get_3d_keeps_vectors g g' : pg_get_3d g = inr g' ->
  (forall f, In f fields -> f g' = f g) /\ g_rot g' = g_rot g /\
  (ndim (g_type g) = inr 2%nat -> forall u, g_shape g = Some [u] -> g_shape g' = Some [1%nat; u]).
Proof.
  unfold pg_get_3d. destruct (g_type g) eqn:E; cbn [ndim ebind Nat.eqb]; intros H; try discriminate; injection H as <-;
    (split; [intros f [<-|[<-|[<-|[<-|[]]]]]; reflexivity|]); (split; [reflexivity|]); intros Hn u Hu;
    try discriminate; simpl; rewrite Hu; reflexivity.
Qed.
(** ... but the 3-D version of a fan-beam geometry is still two-dimensional *)
Theorem C102_fanflat_refuted : exists g g', ndim (g_type g) = inr 2%nat /\ pg_get_3d g = inr g' /\ ndim (g_type g') = inr 2%nat.
Proof.
  exists (mkPG GFanflat [V3 0 (-1) 0] [vzero] [V3 1 0 0] [V3 0 0 1] [V3 0 0 (-1)] 1 None). eexists.
  split; [reflexivity|]. split; reflexivity.
Qed.
Theorem C103_scaled_field g f : g_ratio g <> 0 -> In (g_type g) [GParallel2d; GParallel3d; GCone] ->
  exists rows, get_field_scaled g f = inr rows /\ List.length rows = List.length (f g) /\
   forall i, (i < List.length (f g))%nat ->
     exists nd, ndim (g_type g) = inr nd /\
       nth i rows [] = firstn nd [vx (nth i (f g) vzero) / g_ratio g; vy (nth i (f g) vzero) / g_ratio g; vz (nth i (f g) vzero) / g_ratio g].
Proof.
  intros Hr Ht. unfold get_field_scaled.
  set (F := fun a => [vx a / g_ratio g; vy a / g_ratio g; vz a / g_ratio g]).
  destruct Ht as [<-|[<-|[<-|[]]]]; eexists; (split; [reflexivity|]); rewrite !map_length; (split; [reflexivity|]); intros i Hi;
    eexists; (split; [reflexivity|]).
  - rewrite map_map. rewrite (nth_indep _ [] ((fun a => firstn 2 (F a)) vzero)) by (rewrite map_length; assumption).
    rewrite (map_nth (fun a => firstn 2 (F a))). reflexivity.
  - rewrite (nth_indep _ [] (F vzero)) by (rewrite map_length; assumption). rewrite (map_nth F). reflexivity.
  - rewrite (nth_indep _ [] (F vzero)) by (rewrite map_length; assumption). rewrite (map_nth F). reflexivity.
Qed.
(** a fan-beam geometry, although accepted by [ndim], always raises *)
Theorem C103_fanflat_refuted g f : g_type g = GFanflat -> ndim (g_type g) = inr 2%nat /\ get_field_scaled g f = inl ValueError.
Proof. intros H. unfold get_field_scaled. rewrite H. split; reflexivity. Qed.

(** * C104: detector shifts *)
(** [last2]: the vertical row of a two-row position array *)
Lemma iadd_len {A B} (f : A -> B -> A) a b c : iadd f a b = inr c -> List.length c = List.length a /\
  (List.length b = List.length a \/ List.length b = 1%nat) /\
  forall da db i, (i < List.length a)%nat -> nth i c da = f (nth i a da) (brow db b i).
Proof.
  unfold iadd. destruct (Nat.eqb_spec (List.length b) (List.length a)) as [E|E].
  - intros H; injection H as <-. rewrite map_length, combine_length, E, Nat.min_id. repeat split; auto.
    intros da db i Hi. rewrite (nth_indep _ da (f da db)) by (rewrite map_length, combine_length; lia).
    rewrite (map_nth (fun p => f (fst p) (snd p)) (combine a b) (da, db)), combine_nth by auto. simpl. unfold brow.
    destruct (Nat.eqb_spec (List.length b) 1); [replace i with 0%nat by lia|]; reflexivity.
  - destruct b as [|y [|]]; try discriminate. intros H; injection H as <-. rewrite map_length. repeat split; auto.
    intros da db i Hi. rewrite (nth_indep _ da (f da y)) by (rewrite map_length; lia).
    rewrite (map_nth (fun x => f x y)). reflexivity.
Qed.

Theorem C104_shift_rows g rows cor dist g' :
  set_detector_shifts_vu g rows cor dist = inr g' ->
  let sh := shifts_rows rows cor in
  let us := last sh [] in
  List.length (g_det g') = List.length us /\ g_u g' = g_u g /\ g_v g' = g_v g /\ g_src g' = g_src g /\
  forall i, (i < List.length us)%nat ->
    nth i (g_det g') vzero =
      vadd (vadd (vscal (nth i us 0) (brow vzero (g_u g) i))
                 (if (match ndim (g_type g) with inr 3%nat => true | _ => false end && Nat.eqb (List.length sh) 2)%bool
                  then vscal (brow 0 (nth 0 sh []) i) (brow vzero (g_v g) i) else vzero))
           (V3 0 (brow 0 dist i) 0).
Proof.
  unfold set_detector_shifts_vu. cbv zeta. set (sh := shifts_rows rows cor). set (us := last sh []).
  destruct (_ && (_ && _))%bool; [discriminate|]. destruct (_ && _ && _)%bool; [discriminate|].
  intros H. apply ebind_inv in H as (du & Hdu & H). apply ebind_inv in H as (p1 & Hp1 & H).
  apply ebind_inv in H as (nd & Hnd & H). apply ebind_inv in H as (p2 & Hp2 & H). apply ebind_inv in H as (p3 & Hp3 & H).
  injection H as <-. cbn [g_det g_u g_v g_src].
  destruct (iadd_len _ _ _ _ Hp1) as (L1 & D1 & N1). rewrite repeat_length in *.
  destruct (iadd_len _ _ _ _ Hp3) as (L3 & D3 & N3).
  destruct (bcast_inv _ _ _ _ Hdu) as (Ld & Dd & Nd).
  assert (P1 : forall i, (i < List.length us)%nat -> nth i p1 vzero = vscal (nth i us 0) (brow vzero (g_u g) i)).
  { intros i Hi. rewrite (N1 vzero vzero i Hi).
    rewrite (nth_repeat vzero (List.length us)).
    assert (Hb : brow vzero du i = vscal (brow 0 us i) (brow vzero (g_u g) i)).
    { unfold brow at 1. destruct (Nat.eqb_spec (List.length du) 1) as [E1|E1].
      - rewrite (Nd vzero 0 vzero 0%nat) by lia.
        destruct (Nat.eqb_spec (List.length (g_u g)) 1) as [Ea|Ea].
        + rewrite Ld in E1. unfold brow. rewrite Ea, E1. reflexivity.
        + lia.
      - apply Nd. lia. }
    rewrite Hb. assert (Eb : brow 0 us i = nth i us 0).
    { unfold brow. destruct (Nat.eqb_spec (List.length us) 1); [replace i with 0%nat by lia|]; reflexivity. }
    rewrite Eb. v3. }
  assert (P2 : List.length p2 = List.length us /\ forall i, (i < List.length us)%nat -> nth i p2 vzero =
     vadd (vscal (nth i us 0) (brow vzero (g_u g) i))
       (if (match ndim (g_type g) with inr 3%nat => true | _ => false end && Nat.eqb (List.length sh) 2)%bool
        then vscal (brow 0 (nth 0 sh []) i) (brow vzero (g_v g) i) else vzero)).
  { rewrite Hnd. destruct (Nat.eqb_spec nd 3) as [E3|E3].
    - subst nd. cbn [andb] in Hp2 |- *. destruct (Nat.eqb_spec (List.length sh) 2) as [E2|E2].
      + apply ebind_inv in Hp2 as (dv & Hdv & Hp2). rewrite E2 in Hdv. simpl in Hdv.
        destruct (iadd_len _ _ _ _ Hp2) as (L2 & D2 & N2). split; [lia|]. intros i Hi.
        rewrite (N2 vzero vzero i) by lia. rewrite P1 by assumption. f_equal.
        destruct (bcast_inv _ _ _ _ Hdv) as (Lv & Dv & Nv).
        unfold brow at 1. destruct (Nat.eqb_spec (List.length dv) 1) as [E1|E1].
        * rewrite (Nv vzero 0 vzero 0%nat) by lia.
          destruct (Nat.eqb_spec (List.length (g_v g)) 1) as [Ea|Ea].
          -- rewrite Lv in E1. unfold brow. rewrite Ea, E1. reflexivity.
          -- lia.
        * apply Nv. lia.
      + injection Hp2 as <-. split; [lia|]. intros i Hi. rewrite P1 by assumption. v3.
    - cbn [andb] in Hp2. injection Hp2 as <-. split; [lia|]. intros i Hi.
      assert (Em : match nd with 3%nat => true | _ => false end = false).
      { destruct nd as [|[|[|[|]]]]; try reflexivity. lia. }
      rewrite Em. cbn [andb]. rewrite P1 by assumption. v3. }
  destruct P2 as [L2 P2]. split; [lia|]. split; [reflexivity|]. split; [reflexivity|]. split; [reflexivity|].
  intros i Hi. rewrite (N3 vzero 0 i) by lia. rewrite P2 by assumption. reflexivity.
Qed.

(** the position set is read back on the detector axes: for orthonormal U, V and no distance along Y *)
Theorem C104_shift_read_back g rows cor g' i :
  set_detector_shifts_vu g rows cor [0] = inr g' -> ndim (g_type g) = inr 3%nat ->
  let sh := shifts_rows rows cor in
  List.length sh = 2%nat -> (i < List.length (last sh []))%nat ->
  let u := brow vzero (g_u g) i in let v := brow vzero (g_v g) i in
  vdot u u = 1 -> vdot v v = 1 -> vdot u v = 0 ->
  vdot (nth i (g_det g') vzero) u = nth i (last sh []) 0 /\ vdot (nth i (g_det g') vzero) v = brow 0 (nth 0 sh []) i.
Proof.
  cbv zeta. intros H H3 H2 Hi Hu Hv Huv.
  destruct (C104_shift_rows _ _ _ _ _ H) as (_ & _ & _ & _ & Hn). rewrite (Hn i Hi), H3, H2. cbn [Nat.eqb andb].
  set (u := brow vzero (g_u g) i) in *. set (v := brow vzero (g_v g) i) in *.
  set (a := nth i (last (shifts_rows rows cor) []) 0). set (b := brow 0 (nth 0 (shifts_rows rows cor) []) i).
  replace (brow 0 [0] i) with 0 by reflexivity.
  split.
  - transitivity (a * vdot u u + b * vdot u v); [unfold vdot, vadd, vscal; simpl; ring|]. rewrite Hu, Huv. ring.
  - transitivity (a * vdot u v + b * vdot v v); [unfold vdot, vadd, vscal; simpl; ring|]. rewrite Hv, Huv. ring.
Qed.
(** setting positions replaces the previous ones: only the number of rows of the old positions matters *)
Theorem C104_shift_replaces g det rows cor dist :
  List.length det = List.length (g_det g) ->
  set_detector_shifts_vu (mkPG (g_type g) (g_src g) det (g_u g) (g_v g) (g_rot g) (g_ratio g) (g_shape g)) rows cor dist
  = set_detector_shifts_vu g rows cor dist.
Proof. intros H. unfold set_detector_shifts_vu. cbn [g_det g_type g_src g_u g_v g_rot g_ratio g_shape]. rewrite H. reflexivity. Qed.
(** the centre of rotation is added to every horizontal position and to nothing else *)
Theorem C104_cor_added vs us c : shifts_rows (Some [vs; us]) (Some c) = [vs; map (fun x => x + c) us] /\
  shifts_rows (Some [us]) (Some c) = [map (fun x => x + c) us] /\ shifts_rows None (Some c) = [[0 + c]].
Proof. repeat split. Qed.
Example C104_ex : exists g', set_detector_shifts_vu
   (mkPG GParallel3d [V3 0 (-1) 0] [vzero] [V3 1 0 0] [V3 0 0 1] [V3 0 0 (-1)] 1 None) (Some [[5; 6]; [1; 2]]) (Some 3) [0] = inr g' /\
   List.length (g_det g') = 2%nat /\ vx (nth 1 (g_det g') vzero) = 5 /\ vz (nth 1 (g_det g') vzero) = 6.
Proof. eexists. split; [reflexivity|]. simpl. repeat split; ring. Qed.

(** * C105: per-angle distances.  The documented combination "one position, several distances" always raises. *)
Theorem C105_scalar_position_many_distances_refuted g c dist : List.length (g_det g) = 1%nat -> List.length (g_u g) = 1%nat ->
  (1 < List.length dist)%nat -> set_detector_shifts_vu g None (Some c) dist = inl ValueError.
Proof.
  intros Hd Hu Hm. destruct (g_u g) as [|u [|]] eqn:Eu; simpl in Hu; try lia.
  unfold set_detector_shifts_vu. cbn [shifts_rows upd_last rev app map last List.length].
  rewrite Hd. cbn [Nat.ltb Nat.leb andb]. rewrite Bool.andb_false_r, Eu, bcast_single_l. cbn [ebind map iadd repeat List.length Nat.eqb combine].
  destruct (g_type g); cbn [ndim ebind]; rewrite ?Bool.andb_false_r; cbn [ebind]; try reflexivity;
  unfold iadd; destruct dist as [|x [|y dist]]; simpl in *; try lia; reflexivity.
Qed.
(** while one distance per position, or a single distance, is accepted *)
Theorem C105_matching_distances_accepted g us dist : g_type g <> GOther -> List.length (g_det g) = 1%nat -> List.length (g_u g) = 1%nat ->
  us <> [] -> (List.length dist = List.length us \/ List.length dist = 1%nat) ->
  exists g', set_detector_shifts_vu g (Some [us]) None dist = inr g' /\ List.length (g_det g') = List.length us /\
    forall i, (i < List.length us)%nat ->
      vy (nth i (g_det g') vzero) = nth i us 0 * vy (nth 0 (g_u g) vzero) + brow 0 dist i.
Proof.
  intros Ht Hd Hu Hne Hl. destruct (g_u g) as [|u [|]] eqn:Eu; simpl in Hu; try lia.
  assert (Hex : exists g', set_detector_shifts_vu g (Some [us]) None dist = inr g').
  { unfold set_detector_shifts_vu. cbn [shifts_rows last List.length].
    replace (Nat.ltb 1 (List.length dist) && (Nat.ltb 1 (List.length us) && negb (Nat.eqb (List.length dist) (List.length us))))%bool with false.
    2:{ symmetry. destruct Hl as [->| ->]; [rewrite Nat.eqb_refl, !Bool.andb_false_r; reflexivity|reflexivity]. }
    rewrite Hd. cbn [Nat.ltb Nat.leb andb]. rewrite Eu, bcast_single_l. cbn [ebind].
    unfold iadd at 1. rewrite map_length, repeat_length, Nat.eqb_refl. cbn [ebind Nat.eqb].
    destruct (g_type g); cbn [ndim ebind]; try congruence; rewrite Bool.andb_false_r; cbn [ebind];
    unfold iadd; rewrite map_length, combine_length, map_length, repeat_length, Nat.min_id;
    (destruct (Nat.eqb_spec (List.length dist) (List.length us)); [eexists; reflexivity|]);
    (destruct Hl as [Hl|Hl]; [lia|]); destruct dist as [|x [|]]; simpl in Hl; try lia; eexists; reflexivity. }
  destruct Hex as [g' Hg]. exists g'. split; [assumption|].
  destruct (C104_shift_rows _ _ _ _ _ Hg) as (L & _ & _ & _ & N). cbn [shifts_rows last] in *. split; [assumption|].
  intros i Hi. rewrite (N i Hi), Eu. cbn [List.length Nat.eqb]. rewrite Bool.andb_false_r.
  change (brow vzero [u] i) with u. simpl. ring.
Qed.
