(** C136 (projected origin), C137: the projected rotation axis and the detector rotation eta (alignment/cone_beam.py). *)
From Coq Require Import Nsatz.
From Coq Require Import Reals Lra Lia List ZArith Bool String.
Import ListNotations.
From Verif Require Import Sums PyErr Rounding GeometryModel GeometryProps ParamTuningModel ParamTuningProps ProcPreModel AlignFitModel AlignFitProps AlignEllipseProps ConeBeamModel ConeBeamProps ConeBeamFitProps.
Open Scope R_scope.

(** the point of the rotation axis at the height z above the source *)
Definition axis_pt (p : prj_geom) (z : R) : vec3 := V3 0 0 (vz (src_of p) + z).
Lemma axis_shadow g tr z u v : is_int (cg_R g) = false \/ tr = false -> nval (cg_theta g) = 0 -> cos (cg_ph g) <> 0 -> nval (cg_R g) <> 0 ->
  shadow (get_prj_geom g tr) (axis_pt (get_prj_geom g tr) z) u v ->
  unrot_u g u v = nval (cg_u0 g) + nval (cg_D g) * sin (cg_ph g) / cos (cg_ph g) /\ unrot_v g u v = nval (cg_v0 g) + nval (cg_D g) / (cos (cg_ph g) * nval (cg_R g)) * z.
Proof.
  intros Hi Ht Hc HR Hs. destruct (shadow_eqs g tr _ u v Hi Ht Hs) as (t & Ex & Ey & Ez). unfold axis_pt in *. cbn [vx vy vz] in *.
  replace (vz (src_of (get_prj_geom g tr)) + z - vz (src_of (get_prj_geom g tr))) with z in Ez by ring. pose proof (sc (cg_ph g)) as E.
  set (s := sin (cg_ph g)) in *. set (c := cos (cg_ph g)) in *. set (Rr := nval (cg_R g)) in *. set (D := nval (cg_D g)) in *. set (U := unrot_u g u v) in *. set (V := unrot_v g u v) in *.
  set (u0 := nval (cg_u0 g)) in *. set (v0 := nval (cg_v0 g)) in *. clearbody s c Rr D U V u0 v0.
  assert (EU : U - u0 = D * s / c). { apply Rmult_eq_reg_r with c; [|exact Hc]. unfold Rdiv. rewrite Rmult_assoc, Rinv_l by exact Hc. lra. }
  split; [lra|]. rewrite EU in Ex. assert (Et : t = D / (c * Rr)).
  { apply Rmult_eq_reg_r with (- Rr); [|lra]. transitivity (- D * c - D * s / c * s); [lra|]. transitivity (- (D * (s * s + c * c) / c)); [field; exact Hc|]. rewrite E. field. tauto. }
  rewrite Et in Ez. lra.
Qed.
Lemma rerot g u v : u = cos (eta_of g) * unrot_u g u v + sin (eta_of g) * unrot_v g u v /\ v = cos (eta_of g) * unrot_v g u v - sin (eta_of g) * unrot_u g u v.
Proof.
  unfold unrot_u, unrot_v. pose proof (sc (eta_of g)) as E. set (s := sin (eta_of g)) in *. set (c := cos (eta_of g)) in *. split.
  - transitivity (u * (s * s + c * c)); [rewrite E; ring|ring].
  - transitivity (v * (s * s + c * c)); [rewrite E; ring|ring].
Qed.
(** ** C137: the measured angle of the projected axis is eta *)
Lemma circle_inj x y : 0 <= x < 2 * PI -> 0 <= y < 2 * PI -> cos x = cos y -> sin x = sin y -> x = y.
Proof.
  intros Hx Hy Ec Es. assert (E : cos (x - y) = 1) by (rewrite cos_minus, Ec, Es; pose proof (sc y); lra).
  assert (S : sin ((x - y) / 2) = 0). { replace (x - y) with (2 * ((x - y) / 2)) in E by field. rewrite cos_2a_sin in E. nra. }
  destruct (Rtotal_order x y) as [L|[L|L]]; [|exact L|].
  - exfalso. assert (0 < sin ((y - x) / 2)) by (apply sin_gt_0; lra). replace ((x - y) / 2) with (- ((y - x) / 2)) in S by field. rewrite sin_neg in S. lra.
  - exfalso. assert (0 < sin ((x - y) / 2)) by (apply sin_gt_0; lra). lra.
Qed.
Lemma mod_2pi_range t : - PI < t <= PI -> mod_2pi t = (if Rle_dec 0 t then t else t + 2 * PI) /\ 0 <= mod_2pi t < 2 * PI.
Proof.
  intros H. pose proof PI_RGT_0 as P. unfold mod_2pi. set (q := t / (2 * PI)). assert (Hq : q * (2 * PI) = t) by (unfold q; field; lra). destruct (Rle_dec 0 t) as [L|L].
  - assert (E : Int_part q = 0%Z). { unfold Int_part. rewrite <- (tech_up q 1); [reflexivity|cbn; nra|cbn; nra]. }
    rewrite E. lra.
  - assert (E : Int_part q = (-1)%Z). { unfold Int_part. rewrite <- (tech_up q 0); [reflexivity|cbn; nra|cbn; nra]. }
    rewrite E. lra.
Qed.
Lemma mod_2pi_trig t : - PI < t <= PI -> cos (mod_2pi t) = cos t /\ sin (mod_2pi t) = sin t.
Proof.
  intros H. destruct (mod_2pi_range t H) as [-> _]. destruct (Rle_dec 0 t); [tauto|]. rewrite cos_plus, sin_plus, cos_2PI, sin_2PI. split; ring.
Qed.
(** the angle is always in [-180, 180) before rounding *)
Theorem C137_angle_range : forall y x t, arctan2 y x t -> -180 <= rot_axis_angle_deg None t < 180.
Proof.
  intros y x t [H _]. destruct (mod_2pi_range t H) as [_ M]. pose proof PI_RGT_0. unfold rot_axis_angle_deg, opt_around, rad2deg. split.
  - apply Rmult_le_reg_r with PI; [lra|]. replace ((mod_2pi t - PI) * 180 / PI * PI) with ((mod_2pi t - PI) * 180) by (field; lra). lra.
  - apply Rmult_lt_reg_r with PI; [lra|]. replace ((mod_2pi t - PI) * 180 / PI * PI) with ((mod_2pi t - PI) * 180) by (field; lra). lra.
Qed.
Lemma angle_of eta L t : -180 <= eta < 180 -> 0 < L -> arctan2 (- L * sin (deg2rad eta)) (- L * cos (deg2rad eta)) t -> rad2deg (mod_2pi t - PI) = eta.
Proof.
  intros He HL (Ht & Ex & Ey & _). set (a := deg2rad eta) in *. pose proof (sc a) as E. pose proof PI_RGT_0 as P.
  assert (Q : sqrt ((- L * cos a) ^ 2 + (- L * sin a) ^ 2) = L).
  { replace ((- L * cos a) ^ 2 + (- L * sin a) ^ 2) with (L ^ 2 * (sin a * sin a + cos a * cos a)) by ring. rewrite E, Rmult_1_r. apply sqrt_pow2. lra. }
  rewrite Q in *. assert (C : cos t = - cos a) by (apply Rmult_eq_reg_l with L; lra). assert (S : sin t = - sin a) by (apply Rmult_eq_reg_l with L; lra).
  destruct (mod_2pi_trig t Ht) as [Mc Ms]. destruct (mod_2pi_range t Ht) as [_ M].
  assert (X : mod_2pi t = a + PI).
  { apply circle_inj; [exact M| | |].
    - unfold a, deg2rad. split; unfold Rdiv; nra.
    - rewrite Mc, neg_cos. exact C.
    - rewrite Ms, neg_sin. exact S. }
  rewrite X. unfold rad2deg, a, deg2rad. field. lra.
Qed.
(** for every geometry without azimuthal tilt and any two points of the rotation axis, the first one below the second: the angle computed
    from their shadows is the detector rotation *)
Theorem C137_eta : forall g tr z1 z2 u1 v1 u2 v2 dec t, is_int (cg_R g) = false \/ tr = false -> nval (cg_theta g) = 0 -> 0 < cos (cg_ph g) -> 0 < nval (cg_R g) -> 0 < nval (cg_D g) ->
  -180 <= nval (cg_eta g) < 180 -> z1 < z2 ->
  shadow (get_prj_geom g tr) (axis_pt (get_prj_geom g tr) z1) u1 v1 -> shadow (get_prj_geom g tr) (axis_pt (get_prj_geom g tr) z2) u2 v2 ->
  arctan2 (u1 - u2) (v1 - v2) t -> rot_axis_angle_deg dec t = opt_around dec (nval (cg_eta g)).
Proof.
  intros g tr z1 z2 u1 v1 u2 v2 dec t Hi Ht Hc HR HD He Hz S1 S2 A.
  destruct (axis_shadow g tr z1 u1 v1 Hi Ht ltac:(lra) ltac:(lra) S1) as [U1 V1]. destruct (axis_shadow g tr z2 u2 v2 Hi Ht ltac:(lra) ltac:(lra) S2) as [U2 V2].
  destruct (rerot g u1 v1) as [P1 Q1]. destruct (rerot g u2 v2) as [P2 Q2]. rewrite U1, V1 in P1, Q1. rewrite U2, V2 in P2, Q2.
  set (k := nval (cg_D g) / (cos (cg_ph g) * nval (cg_R g))) in *. assert (Hk : 0 < k) by (apply Rdiv_lt_0_compat; [lra|apply Rmult_lt_0_compat; lra]).
  unfold rot_axis_angle_deg. f_equal. apply (angle_of _ (k * (z2 - z1))); [exact He|apply Rmult_lt_0_compat; lra|].
  fold (eta_of g). replace (- (k * (z2 - z1)) * sin (eta_of g)) with (u1 - u2) by (rewrite P1, P2; ring). replace (- (k * (z2 - z1)) * cos (eta_of g)) with (v1 - v2) by (rewrite Q1, Q2; ring). exact A.
Qed.
(** when the two points coincide there is no angle: arctan2 of two zeros is zero, the computed angle is -180 and the error about the order is raised *)
Theorem C137_coincident_error u v t : arctan2 (u - u) (v - v) t -> rot_axis_angle_deg None t = -180 /\ check_eta (rot_axis_angle_deg None t) = Some ValueError.
Proof.
  intros (H & _ & _ & Z). assert (T : t = 0) by (apply Z; lra). subst t. pose proof PI_RGT_0 as P.
  destruct (mod_2pi_range 0 ltac:(lra)) as [E _]. destruct (Rle_dec 0 0) as [_|N]; [|lra].
  assert (A : rot_axis_angle_deg None 0 = -180) by (unfold rot_axis_angle_deg, opt_around, rad2deg; rewrite E; field; lra).
  rewrite A. split; [reflexivity|]. unfold check_eta. destruct (Rlt_dec 120 (Rabs (-180))) as [_|N]; [reflexivity|].
  exfalso. apply N. rewrite Rabs_left; lra.
Qed.
Lemma swapped_angle : forall g tr z1 z2 u1 v1 u2 v2 t, is_int (cg_R g) = false \/ tr = false -> nval (cg_theta g) = 0 -> 0 < cos (cg_ph g) -> 0 < nval (cg_R g) -> 0 < nval (cg_D g) ->
  -60 < nval (cg_eta g) < 60 -> z1 < z2 ->
  shadow (get_prj_geom g tr) (axis_pt (get_prj_geom g tr) z1) u1 v1 -> shadow (get_prj_geom g tr) (axis_pt (get_prj_geom g tr) z2) u2 v2 ->
  arctan2 (u2 - u1) (v2 - v1) t -> rot_axis_angle_deg None t = if Rle_dec 0 (nval (cg_eta g)) then nval (cg_eta g) - 180 else nval (cg_eta g) + 180.
Proof.
  intros g tr z1 z2 u1 v1 u2 v2 t Hi Ht Hc HR HD He Hz S1 S2 A.
  destruct (axis_shadow g tr z1 u1 v1 Hi Ht ltac:(lra) ltac:(lra) S1) as [U1 V1]. destruct (axis_shadow g tr z2 u2 v2 Hi Ht ltac:(lra) ltac:(lra) S2) as [U2 V2].
  destruct (rerot g u1 v1) as [P1 Q1]. destruct (rerot g u2 v2) as [P2 Q2]. rewrite U1, V1 in P1, Q1. rewrite U2, V2 in P2, Q2.
  set (k := nval (cg_D g) / (cos (cg_ph g) * nval (cg_R g))) in *. assert (Hk : 0 < k) by (apply Rdiv_lt_0_compat; [lra|apply Rmult_lt_0_compat; lra]).
  set (eta := nval (cg_eta g)) in *. set (eta' := if Rle_dec 0 eta then eta - 180 else eta + 180). pose proof PI_RGT_0 as P.
  assert (T : sin (deg2rad eta') = - sin (eta_of g) /\ cos (deg2rad eta') = - cos (eta_of g)).
  { unfold eta', eta_of. fold eta. destruct (Rle_dec 0 eta).
    - replace (deg2rad (eta - 180)) with (deg2rad eta - PI) by (unfold deg2rad; field). rewrite sin_minus, cos_minus, sin_PI, cos_PI. split; ring.
    - replace (deg2rad (eta + 180)) with (deg2rad eta + PI) by (unfold deg2rad; field). now rewrite neg_sin, neg_cos. }
  destruct T as [Ts Tc].
  assert (E : rot_axis_angle_deg None t = eta').
  { unfold rot_axis_angle_deg, opt_around. apply (angle_of _ (k * (z2 - z1))); [unfold eta'; destruct (Rle_dec 0 eta); lra|apply Rmult_lt_0_compat; lra|].
    rewrite Ts, Tc. replace (- (k * (z2 - z1)) * - sin (eta_of g)) with (u2 - u1) by (rewrite P1, P2; ring). replace (- (k * (z2 - z1)) * - cos (eta_of g)) with (v2 - v1) by (rewrite Q1, Q2; ring). exact A. }
  exact E.
Qed.
(** with the two orbits swapped, the angle is off by half a turn, and the error about the order is raised for every |eta| < 60 *)
Theorem C137_swapped_error : forall g tr z1 z2 u1 v1 u2 v2 t, is_int (cg_R g) = false \/ tr = false -> nval (cg_theta g) = 0 -> 0 < cos (cg_ph g) -> 0 < nval (cg_R g) -> 0 < nval (cg_D g) ->
  -60 < nval (cg_eta g) < 60 -> z1 < z2 ->
  shadow (get_prj_geom g tr) (axis_pt (get_prj_geom g tr) z1) u1 v1 -> shadow (get_prj_geom g tr) (axis_pt (get_prj_geom g tr) z2) u2 v2 ->
  arctan2 (u2 - u1) (v2 - v1) t -> check_eta (rot_axis_angle_deg None t) = Some ValueError.
Proof.
  intros g tr z1 z2 u1 v1 u2 v2 t Hi Ht Hc HR HD He Hz S1 S2 A. rewrite (swapped_angle g tr z1 z2 u1 v1 u2 v2 t Hi Ht Hc HR HD He Hz S1 S2 A). set (eta := nval (cg_eta g)) in *.
  unfold check_eta. destruct (Rlt_dec 120 _) as [L|L]; [reflexivity|]. exfalso. apply L. destruct (Rle_dec 0 eta); [rewrite Rabs_left|rewrite Rabs_right]; lra.
Qed.
(** the points are then rotated back: exactly the frame in which C136 measures the ellipses ... *)
Theorem C137_rotation : forall g u v, 1 / 10 < Rabs (nval (cg_eta g)) -> rotate_point (nval (cg_eta g)) (v, u) = (unrot_v g u v, unrot_u g u v).
Proof. intros g u v H. unfold rotate_point. destruct (Rlt_dec (1 / 10) (Rabs (nval (cg_eta g)))); [|contradiction]. unfold unrot_u, unrot_v, eta_of. cbn [fst snd]. f_equal; ring. Qed.
(** ... except that a rotation of at most 0.1 degree is recorded in the geometry but not removed from the points *)
Theorem C137_small_eta_refuted : forall g u v, nval (cg_eta g) <> 0 -> Rabs (nval (cg_eta g)) <= 1 / 10 -> u <> 0 \/ v <> 0 -> rotate_point (nval (cg_eta g)) (v, u) <> (unrot_v g u v, unrot_u g u v).
Proof.
  intros g u v Hne Hs Huv. unfold rotate_point. destruct (Rlt_dec (1 / 10) (Rabs (nval (cg_eta g)))); [lra|]. intros E. injection E as Ev Eu. unfold unrot_v, unrot_u in *.
  assert (Hc : cos (eta_of g) <> 1).
  { intros C. pose proof (sc (eta_of g)) as Q. rewrite C in Q. assert (S : sin (eta_of g) = 0) by nra. pose proof PI_RGT_0 as P. apply Rabs_le_between in Hs.
    destruct (Rtotal_order (nval (cg_eta g)) 0) as [L|[L|L]]; [|contradiction|].
    - assert (0 < sin (- eta_of g)); [|rewrite sin_neg in *; lra]. unfold eta_of, deg2rad. apply sin_gt_0; unfold Rdiv; nra.
    - assert (0 < sin (eta_of g)); [|lra]. unfold eta_of, deg2rad. apply sin_gt_0; unfold Rdiv; nra. }
  set (c := cos (eta_of g)) in *. pose proof (sc (eta_of g)) as Q. fold c in Q. set (s := sin (eta_of g)) in *.
  assert (Hu : (1 - c) * u = - s * v) by lra. assert (Hv : (1 - c) * v = s * u) by lra.
  assert (Z : (1 - c) * (u ^ 2 + v ^ 2) = 0) by (transitivity (u * ((1 - c) * u) + v * ((1 - c) * v)); [ring|rewrite Hu, Hv; ring]).
  apply Rmult_integral in Z as [Z|Z]; [lra|]. nra.
Qed.
(** ** the shadows of opposite points of an orbit are aligned with the one of its centre *)
Lemma shadow_line g tr r z P P' u v u' v' uc vc : is_int (cg_R g) = false \/ tr = false -> outside g r ->
  on_orbit (get_prj_geom g tr) r z P -> P' = V3 (- vx P) (- vy P) (vz P) ->
  shadow (get_prj_geom g tr) P u v -> shadow (get_prj_geom g tr) P' u' v' -> shadow (get_prj_geom g tr) (axis_pt (get_prj_geom g tr) z) uc vc -> collinear v u v' u' vc uc.
Proof.
  intros Hi Ho [_ Hz] -> S S' Sc. pose proof (outside_cos g r Ho) as Hc. destruct Ho as (Ht & _ & HD & Hr & HR). assert (HRp : 0 < nval (cg_R g)) by (destruct (Rle_dec (nval (cg_R g)) 0); [nra|lra]).
  destruct (axis_shadow g tr z uc vc Hi Ht ltac:(lra) ltac:(lra) Sc) as [Uc Vc].
  destruct (shadow_eqs g tr _ u v Hi Ht S) as (t & X & Y & Z). destruct (shadow_eqs g tr _ u' v' Hi Ht S') as (t' & X' & Y' & Z'). cbn [vx vy vz] in *. rewrite Hz in Z, Z'.
  replace (vz (src_of (get_prj_geom g tr)) + z - vz (src_of (get_prj_geom g tr))) with z in Z, Z' by ring.
  pose proof (rerot g u v) as [Ru Rv]. pose proof (rerot g u' v') as [Ru' Rv']. pose proof (rerot g uc vc) as [Ruc Rvc].
  pose proof (sc (eta_of g)) as Ee. pose proof (sc (cg_ph g)) as E.
  set (a := unrot_u g u v) in *. set (b := unrot_v g u v) in *. set (a' := unrot_u g u' v') in *. set (b' := unrot_v g u' v') in *. set (ac := unrot_u g uc vc) in *. set (bc := unrot_v g uc vc) in *.
  assert (K : (a' - a) * (bc - b) = (b' - b) * (ac - a)).
  { rewrite Uc, Vc. set (s := sin (cg_ph g)) in *. set (c := cos (cg_ph g)) in *. set (D := nval (cg_D g)) in *. set (Rr := nval (cg_R g)) in *. set (u0 := nval (cg_u0 g)) in *. set (v0 := nval (cg_v0 g)) in *.
    assert (b - v0 = t * z) by lra. assert (b' - v0 = t' * z) by lra. set (x := vx P) in *. set (y := vy P) in *. clearbody a b a' b' s c D Rr u0 v0 x y.
    assert (Hd : t * (c * (Rr - x) + s * y) = D). { transitivity (D * (s * s + c * c)); [|rewrite E; ring]. transitivity (- (c * (t * (x - Rr))) + s * (t * y)); [ring|]. rewrite X, Y. ring. }
    assert (Hd' : t' * (c * (Rr + x) - s * y) = D). { transitivity (D * (s * s + c * c)); [|rewrite E; ring]. transitivity (- (c * (t' * (- x - Rr))) + s * (t' * - y)); [ring|]. rewrite X', Y'. ring. }
    assert (Ha : a - u0 = t * (s * (Rr - x) - c * y)). { transitivity ((a - u0) * (s * s + c * c)); [rewrite E; ring|]. transitivity (- s * (t * (x - Rr)) - c * (t * y)); [rewrite X, Y; ring|ring]. }
    assert (Ha' : a' - u0 = t' * (s * (Rr + x) + c * y)). { transitivity ((a' - u0) * (s * s + c * c)); [rewrite E; ring|]. transitivity (- s * (t' * (- x - Rr)) - c * (t' * - y)); [rewrite X', Y'; ring|ring]. }
    replace a with (u0 + t * (s * (Rr - x) - c * y)) by lra. replace a' with (u0 + t' * (s * (Rr + x) + c * y)) by lra. replace b with (v0 + t * z) by lra. replace b' with (v0 + t' * z) by lra.
    apply Rmult_eq_reg_r with (c * Rr); [|apply Rgt_not_eq, Rmult_lt_0_compat; assumption].
    transitivity ((t' * (s * (Rr + x) + c * y) - t * (s * (Rr - x) - c * y)) * (D * z - t * z * (c * Rr))); [field; lra|].
    transitivity ((t' - t) * z * (D * s * Rr - t * (s * (Rr - x) - c * y) * (c * Rr))); [|field; lra].
    (* both sides are z times a combination of D - t (...) and D - t' (...) *)
    set (w := c * x - s * y) in *. assert (Hd1 : t * (c * Rr - w) = D) by (unfold w; rewrite <- Hd; ring). assert (Hd2 : t' * (c * Rr + w) = D) by (unfold w; rewrite <- Hd'; ring).
    set (q := s * x + c * y). replace (s * (Rr + x) + c * y) with (s * Rr + q) by (unfold q; ring). replace (s * (Rr - x) - c * y) with (s * Rr - q) by (unfold q; ring). clearbody q w.
    assert (Hsum : t' * w + t * w = (t - t') * (c * Rr)) by lra.
    replace (D * z - t * z * (c * Rr)) with (- (t * w * z)) by (rewrite <- Hd1; ring).
    transitivity (- t * z * (s * Rr * (t' - t) * w + q * (t' * w + t * w))); [ring|]. rewrite Hsum. rewrite <- Hd1. ring. }
  unfold collinear. rewrite Ru, Rv, Ru', Rv', Ruc, Rvc. set (s := sin (eta_of g)) in *. set (c := cos (eta_of g)) in *. clearbody a b a' b' ac bc s c.
  assert (G : ((a' - a) * (bc - b) - (b' - b) * (ac - a)) * (s * s + c * c) = 0) by (rewrite K; ring). lra.
Qed.
(** so the centre fit of C79 returns the shadow of the orbit's centre, for every number of pairs of opposite positions *)
Theorem C137_orbit_centre : forall g tr r z N u v uc vc rescale sol, is_int (cg_R g) = false \/ tr = false -> outside g r ->
  (forall i, (i < N / 2)%nat -> exists P, on_orbit (get_prj_geom g tr) r z P /\ shadow (get_prj_geom g tr) P (u i) (v i) /\ shadow (get_prj_geom g tr) (V3 (- vx P) (- vy P) (vz P)) (u (N / 2 + i)%nat) (v (N / 2 + i)%nat)) ->
  shadow (get_prj_geom g tr) (axis_pt (get_prj_geom g tr) z) uc vc -> crossing N v u -> ec_scale rescale N v <> 0 -> ec_scale rescale N u <> 0 ->
  lstsq2 N (rescaled rescale N v) (rescaled rescale N u) sol -> fit_ellipse_center rescale None N v u sol = (vc, uc).
Proof.
  intros g tr r z N u v uc vc rescale sol Hi Ho H Sc X Sv Su L. rewrite (C79_exact_centre rescale None N v u sol vc uc); try assumption; [reflexivity|].
  intros i Hn. destruct (H i Hn) as (P & Po & S & S'). eapply shadow_line; [exact Hi|exact Ho|exact Po|reflexivity|exact S|exact S'|exact Sc].
Qed.
(** ** the projected origin: the shadow of the point of the rotation axis at the height of the source *)
Theorem C136_origin : forall g tr r z1 z2 e st meas u1 v1 u2 v2 uo vo,
  is_int (cg_R g) = false \/ tr = false -> outside g r -> side e z1 z2 ->
  measured_ellipse g tr r z1 (fs_ell1 st) -> measured_ellipse g tr r z2 (fs_ell2 st) -> z1 <> z2 ->
  (meas = Some (nval (cg_D g)) \/ meas = None /\ Rabs z1 <> Rabs z2 /\ 1 / 100000000 < nval (cg_D g)) -> 1 / 100000000 < nval (cg_R g) ->
  fs_origin st = None -> fs_c1 st = (v1, u1) -> fs_c2 st = (v2, u2) ->
  shadow (get_prj_geom g tr) (axis_pt (get_prj_geom g tr) z1) u1 v1 -> shadow (get_prj_geom g tr) (axis_pt (get_prj_geom g tr) z2) u2 v2 ->
  shadow (get_prj_geom g tr) (axis_pt (get_prj_geom g tr) 0) uo vo ->
  fs_origin (fst (cb_fit st r e meas)) = Some (vo, uo).
Proof.
  intros g tr r z1 z2 e st meas u1 v1 u2 v2 uo vo Hi Ho Hs M1 M2 Hne Hm HRc HO H1 H2 A1 A2 A0.
  assert (Hz1 : z1 <> 0) by (destruct Hs; lra). assert (Hz2 : z2 <> 0) by (destruct Hs as (_ & [[_ ?]|[_ ?]]); lra).
  pose proof (measured_is g tr r z1 _ Hi Ho Hz1 M1) as E1. pose proof (measured_is g tr r z2 _ Hi Ho Hz2 M2) as E2. clear M1 M2.
  pose proof (outside_cos g r Ho) as Hc. pose proof (sc (cg_ph g)) as Hcs. destruct Ho as (Ht & Hph & HD & Hr & HR).
  destruct (axis_shadow g tr z1 u1 v1 Hi Ht ltac:(lra) ltac:(lra) A1) as [U1 V1]. destruct (axis_shadow g tr z2 u2 v2 Hi Ht ltac:(lra) ltac:(lra) A2) as [U2 V2]. destruct (axis_shadow g tr 0 uo vo Hi Ht ltac:(lra) ltac:(lra) A0) as [U0 V0].
  destruct (rerot g u1 v1) as [P1 Q1]. destruct (rerot g u2 v2) as [P2 Q2]. destruct (rerot g uo vo) as [P0 Q0]. rewrite U1, V1 in P1, Q1. rewrite U2, V2 in P2, Q2. rewrite U0, V0 in P0, Q0.
  destruct (side_sign e z1 z2 Hs) as (S1 & S2 & He).
  unfold cb_fit. rewrite E1, E2, HO, H1, H2. cbn [fst snd].
  set (c := cos (cg_ph g)) in *. set (s := sin (cg_ph g)) in *. set (D := nval (cg_D g)) in *. set (Rr := nval (cg_R g)) in *. set (u0 := nval (cg_u0 g)) in *. set (v0 := nval (cg_v0 g)) in *.
  assert (PD : pick_D (fit_distance_det2src (orbit_ellipse c s D Rr r z1 u0 v0) (orbit_ellipse c s D Rr r z2 u0 v0) e) meas = inr D).
  { destruct Hm as [->|(-> & Hy & HDc)]; [reflexivity|]. unfold pick_D. rewrite distance_exact by assumption. now rewrite close0_pos. }
  rewrite PD. cbn zeta. rewrite (orb_v0 c s D Rr r z1), (orb_v0 c s D Rr r z2) by assumption.
  destruct (Rlt_dec _ _) as [L|_]; [exfalso; revert L; replace (v0 - v0) with 0 by ring; rewrite Rabs_R0; pose proof (Rabs_pos (e_v (orbit_ellipse c s D Rr r z1 u0 v0) - e_v (orbit_ellipse c s D Rr r z2 u0 v0))); lra|].
  rewrite !(orb_rho c s D Rr r) by assumption. rewrite (orb_zeta c s D Rr r z1), (orb_zeta c s D Rr r z2) by assumption.
  assert (HRp : 0 < Rr) by lra.
  assert (EZ : forall z, r / (r / Rr) * (z / Rr) = z) by (intros z; field; lra). rewrite !EZ.
  assert (ER : (- z2 * (r / (r / Rr)) + z1 * (r / (r / Rr))) / (z1 - z2) = Rr) by (field; split; lra). rewrite ER.
  rewrite (close0_pos Rr HRc). cbn [fs_origin fst]. do 2 f_equal.
  - rewrite Q1, Q2, Q0. field. repeat split; lra.
  - rewrite P1, P2, P0. field. repeat split; lra.
Qed.
Lemma demo_axis z : shadow (get_prj_geom g_demo false) (axis_pt (get_prj_geom g_demo false) z) 1 (3 + z).
Proof.
  exists 1. rewrite eu_eq, ev_eq. unfold axis_pt, src_of, det_of, get_prj_geom. cbn [g_src g_det the nth]. unfold src_pos0, det_pos0, vsub, alpha_xyz, beta_xyz, e_n_xyz.
  destruct demo_frame as (-> & -> & -> & -> & -> & ->). cbn [cg_D cg_R cg_u0 cg_v0 g_demo nval]. apply vec3_eq; unfold vadd, vscal; cbn [vx vy vz]; field.
Qed.
Example C137_example : forall t, arctan2 (1 - 1) (2 - 5) t -> rot_axis_angle_deg (Some 4%nat) t = 0.
Proof.
  intros t A. assert (B1 : shadow (get_prj_geom g_demo false) (axis_pt (get_prj_geom g_demo false) (-1)) 1 2) by (replace 2 with (3 + -1) by ring; apply demo_axis).
  assert (B2 : shadow (get_prj_geom g_demo false) (axis_pt (get_prj_geom g_demo false) 2) 1 5) by (replace 5 with (3 + 2) by ring; apply demo_axis).
  assert (Hc : 0 < cos (cg_ph g_demo)) by (destruct demo_frame as (-> & _); lra).
  rewrite (C137_eta g_demo false (-1) 2 1 2 1 5 (Some 4%nat) t (or_intror eq_refl) eq_refl Hc ltac:(cbn; lra) ltac:(cbn; lra) ltac:(cbn; lra) ltac:(lra) B1 B2 A).
  cbn [opt_around g_demo cg_eta nval]. apply around_0.
Qed.

(** * C162: the voxel size is the pixel size demagnified to the rotation axis *)
(** the point of the rotation axis at the height of the source *)
Definition axis_center (p : prj_geom) : vec3 := axis_pt p 0.
Lemma center_t g tr t u v : is_int (cg_R g) = false \/ tr = false -> nval (cg_phi g) = 0 ->
  vadd (src_of (get_prj_geom g tr)) (vscal t (vsub (axis_center (get_prj_geom g tr)) (src_of (get_prj_geom g tr)))) =
  vadd (det_of (get_prj_geom g tr)) (vadd (vscal u (eu_of (get_prj_geom g tr))) (vscal v (ev_of (get_prj_geom g tr)))) ->
  t * (nval (cg_R g) * cos (cg_th g)) = nval (cg_D g).
Proof.
  intros Hi Hp E. pose proof (src_det g tr Hi) as SD. destruct (C81_source g tr) as (Sx & Sy & _). rewrite eu_eq, ev_eq in E. unfold axis_center, axis_pt in E.
  assert (S0 : sin (cg_ph g) = 0) by (unfold cg_ph; rewrite Hp; apply sin0). assert (C0 : cos (cg_ph g) = 1) by (unfold cg_ph; rewrite Hp; apply cos0).
  set (S := src_of _) in *. set (T := det_of _) in *. assert (Ex := f_equal vx E). assert (Ez := f_equal vz E). assert (Dx := f_equal vx SD). assert (Dz := f_equal vz SD).
  unfold vsub, det_center, vadd, vscal, e_n_xyz, alpha_xyz, beta_xyz in Ex, Ez, Dx, Dz. cbn [vx vy vz] in Ex, Ez, Dx, Dz. rewrite S0, C0 in *. clearbody S T. rewrite Sx in *.
  pose proof (sc (cg_th g)) as H. set (s := sin (cg_th g)) in *. set (k := cos (cg_th g)) in *. clearbody s k. nsatz.
Qed.
Theorem C162_voxel_is_one_pixel : forall g tr u v delta, is_int (cg_R g) = false \/ tr = false -> nval (cg_phi g) = 0 -> 0 < cos (cg_th g) -> nval (cg_R g) <> 0 -> nval (cg_D g) <> 0 ->
  let p := get_prj_geom g tr in let c := axis_center p in
  shadow p c u v ->
  shadow p (V3 (vx c) (vy c + delta * g_ratio p) (vz c)) (u - delta * cos (eta_of g)) (v + delta * sin (eta_of g)) /\
  (nval (cg_theta g) = 0 -> shadow p (V3 (vx c) (vy c) (vz c + delta * g_ratio p)) (u + delta * sin (eta_of g)) (v + delta * cos (eta_of g))).
Proof.
  intros g tr u v delta Hi Hp Hc HR HD p c [t E]. pose proof (center_t g tr t u v Hi Hp E) as Ht.
  assert (S0 : sin (cg_ph g) = 0) by (unfold cg_ph; rewrite Hp; apply sin0). assert (C0 : cos (cg_ph g) = 1) by (unfold cg_ph; rewrite Hp; apply cos0).
  assert (Hr : t * g_ratio p = 1).
  { unfold p, get_prj_geom. cbn [g_ratio]. unfold vdot, e_n_xyz. cbn [vx vy vz]. rewrite C0. replace (cos (cg_th g) * 1 * 1 + - cos (cg_th g) * sin (cg_ph g) * 0 + sin (cg_th g) * 0) with (cos (cg_th g)) by ring.
    rewrite Rabs_right by lra. replace (t * (nval (cg_R g) / nval (cg_D g) * cos (cg_th g))) with (t * (nval (cg_R g) * cos (cg_th g)) / nval (cg_D g)) by (field; exact HD). rewrite Ht. field. exact HD. }
  assert (EU : eu_of p = vadd (vscal (cos (eta_of g)) (alpha_xyz g)) (vscal (sin (eta_of g)) (beta_xyz g))) by (apply eu_eq).
  assert (EV : ev_of p = vadd (vscal (cos (eta_of g)) (beta_xyz g)) (vscal (- sin (eta_of g)) (alpha_xyz g))) by (apply ev_eq).
  fold p in E. fold c in E. rewrite EU, EV in E. unfold shadow. rewrite EU, EV. pose proof (sc (eta_of g)) as HE.
  set (S := src_of p) in *. set (T := det_of p) in *. set (r := g_ratio p) in *.
  assert (Ex := f_equal vx E). assert (Ey := f_equal vy E). assert (Ez := f_equal vz E).
  unfold vsub, vadd, vscal, alpha_xyz, beta_xyz in *. cbn [vx vy vz] in *. rewrite S0, C0 in *. set (ce := cos (eta_of g)) in *. set (se := sin (eta_of g)) in *. clearbody ce se. clear E EU EV.
  split.
  - exists t. apply vec3_eq; cbn [vx vy vz]; clear - Ex Ey Ez Hr HE; clearbody r S T; nsatz.
  - intros Hth. assert (S1 : sin (cg_th g) = 0) by (unfold cg_th; rewrite Hth; apply sin0). assert (C1 : cos (cg_th g) = 1) by (unfold cg_th; rewrite Hth; apply cos0).
    exists t. rewrite S1, C1 in *. apply vec3_eq; cbn [vx vy vz]; clear - Ex Ey Ez Hr HE; clearbody r S T; nsatz.
Qed.
(** the volume: as many voxels as pixels (u, u, v) and the same extent for every up-sampling *)
Lemma trunc0_IZR z : trunc0 (IZR z) = z.
Proof.
  assert (I : forall q : Z, Int_part (IZR q) = q) by (intros q; unfold Int_part; rewrite <- (tech_up (IZR q) (q + 1)); [lia| |]; rewrite plus_IZR; lra).
  unfold trunc0. destruct (Rle_dec 0 (IZR z)); [apply I|]. rewrite <- opp_IZR, I. lia.
Qed.
Theorem C162_volume_extent : forall g nv nu up, nval (cg_nv g) = IZR nv -> nval (cg_nu g) = IZR nu -> (1 <= up)%nat ->
  let V := cg_vol_geom g up in
  fst V = [nu * Z.of_nat up; nu * Z.of_nat up; nv * Z.of_nat up]%Z /\ map (fun s => IZR s * snd V) (fst V) = [nval (cg_nu g); nval (cg_nu g); nval (cg_nv g)].
Proof.
  intros g nv nu up Hv Hu Hup V. unfold V, cg_vol_geom. cbn [fst snd map]. rewrite Hv, Hu, !trunc0_IZR. split; [reflexivity|].
  rewrite !mult_IZR, <- INR_IZR_INZ. assert (0 < INR up) by (apply lt_0_INR; lia). repeat f_equal; field; lra.
Qed.
Example C162_example : nval (cg_phi g_demo) = 0 /\ 0 < cos (cg_th g_demo) /\ shadow (get_prj_geom g_demo false) (axis_center (get_prj_geom g_demo false)) 1 3.
Proof. split; [reflexivity|]. split; [|replace 3 with (3 + 0) by ring; apply demo_axis]. unfold cg_th, deg2rad. simpl. replace (0 * PI / 180) with 0 by field. rewrite cos_0. lra. Qed.
