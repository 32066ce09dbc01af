(** C209: the cone-beam calibration object, from the acquired points to the calibrated geometry. *)
From Coq Require Import Reals Lra Lia List ZArith Bool String.
Import ListNotations.
From Verif Require Import Sums PyErr GeometryModel GeometryProps AlignFitModel AlignFitProps AlignEllipseProps ConeBeamModel ConeBeamProps ConeBeamFitProps ConeBeamEtaProps ConeBeamInitModel.
Open Scope R_scope.

(** ** the hypotheses on the acquisition *)
(** n points (v, u) in a frame of V x U pixels, on the orbit of radius r at the height z above the source, enough of them to determine a conic
    (once the detector rotation is removed) and not all in one row or column *)
Definition acquired (g : cone_geom) (tr : bool) (r z : R) (V U n : nat) (v u : vec) : Prop :=
  orbit_points g tr r z n (minus_centre U u) (minus_centre V v) /\
  let ru := fun i => unrot_u g (u i - INR U / 2) (v i - INR V / 2) in let rv := fun i => unrot_v g (u i - INR U / 2) (v i - INR V / 2) in
  determining n ru rv /\ spreads true n ru rv.
(** the shadow of a point of the rotation axis, in the pixels of the frame *)
Definition seen_axis (g : cone_geom) (tr : bool) (V U : nat) (z : R) (x : R * R) : Prop :=
  shadow (get_prj_geom g tr) (axis_pt (get_prj_geom g tr) z) (snd x - INR U / 2) (fst x - INR V / 2).
(** the solution of the linear least squares problem of [fit_ellipse] for the rotated points *)
Definition solves (eta : R) (V U n : nat) (v u : vec) (q : list R) : Prop :=
  ep_lstsq n (ep_point true n (rot_u eta (minus_centre V v) (minus_centre U u))) (ep_point true n (rot_v eta (minus_centre V v) (minus_centre U u))) q.
(** the height of the centre of the shadow of an orbit *)
Definition centre_height (g : cone_geom) (r z : R) : R :=
  nval (cg_v0 g) + nval (cg_R g) * z * nval (cg_D g) * cos (cg_ph g) / (nval (cg_R g) ^ 2 * cos (cg_ph g) ^ 2 - r ^ 2).
(** a detector rotation the code removes exactly: zero or more than a tenth of a degree, at most 120 degrees, with four decimals *)
Definition removable (eta : R) : Prop := (eta = 0 \/ 1 / 10 < Rabs eta) /\ Rabs eta <= 120 /\ exists k, eta = IZR k / 10 ^ 4.

(** ** transport of the hypotheses to the arrays of the code *)
Lemma determining_ext n pu pv pu' pv' : (forall i, (i < n)%nat -> pu i = pu' i /\ pv i = pv' i) -> determining n pu pv -> determining n pu' pv'.
Proof. intros E H c Lc Hc. apply H; [exact Lc|]. intros i Hi. destruct (E i Hi) as [-> ->]. now apply Hc. Qed.
Lemma rmax_same n x y : (forall i, (i < n)%nat -> x i = y i) -> rmax n x = rmax n y.
Proof.
  induction n as [|n IH]; intros E; [reflexivity|]. destruct n as [|n]; [apply E; lia|]. rewrite !rmax_S by lia. rewrite IH by (intros i Hi; apply E; lia). now rewrite (E (S n)) by lia.
Qed.
Lemma mean_ext n x y : (forall i, (i < n)%nat -> x i = y i) -> mean n x = mean n y.
Proof. intros E. unfold mean. now rewrite (rsum_ext n x y E). Qed.
Lemma ep_scale_ext n x y : (forall i, (i < n)%nat -> x i = y i) -> ep_scale true n x = ep_scale true n y.
Proof. intros E. unfold ep_scale, max_abs. rewrite (mean_ext n x y E). apply rmax_same. intros i Hi. now rewrite (E i Hi). Qed.
Lemma spreads_ext n pu pv pu' pv' : (forall i, (i < n)%nat -> pu i = pu' i /\ pv i = pv' i) -> spreads true n pu pv -> spreads true n pu' pv'.
Proof. intros E [A B]. split; [rewrite <- (ep_scale_ext n pu pu')|rewrite <- (ep_scale_ext n pv pv')]; try assumption; intros i Hi; apply (E i Hi). Qed.
Lemma rotate_unrot g u v : nval (cg_eta g) = 0 \/ 1 / 10 < Rabs (nval (cg_eta g)) -> rotate_point (nval (cg_eta g)) (v, u) = (unrot_v g u v, unrot_u g u v).
Proof.
  intros [H|H]; [|now apply C137_rotation]. unfold rotate_point, unrot_u, unrot_v, eta_of. rewrite H, sin0, cos0, Rabs_R0.
  destruct (Rlt_dec (1 / 10) 0); [lra|]. f_equal; ring.
Qed.
(** the ellipse the constructor fits is the shadow of the orbit *)
Lemma fitted_ellipse g tr r z V U n v u q : is_int (cg_R g) = false \/ tr = false -> outside g r -> z <> 0 ->
  acquired g tr r z V U n v u -> nval (cg_eta g) = 0 \/ 1 / 10 < Rabs (nval (cg_eta g)) -> solves (nval (cg_eta g)) V U n v u q ->
  nval (cg_phi g) = 0 \/ mean n (fun i => unrot_v g (u i - INR U / 2) (v i - INR V / 2)) = centre_height g r z ->
  measured_ellipse g tr r z (to_ellipse (fit_ellipse_parameters true n (rot_v (nval (cg_eta g)) (minus_centre V v) (minus_centre U u)) (rot_u (nval (cg_eta g)) (minus_centre V v) (minus_centre U u)) q)).
Proof.
  intros Hi Ho Hz (Op & Det & Sp) He L Hc. set (eta := nval (cg_eta g)) in *.
  set (pu := rot_u eta (minus_centre V v) (minus_centre U u)) in *. set (pv := rot_v eta (minus_centre V v) (minus_centre U u)) in *.
  assert (Eu : forall i, pu i = unrot_u g (u i - INR U / 2) (v i - INR V / 2)) by (intros i; unfold pu, rot_u, minus_centre; unfold eta; rewrite rotate_unrot by exact He; reflexivity).
  assert (Ev : forall i, pv i = unrot_v g (u i - INR U / 2) (v i - INR V / 2)) by (intros i; unfold pv, rot_v, minus_centre; unfold eta; rewrite rotate_unrot by exact He; reflexivity).
  pose proof (outside_cos g r Ho) as Hcp. destruct Ho as (Ht & Hph & HD & Hr & HR). pose proof (sc (cg_ph g)) as Hcs.
  set (E := orbit_ellipse (cos (cg_ph g)) (sin (cg_ph g)) (nval (cg_D g)) (nval (cg_R g)) r z (nval (cg_u0 g)) (nval (cg_v0 g))).
  assert (P : proper E) by now apply orbit_proper.
  assert (On : forall i, (i < n)%nat -> on_ellipse E (pu i) (pv i)).
  { intros i Hn. destruct (Op i Hn) as (Pt & Po & Ps). rewrite Eu, Ev. apply on_orbit_ellipse; try assumption. now apply (shadow_conic g tr Pt _ _ r z). }
  assert (Det' : determining n pu pv) by (eapply determining_ext; [|exact Det]; intros i _; split; [symmetry; apply Eu|symmetry; apply Ev]).
  assert (Sp' : spreads true n pu pv) by (eapply spreads_ext; [|exact Sp]; intros i _; split; [symmetry; apply Eu|symmetry; apply Ev]).
  rewrite (C78_exact true n pu pv E q P On Det' Sp' L).
  - assert (EE : to_ellipse (e_a E, e_b E, e_c E, e_u E, e_v E) = E) by reflexivity. rewrite EE. split; [exact P|].
    exists n, (minus_centre U u), (minus_centre V v). split; [exact Op|]. split; [exact Det|]. intros i Hn. specialize (On i Hn). rewrite Eu, Ev in On. exact On.
  - destruct Hc as [Hc|Hc].
    + left. unfold E, orbit_ellipse. cbn [e_c]. unfold cg_ph. rewrite Hc, sin0. unfold Rdiv. ring.
    + right. unfold ep_centre. rewrite (mean_ext n pv _ (fun i _ => Ev i)), Hc. reflexivity.
Qed.
Lemma removable_fix eta : removable eta -> opt_around (Some 4%nat) eta = eta.
Proof. intros (_ & _ & k & ->). cbn [opt_around]. apply around_fix. Qed.
Lemma check_ok eta : Rabs eta <= 120 -> check_eta eta = None.
Proof. intros H. unfold check_eta. destruct (Rlt_dec 120 (Rabs eta)); [lra|reflexivity]. Qed.

(** ** C209: calibration with measured axis points *)
(** From the points of two orbits and the three measured points of the rotation axis (from the bottom up), the constructor and [fit] together
    return the geometry of the acquisition, every field, with the frame size and the pixel size that were given. *)
Theorem C209_calibration : forall g tr r z1 z2 za zb e V U n1 v1 u1 n2 v2 u2 x1 x0 x2 pix ang s1 s2 q1 q2 (meas : option R),
  is_int (cg_R g) = false \/ tr = false -> outside g r -> side e z1 z2 -> z1 <> z2 -> za < zb -> removable (nval (cg_eta g)) ->
  acquired g tr r z1 V U n1 v1 u1 -> acquired g tr r z2 V U n2 v2 u2 ->
  nval (cg_phi g) = 0 \/
    mean n1 (fun i => unrot_v g (u1 i - INR U / 2) (v1 i - INR V / 2)) = centre_height g r z1 /\
    mean n2 (fun i => unrot_v g (u2 i - INR U / 2) (v2 i - INR V / 2)) = centre_height g r z2 ->
  seen_axis g tr V U za x1 -> seen_axis g tr V U zb x2 ->
  (forall y x, arctan2 y x (ang y x)) -> solves (nval (cg_eta g)) V U n1 v1 u1 q1 -> solves (nval (cg_eta g)) V U n2 v2 u2 q2 ->
  (meas = Some (nval (cg_D g)) \/ meas = None /\ Rabs z1 <> Rabs z2 /\ 1 / 100000000 < nval (cg_D g)) -> 1 / 100000000 < nval (cg_R g) ->
  exists st st' g', cb_init V U n1 v1 u1 n2 v2 u2 (Some (x1, x0, x2)) pix ang s1 s2 q1 q2 = inr st /\ cb_fit st r e meas = (st', inr g') /\
    nval (cg_D g') = nval (cg_D g) /\ nval (cg_R g') = nval (cg_R g) /\ nval (cg_u0 g') = nval (cg_u0 g) /\ nval (cg_v0 g') = nval (cg_v0 g) /\
    nval (cg_phi g') = nval (cg_phi g) /\ nval (cg_theta g') = nval (cg_theta g) /\ nval (cg_eta g') = nval (cg_eta g) /\
    cg_nv g' = NInt (Z.of_nat V) /\ cg_nu g' = NInt (Z.of_nat U) /\ nval (cg_pix g') = match pix with Some x => x | None => 0 end /\
    fs_origin st' = Some (fst x0 - INR V / 2, snd x0 - INR U / 2).
Proof.
  intros g tr r z1 z2 za zb e V U n1 v1 u1 n2 v2 u2 x1 x0 x2 pix ang s1 s2 q1 q2 meas Hi Ho Hs Hne Hz He A1 A2 Hc S1 S2 Ha L1 L2 Hm HR.
  assert (Hz1 : z1 <> 0) by (destruct Hs; lra). assert (Hz2 : z2 <> 0) by (destruct Hs as (_ & [[_ ?]|[_ ?]]); lra).
  pose proof (outside_cos g r Ho) as Hcp.
  assert (Et : centres_angle ang (fst x1 - INR V / 2, snd x1 - INR U / 2) (fst x2 - INR V / 2, snd x2 - INR U / 2) = nval (cg_eta g)).
  { unfold centres_angle. cbn [fst snd]. rewrite <- (removable_fix _ He). destruct He as (He0 & He1 & He2). destruct Ho as (Ht & Hph & HD & Hr & HRr).
    apply (C137_eta g tr za zb (snd x1 - INR U / 2) (fst x1 - INR V / 2) (snd x2 - INR U / 2) (fst x2 - INR V / 2) (Some 4%nat)); try assumption; try lra; [|apply Ha].
    apply Rabs_le_between in He1. lra. }
  unfold cb_init. rewrite Et. destruct He as (He0 & He1 & _). rewrite check_ok by exact He1.
  set (st := mkFS _ _ _ _ _ _). exists st.
  assert (M1 : measured_ellipse g tr r z1 (fs_ell1 st)) by (apply fitted_ellipse; try assumption; tauto).
  assert (M2 : measured_ellipse g tr r z2 (fs_ell2 st)) by (apply fitted_ellipse; try assumption; tauto).
  destruct (C136_fit_recovers g tr r z1 z2 e st meas Hi Ho Hs M1 M2 Hne Hm HR) as (st' & g' & E & ED & ER & Eu & Ev & Ep & Eth & Ee & Env & Enu & Epx).
  exists st', g'. split; [reflexivity|]. split; [exact E|]. rewrite Ee, Env, Enu, Epx. repeat split; try assumption.
  - destruct pix; reflexivity.
  - revert E. unfold cb_fit. destruct (pick_D _ _) as [er|D]; [discriminate|]. cbn zeta. destruct (Rlt_dec _ _); [discriminate|]. destruct (close0 _); [discriminate|].
    intros [= <- _]. reflexivity.
Qed.

(** ** C209: the axis not measured *)
Lemma angle_upright dec L t : 0 < L -> arctan2 0 (- L) t -> rot_axis_angle_deg dec t = 0.
Proof.
  intros HL A. unfold rot_axis_angle_deg. rewrite (angle_of 0 L t); [destruct dec; [apply around_0|reflexivity]|lra|exact HL|].
  unfold deg2rad. replace (0 * PI / 180) with 0 by field. rewrite sin_0, cos_0. replace (- L * 0) with 0 by ring. now rewrite Rmult_1_r.
Qed.
(** the points are pairs of opposite points of the orbit: point i and point N / 2 + i *)
Definition opposite (g : cone_geom) (tr : bool) (r z : R) (V U N : nat) (v u : vec) : Prop :=
  forall i, (i < N / 2)%nat -> exists P, on_orbit (get_prj_geom g tr) r z P /\
    shadow (get_prj_geom g tr) P (minus_centre U u i) (minus_centre V v i) /\ shadow (get_prj_geom g tr) (V3 (- vx P) (- vy P) (vz P)) (minus_centre U u (N / 2 + i)%nat) (minus_centre V v (N / 2 + i)%nat).
(** the solution of the linear least squares problem of [fit_ellipse_center] *)
Definition centre_solves (V U N : nat) (v u : vec) (s : R * R) : Prop :=
  crossing N (minus_centre V v) (minus_centre U u) /\ ec_scale true N (minus_centre V v) <> 0 /\ ec_scale true N (minus_centre U u) <> 0 /\
  lstsq2 N (rescaled true N (minus_centre V v)) (rescaled true N (minus_centre U u)) s.
(** With an upright detector and opposite points, the axis need not be measured, as soon as the two centres still differ after the rounding
    to two decimals: the calibration is exact. *)
Theorem C209_upright : forall g tr r z1 z2 e V U n1 v1 u1 n2 v2 u2 x1 x2 pix ang s1 s2 q1 q2 (meas : option R),
  is_int (cg_R g) = false \/ tr = false -> outside g r -> side e z1 z2 -> z1 <> z2 -> nval (cg_eta g) = 0 ->
  acquired g tr r z1 V U n1 v1 u1 -> acquired g tr r z2 V U n2 v2 u2 ->
  opposite g tr r z1 V U n1 v1 u1 -> opposite g tr r z2 V U n2 v2 u2 ->
  nval (cg_phi g) = 0 \/
    mean n1 (fun i => unrot_v g (u1 i - INR U / 2) (v1 i - INR V / 2)) = centre_height g r z1 /\
    mean n2 (fun i => unrot_v g (u2 i - INR U / 2) (v2 i - INR V / 2)) = centre_height g r z2 ->
  seen_axis g tr V U z1 x1 -> seen_axis g tr V U z2 x2 -> np_around 2 (fst x1 - INR V / 2) < np_around 2 (fst x2 - INR V / 2) ->
  (forall y x, arctan2 y x (ang y x)) -> centre_solves V U n1 v1 u1 s1 -> centre_solves V U n2 v2 u2 s2 ->
  solves 0 V U n1 v1 u1 q1 -> solves 0 V U n2 v2 u2 q2 ->
  (meas = Some (nval (cg_D g)) \/ meas = None /\ Rabs z1 <> Rabs z2 /\ 1 / 100000000 < nval (cg_D g)) -> 1 / 100000000 < nval (cg_R g) ->
  exists st st' g', cb_init V U n1 v1 u1 n2 v2 u2 None pix ang s1 s2 q1 q2 = inr st /\ cb_fit st r e meas = (st', inr g') /\
    nval (cg_D g') = nval (cg_D g) /\ nval (cg_R g') = nval (cg_R g) /\ nval (cg_u0 g') = nval (cg_u0 g) /\ nval (cg_v0 g') = nval (cg_v0 g) /\
    nval (cg_phi g') = nval (cg_phi g) /\ nval (cg_theta g') = nval (cg_theta g) /\ nval (cg_eta g') = 0 /\
    cg_nv g' = NInt (Z.of_nat V) /\ cg_nu g' = NInt (Z.of_nat U) /\ nval (cg_pix g') = match pix with Some x => x | None => 0 end.
Proof.
  intros g tr r z1 z2 e V U n1 v1 u1 n2 v2 u2 x1 x2 pix ang s1 s2 q1 q2 meas Hi Ho Hs Hne He A1 A2 O1 O2 Hc S1 S2 Hr2 Ha (X1 & Sv1 & Su1 & C1) (X2 & Sv2 & Su2 & C2) L1 L2 Hm HR.
  assert (Hz1 : z1 <> 0) by (destruct Hs; lra). assert (Hz2 : z2 <> 0) by (destruct Hs as (_ & [[_ ?]|[_ ?]]); lra).
  pose proof (outside_cos g r Ho) as Hcp.
  assert (F : forall z n v u x s, opposite g tr r z V U n v u -> seen_axis g tr V U z x -> crossing n (minus_centre V v) (minus_centre U u) ->
    ec_scale true n (minus_centre V v) <> 0 -> ec_scale true n (minus_centre U u) <> 0 -> lstsq2 n (rescaled true n (minus_centre V v)) (rescaled true n (minus_centre U u)) s ->
    fit_ellipse_center true (Some 2%nat) n (minus_centre V v) (minus_centre U u) s = (np_around 2 (fst x - INR V / 2), np_around 2 (snd x - INR U / 2))).
  { intros z n v u x s O S X Sv Su L. pose proof (C137_orbit_centre g tr r z n (minus_centre U u) (minus_centre V v) (snd x - INR U / 2) (fst x - INR V / 2) true s Hi Ho O S X Sv Su L) as Q.
    unfold fit_ellipse_center in *. cbn [opt_around] in *. injection Q as Qv Qu. now rewrite Qv, Qu. }
  unfold cb_init. rewrite (F z1 n1 v1 u1 x1 s1), (F z2 n2 v2 u2 x2 s2) by assumption. clear F.
  assert (Et : centres_angle ang (np_around 2 (fst x1 - INR V / 2), np_around 2 (snd x1 - INR U / 2)) (np_around 2 (fst x2 - INR V / 2), np_around 2 (snd x2 - INR U / 2)) = 0).
  { unfold centres_angle. cbn [fst snd]. destruct Ho as (Ht & Hph & HD & Hr & HRr).
    destruct (axis_shadow g tr z1 _ _ Hi Ht ltac:(lra) ltac:(lra) S1) as [Ua _]. destruct (axis_shadow g tr z2 _ _ Hi Ht ltac:(lra) ltac:(lra) S2) as [Ub _].
    unfold unrot_u, eta_of in Ua, Ub. rewrite He, sin0, cos0 in Ua, Ub.
    replace (snd x1 - INR U / 2) with (snd x2 - INR U / 2) by lra.
    apply (angle_upright _ (np_around 2 (fst x2 - INR V / 2) - np_around 2 (fst x1 - INR V / 2))); [lra|].
    match goal with |- arctan2 0 ?b (ang ?y ?x) => replace 0 with y by ring; replace b with x by ring end. apply Ha. }
  rewrite Et. rewrite check_ok by (rewrite Rabs_R0; lra). set (st := mkFS _ _ _ _ _ _). exists st.
  assert (M1 : measured_ellipse g tr r z1 (fs_ell1 st)) by (unfold st; cbn [fs_ell1]; rewrite <- He; apply fitted_ellipse; try assumption; try rewrite He; tauto).
  assert (M2 : measured_ellipse g tr r z2 (fs_ell2 st)) by (unfold st; cbn [fs_ell2]; rewrite <- He; apply fitted_ellipse; try assumption; try rewrite He; tauto).
  destruct (C136_fit_recovers g tr r z1 z2 e st meas Hi Ho Hs M1 M2 Hne Hm HR) as (st' & g' & E & ED & ER & Eu & Ev & Ep & Eth & Ee & Env & Enu & Epx).
  exists st', g'. split; [reflexivity|]. split; [exact E|]. rewrite Ee, Env, Enu, Epx. repeat split; try assumption. destruct pix; reflexivity.
Qed.

(** ** C209: the orbits in the wrong order *)
(** With the axis measured from the top down (or the orbits swapped), ValueError is raised: nothing is calibrated upside down. *)
Theorem C209_wrong_order : forall g tr r za zb V U n1 v1 u1 n2 v2 u2 x1 x0 x2 pix ang s1 s2 q1 q2,
  is_int (cg_R g) = false \/ tr = false -> outside g r -> zb < za -> -59 < nval (cg_eta g) < 59 ->
  seen_axis g tr V U za x1 -> seen_axis g tr V U zb x2 -> (forall y x, arctan2 y x (ang y x)) ->
  cb_init V U n1 v1 u1 n2 v2 u2 (Some (x1, x0, x2)) pix ang s1 s2 q1 q2 = inl ValueError.
Proof.
  intros g tr r za zb V U n1 v1 u1 n2 v2 u2 x1 x0 x2 pix ang s1 s2 q1 q2 Hi Ho Hz He S1 S2 Ha.
  pose proof (outside_cos g r Ho) as Hcp. destruct Ho as (Ht & Hph & HD & Hr & HR).
  pose proof (Ha (snd x1 - INR U / 2 - (snd x2 - INR U / 2)) (fst x1 - INR V / 2 - (fst x2 - INR V / 2))) as A.
  pose proof (swapped_angle g tr zb za _ _ _ _ _ Hi Ht Hcp ltac:(nra) HD ltac:(lra) Hz S2 S1 A) as E.
  unfold cb_init. cbn [fst snd]. set (t := ang _ _) in *.
  assert (K : check_eta (centres_angle ang (fst x1 - INR V / 2, snd x1 - INR U / 2) (fst x2 - INR V / 2, snd x2 - INR U / 2)) = Some ValueError).
  { unfold centres_angle. cbn [fst snd]. fold t. unfold rot_axis_angle_deg in *. cbn [opt_around] in *. rewrite E.
    match goal with |- context [np_around 4 ?x] => pose proof (around_near 4 x) as N end.
    assert (K4 : / (2 * 10 ^ 4) <= 1) by (cbn [pow]; lra). apply Rabs_le_between in N.
    unfold check_eta. destruct (Rlt_dec 120 _) as [L|L]; [reflexivity|]. exfalso. apply L. destruct (Rle_dec 0 (nval (cg_eta g))); [rewrite Rabs_left|rewrite Rabs_right]; lra. }
  now rewrite K.
Qed.

(** ** C209: shapes *)
(** Which shapes are accepted: a size of one or two numbers, two 2 x n arrays of points, and axis points of at least three columns and one or two
    rows, or one-dimensional. *)
Theorem C209_shapes size p1 p2 axis : init_shapes size p1 p2 axis = None <->
  (size = Z1 1 \/ size = Z1 2) /\ (exists n, p1 = [2; n]%nat) /\ (exists n, p2 = [2; n]%nat) /\
  match axis with None => True | Some X0 => False | Some (X1 m) => (3 <= m)%nat | Some (X2 a m) => (a = 1 \/ a = 2)%nat /\ (3 <= m)%nat end.
Proof.
  assert (CP : forall rows s, check_points rows s = None <-> rows = 2%nat /\ exists n, s = [2; n]%nat).
  { intros rows s. split.
    - destruct s as [|[|[|[|a]]] [|n [|]]]; cbn; try discriminate. destruct (Nat.eqb_spec rows 2); [|discriminate]. eauto.
    - intros (-> & n & ->). reflexivity. }
  assert (AX : forall e, match axis with None => inr 3%nat | Some s => axis_points s end = inl e -> ~ match axis with None => True | Some X0 => False | Some (X1 m) => (3 <= m)%nat | Some (X2 a m) => (a = 1 \/ a = 2)%nat /\ (3 <= m)%nat end).
  { intros e H K. destruct axis as [[|m|[|[|[|a]]] m]|]; cbn in H; try discriminate; destruct K as [[K|K] _]; lia. }
  assert (AM : forall m, match axis with None => inr 3%nat | Some s => axis_points s end = inr m -> (3 <= m)%nat <-> match axis with None => True | Some X0 => False | Some (X1 m) => (3 <= m)%nat | Some (X2 a m) => (a = 1 \/ a = 2)%nat /\ (3 <= m)%nat end).
  { intros k H. destruct axis as [[|m|[|[|[|a]]] m]|]; cbn in H; try discriminate; injection H as <-; split; intros Q; try lia; try exact I; try tauto. }
  unfold init_shapes. destruct (centre_rows size) as [e|rows] eqn:ER.
  - split; [discriminate|]. intros ([-> | ->] & _); discriminate.
  - destruct (check_points rows p1) as [e|] eqn:E1.
    { split; [discriminate|]. intros (Hs & H1 & _). assert (rows = 2%nat) by (destruct Hs as [-> | ->]; cbn in ER; congruence). assert (check_points rows p1 = None) by (apply CP; tauto). congruence. }
    destruct (check_points rows p2) as [e|] eqn:E2.
    { split; [discriminate|]. intros (Hs & _ & H2 & _). assert (rows = 2%nat) by (destruct Hs as [-> | ->]; cbn in ER; congruence). assert (check_points rows p2 = None) by (apply CP; tauto). congruence. }
    apply CP in E1 as [-> H1]. apply CP in E2 as [_ H2].
    destruct (match axis with None => inr 3%nat | Some s => axis_points s end) as [e|m] eqn:EA.
    { split; [discriminate|]. intros (_ & _ & _ & H3). exfalso. exact (AX e eq_refl H3). }
    specialize (AM m eq_refl). destruct size as [|n|n k]; cbn in ER; [discriminate| |].
    + destruct n as [|[|[|n]]]; try discriminate.
      * destruct (Nat.leb_spec m 2) as [Lm|Lm]; split; intros H; try discriminate; [exfalso; destruct H as (_ & _ & _ & H3); apply AM in H3; lia|split; [now left|]; split; [exact H1|]; split; [exact H2|]; apply AM; lia|reflexivity].
      * destruct (Nat.leb_spec m 2) as [Lm|Lm]; split; intros H; try discriminate; [exfalso; destruct H as (_ & _ & _ & H3); apply AM in H3; lia|split; [now right|]; split; [exact H1|]; split; [exact H2|]; apply AM; lia|reflexivity].
    + split; [discriminate|]. intros ([H|H] & _); discriminate.
Qed.
(** what is raised otherwise; and two centres of two numbers each are needed for the angle *)
Theorem C209_errors size p1 p2 axis e : init_shapes size p1 p2 axis = Some e ->
  e = match size with
      | Z0 => TypeError
      | Z1 _ => if match centre_rows size with inl _ => true | inr _ => false end then ValueError
                else match check_points 2 p1, check_points 2 p2 with
                     | None, None => match axis with Some (X2 (S (S (S _))) _) | Some (X2 0 _) => ValueError | _ => IndexError end
                     | _, _ => ValueError
                     end
      | Z2 _ _ => e
      end.
Proof.
  unfold init_shapes. destruct size as [|n|n m]; [now intros [= <-]| |reflexivity]. destruct (centre_rows (Z1 n)) as [e'|rows] eqn:ER.
  - intros [= <-]. destruct n as [|[|[|n]]]; cbn in ER; congruence.
  - assert (rows = 2%nat) by (destruct n as [|[|[|n]]]; cbn in ER; congruence). subst rows.
    assert (CV : forall s x, check_points 2 s = Some x -> x = ValueError) by (intros s x; destruct s as [|[|[|[|a]]] [|k [|]]]; cbn; congruence).
    destruct (check_points 2 p1) as [x|] eqn:E1; [intros [= <-]; now apply CV in E1|]. destruct (check_points 2 p2) as [x|] eqn:E2; [intros [= <-]; now apply CV in E2|].
    destruct axis as [[|m|[|[|[|a]]] m]|]; cbn [axis_points Nat.leb]; try (intros [= <-]; reflexivity); try discriminate;
      match goal with |- context [match ?b with true => _ | false => _ end] => destruct b end; try discriminate; intros [= <-]; reflexivity.
Qed.
Theorem C209_centres s1 s2 : (check_centres s1 s2 = None <-> s1 = Vec 2 /\ s2 = Vec 2) /\ (forall e, check_centres s1 s2 = Some e -> e = ValueError).
Proof.
  destruct s1 as [a|], s2 as [b|]; cbn; try (split; [split; [discriminate|intros [? ?]; congruence]|now intros e [= <-]]).
  destruct (Nat.eqb_spec a 2) as [->|Na]; cbn; [destruct (Nat.eqb_spec b 2) as [->|Nb]|]; split; try (split; intros; try discriminate; try tauto; destruct H; congruence); try discriminate; now intros e [= <-].
Qed.
(** REFUTED: three numbers instead of three points are accepted as the axis (they are used as both coordinates), although points of the same
    shape are rejected; and a size of one row is tiled, which never works *)
Theorem C209_axis_refuted m n1 n2 : (3 <= m)%nat -> init_shapes (Z1 2) [2; n1]%nat [2; n2]%nat (Some (X1 m)) = None /\ init_shapes (Z1 2) [m] [2; n2]%nat None = Some ValueError.
Proof.
  intros Hm. split; [|destruct m as [|[|[|m]]]; reflexivity]. apply C209_shapes. repeat split; eauto.
Qed.
Theorem C209_size_refuted m p1 p2 axis : exists e, init_shapes (Z2 1 m) p1 p2 axis = Some e.
Proof.
  destruct (init_shapes (Z2 1 m) p1 p2 axis) as [e|] eqn:E; [eauto|]. apply C209_shapes in E. destruct E as ([E|E] & _); discriminate.
Qed.

(** ** C209: errors of [fit] *)
(** [fit] raises nothing but ValueError; in particular when the distance cannot be computed (not a number, infinite or zero) and none is given, and
    then the object is as before. *)
Theorem C209_fit_errors st r e meas st' er : cb_fit st r e meas = (st', inl er) -> er = ValueError.
Proof.
  unfold cb_fit. destruct (pick_D _ meas) as [x|D] eqn:E.
  - intros [= _ <-]. revert E. unfold pick_D. destruct meas; [discriminate|]. destruct (fit_distance_det2src _ _ e); [destruct (close0 x0)|..]; congruence.
  - cbn zeta. destruct (Rlt_dec _ _); [now intros [= _ <-]|]. destruct (close0 _); [now intros [= _ <-]|discriminate].
Qed.
Theorem C209_no_distance st r e : (forall D, fit_distance_det2src (fs_ell1 st) (fs_ell2 st) e = Fin D -> Rabs D <= 1 / 100000000) -> cb_fit st r e None = (st, inl ValueError).
Proof.
  intros H. unfold cb_fit, pick_D. destruct (fit_distance_det2src _ _ e) as [D| |]; try reflexivity. unfold close0.
  destruct (Rle_dec (Rabs D) (1 / 100000000)) as [_|N]; [reflexivity|]. elim N. now apply H.
Qed.

(** ** C209 REFUTED for a tilted detector (phi other than zero) when the points are not vertically centred on the ellipse: five exact points of
    each of two orbits, the axis measured exactly, and [fit] does not return the geometry, for any measured distance. *)
Definition g_tilt : cone_geom := mkCG (NFlt 0) (NFlt (rad2deg (asin (3 / 5)))) (NFlt 0) (NFlt 10) (NFlt 10) (NFlt 0) (NFlt 0) (NInt 2) (NInt 2) (NFlt 0).
Definition tilt_U : vec := fun i => nth i [15 / 2; 15 / 2; 20 / 11; 20; 5 / 4] 0.
Definition tilt_V : vec := fun i => nth i [5 / 2; 5 / 6; 10 / 11; 2; 5 / 4] 0.
Definition tilt_pt (i : nat) : R * R := nth i [(5, 0); (-5, 0); (0, 5); (0, -5); (3, 4)] (0, 0).
Definition tilt_u : vec := fun i => tilt_U i + 1.
Definition tilt_v (z : R) : vec := fun i => z * tilt_V i + 1.
Lemma tilt_frame : cos (cg_ph g_tilt) = 4 / 5 /\ sin (cg_ph g_tilt) = 3 / 5 /\ cos (cg_th g_tilt) = 1 /\ sin (cg_th g_tilt) = 0 /\ cos (eta_of g_tilt) = 1 /\ sin (eta_of g_tilt) = 0.
Proof.
  assert (E : cg_ph g_tilt = asin (3 / 5)) by (unfold cg_ph, g_tilt, deg2rad, rad2deg; cbn [cg_phi nval]; field; apply PI_neq0).
  rewrite E, sin_asin, cos_asin by lra. split.
  - replace (1 - (3 / 5)²) with ((4 / 5) ^ 2) by (unfold Rsqr; field). apply sqrt_pow2. lra.
  - split; [reflexivity|]. unfold cg_th, eta_of, g_tilt. cbn [cg_theta cg_eta nval]. now rewrite sin0, cos0.
Qed.
Lemma tilt_un u v : unrot_u g_tilt u v = u /\ unrot_v g_tilt u v = v.
Proof. unfold unrot_u, unrot_v. destruct tilt_frame as (_ & _ & _ & _ & -> & ->). split; ring. Qed.
Lemma tilt_shadow x y z t u v : t * (x - 10) = - 8 - u * (3 / 5) -> t * y = 6 - u * (4 / 5) -> t * z = v ->
  shadow (get_prj_geom g_tilt false) (V3 x y (vz (src_of (get_prj_geom g_tilt false)) + z)) u v.
Proof.
  intros Ex Ey Ez. exists t. rewrite eu_eq, ev_eq. unfold src_of, det_of, get_prj_geom. cbn [g_src g_det the nth]. unfold src_pos0, det_pos0, vsub, alpha_xyz, beta_xyz, e_n_xyz.
  destruct tilt_frame as (-> & -> & -> & -> & -> & ->). cbn [cg_D cg_R cg_u0 cg_v0 g_tilt nval]. apply vec3_eq; unfold vadd, vscal; cbn [vx vy vz]; lra.
Qed.
Lemma tilt_det z : z <> 0 -> determining 5 tilt_U (fun i => z * tilt_V i).
Proof.
  intros Hz d Ld H. pose proof (H 0%nat ltac:(lia)) as H0. pose proof (H 1%nat ltac:(lia)) as H1. pose proof (H 2%nat ltac:(lia)) as H2. pose proof (H 3%nat ltac:(lia)) as H3. pose proof (H 4%nat ltac:(lia)) as H4.
  unfold ep_row, tilt_U, tilt_V in H0, H1, H2, H3, H4. cbn [nth] in H0, H1, H2, H3, H4.
  set (d0 := nth 0 d 0) in *. set (d1 := nth 1 d 0) in *. set (d2 := nth 2 d 0) in *. set (d3 := nth 3 d 0) in *. set (d4 := nth 4 d 0) in *.
  assert (Q : d0 = 0 /\ d1 = 0 /\ z * d2 = 0 /\ z * d3 = 0 /\ d4 = 0) by (repeat split; lra). destruct Q as (Q0 & Q1 & Q2 & Q3 & Q4).
  apply Rmult_integral in Q2 as [Q2|Q2]; [contradiction|]. apply Rmult_integral in Q3 as [Q3|Q3]; [contradiction|].
  apply list5_eq; [exact Ld|reflexivity|]. intros k Hk. do 5 (destruct k as [|k]; [cbn [nth repeat]; fold d0 d1 d2 d3 d4; lra|]). lia.
Qed.
Lemma tilt_means z : mean 5 tilt_U = 335 / 44 /\ mean 5 (fun i => z * tilt_V i) = z * (989 / 660).
Proof. unfold mean, tilt_U, tilt_V. cbn [rsum nth]. replace (INR 5) with 5 by (rewrite INR_IZR_INZ; reflexivity). split; field. Qed.
Lemma tilt_spreads z : z <> 0 -> spreads true 5 tilt_U (fun i => z * tilt_V i).
Proof.
  intros Hz. destruct (tilt_means z) as [Mu Mv]. unfold spreads, ep_scale, max_abs. rewrite Mu, Mv. split; apply Rgt_not_eq.
  - apply Rlt_le_trans with (Rabs (tilt_U 3%nat - 335 / 44)); [apply Rabs_pos_lt; unfold tilt_U; cbn [nth]; lra|]. apply (rmax_ge 5 (fun i => Rabs (tilt_U i - 335 / 44)) 3). lia.
  - apply Rlt_le_trans with (Rabs (z * tilt_V 0%nat - z * (989 / 660))); [apply Rabs_pos_lt; unfold tilt_V; cbn [nth]; intros E; apply Hz; lra|].
    apply (rmax_ge 5 (fun i => Rabs (z * tilt_V i - z * (989 / 660))) 0). lia.
Qed.
Lemma tilt_centred z i : minus_centre 2 tilt_u i = tilt_U i /\ minus_centre 2 (tilt_v z) i = z * tilt_V i.
Proof. unfold minus_centre, tilt_u, tilt_v. replace (INR 2) with 2 by (rewrite INR_IZR_INZ; reflexivity). split; field. Qed.
Lemma tilt_acquired z : z <> 0 -> acquired g_tilt false 5 z 2 2 5 (tilt_v z) tilt_u.
Proof.
  intros Hz. split.
  - intros i Hi. exists (V3 (fst (tilt_pt i)) (snd (tilt_pt i)) (vz (src_of (get_prj_geom g_tilt false)) + z)). split.
    + split; [|reflexivity]. cbn [vx vy]. do 5 (destruct i as [|i]; [cbn [tilt_pt nth fst snd]; ring|]). lia.
    + destruct (tilt_centred z i) as [-> ->]. apply (tilt_shadow _ _ _ (tilt_V i)); do 5 (destruct i as [|i]; [cbn [tilt_pt tilt_U tilt_V nth fst snd]; lra|]); lia.
  - assert (E : forall i, unrot_u g_tilt (tilt_u i - INR 2 / 2) (tilt_v z i - INR 2 / 2) = tilt_U i /\ unrot_v g_tilt (tilt_u i - INR 2 / 2) (tilt_v z i - INR 2 / 2) = z * tilt_V i).
    { intros i. destruct (tilt_un (tilt_u i - INR 2 / 2) (tilt_v z i - INR 2 / 2)) as [-> ->]. apply (tilt_centred z i). }
    cbv zeta. split; [apply (determining_ext 5 tilt_U (fun i => z * tilt_V i)); [|now apply tilt_det]|apply (spreads_ext 5 tilt_U (fun i => z * tilt_V i)); [|now apply tilt_spreads]];
      intros i _; destruct (E i) as [E1 E2]; split; symmetry; assumption.
Qed.
Lemma tilt_axis z : seen_axis g_tilt false 2 2 z (5 / 4 * z + 1, 17 / 2).
Proof. unfold seen_axis, axis_pt. cbn [fst snd]. replace (INR 2) with 2 by (rewrite INR_IZR_INZ; reflexivity). apply (tilt_shadow 0 0 z (5 / 4)); lra. Qed.

(** the ellipse fitted to the points: its height 1.64 z instead of 80 / 39 z = 2.05 z *)
Definition tilt_ellipse (z : R) : ellipse :=
  {| e_a := 1264459825200 / 83367055890559; e_b := 94834486890000 / 83367055890559; e_c := z * (- 7586758951200 / 83367055890559); e_u := 480 / 39; e_v := z * (1226861 / 749100) |}.
Lemma tilt_fitted z q : z = 1 \/ z = -1 -> solves 0 2 2 5 (tilt_v z) tilt_u q ->
  to_ellipse (fit_ellipse_parameters true 5 (rot_v 0 (minus_centre 2 (tilt_v z)) (minus_centre 2 tilt_u)) (rot_u 0 (minus_centre 2 (tilt_v z)) (minus_centre 2 tilt_u)) q) = tilt_ellipse z.
Proof.
  intros Hz L. assert (Hz0 : z <> 0) by (destruct Hz; lra). unfold solves in L.
  set (pu := rot_u 0 (minus_centre 2 (tilt_v z)) (minus_centre 2 tilt_u)) in *. set (pv := rot_v 0 (minus_centre 2 (tilt_v z)) (minus_centre 2 tilt_u)) in *.
  assert (R0 : forall v u, rotate_point 0 (v, u) = (v, u)) by (intros v u; unfold rotate_point; rewrite Rabs_R0; destruct (Rlt_dec (1 / 10) 0); [lra|reflexivity]).
  assert (Eu : forall i, pu i = tilt_U i) by (intros i; unfold pu, rot_u; rewrite R0; apply (tilt_centred z i)).
  assert (Ev : forall i, pv i = z * tilt_V i) by (intros i; unfold pv, rot_v; rewrite R0; apply (tilt_centred z i)).
  destruct (tilt_means z) as [Mu Mv]. rewrite <- (mean_ext 5 pu tilt_U (fun i _ => Eu i)) in Mu. rewrite <- (mean_ext 5 pv _ (fun i _ => Ev i)) in Mv.
  set (e := {| e_a := 39 / 2500; e_b := 2925 / 2500; e_c := z * (- 234 / 2500); e_u := 480 / 39; e_v := z * (80 / 39) |}).
  assert (On : forall i, (i < 5)%nat -> on_ellipse e (pu i) (pv i)).
  { intros i Hi. rewrite Eu, Ev. unfold on_ellipse, e. cbn [e_a e_b e_c e_u e_v]. destruct Hz as [-> | ->]; do 5 (destruct i as [|i]; [cbn [tilt_U tilt_V nth]; field|]); lia. }
  assert (Det : determining 5 pu pv) by (apply (determining_ext 5 tilt_U (fun i => z * tilt_V i)); [intros i _; split; symmetry; [apply Eu|apply Ev]|now apply tilt_det]).
  assert (Sp : spreads true 5 pu pv) by (apply (spreads_ext 5 tilt_U (fun i => z * tilt_V i)); [intros i _; split; symmetry; [apply Eu|apply Ev]|now apply tilt_spreads]).
  unfold fit_ellipse_parameters. pose proof (ep_coefficients true 5 pu pv e q ltac:(cbn; lra) On Det Sp L) as Co. cbv match in Co. rewrite Co.
  unfold ep_centre. rewrite Mu, Mv. unfold conic, ep_params, e, to_ellipse, tilt_ellipse. cbn [e_a e_b e_c e_u e_v nth]. destruct Hz as [-> | ->]; f_equal; field; lra.
Qed.
(** existence of the solutions of the two least squares problems *)
Lemma tilt_solvable z : z = 1 \/ z = -1 -> exists q, solves 0 2 2 5 (tilt_v z) tilt_u q.
Proof.
  intros Hz. assert (Hz0 : z <> 0) by (destruct Hz; lra). unfold solves.
  set (pu := rot_u 0 (minus_centre 2 (tilt_v z)) (minus_centre 2 tilt_u)) in *. set (pv := rot_v 0 (minus_centre 2 (tilt_v z)) (minus_centre 2 tilt_u)) in *.
  assert (R0 : forall v u, rotate_point 0 (v, u) = (v, u)) by (intros v u; unfold rotate_point; rewrite Rabs_R0; destruct (Rlt_dec (1 / 10) 0); [lra|reflexivity]).
  assert (Eu : forall i, pu i = tilt_U i) by (intros i; unfold pu, rot_u; rewrite R0; apply (tilt_centred z i)).
  assert (Ev : forall i, pv i = z * tilt_V i) by (intros i; unfold pv, rot_v; rewrite R0; apply (tilt_centred z i)).
  set (e := {| e_a := 39 / 2500; e_b := 2925 / 2500; e_c := z * (- 234 / 2500); e_u := 480 / 39; e_v := z * (80 / 39) |}).
  apply (exact_is_lstsq true 5 pu pv e); [cbn; lra| |].
  - intros i Hi. rewrite Eu, Ev. unfold on_ellipse, e. cbn [e_a e_b e_c e_u e_v]. destruct Hz as [-> | ->]; do 5 (destruct i as [|i]; [cbn [tilt_U tilt_V nth]; field|]); lia.
  - apply (spreads_ext 5 tilt_U (fun i => z * tilt_V i)); [intros i _; split; symmetry; [apply Eu|apply Ev]|now apply tilt_spreads].
Qed.
(** with the true distance given, [fit] does return a geometry *)
Lemma tilt_returns g c1 c2 o : exists st' g', cb_fit (mkFS g (tilt_ellipse (-1)) (tilt_ellipse 1) c1 c2 o) 5 1 (Some 10) = (st', inr g').
Proof.
  unfold cb_fit, pick_D. cbn [fs_ell1 fs_ell2 fs_geom fs_c1 fs_c2 fs_origin].
  assert (EQ : e_a (tilt_ellipse (-1)) * e_b (tilt_ellipse (-1)) - e_c (tilt_ellipse (-1)) ^ 2 = e_a (tilt_ellipse 1) * e_b (tilt_ellipse 1) - e_c (tilt_ellipse 1) ^ 2) by (cbn [tilt_ellipse e_a e_b e_c]; field).
  assert (EQ2 : e_a (tilt_ellipse (-1)) * e_b (tilt_ellipse (-1)) + e_a (tilt_ellipse (-1)) ^ 2 * e_b (tilt_ellipse (-1)) * 10 ^ 2 - e_c (tilt_ellipse (-1)) ^ 2 =
                e_a (tilt_ellipse 1) * e_b (tilt_ellipse 1) + e_a (tilt_ellipse 1) ^ 2 * e_b (tilt_ellipse 1) * 10 ^ 2 - e_c (tilt_ellipse 1) ^ 2) by (cbn [tilt_ellipse e_a e_b e_c]; field).
  unfold get_v0, get_rho, get_zeta, get_denom. rewrite EQ, EQ2. clear EQ EQ2. change (e_a (tilt_ellipse (-1))) with (e_a (tilt_ellipse 1)).
  set (a := e_a (tilt_ellipse 1)). set (q := a * e_b (tilt_ellipse 1) - e_c (tilt_ellipse 1) ^ 2).
  set (dn := a * e_b (tilt_ellipse 1) + a ^ 2 * e_b (tilt_ellipse 1) * 10 ^ 2 - e_c (tilt_ellipse 1) ^ 2).
  assert (Ha : 0 < a) by (unfold a; cbn [tilt_ellipse e_a]; lra).
  assert (Hq : 0 < q) by (unfold q, a; cbn [tilt_ellipse e_a e_b e_c]; lra).
  assert (Hdn : q < dn).
  { assert (Hb : 0 < a ^ 2 * e_b (tilt_ellipse 1)) by (apply Rmult_lt_0_compat; [apply pow_lt; exact Ha|cbn [tilt_ellipse e_b]; lra]). unfold q, dn. lra. }
  assert (Sq : 0 < sqrt q) by now apply sqrt_lt_R0. assert (Sd : sqrt q < sqrt dn) by (apply sqrt_lt_1; lra). assert (Sa : 0 < sqrt a) by now apply sqrt_lt_R0.
  set (K := 1226861 / 749100).
  assert (S : sqrt (a + a ^ 2 * 10 ^ 2) <= 2 * K * sqrt q).
  { assert (HK : 0 <= 2 * K) by (unfold K; lra). rewrite <- (sqrt_pow2 (2 * K) HK), <- sqrt_mult_alt by (apply pow2_ge_0). apply sqrt_le_1_alt. unfold K, q, a. cbn [tilt_ellipse e_a e_b e_c]. lra. }
  assert (S' : 0 <= sqrt (a + a ^ 2 * 10 ^ 2) / sqrt q <= 2 * K).
  { split; [apply Rmult_le_pos; [apply sqrt_pos|left; now apply Rinv_0_lt_compat]|]. apply Rmult_le_reg_r with (sqrt q); [exact Sq|]. unfold Rdiv. rewrite Rmult_assoc, Rinv_l by lra. lra. }
  set (sv := sqrt (a + a ^ 2 * 10 ^ 2)) in *.
  assert (V1 : e_v (tilt_ellipse (-1)) = - K) by (unfold K; cbn [tilt_ellipse e_v]; field). assert (V2 : e_v (tilt_ellipse 1) = K) by (unfold K; cbn [tilt_ellipse e_v]; field).
  rewrite V1, V2. cbn zeta.
  replace (- K - -1 * sv / sqrt q - (K - -1 * - (1) * sv / sqrt q)) with (2 * (sv / sqrt q) - 2 * K) by (unfold Rdiv; ring).
  destruct (Rlt_dec _ _) as [L|_].
  { exfalso. revert L. replace (- K - K) with (- (2 * K)) by ring. assert (HK : 0 < K) by (unfold K; lra). rewrite Rabs_left by lra. intros L. apply Rlt_not_le in L. apply L. apply Rabs_le. lra. }
  set (zc := 10 * -1 * a * sqrt a / sqrt dn). replace (10 * (-1 * - (1)) * a * sqrt a / sqrt dn) with (- zc) by (unfold zc, Rdiv; ring).
  set (rr := 5 / (sqrt q / sqrt dn)). assert (Hr : 5 < rr).
  { unfold rr. replace (5 / (sqrt q / sqrt dn)) with (5 * (sqrt dn / sqrt q)) by (field; lra). assert (1 < sqrt dn / sqrt q); [|lra]. apply Rmult_lt_reg_r with (sqrt q); [exact Sq|]. unfold Rdiv. rewrite Rmult_assoc, Rinv_l by lra. lra. }
  assert (Hz : zc < 0).
  { unfold zc. assert (0 < 10 * a * sqrt a / sqrt dn); [|unfold Rdiv in *; lra]. apply Rdiv_lt_0_compat; [|lra]. apply Rmult_lt_0_compat; [lra|exact Sa]. }
  replace ((- (rr * - zc) * rr + rr * zc * rr) / (rr * zc - rr * - zc)) with rr by (field; repeat split; intro Q; nra).
  rewrite close0_pos by lra. eexists. eexists. reflexivity.
Qed.
Theorem C209_tilted_refuted : exists g r V U n v1 u1 v2 u2 x1 x0 x2,
  outside g r /\ nval (cg_eta g) = 0 /\ acquired g false r (-1) V U n v1 u1 /\ acquired g false r 1 V U n v2 u2 /\
  seen_axis g false V U (-1) x1 /\ seen_axis g false V U 0 x0 /\ seen_axis g false V U 1 x2 /\
  (exists q1 q2, solves 0 V U n v1 u1 q1 /\ solves 0 V U n v2 u2 q2) /\
  forall pix ang s1 s2 q1 q2, (forall y x, arctan2 y x (ang y x)) -> solves 0 V U n v1 u1 q1 -> solves 0 V U n v2 u2 q2 ->
    exists st, cb_init V U n v1 u1 n v2 u2 (Some (x1, x0, x2)) pix ang s1 s2 q1 q2 = inr st /\
    (exists st' g', cb_fit st r 1 (Some (nval (cg_D g))) = (st', inr g')) /\
    forall meas st' g', cb_fit st r 1 meas = (st', inr g') -> nval (cg_u0 g') = 4026807 / 1623050 /\ nval (cg_u0 g) = 0.
Proof.
  exists g_tilt, 5, 2%nat, 2%nat, 5%nat, (tilt_v (-1)), tilt_u, (tilt_v 1), tilt_u, (5 / 4 * (-1) + 1, 17 / 2), (5 / 4 * 0 + 1, 17 / 2), (5 / 4 * 1 + 1, 17 / 2).
  assert (Ho : outside g_tilt 5).
  { unfold outside. destruct tilt_frame as (-> & _). cbn [g_tilt cg_theta cg_phi cg_D cg_R nval]. pose proof (asin_bound_lt (3 / 5) ltac:(lra)) as B. pose proof PI_RGT_0.
    unfold rad2deg. assert (K : asin (3 / 5) * 180 / PI * PI = asin (3 / 5) * 180) by (field; lra). repeat split; try lra; apply Rmult_lt_reg_r with PI; lra. }
  split; [exact Ho|]. split; [reflexivity|]. split; [apply tilt_acquired; lra|]. split; [apply tilt_acquired; lra|]. split; [apply tilt_axis|]. split; [apply tilt_axis|]. split; [apply tilt_axis|].
  split; [destruct (tilt_solvable (-1)) as [q1 Q1]; [now right|]; destruct (tilt_solvable 1) as [q2 Q2]; [now left|]; now exists q1, q2|].
  intros pix ang s1 s2 q1 q2 Ha L1 L2. unfold cb_init. cbn [fst snd].
  assert (Et : centres_angle ang (5 / 4 * -1 + 1 - INR 2 / 2, 17 / 2 - INR 2 / 2) (5 / 4 * 1 + 1 - INR 2 / 2, 17 / 2 - INR 2 / 2) = 0).
  { unfold centres_angle. cbn [fst snd]. apply (angle_upright _ (5 / 2)); [lra|].
    match goal with |- arctan2 0 ?b (ang ?y ?x) => replace 0 with y by ring; replace b with x by field end. apply Ha. }
  rewrite Et. rewrite check_ok by (rewrite Rabs_R0; lra). rewrite (tilt_fitted (-1)), (tilt_fitted 1) by tauto. eexists. split; [reflexivity|]. split; [apply tilt_returns|].
  intros meas st' g' E. split; [|reflexivity]. revert E. unfold cb_fit. cbn [fs_ell1 fs_ell2 fs_geom fs_c1 fs_c2 fs_origin]. destruct (pick_D _ _) as [er|D]; [discriminate|]. cbn zeta.
  destruct (Rlt_dec _ _); [discriminate|]. destruct (close0 _); [discriminate|]. intros [= _ <-]. cbn [cg_u0 nval].
  assert (ES : e_a (tilt_ellipse (-1)) * e_b (tilt_ellipse (-1)) - e_c (tilt_ellipse (-1)) ^ 2 = e_a (tilt_ellipse 1) * e_b (tilt_ellipse 1) - e_c (tilt_ellipse 1) ^ 2) by (cbn [tilt_ellipse e_a e_b e_c]; field).
  assert (E0 : (get_v0 (tilt_ellipse (-1)) D (-1) + get_v0 (tilt_ellipse 1) D (-1 * - (1))) / 2 = 0).
  { unfold get_v0. rewrite ES. change (e_a (tilt_ellipse (-1))) with (e_a (tilt_ellipse 1)).
    generalize (sqrt (e_a (tilt_ellipse 1) + e_a (tilt_ellipse 1) ^ 2 * D ^ 2)) (sqrt (e_a (tilt_ellipse 1) * e_b (tilt_ellipse 1) - e_c (tilt_ellipse 1) ^ 2)). intros p q0. cbn [e_v tilt_ellipse]. unfold Rdiv. ring. }
  rewrite E0. unfold tilt_ratio. cbn [tilt_ellipse e_a e_b e_c e_u e_v]. field.
Qed.

(** ** Example: numpy.arctan2 exists, and a concrete acquisition meets the hypotheses of [C209_calibration] and [C209_upright] *)
Definition atan2 (y x : R) : R := if Req_EM_T (x ^ 2 + y ^ 2) 0 then 0 else if Rlt_dec y 0 then - acos (x / sqrt (x ^ 2 + y ^ 2)) else acos (x / sqrt (x ^ 2 + y ^ 2)).
Lemma atan2_ok y x : arctan2 y x (atan2 y x).
Proof.
  unfold arctan2, atan2. pose proof PI_RGT_0 as Hpi. pose proof (pow2_ge_0 x) as X2. pose proof (pow2_ge_0 y) as Y2. destruct (Req_EM_T (x ^ 2 + y ^ 2) 0) as [E|N].
  - assert (x = 0) by nra. assert (y = 0) by nra. subst. rewrite sin_0, cos_0. replace (0 ^ 2 + 0 ^ 2) with 0 by ring. rewrite sqrt_0. repeat split; lra.
  - assert (Hp : 0 < x ^ 2 + y ^ 2) by lra. set (r := sqrt (x ^ 2 + y ^ 2)). assert (Hr : 0 < r) by now apply sqrt_lt_R0.
    assert (R2 : r * r = x ^ 2 + y ^ 2) by (apply sqrt_def; lra). assert (B : -1 <= x / r <= 1).
    { split; apply Rmult_le_reg_r with r; try exact Hr; unfold Rdiv; rewrite Rmult_assoc, Rinv_l by lra; nra. }
    assert (Xc : r * (x / r) = x) by (field; lra).
    assert (Sn : r * sin (acos (x / r)) = Rabs y).
    { rewrite sin_acos by exact B. rewrite <- (sqrt_Rsqr r) at 1 by lra. rewrite <- sqrt_mult_alt by apply Rle_0_sqr. rewrite <- sqrt_Rsqr_abs. f_equal. unfold Rsqr.
      replace (r * r * (1 - x / r * (x / r))) with (r * r - r * (x / r) * (r * (x / r))) by ring. rewrite Xc, R2. ring. }
    pose proof (acos_bound (x / r)) as Bd. destruct (Rlt_dec y 0) as [L|L].
    + rewrite cos_neg, sin_neg, cos_acos by exact B. assert (Hlt : -1 < x / r).
      { destruct (Rle_lt_or_eq_dec _ _ (proj1 B)) as [H|H]; [exact H|]. exfalso. rewrite <- H in Xc. nra. }
      assert (acos (x / r) < PI).
      { destruct (Rle_lt_or_eq_dec _ _ (proj2 Bd)) as [H|H]; [exact H|]. exfalso. pose proof (cos_acos (x / r) B) as C. rewrite H, cos_PI in C. lra. }
      split; [lra|]. split; [now rewrite Xc|]. split; [|intros; lra]. rewrite Rabs_left in Sn by exact L. lra.
    + rewrite cos_acos by exact B. split; [lra|]. split; [now rewrite Xc|]. split; [rewrite Sn, Rabs_right; lra|]. intros -> ->. exfalso. apply N. ring.
Qed.
Definition demo_pu : vec := fun i => demo_u i + 1.
Definition demo_pv (z : R) : vec := fun i => demo_v z i + 1.
Lemma demo_centred z i : minus_centre 2 demo_pu i = demo_u i /\ minus_centre 2 (demo_pv z) i = demo_v z i.
Proof. unfold minus_centre, demo_pu, demo_pv. replace (INR 2) with 2 by (rewrite INR_IZR_INZ; reflexivity). split; field. Qed.
Lemma demo_spreads z : z <> 0 -> spreads true 5 demo_u (demo_v z).
Proof.
  intros Hz. assert (M : mean 5 demo_u = - (1 / 7) /\ mean 5 (demo_v z) = 3 + z * (128 / 105)).
  { unfold mean, demo_u, demo_v. cbn [rsum nth]. replace (INR 5) with 5 by (rewrite INR_IZR_INZ; reflexivity). split; field. }
  destruct M as [Mu Mv]. unfold spreads, ep_scale, max_abs. rewrite Mu, Mv. split; apply Rgt_not_eq.
  - apply Rlt_le_trans with (Rabs (demo_u 3%nat - - (1 / 7))); [apply Rabs_pos_lt; unfold demo_u; cbn [nth]; lra|]. apply (rmax_ge 5 (fun i => Rabs (demo_u i - - (1 / 7))) 3). lia.
  - apply Rlt_le_trans with (Rabs (demo_v z 0%nat - (3 + z * (128 / 105)))); [apply Rabs_pos_lt; unfold demo_v; cbn [nth]; intros E; apply Hz; lra|].
    apply (rmax_ge 5 (fun i => Rabs (demo_v z i - (3 + z * (128 / 105)))) 0). lia.
Qed.
Lemma demo_acquired z : z <> 0 -> acquired g_demo false 5 z 2 2 5 (demo_pv z) demo_pu.
Proof.
  intros Hz. split.
  - intros i Hi. destruct (demo_centred z i) as [-> ->]. now apply (demo_points z).
  - assert (E : forall i, unrot_u g_demo (demo_pu i - INR 2 / 2) (demo_pv z i - INR 2 / 2) = demo_u i /\ unrot_v g_demo (demo_pu i - INR 2 / 2) (demo_pv z i - INR 2 / 2) = demo_v z i).
    { intros i. destruct (demo_un (demo_pu i - INR 2 / 2) (demo_pv z i - INR 2 / 2)) as [-> ->]. apply (demo_centred z i). }
    cbv zeta. split.
    + apply (determining_ext 5 (fun i => unrot_u g_demo (demo_u i) (demo_v z i)) (fun i => unrot_v g_demo (demo_u i) (demo_v z i))); [|now apply demo_det].
      intros i _. destruct (E i) as [-> ->]. apply demo_un.
    + apply (spreads_ext 5 demo_u (demo_v z)); [|now apply demo_spreads]. intros i _; destruct (E i) as [E1 E2]; split; symmetry; assumption.
Qed.
Lemma demo_solvable z : z <> 0 -> exists q, solves 0 2 2 5 (demo_pv z) demo_pu q.
Proof.
  intros Hz. unfold solves. assert (R0 : forall v u, rotate_point 0 (v, u) = (v, u)) by (intros v u; unfold rotate_point; rewrite Rabs_R0; destruct (Rlt_dec (1 / 10) 0); [lra|reflexivity]).
  set (pu := rot_u 0 (minus_centre 2 (demo_pv z)) (minus_centre 2 demo_pu)) in *. set (pv := rot_v 0 (minus_centre 2 (demo_pv z)) (minus_centre 2 demo_pu)) in *.
  assert (Eu : forall i, pu i = demo_u i) by (intros i; unfold pu, rot_u; rewrite R0; apply (demo_centred z i)).
  assert (Ev : forall i, pv i = demo_v z i) by (intros i; unfold pv, rot_v; rewrite R0; apply (demo_centred z i)).
  apply (exact_is_lstsq true 5 pu pv (orbit_ellipse 1 0 10 10 5 z 1 3)).
  - pose proof (orbit_proper 1 0 10 10 5 z 1 3) as P. apply Rgt_not_eq. apply P; lra.
  - intros i Hi. rewrite Eu, Ev. apply on_orbit_ellipse; try lra. do 5 (destruct i as [|i]; [cbn [demo_u demo_v nth]; field|]). lia.
  - apply (spreads_ext 5 demo_u (demo_v z)); [intros i _; split; symmetry; [apply Eu|apply Ev]|now apply demo_spreads].
Qed.
Lemma demo_seen z : seen_axis g_demo false 2 2 z (4 + z, 2).
Proof. unfold seen_axis. cbn [fst snd]. replace (INR 2) with 2 by (rewrite INR_IZR_INZ; reflexivity). replace (2 - 2 / 2) with 1 by field. replace (4 + z - 2 / 2) with (3 + z) by field. apply demo_axis. Qed.
Example C209_example : exists q1 q2 st st' g', cb_init 2 2 5 (demo_pv (-1)) demo_pu 5 (demo_pv 2) demo_pu (Some ((4 + -1, 2), (4 + 0, 2), (4 + 2, 2))) (Some 7) atan2 (0, 0) (0, 0) q1 q2 = inr st /\
  cb_fit st 5 1 None = (st', inr g') /\ nval (cg_D g') = 10 /\ nval (cg_R g') = 10 /\ nval (cg_u0 g') = 1 /\ nval (cg_v0 g') = 3 /\ nval (cg_eta g') = 0 /\ cg_nv g' = NInt 2 /\ nval (cg_pix g') = 7.
Proof.
  destruct (demo_solvable (-1)) as [q1 Q1]; [lra|]. destruct (demo_solvable 2) as [q2 Q2]; [lra|]. exists q1, q2.
  destruct (C209_calibration g_demo false 5 (-1) 2 (-1) 2 1 2 2 5 (demo_pv (-1)) demo_pu 5 (demo_pv 2) demo_pu (4 + -1, 2) (4 + 0, 2) (4 + 2, 2) (Some 7) atan2 (0, 0) (0, 0) q1 q2 None) as (st & st' & g' & E1 & E2 & H).
  - now right.
  - exact demo_outside.
  - split; [lra|]. left. lra.
  - lra.
  - lra.
  - split; [now left|]. cbn [g_demo cg_eta nval]. rewrite Rabs_R0. split; [lra|]. exists 0%Z. unfold Rdiv. ring.
  - apply demo_acquired. lra.
  - apply demo_acquired. lra.
  - now left.
  - apply demo_seen.
  - apply demo_seen.
  - intros y x. apply atan2_ok.
  - exact Q1.
  - exact Q2.
  - right. split; [reflexivity|]. rewrite Rabs_left, Rabs_right by lra. cbn. lra.
  - cbn. lra.
  - exists st, st', g'. split; [exact E1|]. split; [exact E2|]. cbn [g_demo cg_D cg_R cg_u0 cg_v0 cg_eta nval] in H. change (Z.of_nat 2) with 2%Z in H. tauto.
Qed.
