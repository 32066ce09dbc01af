(** C136, C137: calibrating the cone-beam geometry from the orbits of two markers (alignment/cone_beam.py). *)
From Coq Require Import Reals Lra Lia List ZArith Bool String Nsatz.
Import ListNotations.
From Verif Require Import Sums PyErr Rounding GeometryModel GeometryProps ParamTuningModel ParamTuningProps ProcPreModel AlignFitModel AlignFitProps AlignEllipseProps ConeBeamModel ConeBeamProps.
Open Scope R_scope.

(** ** specification: the shadow of a point on the detector of a projection geometry *)
Definition shadow (p : prj_geom) (P : vec3) (u v : R) : Prop :=
  exists t, vadd (src_of p) (vscal t (vsub P (src_of p))) = vadd (det_of p) (vadd (vscal u (eu_of p)) (vscal v (ev_of p))).
(** points of the circle of radius r around the rotation axis, at the height z above the source *)
Definition on_orbit (p : prj_geom) (r z : R) (P : vec3) : Prop := vx P ^ 2 + vy P ^ 2 = r ^ 2 /\ vz P = vz (src_of p) + z.

(** ** the orbit's shadow is an ellipse *)
Section Orbit.
Variables (c s D Rr r z u0 v0 : R).
Hypotheses (Hcs : s * s + c * c = 1) (Hc : 0 < c) (HD : 0 < D) (Hr : 0 < r) (HR : r < Rr * c) (Hz : z <> 0).
Definition orbH := Rr ^ 2 * c ^ 2 - r ^ 2.
Definition orbit_ellipse : ellipse := {|
  e_a := orbH / (D ^ 2 * r ^ 2); e_b := (Rr ^ 2 - r ^ 2) * orbH / (z ^ 2 * D ^ 2 * r ^ 2); e_c := - Rr * s * orbH / (z * D ^ 2 * r ^ 2);
  e_u := u0 + Rr ^ 2 * D * s * c / orbH; e_v := v0 + Rr * z * D * c / orbH |}.
Lemma orbH_pos : 0 < orbH.
Proof. unfold orbH. nra. Qed.
Lemma orbR_pos : 0 < Rr.
Proof. destruct (Rle_dec Rr 0); [nra|lra]. Qed.
Lemma orbG_pos : 0 < Rr ^ 2 - r ^ 2.
Proof. pose proof orbR_pos. assert (c <= 1) by nra. assert (Rr * c <= Rr) by nra. nra. Qed.
Lemma on_orbit_ellipse u v :
  (Rr ^ 2 - r ^ 2) * (v - v0) ^ 2 - 2 * Rr * z * (v - v0) * (D * c + (u - u0) * s) + z ^ 2 * (D ^ 2 + (u - u0) ^ 2) = 0 ->
  on_ellipse orbit_ellipse u v.
Proof.
  intros H. pose proof orbH_pos as HH. unfold on_ellipse, orbit_ellipse. cbn [e_a e_b e_c e_u e_v].
  set (U := u - u0) in *. set (V := v - v0) in *.
  assert (Ec : Rr ^ 2 * c ^ 2 = orbH + r ^ 2) by (unfold orbH; ring).
  assert (Es : Rr ^ 2 * s ^ 2 = Rr ^ 2 - r ^ 2 - orbH) by (unfold orbH; replace (s ^ 2) with (1 - c ^ 2) by (rewrite <- Hcs; ring); ring).
  set (h := orbH) in *. clearbody h. set (G := Rr ^ 2 - r ^ 2) in *. clearbody G.
  set (Uc := Rr ^ 2 * D * s * c / h). set (Vc := Rr * z * D * c / h).
  replace (u - (u0 + Uc)) with (U - Uc) by (unfold U; ring). replace (v - (v0 + Vc)) with (V - Vc) by (unfold V; ring).
  assert (L1 : z ^ 2 * Uc - Rr * z * s * Vc = 0) by (unfold Uc, Vc; field; lra).
  assert (L2 : G * Vc - Rr * z * s * Uc = Rr * z * D * c).
  { unfold Uc, Vc. transitivity (Rr * z * D * c * (G - Rr ^ 2 * s ^ 2) / h); [field; lra|]. rewrite Es. field. lra. }
  assert (L3 : Rr * z * D * c * Vc = z ^ 2 * D ^ 2 + z ^ 2 * D ^ 2 * r ^ 2 / h).
  { unfold Vc. transitivity (z ^ 2 * D ^ 2 * (Rr ^ 2 * c ^ 2) / h); [field; lra|]. rewrite Ec. field. lra. }
  clearbody Uc Vc.
  assert (Q : z ^ 2 * (U - Uc) ^ 2 - 2 * Rr * z * s * (U - Uc) * (V - Vc) + G * (V - Vc) ^ 2 = z ^ 2 * D ^ 2 * r ^ 2 / h).
  { transitivity (G * V ^ 2 - 2 * Rr * z * V * (D * c + U * s) + z ^ 2 * (D ^ 2 + U ^ 2) - z ^ 2 * D ^ 2
      + 2 * V * (Rr * z * D * c - (G * Vc - Rr * z * s * Uc)) - 2 * U * (z ^ 2 * Uc - Rr * z * s * Vc) + Vc * (G * Vc - Rr * z * s * Uc) + Uc * (z ^ 2 * Uc - Rr * z * s * Vc)); [ring|].
    rewrite H, L1, L2. replace (Vc * (Rr * z * D * c)) with (Rr * z * D * c * Vc) by ring. rewrite L3. ring. }
  transitivity (h / (z ^ 2 * D ^ 2 * r ^ 2) * (z ^ 2 * (U - Uc) ^ 2 - 2 * Rr * z * s * (U - Uc) * (V - Vc) + G * (V - Vc) ^ 2)); [field; repeat split; lra|].
  rewrite Q. field. repeat split; lra.
Qed.
Lemma orbit_proper : proper orbit_ellipse.
Proof.
  pose proof orbH_pos as HH. pose proof orbG_pos as HG. unfold proper, orbit_ellipse. cbn [e_a e_b e_c].
  assert (Hz2 : 0 < z ^ 2) by (destruct (Rdichotomy _ _ Hz); nra). assert (HD2 : 0 < D ^ 2) by nra. assert (Hr2 : 0 < r ^ 2) by nra.
  split; [apply Rdiv_lt_0_compat; nra|]. split; [apply Rdiv_lt_0_compat; [nra|apply Rmult_lt_0_compat; nra]|].
  assert (E : orbH / (D ^ 2 * r ^ 2) * ((Rr ^ 2 - r ^ 2) * orbH / (z ^ 2 * D ^ 2 * r ^ 2)) - (- Rr * s * orbH / (z * D ^ 2 * r ^ 2)) ^ 2 = orbH ^ 3 / (z ^ 2 * D ^ 4 * r ^ 4)).
  { transitivity (orbH ^ 2 * (Rr ^ 2 - r ^ 2 - Rr ^ 2 * s ^ 2) / (z ^ 2 * D ^ 4 * r ^ 4)); [field; repeat split; lra|].
    replace (Rr ^ 2 - r ^ 2 - Rr ^ 2 * s ^ 2) with orbH by (unfold orbH; replace (s ^ 2) with (1 - c ^ 2) by (rewrite <- Hcs; ring); ring). f_equal. ring. }
  assert (0 < orbH ^ 3 / (z ^ 2 * D ^ 4 * r ^ 4)) by (apply Rdiv_lt_0_compat; [apply pow_lt; exact HH|apply Rmult_lt_0_compat; [apply Rmult_lt_0_compat; [exact Hz2|apply pow_lt; exact HD]|apply pow_lt; exact Hr]]). lra.
Qed.
(** the square roots the calibration takes, for this ellipse; y = |z| *)
Let y := Rabs z.
Let h := sqrt orbH.
Lemma y_pos : 0 < y. Proof. apply Rabs_pos_lt, Hz. Qed.
Lemma y_sq : y ^ 2 = z ^ 2. Proof. unfold y. rewrite <- !Rsqr_pow2. symmetry. apply Rsqr_abs. Qed.
Lemma h_pos : 0 < h. Proof. apply sqrt_lt_R0, orbH_pos. Qed.
Lemma h_sq : h ^ 2 = orbH. Proof. unfold h. rewrite <- Rsqr_pow2, Rsqr_sqrt; [reflexivity|]. pose proof orbH_pos. lra. Qed.
Lemma sqrt_is a b : 0 <= b -> a = b ^ 2 -> sqrt a = b.
Proof. intros Hb ->. apply sqrt_pow2, Hb. Qed.
Lemma orb_es : Rr ^ 2 - r ^ 2 - Rr ^ 2 * s ^ 2 = h ^ 2.
Proof. rewrite h_sq. unfold orbH; replace (s ^ 2) with (1 - c ^ 2) by (rewrite <- Hcs; ring); ring. Qed.
Lemma orb_root_a : sqrt (e_a orbit_ellipse) = h / (D * r).
Proof.
  pose proof h_pos. apply sqrt_is; [left; apply Rdiv_lt_0_compat; nra|]. unfold orbit_ellipse. cbn [e_a]. rewrite <- h_sq. field. split; lra.
Qed.
Lemma orb_root_aD : sqrt (e_a orbit_ellipse + e_a orbit_ellipse ^ 2 * D ^ 2) = h * Rr * c / (D * r ^ 2).
Proof.
  pose proof h_pos. pose proof orbR_pos. apply sqrt_is; [left; apply Rdiv_lt_0_compat; [apply Rmult_lt_0_compat; [apply Rmult_lt_0_compat; assumption|assumption]|apply Rmult_lt_0_compat; [assumption|apply pow_lt; assumption]]|]. unfold orbit_ellipse. cbn [e_a].
  transitivity (orbH / (D ^ 2 * r ^ 2) * (1 + orbH / r ^ 2)); [field; split; lra|]. replace (1 + orbH / r ^ 2) with (Rr ^ 2 * c ^ 2 / r ^ 2) by (unfold orbH; field; lra). rewrite <- h_sq. field. split; lra.
Qed.
Lemma orb_root_det : sqrt (e_a orbit_ellipse * e_b orbit_ellipse - e_c orbit_ellipse ^ 2) = h ^ 3 / (y * D ^ 2 * r ^ 2).
Proof.
  pose proof h_pos. pose proof y_pos. apply sqrt_is; [left; apply Rdiv_lt_0_compat; [apply pow_lt; assumption|apply Rmult_lt_0_compat; [apply Rmult_lt_0_compat; [assumption|apply pow_lt; assumption]|apply pow_lt; assumption]]|].
  unfold orbit_ellipse. cbn [e_a e_b e_c]. transitivity (orbH ^ 2 * (Rr ^ 2 - r ^ 2 - Rr ^ 2 * s ^ 2) / (z ^ 2 * D ^ 4 * r ^ 4)); [field; repeat split; lra|].
  rewrite orb_es, <- y_sq, <- h_sq. field. repeat split; lra.
Qed.
Lemma orb_denom : get_denom orbit_ellipse D = h ^ 3 * Rr / (y * D ^ 2 * r ^ 3).
Proof.
  pose proof h_pos. pose proof y_pos. pose proof orbR_pos. unfold get_denom.
  apply sqrt_is; [left; apply Rdiv_lt_0_compat; [apply Rmult_lt_0_compat; [apply pow_lt; assumption|assumption]|apply Rmult_lt_0_compat; [apply Rmult_lt_0_compat; [assumption|apply pow_lt; assumption]|apply pow_lt; assumption]]|].
  unfold orbit_ellipse. cbn [e_a e_b e_c].
  transitivity (orbH ^ 2 * (Rr ^ 2 - r ^ 2 - Rr ^ 2 * s ^ 2) / (z ^ 2 * D ^ 4 * r ^ 4) + orbH ^ 3 * (Rr ^ 2 - r ^ 2) / (z ^ 2 * D ^ 4 * r ^ 6)); [field; repeat split; lra|].
  rewrite orb_es, <- y_sq, <- h_sq. field. repeat split; lra.
Qed.
Lemma orb_ecc : sqrt (e_b orbit_ellipse - e_c orbit_ellipse ^ 2 / e_a orbit_ellipse) = h ^ 2 / (y * D * r).
Proof.
  pose proof h_pos. pose proof y_pos. pose proof orbH_pos as HH. apply sqrt_is; [left; apply Rdiv_lt_0_compat; [apply pow_lt; assumption|repeat apply Rmult_lt_0_compat; assumption]|].
  unfold orbit_ellipse. cbn [e_a e_b e_c]. transitivity (orbH * (Rr ^ 2 - r ^ 2 - Rr ^ 2 * s ^ 2) / (z ^ 2 * D ^ 2 * r ^ 2)); [field; repeat split; lra|].
  rewrite orb_es, <- y_sq, <- h_sq. field. repeat split; lra.
Qed.
Lemma orb_v0 sg : sg * y = z -> get_v0 orbit_ellipse D sg = v0.
Proof.
  intros Hs. pose proof h_pos. pose proof y_pos. unfold get_v0. rewrite orb_root_aD, orb_root_det. unfold orbit_ellipse. cbn [e_v]. rewrite <- h_sq. rewrite <- Hs. field. repeat split; lra.
Qed.
Lemma orb_rho : get_rho orbit_ellipse D = r / Rr.
Proof. pose proof h_pos. pose proof y_pos. pose proof orbR_pos. unfold get_rho. rewrite orb_root_det, orb_denom. field. repeat split; lra. Qed.
Lemma orb_zeta sg : sg * y = z -> get_zeta orbit_ellipse D sg = z / Rr.
Proof.
  intros Hs. pose proof h_pos. pose proof y_pos. pose proof orbR_pos. unfold get_zeta. rewrite orb_denom, orb_root_a. unfold orbit_ellipse. cbn [e_a]. rewrite <- h_sq. rewrite <- Hs. field. repeat split; lra.
Qed.
Lemma orb_tilt : tilt_ratio orbit_ellipse = - Rr * s / (2 * z).
Proof. pose proof orbH_pos. unfold tilt_ratio, orbit_ellipse. cbn [e_a e_c]. field. repeat split; lra. Qed.
End Orbit.

(** ** the source to detector distance, from the ellipses of two orbits of the same radius *)
Definition side (e z1 z2 : R) : Prop := z1 < 0 /\ (e = 1 /\ 0 < z2 \/ e = -1 /\ z2 < 0).
Lemma side_sign e z1 z2 : side e z1 z2 -> -1 * Rabs z1 = z1 /\ -1 * - e * Rabs z2 = z2 /\ e * e = 1.
Proof. intros (H1 & [[-> H2]|[-> H2]]); rewrite (Rabs_left z1) by lra; [rewrite (Rabs_right z2) by lra|rewrite (Rabs_left z2) by lra]; lra. Qed.
Lemma distance_exact c s D Rr r z1 z2 u0 v0 e : s * s + c * c = 1 -> 0 < c -> 0 < D -> 0 < r -> r < Rr * c -> side e z1 z2 -> Rabs z1 <> Rabs z2 ->
  fit_distance_det2src (orbit_ellipse c s D Rr r z1 u0 v0) (orbit_ellipse c s D Rr r z2 u0 v0) e = Fin D.
Proof.
  intros Hcs Hc HD Hr HR Hs Hne. assert (Hz1 : z1 <> 0) by (destruct Hs; lra). assert (Hz2 : z2 <> 0) by (destruct Hs as (_ & [[_ ?]|[_ ?]]); lra).
  unfold fit_distance_det2src. rewrite (orb_ecc c s D Rr r z1), (orb_ecc c s D Rr r z2) by assumption.
  pose proof (orbH_pos c Rr r Hr HR) as HH. pose proof (h_pos c Rr r Hr HR) as Hh. pose proof (h_sq c Rr r Hr HR) as Hq.
  pose proof (y_pos z1 Hz1) as Y1. pose proof (y_pos z2 Hz2) as Y2. destruct (side_sign e z1 z2 Hs) as (S1 & S2 & He). pose proof (orbR_pos c Rr r Hc Hr HR) as HRp.
  unfold orbit_ellipse. cbn [e_a e_v].
  set (y1 := Rabs z1) in *. set (y2 := Rabs z2) in *. set (h := sqrt (orbH c Rr r)) in *. set (a := orbH c Rr r / (D ^ 2 * r ^ 2)).
  set (m := y1 / y2). set (k := Rr * c / r).
  assert (Hm : 0 < m) by (apply Rdiv_lt_0_compat; assumption). assert (Hk : 1 < k). { unfold k. apply Rmult_lt_reg_r with r; [exact Hr|]. unfold Rdiv. rewrite Rmult_assoc, Rinv_l, Rmult_1_r by lra. lra. }
  assert (Ha : 0 < a) by (apply Rdiv_lt_0_compat; [exact HH|apply Rmult_lt_0_compat; apply pow_lt; assumption]).
  assert (HaD : a * D ^ 2 = k ^ 2 - 1) by (unfold a, k, orbH; field; split; lra).
  assert (M1 : h ^ 2 / (y2 * D * r) / (h ^ 2 / (y1 * D * r)) = m) by (unfold m; field; repeat split; lra).
  assert (M0 : (v0 + Rr * z2 * D * c / orbH c Rr r - (v0 + Rr * z1 * D * c / orbH c Rr r)) * (h ^ 2 / (y2 * D * r)) = k * (e + m)).
  { rewrite <- S1, <- S2. unfold k, m. rewrite Hq. field. repeat split; lra. }
  assert (Hm1 : m <> 1). { intros E. apply Hne. unfold m in E. apply Rmult_eq_reg_r with (/ y2); [|apply Rinv_neq_0_compat; lra]. unfold Rdiv in E. rewrite E. field. lra. }
  rewrite M0, M1. clearbody a m k h. clear M0 M1.
  assert (Hem : e + m <> 0) by (intros E; apply Hm1; nra). assert (Hem' : e - m <> 0) by (intros E; apply Hm1; nra).
  assert (N0 : (1 - (k * (e + m)) ^ 2 - m ^ 2) / (2 * (k * (e + m)) * m) = ((e - m) - k ^ 2 * (e + m)) / (2 * k * m)).
  { apply Rmult_eq_reg_r with (2 * (k * (e + m)) * m); [|repeat apply Rmult_integral_contrapositive_currified; lra].
    transitivity (1 - (k * (e + m)) ^ 2 - m ^ 2); [field; repeat split; lra|]. transitivity (e * e - m ^ 2 - (k * (e + m)) ^ 2); [rewrite He; ring|field; split; lra]. }
  assert (N1 : (a - a * m ^ 2) / (2 * (k * (e + m)) * m) = a * (e - m) / (2 * k * m)).
  { apply Rmult_eq_reg_r with (2 * (k * (e + m)) * m); [|repeat apply Rmult_integral_contrapositive_currified; lra].
    transitivity (a - a * m ^ 2); [field; repeat split; lra|]. transitivity (a * (e * e) - a * m ^ 2); [rewrite He; ring|field; split; lra]. }
  rewrite N0, N1.
  assert (RAD : a ^ 2 + 4 * (a * (e - m) / (2 * k * m)) ^ 2 - 4 * ((e - m - k ^ 2 * (e + m)) / (2 * k * m) * (a * (e - m) / (2 * k * m))) * a = (a / m) ^ 2).
  { transitivity (a ^ 2 + a ^ 2 * (e * e - m ^ 2) / m ^ 2); [field; split; lra|]. rewrite He. field. lra. }
  rewrite RAD. assert (SQ : sqrt ((a / m) ^ 2) = a / m) by (apply sqrt_pow2; left; apply Rdiv_lt_0_compat; assumption). rewrite SQ.
  assert (EM : (e - m) * (e - m) <> 0) by (apply Rmult_integral_contrapositive_currified; exact Hem').
  assert (X : (a - 2 * ((e - m - k ^ 2 * (e + m)) / (2 * k * m) * (a * (e - m) / (2 * k * m))) - e * (a / m)) / (2 * (a * (e - m) / (2 * k * m)) ^ 2) = D ^ 2).
  { apply Rmult_eq_reg_l with a; [|lra]. rewrite HaD. field. repeat split; lra. }
  rewrite X. destruct (Req_EM_T (2 * (k * (e + m)) * m) 0) as [Q|_]; [exfalso; revert Q; repeat apply Rmult_integral_contrapositive_currified; lra|].
  destruct (Rlt_dec ((a / m) ^ 2) 0) as [Q|_]; [pose proof (pow2_ge_0 (a / m)); lra|].
  destruct (Req_EM_T (a * (e - m) / (2 * k * m)) 0) as [Q|_].
  { exfalso. revert Q. unfold Rdiv. repeat apply Rmult_integral_contrapositive_currified; try lra. apply Rinv_neq_0_compat. repeat apply Rmult_integral_contrapositive_currified; lra. }
  destruct (Rlt_dec (D ^ 2) 0) as [Q|_]; [pose proof (pow2_ge_0 D); lra|]. f_equal. apply sqrt_pow2. lra.
Qed.
(** circles at the same distance of the source, on both sides: the distance cannot be computed, and an error says so *)
Lemma distance_symmetric c s D Rr r z u0 v0 : s * s + c * c = 1 -> 0 < c -> 0 < D -> 0 < r -> r < Rr * c -> z < 0 ->
  fit_distance_det2src (orbit_ellipse c s D Rr r z u0 v0) (orbit_ellipse c s D Rr r (- z) u0 v0) 1 = NaN.
Proof.
  intros Hcs Hc HD Hr HR Hz. assert (Hz1 : z <> 0) by lra. assert (Hz2 : - z <> 0) by lra.
  unfold fit_distance_det2src. rewrite (orb_ecc c s D Rr r z), (orb_ecc c s D Rr r (- z)) by assumption.
  pose proof (h_pos c Rr r Hr HR) as Hh. pose proof (y_pos z Hz1) as Y1. rewrite Rabs_Ropp. pose proof (orbH_pos c Rr r Hr HR) as HH.
  set (E1 := e_a _). replace (e_a (orbit_ellipse c s D Rr r (- z) u0 v0)) with E1 by reflexivity.
  set (q := sqrt (orbH c Rr r) ^ 2 / (Rabs z * D * r)). assert (Hq : 0 < q) by (apply Rdiv_lt_0_compat; [apply pow_lt; exact Hh|repeat apply Rmult_lt_0_compat; assumption]).
  replace (q / q) with 1 by (field; lra). set (m0 := _ * q). assert (N1 : (E1 - E1 * 1 ^ 2) / (2 * m0 * 1) = 0) by (unfold Rdiv; ring). rewrite N1. set (n0 := (1 - m0 ^ 2 - 1 ^ 2) / (2 * m0 * 1)). replace (n0 * 0) with 0 by ring.
  destruct (Req_EM_T (2 * m0 * 1) 0); [reflexivity|].
  destruct (Rlt_dec _ 0); [reflexivity|]. destruct (Req_EM_T 0 0) as [_|Q]; [|lra].
  replace (E1 ^ 2 + 4 * 0 ^ 2 - 4 * 0 * E1) with (E1 ^ 2) by ring. assert (HE : 0 < E1). { unfold E1, orbit_ellipse. cbn [e_a]. apply Rdiv_lt_0_compat; [exact HH|apply Rmult_lt_0_compat; apply pow_lt; assumption]. }
  rewrite (sqrt_pow2 E1) by lra. destruct (Rlt_dec 0 (E1 - 2 * 0 - 1 * E1)); [lra|reflexivity].
Qed.

(** ** from shadows to ellipses *)
Definition unrot_u (g : cone_geom) (u v : R) : R := cos (eta_of g) * u - sin (eta_of g) * v.
Definition unrot_v (g : cone_geom) (u v : R) : R := sin (eta_of g) * u + cos (eta_of g) * v.
Lemma shadow_eqs g tr P u v : is_int (cg_R g) = false \/ tr = false -> nval (cg_theta g) = 0 -> shadow (get_prj_geom g tr) P u v ->
  exists t, t * (vx P - nval (cg_R g)) = - nval (cg_D g) * cos (cg_ph g) - (unrot_u g u v - nval (cg_u0 g)) * sin (cg_ph g) /\
    t * vy P = nval (cg_D g) * sin (cg_ph g) - (unrot_u g u v - nval (cg_u0 g)) * cos (cg_ph g) /\
    t * (vz P - vz (src_of (get_prj_geom g tr))) = unrot_v g u v - nval (cg_v0 g).
Proof.
  intros Hi Ht [t E]. pose proof (src_det g tr Hi) as SD. destruct (C81_source g tr) as (Sx & Sy & _). rewrite eu_eq, ev_eq in E.
  assert (S0 : sin (cg_th g) = 0) by (unfold cg_th; rewrite Ht; apply sin0). assert (C0 : cos (cg_th g) = 1) by (unfold cg_th; rewrite Ht; apply cos0).
  exists t. set (S := src_of _) in *. set (T := det_of _) in *.
  assert (Ex := f_equal vx E). assert (Ey := f_equal vy E). assert (Ez := f_equal vz E). assert (Dx := f_equal vx SD). assert (Dy := f_equal vy SD). assert (Dz := f_equal vz SD).
  unfold vsub, det_center, vadd, vscal, e_n_xyz, alpha_xyz, beta_xyz in Ex, Ey, Ez, Dx, Dy, Dz. cbn [vx vy vz] in Ex, Ey, Ez, Dx, Dy, Dz. rewrite S0, C0 in *.
  clearbody S T. rewrite Sx, Sy in *. unfold unrot_u, unrot_v. repeat split.
  - replace (vx P - nval (cg_R g)) with (vx P + -1 * nval (cg_R g)) by ring. lra.
  - replace (t * vy P) with (t * (vy P + -1 * 0)) by ring. lra.
  - replace (vz P - vz S) with (vz P + -1 * vz S) by ring. lra.
Qed.
Lemma shadow_conic g tr P u v r z : is_int (cg_R g) = false \/ tr = false -> nval (cg_theta g) = 0 -> on_orbit (get_prj_geom g tr) r z P -> shadow (get_prj_geom g tr) P u v ->
  let U := unrot_u g u v - nval (cg_u0 g) in let V := unrot_v g u v - nval (cg_v0 g) in
  (nval (cg_R g) ^ 2 - r ^ 2) * V ^ 2 - 2 * nval (cg_R g) * z * V * (nval (cg_D g) * cos (cg_ph g) + U * sin (cg_ph g)) + z ^ 2 * (nval (cg_D g) ^ 2 + U ^ 2) = 0.
Proof.
  intros Hi Ht [Ho Hz] Hs U V. destruct (shadow_eqs g tr P u v Hi Ht Hs) as (t & Ex & Ey & Ez). fold U in Ex, Ey. fold V in Ez. rewrite Hz in Ez.
  pose proof (sc (cg_ph g)) as E. set (s := sin (cg_ph g)) in *. set (c := cos (cg_ph g)) in *. set (Rr := nval (cg_R g)) in *. set (D := nval (cg_D g)) in *. set (zs := vz (src_of _)) in *.
  clearbody U V s c Rr D zs. replace (zs + z - zs) with z in Ez by ring.
  assert (Q : D ^ 2 + U ^ 2 = (t * (vx P - Rr)) ^ 2 + (t * vy P) ^ 2).
  { rewrite Ex, Ey. transitivity ((D ^ 2 + U ^ 2) * (s * s + c * c)); [rewrite E; ring|ring]. }
  rewrite Q. replace (D * c + U * s) with (- (t * (vx P - Rr))) by lra. rewrite <- Ez.
  transitivity ((t * z) ^ 2 * (vx P ^ 2 + vy P ^ 2 - r ^ 2)); [ring|]. rewrite Ho. ring.
Qed.
(** two ellipses through the same determining points are equal *)
Lemma ellipse_unique n pu pv e1 e2 : proper e1 -> proper e2 -> determining n pu pv -> (forall i, (i < n)%nat -> on_ellipse e1 (pu i) (pv i)) -> (forall i, (i < n)%nat -> on_ellipse e2 (pu i) (pv i)) -> e1 = e2.
Proof.
  intros (A1 & B1 & D1) (A2 & B2 & D2) Det O1 O2. assert (E : conic e1 0 0 = conic e2 0 0).
  { apply (determining_eq n pu pv); [exact Det|reflexivity|reflexivity|]. intros i Hi.
    pose proof (conic_row e1 0 0 (pu i) (pv i) ltac:(lra) (O1 i Hi)) as C1. pose proof (conic_row e2 0 0 (pu i) (pv i) ltac:(lra) (O2 i Hi)) as C2. rewrite !Rminus_0_r in C1, C2. congruence. }
  unfold conic in E. rewrite !Rminus_0_r in E. injection E as E0 E1 E2 E3 E4.
  destruct e1 as [a1 b1 c1 u1 v1], e2 as [a2 b2 c2 u2 v2]. cbn [e_a e_b e_c e_u e_v] in *. rewrite E3 in E1, E2, E4. rewrite E0 in E1, E4.
  assert (W : 0 < a2 / b2 - (c2 / b2) ^ 2). { replace (a2 / b2 - (c2 / b2) ^ 2) with ((a2 * b2 - c2 ^ 2) / b2 ^ 2) by (field; lra). apply Rdiv_lt_0_compat; nra. }
  set (p := a2 / b2) in W, E1, E4. set (q := c2 / b2) in W, E1, E2, E4. clearbody p q.
  assert (Eu : u1 = u2). { apply Rmult_eq_reg_l with (p - q ^ 2); [|lra]. transitivity (p * u1 + q * v1 - q * (v1 + q * u1)); [ring|]. rewrite E1, E2. ring. }
  assert (Ev : v1 = v2) by (rewrite Eu in E2; lra). rewrite Eu, Ev in E4.
  assert (Eb : b1 = b2) by (rewrite <- (Rinv_inv b1), <- (Rinv_inv b2); f_equal; lra).
  subst u2 v2 b2. f_equal.
  - apply Rmult_eq_reg_r with (/ b1); [|apply Rinv_neq_0_compat; lra]. unfold Rdiv in E0. lra.
  - apply Rmult_eq_reg_r with (/ b1); [|apply Rinv_neq_0_compat; lra]. unfold Rdiv in E3. lra.
Qed.

(** ** what the fitter is given: an ellipse through (at least five, in general position) shadows of an orbit, rotated by -eta *)
Definition orbit_points (g : cone_geom) (tr : bool) (r z : R) (n : nat) (pu pv : vec) : Prop :=
  forall i, (i < n)%nat -> exists P, on_orbit (get_prj_geom g tr) r z P /\ shadow (get_prj_geom g tr) P (pu i) (pv i).
Definition measured_ellipse (g : cone_geom) (tr : bool) (r z : R) (E : ellipse) : Prop :=
  proper E /\ exists n pu pv, orbit_points g tr r z n pu pv /\ determining n (fun i => unrot_u g (pu i) (pv i)) (fun i => unrot_v g (pu i) (pv i)) /\
    forall i, (i < n)%nat -> on_ellipse E (unrot_u g (pu i) (pv i)) (unrot_v g (pu i) (pv i)).
(** a geometry without azimuthal tilt, looking at the orbit from outside *)
Definition outside (g : cone_geom) (r : R) : Prop :=
  nval (cg_theta g) = 0 /\ -90 < nval (cg_phi g) < 90 /\ 0 < nval (cg_D g) /\ 0 < r /\ r < nval (cg_R g) * cos (cg_ph g).
Lemma outside_cos g r : outside g r -> 0 < cos (cg_ph g).
Proof. intros (_ & H & _). unfold cg_ph, deg2rad. pose proof PI_RGT_0. apply cos_gt_0; unfold Rdiv; nra. Qed.
Lemma measured_is g tr r z E : is_int (cg_R g) = false \/ tr = false -> outside g r -> z <> 0 -> measured_ellipse g tr r z E ->
  E = orbit_ellipse (cos (cg_ph g)) (sin (cg_ph g)) (nval (cg_D g)) (nval (cg_R g)) r z (nval (cg_u0 g)) (nval (cg_v0 g)).
Proof.
  intros Hi Ho Hz (Hp & n & pu & pv & Op & Det & On). pose proof (outside_cos g r Ho) as Hc. destruct Ho as (Ht & Hph & HD & Hr & HR).
  pose proof (sc (cg_ph g)) as Hcs. apply (ellipse_unique n (fun i => unrot_u g (pu i) (pv i)) (fun i => unrot_v g (pu i) (pv i))); [exact Hp| |exact Det|exact On|].
  - now apply orbit_proper.
  - intros i Hn. destruct (Op i Hn) as (P & Po & Ps). apply on_orbit_ellipse; try assumption. now apply (shadow_conic g tr P (pu i) (pv i) r z).
Qed.

(** * C136: the calibration returns the geometry the ellipses were acquired with *)
Lemma close0_pos x : 1 / 100000000 < x -> close0 x = false.
Proof. intros H. unfold close0. destruct (Rle_dec (Rabs x) (1 / 100000000)) as [L|L]; [|reflexivity]. rewrite Rabs_right in L by lra. lra. Qed.
Lemma phi_back g : -90 < nval (cg_phi g) < 90 -> rad2deg (asin (sin (cg_ph g))) = nval (cg_phi g).
Proof.
  intros H. pose proof PI_RGT_0. unfold cg_ph, deg2rad, rad2deg. rewrite asin_sin by (split; unfold Rdiv; nra). field. lra.
Qed.
Theorem C136_fit_recovers : forall g tr r z1 z2 e st (meas : option R),
  is_int (cg_R g) = false \/ tr = false -> outside g r -> side e z1 z2 ->
  measured_ellipse g tr r z1 (fs_ell1 st) -> measured_ellipse g tr r z2 (fs_ell2 st) -> z1 <> z2 ->
  (meas = Some (nval (cg_D g)) \/ meas = None /\ Rabs z1 <> Rabs z2 /\ 1 / 100000000 < nval (cg_D g)) -> 1 / 100000000 < nval (cg_R g) ->
  exists st' g', cb_fit st r e meas = (st', inr g') /\
    nval (cg_D g') = nval (cg_D g) /\ nval (cg_R g') = nval (cg_R g) /\ nval (cg_u0 g') = nval (cg_u0 g) /\ nval (cg_v0 g') = nval (cg_v0 g) /\
    nval (cg_phi g') = nval (cg_phi g) /\ nval (cg_theta g') = nval (cg_theta g) /\ cg_eta g' = cg_eta (fs_geom st) /\
    cg_nv g' = cg_nv (fs_geom st) /\ cg_nu g' = cg_nu (fs_geom st) /\ cg_pix g' = cg_pix (fs_geom st).
Proof.
  intros g tr r z1 z2 e st meas Hi Ho Hs M1 M2 Hne Hm HRc.
  assert (Hz1 : z1 <> 0) by (destruct Hs; lra). assert (Hz2 : z2 <> 0) by (destruct Hs as (_ & [[_ ?]|[_ ?]]); lra).
  pose proof (measured_is g tr r z1 _ Hi Ho Hz1 M1) as E1. pose proof (measured_is g tr r z2 _ Hi Ho Hz2 M2) as E2. clear M1 M2.
  pose proof (outside_cos g r Ho) as Hc. pose proof (sc (cg_ph g)) as Hcs. pose proof (phi_back g (proj1 (proj2 Ho))) as Hphi. destruct Ho as (Ht & Hph & HD & Hr & HR).
  destruct (side_sign e z1 z2 Hs) as (S1 & S2 & He).
  unfold cb_fit. rewrite E1, E2.
  set (c := cos (cg_ph g)) in *. set (s := sin (cg_ph g)) in *. set (D := nval (cg_D g)) in *. set (Rr := nval (cg_R g)) in *. set (u0 := nval (cg_u0 g)) in *. set (v0 := nval (cg_v0 g)) in *.
  pose proof (orbH_pos c Rr r Hr HR) as HH.
  assert (PD : pick_D (fit_distance_det2src (orbit_ellipse c s D Rr r z1 u0 v0) (orbit_ellipse c s D Rr r z2 u0 v0) e) meas = inr D).
  { destruct Hm as [->|(-> & Hy & HDc)]; [reflexivity|]. unfold pick_D. rewrite distance_exact by assumption. now rewrite close0_pos. }
  rewrite PD. cbn zeta. rewrite (orb_v0 c s D Rr r z1), (orb_v0 c s D Rr r z2) by assumption.
  destruct (Rlt_dec _ _) as [L|_]; [exfalso; revert L; replace (v0 - v0) with 0 by ring; rewrite Rabs_R0; pose proof (Rabs_pos (e_v (orbit_ellipse c s D Rr r z1 u0 v0) - e_v (orbit_ellipse c s D Rr r z2 u0 v0))); lra|].
  rewrite !(orb_rho c s D Rr r) by assumption. rewrite (orb_zeta c s D Rr r z1), (orb_zeta c s D Rr r z2) by assumption.
  rewrite (orb_tilt c s D Rr r z1), (orb_tilt c s D Rr r z2) by assumption.
  assert (HRp : 0 < Rr) by lra.
  assert (EZ : forall z, r / (r / Rr) * (z / Rr) = z) by (intros z; field; lra). rewrite !EZ.
  assert (ER : (- z2 * (r / (r / Rr)) + z1 * (r / (r / Rr))) / (z1 - z2) = Rr) by (field; split; lra). rewrite ER.
  rewrite (close0_pos Rr HRc).
  assert (EP : - (- Rr * s / (2 * z1)) * (z1 / Rr) + - (- Rr * s / (2 * z2)) * (z2 / Rr) = s) by (field; repeat split; lra). rewrite EP.
  eexists. eexists. split; [reflexivity|]. cbn [cg_D cg_R cg_u0 cg_v0 cg_phi cg_theta cg_eta cg_nv cg_nu cg_pix nval].
  replace ((v0 + v0) / 2) with v0 by field. repeat split; try reflexivity; [| |now rewrite Ht].
  - unfold orbit_ellipse. cbn [e_u e_v]. field. repeat split; lra.
  - exact Hphi.
Qed.
(** a measured geometry, tilted by phi = 0 and eta = 0; all hypotheses hold *)
Definition g_demo : cone_geom := mkCG (NFlt 0) (NFlt 0) (NFlt 0) (NFlt 10) (NFlt 10) (NFlt 3) (NFlt 1) (NInt 8) (NInt 8) (NFlt 0).
Definition demo_u : vec := fun i => nth i [1; 1; -4; 6; -33 / 7] 0.
Definition demo_v (z : R) : vec := fun i => nth i [3 + 2 * z; 3 + 2 * z / 3; 3 + z; 3 + z; 3 + 10 * z / 7] 0.
Definition demo_pt (i : nat) : R * R := nth i [(5, 0); (-5, 0); (0, 5); (0, -5); (3, 4)] (0, 0).
Definition demo_t (i : nat) : R := nth i [2; 2 / 3; 1; 1; 10 / 7] 0.
Lemma demo_frame : cos (cg_ph g_demo) = 1 /\ sin (cg_ph g_demo) = 0 /\ cos (cg_th g_demo) = 1 /\ sin (cg_th g_demo) = 0 /\ cos (eta_of g_demo) = 1 /\ sin (eta_of g_demo) = 0.
Proof. unfold cg_ph, cg_th, eta_of, g_demo. cbn [cg_phi cg_theta cg_eta nval]. now rewrite sin0, cos0. Qed.
Lemma demo_un u v : unrot_u g_demo u v = u /\ unrot_v g_demo u v = v.
Proof. unfold unrot_u, unrot_v. destruct demo_frame as (_ & _ & _ & _ & -> & ->). split; ring. Qed.
Lemma demo_outside : outside g_demo 5.
Proof. unfold outside. destruct demo_frame as (-> & _). cbn. lra. Qed.
Lemma demo_points z : orbit_points g_demo false 5 z 5 demo_u (demo_v z).
Proof.
  intros i Hi. set (p := get_prj_geom g_demo false). exists (V3 (fst (demo_pt i)) (snd (demo_pt i)) (vz (src_of p) + z)). split.
  - split; [|reflexivity]. cbn [vx vy]. do 5 (destruct i as [|i]; [cbn [demo_pt nth fst snd]; ring|]). lia.
  - exists (demo_t i). unfold p. rewrite eu_eq, ev_eq. unfold src_of, det_of, get_prj_geom. cbn [g_src g_det the nth]. unfold src_pos0, det_pos0, vsub, alpha_xyz, beta_xyz, e_n_xyz.
    destruct demo_frame as (-> & -> & -> & -> & -> & ->). cbn [cg_D cg_R cg_u0 cg_v0 g_demo nval].
    do 5 (destruct i as [|i]; [apply vec3_eq; unfold vadd, vscal, demo_pt, demo_t, demo_u, demo_v; cbn [nth fst snd vx vy vz]; field|]). lia.
Qed.
Lemma demo_det z : z <> 0 -> determining 5 (fun i => unrot_u g_demo (demo_u i) (demo_v z i)) (fun i => unrot_v g_demo (demo_u i) (demo_v z i)).
Proof.
  intros Hz d Ld H. assert (E : forall i, (i < 5)%nat -> ep_row (demo_u i) (demo_v z i) d = 0). { intros i Hi. specialize (H i Hi). cbv beta in H. destruct (demo_un (demo_u i) (demo_v z i)) as [U V]. now rewrite U, V in H. }
  pose proof (E 0%nat ltac:(lia)) as H0. pose proof (E 1%nat ltac:(lia)) as H1. pose proof (E 2%nat ltac:(lia)) as H2. pose proof (E 3%nat ltac:(lia)) as H3. pose proof (E 4%nat ltac:(lia)) as H4.
  unfold ep_row, demo_u, demo_v in H0, H1, H2, H3, H4. cbn [nth] in H0, H1, H2, H3, H4.
  set (d0 := nth 0 d 0) in *. set (d1 := nth 1 d 0) in *. set (d2 := nth 2 d 0) in *. set (d3 := nth 3 d 0) in *. set (d4 := nth 4 d 0) in *.
  assert (K : d3 - d2 = 0). { apply Rmult_eq_reg_r with z; [|exact Hz]. lra. }
  assert (d2 = d3) by lra. assert (D0 : d0 = 0 /\ d1 = 0 /\ d3 * z = 0 /\ d4 = 0).
  { replace d2 with d3 in *. repeat split; nra. }
  destruct D0 as (Q0 & Q1 & Q3 & Q4). apply Rmult_integral in Q3 as [Q3|]; [|contradiction].
  apply list5_eq; [exact Ld|reflexivity|]. intros k Hk. do 5 (destruct k as [|k]; [cbn [nth repeat]; fold d0 d1 d2 d3 d4; lra|]). lia.
Qed.
Lemma demo_measured z : z <> 0 -> measured_ellipse g_demo false 5 z (orbit_ellipse 1 0 10 10 5 z 1 3).
Proof.
  intros Hz. split; [apply orbit_proper; lra|]. exists 5%nat, demo_u, (demo_v z). split; [apply demo_points|]. split; [now apply demo_det|].
  intros i Hi. destruct (demo_un (demo_u i) (demo_v z i)) as [-> ->]. apply on_orbit_ellipse; try lra. do 5 (destruct i as [|i]; [cbn [demo_u demo_v nth]; field|]). lia.
Qed.
Example C136_example : exists st' g', cb_fit (mkFS g_int (orbit_ellipse 1 0 10 10 5 (-1) 1 3) (orbit_ellipse 1 0 10 10 5 2 1 3) (0, 0) (0, 0) None) 5 1 None = (st', inr g') /\
  nval (cg_D g') = 10 /\ nval (cg_R g') = 10 /\ nval (cg_u0 g') = 1 /\ nval (cg_v0 g') = 3 /\ nval (cg_phi g') = 0.
Proof.
  destruct (C136_fit_recovers g_demo false 5 (-1) 2 1 (mkFS g_int (orbit_ellipse 1 0 10 10 5 (-1) 1 3) (orbit_ellipse 1 0 10 10 5 2 1 3) (0, 0) (0, 0) None) None) as (st' & g' & E & H).
  - now right.
  - exact demo_outside.
  - split; [lra|]. left. lra.
  - apply demo_measured. lra.
  - apply demo_measured. lra.
  - lra.
  - right. split; [reflexivity|]. rewrite Rabs_left, Rabs_right by lra. cbn. lra.
  - cbn. lra.
  - exists st', g'. split; [exact E|]. cbn in H. tauto.
Qed.
(** orbits symmetric about the source: without a measured distance an error is raised *)
Theorem C136_symmetric_orbits : forall g tr r z st, is_int (cg_R g) = false \/ tr = false -> outside g r -> z < 0 ->
  measured_ellipse g tr r z (fs_ell1 st) -> measured_ellipse g tr r (- z) (fs_ell2 st) -> cb_fit st r 1 None = (st, inl ValueError).
Proof.
  intros g tr r z st Hi Ho Hz M1 M2. pose proof (measured_is g tr r z _ Hi Ho ltac:(lra) M1) as E1. pose proof (measured_is g tr r (- z) _ Hi Ho ltac:(lra) M2) as E2.
  pose proof (outside_cos g r Ho) as Hc. pose proof (sc (cg_ph g)) as Hcs. destruct Ho as (Ht & Hph & HD & Hr & HR). unfold cb_fit. rewrite E1, E2, distance_symmetric by assumption. reflexivity.
Qed.
