(** Theorems C77, C78, C79 (ellipses) and C133 (camera tilt). *)
From Coq Require Import Reals Lra Lia List ZArith Bool.
Import ListNotations.
From Verif Require Import Sums Rounding PyErr Arrays ParamTuningModel ParamTuningProps ProcPreModel AlignFitModel AlignFitProps.
Open Scope R_scope.

(** ** specification: the documented equation *)
Definition on_ellipse (e : ellipse) (x y : R) : Prop :=
  e_a e * (x - e_u e) ^ 2 + e_b e * (y - e_v e) ^ 2 + 2 * e_c e * (x - e_u e) * (y - e_v e) = 1.
Definition proper (e : ellipse) : Prop := 0 < e_a e /\ 0 < e_b e /\ e_c e ^ 2 < e_a e * e_b e.

(** * C77 *)
Lemma call_disc e x : 0 < e_b e ->
  (2 * (- e_b e * e_v e + e_c e * (x - e_u e))) ^ 2 - 4 * e_b e * - (1 - e_a e * (x - e_u e) ^ 2 - e_b e * e_v e ^ 2 + 2 * e_c e * e_v e * (x - e_u e)) =
  4 * (e_b e - (e_a e * e_b e - e_c e ^ 2) * (x - e_u e) ^ 2).
Proof. intros _. ring. Qed.
(** for every ellipse and every abscissa it covers, the two returned ordinates are on the ellipse, the first is the upper one, and
    the ellipse has no other point there *)
Theorem C77_points_on_ellipse : forall e x, 0 < e_b e -> (e_a e * e_b e - e_c e ^ 2) * (x - e_u e) ^ 2 <= e_b e ->
  let '(y1, y2) := ellipse_call e x in on_ellipse e x y1 /\ on_ellipse e x y2 /\ y2 <= y1 /\ (forall y, on_ellipse e x y -> y = y1 \/ y = y2).
Proof.
  intros e x Hb Hx. unfold ellipse_call. rewrite (call_disc e x Hb). set (D := 4 * (e_b e - (e_a e * e_b e - e_c e ^ 2) * (x - e_u e) ^ 2)).
  assert (HD : 0 <= D) by (unfold D; lra). pose proof (sqrt_pos D) as Hs. pose proof (sqrt_sqrt D HD) as Hq. set (r := sqrt D) in *.
  set (X := x - e_u e) in *. set (bt := 2 * (- e_b e * e_v e + e_c e * X)).
  assert (K : forall y, on_ellipse e x y <-> (2 * e_b e * y + bt) ^ 2 = r * r).
  { intros y. unfold on_ellipse. fold X. rewrite Hq. unfold D, bt. split; intros H.
    - assert (E : e_a e * X ^ 2 + e_b e * (y - e_v e) ^ 2 + 2 * e_c e * X * (y - e_v e) - 1 = 0) by lra.
      transitivity (4 * e_b e * (e_a e * X ^ 2 + e_b e * (y - e_v e) ^ 2 + 2 * e_c e * X * (y - e_v e) - 1) + 4 * (e_b e - (e_a e * e_b e - e_c e ^ 2) * X ^ 2)); [ring|]. rewrite E. ring.
    - apply Rmult_eq_reg_l with (4 * e_b e); [|lra]. lra. }
  repeat split.
  - apply K. replace (2 * e_b e * ((- bt + r) / (2 * e_b e)) + bt) with r by (field; lra). ring.
  - apply K. replace (2 * e_b e * ((- bt - r) / (2 * e_b e)) + bt) with (- r) by (field; lra). ring.
  - apply Rmult_le_compat_r; [left; apply Rinv_0_lt_compat; lra|lra].
  - intros y Hy. apply K in Hy. assert (F : (2 * e_b e * y + bt - r) * (2 * e_b e * y + bt + r) = 0) by (transitivity ((2 * e_b e * y + bt) ^ 2 - r * r); [ring|lra]).
    apply Rmult_integral in F as [F|F]; [left|right]; apply Rmult_eq_reg_l with (2 * e_b e); try lra.
    + replace (2 * e_b e * ((- bt + r) / (2 * e_b e))) with (- bt + r) by (field; lra). lra.
    + replace (2 * e_b e * ((- bt - r) / (2 * e_b e))) with (- bt - r) by (field; lra). lra.
Qed.
(** an ellipse covers exactly the abscissae within sqrt(b / (ab - c^2)) of its centre *)
Theorem C77_covered : forall e x, proper e -> (exists y, on_ellipse e x y) <-> (e_a e * e_b e - e_c e ^ 2) * (x - e_u e) ^ 2 <= e_b e.
Proof.
  intros e x (Ha & Hb & Hc). split.
  - intros [y H]. unfold on_ellipse in H. set (X := x - e_u e) in *. set (Y := y - e_v e) in *. pose proof (pow2_ge_0 (e_b e * Y + e_c e * X)). nra.
  - intros H. pose proof (C77_points_on_ellipse e x Hb H) as K. destruct (ellipse_call e x) as [y1 y2]. exists y1. apply K.
Qed.
(** the reported extremes are right for an ellipse aligned with the detector ... *)
Theorem C77_extremes_aligned : forall e, proper e -> e_c e = 0 ->
  let '(lo, hi) := extremes_u e in (exists y, on_ellipse e lo y) /\ (exists y, on_ellipse e hi y) /\ (forall x y, on_ellipse e x y -> lo <= x <= hi).
Proof.
  intros e P Hc. pose proof P as (Ha & Hb & _). unfold extremes_u.
  assert (Hi : 0 < 1 / e_a e) by (apply Rdiv_lt_0_compat; lra). pose proof (sqrt_sqrt (1 / e_a e) (Rlt_le _ _ Hi)) as Q. pose proof (sqrt_pos (1 / e_a e)) as Sp. set (r := sqrt (1 / e_a e)) in *.
  assert (Q' : e_a e * (r * r) = 1) by (rewrite Q; field; lra).
  assert (C : forall x, (exists y, on_ellipse e x y) <-> e_a e * (x - e_u e) ^ 2 <= 1).
  { intros x. rewrite (C77_covered e x P), Hc. split; intros H; [apply Rmult_le_reg_l with (e_b e); lra|]. apply (Rmult_le_compat_l (e_b e)) in H; lra. }
  split; [apply C; replace (e_u e - r - e_u e) with (- r) by ring; lra|]. split; [apply C; replace (e_u e + r - e_u e) with r by ring; lra|].
  intros x y H. assert (E : e_a e * (x - e_u e) ^ 2 <= 1) by (apply C; now exists y).
  assert (B : (x - e_u e) ^ 2 <= r * r) by (apply Rmult_le_reg_l with (e_a e); lra). split; nra.
Qed.
(** ... and for EVERY tilted one the ellipse extends beyond both of them *)
Theorem C77_extremes_refuted : forall e, proper e -> e_c e <> 0 ->
  let '(lo, hi) := extremes_u e in (exists x y, on_ellipse e x y /\ hi < x) /\ (exists x y, on_ellipse e x y /\ x < lo).
Proof.
  intros e P Hc. pose proof P as (Ha & Hb & Hd). unfold extremes_u.
  assert (Hi : 0 < 1 / e_a e) by (apply Rdiv_lt_0_compat; lra). set (r := sqrt (1 / e_a e)).
  set (q := e_b e / (e_a e * e_b e - e_c e ^ 2)). assert (Hq : 0 < q) by (apply Rdiv_lt_0_compat; lra).
  assert (L : 1 / e_a e < q).
  { unfold q. apply Rmult_lt_reg_r with (e_a e * (e_a e * e_b e - e_c e ^ 2)); [apply Rmult_lt_0_compat; lra|]. field_simplify; [|lra|lra]. pose proof (pow2_ge_0 (e_c e)). assert (0 < e_c e ^ 2) by (destruct (Rtotal_order (e_c e) 0) as [?|[?|?]]; [nra|contradiction|nra]). lra. }
  assert (Ls : r < sqrt q) by (apply sqrt_lt_1; lra). pose proof (sqrt_sqrt q (Rlt_le _ _ Hq)) as Sq.
  assert (Cv : (e_a e * e_b e - e_c e ^ 2) * (sqrt q * sqrt q) = e_b e) by (rewrite Sq; unfold q; field; lra).
  split.
  - destruct (proj2 (C77_covered e (e_u e + sqrt q) P)) as [y Hy]; [replace (e_u e + sqrt q - e_u e) with (sqrt q) by ring; lra|]. exists (e_u e + sqrt q), y. split; [exact Hy|lra].
  - destruct (proj2 (C77_covered e (e_u e - sqrt q) P)) as [y Hy]; [replace (e_u e - sqrt q - e_u e) with (- sqrt q) by ring; lra|]. exists (e_u e - sqrt q), y. split; [exact Hy|lra].
Qed.
Definition e_demo : ellipse := {| e_a := 1; e_b := 1; e_c := 1 / 2; e_u := 0; e_v := 1 |}.
Example C77_example : proper e_demo /\ e_c e_demo <> 0 /\ on_ellipse e_demo 1 0.
Proof. unfold proper, on_ellipse, e_demo. cbn. repeat split; lra. Qed.

(** * C78 *)
(** the points are enough to determine a conic that is not degenerate in v: no two different coefficient vectors agree on them *)
Definition determining (n : nat) (pu pv : vec) : Prop := forall c, length c = 5%nat -> (forall i, (i < n)%nat -> ep_row (pu i) (pv i) c = 0) -> c = repeat 0 5.
Definition conic (e : ellipse) (u0 v0 : R) : list R :=
  let c0 := e_a e / e_b e in let c3 := e_c e / e_b e in let u := e_u e - u0 in let v := e_v e - v0 in
  [c0; c0 * u + c3 * v; v + c3 * u; c3; c0 * u ^ 2 + v ^ 2 + 2 * c3 * u * v - / e_b e].
Lemma conic_row e u0 v0 x y : e_b e <> 0 -> on_ellipse e x y -> ep_row (x - u0) (y - v0) (conic e u0 v0) = - (y - v0) ^ 2.
Proof.
  intros Hb H. unfold on_ellipse in H. unfold ep_row, conic. cbn [nth]. apply Rmult_eq_reg_l with (e_b e); [|exact Hb].
  transitivity ((e_a e * (x - e_u e) ^ 2 + e_b e * (y - e_v e) ^ 2 + 2 * e_c e * (x - e_u e) * (y - e_v e)) - 1 - e_b e * (y - v0) ^ 2); [field; exact Hb|].
  rewrite H. ring.
Qed.
Lemma list5 (c : list R) : length c = 5%nat -> c = [nth 0 c 0; nth 1 c 0; nth 2 c 0; nth 3 c 0; nth 4 c 0].
Proof. destruct c as [|? [|? [|? [|? [|? [|]]]]]]; simpl; try discriminate. reflexivity. Qed.
Lemma list5_eq (c d : list R) : length c = 5%nat -> length d = 5%nat -> (forall k, (k < 5)%nat -> nth k c 0 = nth k d 0) -> c = d.
Proof. intros H1 H2 H. rewrite (list5 c H1), (list5 d H2). now rewrite (H 0%nat), (H 1%nat), (H 2%nat), (H 3%nat), (H 4%nat) by lia. Qed.
Definition diff5 (c d : list R) : list R := [nth 0 c 0 - nth 0 d 0; nth 1 c 0 - nth 1 d 0; nth 2 c 0 - nth 2 d 0; nth 3 c 0 - nth 3 d 0; nth 4 c 0 - nth 4 d 0].
Lemma determining_eq n pu pv c d : determining n pu pv -> length c = 5%nat -> length d = 5%nat -> (forall i, (i < n)%nat -> ep_row (pu i) (pv i) c = ep_row (pu i) (pv i) d) -> c = d.
Proof.
  intros H Lc Ld E. assert (Z : diff5 c d = repeat 0 5). { apply H; [reflexivity|]. intros i Hi. specialize (E i Hi). unfold ep_row, diff5 in *. cbn [nth]. lra. }
  unfold diff5 in Z. cbn [repeat] in Z. injection Z as Z0 Z1 Z2 Z3 Z4. apply list5_eq; try assumption. intros k Hk. do 5 (destruct k as [|k]; [lra|]). lia.
Qed.
Lemma determining_shift n pu pv u0 v0 : determining n pu pv -> determining n (fun i => pu i - u0) (fun i => pv i - v0).
Proof.
  intros H d Ld E. assert (Z : [nth 0 d 0; nth 1 d 0 + nth 0 d 0 * u0 + nth 3 d 0 * v0; nth 2 d 0 + nth 3 d 0 * u0; nth 3 d 0;
    nth 0 d 0 * u0 ^ 2 + 2 * nth 1 d 0 * u0 + 2 * nth 2 d 0 * v0 + 2 * nth 3 d 0 * (u0 * v0) + nth 4 d 0] = repeat 0 5).
  { apply H; [reflexivity|]. intros i Hi. specialize (E i Hi). unfold ep_row in *. cbn [nth]. cbv beta in E. eapply eq_trans; [|exact E]. ring. }
  cbn [repeat] in Z. injection Z as Z0 Z1 Z2 Z3 Z4. rewrite Z0, Z3 in *. assert (N1 : nth 1 d 0 = 0) by lra. assert (N2 : nth 2 d 0 = 0) by lra. rewrite N1, N2 in *.
  apply list5_eq; [exact Ld|reflexivity|]. intros k Hk. do 5 (destruct k as [|k]; [cbn [nth repeat]; lra|]). lia.
Qed.
(** an exact least-squares solution fits every point *)
Lemma ep_lstsq_exact n pu pv c d : ep_lstsq n pu pv c -> length d = 5%nat -> (forall i, (i < n)%nat -> ep_row (pu i) (pv i) d = - (pv i) ^ 2) ->
  forall i, (i < n)%nat -> ep_row (pu i) (pv i) c = - (pv i) ^ 2.
Proof.
  intros [Lc H] Ld E i Hi. specialize (H d Ld). rewrite (rsum_ext n (fun i => (ep_row (pu i) (pv i) d - - pv i ^ 2) ^ 2) (fun _ => 0)) in H by (intros j Hj; rewrite (E j Hj); ring).
  rewrite rsum_0 in H. assert (Z0 : rsum n (fun i => (ep_row (pu i) (pv i) c - - pv i ^ 2) ^ 2) = 0) by (apply Rle_antisym; [exact H|apply rsum_nonneg; intros; apply pow2_ge_0]).
  pose proof (rsum_nonneg_zero n _ (fun j _ => pow2_ge_0 _) Z0 i Hi) as Q. cbv beta in Q. assert (ep_row (pu i) (pv i) c - - pv i ^ 2 = 0) by nra. lra.
Qed.
Lemma scaled_conic su sv e u0 v0 x y : su <> 0 -> sv <> 0 -> e_b e <> 0 -> on_ellipse e x y ->
  let k := conic e u0 v0 in
  ep_row ((x - u0) / su) ((y - v0) / sv) [nth 0 k 0 * (su ^ 2 / sv ^ 2); nth 1 k 0 * (su / sv ^ 2); nth 2 k 0 / sv; nth 3 k 0 * (su / sv); nth 4 k 0 / sv ^ 2] = - ((y - v0) / sv) ^ 2.
Proof.
  intros Hu Hv Hb H k. pose proof (conic_row e u0 v0 x y Hb H) as R. fold k in R. unfold ep_row in *. cbn [nth].
  transitivity (/ sv ^ 2 * (nth 0 k 0 * (x - u0) ^ 2 - 2 * nth 1 k 0 * (x - u0) - 2 * nth 2 k 0 * (y - v0) + 2 * nth 3 k 0 * ((x - u0) * (y - v0)) + nth 4 k 0)); [field; tauto|]. rewrite R. field. exact Hv.
Qed.
Lemma unscale_row su sv c X Y : su <> 0 -> sv <> 0 -> ep_row (X / su) (Y / sv) c = - (Y / sv) ^ 2 -> ep_row X Y (ep_unscale su sv c) = - Y ^ 2.
Proof.
  intros Hu Hv H. unfold ep_row, ep_unscale in *. cbn [nth]. transitivity (sv ^ 2 * (- (Y / sv) ^ 2)); [rewrite <- H; field; tauto|field; exact Hv].
Qed.
(** the coefficients the function works with are exactly those of the ellipse *)
Definition spreads (rescale : bool) (n : nat) (pu pv : vec) : Prop := ep_scale rescale n pu <> 0 /\ ep_scale rescale n pv <> 0.
Lemma ep_coefficients rescale n pu pv e sol : e_b e <> 0 -> (forall i, (i < n)%nat -> on_ellipse e (pu i) (pv i)) -> determining n pu pv -> spreads rescale n pu pv ->
  ep_lstsq n (ep_point rescale n pu) (ep_point rescale n pv) sol ->
  (if rescale then ep_unscale (ep_scale true n pu) (ep_scale true n pv) sol else sol) = conic e (ep_centre rescale n pu) (ep_centre rescale n pv).
Proof.
  intros Hb On Det [Su Sv] L. set (u0 := ep_centre rescale n pu). set (v0 := ep_centre rescale n pv). set (su := ep_scale rescale n pu) in *. set (sv := ep_scale rescale n pv) in *.
  set (k := conic e u0 v0).
  pose proof (ep_lstsq_exact n _ _ sol [nth 0 k 0 * (su ^ 2 / sv ^ 2); nth 1 k 0 * (su / sv ^ 2); nth 2 k 0 / sv; nth 3 k 0 * (su / sv); nth 4 k 0 / sv ^ 2] L eq_refl) as Ex.
  assert (F : forall i, (i < n)%nat -> ep_row ((pu i - u0) / su) ((pv i - v0) / sv) sol = - ((pv i - v0) / sv) ^ 2).
  { apply Ex. intros i Hi. now apply scaled_conic; [| | |apply On]. }
  assert (G : forall i, (i < n)%nat -> ep_row (pu i - u0) (pv i - v0) (ep_unscale su sv sol) = ep_row (pu i - u0) (pv i - v0) k).
  { intros i Hi. rewrite (unscale_row su sv sol _ _ Su Sv (F i Hi)). symmetry. apply conic_row; [exact Hb|now apply On]. }
  pose proof (determining_eq n _ _ (ep_unscale su sv sol) k (determining_shift n pu pv u0 v0 Det) eq_refl eq_refl G) as E.
  destruct rescale; [exact E|]. rewrite <- E. apply list5_eq; [apply L|reflexivity|]. intros j Hj. unfold ep_unscale, su, sv, ep_scale. do 5 (destruct j as [|j]; [cbn [nth]; field|]). lia.
Qed.
(** for every number of points, every ellipse and both settings of rescale: what the function returns *)
Theorem C78_returned : forall rescale n pu pv e sol, proper e -> (forall i, (i < n)%nat -> on_ellipse e (pu i) (pv i)) -> determining n pu pv -> spreads rescale n pu pv ->
  ep_lstsq n (ep_point rescale n pu) (ep_point rescale n pv) sol ->
  let v0 := ep_centre rescale n pv in
  let c0 := e_a e / e_b e in let c3 := e_c e / e_b e in
  let c2 := e_v e - v0 + c3 * (e_u e - ep_centre rescale n pu) in
  let '(a, b, c, u, v) := fit_ellipse_parameters rescale n pv pu sol in
  u = e_u e /\ v = v0 + (e_v e - v0) * (c0 - c3 ^ 2) / (c0 - c2 * c3) /\
  (v = e_v e -> a = e_a e /\ b = e_b e /\ c = e_c e).
Proof.
  intros rescale n pu pv e sol P On Det Sp L v0 c0 c3 c2. pose proof P as (Ha & Hb & Hc).
  unfold fit_ellipse_parameters. rewrite (ep_coefficients rescale n pu pv e sol) by (assumption || lra). set (u0 := ep_centre rescale n pu) in *. fold v0.
  assert (D : c0 - c3 ^ 2 <> 0). { unfold c0, c3. replace (e_a e / e_b e - (e_c e / e_b e) ^ 2) with ((e_a e * e_b e - e_c e ^ 2) / e_b e ^ 2) by (field; lra). apply Rgt_not_eq, Rdiv_lt_0_compat; [lra|nra]. }
  unfold ep_params, conic. cbn [nth]. fold c0 c3. set (U := e_u e - u0) in *. set (V := e_v e - v0) in *.
  assert (EU : (c0 * U + c3 * V - (V + c3 * U) * c3) / (c0 - c3 ^ 2) = U) by (field; exact D). rewrite EU.
  set (W := (c0 * (V + c3 * U) - (c0 * U + c3 * V) * c3) / (c0 - (V + c3 * U) * c3)).
  assert (EW : W = V * (c0 - c3 ^ 2) / (c0 - c2 * c3)) by (unfold W, c2; fold U V; f_equal; ring).
  split; [unfold U; ring|]. split; [rewrite EW; ring|]. intros Ev. assert (W = V) by (unfold V; lra). rewrite H.
  replace (c0 * U ^ 2 + V ^ 2 + 2 * c3 * U * V - (c0 * U ^ 2 + V ^ 2 + 2 * c3 * U * V - / e_b e)) with (/ e_b e) by ring.
  assert (Hc0 : c0 <> 0) by (unfold c0; apply Rgt_not_eq, Rdiv_lt_0_compat; lra).
  assert (c0 / / e_b e = e_a e) by (unfold c0; field; lra). rewrite H0. split; [reflexivity|].
  assert (e_a e / c0 = e_b e) by (unfold c0; field; lra). rewrite H1. split; [reflexivity|]. unfold c3. field. lra.
Qed.
(** hence exact whenever the axes of the ellipse are parallel to those of the detector, or the vertical mean of the points is the centre *)
Theorem C78_exact : forall rescale n pu pv e sol, proper e -> (forall i, (i < n)%nat -> on_ellipse e (pu i) (pv i)) -> determining n pu pv -> spreads rescale n pu pv ->
  ep_lstsq n (ep_point rescale n pu) (ep_point rescale n pv) sol -> e_c e = 0 \/ e_v e = ep_centre rescale n pv ->
  fit_ellipse_parameters rescale n pv pu sol = (e_a e, e_b e, e_c e, e_u e, e_v e).
Proof.
  intros rescale n pu pv e sol P On Det Sp L Hc. pose proof (C78_returned rescale n pu pv e sol P On Det Sp L) as R. cbv zeta in R.
  destruct (fit_ellipse_parameters rescale n pv pu sol) as [[[[a b] c] u] v]. destruct R as (Ru & Rv & Rabc).
  assert (v = e_v e).
  { rewrite Rv. destruct Hc as [Hc|Hc].
    - rewrite Hc. destruct P as (Ha & Hb & _). field. split; [lra|]. replace (e_a e - _ * 0) with (e_a e) by ring. lra.
    - rewrite Hc. unfold Rdiv. ring. }
  destruct (Rabc H) as (-> & -> & ->). now rewrite Ru, H.
Qed.
(** five points of the tilted ellipse x^2 + y^2 + x y = 1 around (0, 0); default options *)
Definition pts_u : vec := fun i => nth i [1; 0; -1; 0; 1] 0.
Definition pts_v : vec := fun i => nth i [0; 1; 0; -1; -1] 0.
Definition e_tilt : ellipse := {| e_a := 1; e_b := 1; e_c := 1 / 2; e_u := 0; e_v := 0 |}.
Lemma pts_on : forall i, (i < 5)%nat -> on_ellipse e_tilt (pts_u i) (pts_v i).
Proof. intros i Hi. unfold on_ellipse, e_tilt, pts_u, pts_v. do 5 (destruct i as [|i]; [cbn; lra|]). lia. Qed.
Lemma pts_determining : determining 5 pts_u pts_v.
Proof.
  intros c Lc H. pose proof (H 0%nat ltac:(lia)) as H0. pose proof (H 1%nat ltac:(lia)) as H1. pose proof (H 2%nat ltac:(lia)) as H2. pose proof (H 3%nat ltac:(lia)) as H3. pose proof (H 4%nat ltac:(lia)) as H4.
  unfold ep_row, pts_u, pts_v in *. cbn [nth] in *. apply list5_eq; [exact Lc|reflexivity|]. intros k Hk. do 5 (destruct k as [|k]; [cbn [nth repeat]; lra|]). lia.
Qed.
Lemma pts_mean : mean 5 pts_u = 1 / 5 /\ mean 5 pts_v = - 1 / 5.
Proof. unfold mean, pts_u, pts_v. cbn [rsum nth]. simpl INR. split; lra. Qed.
Lemma pts_spreads : spreads true 5 pts_u pts_v.
Proof.
  destruct pts_mean as [Mu Mv]. unfold spreads, ep_scale, max_abs. rewrite Mu, Mv. split; apply Rgt_not_eq.
  - apply Rlt_le_trans with (Rabs (pts_u 0%nat - 1 / 5)); [apply Rabs_pos_lt; unfold pts_u; cbn [nth]; lra|]. apply (rmax_ge 5 (fun i => Rabs (pts_u i - 1 / 5)) 0). lia.
  - apply Rlt_le_trans with (Rabs (pts_v 0%nat - - 1 / 5)); [apply Rabs_pos_lt; unfold pts_v; cbn [nth]; lra|]. apply (rmax_ge 5 (fun i => Rabs (pts_v i - - 1 / 5)) 0). lia.
Qed.
(** the exact coefficients are a least-squares solution: the hypotheses can be met *)
Lemma exact_is_lstsq rescale n pu pv e : e_b e <> 0 -> (forall i, (i < n)%nat -> on_ellipse e (pu i) (pv i)) -> spreads rescale n pu pv ->
  exists sol, ep_lstsq n (ep_point rescale n pu) (ep_point rescale n pv) sol.
Proof.
  intros Hb On [Su Sv]. set (u0 := ep_centre rescale n pu). set (v0 := ep_centre rescale n pv). set (su := ep_scale rescale n pu) in *. set (sv := ep_scale rescale n pv) in *. set (k := conic e u0 v0).
  exists [nth 0 k 0 * (su ^ 2 / sv ^ 2); nth 1 k 0 * (su / sv ^ 2); nth 2 k 0 / sv; nth 3 k 0 * (su / sv); nth 4 k 0 / sv ^ 2]. split; [reflexivity|]. intros c' _.
  rewrite (rsum_ext n _ (fun _ => 0)); [rewrite rsum_0; apply rsum_nonneg; intros; apply pow2_ge_0|]. intros i Hi. unfold ep_point. fold u0 v0 su sv. unfold k. rewrite (scaled_conic su sv e u0 v0 (pu i) (pv i) Su Sv Hb (On i Hi)). ring.
Qed.
Theorem C78_tilted_refuted : exists n pu pv e, proper e /\ (forall i, (i < n)%nat -> on_ellipse e (pu i) (pv i)) /\ determining n pu pv /\ spreads true n pu pv /\
  (exists sol, ep_lstsq n (ep_point true n pu) (ep_point true n pv) sol) /\
  (forall sol, ep_lstsq n (ep_point true n pu) (ep_point true n pv) sol ->
     let '(a, b, c, u, v) := fit_ellipse_parameters true n pv pu sol in u = e_u e /\ v <> e_v e).
Proof.
  assert (P : proper e_tilt) by (unfold proper, e_tilt; cbn; lra).
  exists 5%nat, pts_u, pts_v, e_tilt. split; [exact P|]. split; [exact pts_on|]. split; [exact pts_determining|]. split; [exact pts_spreads|].
  split; [apply exact_is_lstsq with (e := e_tilt); [cbn; lra|exact pts_on|exact pts_spreads]|]. intros sol L.
  pose proof (C78_returned true 5 pts_u pts_v e_tilt sol P pts_on pts_determining pts_spreads L) as R. cbv zeta in R.
  destruct (fit_ellipse_parameters true 5 pts_v pts_u sol) as [[[[a b] c] u] v]. destruct R as (Ru & Rv & _). split; [exact Ru|].
  rewrite Rv. unfold ep_centre. destruct pts_mean as [-> ->]. cbn [e_a e_b e_c e_u e_v e_tilt].
  replace (- 1 / 5 + (0 - - 1 / 5) * (1 / 1 - (1 / 2 / 1) ^ 2) / (1 / 1 - (0 - - 1 / 5 + 1 / 2 / 1 * (0 - 1 / 5)) * (1 / 2 / 1))) with (- 4 / 95) by field. lra.
Qed.
Example C78_example : exists n pu pv e, proper e /\ e_c e = 0 /\ (forall i, (i < n)%nat -> on_ellipse e (pu i) (pv i)) /\ determining n pu pv.
Proof.
  exists 5%nat, (fun i => nth i [5; -5; 0; 3; 4] 0), (fun i => nth i [0; 0; 5; 4; -3] 0), {| e_a := 1 / 25; e_b := 1 / 25; e_c := 0; e_u := 0; e_v := 0 |}.
  split; [unfold proper; cbn; lra|]. split; [reflexivity|]. split.
  - intros i Hi. unfold on_ellipse. do 5 (destruct i as [|i]; [cbn; lra|]). lia.
  - intros c Lc H. pose proof (H 0%nat ltac:(lia)) as H0. pose proof (H 1%nat ltac:(lia)) as H1. pose proof (H 2%nat ltac:(lia)) as H2. pose proof (H 3%nat ltac:(lia)) as H3. pose proof (H 4%nat ltac:(lia)) as H4.
    unfold ep_row in *. cbn [nth] in *. apply list5_eq; [exact Lc|reflexivity|]. intros k Hk. do 5 (destruct k as [|k]; [cbn [nth repeat]; lra|]). lia.
Qed.

(** * C79 *)
(** the point (y, x) is on the line through points i and i + N/2 *)
Definition collinear (v1 u1 v2 u2 y x : R) : Prop := (u2 - u1) * (y - v1) = (v2 - v1) * (x - u1).
Definition concurrent (N : nat) (v u : vec) (y x : R) : Prop := forall i, (i < N / 2)%nat -> collinear (v i) (u i) (v (N / 2 + i)%nat) (u (N / 2 + i)%nat) y x.
(** two of the lines are not parallel *)
Definition crossing (N : nat) (v u : vec) : Prop := exists i j, (i < N / 2)%nat /\ (j < N / 2)%nat /\
  (u (N / 2 + i)%nat - u i) * (v (N / 2 + j)%nat - v j) <> (v (N / 2 + i)%nat - v i) * (u (N / 2 + j)%nat - u j).
Lemma ec_exact N pv pu p : ec_residual N pv pu p = 0 -> forall i, (i < N / 2)%nat -> ec_a N pv pu i * fst p + ec_b N pv pu i * snd p = ec_val N pv pu i.
Proof.
  intros E i Hi. pose proof (rsum_nonneg_zero (N / 2) _ (fun j _ => pow2_ge_0 _) E i Hi) as Q. cbv beta in Q.
  assert (ec_a N pv pu i * fst p + ec_b N pv pu i * snd p - ec_val N pv pu i = 0) by nra. lra.
Qed.
Lemma ec_unique N pv pu p q : crossing N pv pu -> ec_residual N pv pu q = 0 -> lstsq2 N pv pu p -> p = q.
Proof.
  intros (i & j & Hi & Hj & Hx) Eq L. assert (Ep : ec_residual N pv pu p = 0). { apply Rle_antisym; [pose proof (L q); lra|]. apply rsum_nonneg. intros. apply pow2_ge_0. }
  pose proof (ec_exact N pv pu p Ep i Hi) as P1. pose proof (ec_exact N pv pu p Ep j Hj) as P2. pose proof (ec_exact N pv pu q Eq i Hi) as Q1. pose proof (ec_exact N pv pu q Eq j Hj) as Q2.
  destruct p as [py px], q as [qy qx]. cbn [fst snd] in *. unfold ec_a, ec_b in *. set (ui := pu (N / 2 + i)%nat - pu i) in *. set (vi := pv (N / 2 + i)%nat - pv i) in *. set (uj := pu (N / 2 + j)%nat - pu j) in *. set (vj := pv (N / 2 + j)%nat - pv j) in *.
  assert (D1 : ui * (py - qy) - vi * (px - qx) = 0) by lra. assert (D2 : uj * (py - qy) - vj * (px - qx) = 0) by lra.
  assert (Hd : ui * vj - vi * uj <> 0) by lra.
  assert (Ey : (ui * vj - vi * uj) * (py - qy) = 0) by (transitivity (vj * (ui * (py - qy) - vi * (px - qx)) - vi * (uj * (py - qy) - vj * (px - qx))); [ring|rewrite D1, D2; ring]).
  assert (Ex : (ui * vj - vi * uj) * (px - qx) = 0) by (transitivity (uj * (ui * (py - qy) - vi * (px - qx)) - ui * (uj * (py - qy) - vj * (px - qx))); [ring|rewrite D1, D2; ring]).
  apply Rmult_integral in Ey as [Ey|Ey]; [contradiction|]. apply Rmult_integral in Ex as [Ex|Ex]; [contradiction|]. f_equal; lra.
Qed.
Definition ec_scale (rescale : bool) (N : nat) (x : vec) : R := if rescale then spread N (fun j => x j - mean N x) else 1.
(** for every number of points whose opposite pairs (i, i + N/2) lie on lines through one point, that point is returned (up to the
    requested rounding), with and without rescaling *)
Theorem C79_exact_centre : forall rescale dec N v u sol y x, concurrent N v u y x -> crossing N v u -> ec_scale rescale N v <> 0 -> ec_scale rescale N u <> 0 ->
  lstsq2 N (rescaled rescale N v) (rescaled rescale N u) sol -> fit_ellipse_center rescale dec N v u sol = (opt_around dec y, opt_around dec x).
Proof.
  intros rescale dec N v u sol y x C X Sv Su L. set (mv := mean N v). set (mu := mean N u). set (sv := ec_scale rescale N v) in *. set (su := ec_scale rescale N u) in *.
  assert (Rv : forall i, rescaled rescale N v i = (v i - mv) / sv) by reflexivity. assert (Ru : forall i, rescaled rescale N u i = (u i - mu) / su) by reflexivity.
  assert (E : sol = ((y - mv) / sv, (x - mu) / su)).
  { apply (ec_unique N (rescaled rescale N v) (rescaled rescale N u)); [| |exact L].
    - destruct X as (i & j & Hi & Hj & Hx). exists i, j. split; [exact Hi|]. split; [exact Hj|]. rewrite !Rv, !Ru. intros E. apply Hx.
      apply Rmult_eq_reg_l with (/ (su * sv)); [|apply Rinv_neq_0_compat, Rmult_integral_contrapositive_currified; assumption].
      eapply eq_trans; [|eapply eq_trans; [exact E|]]; field; tauto.
    - unfold ec_residual. rewrite (rsum_ext _ _ (fun _ => 0)); [apply rsum_0|]. intros i Hi. specialize (C i Hi). unfold collinear in C. unfold ec_a, ec_b, ec_val. cbn [fst snd]. rewrite !Rv, !Ru.
      match goal with |- ?q ^ 2 = 0 => assert (Z0 : q = 0) end; [|rewrite Z0; ring].
      set (u1 := u i) in *. set (v1 := v i) in *. set (u2 := u (N / 2 + i)%nat) in *. set (v2 := v (N / 2 + i)%nat) in *.
      transitivity (/ (su * sv) * ((u2 - u1) * (y - v1) - (v2 - v1) * (x - u1))); [field; tauto|]. rewrite C. ring. }
  rewrite E. unfold fit_ellipse_center. cbn [fst snd]. fold (ec_scale rescale N v) (ec_scale rescale N u). fold sv su mv mu. f_equal; f_equal; field; assumption.
Qed.
Example C79_example : let v := fun i => nth i [1; 0; -1; 0] 0 in let u := fun i => nth i [0; 2; 0; -2] 0 in concurrent 4 v u 0 0 /\ crossing 4 v u /\ ec_scale false 4 v <> 0.
Proof.
  cbv zeta. split; [|split].
  - intros i Hi. change (4 / 2)%nat with 2%nat in *. unfold collinear. do 2 (destruct i as [|i]; [cbn; lra|]). lia.
  - exists 0%nat, 1%nat. cbn. repeat split; try lia. lra.
  - cbn. lra.
Qed.

(** * C133 *)
(** [img_1] and [img_2] (mirrored) taken half a turn apart by a camera whose rotation axis crosses line y at position b + a y from the
    centre: the lines are displaced by twice that, so [shifts] = 2 (b + a y), and the camera tilt is the angle of slope a: -a for small angles. *)
Definition line_fit (n : nat) (ys cors : vec) (cs : list R) : Prop := length cs = 2%nat /\ forall c, length c = 2%nat ->
  rsum n (fun i => (nth 0 cs 0 + nth 1 cs 0 * ys i - cors i) ^ 2) <= rsum n (fun i => (nth 0 c 0 + nth 1 c 0 * ys i - cors i) ^ 2).
Lemma line_fit_exact n ys cors cs b a : (2 <= n)%nat -> (forall i j, (i < j < n)%nat -> ys i <> ys j) -> line_fit n ys cors cs ->
  (forall i, (i < n)%nat -> cors i = b + a * ys i) -> cs = [b; a].
Proof.
  intros Hn Hd [L H] E. specialize (H [b; a] eq_refl). cbn [nth] in H. rewrite (rsum_ext n (fun i => (b + a * ys i - cors i) ^ 2) (fun _ => 0)) in H by (intros i Hi; rewrite (E i Hi); ring).
  rewrite rsum_0 in H. assert (Z0 : rsum n (fun i => (nth 0 cs 0 + nth 1 cs 0 * ys i - cors i) ^ 2) = 0) by (apply Rle_antisym; [exact H|apply rsum_nonneg; intros; apply pow2_ge_0]).
  assert (K : forall i, (i < n)%nat -> nth 0 cs 0 + nth 1 cs 0 * ys i = b + a * ys i).
  { intros i Hi. pose proof (rsum_nonneg_zero n _ (fun j _ => pow2_ge_0 _) Z0 i Hi) as Q. cbv beta in Q. rewrite (E i Hi) in Q. nra. }
  pose proof (K 0%nat ltac:(lia)) as K0. pose proof (K 1%nat ltac:(lia)) as K1. pose proof (Hd 0%nat 1%nat ltac:(lia)) as N01.
  assert (S : (nth 1 cs 0 - a) * (ys 0%nat - ys 1%nat) = 0) by lra. apply Rmult_integral in S as [S|S]; [|lra].
  destruct cs as [|c0 [|c1 [|]]]; simpl in L; try discriminate. cbn [nth] in *. assert (c1 = a) by lra. subst. assert (c0 = b) by lra. now subst.
Qed.
(** the offset is exact, the tilt is HALF of what it should be: -a/2 radians instead of -a *)
Theorem C133_half_tilt_refuted : forall n shifts b a cs, (2 <= n)%nat -> (forall i, (i < n)%nat -> shifts i = 2 * (b + a * centred n i)) ->
  line_fit n (centred n) (tilt_cors shifts) cs -> fit_camera_tilt_angle cs = (b, rad2deg (- a) / 2).
Proof.
  intros n shifts b a cs Hn Hs L. assert (E : cs = [b; a]).
  { apply (line_fit_exact n (centred n) (tilt_cors shifts) cs b a Hn); [|exact L|].
    - intros i j Hij. unfold centred. pose proof (lt_INR i j ltac:(lia)). lra.
    - intros i Hi. unfold tilt_cors. rewrite (Hs i Hi). field. }
  rewrite E. unfold fit_camera_tilt_angle, rad2deg. cbn [nth]. f_equal. field. apply PI_neq0.
Qed.
Theorem C133_tilt_wrong_refuted : exists n shifts b a cs, line_fit n (centred n) (tilt_cors shifts) cs /\ (forall i, (i < n)%nat -> shifts i = 2 * (b + a * centred n i)) /\
  fst (fit_camera_tilt_angle cs) = b /\ snd (fit_camera_tilt_angle cs) <> rad2deg (- a).
Proof.
  exists 3%nat, (fun i => 2 * (1 + 1 / 100 * centred 3 i)), 1, (1 / 100), [1; 1 / 100]. split; [|split; [reflexivity|split; [reflexivity|]]].
  - split; [reflexivity|]. intros c _. cbn [nth]. rewrite (rsum_ext 3 (fun i => (1 + 1 / 100 * centred 3 i - tilt_cors (fun i => 2 * (1 + 1 / 100 * centred 3 i)) i) ^ 2) (fun _ => 0)) by (intros; unfold tilt_cors; field).
    rewrite rsum_0. apply rsum_nonneg. intros. apply pow2_ge_0.
  - unfold fit_camera_tilt_angle, rad2deg. cbn [nth snd]. intros E. pose proof PI_RGT_0. apply (f_equal (fun z => z * PI)) in E. unfold Rdiv in E. rewrite !Rmult_assoc, !(Rinv_l PI), !Rmult_1_r in E by lra. lra.
Qed.
