(** C138: recentring a volume by moving the detector.  C139: markers and their tracking. *)
From Coq Require Import Reals Lra Lia List ZArith Bool String.
From Verif Require Import Sums PyErr Arrays Rounding GeometryModel GeometryProps GeometryMoreProps GeometryVolProps ProcPostModel ProcPostProps
  Reindex Fourier FourierN FourierBox AlignFitModel AlignFitProps AlignXcProps AlignShiftProps AlignMiscModel.
Import ListNotations.
Open Scope R_scope.
Local Notation length := List.length.

(** ** an object that stays in the frame is also moved on the torus *)
Lemma translate_length t l : length t = length l -> length (translate t l) = length l.
Proof. intros H. unfold translate. rewrite zadd_length; rewrite zl_length; lia. Qed.
Lemma tadd_in_frame s : forall l t, inb s l -> length t = length s -> inZ s (translate t l) -> zl (tadd s l t) = translate t l.
Proof.
  unfold tadd, translate. induction s as [|n s IH]; intros l t Il Lt HI; inversion Il; subst; destruct t as [|b t]; simpl in Lt; try lia; [reflexivity|].
  cbn [zl map tor zadd] in HI |- *. inversion HI; subst. f_equal; [|apply IH; [assumption|lia|assumption]].
  rewrite imod_of by lia. apply Z.mod_small. assumption.
Qed.
Lemma inZ_dec s z : length z = length s -> inZ s z \/ ~ inZ s z.
Proof.
  revert z. induction s as [|n s IH]; intros [|c z] L; simpl in L; try lia; [left; constructor|].
  destruct (IH z ltac:(lia)) as [H|H]; [|right; intros X; inversion X; subst; contradiction].
  destruct (Z_le_dec 0 c); [|right; intros X; inversion X; subst; lia]. destruct (Z_lt_dec c (Z.of_nat n)); [left; constructor; [lia|assumption]|right; intros X; inversion X; subst; lia].
Qed.
Lemma tadd_forth s l t : inb s l -> length t = length s -> pos s -> tadd s (tadd s l (map Z.opp t)) t = l.
Proof. intros I L P. rewrite <- (map_opp_opp t) at 2. apply tadd_back; [assumption|now rewrite map_length]. Qed.
Lemma inZ_zl s l : inb s l -> inZ s (zl l).
Proof. unfold inZ, zl. induction 1; simpl; constructor; [lia|assumption]. Qed.
Lemma displaced_torus s t p d : pos s -> length t = length s -> displaced s t p d -> forall l, inb s l -> d (tadd s l t) = p l.
Proof.
  intros P Lt (H1 & H2 & H3) l Il. assert (It : inb s (tadd s l t)) by (now apply tadd_inb).
  assert (Ll : length l = length s) by (now apply inb_length).
  destruct (inZ_dec s (translate t l)) as [In|Out]; [rewrite translate_length; lia| |].
  - apply H2; [assumption|assumption|now apply tadd_in_frame].
  - assert (Z0 : p l = 0). { destruct (Req_dec (p l) 0); [assumption|]. exfalso. apply Out. now apply H1. }
    rewrite Z0. apply H3; [assumption|]. intros m Im E.
    assert (Em : inZ s (translate t m)) by (rewrite <- E; now apply inZ_zl).
    pose proof (tadd_in_frame s m t Im Lt Em) as E2. rewrite <- E in E2. apply zl_inj in E2.
    assert (m = l). { rewrite <- (tadd_back s m t Im Lt), E2. now apply tadd_back. }
    subst m. contradiction.
Qed.
Lemma displaced_moved1 s t p d : pos s -> length t = length s -> displaced s t p d -> moved s t p d.
Proof.
  intros P Lt D l Il. rewrite <- (displaced_torus s t p d P Lt D (tadd s l (map Z.opp t))).
  - now rewrite tadd_forth.
  - apply tadd_inb; [assumption|assumption|now rewrite map_length].
Qed.
(** the centre of mass of the displaced object *)
Lemma nth_zadd a : forall t u, (a < length t)%nat -> (a < length u)%nat -> nth a (zadd t u) 0%Z = (nth a t 0 + nth a u 0)%Z.
Proof. induction a; intros [|x t] [|y u] H1 H2; simpl in *; try lia. apply IHa; lia. Qed.
Lemma displaced_com s t p d a : pos s -> length t = length s -> (a < length s)%nat -> displaced s t p d -> 0 < mass s p ->
  com1 s a d = com1 s a p + IZR (nth a t 0%Z) /\ mass s d = mass s p.
Proof.
  intros P Lt Ha D Mp. pose proof (displaced_torus s t p d P Lt D) as T.
  assert (Md : mass s d = mass s p).
  { unfold mass. rewrite <- (bsum_torus s (fun l => Rabs (d l)) t P Lt). apply bsum_ext. intros l Il. now rewrite T. }
  split; [|exact Md]. rewrite !C73_weighted_mean by (assumption || lra). rewrite Md.
  rewrite <- (bsum_torus s (fun l => Rabs (d l) * _) t P Lt).
  rewrite (bsum_ext s _ (fun l => Rabs (p l) * com_coord (nth a s 0%nat) (nth a l 0%nat) + IZR (nth a t 0%Z) * Rabs (p l))).
  - rewrite bsum_plus, bsum_scal. fold (mass s p). field. lra.
  - intros l Il. rewrite T by assumption. destruct (Req_dec (p l) 0) as [->|N]; [rewrite Rabs_R0; ring|].
    pose proof (proj1 D l Il N) as F. pose proof (tadd_in_frame s l t Il Lt F) as E.
    assert (X : nth a (zl (tadd s l t)) 0%Z = (Z.of_nat (nth a l 0%nat) + nth a t 0)%Z).
    { rewrite E. unfold translate. rewrite nth_zadd; [now rewrite nth_zl|rewrite zl_length, (inb_length _ _ Il); lia|lia]. }
    rewrite nth_zl in X. unfold com_coord. rewrite (INR_IZR_INZ (nth a (tadd s l t) 0%nat)), X, plus_IZR, <- INR_IZR_INZ. ring.
Qed.
Lemma displaced_com_all s t p d : pos s -> length t = length s -> displaced s t p d -> 0 < mass s p ->
  bcast Rminus (com s None d) (com s None p) = inr (map IZR t).
Proof.
  intros P Lt D Mp. unfold bcast. destruct (s) as [|n0 s0] eqn:Es.
  - destruct t; [reflexivity|simpl in Lt; lia].
  - rewrite <- Es in *. destruct (C73_all_axes s d 0 ltac:(rewrite Es; simpl; lia)) as [_ L1]. destruct (C73_all_axes s p 0 ltac:(rewrite Es; simpl; lia)) as [_ L2].
    rewrite L1, L2, Nat.eqb_refl. f_equal. apply nth_ext with (d := fst (0, 0) - snd (0, 0)) (d' := 0).
    + rewrite map_length, combine_length, map_length. lia.
    + intros i Hi. rewrite map_length, combine_length, L1, L2, Nat.min_id in Hi.
      rewrite (map_nth IZR t 0%Z).
      rewrite (map_nth (fun q => fst q - snd q) _ (0, 0)). rewrite combine_nth by lia. cbn [fst snd].
      destruct (C73_all_axes s d i Hi) as [-> _]. destruct (C73_all_axes s p i Hi) as [-> _].
      destruct (displaced_com s t p d i P Lt Hi D Mp) as [-> _]. ring.
Qed.
Lemma signed_small s : forall t z, signed_all s t z -> Forall2 (fun n b => (- Z.of_nat n <= 2 * b < Z.of_nat n)%Z) s t -> z = t.
Proof.
  induction s as [|n s IH]; intros [|b t] [|c z] H F; cbn [signed_all] in H; try contradiction; [reflexivity|]. destruct H as [[H1 H2] H3]. inversion F; subst. f_equal; [|now apply IH].
  assert (Hn : (0 < Z.of_nat n)%Z) by lia. pose proof (Z.div_mod c (Z.of_nat n) ltac:(lia)) as E1. pose proof (Z.div_mod b (Z.of_nat n) ltac:(lia)) as E2.
  rewrite H1 in E1. set (N := Z.of_nat n) in *. assert (c - b = N * (c / N - b / N))%Z by nia. assert (c / N - b / N = 0)%Z by nia. nia.
Qed.

(** * C138: the two ways of comparing with a reference.  If the reference shows the volume displaced by t voxels (less than half the
    frame along every axis, nothing lost at the border), with an even last axis and no translational symmetry, then "com" and "xc" both
    move the detector by the projection of exactly t. *)
Lemma zpad_id s f : forall l, inb s l -> zpad s f l = f l. Proof. intros; now apply zpad_in. Qed.
Lemma zyx_unpadded fit rf nrm eps dec s' n d p : fit_shifts_zyx_xc fit false rf nrm eps dec s' n d p = fit_shifts_xc fit rf nrm eps dec s' n d p.
Proof.
  unfold fit_shifts_zyx_xc. cbv zeta. replace (map (fun m : nat => (1 * m)%nat) s') with s' by (rewrite (map_ext _ (fun m => m)) by (intros; lia); now rewrite map_id).
  rewrite Nat.mul_1_l. apply xc_ext; intros; now apply zpad_in.
Qed.
(** adding two rows of equal length *)
Definition addrow (a b : list R) : list R := map (fun p => fst p + snd p) (combine a b).
Lemma rows_add_2 a1 a2 b1 b2 : length a1 = length b1 -> length a2 = length b2 ->
  rows_add [a1; a2] [b1; b2] = inr [addrow a1 b1; addrow a2 b2].
Proof. intros E1 E2. unfold rows_add, bcast. cbn [List.length Nat.eqb combine map fst snd ebind]. rewrite E1, E2, !Nat.eqb_refl. reflexivity. Qed.
Lemma nth_addrow a b i : (i < length a)%nat -> (i < length b)%nat -> nth i (addrow a b) 0 = nth i a 0 + nth i b 0.
Proof.
  revert b i. induction a as [|x a IH]; intros [|y b] i Ha Hb; simpl in Ha, Hb; try lia. destruct i; [reflexivity|]. cbn [addrow combine map nth]. apply IH; lia.
Qed.
Lemma addrow_length a b : length a = length b -> length (addrow a b) = length a.
Proof. intros E. unfold addrow. rewrite map_length, combine_length. lia. Qed.

(** ** C138, what the new shifts mean.  Coordinates (v, u) of the point X on the detector of projection i *)
Definition on_detector (g : prj_geom) (i : nat) (X : vec3) : R * R :=
  let det := brow vzero (g_det g) i in
  (vdot X (brow vzero (g_v g) i) - vdot det (brow vzero (g_v g) i), vdot X (brow vzero (g_u g) i) - vdot det (brow vzero (g_u g) i)).
Lemma brow_nth {A} (d : A) l i : (i < length l)%nat -> brow d l i = nth i l d.
Proof. intros H. unfold brow. destruct (Nat.eqb_spec (length l) 1); [|reflexivity]. now replace i with 0%nat by lia. Qed.
Lemma brow1 {A} (d a : A) i : brow d [a] i = a. Proof. reflexivity. Qed.
Lemma rotated_row g u ax angles g' f : In f fields -> f g = [u] -> g_rot g = [ax] -> rotate g angles false = inr g' ->
  f g' = map (fun a => rotvec_apply (vscal a ax) u) angles.
Proof.
  intros Hf Eu Ea H. apply rotate_inv in H as (rots & Hr & Hall & _). specialize (Hall f Hf). rewrite Ea, bcast_single_r in Hr. injection Hr as <-.
  rewrite Eu, bcast_single_r in Hall. injection Hall as <-. now rewrite !map_map.
Qed.
Lemma rotate_det_length g ax angles g' : g_rot g = [ax] -> length (g_det g) = length angles -> rotate g angles false = inr g' -> length (g_det g') = length angles.
Proof.
  intros Ea Ed H. apply rotate_inv in H as (rots & Hr & Hall & _). specialize (Hall g_det ltac:(simpl; tauto)). rewrite Ea, bcast_single_r in Hr. injection Hr as <-.
  destruct (bcast_inv _ _ _ _ Hall) as (L & _ & _). rewrite !map_length in L. destruct (Nat.eqb_spec (length angles) 1); lia.
Qed.
Lemma placed_detector g u v ax angles sv su y g1 r1 i :
  ndim (g_type g) = inr 3%nat -> g_u g = [u] -> g_v g = [v] -> g_rot g = [ax] -> vdot u u = 1 -> vdot v v = 1 -> vdot u v = 0 ->
  length sv = length angles -> length su = length angles -> (i < length angles)%nat ->
  set_detector_shifts_vu g (Some [sv; su]) None [y] = inr g1 -> rotate g1 angles false = inr r1 ->
  let ua := rotvec_apply (vscal (nth i angles 0) ax) u in let va := rotvec_apply (vscal (nth i angles 0) ax) v in
  brow vzero (g_u r1) i = ua /\ brow vzero (g_v r1) i = va /\
  vdot (brow vzero (g_det r1) i) ua = nth i su 0 + vdot (V3 0 y 0) u /\ vdot (brow vzero (g_det r1) i) va = nth i sv 0 + vdot (V3 0 y 0) v.
Proof.
  intros H3 Eu Ev Ea Uu Vv UV Lv Lu Hi S Rt ua va. destruct (C104_shift_rows _ _ _ _ _ S) as (Ld & Eu1 & Ev1 & Es1 & Hn).
  assert (Ea1 : g_rot g1 = [ax]).
  { revert S. unfold set_detector_shifts_vu. cbv zeta. destruct (_ && (_ && _))%bool; [discriminate|]. destruct (_ && _ && _)%bool; [discriminate|].
    intros H. apply ebind_inv in H as (? & _ & H). apply ebind_inv in H as (? & _ & H). apply ebind_inv in H as (? & _ & H). apply ebind_inv in H as (? & _ & H). apply ebind_inv in H as (? & _ & H).
    injection H as <-. exact Ea. }
  cbn [shifts_rows last] in Ld, Hn. rewrite Eu in Eu1. rewrite Ev in Ev1.
  assert (Hu : g_u r1 = map (fun a => rotvec_apply (vscal a ax) u) angles) by (apply (rotated_row g1); try assumption; simpl; tauto).
  assert (Hv : g_v r1 = map (fun a => rotvec_apply (vscal a ax) v) angles) by (apply (rotated_row g1); try assumption; simpl; tauto).
  assert (Nu : nth i (g_u r1) vzero = ua).
  { rewrite Hu. rewrite (nth_indep _ vzero (rotvec_apply (vscal 0 ax) u)) by (now rewrite map_length). now rewrite (map_nth (fun a => rotvec_apply (vscal a ax) u)). }
  assert (Nv : nth i (g_v r1) vzero = va).
  { rewrite Hv. rewrite (nth_indep _ vzero (rotvec_apply (vscal 0 ax) v)) by (now rewrite map_length). now rewrite (map_nth (fun a => rotvec_apply (vscal a ax) v)). }
  assert (LU : length (g_u r1) = length angles) by (rewrite Hu; apply map_length). assert (LV : length (g_v r1) = length angles) by (rewrite Hv; apply map_length).
  assert (LD : length (g_det r1) = length angles) by (apply (rotate_det_length g1 ax); congruence).
  assert (Dd : brow vzero (g_det g1) i = vadd (vadd (vscal (nth i su 0) u) (vscal (nth i sv 0) v)) (V3 0 y 0)).
  { rewrite brow_nth by lia. rewrite Hn by lia. rewrite H3, Eu, Ev, !brow1. cbn [Nat.eqb List.length andb nth]. rewrite (brow_nth 0 sv i) by lia. reflexivity. }
  pose proof (C48_rotate_rigid _ _ _ _ Rt g_det g_u ltac:(simpl; tauto) ltac:(simpl; tauto) i ltac:(lia) ltac:(lia)) as Q1.
  pose proof (C48_rotate_rigid _ _ _ _ Rt g_det g_v ltac:(simpl; tauto) ltac:(simpl; tauto) i ltac:(lia) ltac:(lia)) as Q2.
  rewrite Dd, Eu1, brow1, Nu in Q1. rewrite Dd, Ev1, brow1, Nv in Q2. rewrite !brow_nth by lia. rewrite Nu, Nv, Q1, Q2.
  split; [reflexivity|]. split; [reflexivity|]. split.
  - transitivity (nth i su 0 * vdot u u + nth i sv 0 * vdot u v + vdot (V3 0 y 0) u); [unfold vdot, vadd, vscal; simpl; ring|]. rewrite Uu, UV. ring.
  - transitivity (nth i su 0 * vdot u v + nth i sv 0 * vdot v v + vdot (V3 0 y 0) v); [unfold vdot, vadd, vscal; simpl; ring|]. rewrite Vv, UV. ring.
Qed.
Lemma displaced_shifts g u v ax angles prec rc sv su z y x new :
  ndim (g_type g) = inr 3%nat -> g_u g = [u] -> g_v g = [v] -> g_rot g = [ax] -> length sv = length angles -> length su = length angles ->
  recenter_init g angles prec = inr rc -> apply_displacement_vu rc [sv; su] [z; y; x] = inr new ->
  let f (r : list R) (w : vec3) := map (np_around prec) (addrow r (map (fun a => vdot (rotvec_apply (vscal a ax) w) (V3 x y z)) angles)) in
  new = [f sv v; f su u].
Proof.
  intros H3 Eu Ev Ea Lv Lu I A f. unfold recenter_init in I. apply ebind_inv in I as (g' & Rt & I). injection I as <-.
  pose proof (rotated_row g u ax angles g' g_u ltac:(simpl; tauto) Eu Ea Rt) as Hu. pose proof (rotated_row g v ax angles g' g_v ltac:(simpl; tauto) Ev Ea Rt) as Hv.
  assert (Ht : g_type g' = g_type g) by (apply rotate_inv in Rt as (? & _ & _ & Ht & _); exact Ht).
  unfold apply_displacement_vu in A. cbn [rc_geom rc_precision] in A. rewrite C106_displacement_3d in A by congruence. cbn [ebind] in A.
  rewrite rows_add_2 in A by (rewrite ?Hu, ?Hv, !map_length; congruence). cbn [ebind map] in A. injection A as <-. rewrite Hu, Hv, !map_map. reflexivity.
Qed.
(** The volume re-centred on com_ref: with the new shifts, every point of the moved volume falls on the same place of the detector as
    the original point with the old shifts, in every projection, up to the requested precision. *)
Theorem C138_same_place : forall g u v ax angles prec rc sv su s vol zr yr xr new dist g1 r1 g2 r2,
  ndim (g_type g) = inr 3%nat -> g_u g = [u] -> g_v g = [v] -> g_rot g = [ax] -> vdot u u = 1 -> vdot v v = 1 -> vdot u v = 0 ->
  length sv = length angles -> length su = length angles -> length s = 3%nat ->
  recenter_init g angles prec = inr rc -> to_com rc [sv; su] s vol [zr; yr; xr] = inr new ->
  set_detector_shifts_vu g (Some [sv; su]) None [dist] = inr g1 -> rotate g1 angles false = inr r1 ->
  set_detector_shifts_vu g (Some new) None [dist] = inr g2 -> rotate g2 angles false = inr r2 ->
  let d := V3 (xr - com1 s 2 vol) (yr - com1 s 1 vol) (zr - com1 s 0 vol) in
  forall i X, (i < length angles)%nat ->
    Rabs (fst (on_detector r2 i (vadd X d)) - fst (on_detector r1 i X)) <= / (2 * 10 ^ prec) /\
    Rabs (snd (on_detector r2 i (vadd X d)) - snd (on_detector r1 i X)) <= / (2 * 10 ^ prec).
Proof.
  intros g u v ax angles prec rc sv su s vol zr yr xr new dist g1 r1 g2 r2 H3 Eu Ev Ea Uu Vv UV Lv Lu Ls I T S1 R1 S2 R2 d i X Hi.
  unfold to_com in T. apply ebind_inv in T as (disp & B & T).
  assert (Ed : disp = [zr - com1 s 0 vol; yr - com1 s 1 vol; xr - com1 s 2 vol]).
  { destruct s as [|a [|b [|c [|]]]]; simpl in Ls; try lia. unfold bcast, com in B. simpl in B. now injection B as <-. }
  subst disp. pose proof (displaced_shifts g u v ax angles prec rc sv su _ _ _ new H3 Eu Ev Ea Lv Lu I T) as En. cbv zeta in En. subst new.
  set (cv := map _ angles) in S2 at 1. set (cu := map (fun a => vdot (rotvec_apply (vscal a ax) u) _) angles) in S2.
  assert (Lcv : length cv = length angles) by apply map_length. assert (Lcu : length cu = length angles) by apply map_length.
  destruct (placed_detector g u v ax angles sv su dist g1 r1 i H3 Eu Ev Ea Uu Vv UV Lv Lu Hi S1 R1) as (U1 & V1 & Du1 & Dv1).
  destruct (placed_detector g u v ax angles (map (np_around prec) (addrow sv cv)) (map (np_around prec) (addrow su cu)) dist g2 r2 i H3 Eu Ev Ea Uu Vv UV
    ltac:(rewrite map_length, addrow_length; lia) ltac:(rewrite map_length, addrow_length; lia) Hi S2 R2) as (U2 & V2 & Du2 & Dv2).
  unfold on_detector. cbn [fst snd]. rewrite U1, U2, V1, V2, Du1, Du2, Dv1, Dv2.
  set (ua := rotvec_apply (vscal (nth i angles 0) ax) u) in *. set (va := rotvec_apply (vscal (nth i angles 0) ax) v) in *.
  assert (A : forall r c w, length r = length angles -> length c = length angles -> nth i c 0 = vdot w d ->
     Rabs (vdot (vadd X d) w - (nth i (map (np_around prec) (addrow r c)) 0 + 0) - (vdot X w - (nth i r 0 + 0))) <= / (2 * 10 ^ prec)).
  { intros r c w Lr Lc Ec. rewrite (nth_indep _ 0 (np_around prec 0)) by (rewrite map_length, addrow_length; lia). rewrite map_nth, nth_addrow by lia. rewrite Ec.
    pose proof (around_near prec (nth i r 0 + vdot w d)) as Q. rewrite Rabs_minus_sym in Q.
    replace (vdot (vadd X d) w - (np_around prec (nth i r 0 + vdot w d) + 0) - (vdot X w - (nth i r 0 + 0))) with (nth i r 0 + vdot w d - np_around prec (nth i r 0 + vdot w d)); [exact Q|].
    unfold vdot, vadd. simpl. ring. }
  assert (Nv : nth i cv 0 = vdot va d).
  { unfold cv. rewrite (nth_indep _ 0 ((fun a => vdot (rotvec_apply (vscal a ax) v) d) 0)) by (now rewrite map_length). now rewrite (map_nth (fun a => vdot (rotvec_apply (vscal a ax) v) d)). }
  assert (Nu : nth i cu 0 = vdot ua d).
  { unfold cu. rewrite (nth_indep _ 0 ((fun a => vdot (rotvec_apply (vscal a ax) u) d) 0)) by (now rewrite map_length). now rewrite (map_nth (fun a => vdot (rotvec_apply (vscal a ax) u) d)). }
  split.
  - replace (vdot (vadd X d) va - (nth i (map (np_around prec) (addrow sv cv)) 0 + vdot (V3 0 dist 0) v) - (vdot X va - (nth i sv 0 + vdot (V3 0 dist 0) v)))
      with (vdot (vadd X d) va - (nth i (map (np_around prec) (addrow sv cv)) 0 + 0) - (vdot X va - (nth i sv 0 + 0))) by ring. now apply A.
  - replace (vdot (vadd X d) ua - (nth i (map (np_around prec) (addrow su cu)) 0 + vdot (V3 0 dist 0) u) - (vdot X ua - (nth i su 0 + vdot (V3 0 dist 0) u)))
      with (vdot (vadd X d) ua - (nth i (map (np_around prec) (addrow su cu)) 0 + 0) - (vdot X ua - (nth i su 0 + 0))) by ring. now apply A.
Qed.
(** The reference shows the volume displaced by t: both methods then move the detector by the projection of t. *)
Theorem C138_methods_agree : forall fit eps rc shifts s' n vol ref t, let s := s' ++ [n] in
  Forall (fun m => (2 <= m)%nat) s -> Nat.even n = true -> 0 < eps -> (forall f, fits fit 3 (centred 3) f) ->
  length t = length s -> Forall2 (fun m b => (- Z.of_nat m <= 2 * b < Z.of_nat m)%Z) s t ->
  displaced s t vol ref -> aperiodic s vol -> (exists l, inb s l /\ vol l <> 0) ->
  as_reference fit eps rc shifts s' n vol ref "com" = apply_displacement_vu rc shifts (map IZR t) /\
  as_reference fit eps rc shifts s' n vol ref "xc" = apply_displacement_vu rc shifts (map IZR t).
Proof.
  intros fit eps rc shifts s' n vol ref t s H2 Ev He F Lt Sm D A (l & Il & Nl).
  assert (P : pos s) by (eapply Forall_impl; [|exact H2]; cbv beta; intros; lia).
  assert (M : 0 < mass s vol). { unfold mass. apply (ProcPreProps.bsum_pos s _ l Il); [intros; apply Rabs_pos|]. now apply Rabs_pos_lt. }
  split; unfold as_reference; cbn [String.eqb Ascii.eqb Bool.eqb]; fold s.
  - unfold to_com. rewrite (displaced_com_all s t vol ref P Lt D M). reflexivity.
  - rewrite zyx_unpadded. destruct (C75_finds_shift fit true NormEach eps (rc_precision rc) s' n vol ref t H2) as (z & E & Hz); try assumption.
    + intros _. apply Nat.even_spec in Ev as [m Em]. exists m. split; [exact Em|]. unfold s in H2. apply Forall_app in H2 as [_ H2]. inversion H2; subst. lia.
    + now apply displaced_moved1.
    + rewrite E. cbn [ebind]. apply signed_small in Hz; [now rewrite Hz|exact Sm].
Qed.
(** unknown methods are refused, whatever the volumes *)
Theorem C138_unknown_method : forall fit eps rc shifts s' n vol ref m, m <> "com"%string -> m <> "xc"%string ->
  as_reference fit eps rc shifts s' n vol ref m = inl ValueError.
Proof.
  intros fit eps rc shifts s' n vol ref m H1 H2. unfold as_reference. apply String.eqb_neq in H1, H2. now rewrite H1, H2.
Qed.
(** a volume with the wrong number of dimensions for the geometry is refused *)
Theorem C138_wrong_dimension : forall rc shifts s vol com_ref nd, ndim (g_type (rc_geom rc)) = inr nd -> length com_ref = length s -> length s <> nd ->
  to_com rc shifts s vol com_ref = inl ValueError.
Proof.
  intros rc shifts s vol com_ref nd H Lc Ln. unfold to_com. assert (Lm : length (com s None vol) = length s) by (unfold com; now rewrite !map_length, seq_length).
  unfold bcast. rewrite Lm, Lc, Nat.eqb_refl. cbn [ebind]. unfold apply_displacement_vu.
  rewrite (C106_wrong_dimension_raises _ _ nd); [reflexivity|assumption|]. rewrite map_length, combine_length. lia.
Qed.
(** REFUTED: the two methods do not agree for displacements of half the frame or more: the registration is circular (pad_zyx is left
    False), so an object moved by 3 of 4 voxels is taken to have moved by -1. *)
Definition spike (l0 : list nat) : arr := fun l => if list_eq_dec Nat.eq_dec l l0 then 1 else 0.
Lemma spike_at l0 : spike l0 l0 = 1. Proof. unfold spike. destruct (list_eq_dec Nat.eq_dec l0 l0); [reflexivity|contradiction]. Qed.
Lemma spike_off l0 l : l <> l0 -> spike l0 l = 0. Proof. unfold spike. destruct (list_eq_dec Nat.eq_dec l l0); [contradiction|reflexivity]. Qed.
Lemma zadd_zeros m t : length t = m -> zadd (zl (repeat 0%nat m)) t = t.
Proof. intros <-. induction t; simpl; [reflexivity|]. now rewrite IHt. Qed.
Lemma tor_zl s l : inb s l -> tor s (zl l) = l.
Proof. induction 1; simpl; [reflexivity|]. f_equal; [now apply imod_small|assumption]. Qed.
Lemma spike_aperiodic s : pos s -> aperiodic s (spike (repeat 0%nat (length s))).
Proof.
  intros P j Ij H. set (o := repeat 0%nat (length s)) in *.
  assert (Io : inb s o). { unfold o. clear -P. induction P; simpl; constructor; assumption. }
  specialize (H o Io). rewrite spike_at in H. unfold tadd in H. unfold o in H at 2. rewrite zadd_zeros in H by (rewrite zl_length; now apply inb_length).
  rewrite tor_zl in H by exact Ij. destruct (list_eq_dec Nat.eq_dec j o) as [E|N]; [exact E|]. rewrite spike_off in H by exact N. lra.
Qed.
Lemma spike_displaced s t l0 l1 : inb s l0 -> inb s l1 -> zl l1 = translate t l0 -> length t = length s ->
  displaced s t (spike l0) (spike l1).
Proof.
  intros I0 I1 E Lt. assert (Inj : forall l, inb s l -> translate t l = translate t l0 -> l = l0).
  { intros l Il Q. apply zl_inj. unfold translate in Q. revert Q. assert (La : length l = length t) by (rewrite Lt; now apply inb_length). assert (Lb : length l0 = length t) by (rewrite Lt; now apply inb_length).
    clear -La Lb. revert l l0 La Lb. induction t as [|b t IH]; intros [|x l] [|y l0] La Lb Q; simpl in *; try lia; [reflexivity|]. injection Q as Q1 Q2. f_equal; [lia|]. apply IH; try lia. exact Q2. }
  split; [|split].
  - intros l Il N. destruct (list_eq_dec Nat.eq_dec l l0) as [->|X]; [rewrite <- E; now apply inZ_zl|]. now rewrite spike_off in N by exact X.
  - intros l m Il Im Q. destruct (list_eq_dec Nat.eq_dec l l0) as [->|X].
    + rewrite spike_at. assert (m = l1) by (apply zl_inj; congruence). subst. apply spike_at.
    + rewrite (spike_off l0 l X). apply spike_off. intros ->. apply X, Inj; [assumption|congruence].
  - intros m Im N. apply spike_off. intros ->. now apply (N l0 I0).
Qed.
Definition flat2 : prj_geom := mkPG GParallel2d [V3 0 (-1) 0] [vzero] [V3 1 0 0] [V3 0 0 1] [V3 0 0 (-1)] 1 None.
Theorem C138_large_displacement_refuted : exists fit eps rc vol ref,
  (forall f, fits fit 3 (centred 3) f) /\ recenter_init flat2 [0] 2 = inr rc /\ displaced [4; 4]%nat [0; 3]%Z vol ref /\
  as_reference fit eps rc [[0]] [4%nat] 4 vol ref "com" = inr [[3]] /\ as_reference fit eps rc [[0]] [4%nat] 4 vol ref "xc" = inr [[-1]].
Proof.
  set (fit := fun (_ : nat) (_ ys : vec) => interp3 ys).
  destruct (recenter_init flat2 [0] 2) as [e|rc] eqn:I; [discriminate|].
  assert (P : pos [4; 4]%nat) by (repeat constructor).
  assert (D : displaced [4; 4]%nat [0; 3]%Z (spike [0; 0]%nat) (spike [0; 3]%nat)).
  { apply spike_displaced; [repeat constructor; lia|repeat constructor; lia|reflexivity|reflexivity]. }
  assert (Hrc : rc_geom rc = mkPG GParallel2d (g_src (rc_geom rc)) (g_det (rc_geom rc)) [V3 1 0 0] (g_v (rc_geom rc)) (g_rot flat2) 1 None /\ rc_precision rc = 2%nat).
  { unfold recenter_init in I. apply ebind_inv in I as (g' & Rt & I). injection I as <-. cbn [rc_geom rc_precision]. split; [|reflexivity].
    pose proof (rotated_row flat2 (V3 1 0 0) (V3 0 0 (-1)) [0] g' g_u ltac:(simpl; tauto) eq_refl eq_refl Rt) as Hu. cbn [map] in Hu. rewrite rotvec_0 in Hu.
    apply rotate_inv in Rt as (? & _ & _ & Ht & Hr & Hra & Hs). destruct g'; simpl in *. now subst. }
  destruct Hrc as [Hg Hp].
  assert (AD : forall x : Z, apply_displacement_vu rc [[0]] [0; IZR x] = inr [[IZR x]]).
  { intros x. unfold apply_displacement_vu. rewrite Hg, Hp. rewrite C106_displacement_2d by reflexivity. cbn [ebind g_u map vx vy]. unfold rows_add, bcast. cbn [List.length Nat.eqb combine map fst snd ebind eseq].
    do 3 f_equal. transitivity (np_around 2 (IZR x)); [f_equal; ring|apply around_Z]. }
  exists fit, 1, rc, (spike [0; 0]%nat), (spike [0; 3]%nat). split; [intros f; apply interp_fits|]. split; [reflexivity|]. split; [exact D|]. split.
  - unfold as_reference. cbn [String.eqb Ascii.eqb Bool.eqb app]. unfold to_com. rewrite (displaced_com_all [4; 4]%nat [0; 3]%Z); [|assumption|reflexivity|exact D|].
    + cbn [ebind map]. apply AD.
    + unfold mass. apply (ProcPreProps.bsum_pos _ _ [0; 0]%nat); [repeat constructor; lia|intros; apply Rabs_pos|]. rewrite spike_at, Rabs_R1. lra.
  - unfold as_reference. cbn [String.eqb Ascii.eqb Bool.eqb app]. rewrite zyx_unpadded.
    destruct (C75_finds_shift fit true NormEach 1 (rc_precision rc) [4%nat] 4 (spike [0; 0]%nat) (spike [0; 3]%nat) [0; 3]%Z) as (z & E & Hz).
    + repeat constructor; lia.
    + intros _. exists 2%nat. split; [reflexivity|lia].
    + lra.
    + reflexivity.
    + intros f. apply interp_fits.
    + now apply displaced_moved1.
    + apply (spike_aperiodic [4; 4]%nat P).
    + rewrite E. cbn [app signed_all] in Hz. destruct z as [|a [|b [|]]]; try (exfalso; cbn in Hz; tauto). destruct Hz as [[A1 A2] [[B1 B2] _]].
      change (0 mod Z.of_nat 4)%Z with 0%Z in A1. change (3 mod Z.of_nat 4)%Z with 3%Z in B1. change (Z.of_nat 4) with 4%Z in *.
      assert (a = 0)%Z. { pose proof (Z.div_mod a 4 ltac:(lia)). lia. } assert (b = -1)%Z. { pose proof (Z.div_mod b 4 ltac:(lia)). lia. }
      subst. cbn [map ebind]. apply AD.
Qed.
Example C138_example : exists rc new g1 r1 g2 r2, let g := mkPG GParallel3d [V3 0 (-1) 0] [vzero] [V3 1 0 0] [V3 0 0 1] [V3 0 0 (-1)] 1 None in
  recenter_init g [0; 1] 2 = inr rc /\ to_com rc [[5; 6]; [7; 8]] [2; 2; 2]%nat (spike [0; 1; 1]%nat) [1; 0; 0] = inr new /\
  set_detector_shifts_vu g (Some [[5; 6]; [7; 8]]) None [0] = inr g1 /\ rotate g1 [0; 1] false = inr r1 /\
  set_detector_shifts_vu g (Some new) None [0] = inr g2 /\ rotate g2 [0; 1] false = inr r2.
Proof. do 6 eexists. cbv zeta. split; [reflexivity|]. split; [reflexivity|]. split; [reflexivity|]. split; [reflexivity|]. split; reflexivity. Qed.
