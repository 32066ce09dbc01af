(** C48, C51, C101-C104: rigid motions of the projection geometry (models.py). *)
From Coq Require Import Lra Lia String Nsatz.
From Verif Require Import Sums PyErr GeometryModel.
Import ListNotations.
Local Open Scope R_scope.

(** * Vector algebra *)
Lemma vec3_eq a b : vx a = vx b -> vy a = vy b -> vz a = vz b -> a = b.
Proof. destruct a, b; simpl; intros; subst; reflexivity. Qed.
Ltac v3 := apply vec3_eq; unfold vadd, vscal, vcross, vzero, vdot; simpl; try ring.
Lemma vdot_self_nonneg a : 0 <= vdot a a.
Proof. unfold vdot. nra. Qed.
Lemma vnorm_nonneg a : 0 <= vnorm a.
Proof. apply sqrt_pos. Qed.
Lemma vnorm_sq a : vnorm a * vnorm a = vdot a a.
Proof. apply sqrt_sqrt, vdot_self_nonneg. Qed.
Lemma vnorm_0_inv a : vnorm a = 0 -> a = vzero.
Proof.
  intros H. pose proof (vnorm_sq a) as Hs. rewrite H in Hs. unfold vdot in Hs. apply vec3_eq; simpl; nra.
Qed.
Lemma vnorm_zero : vnorm vzero = 0.
Proof. unfold vnorm, vdot, vzero; simpl. replace (0*0+0*0+0*0) with 0 by ring. apply sqrt_0. Qed.
Lemma vdot_scal s t a b : vdot (vscal s a) (vscal t b) = s * t * vdot a b.
Proof. unfold vdot, vscal; simpl; ring. Qed.
Lemma vnorm_scal s a : vnorm (vscal s a) = Rabs s * vnorm a.
Proof.
  unfold vnorm. rewrite vdot_scal. rewrite sqrt_mult by (first [apply vdot_self_nonneg | nra]).
  fold (Rsqr s). rewrite sqrt_Rsqr_abs. reflexivity.
Qed.
Lemma vdot_comm a b : vdot a b = vdot b a.
Proof. unfold vdot; ring. Qed.

(** Rodrigues' formula in terms of the cross product alone, for a unit axis *)
Lemma rodrigues_cross k th v : vdot k k = 1 ->
  rodrigues k th v = vadd v (vadd (vscal (sin th) (vcross k v)) (vscal (1 - cos th) (vcross k (vcross k v)))).
Proof.
  intros Hk. unfold rodrigues. unfold vdot in Hk.
  apply vec3_eq; unfold vadd, vscal, vcross, vdot; simpl.
  - transitivity (cos th * vx v + (sin th * (vy k * vz v - vz k * vy v) + (1 - cos th) * (vx k * vx v + vy k * vy v + vz k * vz v) * vx k)
       + (1 - cos th) * vx v * (1 - (vx k * vx k + vy k * vy k + vz k * vz k))); [rewrite Hk; ring | ring].
  - transitivity (cos th * vy v + (sin th * (vz k * vx v - vx k * vz v) + (1 - cos th) * (vx k * vx v + vy k * vy v + vz k * vz v) * vy k)
       + (1 - cos th) * vy v * (1 - (vx k * vx k + vy k * vy k + vz k * vz k))); [rewrite Hk; ring | ring].
  - transitivity (cos th * vz v + (sin th * (vx k * vy v - vy k * vx v) + (1 - cos th) * (vx k * vx v + vy k * vy v + vz k * vz v) * vz k)
       + (1 - cos th) * vz v * (1 - (vx k * vx k + vy k * vy k + vz k * vz k))); [rewrite Hk; ring | ring].
Qed.
Lemma vcross_add k a b : vcross k (vadd a b) = vadd (vcross k a) (vcross k b).
Proof. v3. Qed.
Lemma vcross_scal k s a : vcross k (vscal s a) = vscal s (vcross k a).
Proof. v3. Qed.
Lemma vcross3 k v : vdot k k = 1 -> vcross k (vcross k (vcross k v)) = vscal (-1) (vcross k v).
Proof.
  intros Hk. transitivity (vscal (- vdot k k) (vcross k v)); [v3|]. rewrite Hk. v3.
Qed.
Lemma rodrigues_add k a b v : vdot k k = 1 -> rodrigues k b (rodrigues k a v) = rodrigues k (a + b) v.
Proof.
  intros Hk. rewrite !rodrigues_cross by assumption. rewrite sin_plus, cos_plus.
  repeat rewrite ?vcross_add, ?vcross_scal.
  rewrite !(vcross3 k v Hk), ?vcross_scal.
  set (K1 := vcross k v). set (K2 := vcross k K1). v3.
Qed.
Lemma rodrigues_0 k v : rodrigues k 0 v = v.
Proof. unfold rodrigues. rewrite sin_0, cos_0. v3. Qed.
Lemma rodrigues_opp k th v : rodrigues (vscal (-1) k) (- th) v = rodrigues k th v.
Proof. unfold rodrigues. rewrite sin_neg, cos_neg. v3. Qed.
Lemma sc1 th : sin th * sin th + cos th * cos th = 1.
Proof. pose proof (sin2_cos2 th) as H. unfold Rsqr in H. lra. Qed.
Lemma rodrigues_dot k th a b : vdot k k = 1 -> vdot (rodrigues k th a) (rodrigues k th b) = vdot a b.
Proof.
  intros Hk. rewrite !rodrigues_cross by assumption.
  set (s := sin th). set (c := cos th).
  assert (Hsc : s * s + c * c = 1) by apply sc1.
  set (A1 := vcross k a). set (A2 := vcross k A1). set (B1 := vcross k b). set (B2 := vcross k B1).
  (* adjoint relations: <k x p, q> = - <p, k x q> *)
  assert (adj : forall p q, vdot (vcross k p) q = - vdot p (vcross k q)) by (intros; unfold vdot, vcross; simpl; ring).
  assert (E1 : vdot a B1 = - vdot A1 b) by (unfold A1, B1; rewrite adj; ring).
  assert (E2 : vdot a B2 = - vdot A1 B1) by (unfold A1, B2; rewrite adj; ring).
  assert (E3 : vdot A2 b = - vdot A1 B1) by (unfold A2, B1; rewrite adj; ring).
  assert (E4 : vdot A1 B2 = - vdot A1 b).
  { unfold A1 at 1. rewrite adj. unfold B2, B1. rewrite vcross3 by assumption.
    replace (vdot a (vscal (-1) (vcross k b))) with (- vdot a (vcross k b)) by (unfold vdot, vscal; simpl; ring).
    fold B1. rewrite E1. ring. }
  assert (E5 : vdot A2 B1 = vdot A1 b).
  { unfold A2. rewrite adj. fold B2. rewrite E4. ring. }
  assert (E6 : vdot A2 B2 = vdot A1 B1).
  { unfold A2. rewrite adj. unfold B2, B1. rewrite vcross3 by assumption. unfold vdot, vscal; simpl; ring. }
  transitivity (vdot a b + s * vdot a B1 + (1 - c) * vdot a B2 + s * vdot A1 b + s * s * vdot A1 B1 + s * (1 - c) * vdot A1 B2
     + (1 - c) * vdot A2 b + (1 - c) * s * vdot A2 B1 + (1 - c) * (1 - c) * vdot A2 B2).
  { unfold vdot, vadd, vscal; simpl; ring. }
  rewrite E1, E2, E3, E4, E5, E6.
  transitivity (vdot a b + (s * s + c * c - 1) * vdot A1 B1); [ring|]. rewrite Hsc. ring.
Qed.
(** orientation is preserved: rotations commute with the cross product *)
Lemma rodrigues_vcross k th a b : vdot k k = 1 ->
  vcross (rodrigues k th a) (rodrigues k th b) = rodrigues k th (vcross a b).
Proof.
  intros Hk. unfold rodrigues. pose proof (sc1 th) as Hs. set (s := sin th) in *. set (c := cos th) in *.
  clearbody s c.
  destruct k as [kx ky kz], a as [ax ay az], b as [bx by_ bz]. unfold vdot in Hk; simpl in Hk.
  apply vec3_eq; unfold vadd, vscal, vcross, vdot; simpl; nsatz.
Qed.

(** * Rotation vectors *)
Lemma rotvec_scal a d v : rotvec_apply (vscal a d) v =
  if Req_EM_T (vnorm d) 0 then v else rodrigues (vscal (/ vnorm d) d) (a * vnorm d) v.
Proof.
  unfold rotvec_apply. rewrite vnorm_scal.
  destruct (Req_EM_T (vnorm d) 0) as [Hd|Hd].
  - rewrite Hd, Rmult_0_r. destruct (Req_EM_T 0 0); [reflexivity|contradiction].
  - destruct (Req_EM_T (Rabs a * vnorm d) 0) as [Ha|Ha].
    + assert (Ha0 : Rabs a = 0) by (apply Rmult_integral in Ha; tauto).
      assert (a = 0) by (destruct (Req_dec a 0) as [|Hn]; [assumption|]; apply Rabs_no_R0 in Hn; contradiction).
      subst a. rewrite Rmult_0_l, rodrigues_0. reflexivity.
    + assert (Hn : Rabs a <> 0) by (intros E; apply Ha; rewrite E; ring).
      unfold Rabs in *. destruct (Rcase_abs a) as [Hlt|Hge].
      * rewrite <- rodrigues_opp. rewrite Ropp_mult_distr_l, Ropp_involutive. f_equal. v3; field; split; lra.
      * f_equal. v3; field; split; lra.
Qed.
Lemma unit_dir d : vnorm d <> 0 -> vdot (vscal (/ vnorm d) d) (vscal (/ vnorm d) d) = 1.
Proof. intros H. rewrite vdot_scal, <- vnorm_sq. field. assumption. Qed.
Lemma rotvec_0 d v : rotvec_apply (vscal 0 d) v = v.
Proof. rewrite rotvec_scal. destruct (Req_EM_T (vnorm d) 0); [reflexivity|]. rewrite Rmult_0_l. apply rodrigues_0. Qed.
Lemma rotvec_add a b d v : rotvec_apply (vscal b d) (rotvec_apply (vscal a d) v) = rotvec_apply (vscal (a + b) d) v.
Proof.
  rewrite !rotvec_scal. destruct (Req_EM_T (vnorm d) 0); [reflexivity|].
  rewrite rodrigues_add by (apply unit_dir; assumption). f_equal. ring.
Qed.
Lemma rotvec_dot r a b : vdot (rotvec_apply r a) (rotvec_apply r b) = vdot a b.
Proof.
  unfold rotvec_apply. destruct (Req_EM_T (vnorm r) 0); [reflexivity|]. apply rodrigues_dot, unit_dir. assumption.
Qed.
Lemma rotvec_cross r a b : vcross (rotvec_apply r a) (rotvec_apply r b) = rotvec_apply r (vcross a b).
Proof.
  unfold rotvec_apply. destruct (Req_EM_T (vnorm r) 0); [reflexivity|]. apply rodrigues_vcross, unit_dir. assumption.
Qed.
Lemma rotvec_axis a d : rotvec_apply (vscal a d) d = d.
Proof.
  rewrite rotvec_scal. destruct (Req_EM_T (vnorm d) 0) as [|Hd]; [reflexivity|].
  rewrite rodrigues_cross by (apply unit_dir; assumption).
  replace (vcross (vscal (/ vnorm d) d) d) with vzero by v3. v3.
Qed.
Lemma rotvec_period a d v : vnorm d = 1 -> rotvec_apply (vscal (a + 2 * PI) d) v = rotvec_apply (vscal a d) v.
Proof.
  intros H. rewrite !rotvec_scal, H. destruct (Req_EM_T 1 0); [reflexivity|].
  unfold rodrigues. rewrite !Rmult_1_r.
  replace (sin (a + 2 * PI)) with (sin a) by (pose proof (sin_period a 1) as Hp; simpl INR in Hp; rewrite <- Hp; f_equal; ring).
  replace (cos (a + 2 * PI)) with (cos a) by (pose proof (cos_period a 1) as Hp; simpl INR in Hp; rewrite <- Hp; f_equal; ring).
  reflexivity.
Qed.

(** * Broadcasting *)
Definition brow {A} (d : A) (l : list A) (i : nat) : A := nth (if Nat.eqb (List.length l) 1 then 0%nat else i) l d.
Lemma bcast_inv {A B C} (f : A -> B -> C) la lb l : bcast f la lb = inr l ->
  List.length l = (if Nat.eqb (List.length la) 1 then List.length lb else List.length la) /\
  (List.length la = List.length lb \/ List.length la = 1%nat \/ List.length lb = 1%nat) /\
  forall da db dc i, (i < List.length l)%nat -> nth i l dc = f (brow da la i) (brow db lb i).
Proof.
  unfold bcast. destruct (Nat.eqb_spec (List.length la) (List.length lb)) as [He|He].
  - intros H. injection H as <-. rewrite map_length, combine_length, <- He, Nat.min_id.
    split; [destruct (Nat.eqb_spec (List.length la) 1); congruence|]. split; [auto|].
    intros da db dc i Hi.
    rewrite (nth_indep _ dc (f da db)) by (rewrite map_length, combine_length; lia).
    rewrite (map_nth (fun p => f (fst p) (snd p)) (combine la lb) (da, db)).
    rewrite combine_nth by assumption. simpl. unfold brow. rewrite <- He.
    destruct (Nat.eqb_spec (List.length la) 1) as [E1|]; [|reflexivity].
    replace i with 0%nat by lia. reflexivity.
  - destruct la as [|a [|a' la]].
    + destruct lb as [|b [|b' lb]]; simpl in *; try (intros; congruence); try lia.
      intros H; injection H as <-. simpl. repeat split; auto. intros; lia.
    + intros H; injection H as <-. rewrite map_length. cbn [List.length Nat.eqb]. repeat split; auto.
      intros da db dc i Hi. rewrite (nth_indep _ dc (f a db)) by (rewrite map_length; lia).
      rewrite (map_nth (f a) lb db). unfold brow. simpl.
      destruct (Nat.eqb_spec (List.length lb) 1) as [E1|]; [|reflexivity]. simpl in He. lia.
    + destruct lb as [|b [|b' lb]]; try (intros; congruence).
      intros H. assert (E : l = map (fun a0 => f a0 b) (a :: a' :: la)) by (injection H as <-; reflexivity). subst l. clear H.
      rewrite map_length. simpl List.length. cbn [Nat.eqb]. repeat split; auto.
      intros da db dc i Hi. rewrite (nth_indep _ dc (f da b)) by (rewrite map_length; exact Hi).
      rewrite (map_nth (fun a => f a b) (a :: a' :: la) da). unfold brow. simpl List.length. reflexivity.
Qed.
Lemma bcast_single_l {A B C} (f : A -> B -> C) a lb : bcast f [a] lb = inr (map (f a) lb).
Proof.
  unfold bcast. simpl. destruct lb as [|b [|b' lb]]; reflexivity.
Qed.
Lemma bcast_same {A B C} (f : A -> B -> C) la lb : List.length la = List.length lb ->
  bcast f la lb = inr (map (fun p => f (fst p) (snd p)) (combine la lb)).
Proof. intros H. unfold bcast. rewrite H, Nat.eqb_refl. reflexivity. Qed.
Lemma bcast_single_r {A B C} (f : A -> B -> C) la b : bcast f la [b] = inr (map (fun a => f a b) la).
Proof. destruct la as [|a [|a' la]]; reflexivity. Qed.

Lemma ebind_inv {A B} (x : py_err + A) (f : A -> py_err + B) y : ebind x f = inr y -> exists a, x = inr a /\ f a = inr y.
Proof. destruct x; simpl; [discriminate|eauto]. Qed.

(** * C48 *)
Definition fields : list (prj_geom -> list vec3) := [g_src; g_det; g_u; g_v].
(** the sign applied to the angles: reversed exactly for 2-D geometries when the ASTRA patch is requested *)
Definition eff_angle (g : prj_geom) (patch : bool) (a : R) : R :=
  if patch then match g_type g with GParallel2d | GFanflat => - a | _ => a end else a.

Lemma rotate_inv g angles patch g' : rotate g angles patch = inr g' ->
  exists rots, bcast vscal (map (eff_angle g patch) angles) (g_rot g) = inr rots /\
    (forall f, In f fields -> bcast rotvec_apply rots (f g) = inr (f g')) /\
    g_type g' = g_type g /\ g_rot g' = g_rot g /\ g_ratio g' = g_ratio g /\ g_shape g' = g_shape g.
Proof.
  unfold rotate. intros H.
  apply ebind_inv in H as (neg & Hneg & H). cbv zeta in H.
  apply ebind_inv in H as (rots & Hr & H).
  apply ebind_inv in H as (s & Hs & H). apply ebind_inv in H as (d & Hd & H).
  apply ebind_inv in H as (u & Hu & H). apply ebind_inv in H as (v & Hv & H).
  injection H as <-. exists rots.
  replace (map (eff_angle g patch) angles) with (if neg then map Ropp angles else angles).
  2:{ unfold eff_angle. destruct patch.
      - destruct (g_type g); simpl in Hneg; try discriminate; injection Hneg as <-; simpl;
          first [reflexivity | symmetry; apply map_id].
      - injection Hneg as <-. symmetry; apply map_id. }
  split; [assumption|]. split; [|repeat split].
  intros f [<-|[<-|[<-|[<-|[]]]]]; simpl; assumption.
Qed.

Theorem C48_rotate_rows g angles patch g' : rotate g angles patch = inr g' ->
  forall f, In f fields -> forall i, (i < List.length (f g'))%nat ->
    nth i (f g') vzero =
      rotvec_apply (vscal (eff_angle g patch (brow 0 angles i)) (brow vzero (g_rot g) i)) (brow vzero (f g) i).
Proof.
  intros H f Hf i Hi. apply rotate_inv in H as (rots & Hr & Hall & _).
  specialize (Hall f Hf).
  destruct (bcast_inv _ _ _ _ Hall) as (L1 & D1 & N1). rewrite (N1 vzero vzero vzero i Hi). f_equal.
  destruct (bcast_inv _ _ _ _ Hr) as (L2 & D2 & N2). rewrite map_length in *.
  assert (E0 : brow 0 (map (eff_angle g patch) angles) i = eff_angle g patch (brow 0 angles i)).
  { unfold brow. rewrite map_length. change 0 with (eff_angle g false 0) at 1.
    replace (eff_angle g false 0) with (eff_angle g patch 0).
    - apply map_nth.
    - unfold eff_angle. destruct patch, (g_type g); ring. }
  rewrite <- E0. unfold brow at 1.
  destruct (Nat.eqb_spec (List.length rots) 1) as [E1|E1].
  - rewrite (N2 0 vzero vzero 0%nat) by lia.
    destruct (Nat.eqb_spec (List.length angles) 1) as [Ea|Ea].
    + rewrite L2 in E1. f_equal; unfold brow; rewrite ?map_length, ?Ea, ?E1; reflexivity.
    + lia.
  - apply N2. destruct (Nat.eqb_spec (List.length rots) 1); [lia|]. destruct D1 as [D1|[D1|D1]]; lia.
Qed.

Theorem C48_rotate_rigid g angles patch g' : rotate g angles patch = inr g' ->
  forall f1 f2, In f1 fields -> In f2 fields ->
  forall i, (i < List.length (f1 g'))%nat -> (i < List.length (f2 g'))%nat ->
    vdot (nth i (f1 g') vzero) (nth i (f2 g') vzero) = vdot (brow vzero (f1 g) i) (brow vzero (f2 g) i).
Proof.
  intros H f1 f2 H1 H2 i Hi1 Hi2.
  rewrite (C48_rotate_rows _ _ _ _ H f1 H1 i Hi1), (C48_rotate_rows _ _ _ _ H f2 H2 i Hi2). apply rotvec_dot.
Qed.

Theorem C48_rotate_keeps_orientation g angles patch g' : rotate g angles patch = inr g' ->
  forall f1 f2 f3, In f1 fields -> In f2 fields -> In f3 fields ->
  forall i, (i < List.length (f1 g'))%nat -> (i < List.length (f2 g'))%nat -> (i < List.length (f3 g'))%nat ->
    vdot (vcross (nth i (f1 g') vzero) (nth i (f2 g') vzero)) (nth i (f3 g') vzero)
    = vdot (vcross (brow vzero (f1 g) i) (brow vzero (f2 g) i)) (brow vzero (f3 g) i).
Proof.
  intros H f1 f2 f3 H1 H2 H3 i Hi1 Hi2 Hi3.
  rewrite (C48_rotate_rows _ _ _ _ H f1 H1 i Hi1), (C48_rotate_rows _ _ _ _ H f2 H2 i Hi2),
    (C48_rotate_rows _ _ _ _ H f3 H3 i Hi3). rewrite rotvec_cross. apply rotvec_dot.
Qed.

Lemma map_rot0 d l : map (rotvec_apply (vscal 0 d)) l = l.
Proof. rewrite <- (map_id l) at 2. apply map_ext. intros; apply rotvec_0. Qed.
Theorem C48_rotate_zero g d patch : g_rot g = [d] -> (g_type g <> GOther \/ patch = false) ->
  rotate g [0] patch = inr g.
Proof.
  intros Hd Ht. unfold rotate.
  assert (E : exists neg, (if patch then ebind (ndim (g_type g)) (fun nd => inr (Nat.eqb nd 2)) else inr false) = inr neg).
  { destruct patch; [|eauto]. destruct (g_type g); simpl; eauto. destruct Ht; congruence. }
  destruct E as [neg ->]. cbn [ebind].
  replace (if neg then map Ropp [0] else [0]) with [0] by (destruct neg; simpl; rewrite ?Ropp_0; reflexivity).
  rewrite Hd, bcast_single_l. cbn [ebind map]. rewrite !bcast_single_l. cbn [ebind].
  rewrite !map_rot0. destruct g; simpl in *; subst; reflexivity.
Qed.

Lemma comp_bcast d l n as_ bs : (List.length as_ = n) -> List.length bs = n ->
  (List.length l = 1 \/ List.length l = n \/ n = 1)%nat ->
  ebind (bcast rotvec_apply (map (fun a => vscal a d) as_) l) (fun l1 => bcast rotvec_apply (map (fun b => vscal b d) bs) l1)
  = bcast rotvec_apply (map (fun p => vscal (fst p + snd p) d) (combine as_ bs)) l.
Proof.
  intros Ha Hb Hl.
  assert (Lc : List.length (combine as_ bs) = n) by (rewrite combine_length; lia).
  destruct (Nat.eq_dec n 1) as [En|En].
  - rewrite En in Ha, Hb. destruct as_ as [|a [|]]; simpl in Ha; try lia. destruct bs as [|b [|]]; simpl in Hb; try lia.
    cbn [map combine fst snd]. rewrite !bcast_single_l. cbn [ebind]. rewrite bcast_single_l.
    f_equal. rewrite map_map. apply map_ext. intros v. rewrite rotvec_add. reflexivity.
  - destruct (Nat.eq_dec (List.length l) 1) as [E1|E1].
    + destruct l as [|v [|]]; simpl in E1; try lia.
      rewrite !bcast_single_r. cbn [ebind]. rewrite bcast_same by (rewrite !map_length; lia).
      f_equal. clear Lc Hl En E1. revert bs n Ha Hb. induction as_ as [|a as_ IH]; intros bs n Ha Hb.
      * destruct bs; reflexivity.
      * destruct bs as [|b bs]; [simpl in *; lia|]. simpl. f_equal; [apply rotvec_add|]. apply (IH bs (n - 1)%nat); simpl in *; lia.
    + assert (El : List.length l = n) by (destruct Hl as [?|[?|?]]; lia).
      rewrite !bcast_same by (rewrite ?map_length; lia). cbn [ebind].
      rewrite bcast_same by (rewrite !map_length, combine_length, map_length; lia).
      f_equal. clear Hl Lc En E1. revert bs l n Ha Hb El. induction as_ as [|a as_ IH]; intros bs l n Ha Hb El.
      * destruct bs; [destruct l; reflexivity|simpl in *; lia].
      * destruct bs as [|b bs]; [simpl in *; lia|]. destruct l as [|v l]; [simpl in *; lia|].
        simpl. f_equal; [apply rotvec_add|]. apply (IH bs l (n - 1)%nat); simpl in *; lia.
Qed.
Lemma rotate_plain g angles d : g_rot g = [d] -> rotate g angles false =
  let rots := map (fun a => vscal a d) angles in
  ebind (bcast rotvec_apply rots (g_src g)) (fun s =>
  ebind (bcast rotvec_apply rots (g_det g)) (fun e =>
  ebind (bcast rotvec_apply rots (g_u g)) (fun u =>
  ebind (bcast rotvec_apply rots (g_v g)) (fun v =>
  inr (mkPG (g_type g) s e u v (g_rot g) (g_ratio g) (g_shape g)))))).
Proof. intros Hd. unfold rotate. cbn [ebind]. rewrite Hd, bcast_single_r. reflexivity. Qed.

Lemma bcast_ok {A B C} (f : A -> B -> C) la lb : (List.length la = List.length lb \/ List.length la = 1%nat \/ List.length lb = 1%nat) ->
  exists l, bcast f la lb = inr l.
Proof.
  unfold bcast. destruct (Nat.eqb_spec (List.length la) (List.length lb)) as [He|He]; [eauto|].
  intros [H|[H|H]]; [lia| |].
  - destruct la as [|a [|]]; simpl in H; try lia. eauto.
  - destruct lb as [|b [|]]; simpl in H; try lia. destruct la as [|a [|]]; eauto.
Qed.

(** every field has one row or as many rows as there are angles *)
Definition rows_ok (g : prj_geom) (n : nat) : Prop :=
  forall f, In f fields -> (List.length (f g) = 1 \/ List.length (f g) = n \/ n = 1)%nat.

Theorem C48_rotate_composes g d as_ bs : g_rot g = [d] -> List.length as_ = List.length bs -> rows_ok g (List.length as_) ->
  ebind (rotate g as_ false) (fun g1 => rotate g1 bs false) = rotate g (map (fun p => fst p + snd p) (combine as_ bs)) false.
Proof.
  intros Hd Hl Hok.
  rewrite (rotate_plain g _ d Hd). rewrite (rotate_plain g (map _ _) d Hd). cbv zeta.
  rewrite !map_map. cbv beta.
  assert (Hs : forall f, In f fields -> exists l1 l2,
    bcast rotvec_apply (map (fun a => vscal a d) as_) (f g) = inr l1 /\
    bcast rotvec_apply (map (fun b => vscal b d) bs) l1 = inr l2 /\
    bcast rotvec_apply (map (fun p => vscal (fst p + snd p) d) (combine as_ bs)) (f g) = inr l2).
  { intros f Hf. specialize (Hok f Hf).
    pose proof (comp_bcast d (f g) (List.length as_) as_ bs eq_refl (eq_sym Hl) Hok) as Hc.
    destruct (bcast_ok rotvec_apply (map (fun a => vscal a d) as_) (f g)) as [l1 H1]; [rewrite map_length; lia|].
    rewrite H1 in Hc. cbn [ebind] in Hc.
    destruct (bcast_ok rotvec_apply (map (fun p => vscal (fst p + snd p) d) (combine as_ bs)) (f g)) as [l2 H2].
    { rewrite map_length, combine_length. lia. }
    exists l1, l2. rewrite Hc, H2. auto. }
  destruct (Hs g_src) as (s1 & s2 & S1 & S2 & S3); [simpl; tauto|].
  destruct (Hs g_det) as (e1 & e2 & E1 & E2 & E3); [simpl; tauto|].
  destruct (Hs g_u) as (u1 & u2 & U1 & U2 & U3); [simpl; tauto|].
  destruct (Hs g_v) as (v1 & v2 & W1 & W2 & W3); [simpl; tauto|].
  rewrite S1, E1, U1, W1, S3, E3, U3, W3. cbn [ebind].
  rewrite (rotate_plain _ _ d) by (simpl; assumption). cbv zeta. cbn [g_src g_det g_u g_v g_type g_rot g_ratio g_shape].
  rewrite S2, E2, U2, W2. reflexivity.
Qed.

(** direction of rotation: the default clockwise axis, U turns from +x towards -y, the source from -y towards -x *)
Theorem C48_default_clockwise a : rotate (mkPG GParallel3d [V3 0 (-1) 0] [vzero] [V3 1 0 0] [V3 0 0 1] [V3 0 0 (-1)] 1 None) [a] false
  = inr (mkPG GParallel3d [V3 (- sin a) (- cos a) 0] [vzero] [V3 (cos a) (- sin a) 0] [V3 0 0 1] [V3 0 0 (-1)] 1 None).
Proof.
  rewrite (rotate_plain _ _ (V3 0 0 (-1))) by reflexivity. cbv zeta. cbn [map g_src g_det g_u g_v g_type g_rot g_ratio g_shape].
  rewrite !bcast_single_l. cbn [ebind map]. rewrite !rotvec_scal.
  assert (N : vnorm (V3 0 0 (-1)) = 1).
  { unfold vnorm, vdot; simpl. replace (0 * 0 + 0 * 0 + -1 * -1) with 1 by ring. apply sqrt_1. }
  rewrite N. destruct (Req_EM_T 1 0); [lra|]. rewrite Rmult_1_r, Rinv_1.
  repeat f_equal; unfold rodrigues; v3.
Qed.

Example C48_ex : exists g, rows_ok g 3 /\ g_rot g = [V3 0 0 (-1)] /\
  exists g', rotate g [0; 1; 2] false = inr g' /\ List.length (g_src g') = 3%nat /\ List.length (g_det g') = 3%nat.
Proof.
  exists (mkPG GParallel3d [V3 0 (-1) 0] [vzero] [V3 1 0 0] [V3 0 0 1] [V3 0 0 (-1)] 1 None).
  split. { intros f [<-|[<-|[<-|[<-|[]]]]]; simpl; lia. }
  split; [reflexivity|]. eexists. split; [reflexivity|]. split; reflexivity.
Qed.
