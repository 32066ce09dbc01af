(** C153: the gradient regularisers (TV, smooth) inside PDHG. *)
From Coq Require Import FunctionalExtensionality.
From Verif Require Import Sums Arrays DataTermsModel DataTermsProofs SolversModel SolversSpec SolversGeneric SolversProps
  RegularizersModel SolversConv SolversConvProps SolversOptProps OperatorsModel OperatorsProps RegularizersMore RegularizersProps
  FourierBox PdhgConv PdhgConvProps PdhgExistProps.

(** * The object of the code, on arrays stored flat (row-major) *)
(** regularizers.py:260-273 [Regularizer_Grad.initialize_sigma_tau] with the base class methods: operator
    TransformGradient(shape, axes, pad_mode), sigma 0.5, returned value 2 ndims (times the weight if the norm is not
    of l1 type); scalar weight, no update mask.  [k]: RS_l12 nax N for TV (default norm), RS_l2 for smooth, RS_l1.
    Entries outside the arrays do not exist in the code and are 0 here. *)
Definition on (d : nat) (v : vec) : vec := fun i => if Nat.ltb i d then v i else 0.
Definition grad_reg (s : list nat) (axes : list Z) (mode : pad_mode) (k : rkind) (w : R) : reg :=
  let T := transform_gradient s axes mode in
  base_reg (fun x => on (length axes * size s) (flatten (length axes :: s) (call T (reshape s x))))
    (fun d => on (size s) (flatten s (call (transpose T) (reshape (length axes :: s) d))))
    (fun _ => grad_sigma) (fun _ => match k with RS_l2 => w * grad_tau (length axes) | _ => grad_tau (length axes) end) (fun _ => w) None (model_kind k).
Definition tv_reg s axes mode w := grad_reg s axes mode (RS_l12 (length axes) (size s)) w.
Definition smooth_reg s axes mode w := grad_reg s axes mode RS_l2 w.

(** * Specification: isotropic total variation, and squared gradient *)
Definition tv (s : list nat) (axes : list Z) (mode : pad_mode) (x : vec) : R :=
  bsum s (fun l => sqrt (rsum (length axes) (fun a => gradient s axes mode (reshape s x) (a :: l) ^ 2))).
Definition grad_sq (s : list nat) (axes : list Z) (mode : pad_mode) (x : vec) : R :=
  bsum s (fun l => rsum (length axes) (fun a => gradient s axes mode (reshape s x) (a :: l) ^ 2)).

(** * Matrix of the gradient *)
Definition gmat (s : list nat) (axes : list Z) (mode : pad_mode) : mat := fun i j =>
  if (Nat.ltb i (length axes * size s) && Nat.ltb j (size s))%bool then grad_entry s axes mode (unflat (length axes :: s) i) (unflat s j) else 0.
Definition gspec (s : list nat) (axes : list Z) (mode : pad_mode) (k : rkind) (w : R) : rspec :=
  SolversOptProps.mkRS k (length axes * size s) (gmat s axes mode) w grad_sigma (fun _ => match k with RS_l2 => w * grad_tau (length axes) | _ => grad_tau (length axes) end).

Lemma adot_unit s j x : inb s j -> adot s (unit_arr j) x = x j.
Proof.
  intros Hj. unfold adot. rewrite (bsum_single s j) by (exact Hj || (intros m _ Hm; unfold unit_arr; destruct (list_eq_dec Nat.eq_dec m j); [contradiction|ring])).
  unfold unit_arr. destruct (list_eq_dec Nat.eq_dec j j); [ring|contradiction].
Qed.
Lemma adot_comm s x y : adot s x y = adot s y x.
Proof. unfold adot. apply bsum_ext. intros; ring. Qed.
Definition exact_mode (mode : pad_mode) : Prop := mode = PadConstant \/ mode = PadWrap.
Lemma exact_lap mode : exact_mode mode -> lap_mode mode.
Proof. intros [-> | ->]; unfold lap_mode; tauto. Qed.

Lemma gradient_expand s axes mode x i : valid_axes (length s) axes -> exact_mode mode -> inb (length axes :: s) i ->
  gradient s axes mode x i = bsum s (fun j => grad_entry s axes mode i j * x j).
Proof.
  intros Hax Hm Hi. pose proof (C03_gradient_adjoint s axes mode x (unit_arr i) Hax Hm) as H. rewrite adot_comm, adot_unit in H by exact Hi.
  change (call (transform_gradient s axes mode) x) with (gradient s axes mode x) in H. rewrite H. unfold adot. apply bsum_ext. intros j Hj.
  pose proof (C03_gradient_adjoint s axes mode (unit_arr j) (unit_arr i) Hax Hm) as H2. rewrite adot_comm, adot_unit, adot_unit in H2 by assumption.
  rewrite <- H2. change (call (transform_gradient s axes mode) (unit_arr j)) with (gradient s axes mode (unit_arr j)). unfold grad_entry. ring.
Qed.
Lemma transpose_expand s axes mode y j : valid_axes (length s) axes -> exact_mode mode -> inb s j ->
  call (transpose (transform_gradient s axes mode)) y j = bsum (length axes :: s) (fun i => grad_entry s axes mode i j * y i).
Proof.
  intros Hax Hm Hj. pose proof (C03_gradient_adjoint s axes mode (unit_arr j) y Hax Hm) as H. rewrite (adot_unit s j) in H by exact Hj. rewrite <- H. reflexivity.
Qed.
Lemma size_cons a s : size (a :: s) = (a * size s)%nat. Proof. reflexivity. Qed.

Lemma gmat_mv s axes mode x i : valid_axes (length s) axes -> exact_mode mode -> (i < length axes * size s)%nat ->
  mv (size s) (gmat s axes mode) x i = gradient s axes mode (reshape s x) (unflat (length axes :: s) i).
Proof.
  intros Hax Hm Hi. rewrite gradient_expand by (try assumption; apply unflat_inb; exact Hi). rewrite bsum_flat. unfold mv, gmat. apply rsum_ext. intros j Hj.
  apply Nat.ltb_lt in Hi. rewrite Hi. pose proof Hj as Hj'. apply Nat.ltb_lt in Hj'. rewrite Hj'. cbn [andb]. unfold reshape. rewrite flat_unflat by exact Hj. ring.
Qed.
Lemma grad_reg_is_spec s axes mode k w : valid_axes (length s) axes -> exact_mode mode ->
  grad_reg s axes mode k w = model_reg (size s) (gspec s axes mode k w).
Proof.
  intros Hax Hm. unfold grad_reg, model_reg, gspec. cbn [rs_G rs_p rs_s rs_t rs_w rs_kind].
  assert (E1 : (fun x => on (length axes * size s) (flatten (length axes :: s) (call (transform_gradient s axes mode) (reshape s x)))) = mv (size s) (gmat s axes mode)).
  { apply functional_extensionality. intros x. apply functional_extensionality. intros i. unfold on. destruct (Nat.ltb_spec i (length axes * size s)) as [H|H].
    - rewrite gmat_mv by assumption. reflexivity.
    - symmetry. apply rsum_zero. intros j _. unfold gmat. replace (Nat.ltb i (length axes * size s)) with false by (symmetry; apply Nat.ltb_ge; exact H). cbn. ring. }
  assert (E2 : (fun d => on (size s) (flatten s (call (transpose (transform_gradient s axes mode)) (reshape (length axes :: s) d)))) = mtv (length axes * size s) (gmat s axes mode)).
  { apply functional_extensionality. intros d. apply functional_extensionality. intros j. unfold on. destruct (Nat.ltb_spec j (size s)) as [H|H].
    - unfold flatten. rewrite transpose_expand by (try assumption; apply unflat_inb; exact H). rewrite bsum_flat. change (size (length axes :: s)) with (length axes * size s)%nat.
      unfold mtv, gmat. apply rsum_ext. intros i Hi. pose proof Hi as Hi'. apply Nat.ltb_lt in Hi'. rewrite Hi'. apply Nat.ltb_lt in H. rewrite H. cbn [andb].
      unfold reshape. rewrite flat_unflat by exact Hi. reflexivity.
    - symmetry. apply rsum_zero. intros i _. unfold gmat. replace (Nat.ltb j (size s)) with false by (symmetry; apply Nat.ltb_ge; exact H). rewrite Bool.andb_false_r. ring. }
  rewrite E1, E2. reflexivity.
Qed.
Definition grad_kind (s : list nat) (axes : list Z) (k : rkind) : Prop := match k with RS_l12 nax N => nax = length axes /\ N = size s | _ => True end.
Lemma gspec_ok s axes mode k w : 0 < w -> grad_kind s axes k -> rs_ok (gspec s axes mode k w).
Proof.
  intros Hw Hk. unfold rs_ok, gspec, grad_sigma. cbn [rs_w rs_s rs_kind rs_p]. split; [exact Hw|]. split; [lra|]. destruct k; try exact I. destruct Hk as [-> ->]. reflexivity.
Qed.
Lemma gspec_steps s axes mode k w : 0 < w -> valid_axes (length s) axes -> exact_mode mode -> rs_steps_ok (size s) (gspec s axes mode k w).
Proof.
  intros Hw Hax Hm. split; unfold gspec; cbn [rs_p rs_s rs_G rs_t].
  - intros i Hi. pose proof (C22_gradient_row_sums s axes mode (unflat (length axes :: s) i)) as H. rewrite bsum_flat in H.
    rewrite (rsum_ext (size s) _ (fun j => Rabs (grad_entry s axes mode (unflat (length axes :: s) i) (unflat s j)))).
    2:{ intros j Hj. unfold gmat. apply Nat.ltb_lt in Hi. rewrite Hi. apply Nat.ltb_lt in Hj. rewrite Hj. reflexivity. }
    unfold grad_sigma in *. replace (/ (1 / 2)) with 2 in H by field. lra.
  - intros j Hj. pose proof (C22_gradient_column_sums s axes mode (unflat s j) (exact_lap mode Hm) Hax (unflat_inb s j Hj)) as H. rewrite bsum_flat in H.
    change (size (length axes :: s)) with (length axes * size s)%nat in H.
    rewrite (rsum_ext (length axes * size s) _ (fun i => Rabs (grad_entry s axes mode (unflat (length axes :: s) i) (unflat s j)))).
    2:{ intros i Hi. unfold gmat. apply Nat.ltb_lt in Hi. rewrite Hi. apply Nat.ltb_lt in Hj. rewrite Hj. reflexivity. }
    unfold rs_scale. cbn [rs_kind rs_w]. destruct k; try lra. apply Rmult_le_compat_l; lra.
Qed.
Lemma unflat_pair a s i : (i < size s)%nat -> unflat (a :: s) (0 + 0) = unflat (a :: s) 0 -> forall q, unflat (a :: s) (q * size s + i) = q :: unflat s i.
Proof.
  intros Hi _ q. cbn [unflat]. assert (size s <> 0)%nat by lia. rewrite Nat.div_add_l by lia. rewrite (Nat.div_small i) by exact Hi. rewrite Nat.add_0_r.
  f_equal. f_equal. rewrite Nat.add_comm, Nat.mod_add by lia. apply Nat.mod_small, Hi.
Qed.
Lemma tv_value s axes mode w x : valid_axes (length s) axes -> exact_mode mode ->
  rs_value (size s) (gspec s axes mode (RS_l12 (length axes) (size s)) w) x = w * tv s axes mode x.
Proof.
  intros Hax Hm. unfold rs_value, gspec. cbn [rs_kind rs_G rs_w]. f_equal. unfold tv. rewrite bsum_flat. apply rsum_ext. intros i Hi. unfold grp_norm. f_equal.
  apply rsum_ext. intros a Ha. rewrite gmat_mv by (try assumption; nia). rewrite unflat_pair by (exact Hi || reflexivity). reflexivity.
Qed.
Lemma smooth_value s axes mode w x : valid_axes (length s) axes -> exact_mode mode ->
  rs_value (size s) (gspec s axes mode RS_l2 w) x = w / 2 * grad_sq s axes mode x.
Proof.
  intros Hax Hm. unfold rs_value, gspec. cbn [rs_kind rs_G rs_w rs_p]. f_equal. unfold grad_sq. rewrite bsum_flat, rsum_grid. apply rsum_ext. intros i Hi.
  apply rsum_ext. intros a Ha. rewrite gmat_mv by (try assumption; nia). rewrite unflat_pair by (exact Hi || reflexivity). reflexivity.
Qed.

(** * C153 *)
(** the problem the user poses: L2 data term, one gradient regulariser, no tolerance, both limits given *)
Definition grad_problem (P : problem) (M : mat) (s : list nat) (axes : list Z) (mode : pad_mode) (r : reg) : Prop :=
  p_n P = size s /\ p_op P = mat_op (p_m P) (p_n P) M /\ p_regs P = [r] /\ valid_axes (length s) axes /\
  dt_kind (p_dterm P) = K_l2 /\ limits_ok P /\ binary_mask (p_xmask P) /\ binary_mask (train_mask P) /\ safe_sigma P /\ safe_tau P /\
  0 < p_relax P <= 1 /\ p_tol P = None /\ (exists lo up, p_lower P = Some lo /\ p_upper P = Some up).
Definition converges_to_minimum (P : problem) (F : vec -> R) : Prop :=
  exists X C, minimises (obeys_limits P) F X /\ 0 <= C /\
    forall it, (2 <= it)%nat -> let x := fst (pdhg_call P None it) in obeys_limits P x /\ F x <= F X + C / sqrt (INR it).
Lemma grad_converges P M s axes mode k w : 0 < w -> grad_kind s axes k -> exact_mode mode -> grad_problem P M s axes mode (grad_reg s axes mode k w) ->
  converges_to_minimum P (pd_objective P M [gspec s axes mode k w]).
Proof.
  intros Hw Hk Hm (Hn & Hop & Hr & Hax & H5 & H6 & H7 & H8 & H9 & H10 & H11 & H12 & lo & up & Hl & Hu).
  apply (C151_with_both_limits P M [gspec s axes mode k w] lo up); try assumption. unfold pdhg_setting. rewrite Hr, Hn. cbn [map].
  rewrite grad_reg_is_spec by assumption. rewrite Hn in Hop. repeat (split; [assumption || reflexivity|]).
  split; [constructor; [apply gspec_ok; assumption|constructor]|]. split; [constructor; [apply gspec_steps; assumption|constructor]|]. tauto.
Qed.
(** total variation (Regularizer_TV1D/2D/3D, Regularizer_Grad), periodic or zero padding *)
Theorem C153_tv_converges : forall P M s axes mode w, 0 < w -> exact_mode mode -> grad_problem P M s axes mode (tv_reg s axes mode w) ->
  converges_to_minimum P (fun x => l2_fit (p_m P) (p_n P) M (train_mask P) (target P) x + w * tv s axes mode x).
Proof.
  intros P M s axes mode w Hw Hm HP. pose proof (grad_converges P M s axes mode (RS_l12 (length axes) (size s)) w Hw (conj eq_refl eq_refl) Hm HP) as H.
  assert (E : pd_objective P M [gspec s axes mode (RS_l12 (length axes) (size s)) w] = (fun x => l2_fit (p_m P) (p_n P) M (train_mask P) (target P) x + w * tv s axes mode x)).
  { apply functional_extensionality. intros x. unfold pd_objective. rewrite lsum_cons. destruct HP as (Hn & _ & _ & Hax & _). rewrite Hn at 2. rewrite tv_value by assumption.
    unfold lsum. cbn. ring. }
  rewrite E in H. exact H.
Qed.
(** smoothness (Regularizer_smooth1D/2D/3D) *)
Theorem C153_smooth_converges : forall P M s axes mode w, 0 < w -> exact_mode mode -> grad_problem P M s axes mode (smooth_reg s axes mode w) ->
  converges_to_minimum P (fun x => l2_fit (p_m P) (p_n P) M (train_mask P) (target P) x + w / 2 * grad_sq s axes mode x).
Proof.
  intros P M s axes mode w Hw Hm HP. pose proof (grad_converges P M s axes mode RS_l2 w Hw I Hm HP) as H.
  assert (E : pd_objective P M [gspec s axes mode RS_l2 w] = (fun x => l2_fit (p_m P) (p_n P) M (train_mask P) (target P) x + w / 2 * grad_sq s axes mode x)).
  { apply functional_extensionality. intros x. unfold pd_objective. rewrite lsum_cons. destruct HP as (Hn & _ & _ & Hax & _). rewrite Hn at 2. rewrite smooth_value by assumption.
    unfold lsum. cbn. ring. }
  rewrite E in H. exact H.
Qed.

(** * The default padding *)
(** Two pixels measured directly: b = (0, 1), limits [0, 1], TV with weight 1/4. *)
Definition two_id : mat := fun i j => if Nat.eqb i j then 1 else 0.
Definition tv_demo (mode : pad_mode) : problem :=
  mkProblem 2 2 (mat_op 2 2 two_id) (fun i => INR i) None (Some vzeros) (Some vones) None None None
    None 1 [tv_reg [2%nat] [(-1)%Z] mode (/ 4)] (new_dterm K_l2 None) (new_dterm K_l2 None).
Lemma tv_demo_problem mode : grad_problem (tv_demo mode) two_id [2%nat] [(-1)%Z] mode (tv_reg [2%nat] [(-1)%Z] mode (/ 4)).
Proof.
  assert (E0 : Rabs 0 = 0) by apply Rabs_R0. assert (E1 : Rabs 1 = 1) by apply Rabs_R1.
  split; [reflexivity|]. split; [reflexivity|]. split; [reflexivity|]. split.
  { constructor; [cbn; lia|constructor]. }
  split; [reflexivity|]. split.
  { intros l u j H1 H2 _. cbn in H1, H2. injection H1 as <-. injection H2 as <-. unfold vzeros, vones. lra. }
  split; [intros i; right; reflexivity|]. split; [intros i; right; reflexivity|]. split.
  { assert (A : forall i, (i < 2)%nat -> raw_sigma (p_op (tv_demo mode)) (p_xmask (tv_demo mode)) i = 1).
    { intros i Hi. unfold raw_sigma, ones_masked, mul_mask. cbn -[Rabs]. unfold mv, mat_abs, vones, two_id. cbn [rsum].
      destruct i as [|[|i]]; [| |lia]; cbn -[Rabs]; rewrite E0, E1; rewrite Rabs_right; lra. }
    apply scaling_safe_small; change (p_m (tv_demo mode)) with 2%nat; cbn [rmax]; rewrite !A by lia; unfold Rmax; repeat destruct Rle_dec; lra. }
  split.
  { assert (A : forall i, (i < 2)%nat -> raw_tau (p_op (tv_demo mode)) (p_regs (tv_demo mode)) (train_mask (tv_demo mode)) i = 3).
    { intros i Hi. unfold raw_tau, ones_masked, mul_mask. cbn -[Rabs grad_tau INR]. unfold vadd, mtv, mat_abs, vones, two_id, grad_tau. cbn [rsum].
      destruct i as [|[|i]]; [| |lia]; cbn -[Rabs INR]; rewrite E0, E1; cbn [INR]; rewrite Rabs_right; lra. }
    apply scaling_safe_small; change (p_n (tv_demo mode)) with 2%nat; cbn [rmax]; rewrite !A by lia; unfold Rmax; repeat destruct Rle_dec; lra. }
  split; [cbn; lra|]. split; [reflexivity|]. exists vzeros, vones. split; reflexivity.
Qed.
(** non-vacuity of [C153_tv_converges] *)
Example C153_example : converges_to_minimum (tv_demo PadWrap)
  (fun x => l2_fit 2 2 two_id (train_mask (tv_demo PadWrap)) (target (tv_demo PadWrap)) x + / 4 * tv [2%nat] [(-1)%Z] PadWrap x).
Proof. apply (C153_tv_converges (tv_demo PadWrap) two_id); [lra|right; reflexivity|apply tv_demo_problem]. Qed.
(** The divergence with repeated borders writes nothing into the first pixel, so the first pixel, measured to be 0, is never corrected. *)
Lemma edge_first y : call (transpose (transform_gradient [2%nat] [(-1)%Z] PadEdge)) y [0%nat] = 0.
Proof. cbn. unfold divergence, along, div1, np_diff, np_pad, read. cbn. ring. Qed.
Lemma edge_stuck k : let st := pdhg_iterate (tv_demo PadEdge) None k in pd_x st 0%nat = 0 /\ pd_xrelax st 0%nat = 0 /\ pd_p st 0%nat = 0.
Proof.
  induction k as [|k IH]; [repeat split; reflexivity|]. cbv zeta in *. destruct IH as (H1 & H2 & H3).
  change (pdhg_iterate (tv_demo PadEdge) None (S k)) with (pdhg_step (tv_demo PadEdge) None (pdhg_iterate (tv_demo PadEdge) None k)).
  set (st := pdhg_iterate (tv_demo PadEdge) None k) in *. unfold pdhg_step. 
  assert (Hp : pd_p (pdhg_update (tv_demo PadEdge) (pdhg_dt (tv_demo PadEdge) None) None (pdhg_tau (tv_demo PadEdge) None) st) 0%nat = 0).
  { cbn. unfold sub_sigma_data, update_dual, add_background. cbn. unfold mv, two_id. cbn [rsum]. cbn [Nat.eqb]. rewrite H2, H3. ring. }
  assert (Hx : pd_x (pdhg_update (tv_demo PadEdge) (pdhg_dt (tv_demo PadEdge) None) None (pdhg_tau (tv_demo PadEdge) None) st) 0%nat = 0).
  { remember (pd_p (pdhg_update (tv_demo PadEdge) (pdhg_dt (tv_demo PadEdge) None) None (pdhg_tau (tv_demo PadEdge) None) st)) as p eqn:Ep.
    unfold pdhg_update in *. cbn [pd_p pd_x] in *. rewrite <- Ep. cbn [p_regs tv_demo p_lower p_upper p_xmask p_op].
    assert (Hu : forall qs, fold_left (fun u qr => vadd u (r_update_primal (snd qr) (fst qr))) (combine qs [tv_reg [2%nat] [(-1)%Z] PadEdge (/ 4)]) (opAt (mat_op 2 2 two_id) p) 0%nat = 0).
    { intros qs. assert (E : opAt (mat_op 2 2 two_id) p 0%nat = 0) by (cbn; unfold mtv, two_id; cbn [rsum]; cbn [Nat.eqb]; rewrite Hp; ring).
      destruct qs as [|q qs]; [exact E|]. replace (combine (q :: qs) [tv_reg [2%nat] [(-1)%Z] PadEdge (/ 4)]) with [(q, tv_reg [2%nat] [(-1)%Z] PadEdge (/ 4))] by (destruct qs; reflexivity).
      cbn [fold_left fst snd]. unfold vadd. rewrite E.
      change (0 + on 2 (flatten [2%nat] (call (transpose (transform_gradient [2%nat] [(-1)%Z] PadEdge)) (reshape [1%nat; 2%nat] q))) 0%nat = 0).
      unfold on. cbn [Nat.ltb Nat.leb]. unfold flatten. change (unflat [2%nat] 0) with [0%nat]. rewrite edge_first. ring. }
    unfold constrain, mul_mask, np_clip, vsub, vmul. rewrite Hu, H1. unfold vzeros, vones. replace (0 - 0 * pdhg_tau (tv_demo PadEdge) None 0%nat) with 0 by ring.
    unfold Rmax, Rmin. repeat destruct Rle_dec; lra. }
  split; [exact Hx|]. split; [|exact Hp]. 
  change (pd_x (pdhg_update (tv_demo PadEdge) (pdhg_dt (tv_demo PadEdge) None) None (pdhg_tau (tv_demo PadEdge) None) st) 0%nat + (pd_x (pdhg_update (tv_demo PadEdge) (pdhg_dt (tv_demo PadEdge) None) None (pdhg_tau (tv_demo PadEdge) None) st) 0%nat - pd_x st 0%nat) = 0).
  rewrite Hx, H1. ring.
Qed.
Definition tv_demo_objective (x : vec) : R :=
  l2_fit 2 2 two_id (train_mask (tv_demo PadEdge)) (target (tv_demo PadEdge)) x + / 4 * tv [2%nat] [(-1)%Z] PadEdge x.
Lemma tv_demo_value x : tv_demo_objective x = / 2 * (x 0%nat ^ 2 + (x 1%nat - 1) ^ 2) + / 4 * Rabs (x 1%nat - x 0%nat).
Proof.
  unfold tv_demo_objective, l2_fit, wres, tv. cbn [train_mask initialize_b_masks fst p_bmask p_btest tv_demo mask_at].
  assert (G : forall i, gradient [2%nat] [(-1)%Z] PadEdge (reshape [2%nat] x) [0%nat; i] = match i with 0%nat => x 1%nat - x 0%nat | _ => x 1%nat - x 1%nat end).
  { intros i. unfold gradient. cbn [nth length]. change (norm_axis 1 (-1)) with 0%nat. change (axis_len [2%nat] (-1)) with 2%nat.
    unfold along, grad1, np_diff, np_pad. cbn [nth]. unfold pad_index. change (Z.of_nat 2 - 1)%Z with 1%Z.
    destruct i as [|i]; [reflexivity|]. replace (Z.max 0 (Z.min (Z.of_nat (S (S i)) - Z.of_nat 0) 1)) with 1%Z by lia.
    replace (Z.max 0 (Z.min (Z.of_nat (S i) - Z.of_nat 0) 1)) with 1%Z by lia. reflexivity. }
  cbn [bsum length rsum]. rewrite !G. unfold target, mv, two_id, back_at. cbn -[Rabs sqrt INR pow]. cbn [INR].
  replace (sqrt (0 + (x 1%nat - x 0%nat) ^ 2)) with (Rabs (x 1%nat - x 0%nat)) by (rewrite Rplus_0_l, <- sqrt_Rsqr_abs; f_equal; unfold Rsqr; ring).
  replace (sqrt (0 + (x 1%nat - x 1%nat) ^ 2)) with 0 by (symmetry; transitivity (sqrt 0); [f_equal; ring|apply sqrt_0]). ring.
Qed.
Theorem C153_tv_edge_refuted :
  (forall it, 7 / 32 <= tv_demo_objective (fst (pdhg_call (tv_demo PadEdge) None it))) /\
  (exists x, obeys_limits (tv_demo PadEdge) x /\ tv_demo_objective x = 6 / 32) /\
  grad_problem (tv_demo PadEdge) two_id [2%nat] [(-1)%Z] PadEdge (tv_reg [2%nat] [(-1)%Z] PadEdge (/ 4)) /\
  ~ converges_to_minimum (tv_demo PadEdge) tv_demo_objective.
Proof.
  assert (L : forall it, 7 / 32 <= tv_demo_objective (fst (pdhg_call (tv_demo PadEdge) None it))).
  { intros it. destruct (pdhg_char (tv_demo PadEdge) None it) as (K & _ & _ & E & _). rewrite E. destruct (edge_stuck K) as (H & _). rewrite tv_demo_value, H.
    set (y := pd_x (pdhg_iterate (tv_demo PadEdge) None K) 1%nat). rewrite Rminus_0_r. pose proof (Rle_abs y). pose proof (pow2_ge_0 (y - 3 / 4)). cbn [pow] in *. lra. }
  assert (U : exists x, obeys_limits (tv_demo PadEdge) x /\ tv_demo_objective x = 6 / 32).
  { exists (fun i => match i with 0%nat => / 4 | _ => 3 / 4 end). split.
    - intros j Hj. split; [exact I|]. intros _. cbn. unfold vzeros, vones. destruct j; lra.
    - rewrite tv_demo_value. rewrite Rabs_right; lra. }
  split; [exact L|]. split; [exact U|]. split; [apply tv_demo_problem|].
  intros (X & C & HX & HC & H). destruct U as (x & Hx & Ex). pose proof (proj2 HX x Hx) as HXx.
  destruct (INR_above ((64 * C + 1) ^ 2)) as [N HN]. specialize (H (N + 2)%nat ltac:(lia)). cbv zeta in H. destruct H as [_ H]. specialize (L (N + 2)%nat).
  assert (S : 64 * C + 1 <= sqrt (INR (N + 2))).
  { rewrite <- (sqrt_pow2 (64 * C + 1)) by lra. apply sqrt_le_1_alt. rewrite plus_INR. cbn [INR]. lra. }
  assert (C / sqrt (INR (N + 2)) < / 32).
  { apply Rmult_lt_reg_r with (sqrt (INR (N + 2))); [lra|]. unfold Rdiv. rewrite Rmult_assoc, Rinv_l by lra. lra. }
  lra.
Qed.
