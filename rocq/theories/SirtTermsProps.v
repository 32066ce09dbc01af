(** C192-C195: SIRT and FISTA with the weighted, the tolerant and the Kullback-Leibler data terms. *)
From Verif Require Import Sums Convex DataTermsSpec DataTermsModel DataTermsProofs SolversModel SolversSpec SolversGeneric SolversProps RegularizersModel SolversConv SolversConvProps SolversOptProps
  Compact PdhgConv PdhgExistProps LsExist MinExist FirstOrderProps SmoothGrad.
From Verif Require ProxGrad.

(** * Specification *)
(** SIRT on the projection matrix [M], without regulariser; the guards of the row and column sums are harmless *)
Definition sirt_run (P : problem) (M : mat) : Prop :=
  p_op P = mat_op (p_m P) (p_n P) M /\ p_regs P = [] /\ limits_ok P /\
  binary_mask (p_xmask P) /\ binary_mask (train_mask P) /\ safe_sigma P /\ safe_tau P /\ 0 < p_relax P.
(** the pixel costs [cost i], summed with the inverse row sums as weights over the pixels used for the reconstruction *)
Definition total_cost (P : problem) (M : mat) (cost : nat -> R -> R) (x : vec) : R :=
  rsum (p_m P) (fun i => sirt_weight P i * cost i (mv (p_n P) M x i)).
(** cost of a deviation larger than [band] from the datum *)
Definition band_cost (P : problem) (band : vec) (i : nat) (v : R) : R := (Rmax (Rabs (v - target P i) - band i) 0) ^ 2 / 2.
(** the value the volumes tend to *)
Definition volumes_tend_to (n : nat) (u : nat -> vec) (z : vec) : Prop :=
  forall eps, 0 < eps -> exists N, forall it, (N <= it)%nat -> forall j, (j < n)%nat -> Rabs (u it j - z j) < eps.

(** * A pixel cost: smooth and convex with slope [g] *)
Definition smooth_cost (c g : R -> R) (L : R) : Prop :=
  (forall v z, c v + g v * (z - v) <= c z) /\ (forall v z, c z <= c v + g v * (z - v) + L / 2 * (z - v) ^ 2).
Lemma smooth_shift c g L s : smooth_cost c g L -> smooth_cost (fun v => c (v + s)) (fun v => g (v + s)) L.
Proof.
  intros [A B]. split; intros v z.
  - specialize (A (v + s) (z + s)). replace (z + s - (v + s)) with (z - v) in A by ring. exact A.
  - specialize (B (v + s) (z + s)). replace (z + s - (v + s)) with (z - v) in B by ring. exact B.
Qed.
Lemma smooth_quad w t : 0 <= w -> smooth_cost (fun v => w * (t - v) ^ 2 / 2) (fun v => w * (v - t)) w.
Proof. intros Hw. split; intros v z; pose proof (pow2_ge_0 (z - v)) as H; apply (Rmult_le_compat_l w) in H; nra. Qed.
Lemma smooth_band t e : 0 <= e -> smooth_cost (fun v => (Rmax (Rabs (v - t) - e) 0) ^ 2 / 2) (fun v => soft_threshold1 (v - t) e) 1.
Proof.
  intros He.
  assert (C : forall v, (v - t < - e /\ soft_threshold1 (v - t) e = v - t + e /\ Rmax (Rabs (v - t) - e) 0 = - (v - t) - e) \/
                        (- e <= v - t <= e /\ soft_threshold1 (v - t) e = 0 /\ Rmax (Rabs (v - t) - e) 0 = 0) \/
                        (e < v - t /\ soft_threshold1 (v - t) e = v - t - e /\ Rmax (Rabs (v - t) - e) 0 = v - t - e)).
  { intros v. unfold soft_threshold1, np_sign, np_fmax, Rmax, Rabs. destruct (Rcase_abs (v - t)); destruct (Rle_dec _ 0); destruct (Rlt_dec 0 (v - t)); try lra; destruct (Rlt_dec (v - t) 0); try lra;
      first [left; lra | right; left; lra | right; right; lra]. }
  split; intros v z; destruct (C v) as [(H1 & -> & ->)|[(H1 & -> & ->)|(H1 & -> & ->)]]; destruct (C z) as [(K1 & _ & ->)|[(K1 & _ & ->)|(K1 & _ & ->)]];
    replace (z - v) with ((z - t) - (v - t)) by ring; set (x := v - t) in *; set (y := z - t) in *; clearbody x y; clear C;
    repeat match goal with H : _ /\ _ |- _ => destruct H end; pose proof (pow2_ge_0 (x - y));
    first [nra | pose proof (pow2_ge_0 (y + e)); nra | pose proof (pow2_ge_0 (y - e)); nra | idtac "left"].
Qed.
(** extension by the tangent below [e] *)
Lemma smooth_clamp c g L e : 0 <= L -> smooth_cost c g L -> (forall v z, z <= v -> g v - g z <= L * (v - z)) ->
  smooth_cost (fun v => c (Rmax v e) + g (Rmax v e) * (v - Rmax v e)) (fun v => g (Rmax v e)) L.
Proof.
  intros HL [A B] Lip.
  assert (Mono : forall v z, z <= v -> g z <= g v).
  { intros v z H. pose proof (A v z). pose proof (A z v). destruct (Req_dec v z) as [->|Hn]; [lra|]. assert (0 < v - z) by lra. nra. }
  split; intros v z; unfold Rmax; destruct (Rle_dec v e) as [Hv|Hv]; destruct (Rle_dec z e) as [Hz|Hz].
  - right. ring.
  - specialize (A e z). lra.
  - pose proof (A v e). pose proof (Mono v e ltac:(lra)). assert ((g v - g e) * (e - z) >= 0) by (apply Rle_ge, Rmult_le_pos; lra). lra.
  - pose proof (A v z). lra.
  - assert (0 <= L / 2 * (z - v) ^ 2) by (apply Rmult_le_pos; [lra|apply pow2_ge_0]). lra.
  - specialize (B e z). assert (L / 2 * (z - e) ^ 2 <= L / 2 * (z - v) ^ 2) by (apply Rmult_le_compat_l; [lra|]; nra). lra.
  - pose proof (B v e). pose proof (Lip v e ltac:(lra)) as Hl. apply Rmult_le_compat_r with (r := e - z) in Hl; [|lra].
    assert (0 <= L * (e - z) ^ 2) by (apply Rmult_le_pos; [lra|apply pow2_ge_0]). nra.
  - pose proof (B v z). lra.
Qed.

(** ** Kullback-Leibler: the cost that SIRT's residual is the slope of *)
Section KL1.
  Variables (s b : R).
  Hypothesis Hs : 0 < s.
  Hypothesis Hb : 0 <= b.
  (** slope at the expected count [v] *)
  Definition kl_slope (v : R) : R := kl_dual_formula s b (s * v).
  (** the point that trades the Kullback-Leibler cost against the squared distance to [v] *)
  Definition kl_point (v : R) : R := v - kl_slope v / s.
  Definition kl_smooth (v : R) : R := val (KL_fun b) (kl_point v) + s / 2 * (v - kl_point v) ^ 2.
  Lemma kl_sub v : subgrad (KL_fun b) (kl_point v) (kl_slope v).
  Proof.
    unfold kl_point, kl_slope. destruct (Rle_lt_or_eq_dec 0 b Hb) as [Hb'|<-].
    - destruct (kl_dual_props s b (s * v) Hs Hb') as [H1 [H2 H3]]. set (p := kl_dual_formula s b (s * v)) in *.
      replace (v - p / s) with ((s * v - p) / s) by (field; lra).
      replace p with (1 - b / ((s * v - p) / s)) at 2.
      + apply KL_subgrad; [exact Hb'|]. apply Rdiv_lt_0_compat; lra.
      + assert (E : b = (1 - p) * (s * v - p) / s) by (rewrite H3; field; lra). rewrite E. field. split; lra.
    - unfold kl_dual_formula. replace ((s * v - 1) ^ 2 + 4 * s * 0) with (Rsqr (s * v - 1)) by (unfold Rsqr; ring). rewrite sqrt_Rsqr_abs. unfold Rabs. destruct (Rcase_abs (s * v - 1)).
      + replace ((1 + s * v - - (s * v - 1)) / 2) with (s * v) by lra. replace (v - s * v / s) with 0 by (field; lra). apply KL_subgrad0; lra.
      + replace ((1 + s * v - (s * v - 1)) / 2) with 1 by lra. apply KL_subgrad0; [lra| |lra].
        apply Rmult_le_reg_l with s; [lra|]. replace (s * (v - 1 / s)) with (s * v - 1) by (field; lra). lra.
  Qed.
  Lemma kl_dom v : dom (KL_fun b) (kl_point v).
  Proof. apply (kl_sub v). Qed.
  Lemma kl_ineq v z : val (KL_fun b) (kl_point v) + kl_slope v * (kl_point z - kl_point v) <= val (KL_fun b) (kl_point z).
  Proof. destruct (kl_sub v) as [_ H]. specialize (H (kl_point z) (kl_dom z)). lra. Qed.
  Lemma kl_slope_point v : kl_slope v = s * (v - kl_point v).
  Proof. unfold kl_point. field. lra. Qed.
  (** it is the lower envelope of KL plus squared distance *)
  Lemma kl_envelope v q : dom (KL_fun b) q -> kl_smooth v <= val (KL_fun b) q + s / 2 * (v - q) ^ 2.
  Proof.
    intros Hq. destruct (kl_sub v) as [_ H]. specialize (H q Hq). rewrite kl_slope_point in H. unfold kl_smooth. set (p := kl_point v) in *.
    assert (0 <= s / 2 * (q - p) ^ 2) by (apply Rmult_le_pos; [lra|apply pow2_ge_0]). nra.
  Qed.
  Lemma kl_smooth_cost : smooth_cost kl_smooth kl_slope s.
  Proof.
    split; intros v z.
    - pose proof (kl_ineq v z) as H. unfold kl_smooth. rewrite kl_slope_point in *. set (p := kl_point v) in *. set (q := kl_point z) in *.
      assert (0 <= s / 2 * ((z - q) - (v - p)) ^ 2) by (apply Rmult_le_pos; [lra|apply pow2_ge_0]). nra.
    - pose proof (kl_envelope z (kl_point v) (kl_dom v)) as H. unfold kl_smooth at 2. rewrite kl_slope_point. set (p := kl_point v) in *. eapply Rle_trans; [exact H|]. right. field.
  Qed.
  Lemma kl_lip v z : z <= v -> kl_slope v - kl_slope z <= s * (v - z).
  Proof.
    intros Hvz. pose proof (kl_ineq v z) as A. pose proof (kl_ineq z v) as B.
    pose proof (kl_slope_point v) as Ev. pose proof (kl_slope_point z) as Ez.
    cut (kl_point z <= kl_point v); [rewrite Ev, Ez; nra|]. apply Rnot_lt_le. intros C.
    assert (0 < kl_slope v - kl_slope z) by (rewrite Ev, Ez; nra). assert ((kl_slope v - kl_slope z) * (kl_point z - kl_point v) <= 0) by lra.
    assert (0 < (kl_slope v - kl_slope z) * (kl_point z - kl_point v)) by (apply Rmult_lt_0_compat; lra). lra.
  Qed.
  Lemma kl_slope_sign v : (b < v -> 0 < kl_slope v) /\ (v = b -> kl_slope v = 0) /\ (v < b -> kl_slope v < 0).
  Proof.
    unfold kl_slope, kl_dual_formula. set (r := sqrt ((s * v - 1) ^ 2 + 4 * s * b)). assert (Hsb : 0 <= s * b) by (apply Rmult_le_pos; lra).
    assert (Hrr : r * r = (s * v - 1) ^ 2 + 4 * s * b) by (apply sqrt_sqrt; pose proof (pow2_ge_0 (s * v - 1)); lra). assert (Hr0 : 0 <= r) by apply sqrt_pos.
    assert (F : (1 + s * v - r) * (1 + s * v + r) = 4 * s * (v - b)) by (replace ((1 + s * v - r) * (1 + s * v + r)) with ((1 + s * v) ^ 2 - r * r) by ring; rewrite Hrr; ring).
    split; [|split]; intros Hv.
    - assert (0 < s * (v - b)) by (apply Rmult_lt_0_compat; lra). assert (0 < s * v) by nra. assert (0 < 1 + s * v - r); [|lra]. apply Rmult_lt_reg_r with (1 + s * v + r); nra.
    - subst v. assert (0 <= s * b) by nra. assert (1 + s * b - r = 0); [|lra]. apply Rmult_eq_reg_r with (1 + s * b + r); [rewrite F; ring|lra].
    - assert (s * (b - v) > 0) by (apply Rmult_lt_0_compat; lra). destruct (Rlt_le_dec (1 + s * v + r) 0) as [N|N]; [lra|]. assert (1 + s * v - r < 0); [|lra]. apply Rnot_le_lt. intros C.
      assert (0 <= (1 + s * v - r) * (1 + s * v + r)) by (apply Rmult_le_pos; lra). lra.
  Qed.
End KL1.
(** SIRT replaces expected counts below float32's epsilon by epsilon: the cost continues along its tangent there *)
Definition kl_clamped (s b v : R) : R := let u := Rmax v eps32 in kl_smooth s b u + kl_slope s b u * (v - u).
Lemma kl_clamped_smooth s b : 0 < s -> 0 <= b -> smooth_cost (kl_clamped s b) (fun v => kl_slope s b (Rmax v eps32)) s.
Proof. intros Hs Hb. apply (smooth_clamp (kl_smooth s b) (kl_slope s b) s eps32); [lra|apply kl_smooth_cost; assumption|apply kl_lip; assumption]. Qed.
Definition kl_cost (P : problem) (i : nat) (v : R) : R :=
  kl_clamped (sirt_sigma P i) (Rmax (p_b P i) 0) (v + back_at (dt_background (p_dterm P)) i).

(** * SIRT with any smooth convex pixel cost *)
Section SirtTerm.
  Variables (P : problem) (M : mat) (cost g : nat -> R -> R) (L : vec) (W : R).
  Hypothesis HP : sirt_run P M.
  Hypothesis Hc : forall i, (i < p_m P)%nat -> smooth_cost (cost i) (g i) (L i).
  Hypothesis HL : forall i, (i < p_m P)%nat -> 0 <= L i <= W.
  Hypothesis HW : 0 <= W.
  Hypothesis Hres : forall x i, (i < p_m P)%nat -> compute_residual (sirt_dt P) (mv (p_n P) M x) (train_mask P) i = - g i (mv (p_n P) M x i) * mask_at (train_mask P) i.
  Notation m := (p_m P). Notation n := (p_n P).
  Notation spgs := (spg m n M (sirt_weight P) g (sirt_tau P) 0 (p_lower P) (p_upper P) (p_xmask P)).
  Notation fe := (ProxGrad.feas n (p_lower P) (p_upper P) (p_xmask P)).

  Lemma tw i : (i < m)%nat -> 0 <= sirt_weight P i.
  Proof. destruct HP as (_ & _ & _ & _ & Hbm & Hs & _). intros Hi. apply Rmult_le_pos; [left; apply (sirt_sigma_pos P i Hs Hi)|apply binary_nonneg, Hbm]. Qed.
  Lemma t_tau : (forall j, (j < n)%nat -> 0 < sirt_tau P j) /\
    forall d, ProxGrad.supp n (p_xmask P) d -> rsum m (fun i => sirt_weight P i * L i * mv n M d i ^ 2) <= p_relax P * W * rsum n (fun j => d j ^ 2 / sirt_tau P j).
  Proof.
    destruct HP as (Hop & Hr & _ & Hbx & Hbm & Hs & Ht & Hrel). unfold safe_tau in Ht. rewrite Hr in Ht.
    assert (E : sirt_tau P = fi_tau P None) by (unfold sirt_tau, fi_tau; rewrite Hr; reflexivity). rewrite E.
    destruct (diag_energy P M Hop Hbx Hbm Hs Ht Hrel) as [A B]. split; [exact A|]. intros d Hd.
    apply Rle_trans with (W * rsum m (fun i => sirt_weight P i * mv n M d i ^ 2)).
    - rewrite <- rsum_scal. apply rsum_le. intros i Hi. pose proof (tw i Hi) as T. specialize (HL i Hi). pose proof (pow2_ge_0 (mv n M d i)) as Q.
      assert (0 <= sirt_weight P i * mv n M d i ^ 2) by (apply Rmult_le_pos; assumption). nra.
    - specialize (B d Hd). apply (Rmult_le_compat_l W) in B; [|exact HW]. lra.
  Qed.
  Lemma t_spg x : sirt_step P x = spgs x.
  Proof.
    destruct HP as (Hop & Hr & _). unfold sirt_step, sirt_update. rewrite Hr. cbn [map combine fold_left]. unfold spg. f_equal.
    apply vec_ext. intros j. rewrite Rmult_0_r, ProxGrad.soft0. unfold vadd, vmul. f_equal. rewrite Rmult_comm. f_equal. rewrite Hop at 1. cbn [opAt mat_op]. unfold sgr, mtv.
    apply rsum_ext. intros i Hi. f_equal. rewrite Hop at 1. cbn [opA mat_op]. fold (train_mask P). rewrite (Hres x i Hi). unfold sirt_weight. ring.
  Qed.
  Lemma t_it k : sirt_iterate P (S k) = spgs (sirt_iterate P k).
  Proof. rewrite <- t_spg. reflexivity. Qed.
  Lemma t_obj x : sobj m n M (sirt_weight P) cost 0 x = total_cost P M cost x.
  Proof. unfold sobj, total_cost. ring. Qed.
  Notation hc := (fun i v z Hi => proj1 (Hc i Hi) v z) (only parsing).
  Notation hs := (fun i v z Hi => proj2 (Hc i Hi) v z) (only parsing).
  Notation pre lem := (lem m n M (sirt_weight P) L cost g (sirt_tau P) 0 (p_lower P) (p_upper P) (p_xmask P)) (only parsing).
  Lemma hlim : lims_ok (p_lower P) (p_upper P) n. Proof. exact (proj1 (proj2 (proj2 HP))). Qed.
  Lemma hmask : binary_mask (p_xmask P). Proof. exact (proj1 (proj2 (proj2 (proj2 HP)))). Qed.
  Lemma t_relax : 0 <= p_relax P * W.
  Proof. destruct HP as (_ & _ & _ & _ & _ & _ & _ & Hr). apply Rmult_le_pos; lra. Qed.
  Lemma t_feas k : (1 <= k)%nat -> fe (sirt_iterate P k).
  Proof. intros Hk. apply sirt_iterate_feasible; [apply HP|exact Hk]. Qed.

  Lemma t_rate z lowest : p_relax P * W < 2 -> obeys_limits P z -> (forall x, obeys_limits P x -> lowest <= total_cost P M cost x) ->
    exists C, 0 <= C /\ forall it, (2 <= it)%nat -> total_cost P M cost (sirt_volume P it) <= total_cost P M cost z + C / INR it.
  Proof.
    intros Hr Hz Hlow.
    assert (D0 : 0 <= ProxGrad.dist2 n (sirt_tau P) (sirt_iterate P 1) z) by (apply ProxGrad.dist2_nonneg, t_tau).
    pose proof (ProxGrad.cst_nonneg (p_relax P * W) (Logic.conj t_relax Hr)) as Hcst.
    set (B := / 2 * ProxGrad.dist2 n (sirt_tau P) (sirt_iterate P 1) z + ProxGrad.cst (p_relax P * W) * (total_cost P M cost (sirt_iterate P 1) - lowest)).
    assert (HB : 0 <= B) by (unfold B; pose proof (Hlow _ (t_feas 1 ltac:(lia))); assert (0 <= ProxGrad.cst (p_relax P * W) * (total_cost P M cost (sirt_iterate P 1) - lowest)) by (apply Rmult_le_pos; lra); lra).
    exists (2 * B). split; [lra|]. intros it Hit. unfold sirt_volume. rewrite sirt_no_tol.
    pose proof (pre splain_rate (p_relax P * W) tw hc hs (proj1 t_tau) (Rle_refl 0) hlim hmask (proj2 t_tau) (fun k => sirt_iterate P (S k)) (t_feas 1 ltac:(lia)) (fun k => t_it (S k)) (Logic.conj t_relax Hr) z (it - 1)%nat lowest Hz) as H.
    assert (HQ : forall q, lowest <= sobj m n M (sirt_weight P) cost 0 (sirt_iterate P (S q))) by (intros q; rewrite t_obj; apply Hlow, t_feas; lia).
    specialize (H HQ ltac:(lia)). cbv beta in H. replace (S (it - 1)) with it in H by lia. rewrite !t_obj in H. fold B in H.
    eapply Rle_trans; [exact H|]. apply Rplus_le_compat_l.
    assert (H2 : 2 <= INR it) by (replace 2 with (INR 2) by (simpl; ring); apply le_INR, Hit). rewrite minus_INR by lia. change (INR 1) with 1.
    apply Rmult_le_reg_r with ((INR it - 1) * INR it); [apply Rmult_lt_0_compat; lra|].
    replace (B / (INR it - 1) * ((INR it - 1) * INR it)) with (B * INR it) by (field; lra).
    replace (2 * B / INR it * ((INR it - 1) * INR it)) with (B * (2 * INR it - 2)) by (field; lra). apply Rmult_le_compat_l; lra.
  Qed.
  Lemma t_min z : minimises (obeys_limits P) (total_cost P M cost) z <-> minimises fe (sobj m n M (sirt_weight P) cost 0) z.
  Proof. split; intros [H1 H2]; (split; [exact H1|]); intros y Hy; specialize (H2 y Hy); rewrite !t_obj in *; exact H2. Qed.
  Lemma t_converges z0 : p_relax P * W < 2 -> minimises (obeys_limits P) (total_cost P M cost) z0 ->
    exists z, minimises (obeys_limits P) (total_cost P M cost) z /\ volumes_tend_to (p_n P) (sirt_volume P) z.
  Proof.
    intros Hr Hz. apply t_min in Hz.
    destruct (pre splain_converges (p_relax P * W) tw (fun i Hi => proj1 (HL i Hi)) hc hs (proj1 t_tau) (Rle_refl 0) hlim hmask (proj2 t_tau) (fun k => sirt_iterate P (S k)) (t_feas 1 ltac:(lia)) (fun k => t_it (S k)) (Logic.conj t_relax Hr) z0 Hz) as (v & Hv & Hl).
    exists v. split; [apply t_min, Hv|]. intros eps He. destruct (Hl eps He) as [N HN]. exists (S N). intros it Hit j Hj. destruct it as [|it]; [lia|].
    unfold sirt_volume. rewrite sirt_no_tol. apply HN; [lia|exact Hj].
  Qed.
  Lemma t_fixed x : p_relax P * W < 2 -> obeys_limits P x -> (veq n (sirt_step P x) x <-> minimises (obeys_limits P) (total_cost P M cost) x).
  Proof.
    intros Hr Hx. rewrite t_min, t_spg. split.
    - intros Hf. apply (pre sfixed_min tw hc hs (proj1 t_tau) (Rle_refl 0) hlim hmask x Hx). exact Hf.
    - intros Hm. exact (pre smin_fixed (p_relax P * W) tw hc hs (proj1 t_tau) (Rle_refl 0) hlim hmask (proj2 t_tau) x Hr Hm).
  Qed.
  (** a minimiser exists when the costs grow at least linearly over the admissible volumes *)
  Lemma t_exists (A B c : vec) :
    (forall i, (i < m)%nat -> 0 <= B i) ->
    (forall i x, (i < m)%nat -> obeys_limits P x -> Rabs (mv n M x i) <= A i + B i * cost i (mv n M x i) /\ - c i <= cost i (mv n M x i)) ->
    exists z, minimises (obeys_limits P) (total_cost P M cost) z.
  Proof.
    intros HB Hco. set (K := fun i j => sirt_weight P i * M i j).
    assert (EK : forall x i, mv n K x i = sirt_weight P i * mv n M x i) by (intros x i; unfold mv, K; rewrite <- rsum_scal; apply rsum_ext; intros; ring).
    set (low := - rsum m (fun i => sirt_weight P i * c i)).
    assert (Hterm : forall i x, (i < m)%nat -> obeys_limits P x -> - (sirt_weight P i * c i) <= sirt_weight P i * cost i (mv n M x i)).
    { intros i x Hi Hx. destruct (Hco i x Hi Hx) as [_ H]. pose proof (tw i Hi). apply (Rmult_le_compat_l (sirt_weight P i)) in H; lra. }
    destruct (minimiser_exists m n K (total_cost P M cost) (fun _ => True) (p_lower P) (p_upper P) (p_xmask P) low) as [z [[Hz _] Hz2]].
    - intros x Hx _. unfold low, total_cost. rewrite <- rsum_opp. apply rsum_le. intros i Hi. apply Hterm; assumption.
    - exists (sirt_iterate P 1). split; [apply t_feas; lia|exact I].
    - intros x d t Hd _. split; [exact I|]. unfold total_cost. apply rsum_ext. intros i Hi. specialize (Hd i Hi). rewrite EK in Hd.
      destruct (Req_dec (sirt_weight P i) 0) as [E|E]; [rewrite E; ring|]. assert (Z : mv n M d i = 0) by (apply Rmult_integral in Hd; tauto).
      do 2 f_equal. transitivity (mv n M x i + t * mv n M d i); [|rewrite Z; ring]. unfold mv. rewrite <- rsum_scal, <- rsum_plus. apply rsum_ext. intros; ring.
    - intros Bd. set (T := Bd - low). set (C := rsum m (fun i => Rabs (sirt_weight P i * A i) + B i * (Rabs T + Rabs (sirt_weight P i * c i)))).
      assert (Cp : forall i, (i < m)%nat -> 0 <= Rabs (sirt_weight P i * A i) + B i * (Rabs T + Rabs (sirt_weight P i * c i))).
      { intros i Hi. specialize (HB i Hi). pose proof (Rabs_pos (sirt_weight P i * A i)). pose proof (Rabs_pos T). pose proof (Rabs_pos (sirt_weight P i * c i)).
        assert (0 <= B i * (Rabs T + Rabs (sirt_weight P i * c i))) by (apply Rmult_le_pos; lra). lra. }
      exists C. split; [apply rsum_nonneg, Cp|].
      intros x Hx _ Hf i Hi. rewrite EK. apply Rle_trans with (2 := rsum_term_le m _ i Cp Hi). pose proof (tw i Hi) as Hw. destruct (Hco i x Hi Hx) as [H1 _].
      rewrite Rabs_mult, (Rabs_right (sirt_weight P i)) by lra. apply (Rmult_le_compat_l (sirt_weight P i)) in H1; [|exact Hw].
      (* the pixel's own share of the cost *)
      assert (Hsh : sirt_weight P i * cost i (mv n M x i) + sirt_weight P i * c i <= T).
      { unfold T, low. pose proof (rsum_term_le m (fun i => sirt_weight P i * cost i (mv n M x i) + sirt_weight P i * c i) i) as R1. cbv beta in R1.
        rewrite rsum_plus in R1. unfold total_cost in Hf. assert (R2 : sirt_weight P i * cost i (mv n M x i) + sirt_weight P i * c i <= rsum m (fun i => sirt_weight P i * cost i (mv n M x i)) + rsum m (fun i => sirt_weight P i * c i)).
        { apply R1; [|exact Hi]. intros q Hq. pose proof (Hterm q x Hq Hx). lra. }
        lra. }
      pose proof (Rle_abs T). pose proof (Rle_abs (- (sirt_weight P i * c i))) as Q. rewrite Rabs_Ropp in Q. pose proof (Rle_abs (sirt_weight P i * A i)).
      assert (S2 : B i * (sirt_weight P i * cost i (mv n M x i)) <= B i * (Rabs T + Rabs (sirt_weight P i * c i))) by (apply Rmult_le_compat_l; [apply HB, Hi|lra]). lra.
    - intros U v q Hcl HU. split; [exact I|]. apply (pcluster_le n U v (total_cost P M cost) q Hcl).
      + apply (cont_ext n (sobj m n M (sirt_weight P) cost 0)); [intros u; apply t_obj|]. exact (sobj_cont m n M (sirt_weight P) L cost g 0 (fun i Hi => proj1 (HL i Hi)) hc hs v).
      + intros eps He. destruct (arch_inv eps He) as [N HN]. exists N. intros k u Hk Hu. destruct (HU k u Hu) as (_ & _ & H). pose proof (inv_S_mono N k Hk). lra.
    - exists z. split; [exact Hz|]. intros y Hy. apply Hz2. split; [exact Hy|exact I].
  Qed.
End SirtTerm.

(** * The residuals *)
Lemma soft_opp v t : soft_threshold1 (- v) t = - soft_threshold1 v t.
Proof.
  unfold soft_threshold1, np_sign, np_fmax. rewrite Rabs_Ropp. destruct (Rlt_dec 0 v); destruct (Rlt_dec v 0); destruct (Rlt_dec 0 (- v)); destruct (Rlt_dec (- v) 0); try lra; ring.
Qed.
Lemma soft_mask v t k : k = 0 \/ k = 1 -> soft_threshold1 (v * k) t = soft_threshold1 v t * k.
Proof. intros [-> | ->]; rewrite ?Rmult_0_r, ?Rmult_1_r; [apply soft_zero|reflexivity]. Qed.
Lemma wl2_residual t b sigma proj bm w i : dt_kind t = K_wl2 w ->
  compute_residual (assign_data t (Some b) sigma) proj bm i = - (w i * (proj i - (b i - back_at (dt_background t) i))) * mask_at bm i.
Proof. intros Hk. unfold compute_residual, assign_data, add_background. cbn. rewrite Hk. destruct (dt_background t), bm; cbn; ring. Qed.
Lemma l2b_residual t b sigma proj bm e i : dt_kind t = K_l2b e -> mask_at bm i = 0 \/ mask_at bm i = 1 ->
  compute_residual (assign_data t (Some b) sigma) proj bm i = - soft_threshold1 (proj i - (b i - back_at (dt_background t) i)) (sigma i * sqrt (e i)) * mask_at bm i.
Proof.
  intros Hk Hm. unfold compute_residual, assign_data, add_background. cbn. rewrite Hk. unfold soft_threshold. rewrite <- soft_opp, <- soft_mask by exact Hm. f_equal.
  destruct (dt_background t), bm; cbn; ring.
Qed.
Lemma KL_residual t b sigma proj bm i : dt_kind t = K_KL ->
  compute_residual (assign_data t (Some b) sigma) proj bm i =
  - kl_slope (sigma i) (Rmax (b i) 0) (Rmax (proj i + back_at (dt_background t) i) eps32) * mask_at bm i.
Proof.
  intros Hk. unfold compute_residual, assign_data, add_background, proximal_dual. cbn. rewrite Hk. unfold np_fmax, kl_slope, kl_dual_formula.
  assert (F : forall q k, - ((1 + Rmax (Rmax q eps32) eps32 * sigma i - sqrt ((Rmax (Rmax q eps32) eps32 * sigma i - 1) ^ 2 + 4 * sigma i * Rmax (b i) 0)) / 2 * k) =
    - ((1 + sigma i * Rmax q eps32 - sqrt ((sigma i * Rmax q eps32 - 1) ^ 2 + 4 * sigma i * Rmax (b i) 0)) / 2) * k).
  { intros q k. rewrite (Rmax_left (Rmax q eps32) eps32) by apply Rmax_r. rewrite (Rmult_comm (Rmax q eps32) (sigma i)). ring. }
  destruct (dt_background t) as [bg|]; destruct bm as [k|]; cbn [apply_mask mask_at back_at]; rewrite ?Rplus_0_r; rewrite <- F; [reflexivity| |reflexivity|];
    match goal with |- _ = - (?a * 1) => rewrite (Rmult_1_r a) end; reflexivity.
Qed.

(** * C192: weighted least squares *)
Section Weighted.
  Variables (P : problem) (M : mat) (w : vec) (W : R).
  Hypothesis HP : sirt_run P M.
  Hypothesis Hk : dt_kind (p_dterm P) = K_wl2 w.
  Hypothesis Hw : forall i, (i < p_m P)%nat -> 0 <= w i <= W.
  Hypothesis HW : 0 <= W.
  Let cost : nat -> R -> R := fun i v => w i * (target P i - v) ^ 2 / 2.
  Let g : nat -> R -> R := fun i v => w i * (v - target P i).
  Lemma w_smooth i : (i < p_m P)%nat -> smooth_cost (cost i) (g i) (w i).
  Proof. intros Hi. apply smooth_quad, Hw, Hi. Qed.
  Lemma w_res x i : (i < p_m P)%nat -> compute_residual (sirt_dt P) (mv (p_n P) M x) (train_mask P) i = - g i (mv (p_n P) M x i) * mask_at (train_mask P) i.
  Proof. intros _. unfold sirt_dt, assigned. rewrite (wl2_residual _ _ _ _ _ w) by exact Hk. reflexivity. Qed.
  Lemma w_obj x : total_cost P M cost x = / 2 * wres (p_m P) (p_n P) M (fun i => sirt_weight P i * w i) (target P) x.
  Proof. unfold total_cost, wres, cost. rewrite <- rsum_scal. apply rsum_ext. intros i Hi. field. Qed.
  Lemma w_min z : minimises (obeys_limits P) (total_cost P M cost) z <-> minimises (obeys_limits P) (wres (p_m P) (p_n P) M (fun i => sirt_weight P i * w i) (target P)) z.
  Proof. split; intros [H1 H2]; (split; [exact H1|]); intros y Hy; specialize (H2 y Hy); rewrite !w_obj in *; lra. Qed.
  Lemma w_nonneg i : (i < p_m P)%nat -> 0 <= sirt_weight P i * w i.
  Proof. intros Hi. apply Rmult_le_pos; [apply (tw P M HP i Hi)|apply Hw, Hi]. Qed.
  Lemma w_exists : exists z, minimises (obeys_limits P) (wres (p_m P) (p_n P) M (fun i => sirt_weight P i * w i) (target P)) z.
  Proof. pose proof HP as (_ & _ & Hl & _). apply (ls_minimiser_exists (p_m P) (p_n P) M _ (target P) (p_lower P) (p_upper P) (p_xmask P) w_nonneg Hl). Qed.
End Weighted.
(** weights at most [W] with relaxation * W < 2: the volumes tend to a minimiser of the weighted least-squares cost, at rate 1/iterations *)
Theorem C192_weighted_converges : forall P M w W, sirt_run P M -> dt_kind (p_dterm P) = K_wl2 w ->
  (forall i, (i < p_m P)%nat -> 0 <= w i <= W) -> 0 <= W -> p_relax P * W < 2 ->
  exists z, minimises (obeys_limits P) (wres (p_m P) (p_n P) M (fun i => sirt_weight P i * w i) (target P)) z /\ volumes_tend_to (p_n P) (sirt_volume P) z.
Proof.
  intros P M w W HP Hk Hw HW Hr. destruct (w_exists P M w W HP Hw) as [z0 Hz0]. apply (w_min P M w) in Hz0.
  destruct (t_converges P M _ _ w W HP (w_smooth P w W Hw) Hw HW (w_res P M w Hk) z0 Hr Hz0) as (z & Hz & Hl). exists z. split; [apply (w_min P M w), Hz|exact Hl].
Qed.
Theorem C192_weighted_rate : forall P M w W z, sirt_run P M -> dt_kind (p_dterm P) = K_wl2 w ->
  (forall i, (i < p_m P)%nat -> 0 <= w i <= W) -> 0 <= W -> p_relax P * W < 2 -> obeys_limits P z ->
  exists C, 0 <= C /\ forall it, (2 <= it)%nat ->
    wres (p_m P) (p_n P) M (fun i => sirt_weight P i * w i) (target P) (sirt_volume P it)
    <= wres (p_m P) (p_n P) M (fun i => sirt_weight P i * w i) (target P) z + C / INR it.
Proof.
  intros P M w W z HP Hk Hw HW Hr Hz.
  destruct (t_rate P M _ _ w W HP (w_smooth P w W Hw) Hw HW (w_res P M w Hk) z 0 Hr Hz) as (C & HC & H).
  { intros x _. rewrite w_obj. pose proof (ls_nonneg (p_m P) (p_n P) M _ (target P) (w_nonneg P M w W HP Hw) x). lra. }
  exists (2 * C). split; [lra|]. intros it Hit. specialize (H it Hit). rewrite !w_obj in H. unfold Rdiv in *. lra.
Qed.
Theorem C192_weighted_fixed_points : forall P M w W x, sirt_run P M -> dt_kind (p_dterm P) = K_wl2 w ->
  (forall i, (i < p_m P)%nat -> 0 <= w i <= W) -> 0 <= W -> p_relax P * W < 2 -> obeys_limits P x ->
  (veq (p_n P) (sirt_step P x) x <-> minimises (obeys_limits P) (wres (p_m P) (p_n P) M (fun i => sirt_weight P i * w i) (target P)) x).
Proof.
  intros P M w W x HP Hk Hw HW Hr Hx. rewrite <- (w_min P M w). apply (t_fixed P M _ _ w W HP (w_smooth P w W Hw) Hw HW (w_res P M w Hk) x Hr Hx).
Qed.

(** ** one voxel, one pixel *)
Definition one_pixel (a b relax : R) (t : dterm) (lo : option vec) (x0 : option vec) : problem :=
  mkProblem 1 1 (mat_op 1 1 (fun _ _ => a)) (fun _ => b) x0 lo None None None None None relax [] t t.
Lemma one_sigma a b relax t lo x0 : 0 < a <= 100000 -> sirt_sigma (one_pixel a b relax t lo x0) 0%nat = / a /\ sirt_tau (one_pixel a b relax t lo x0) 0%nat = relax / a /\
  safe_sigma (one_pixel a b relax t lo x0) /\ safe_tau (one_pixel a b relax t lo x0).
Proof.
  intros Ha. set (P := one_pixel a b relax t lo x0).
  assert (E1 : raw_sigma (p_op P) (p_xmask P) 0%nat = a).
  { unfold raw_sigma, P, one_pixel. simpl. unfold mv, mat_abs, ones_masked, mul_mask, vones. simpl. rewrite (Rabs_right a) by lra. rewrite Rabs_right; lra. }
  assert (E2 : raw_tau (p_op P) [] None 0%nat = a).
  { unfold raw_tau, P, one_pixel. simpl. unfold mtv, mat_abs, ones_masked, mul_mask, vones. simpl. rewrite (Rabs_right a) by lra. rewrite Rabs_right; lra. }
  assert (M1 : rmax (p_m P) (raw_sigma (p_op P) (p_xmask P)) = a) by exact E1.
  assert (M2 : rmax (p_n P) (raw_tau (p_op P) (p_regs P) (train_mask P)) = a) by exact E2.
  assert (Q : forall c, c / a = c * / a) by reflexivity.
  split; [|split].
  - unfold sirt_sigma, diag_sigma, guard_small. rewrite M1, E1. destruct (Rlt_dec (a / a) (/ 100000)) as [C|_]; [exfalso|unfold Rdiv; ring].
    unfold Rdiv in C. rewrite Rinv_r in C by lra. lra.
  - unfold sirt_tau, diag_tau, guard_small. change (raw_tau (p_op P) (p_regs P) (fst (initialize_b_masks (p_bmask P) (p_btest P)))) with (raw_tau (p_op P) [] None).
    change (rmax (p_n P) (raw_tau (p_op P) [] None)) with (rmax (p_n P) (raw_tau (p_op P) (p_regs P) (train_mask P))). rewrite M2, E2. destruct (Rlt_dec (a / a) (/ 100000)) as [C|_]; [exfalso|reflexivity].
    unfold Rdiv in C. rewrite Rinv_r in C by lra. lra.
  - apply C30_scaling_condition; [rewrite M1|rewrite M2]; lra.
Qed.
Lemma one_run a b relax t lo x0 : 0 < a <= 100000 -> 0 < relax -> sirt_run (one_pixel a b relax t lo x0) (fun _ _ => a).
Proof.
  intros Ha Hr. destruct (one_sigma a b relax t lo x0 Ha) as (_ & _ & S1 & S2). split; [reflexivity|]. split; [reflexivity|].
  split; [intros l u j H1 H2; discriminate H2|]. split; [intros i; right; reflexivity|]. split; [intros i; right; reflexivity|]. split; [exact S1|]. split; [exact S2|exact Hr].
Qed.
Lemma one_free a b relax t x0 x : obeys_limits (one_pixel a b relax t None x0) x.
Proof. intros j _. cbn. tauto. Qed.
(** the iteration of the only voxel when the residual is [- g v] *)
Lemma one_step a b relax t lo x0 g x : 0 < a <= 100000 ->
  (forall v, compute_residual (sirt_dt (one_pixel a b relax t lo x0)) (fun _ => v) None 0%nat = - g v) ->
  sirt_step (one_pixel a b relax t lo x0) x 0%nat = match lo with None => fun y => y | Some l => fun y => Rmax y (l 0%nat) end (x 0%nat - relax / a * g (a * x 0%nat)).
Proof.
  intros Ha Hg. destruct (one_sigma a b relax t lo x0 Ha) as (E1 & E2 & _). set (P := one_pixel a b relax t lo x0) in *.
  assert (E : sirt_step P x 0%nat = constrain lo None None (fun _ => x 0%nat + (a * (compute_residual (sirt_dt P) (mv 1 (fun _ _ => a) x) None 0%nat * sirt_sigma P 0%nat)) * sirt_tau P 0%nat) 0%nat).
  { unfold sirt_step, sirt_update, P, one_pixel. cbn [p_regs p_op p_lower p_upper p_xmask map combine fold_left]. unfold constrain, mul_mask, np_clip. unfold vadd, vmul, mtv. cbn [opAt opA mat_op p_op rsum]. unfold mtv. cbn [rsum].
    change (initialize_b_masks _ _) with (@None vec, @None vec). cbn [fst]. rewrite Rplus_0_l. destruct lo; reflexivity. }
  rewrite E, E1, E2. assert (Em : mv 1 (fun _ _ => a) x = fun _ => a * x 0%nat) by (apply vec_ext; intros j; unfold mv; cbn; ring). rewrite Em, Hg.
  assert (Q : x 0%nat + a * (- g (a * x 0%nat) * / a) * (relax / a) = x 0%nat - relax / a * g (a * x 0%nat)) by (field; lra). rewrite Q.
  unfold constrain, mul_mask, np_clip. destruct lo; reflexivity.
Qed.
(** the bound on the weights is sharp: above it, the error of the simplest consistent problem grows geometrically *)
Definition one_weighted (w relax : R) : problem := one_pixel 1 1 relax (new_dterm (K_wl2 (fun _ => w)) None) None None.
Theorem C192_large_weights_diverge : forall w relax, 0 < w -> 0 < relax -> let P := one_weighted w relax in
  sirt_run P (fun _ _ => 1) /\ minimises (obeys_limits P) (wres 1 1 (fun _ _ => 1) (fun i => sirt_weight P i * w) (target P)) vones /\
  forall it, Rabs (sirt_volume P it 0%nat - 1) = Rabs (1 - relax * w) ^ it.
Proof.
  intros w relax Hw Hr P. assert (R1 : sirt_run P (fun _ _ => 1)) by (apply one_run; lra). split; [exact R1|]. split.
  { split; [apply one_free|]. intros y _. unfold wres, mv, target, vones. cbn.
    assert (E : sirt_weight P 0%nat = 1). { unfold sirt_weight. destruct (one_sigma 1 1 relax (new_dterm (K_wl2 (fun _ => w)) None) None None ltac:(lra)) as (E & _). fold (one_weighted w relax) in E. fold P in E. rewrite E. cbn. rewrite Rinv_1. ring. }
    rewrite E. pose proof (pow2_ge_0 (1 - 0 - (0 + 1 * y 0%nat))) as Q. assert (0 <= 1 * w * (1 - 0 - (0 + 1 * y 0%nat)) ^ 2) by (apply Rmult_le_pos; lra). cbn in *. lra. }
  intros it. unfold sirt_volume. rewrite sirt_no_tol.
  assert (H : sirt_iterate P it 0%nat - 1 = - (1 - relax * w) ^ it).
  { induction it as [|it IH]; [unfold sirt_iterate, P; cbn; unfold vzeros; ring|].
    change (sirt_iterate P (S it)) with (sirt_step P (sirt_iterate P it)). unfold P, one_weighted.
    rewrite (one_step 1 1 relax _ None None (fun v => w * (v - 1))); [|lra|].
    - fold (one_weighted w relax). fold P. replace (sirt_iterate P it 0%nat) with (1 - (1 - relax * w) ^ it) by lra. cbn [pow]. field.
    - intros v. unfold sirt_dt, assigned. rewrite (wl2_residual _ _ _ _ _ (fun _ => w)) by reflexivity. cbn. ring. }
  rewrite H, Rabs_Ropp. apply eq_sym, RPow_abs.
Qed.
Theorem C192_any_weights_refuted : ~ (forall P M w, sirt_run P M -> dt_kind (p_dterm P) = K_wl2 w -> (forall i, (i < p_m P)%nat -> 0 <= w i) -> p_relax P < 2 ->
  exists z, minimises (obeys_limits P) (wres (p_m P) (p_n P) M (fun i => sirt_weight P i * w i) (target P)) z /\ volumes_tend_to (p_n P) (sirt_volume P) z).
Proof.
  intros H. destruct (C192_large_weights_diverge 4 1 ltac:(lra) ltac:(lra)) as (R1 & _ & E). cbv zeta in E.
  destruct (H (one_weighted 4 1) (fun _ _ => 1) (fun _ => 4) R1 eq_refl ltac:(intros; lra) ltac:(cbn; lra)) as (z & _ & Hz).
  destruct (Hz 1 ltac:(lra)) as [N HN]. pose proof (HN N ltac:(lia) 0%nat ltac:(cbn; lia)) as A. pose proof (HN (S N) ltac:(lia) 0%nat ltac:(cbn; lia)) as B.
  assert (G : forall it, sirt_volume (one_weighted 4 1) it 0%nat - 1 = - (-3) ^ it).
  { intros it. unfold sirt_volume. rewrite sirt_no_tol. induction it as [|it IH]; [unfold sirt_iterate; cbn; unfold vzeros; ring|].
    change (sirt_iterate (one_weighted 4 1) (S it)) with (sirt_step (one_weighted 4 1) (sirt_iterate (one_weighted 4 1) it)). unfold one_weighted at 1.
    rewrite (one_step 1 1 1 _ None None (fun v => 4 * (v - 1))); [|lra|].
    - replace (sirt_iterate (one_weighted 4 1) it 0%nat) with (1 - (-3) ^ it) by lra. cbn [pow]. field.
    - intros v. unfold sirt_dt, assigned. rewrite (wl2_residual _ _ _ _ _ (fun _ => 4)) by reflexivity. cbn. ring. }
  pose proof (G N) as G1. pose proof (G (S N)) as G2. cbn [pow] in G2.
  assert (Q : 1 <= Rabs ((-3) ^ N)). { rewrite <- RPow_abs. apply pow_R1_Rle. rewrite Rabs_left; lra. }
  set (p := (-3) ^ N) in *. set (z0 := z 0%nat) in *. replace (sirt_volume (one_weighted 4 1) N 0%nat) with (1 - p) in A by lra. replace (sirt_volume (one_weighted 4 1) (S N) 0%nat) with (1 + 3 * p) in B by lra.
  unfold Rabs in A, B, Q. destruct (Rcase_abs (1 - p - z0)); destruct (Rcase_abs (1 + 3 * p - z0)); destruct (Rcase_abs p); lra.
Qed.
(** Non-vacuity: weights below the bound *)
Example C192_example : sirt_run (one_weighted (3 / 2) 1) (fun _ _ => 1) /\ p_relax (one_weighted (3 / 2) 1) * (3 / 2) < 2 /\ obeys_limits (one_weighted (3 / 2) 1) vones.
Proof. split; [apply one_run; lra|]. split; [cbn; lra|]. apply one_free. Qed.

(** * C193: tolerance bands *)
(** the band SIRT uses for pixel i: sqrt(local_error) divided by the pixel's row sum *)
Definition sirt_band (P : problem) (e : vec) : vec := fun i => sirt_sigma P i * sqrt (e i).
Section Band.
  Variables (P : problem) (M : mat) (e : vec).
  Hypothesis HP : sirt_run P M.
  Hypothesis Hk : dt_kind (p_dterm P) = K_l2b e.
  Let g : nat -> R -> R := fun i v => soft_threshold1 (v - target P i) (sirt_band P e i).
  Lemma b_nonneg i : (i < p_m P)%nat -> 0 <= sirt_band P e i.
  Proof. destruct HP as (_ & _ & _ & _ & _ & Hs & _). intros Hi. apply Rmult_le_pos; [left; apply (sirt_sigma_pos P i Hs Hi)|apply sqrt_pos]. Qed.
  Lemma b_smooth i : (i < p_m P)%nat -> smooth_cost (band_cost P (sirt_band P e) i) (g i) 1.
  Proof. intros Hi. apply smooth_band, b_nonneg, Hi. Qed.
  Lemma b_res x i : (i < p_m P)%nat -> compute_residual (sirt_dt P) (mv (p_n P) M x) (train_mask P) i = - g i (mv (p_n P) M x i) * mask_at (train_mask P) i.
  Proof. intros _. destruct HP as (_ & _ & _ & _ & Hbm & _). unfold sirt_dt, assigned. rewrite (l2b_residual _ _ _ _ _ e i Hk (Hbm i)). reflexivity. Qed.
  Lemma b_exists : exists z, minimises (obeys_limits P) (total_cost P M (band_cost P (sirt_band P e))) z.
  Proof.
    apply (t_exists P M _ g (fun _ => 1) 1 HP b_smooth ltac:(intros; lra) (fun i => Rabs (target P i) + sirt_band P e i + 1) (fun _ => 2) (fun _ => 0)); [intros; lra|].
    intros i x Hi _. unfold band_cost. set (v := mv (p_n P) M x i). set (bd := sirt_band P e i). set (y := Rmax (Rabs (v - target P i) - bd) 0).
    assert (Hy : Rabs (v - target P i) - bd <= y) by apply Rmax_l. pose proof (pow2_ge_0 y). split; [|unfold Rdiv; lra].
    replace v with ((v - target P i) + target P i) at 1 by ring. eapply Rle_trans; [apply Rabs_triang|]. assert (y <= 1 + y ^ 2) by (pose proof (pow2_ge_0 (y - 1 / 2)); nra). unfold Rdiv. lra.
  Qed.
End Band.
Theorem C193_band_converges : forall P M e, sirt_run P M -> dt_kind (p_dterm P) = K_l2b e -> p_relax P < 2 ->
  exists z, minimises (obeys_limits P) (total_cost P M (band_cost P (sirt_band P e))) z /\ volumes_tend_to (p_n P) (sirt_volume P) z.
Proof.
  intros P M e HP Hk Hr. destruct (b_exists P M e HP) as [z0 Hz0].
  exact (t_converges P M _ _ (fun _ => 1) 1 HP (b_smooth P M e HP) ltac:(intros; lra) ltac:(lra) (b_res P M e HP Hk) z0 ltac:(lra) Hz0).
Qed.
Theorem C193_band_rate : forall P M e z, sirt_run P M -> dt_kind (p_dterm P) = K_l2b e -> p_relax P < 2 -> obeys_limits P z ->
  exists C, 0 <= C /\ forall it, (2 <= it)%nat ->
    total_cost P M (band_cost P (sirt_band P e)) (sirt_volume P it) <= total_cost P M (band_cost P (sirt_band P e)) z + C / INR it.
Proof.
  intros P M e z HP Hk Hr Hz.
  apply (t_rate P M _ _ (fun _ => 1) 1 HP (b_smooth P M e HP) ltac:(intros; lra) ltac:(lra) (b_res P M e HP Hk) z 0 ltac:(lra) Hz).
  intros x _. apply rsum_nonneg. intros i Hi. apply Rmult_le_pos; [apply (tw P M HP i Hi)|]. unfold band_cost. pose proof (pow2_ge_0 (Rmax (Rabs (mv (p_n P) M x i - target P i) - sirt_band P e i) 0)). lra.
Qed.
(** a volume is left unchanged exactly when it is a best one; in particular when every used pixel is inside SIRT's band *)
Theorem C193_band_fixed_points : forall P M e x, sirt_run P M -> dt_kind (p_dterm P) = K_l2b e -> p_relax P < 2 -> obeys_limits P x ->
  (veq (p_n P) (sirt_step P x) x <-> minimises (obeys_limits P) (total_cost P M (band_cost P (sirt_band P e))) x) /\
  ((forall i, (i < p_m P)%nat -> mask_at (train_mask P) i = 1 -> Rabs (mv (p_n P) M x i - target P i) <= sirt_sigma P i * sqrt (e i)) -> veq (p_n P) (sirt_step P x) x).
Proof.
  intros P M e x HP Hk Hr Hx. assert (F := t_fixed P M _ _ (fun _ => 1) 1 HP (b_smooth P M e HP) ltac:(intros; lra) ltac:(lra) (b_res P M e HP Hk) x ltac:(lra) Hx).
  split; [exact F|]. intros Hin. apply F. split; [exact Hx|]. intros y Hy. apply Rle_trans with 0.
  - right. unfold total_cost. apply rsum_zero. intros i Hi. pose proof HP as (_ & _ & _ & _ & Hbm & _). unfold sirt_weight. destruct (Hbm i) as [E|E]; [rewrite E; ring|].
    specialize (Hin i Hi E). unfold band_cost, sirt_band. rewrite Rmax_right by lra. field.
  - apply rsum_nonneg. intros i Hi. apply Rmult_le_pos; [apply (tw P M HP i Hi)|]. unfold band_cost. pose proof (pow2_ge_0 (Rmax (Rabs (mv (p_n P) M y i - target P i) - sirt_band P e i) 0)). lra.
Qed.
(** the documented band is sqrt(local_error) in data units (C07); SIRT's band is not, in either direction *)
Definition one_band (a b e : R) (x0 : R) : problem := one_pixel a b 1 (new_dterm (K_l2b (fun _ => e)) None) None (Some (fun _ => x0)).
Lemma one_band_step a b e x0 x : 0 < a <= 100000 ->
  sirt_step (one_band a b e x0) x 0%nat = x 0%nat - 1 / a * soft_threshold1 (a * x 0%nat - b) (/ a * sqrt e).
Proof.
  intros Ha. unfold one_band. rewrite (one_step a b 1 _ None _ (fun v => soft_threshold1 (v - b) (/ a * sqrt e))); [reflexivity|exact Ha|].
  intros v. unfold sirt_dt, assigned. rewrite (l2b_residual _ _ _ _ _ (fun _ => e)) by (try reflexivity; right; reflexivity). cbn [p_b one_pixel dt_background new_dterm back_at mask_at].
  fold (one_pixel a b 1 (new_dterm (K_l2b (fun _ => e)) None) None (Some (fun _ : nat => x0))). destruct (one_sigma a b 1 (new_dterm (K_l2b (fun _ => e)) None) None (Some (fun _ : nat => x0)) Ha) as (-> & _).
  rewrite Rminus_0_r. ring.
Qed.
(** volumes inside the documented band are not left alone *)
Theorem C193_within_error_unchanged_refuted : ~ (forall P M e x, sirt_run P M -> dt_kind (p_dterm P) = K_l2b e -> p_relax P < 2 -> obeys_limits P x ->
  (forall i, (i < p_m P)%nat -> mask_at (train_mask P) i = 1 -> Rabs (mv (p_n P) M x i - target P i) <= sqrt (e i)) -> veq (p_n P) (sirt_step P x) x).
Proof.
  intros H. specialize (H (one_band 2 0 1 0) (fun _ _ => 2) (fun _ => 1) (fun _ => 1 / 2)). assert (R1 : sirt_run (one_band 2 0 1 0) (fun _ _ => 2)) by (apply one_run; lra).
  specialize (H R1 eq_refl ltac:(cbn; lra) (one_free _ _ _ _ _ _)).
  assert (Q : veq 1 (sirt_step (one_band 2 0 1 0) (fun _ => 1 / 2)) (fun _ => 1 / 2)).
  { apply H. intros i _ _. unfold mv, target. cbn. rewrite sqrt_1. rewrite Rabs_right; lra. }
  specialize (Q 0%nat ltac:(lia)). rewrite (one_band_step 2 0 1 0 (fun _ => 1 / 2)) in Q by lra. cbv beta in Q. rewrite sqrt_1 in Q. unfold soft_threshold1, np_sign, np_fmax in Q.
  destruct (Rlt_dec 0 (2 * (1 / 2) - 0)); [|lra]. rewrite Rabs_right in Q by lra. rewrite Rmax_left in Q by lra. lra.
Qed.
(** and deviations beyond the documented band are left standing although they could be removed *)
Theorem C193_limit_within_error_refuted : ~ (forall P M e, sirt_run P M -> dt_kind (p_dterm P) = K_l2b e -> p_relax P < 2 ->
  (exists x, obeys_limits P x /\ forall i, (i < p_m P)%nat -> mask_at (train_mask P) i = 1 -> Rabs (mv (p_n P) M x i - target P i) <= sqrt (e i)) ->
  exists z, volumes_tend_to (p_n P) (sirt_volume P) z /\ forall i, (i < p_m P)%nat -> mask_at (train_mask P) i = 1 -> Rabs (mv (p_n P) M z i - target P i) <= sqrt (e i)).
Proof.
  intros H. set (P := one_band (1 / 2) 0 1 3). assert (R1 : sirt_run P (fun _ _ => 1 / 2)) by (apply one_run; lra).
  destruct (H P (fun _ _ => 1 / 2) (fun _ => 1) R1 eq_refl ltac:(cbn; lra)) as (z & Hz & Hin).
  { exists vzeros. split; [apply one_free|]. intros i _ _. unfold mv, target, vzeros. cbn. rewrite sqrt_1, Rabs_right; lra. }
  assert (St : forall it, sirt_volume P it 0%nat = 3).
  { intros it. unfold sirt_volume. rewrite sirt_no_tol. induction it as [|it IH]; [reflexivity|]. change (sirt_iterate P (S it)) with (sirt_step P (sirt_iterate P it)). unfold P at 1.
    rewrite (one_band_step (1 / 2) 0 1 3) by lra. rewrite IH, sqrt_1. unfold soft_threshold1, np_sign, np_fmax. rewrite (Rabs_right (1 / 2 * 3 - 0)) by lra. rewrite Rmax_right by lra. field. }
  assert (Ez : z 0%nat = 3).
  { destruct (Req_dec (z 0%nat) 3) as [E|E]; [exact E|exfalso]. destruct (Hz (Rabs (3 - z 0%nat)) ltac:(apply Rabs_pos_lt; lra)) as [N HN].
    specialize (HN N ltac:(lia) 0%nat ltac:(cbn; lia)). rewrite St in HN. lra. }
  specialize (Hin 0%nat ltac:(cbn; lia) eq_refl). unfold mv, target in Hin. cbn in Hin. rewrite Ez, sqrt_1, Rabs_right in Hin; lra.
Qed.
Example C193_example : sirt_run (one_band 2 0 1 0) (fun _ _ => 2) /\ p_relax (one_band 2 0 1 0) < 2 /\ sirt_band (one_band 2 0 1 0) (fun _ => 1) 0%nat = 1 / 2.
Proof.
  split; [apply one_run; lra|]. split; [cbn; lra|]. unfold sirt_band, one_band. destruct (one_sigma 2 0 1 (new_dterm (K_l2b (fun _ => 1)) None) None (Some (fun _ => 0)) ltac:(lra)) as (-> & _).
  rewrite sqrt_1. field.
Qed.

(** * C194: SIRT with the Kullback-Leibler data term *)
(** expected counts and measured counts (negative readings count as zero) *)
Definition expected_counts (P : problem) (M : mat) (x : vec) (i : nat) : R := mv (p_n P) M x i + back_at (dt_background (p_dterm P)) i.
Definition measured_counts (P : problem) (i : nat) : R := Rmax (p_b P i) 0.
(** emission tomography: nothing is negative *)
Definition emission (P : problem) (M : mat) : Prop :=
  (forall i j, (i < p_m P)%nat -> (j < p_n P)%nat -> 0 <= M i j) /\ (forall i, (i < p_m P)%nat -> 0 <= back_at (dt_background (p_dterm P)) i) /\
  forall x j, obeys_limits P x -> (j < p_n P)%nat -> 0 <= x j.
Section KLs.
  Variables (P : problem) (M : mat) (W : R).
  Hypothesis HP : sirt_run P M.
  Hypothesis Hk : dt_kind (p_dterm P) = K_KL.
  Hypothesis HW : 0 <= W.
  Hypothesis Hs : forall i, (i < p_m P)%nat -> sirt_sigma P i <= W.
  Let g : nat -> R -> R := fun i v => kl_slope (sirt_sigma P i) (Rmax (p_b P i) 0) (Rmax (v + back_at (dt_background (p_dterm P)) i) eps32).
  Lemma k_sigma i : (i < p_m P)%nat -> 0 < sirt_sigma P i.
  Proof. destruct HP as (_ & _ & _ & _ & _ & Hsg & _). intros Hi. apply (sirt_sigma_pos P i Hsg Hi). Qed.
  Lemma k_L i : (i < p_m P)%nat -> 0 <= sirt_sigma P i <= W.
  Proof. intros Hi. pose proof (k_sigma i Hi). specialize (Hs i Hi). lra. Qed.
  Lemma k_smooth i : (i < p_m P)%nat -> smooth_cost (kl_cost P i) (g i) (sirt_sigma P i).
  Proof. intros Hi. apply (smooth_shift _ _ _ (back_at (dt_background (p_dterm P)) i) (kl_clamped_smooth (sirt_sigma P i) (Rmax (p_b P i) 0) (k_sigma i Hi) (Rmax_r _ _))). Qed.
  Lemma k_res x i : (i < p_m P)%nat -> compute_residual (sirt_dt P) (mv (p_n P) M x) (train_mask P) i = - g i (mv (p_n P) M x i) * mask_at (train_mask P) i.
  Proof. intros _. unfold sirt_dt, assigned. rewrite KL_residual by exact Hk. reflexivity. Qed.
End KLs.
Lemma eps32_pos : 0 < eps32.
Proof. unfold eps32. apply Rinv_0_lt_compat, pow_lt. lra. Qed.
(** the pixel cost has its minimum at the measured count, when that is above float32's epsilon *)
Lemma kl_cost_min P i v : 0 < sirt_sigma P i -> eps32 <= measured_counts P i ->
  kl_cost P i (measured_counts P i - back_at (dt_background (p_dterm P)) i) <= kl_cost P i v.
Proof.
  intros Hs Hb. set (bg := back_at (dt_background (p_dterm P)) i).
  destruct (smooth_shift _ _ _ bg (kl_clamped_smooth (sirt_sigma P i) (Rmax (p_b P i) 0) Hs (Rmax_r _ _))) as [A _].
  specialize (A (measured_counts P i - bg) v). cbv beta in A. fold (kl_cost P i v) in A. fold (kl_cost P i (measured_counts P i - bg)) in A.
  replace (measured_counts P i - bg + bg) with (measured_counts P i) in A by ring. rewrite (Rmax_left (measured_counts P i) eps32) in A by exact Hb.
  rewrite (proj1 (proj2 (kl_slope_sign (sirt_sigma P i) (Rmax (p_b P i) 0) Hs (Rmax_r _ _) (measured_counts P i))) eq_refl) in A. unfold kl_cost in *. fold bg in A. fold bg. rewrite Rmult_0_l, Rplus_0_r in A. replace (measured_counts P i - bg + bg) with (measured_counts P i) by ring. exact A.
Qed.
Lemma kl_cost_unique P i v : 0 < sirt_sigma P i -> eps32 < measured_counts P i ->
  kl_cost P i v <= kl_cost P i (measured_counts P i - back_at (dt_background (p_dterm P)) i) -> v + back_at (dt_background (p_dterm P)) i = measured_counts P i.
Proof.
  intros Hs Hb Hle. set (bg := back_at (dt_background (p_dterm P)) i) in *.
  destruct (smooth_shift _ _ _ bg (kl_clamped_smooth (sirt_sigma P i) (Rmax (p_b P i) 0) Hs (Rmax_r _ _))) as [_ B].
  set (gv := kl_slope (sirt_sigma P i) (Rmax (p_b P i) 0) (Rmax (v + bg) eps32)) in *. set (s := sirt_sigma P i) in *.
  specialize (B v (v - gv / s)). cbv beta in B. fold gv in B. pose proof (kl_cost_min P i (v - gv / s) Hs ltac:(lra)) as C. fold bg in C.
  change (kl_clamped s (Rmax (p_b P i) 0) (v + bg)) with (kl_cost P i v) in B. change (kl_clamped s (Rmax (p_b P i) 0) (v - gv / s + bg)) with (kl_cost P i (v - gv / s)) in B.
  replace (gv * (v - gv / s - v)) with (- (gv ^ 2 / s)) in B by (field; lra). replace (s / 2 * (v - gv / s - v) ^ 2) with (gv ^ 2 / s / 2) in B by (field; lra).
  assert (Hn : 0 <= gv ^ 2 / s) by (apply Rdiv_le_0_compat; [apply pow2_ge_0|exact Hs]).
  assert (G0 : gv = 0). { assert (E : gv ^ 2 / s = 0) by lra. assert (E2 : gv ^ 2 = 0) by (apply Rmult_eq_reg_r with (/ s); [unfold Rdiv in E; lra|apply Rinv_neq_0_compat; lra]). apply Rsqr_0_uniq. unfold Rsqr. lra. }
  destruct (kl_slope_sign s (Rmax (p_b P i) 0) Hs (Rmax_r _ _) (Rmax (v + bg) eps32)) as (S1 & _ & S3). fold gv in S1, S3. fold (measured_counts P i) in S1, S3.
  destruct (Rtotal_order (Rmax (v + bg) eps32) (measured_counts P i)) as [T|[T|T]]; [specialize (S3 T); lra| |specialize (S1 T); lra].
  unfold Rmax in T. destruct (Rle_dec (v + bg) eps32); lra.
Qed.
Lemma k_exists P M W : sirt_run P M -> (forall i, (i < p_m P)%nat -> sirt_sigma P i <= W) -> emission P M ->
  exists z, minimises (obeys_limits P) (total_cost P M (kl_cost P)) z.
Proof.
  intros HP Hs (HM & Hbg & Hx). set (bg := fun i => back_at (dt_background (p_dterm P)) i).
  (* slopes at measured + 1 and at epsilon *)
  set (d := fun i => kl_slope (sirt_sigma P i) (measured_counts P i) (measured_counts P i + 1)).
  set (lowc := fun i => Rabs (kl_cost P i (measured_counts P i - bg i)) + Rabs (kl_cost P i (eps32 - bg i)) + Rabs (kl_slope (sirt_sigma P i) (measured_counts P i) eps32) * eps32).
  set (top := fun i => kl_cost P i (measured_counts P i + 1 - bg i)).
  apply (t_exists P M (kl_cost P) _ (sirt_sigma P) W HP (k_smooth P M HP) (k_L P M W HP Hs)
    (fun i => measured_counts P i + 1 + bg i - top i / d i) (fun i => / d i) lowc).
  - intros i Hi. left. apply Rinv_0_lt_compat. apply (kl_slope_sign (sirt_sigma P i) (measured_counts P i) (k_sigma P M HP i Hi) (Rmax_r _ _)). lra.
  - intros i x Hi Hob. pose proof (k_sigma P M HP i Hi) as Hsg. set (v := mv (p_n P) M x i).
    assert (Hv : 0 <= v) by (unfold v, mv; apply rsum_nonneg; intros j Hj; apply Rmult_le_pos; [apply HM; assumption|apply Hx; assumption]).
    assert (Hbi : 0 <= bg i) by apply (Hbg i Hi). assert (Hm : 0 <= measured_counts P i) by apply Rmax_r.
    pose proof eps32_pos as He. destruct (k_smooth P M HP i Hi) as [A _]. cbv beta in A. fold (measured_counts P i) in A. fold (bg i) in A.
    assert (Hd : 0 < d i) by (apply (kl_slope_sign (sirt_sigma P i) (measured_counts P i) Hsg (Rmax_r _ _)); lra).
    assert (Lo : - lowc i <= kl_cost P i v).
    { unfold lowc. set (c1 := kl_cost P i (measured_counts P i - bg i)). set (c2 := kl_cost P i (eps32 - bg i)). set (sl := kl_slope (sirt_sigma P i) (measured_counts P i) eps32).
      pose proof (Rabs_pos c1). pose proof (Rabs_pos c2). pose proof (Rabs_pos sl). assert (0 <= Rabs sl * eps32) by (apply Rmult_le_pos; lra).
      pose proof (Rle_abs (- c1)) as Q1. rewrite Rabs_Ropp in Q1. pose proof (Rle_abs (- c2)) as Q2. rewrite Rabs_Ropp in Q2.
      destruct (Rle_lt_dec eps32 (measured_counts P i)) as [L1|L1].
      - pose proof (kl_cost_min P i v Hsg L1) as C. fold (bg i) in C. fold c1 in C. lra.
      - specialize (A (eps32 - bg i) v). replace (eps32 - bg i + bg i) with eps32 in A by ring. rewrite (Rmax_left eps32 eps32) in A by lra. fold c2 in A. fold sl in A.
        assert (0 < sl) by (apply (kl_slope_sign (sirt_sigma P i) (measured_counts P i) Hsg (Rmax_r _ _)); lra). rewrite (Rabs_right sl) in * by lra.
        assert (0 <= sl * (v + bg i)) by (apply Rmult_le_pos; lra). lra. }
    split; [|exact Lo]. rewrite Rabs_right by lra.
    specialize (A (measured_counts P i + 1 - bg i) v). replace (measured_counts P i + 1 - bg i + bg i) with (measured_counts P i + 1) in A by ring.
    assert (Dl : d i * (v - (measured_counts P i + 1 - bg i)) <= kl_cost P i v - top i \/ measured_counts P i + 1 < eps32).
    { destruct (Rlt_le_dec (measured_counts P i + 1) eps32) as [L|L]; [right; exact L|left]. rewrite Rmax_left in A by exact L. fold (d i) in A. fold (top i) in A. lra. }
    destruct Dl as [Dl|Dl]; [|exfalso; unfold eps32 in Dl; assert (/ 2 ^ 23 < 1); [|lra]; rewrite <- Rinv_1; apply Rinv_lt_contravar; [rewrite Rmult_1_l; apply pow_lt; lra|apply Rlt_pow_R1; [lra|lia]]].
    apply Rmult_le_reg_l with (d i); [exact Hd|]. replace (d i * (measured_counts P i + 1 + bg i - top i / d i + / d i * kl_cost P i v)) with (d i * (measured_counts P i + 1 + bg i) - top i + kl_cost P i v) by (field; lra).
    assert (0 <= d i * bg i) by (apply Rmult_le_pos; lra). lra.
Qed.
(** relaxation times the largest inverse row sum below 2: the volumes tend to a best one *)
Theorem C194_kl_converges : forall P M W, sirt_run P M -> dt_kind (p_dterm P) = K_KL -> emission P M ->
  (forall i, (i < p_m P)%nat -> sirt_sigma P i <= W) -> 0 <= W -> p_relax P * W < 2 ->
  exists z, minimises (obeys_limits P) (total_cost P M (kl_cost P)) z /\ volumes_tend_to (p_n P) (sirt_volume P) z.
Proof.
  intros P M W HP Hk Hem Hs HW Hr. destruct (k_exists P M W HP Hs Hem) as [z0 Hz0].
  exact (t_converges P M _ _ (sirt_sigma P) W HP (k_smooth P M HP) (k_L P M W HP Hs) HW (k_res P M Hk) z0 Hr Hz0).
Qed.
Theorem C194_kl_fixed_points : forall P M W x, sirt_run P M -> dt_kind (p_dterm P) = K_KL ->
  (forall i, (i < p_m P)%nat -> sirt_sigma P i <= W) -> 0 <= W -> p_relax P * W < 2 -> obeys_limits P x ->
  (veq (p_n P) (sirt_step P x) x <-> minimises (obeys_limits P) (total_cost P M (kl_cost P)) x).
Proof.
  intros P M W x HP Hk Hs HW Hr Hx. exact (t_fixed P M _ _ (sirt_sigma P) W HP (k_smooth P M HP) (k_L P M W HP Hs) HW (k_res P M Hk) x Hr Hx).
Qed.
(** noiseless data: the limit reproduces every measured count *)
Theorem C194_kl_consistent : forall P M W x, sirt_run P M -> dt_kind (p_dterm P) = K_KL ->
  (forall i, (i < p_m P)%nat -> sirt_sigma P i <= W) -> 0 <= W -> p_relax P * W < 2 ->
  obeys_limits P x -> (forall i, (i < p_m P)%nat -> mask_at (train_mask P) i = 1 -> eps32 < measured_counts P i /\ expected_counts P M x i = measured_counts P i) ->
  exists z, obeys_limits P z /\ volumes_tend_to (p_n P) (sirt_volume P) z /\
    forall i, (i < p_m P)%nat -> mask_at (train_mask P) i = 1 -> expected_counts P M z i = measured_counts P i.
Proof.
  intros P M W x HP Hk Hs HW Hr Hx Hc. pose proof HP as (_ & _ & _ & _ & Hbm & _).
  assert (Hle : forall y i, (i < p_m P)%nat -> sirt_weight P i * kl_cost P i (mv (p_n P) M x i) <= sirt_weight P i * kl_cost P i (mv (p_n P) M y i)).
  { intros y i Hi. pose proof (tw P M HP i Hi) as Hw. unfold sirt_weight in *. destruct (Hbm i) as [E|E]; [rewrite E, Rmult_0_r; lra|]. destruct (Hc i Hi E) as [H1 H2].
    apply Rmult_le_compat_l; [exact Hw|]. unfold expected_counts in H2. replace (mv (p_n P) M x i) with (measured_counts P i - back_at (dt_background (p_dterm P)) i) by lra. apply kl_cost_min; [apply (k_sigma P M HP i Hi)|lra]. }
  assert (Hm : minimises (obeys_limits P) (total_cost P M (kl_cost P)) x) by (split; [exact Hx|]; intros y _; apply rsum_le; intros i Hi; apply Hle, Hi).
  destruct (t_converges P M _ _ (sirt_sigma P) W HP (k_smooth P M HP) (k_L P M W HP Hs) HW (k_res P M Hk) x Hr Hm) as (z & Hz & Hl).
  exists z. split; [apply Hz|]. split; [exact Hl|]. intros i Hi E. destruct (Hc i Hi E) as [H1 H2]. apply (kl_cost_unique P i _ (k_sigma P M HP i Hi) H1).
  assert (Sum : rsum (p_m P) (fun i => sirt_weight P i * kl_cost P i (mv (p_n P) M z i) - sirt_weight P i * kl_cost P i (mv (p_n P) M x i)) = 0).
  { rewrite rsum_minus. pose proof (proj2 Hz x Hx) as Q1. pose proof (proj2 Hm z (proj1 Hz)) as Q2. unfold total_cost in Q1, Q2. lra. }
  pose proof (rsum_nonneg_zero (p_m P) _ (fun q Hq => Rge_le _ _ (Rge_minus _ _ (Rle_ge _ _ (Hle z q Hq)))) Sum i Hi) as Z. cbv beta in Z. unfold sirt_weight in Z. rewrite E, Rmult_1_r in Z.
  pose proof (k_sigma P M HP i Hi) as Sg. unfold expected_counts in H2. replace (measured_counts P i - back_at (dt_background (p_dterm P)) i) with (mv (p_n P) M x i) by lra.
  right. apply Rmult_eq_reg_l with (sirt_sigma P i); lra.
Qed.
(** ** small row sums: SIRT can cycle for ever on noiseless data, from the default start *)
Definition cyc_a : R := 1 / 4 - 3 / 2 * eps32.
Definition cyc_P : problem := one_pixel cyc_a (1 / 4 - cyc_a / 4) 1 (new_dterm K_KL None) (Some vzeros) None.
Lemma eps32_small : eps32 <= / 1024.
Proof. unfold eps32. apply Rinv_le_contravar; [lra|]. replace 1024 with (2 ^ 10) by ring. apply Rle_pow; [lra|lia]. Qed.
Lemma kl_slope_is s b v d : 0 < s -> (1 - d) * (s * v - d) = s * b -> 2 * d <= 1 + s * v -> kl_slope s b v = d.
Proof.
  intros Hs E Hd. unfold kl_slope, kl_dual_formula. assert (Q : (s * v - 1) ^ 2 + 4 * s * b = Rsqr (1 + s * v - 2 * d)) by (unfold Rsqr; replace (4 * s * b) with (4 * (s * b)) by ring; rewrite <- E; ring).
  rewrite Q, sqrt_Rsqr by lra. field.
Qed.
Lemma cyc_step x : sirt_step cyc_P x 0%nat = Rmax (x 0%nat - 1 / cyc_a * kl_slope (/ cyc_a) (1 / 4 - cyc_a / 4) (Rmax (cyc_a * x 0%nat) eps32)) 0.
Proof.
  pose proof eps32_pos. pose proof eps32_small. assert (Ha : 0 < cyc_a <= 100000) by (unfold cyc_a; lra).
  unfold cyc_P. rewrite (one_step cyc_a (1 / 4 - cyc_a / 4) 1 _ (Some vzeros) None (fun v => kl_slope (/ cyc_a) (1 / 4 - cyc_a / 4) (Rmax v eps32))); [reflexivity|exact Ha|].
  intros v. unfold sirt_dt, assigned. rewrite KL_residual by reflexivity. cbn [p_b one_pixel p_dterm dt_background new_dterm back_at mask_at].
  fold (one_pixel cyc_a (1 / 4 - cyc_a / 4) 1 (new_dterm K_KL None) (Some vzeros) None). destruct (one_sigma cyc_a (1 / 4 - cyc_a / 4) 1 (new_dterm K_KL None) (Some vzeros) None Ha) as (-> & _).
  rewrite Rplus_0_r, (Rmax_left (1 / 4 - cyc_a / 4) 0) by (unfold cyc_a; lra). ring.
Qed.
Theorem C194_any_row_sums_refuted : exists P M, sirt_run P M /\ dt_kind (p_dterm P) = K_KL /\ emission P M /\ p_relax P = 1 /\ p_x0 P = None /\
  (exists x, obeys_limits P x /\ forall i, (i < p_m P)%nat -> eps32 < measured_counts P i /\ expected_counts P M x i = measured_counts P i) /\
  (forall k, sirt_volume P (2 * k) 0%nat = 0 /\ sirt_volume P (2 * k + 1) 0%nat = 1 / (2 * cyc_a)) /\ 0 < cyc_a.
Proof.
  pose proof eps32_pos as E0. pose proof eps32_small as E1. assert (Ha : 0 < cyc_a <= 100000) by (unfold cyc_a; lra). assert (Ha4 : cyc_a < 1 / 4) by (unfold cyc_a; lra).
  exists cyc_P, (fun _ _ => cyc_a). split; [apply one_run; lra|]. split; [reflexivity|].
  assert (Hnn : forall x j, obeys_limits cyc_P x -> (j < 1)%nat -> 0 <= x j) by (intros x j Hx Hj; destruct (Hx j Hj) as [_ H]; destruct (H I) as [H1 _]; exact H1).
  split. { split; [intros; lra|]. split; [intros; cbn; lra|]. exact Hnn. }
  split; [reflexivity|]. split; [reflexivity|]. split.
  { exists (fun _ => (1 / 4 - cyc_a / 4) / cyc_a). split.
    - intros j _. cbn. split; [exact I|]. intros _. split; [|exact I]. unfold vzeros. apply Rdiv_le_0_compat; lra.
    - intros i Hi. unfold measured_counts, expected_counts, mv. cbn. rewrite Rmax_left by lra. split; [unfold cyc_a; lra|]. field. lra. }
  split; [|apply Ha].
  assert (S0 : forall x, x 0%nat = 0 -> sirt_step cyc_P x 0%nat = 1 / (2 * cyc_a)).
  { intros x Hx. rewrite cyc_step, Hx, Rmult_0_r, (Rmax_right 0 eps32) by lra.
    rewrite (kl_slope_is (/ cyc_a) (1 / 4 - cyc_a / 4) eps32 (- (1 / 2))).
    - rewrite Rmax_left; [field; lra|]. replace (0 - 1 / cyc_a * - (1 / 2)) with (1 / (2 * cyc_a)) by (field; lra). left. apply Rdiv_lt_0_compat; lra.
    - apply Rinv_0_lt_compat, Ha.
    - assert (Ee : eps32 = (1 / 4 - cyc_a) * (2 / 3)) by (unfold cyc_a; field). rewrite Ee. field. lra.
    - assert (0 < / cyc_a * eps32) by (apply Rmult_lt_0_compat; [apply Rinv_0_lt_compat; lra|lra]). lra. }
  assert (S1 : forall x, x 0%nat = 1 / (2 * cyc_a) -> sirt_step cyc_P x 0%nat = 0).
  { intros x Hx. rewrite cyc_step, Hx. replace (cyc_a * (1 / (2 * cyc_a))) with (1 / 2) by (field; lra). rewrite (Rmax_left (1 / 2) eps32) by lra.
    rewrite (kl_slope_is (/ cyc_a) (1 / 4 - cyc_a / 4) (1 / 2) (1 / 2)).
    - rewrite Rmax_left; [field; lra|]. right. field. lra.
    - apply Rinv_0_lt_compat, Ha.
    - field. lra.
    - assert (0 < / cyc_a * (1 / 2)) by (apply Rmult_lt_0_compat; [apply Rinv_0_lt_compat; lra|lra]). lra. }
  assert (It : forall k, sirt_iterate cyc_P (2 * k) 0%nat = 0).
  { induction k as [|k IH]; [reflexivity|]. replace (2 * S k)%nat with (S (S (2 * k))) by lia.
    change (sirt_iterate cyc_P (S (S (2 * k)))) with (sirt_step cyc_P (sirt_step cyc_P (sirt_iterate cyc_P (2 * k)))). apply S1, S0, IH. }
  intros k. unfold sirt_volume. rewrite !sirt_no_tol. split; [apply It|]. replace (2 * k + 1)%nat with (S (2 * k)) by lia.
  change (sirt_iterate cyc_P (S (2 * k))) with (sirt_step cyc_P (sirt_iterate cyc_P (2 * k))). apply S0, It.
Qed.
Example C194_example : let P := one_pixel 2 3 1 (new_dterm K_KL None) (Some vzeros) None in sirt_run P (fun _ _ => 2) /\ emission P (fun _ _ => 2) /\
  sirt_sigma P 0%nat = / 2 /\ p_relax P * / 2 < 2 /\ obeys_limits P (fun _ => 3 / 2) /\ eps32 < measured_counts P 0%nat /\ expected_counts P (fun _ _ => 2) (fun _ => 3 / 2) 0%nat = measured_counts P 0%nat.
Proof.
  intros P. pose proof eps32_small. split; [apply one_run; lra|]. split; [|split; [apply (one_sigma 2 3 1 (new_dterm K_KL None) (Some vzeros) None); lra|split; [cbn; lra|]]].
  - split; [intros; lra|]. split; [intros; cbn; lra|]. intros x j Hx Hj. destruct (Hx j Hj) as [_ Q]. destruct (Q I) as [Q1 _]. exact Q1.
  - split; [intros j _; cbn; unfold vzeros; split; [exact I|intros _; split; [lra|exact I]]|]. unfold measured_counts, expected_counts, mv. cbn. rewrite Rmax_left by lra. split; lra.
Qed.

(** * C195: FISTA with weights or tolerance bands *)
Definition fista_run (P : problem) (M : mat) (lam : R) : Prop :=
  p_op P = mat_op (p_m P) (p_n P) M /\ limits_ok P /\ binary_mask (p_xmask P) /\ binary_mask (train_mask P) /\
  (p_regs P = [] /\ lam = 0 \/ p_regs P = [Regularizer_l1 (fun _ => lam) None] /\ 0 <= lam).
(** step sizes for pixel costs of curvature at most [W] *)
Definition fista_steps_for (W : R) (P : problem) (M : mat) (l : option R) : Prop :=
  match l with
  | None => safe_sigma P /\ scaling_safe (p_n P) (raw_tau (p_op P) [] (train_mask P)) /\ 0 < p_relax P /\ p_relax P * W <= 1
  | Some L => 0 < L /\ 0 < p_relax P /\ forall d, p_relax P * W * norm2 (p_m P) (mv (p_n P) M d) <= L ^ 2 * norm2 (p_n P) d
  end.
(** data cost plus l1 cost *)
Definition fista_cost (P : problem) (M : mat) (l : option R) (cost : nat -> R -> R) (lam : R) (x : vec) : R :=
  rsum (p_m P) (fun i => fi_sigma P l i * mask_at (train_mask P) i * cost i (mv (p_n P) M x i)) + lam * rsum (p_n P) (fun j => Rabs (x j)).
Section FistaTerm.
  Variables (P : problem) (M : mat) (lam : R) (l : option R) (cost g : nat -> R -> R) (L : vec) (W : R).
  Hypothesis HP : fista_run P M lam.
  Hypothesis HW : 0 <= W.
  Hypothesis HS : fista_steps_for W P M l.
  Hypothesis Hc : forall i, (i < p_m P)%nat -> smooth_cost (cost i) (g i) (L i).
  Hypothesis HL : forall i, (i < p_m P)%nat -> 0 <= L i <= W.
  Hypothesis Hres : forall x i, (i < p_m P)%nat -> compute_residual (fi_dt P) (mv (p_n P) M x) (train_mask P) i = - g i (mv (p_n P) M x i) * mask_at (train_mask P) i.
  Let w : vec := fun i => fi_sigma P l i * mask_at (train_mask P) i.
  Lemma ftw i : (i < p_m P)%nat -> 0 <= w i.
  Proof.
    intros Hi. pose proof HP as (_ & _ & _ & Hbm & _). apply Rmult_le_pos; [|apply binary_nonneg, Hbm].
    destruct l as [q|]; simpl in *.
    - unfold lips_sigma. apply Rdiv_le_0_compat; lra.
    - destruct HS as [Hs _]. left. apply (sirt_sigma_pos P i Hs Hi).
  Qed.
  Lemma ft_tau : (forall j, (j < p_n P)%nat -> 0 < fi_tau P l j) /\
    forall d, ProxGrad.supp (p_n P) (p_xmask P) d -> rsum (p_m P) (fun i => w i * L i * mv (p_n P) M d i ^ 2) <= 1 * rsum (p_n P) (fun j => d j ^ 2 / fi_tau P l j).
  Proof.
    assert (Red : forall d, rsum (p_m P) (fun i => w i * L i * mv (p_n P) M d i ^ 2) <= W * rsum (p_m P) (fun i => w i * mv (p_n P) M d i ^ 2)).
    { intros d. rewrite <- rsum_scal. apply rsum_le. intros i Hi. pose proof (ftw i Hi) as T. specialize (HL i Hi). pose proof (pow2_ge_0 (mv (p_n P) M d i)) as Q.
      assert (0 <= w i * mv (p_n P) M d i ^ 2) by (apply Rmult_le_pos; assumption). nra. }
    pose proof HP as (Hop & _ & Hbx & Hbm & _). destruct l as [q|].
    - destruct HS as (Hq & Hr & Hb). unfold fi_tau, lips_tau. cbn [fold_left]. split; [intros j _; apply Rdiv_lt_0_compat; assumption|].
      intros d _. eapply Rle_trans; [apply Red|]. specialize (Hb d).
      assert (B1 : rsum (p_m P) (fun i => w i * mv (p_n P) M d i ^ 2) <= / q * norm2 (p_m P) (mv (p_n P) M d)).
      { unfold w. cbn [fi_sigma]. unfold lips_sigma. unfold norm2, dot. rewrite <- rsum_scal. apply rsum_le. intros i Hi. assert (0 < / q) by (apply Rinv_0_lt_compat; lra).
        assert (0 <= / q * (mv (p_n P) M d i * mv (p_n P) M d i)) by (apply Rmult_le_pos; [lra|apply Rle_0_sqr]). destruct (Hbm i) as [-> | ->]; unfold Rdiv; lra. }
      apply Rle_trans with (W * (/ q * norm2 (p_m P) (mv (p_n P) M d))); [apply Rmult_le_compat_l; assumption|].
      rewrite (rsum_ext (p_n P) _ (fun j => q / p_relax P * (d j ^ 2))) by (intros j _; field; lra). rewrite rsum_scal. change (rsum (p_n P) (fun j => d j ^ 2)) with (norm2 (p_n P) d).
      apply Rmult_le_reg_l with (q * p_relax P); [apply Rmult_lt_0_compat; lra|].
      replace (q * p_relax P * (W * (/ q * norm2 (p_m P) (mv (p_n P) M d)))) with (p_relax P * W * norm2 (p_m P) (mv (p_n P) M d)) by (field; lra).
      replace (q * p_relax P * (1 * (q / p_relax P * norm2 (p_n P) d))) with (q ^ 2 * norm2 (p_n P) d) by (field; lra). exact Hb.
    - destruct HS as (Hs & Ht & Hr & Hr2). destruct (diag_energy P M Hop Hbx Hbm Hs Ht Hr) as [A B]. split; [exact A|]. intros d Hd.
      eapply Rle_trans; [apply Red|]. specialize (B d Hd).
      assert (N : 0 <= rsum (p_n P) (fun j => d j ^ 2 / fi_tau P None j)) by (apply rsum_nonneg; intros j Hj; apply Rdiv_le_0_compat; [apply pow2_ge_0|apply A, Hj]).
      apply Rle_trans with (W * (p_relax P * rsum (p_n P) (fun j => d j ^ 2 / fi_tau P None j))); [apply Rmult_le_compat_l; assumption|]. nra.
  Qed.
  Lemma ft_lam : 0 <= lam.
  Proof. destruct HP as (_ & _ & _ & _ & [[_ ->]|[_ H]]); lra. Qed.
  Lemma ft_spg r ii s : fi_x (fista_step P l r ii s) = spg (p_m P) (p_n P) M w g (fi_tau P l) lam (p_lower P) (p_upper P) (p_xmask P) (fi_y s).
  Proof.
    pose proof HP as (Hop & _ & _ & _ & HR). unfold fista_step, fista_update. cbn [fi_x]. unfold spg.
    assert (G : vadd (fi_y s) (vmul (fi_tau P l) (opAt (p_op P) (vmul (compute_residual (fi_dt P) (opA (p_op P) (fi_y s)) (fst (initialize_b_masks (p_bmask P) (p_btest P)))) (fi_sigma P l))))
       = fun j => fi_y s j + fi_tau P l j * sgr (p_m P) (p_n P) M w g (fi_y s) j).
    { apply vec_ext. intros j. unfold vadd, vmul. f_equal. f_equal. rewrite Hop at 1. cbn [opAt mat_op]. unfold sgr, mtv. apply rsum_ext. intros i Hi. f_equal.
      rewrite Hop at 1. cbn [opA mat_op]. fold (train_mask P). rewrite (Hres (fi_y s) i Hi). unfold w. ring. }
    rewrite G. destruct HR as [[-> ->]|[-> _]].
    - f_equal. apply vec_ext. intros j. rewrite Rmult_0_r, ProxGrad.soft0. reflexivity.
    - f_equal.
  Qed.
  Notation hc := (fun i v z Hi => proj1 (Hc i Hi) v z) (only parsing).
  Notation hs := (fun i v z Hi => proj2 (Hc i Hi) v z) (only parsing).
  Lemma ft_rate z it : obeys_limits P z -> (1 <= it)%nat ->
    fista_cost P M l cost lam (fista_volume P l it) <= fista_cost P M l cost lam z + 2 * step_dist2 (p_n P) (fi_tau P l) (mul_mask (p_xmask P) (pick_x0 (p_x0 P) vzeros)) z / (INR it + 1) ^ 2.
  Proof.
    intros Hz Hit. unfold fista_volume. rewrite fista_no_tol. destruct it as [|k]; [lia|].
    pose proof HP as (_ & Hl & Hbx & _). destruct ft_tau as [T1 T2]. set (it := fista_iterate P l None).
    assert (TT : forall k, fi_t (it 0%nat) = 1 /\ fi_t (it (S k)) ^ 2 - fi_t (it (S k)) = fi_t (it k) ^ 2 /\ (INR k + 2) / 2 <= fi_t (it k))
      by (intros q; destruct (C34_momentum P l q) as (A & B & C & _); auto).
    assert (X0 : ProxGrad.supp (p_n P) (p_xmask P) (fi_x (it 0%nat))).
    { intros j Hj Hm. change (fi_x (it 0%nat)) with (mul_mask (p_xmask P) (pick_x0 (p_x0 P) vzeros)). unfold mul_mask, mask_at in *. destruct (p_xmask P); [rewrite Hm; ring|lra]. }
    assert (T1' : forall q, 1 <= fi_t (it q)) by (intros q; destruct (TT q) as (_ & _ & G); pose proof (pos_INR q); lra).
    pose proof (sfast_rate (p_m P) (p_n P) M w L cost g (fi_tau P l) lam (p_lower P) (p_upper P) (p_xmask P) 1 ftw hc hs T1 ft_lam Hl Hbx T2
      (fun k => fi_x (it k)) (fun k => fi_y (it k)) (fun k => fi_t (it k)) eq_refl X0 (proj1 (TT 0%nat)) (fun q => proj1 (proj2 (TT q))) T1'
      (fun q => ft_spg None q (it q)) (fun q j => eq_refl) (Rle_refl 1) z k Hz (fun q => proj2 (proj2 (TT q)))) as H.
    cbv beta in H. unfold sobj in H. unfold fista_cost. fold it. rewrite S_INR. replace (INR k + 1 + 1) with (INR k + 2) by ring.
    change (ProxGrad.dist2 (p_n P) (fi_tau P l) (fi_x (it 0%nat)) z) with (step_dist2 (p_n P) (fi_tau P l) (mul_mask (p_xmask P) (pick_x0 (p_x0 P) vzeros)) z) in H.
    unfold w in H. lra.
  Qed.
  Lemma ft_fixed restart x : obeys_limits P x -> (fista_fixed P l restart x <-> minimises (obeys_limits P) (fista_cost P M l cost lam) x).
  Proof.
    intros Hx. pose proof HP as (_ & Hl & Hbx & _). destruct ft_tau as [T1 T2]. unfold fista_fixed. rewrite ft_spg. cbn [fi_y]. split.
    - intros Hf. exact (sfixed_min (p_m P) (p_n P) M w L cost g (fi_tau P l) lam (p_lower P) (p_upper P) (p_xmask P) ftw hc hs T1 ft_lam Hl Hbx x Hx Hf).
    - intros Hm. exact (smin_fixed (p_m P) (p_n P) M w L cost g (fi_tau P l) lam (p_lower P) (p_upper P) (p_xmask P) 1 ftw hc hs T1 ft_lam Hl Hbx T2 x ltac:(lra) Hm).
  Qed.
End FistaTerm.
(** the pixel costs of FISTA's data terms; here the tolerance band is the documented sqrt(local_error) *)
Definition fista_pixel_cost (P : problem) (i : nat) (v : R) : R :=
  match dt_kind (p_dterm P) with
  | K_wl2 w => w i * (target P i - v) ^ 2 / 2
  | K_l2b e => band_cost P (fun i => sqrt (e i)) i v
  | _ => (target P i - v) ^ 2 / 2
  end.
(** weights at most [W]; the other terms have curvature 1 *)
Definition fista_curvature (P : problem) (W : R) : Prop :=
  match dt_kind (p_dterm P) with
  | K_wl2 w => (forall i, (i < p_m P)%nat -> 0 <= w i <= W) /\ 0 <= W
  | K_l2 | K_l2b _ => W = 1
  | _ => False
  end.
Lemma fista_term P M W : binary_mask (train_mask P) -> fista_curvature P W -> exists g L, 0 <= W /\
  (forall i, (i < p_m P)%nat -> smooth_cost (fista_pixel_cost P i) (g i) (L i)) /\ (forall i, (i < p_m P)%nat -> 0 <= L i <= W) /\
  forall x i, (i < p_m P)%nat -> compute_residual (fi_dt P) (mv (p_n P) M x) (train_mask P) i = - g i (mv (p_n P) M x i) * mask_at (train_mask P) i.
Proof.
  intros Hbm Hcv. unfold fista_curvature in Hcv. unfold fista_pixel_cost. destruct (dt_kind (p_dterm P)) as [|w|e|? ?| |?|?|] eqn:Hk; try contradiction.
  - subst W. exists (fun i v => 1 * (v - target P i)), (fun _ => 1). split; [lra|]. split; [|split; [intros; lra|]].
    + intros i Hi. destruct (smooth_quad 1 (target P i) ltac:(lra)) as [A B]. split; intros v z; [specialize (A v z)|specialize (B v z)]; rewrite !Rmult_1_l in *; assumption.
    + intros x i Hi. unfold fi_dt, assigned. rewrite l2_residual by exact Hk. unfold target. ring.
  - destruct Hcv as [Hw HW]. exists (fun i v => w i * (v - target P i)), w. split; [exact HW|]. split; [|split; [exact Hw|]].
    + intros i Hi. apply smooth_quad, Hw, Hi.
    + intros x i Hi. unfold fi_dt, assigned. rewrite (wl2_residual _ _ _ _ _ w) by exact Hk. reflexivity.
  - subst W. exists (fun i v => soft_threshold1 (v - target P i) (sqrt (e i))), (fun _ => 1). split; [lra|]. split; [|split; [intros; lra|]].
    + intros i Hi. apply smooth_band, sqrt_pos.
    + intros x i Hi. unfold fi_dt, assigned. rewrite (l2b_residual _ _ _ _ _ e i Hk (Hbm i)). unfold vones. rewrite Rmult_1_l. reflexivity.
Qed.
Theorem C195_fista_rate : forall P M lam l W z it, fista_run P M lam -> fista_curvature P W -> fista_steps_for W P M l -> obeys_limits P z -> (1 <= it)%nat ->
  fista_cost P M l (fista_pixel_cost P) lam (fista_volume P l it)
  <= fista_cost P M l (fista_pixel_cost P) lam z + 2 * step_dist2 (p_n P) (fi_tau P l) (mul_mask (p_xmask P) (pick_x0 (p_x0 P) vzeros)) z / (INR it + 1) ^ 2.
Proof.
  intros P M lam l W z it HP Hcv HS Hz Hit. pose proof HP as (_ & _ & _ & Hbm & _). destruct (fista_term P M W Hbm Hcv) as (g & L & HW & Hc & HL & Hres).
  exact (ft_rate P M lam l (fista_pixel_cost P) g L W HP HW HS Hc HL Hres z it Hz Hit).
Qed.
Theorem C195_fista_fixed_points : forall P M lam l W restart x, fista_run P M lam -> fista_curvature P W -> fista_steps_for W P M l -> obeys_limits P x ->
  (fista_fixed P l restart x <-> minimises (obeys_limits P) (fista_cost P M l (fista_pixel_cost P) lam) x).
Proof.
  intros P M lam l W restart x HP Hcv HS Hx. pose proof HP as (_ & _ & _ & Hbm & _). destruct (fista_term P M W Hbm Hcv) as (g & L & HW & Hc & HL & Hres).
  exact (ft_fixed P M lam l (fista_pixel_cost P) g L W HP HW HS Hc HL Hres restart x Hx).
Qed.
(** with relaxation 1 but weights above the bound, FISTA diverges too *)
Theorem C195_large_weights_refuted : exists P M, fista_run P M 0 /\ dt_kind (p_dterm P) = K_wl2 (fun _ => 4) /\ p_relax P = 1 /\ fista_steps_for 1 P M None /\
  fista_cost P M None (fista_pixel_cost P) 0 vones = 0 /\ forall it, 3 ^ it <= Rabs (fista_volume P None it 0%nat - 1).
Proof.
  set (P := one_weighted 4 1). exists P, (fun _ _ => 1).
  destruct (one_sigma 1 1 1 (new_dterm (K_wl2 (fun _ => 4)) None) None None ltac:(lra)) as (E1 & E2 & S1 & S2). fold (one_weighted 4 1) in E1, E2, S1, S2. fold P in E1, E2, S1, S2.
  split. { split; [reflexivity|]. split; [intros ? u j H1 H2; discriminate H2|]. split; [intros i; right; reflexivity|]. split; [intros i; right; reflexivity|]. left. split; reflexivity. }
  split; [reflexivity|]. split; [reflexivity|]. split; [split; [exact S1|split; [exact S2|cbn; lra]]|]. split.
  { unfold fista_cost, fista_pixel_cost, target, mv, vones. cbn. field. }
  intros it. unfold fista_volume. rewrite fista_no_tol. set (u := fista_iterate P None None).
  assert (Step : forall k, fi_x (u (S k)) 0%nat = fi_y (u k) 0%nat - 4 * (fi_y (u k) 0%nat - 1)).
  { intros k. change (u (S k)) with (fista_step P None None k (u k)).
    assert (Hr : fista_run P (fun _ _ => 1) 0).
    { split; [reflexivity|]. split; [intros ? q j H1 H2; discriminate H2|]. split; [intros i; right; reflexivity|]. split; [intros i; right; reflexivity|]. left. split; reflexivity. }
    rewrite (ft_spg P (fun _ _ => 1) 0 None (fun i v => 4 * (v - target P i)) Hr).
    - unfold spg, constrain, np_clip, mul_mask. cbn [p_lower p_upper p_xmask P one_weighted one_pixel]. fold (one_pixel 1 1 1 (new_dterm (K_wl2 (fun _ => 4)) None) None None). fold (one_weighted 4 1). fold P.
      rewrite Rmult_0_r, ProxGrad.soft0. change (fi_tau P None 0%nat) with (sirt_tau P 0%nat). rewrite E2. unfold sgr, mtv, mv, target. cbn [p_m p_n P one_weighted one_pixel rsum].
      fold (one_pixel 1 1 1 (new_dterm (K_wl2 (fun _ => 4)) None) None None). fold (one_weighted 4 1). fold P. change (fi_sigma P None 0%nat) with (sirt_sigma P 0%nat). rewrite E1. cbn. field.
    - intros x i Hi. unfold fi_dt, assigned. rewrite (wl2_residual _ _ _ _ _ (fun _ => 4)) by reflexivity. reflexivity. }
  assert (T : forall k, 1 <= fi_t (u k)) by (intros q; destruct (C34_momentum P None q) as (_ & _ & C & _); pose proof (pos_INR q); fold u in C; lra).
  (* the signed errors alternate and grow *)
  assert (Inv : forall k, 3 ^ k <= - (-1) ^ k * (fi_x (u k) 0%nat - 1) /\ 3 ^ k <= - (-1) ^ k * (fi_y (u k) 0%nat - 1)).
  { induction k as [|k [IHx IHy]]; [unfold u; cbn; unfold vzeros; lra|]. pose proof (Step k) as St.
    assert (X : - (-1) ^ S k * (fi_x (u (S k)) 0%nat - 1) = 3 * (- (-1) ^ k * (fi_y (u k) 0%nat - 1))) by (rewrite St; cbn [pow]; ring).
    assert (Xb : 3 ^ S k <= - (-1) ^ S k * (fi_x (u (S k)) 0%nat - 1)) by (rewrite X; cbn [pow]; lra). split; [exact Xb|].
    assert (Y : fi_y (u (S k)) 0%nat = fi_x (u (S k)) 0%nat + (fi_t (u k) - 1) / fi_t (u (S k)) * (fi_x (u (S k)) 0%nat - fi_x (u k) 0%nat)) by reflexivity.
    set (be := (fi_t (u k) - 1) / fi_t (u (S k))) in *. assert (Hb : 0 <= be) by (unfold be; pose proof (T k); pose proof (T (S k)); apply Rdiv_le_0_compat; lra).
    assert (Z : - (-1) ^ S k * (fi_y (u (S k)) 0%nat - 1) = - (-1) ^ S k * (fi_x (u (S k)) 0%nat - 1) + be * (- (-1) ^ S k * (fi_x (u (S k)) 0%nat - 1) + - (-1) ^ k * (fi_x (u k) 0%nat - 1))).
    { rewrite Y. cbn [pow]. ring. }
    rewrite Z. assert (0 < 3 ^ k) by (apply pow_lt; lra). assert (0 < 3 ^ S k) by (apply pow_lt; lra).
    assert (0 <= be * (- (-1) ^ S k * (fi_x (u (S k)) 0%nat - 1) + - (-1) ^ k * (fi_x (u k) 0%nat - 1))) by (apply Rmult_le_pos; lra). lra. }
  destruct (Inv it) as [H _]. eapply Rle_trans; [exact H|]. eapply Rle_trans; [apply Rle_abs|]. rewrite Rabs_mult, Rabs_Ropp, pow_1_abs. lra.
Qed.
Example C195_example : let P := one_weighted 1 1 in fista_run P (fun _ _ => 1) 0 /\ fista_curvature P 1 /\ fista_steps_for 1 P (fun _ _ => 1) None /\ obeys_limits P vones.
Proof.
  intros P. destruct (one_sigma 1 1 1 (new_dterm (K_wl2 (fun _ => 1)) None) None None ltac:(lra)) as (_ & _ & S1 & S2).
  split. { split; [reflexivity|]. split; [intros ? u j H1 H2; discriminate H2|]. split; [intros i; right; reflexivity|]. split; [intros i; right; reflexivity|]. left. split; reflexivity. }
  split. { cbn. split; [intros; lra|lra]. } split; [|apply one_free]. split; [exact S1|]. split; [exact S2|]. cbn. lra.
Qed.
