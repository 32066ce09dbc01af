(** C167: PDHG with the Kullback-Leibler data term (emission data): the volumes converge to a minimiser. *)
From Coq Require Import FunctionalExtensionality.
From Verif Require Import Sums DataTermsModel DataTermsProofs SolversModel SolversSpec SolversGeneric SolversProps
  RegularizersModel SolversConv SolversConvProps SolversOptProps PdhgConv Compact PdhgConvProps PdhgExistProps EmConv PdhgData PdhgDataProps LsExist MinExist PdhgSeq PdhgSeqRun PdhgSeqProps.

(** * Specification *)
(** expected counts of volume [x]: projection plus background *)
Definition expected (P : problem) (M : mat) (x : vec) (i : nat) : R := mv (p_n P) M x i + back_at (dt_background (p_dterm P)) i.
(** measured counts (negative readings count as zero) *)
Definition counts (P : problem) (i : nat) : R := Rmax (p_b P i) 0.
(** Kullback-Leibler distance (without the terms that do not depend on the volume) plus regularisation *)
Definition kl_objective (P : problem) (M : mat) (rs : list rspec) (x : vec) : R :=
  rsum (p_m P) (fun i => mask_at (train_mask P) i * (expected P M x i - counts P i * ln (expected P M x i))) + lsum rs (fun r => rs_value (p_n P) r x).
(** the logarithms exist: wherever something was measured, something is expected *)
Definition log_defined (P : problem) (M : mat) (x : vec) : Prop :=
  forall i, (i < p_m P)%nat -> mask_at (train_mask P) i = 1 -> 0 < counts P i -> 0 < expected P M x i.
Definition kl_domain (P : problem) (M : mat) (x : vec) : Prop := obeys_limits P x /\ log_defined P M x.
Definition kl_setting (P : problem) (M : mat) (rs : list rspec) (l : option R) : Prop :=
  p_op P = mat_op (p_m P) (p_n P) M /\ p_regs P = map (model_reg (p_n P)) rs /\ Forall rs_ok rs /\ Forall (rs_steps_ok (p_n P)) rs /\
  dt_kind (p_dterm P) = K_KL /\ limits_ok P /\ binary_mask (p_xmask P) /\ binary_mask (train_mask P) /\ pd_steps_strict P M rs l /\ p_tol P = None /\
  (forall i j, (i < p_m P)%nat -> (j < p_n P)%nat -> 0 <= M i j) /\ (forall i, (i < p_m P)%nat -> 0 <= back_at (dt_background (p_dterm P)) i) /\
  (exists lo, p_lower P = Some lo /\ forall j, (j < p_n P)%nat -> 0 <= lo j) /\
  exists x, kl_domain P M x.

(** * One pixel *)
Lemma kl_step s b d : 0 < s -> 0 <= b -> let z := (1 + d - sqrt ((d - 1) ^ 2 + 4 * s * b)) / 2 in
  z <= 1 /\ (0 < b -> z < 1) /\ forall y, y <= 1 -> (0 < b -> y < 1) -> - b * ln (1 - z) + (d - z) / s * (y - z) <= - b * ln (1 - y).
Proof.
  intros Hs Hb z. set (r := sqrt ((d - 1) ^ 2 + 4 * s * b)). assert (Hsb : 0 <= s * b) by (apply Rmult_le_pos; lra).
  assert (Hrr : r * r = (d - 1) ^ 2 + 4 * s * b) by (apply sqrt_sqrt; pose proof (pow2_ge_0 (d - 1)); lra). assert (Hr0 : 0 <= r) by apply sqrt_pos.
  assert (Ez : z = (1 + d - r) / 2) by reflexivity.
  assert (Hroot : (1 - z) * (d - z) = s * b) by (rewrite Ez; replace ((1 - (1 + d - r) / 2) * (d - (1 + d - r) / 2)) with ((r * r - (d - 1) ^ 2) / 4) by field; rewrite Hrr; field).
  assert (Hz1 : z <= 1). { rewrite Ez. cut (d - 1 <= r); [lra|]. destruct (Rle_lt_dec (d - 1) 0); [lra|]. nra. }
  assert (Hz2 : 0 < b -> z < 1). { intros Hb'. destruct Hz1 as [H|H]; [exact H|]. exfalso. rewrite H in Hroot. assert (0 < s * b) by (apply Rmult_lt_0_compat; assumption). lra. }
  split; [exact Hz1|]. split; [exact Hz2|]. intros y Hy Hy'. destruct (Rle_lt_or_eq_dec 0 b Hb) as [B|B].
  - specialize (Hz2 B). specialize (Hy' B).
    assert (E : (d - z) / s = b / (1 - z)).
    { apply Rmult_eq_reg_r with (s * (1 - z)); [|apply Rmult_integral_contrapositive; lra]. replace ((d - z) / s * (s * (1 - z))) with ((1 - z) * (d - z)) by (field; lra). rewrite Hroot. field. lra. }
    rewrite E. pose proof (ln_le_sub1 ((1 - y) / (1 - z)) ltac:(apply Rdiv_lt_0_compat; lra)) as G. unfold Rdiv in G at 1. rewrite ln_mult, ln_Rinv in G by (try apply Rinv_0_lt_compat; lra).
    assert (E2 : (1 - y) / (1 - z) - 1 = (z - y) / (1 - z)) by (field; lra). rewrite E2 in G. apply (Rmult_le_compat_l b) in G; [|lra].
    replace (b / (1 - z) * (y - z)) with (- (b * ((z - y) / (1 - z)))) by (field; lra). lra.
  - rewrite <- B. rewrite Ropp_0, !Rmult_0_l, Rplus_0_l. rewrite <- B, Rmult_0_r in Hroot. apply Rmult_integral in Hroot. destruct Hroot as [H|H].
    + assert (Z1 : z = 1) by lra. rewrite Z1 in *. assert (d >= 1). { assert (r = d - 1) by lra. lra. }
      assert (0 <= (d - 1) / s) by (apply Rdiv_le_0_compat; lra). nra.
    + rewrite H. unfold Rdiv. rewrite !Rmult_0_l. lra.
Qed.
(** the best dual value for an expected count v *)
Definition kl_dual (b v : R) : R := 1 - b / v.
Lemma kl_dual_best b v y : 0 <= b -> 0 <= v -> (0 < b -> 0 < v) -> y <= 1 -> (0 < b -> y < 1) ->
  kl_dual b v <= 1 /\ (0 < b -> kl_dual b v < 1) /\ v * y + b * ln (1 - y) <= v * kl_dual b v + b * ln (1 - kl_dual b v) /\
  v * kl_dual b v + b * ln (1 - kl_dual b v) = v - b * ln v + (b * ln b - b).
Proof.
  intros Hb Hv Hbv Hy Hby. unfold kl_dual. destruct (Rle_lt_or_eq_dec 0 b Hb) as [B|B].
  - specialize (Hbv B). specialize (Hby B). assert (Q : 0 < b / v) by (apply Rdiv_lt_0_compat; assumption). split; [lra|]. split; [intros _; lra|].
    replace (1 - (1 - b / v)) with (b / v) by ring. assert (El : ln (b / v) = ln b - ln v) by (unfold Rdiv; rewrite ln_mult, ln_Rinv by (try apply Rinv_0_lt_compat; assumption); ring). rewrite El.
    replace (v * (1 - b / v)) with (v - b) by (field; lra). split.
    + pose proof (ln_le_sub1 ((1 - y) * v / b) ltac:(apply Rdiv_lt_0_compat; [apply Rmult_lt_0_compat; lra|exact B])) as G.
      unfold Rdiv in G at 1. rewrite ln_mult, ln_mult, ln_Rinv in G by (try apply Rinv_0_lt_compat; try apply Rmult_lt_0_compat; lra).
      apply (Rmult_le_compat_l b) in G; [|lra]. replace (b * ((1 - y) * v / b - 1)) with ((1 - y) * v - b) in G by (field; lra). lra.
    + ring.
  - subst b. unfold Rdiv. rewrite !Rmult_0_l, Rminus_0_r. split; [lra|]. split; [intros; lra|]. split; [nra|ring].
Qed.
Lemma kl_low b v : 0 <= b -> 0 <= v -> (0 < b -> 0 < v) -> b - b * ln b <= v - b * ln v.
Proof.
  intros Hb Hv Hbv. destruct (kl_dual_best b v 0 Hb Hv Hbv ltac:(lra) ltac:(intros; lra)) as (_ & _ & H1 & H2). rewrite Rminus_0_r, ln_1 in H1. lra.
Qed.
(** growth: bounded value, bounded counts *)
Lemma kl_grow b v : 0 <= b -> 0 <= v -> (0 < b -> 0 < v) -> v / 2 + (b - b * ln (2 * b)) <= v - b * ln v.
Proof.
  intros Hb Hv Hbv. destruct (Rle_lt_or_eq_dec 0 b Hb) as [B|B]; [|subst b; lra]. specialize (Hbv B).
  pose proof (ln_le_sub1 (v / (2 * b)) ltac:(apply Rdiv_lt_0_compat; lra)) as G. unfold Rdiv in G at 1. rewrite ln_mult, ln_Rinv in G by (try apply Rinv_0_lt_compat; lra).
  apply (Rmult_le_compat_l b) in G; [|lra]. replace (b * (v / (2 * b) - 1)) with (v / 2 - b) in G by (field; lra). lra.
Qed.
(** slope along a segment *)
Lemma kl_slope b v t d : 0 <= b -> 0 < t -> (0 < b -> 0 < v) -> (0 < b -> 0 < v + t * d) ->
  (v + t * d - b * ln (v + t * d)) - (v - b * ln v) <= t * (d * kl_dual b (v + t * d)).
Proof.
  intros Hb Ht Hv Hvt. unfold kl_dual. destruct (Rle_lt_or_eq_dec 0 b Hb) as [B|B]; [|subst b; unfold Rdiv; right; ring].
  specialize (Hv B). specialize (Hvt B). pose proof (ln_le_sub1 (v / (v + t * d)) ltac:(apply Rdiv_lt_0_compat; lra)) as G. unfold Rdiv in G at 1. rewrite ln_mult, ln_Rinv in G by (try apply Rinv_0_lt_compat; lra).
  apply (Rmult_le_compat_l b) in G; [|lra]. replace (b * (v / (v + t * d) - 1)) with (- (t * (d * (b / (v + t * d))))) in G by (field; lra). lra.
Qed.

(** * The conjugate *)
Definition kl_pix_dom (P : problem) (z : vec) (i : nat) : Prop :=
  if Req_EM_T (mask_at (train_mask P) i) 0 then z i = 0 else z i <= 1 /\ (0 < counts P i -> z i < 1).
Definition kl_spec (P : problem) : dspec :=
  mkD (fun z => forall i, (i < p_m P)%nat -> kl_pix_dom P z i)
    (fun z => rsum (p_m P) (fun i => mask_at (train_mask P) i * (- counts P i * ln (1 - z i) - back_at (dt_background (p_dterm P)) i * z i)))
    (fun _ => 0) 0 0.
Lemma counts_nonneg P i : 0 <= counts P i.
Proof. apply Rmax_r. Qed.
Lemma kl_step_eq P l p u i : dt_kind (p_dterm P) = K_KL -> data_step P l p u i = mask_at (train_mask P) i *
  ((1 + (p i + pdhg_sigma P l i * (u i + back_at (dt_background (p_dterm P)) i)) - sqrt ((p i + pdhg_sigma P l i * (u i + back_at (dt_background (p_dterm P)) i) - 1) ^ 2 + 4 * pdhg_sigma P l i * counts P i)) / 2).
Proof.
  intros Hk. unfold data_step. assert (Em : forall v, mul_mask (train_mask P) v i = mask_at (train_mask P) i * v i) by (intros v; unfold mul_mask, mask_at; destruct (train_mask P); ring).
  rewrite Em. f_equal. unfold pdhg_dt, assigned, proximal_dual, assign_data. cbn [dt_kind dt_sigma_data]. rewrite Hk. cbn [compute_sigma_data]. rewrite ?Hk.
  unfold update_dual, add_background, back_at. cbn [dt_background dt_sigma]. unfold np_fmax, counts.
  assert (E : pdhg_sigma P l i * (u i + match dt_background (p_dterm P) with Some m => m i | None => 0 end) = match dt_background (p_dterm P) with Some bg => u i + bg i | None => u i end * pdhg_sigma P l i) by (destruct (dt_background (p_dterm P)); ring).
  rewrite E. destruct (dt_background (p_dterm P)); reflexivity || (f_equal; ring).
Qed.
Lemma kl_base P l : dt_kind (p_dterm P) = K_KL -> binary_mask (train_mask P) -> (forall i, (i < p_m P)%nat -> 0 < pdhg_sigma P l i) ->
  dspec_base (p_m P) (pdhg_sigma P l) (train_mask P) (data_step P l) (kl_spec P).
Proof.
  intros Hk Hb Hs. unfold dspec_base, kl_spec. cbn [ds_dom ds_conj]. split; [|split].
  - intros p u. set (bg := back_at (dt_background (p_dterm P))). set (z := data_step P l p u).
    assert (Hz : forall i, (i < p_m P)%nat -> kl_pix_dom P z i /\ forall Y, kl_pix_dom P Y i ->
      mask_at (train_mask P) i * (- counts P i * ln (1 - z i) - bg i * z i) + (u i * (Y i - z i) + (p i - z i) * (Y i - z i) / pdhg_sigma P l i)
      <= mask_at (train_mask P) i * (- counts P i * ln (1 - Y i) - bg i * Y i)).
    { intros i Hi. pose proof (kl_step_eq P l p u i Hk) as E. fold z in E. fold bg in E. unfold kl_pix_dom. destruct (Req_EM_T (mask_at (train_mask P) i) 0) as [E0|E0].
      - rewrite E0, Rmult_0_l in E. split; [exact E|]. intros Y HY. rewrite HY, E, E0. unfold Rdiv. lra.
      - assert (E1 : mask_at (train_mask P) i = 1) by (destruct (Hb i); [contradiction|assumption]). rewrite E1, Rmult_1_l in E. specialize (Hs i Hi).
        destruct (kl_step (pdhg_sigma P l i) (counts P i) (p i + pdhg_sigma P l i * (u i + bg i)) Hs (counts_nonneg P i)) as (A & B & C). rewrite <- E in A, B, C.
        split; [split; assumption|]. intros Y [Y1 Y2]. specialize (C (Y i) Y1 Y2). rewrite E1.
        replace ((p i + pdhg_sigma P l i * (u i + bg i) - z i) / pdhg_sigma P l i * (Y i - z i)) with ((u i + bg i) * (Y i - z i) + (p i - z i) * (Y i - z i) / pdhg_sigma P l i) in C by (field; lra). lra. }
    split; [intros i Hi; apply Hz, Hi|]. intros Y HY. rewrite <- !rsum_plus. apply rsum_le. intros i Hi. apply (Hz i Hi), HY, Hi.
  - intros z z' Hz E. split.
    + intros i Hi. specialize (Hz i Hi). unfold kl_pix_dom in *. rewrite <- (E i Hi). exact Hz.
    + apply rsum_ext. intros i Hi. rewrite (E i Hi). reflexivity.
  - intros z i Hz Hi E. specialize (Hz i Hi). unfold kl_pix_dom in Hz. rewrite E in Hz. destruct (Req_EM_T 0 0); [exact Hz|lra].
Qed.

(** * Auxiliary: sub-gradients of the regularisers over the limits *)
Definition idm : mat := fun i => unitv i 1.
Lemma mv_id n x i : (i < n)%nat -> mv n idm x i = x i.
Proof. intros Hi. unfold mv, idm. rewrite (rsum_ext n _ (fun j => x j * unitv i 1 j)) by (intros; ring). rewrite unit_sum by exact Hi. ring. Qed.
Definition auxP (P : problem) (a : vec) : problem :=
  mkProblem (p_n P) (p_n P) (mat_op (p_n P) (p_n P) idm) a None (p_lower P) (p_upper P) (p_xmask P) None None None 1 (p_regs P) (new_dterm K_l2 None) (new_dterm K_l2 None).
Lemma aux_setting P rs a : p_regs P = map (model_reg (p_n P)) rs -> Forall rs_ok rs -> Forall (rs_steps_ok (p_n P)) rs -> limits_ok P -> binary_mask (p_xmask P) ->
  loss_setting (auxP P a) idm rs (Some 1).
Proof.
  intros H1 H2 H3 H4 H5. split; [reflexivity|]. split; [exact H1|]. split; [exact H2|]. split; [exact I|]. split; [exact H4|]. split; [exact H5|]. split; [intros i; right; reflexivity|]. split; [|reflexivity].
  apply lips_steps_ok; try assumption; cbn [auxP p_relax p_m p_n]; try lra. intros x. right. unfold norm2. replace ((1 / 1) ^ 2) with 1 by field. rewrite Rmult_1_l. apply rsum_ext. intros i Hi. rewrite mv_id by exact Hi. reflexivity.
Qed.
(** a volume that minimises <g, x> + regularisation over the limits has optimal regularisation duals *)
Lemma reg_duals P rs g X : p_regs P = map (model_reg (p_n P)) rs -> Forall rs_ok rs -> Forall (rs_steps_ok (p_n P)) rs -> limits_ok P -> binary_mask (p_xmask P) ->
  obeys_limits P X -> (forall y, obeys_limits P y -> 0 <= dot (p_n P) g (lc 1 y (-1) X) + lsum rs (fun r => rs_value (p_n P) r y) - lsum rs (fun r => rs_value (p_n P) r X)) ->
  exists W, domreg rs W /\ rsum (tot rs) (fun i => mv (p_n P) (Kreg rs) X i * W i) - fsreg rs W = lsum rs (fun r => rs_value (p_n P) r X) /\
    forall y, obeys_limits P y -> 0 <= dot (p_n P) g (lc 1 y (-1) X) + rsum (tot rs) (fun i => mv (p_n P) (Kreg rs) (lc 1 y (-1) X) i * W i).
Proof.
  intros H1 H2 H3 H4 H5 FX HX. set (n := p_n P) in *. set (a := fun j => X j - g j). pose proof (aux_setting P rs a H1 H2 H3 H4 H5) as HS.
  assert (Eobj : forall x, loss_objective (auxP P a) idm rs (Some 1) x = rsum n (fun i => (x i - a i) ^ 2 / 2) + lsum rs (fun r => rs_value n r x)).
  { intros x. unfold loss_objective. cbn [auxP p_m p_n p_dterm new_dterm dt_kind pixel_loss]. fold n. f_equal. apply rsum_ext. intros i Hi. rewrite mv_id by exact Hi. unfold target, back_at, mask_at, train_mask. cbn. fold (auxP P a). field. }
  assert (MX : minimises (obeys_limits (auxP P a)) (loss_objective (auxP P a) idm rs (Some 1)) X).
  { split; [exact FX|]. intros y Hy. rewrite !Eobj. specialize (HX y Hy).
    assert (E : rsum n (fun i => (y i - a i) ^ 2 / 2) = rsum n (fun i => (X i - a i) ^ 2 / 2) + dot n g (lc 1 y (-1) X) + rsum n (fun i => (y i - X i) ^ 2 / 2)).
    { unfold dot. rewrite <- !rsum_plus. apply rsum_ext. intros i _. unfold a, lc. field. }
    assert (0 <= rsum n (fun i => (y i - X i) ^ 2 / 2)) by (apply rsum_nonneg; intros; apply Rdiv_le_0_compat; [apply pow2_ge_0|lra]). lra. }
  pose proof HS as (S1 & S2 & S3 & S4 & S5 & S6 & S7 & S8 & S9). rewrite <- (obj_ext _ _ _ _ HS) in MX. pose proof (proj1 (setting_spec _ _ _ _ HS)) as HD.
  destruct (e_saddle (auxP P a) idm rs (Some 1) (kind_spec (auxP P a) (Some 1)) S1 S2 S3 HD S6 S8 X MX) as (Z & _ & DZ & T1 & T2 & _).
  set (W := shift n Z). destruct DZ as [DZ1 DZ2]. change (p_m (auxP P a)) with n in DZ2. fold W in DZ2.
  set (LL := lag (p_n (auxP P a)) (mt (auxP P a) rs) (Kst (auxP P a) idm rs) (Fd (auxP P a) rs (kind_spec (auxP P a) (Some 1)))) in *.
  assert (EC : forall z, ds_conj (kind_spec (auxP P a) (Some 1)) z = rsum n (fun i => z i ^ 2 / 2 + a i * z i)).
  { intros z. unfold kind_spec, sep_spec. cbn [ds_conj]. apply rsum_ext. intros i _. unfold kind_sep, mask_at, train_mask. cbn [auxP p_bmask p_btest initialize_b_masks fst p_dterm new_dterm dt_kind]. destruct (Req_EM_T 1 0); [lra|].
    unfold sep_conj. cbn [sa sk st]. unfold target, back_at. cbn. field. }
  assert (EL : forall x z, LL x z = rsum n (fun i => x i * z i) - rsum n (fun i => z i ^ 2 / 2 + a i * z i) + (rsum (tot rs) (fun i => mv n (Kreg rs) x i * shift n z i) - fsreg rs (shift n z))).
  { intros x z. unfold LL, lag, Fd. rewrite kd_split, EC. cbn [auxP p_n p_m]. fold n. rewrite (rsum_ext n (fun i => mv n idm x i * z i) (fun i => x i * z i)) by (intros i Hi; rewrite mv_id by exact Hi; reflexivity). ring. }
  assert (Dall : forall z, ds_dom (kind_spec (auxP P a) (Some 1)) z).
  { intros z i _. unfold kind_sep, mask_at, train_mask. cbn [auxP p_bmask p_btest initialize_b_masks fst p_dterm new_dterm dt_kind]. destruct (Req_EM_T 1 0); [lra|]. exact I. }
  (* the data dual is g *)
  assert (Eg : forall i, (i < n)%nat -> Z i = g i).
  { assert (Q : rsum n (fun i => (Z i - g i) ^ 2) <= 0).
    { pose proof (T2 (put n g W) ltac:(split; [apply Dall|change (p_m (auxP P a)) with n; rewrite shift_put; exact DZ2])) as T. rewrite !EL in T. rewrite shift_put in T. fold W in T.
      rewrite (rsum_ext n (fun i => X i * put n g W i) (fun i => X i * g i)) in T by (intros i Hi; rewrite put_lo by exact Hi; reflexivity).
      rewrite (rsum_ext n (fun i => put n g W i ^ 2 / 2 + a i * put n g W i) (fun i => g i ^ 2 / 2 + a i * g i)) in T by (intros i Hi; rewrite put_lo by exact Hi; reflexivity).
      assert (E1 : rsum n (fun i => X i * g i) - rsum n (fun i => g i ^ 2 / 2 + a i * g i) = rsum n (fun i => g i ^ 2 / 2)) by (rewrite <- rsum_minus; apply rsum_ext; intros i _; unfold a; field).
      assert (E2 : rsum n (fun i => X i * Z i) - rsum n (fun i => Z i ^ 2 / 2 + a i * Z i) = rsum n (fun i => g i ^ 2 / 2) - / 2 * rsum n (fun i => (Z i - g i) ^ 2)).
      { rewrite <- rsum_scal, <- !rsum_minus. apply rsum_ext. intros i _. unfold a. field. }
      lra. }
    intros i Hi. pose proof (rsum_term_le n (fun i => (Z i - g i) ^ 2) i ltac:(intros; apply pow2_ge_0) Hi) as T. cbv beta in T. assert (Z0 : (Z i - g i) ^ 2 = 0) by (pose proof (pow2_ge_0 (Z i - g i)); lra).
    assert (Z i - g i = 0); [|lra]. apply Rsqr_0_uniq. unfold Rsqr. lra. }
  exists W. split; [exact DZ2|]. split.
  - destruct (regs_att n rs X H2) as (Y & DY & EY & _). pose proof (regs_sup n rs X W H2 DZ2) as U.
    pose proof (T2 (put n Z Y) ltac:(split; [apply Dall|change (p_m (auxP P a)) with n; rewrite shift_put; exact DY])) as T. rewrite !EL, shift_put in T. fold W in T.
    rewrite (rsum_ext n (fun i => X i * put n Z Y i) (fun i => X i * Z i)) in T by (intros i Hi; rewrite put_lo by exact Hi; reflexivity).
    rewrite (rsum_ext n (fun i => put n Z Y i ^ 2 / 2 + a i * put n Z Y i) (fun i => Z i ^ 2 / 2 + a i * Z i)) in T by (intros i Hi; rewrite put_lo by exact Hi; reflexivity). lra.
  - intros y Hy. pose proof (T1 y Hy) as T. rewrite !EL in T. fold W in T. unfold dot.
    rewrite (rsum_ext n (fun i => g i * lc 1 y (-1) X i) (fun i => y i * Z i - X i * Z i)) by (intros i Hi; unfold lc; rewrite (Eg i Hi); ring). rewrite rsum_minus.
    rewrite (rsum_ext (tot rs) (fun i => mv n (Kreg rs) (lc 1 y (-1) X) i * W i) (fun i => mv n (Kreg rs) y i * W i - mv n (Kreg rs) X i * W i)).
    2:{ intros i _. rewrite <- Rmult_minus_distr_r. f_equal. unfold mv, lc. rewrite <- rsum_minus. apply rsum_ext. intros; ring. }
    rewrite rsum_minus. lra.
Qed.
Lemma regs_convex n rs t x y : Forall rs_ok rs -> 0 <= t <= 1 ->
  lsum rs (fun r => rs_value n r (lc t x (1 - t) y)) <= t * lsum rs (fun r => rs_value n r x) + (1 - t) * lsum rs (fun r => rs_value n r y).
Proof.
  intros Hok Ht. destruct (regs_att n rs (lc t x (1 - t) y) Hok) as (Y & DY & EY & _). rewrite <- EY. pose proof (regs_sup n rs x Y Hok DY) as A. pose proof (regs_sup n rs y Y Hok DY) as B.
  rewrite (rsum_ext (tot rs) _ (fun i => t * (mv n (Kreg rs) x i * Y i) + (1 - t) * (mv n (Kreg rs) y i * Y i))).
  2:{ intros i _. unfold mv, lc. rewrite (rsum_ext n (fun j => Kreg rs i j * (t * x j + (1 - t) * y j)) (fun j => t * (Kreg rs i j * x j) + (1 - t) * (Kreg rs i j * y j))) by (intros; ring). rewrite rsum_plus, !rsum_scal. ring. }
  rewrite rsum_plus, !rsum_scal. set (s1 := rsum (tot rs) _) in *. set (s2 := rsum (tot rs) _) in *. nra.
Qed.
Lemma regs_nonneg n rs x : Forall rs_ok rs -> 0 <= lsum rs (fun r => rs_value n r x).
Proof.
  intros Hok. pose proof (regs_sup n rs x vzeros Hok (domreg_0 rs Hok)) as H. rewrite rsum_zero in H by (intros; unfold vzeros; ring).
  assert (E : fsreg rs vzeros = 0). { clear. induction rs as [|r rs IH]; [reflexivity|]. cbn [fsreg]. change (shift (rs_p r) vzeros) with vzeros. rewrite IH. unfold conj_r. destruct (rs_kind r); try ring. rewrite rsum_zero; [ring|]. intros; unfold vzeros, Rdiv; ring. }
  lra.
Qed.

Lemma regs_blind n rs x d t : Forall rs_ok rs -> (forall i, (i < tot rs)%nat -> mv n (Kreg rs) d i = 0) ->
  lsum rs (fun r => rs_value n r (fun j => x j + t * d j)) = lsum rs (fun r => rs_value n r x).
Proof.
  intros Hok Hd.
  assert (Q : forall x t, lsum rs (fun r => rs_value n r (fun j => x j + t * d j)) <= lsum rs (fun r => rs_value n r x)).
  { clear x t. intros x t. destruct (regs_att n rs (fun j => x j + t * d j) Hok) as (Y & DY & EY & _). rewrite <- EY. pose proof (regs_sup n rs x Y Hok DY) as A.
    rewrite (rsum_ext (tot rs) _ (fun i => mv n (Kreg rs) x i * Y i)); [exact A|]. intros i Hi. f_equal. specialize (Hd i Hi). unfold mv in *.
    rewrite (rsum_ext n _ (fun j => Kreg rs i j * x j + t * (Kreg rs i j * d j))) by (intros; ring). rewrite rsum_plus, rsum_scal, Hd. ring. }
  apply Rle_antisym; [apply Q|]. pose proof (Q (fun j => x j + t * d j) (- t)) as H. eapply Rle_trans; [|exact H]. right.
  replace (fun j => x j + t * d j + - t * d j) with x; [reflexivity|]. apply vec_ext. intros; ring.
Qed.

Lemma cont_regs n rs v : cont n (fun u => lsum rs (fun r => rs_value n r u)) v.
Proof.
  induction rs as [|r rs IH]; [apply (cont_ext n (fun _ => 0)); [reflexivity|apply cont_const]|]. apply (cont_ext n (fun u => rs_value n r u + lsum rs (fun r => rs_value n r u))); [reflexivity|]. apply cont_plus; [|exact IH].
  assert (Cu : forall i, cont n (fun u => mv n (rs_G r) u i) v) by (intros i; apply cont_mv). unfold rs_value. destruct (rs_kind r) as [|nax N|].
  - apply cont_scal. apply (cont_rsum n (rs_p r) (fun i u => Rabs (mv n (rs_G r) u i))). intros i _. apply cont_abs, Cu.
  - apply cont_scal. apply (cont_rsum n N (fun i u => grp_norm nax (fun a => mv n (rs_G r) u (a * N + i)%nat))). intros i _. unfold grp_norm.
    apply (cont_comp n (fun u => rsum nax (fun a => mv n (rs_G r) u (a * N + i)%nat ^ 2)) sqrt).
    + apply (cont_rsum n nax (fun a u => mv n (rs_G r) u (a * N + i)%nat ^ 2)). intros a _. apply (cont_ext n (fun u => mv n (rs_G r) u (a * N + i)%nat * mv n (rs_G r) u (a * N + i)%nat)); [intros; ring|]. apply cont_mult; apply Cu.
    + apply continuity_pt_sqrt. apply rsum_nonneg. intros; apply pow2_ge_0.
  - apply cont_scal. apply (cont_rsum n (rs_p r) (fun i u => mv n (rs_G r) u i ^ 2)). intros i _. apply (cont_ext n (fun u => mv n (rs_G r) u i * mv n (rs_G r) u i)); [intros; ring|]. apply cont_mult; apply Cu.
Qed.

Section KL.
  Variables (P : problem) (M : mat) (rs : list rspec) (l : option R).
  Hypothesis HS : kl_setting P M rs l.
  Let n := p_n P.
  Let m := p_m P.
  Let mk := mask_at (train_mask P).
  Let bg := back_at (dt_background (p_dterm P)).
  Let b := counts P.
  Let e := expected P M.
  Let Rg (x : vec) := lsum rs (fun r => rs_value n r x).
  Let D := kl_spec P.
  Let L := lag (p_n P) (mt P rs) (Kst P M rs) (Fd P rs D).

  Lemma k_ok : Forall rs_ok rs. Proof. apply HS. Qed.
  Lemma k_mask i : mk i = 0 \/ mk i = 1. Proof. unfold mk. destruct HS as (_ & _ & _ & _ & _ & _ & _ & H & _). apply H. Qed.
  Lemma k_mask_nonneg i : 0 <= mk i. Proof. destruct (k_mask i) as [->| ->]; lra. Qed.
  Lemma k_vol_nonneg x j : obeys_limits P x -> (j < n)%nat -> 0 <= x j.
  Proof.
    intros Hx Hj. pose proof HS as (_ & _ & _ & _ & _ & _ & Hb & _ & _ & _ & _ & _ & (lo & El & Hlo) & _). destruct (Hb j) as [E|E].
    - rewrite (feasible_out _ _ _ _ _ j Hx Hj E). lra.
    - destruct (feasible_in _ _ _ _ _ j Hx Hj E) as [A _]. rewrite El in A. specialize (Hlo j Hj). lra.
  Qed.
  Lemma k_exp_nonneg x i : obeys_limits P x -> (i < m)%nat -> 0 <= e x i.
  Proof.
    intros Hx Hi. pose proof HS as (_ & _ & _ & _ & _ & _ & _ & _ & _ & _ & HM & Hbg & _). unfold e, expected. specialize (Hbg i Hi).
    assert (0 <= mv (p_n P) M x i); [|lra]. unfold mv. apply rsum_nonneg. intros j Hj. apply Rmult_le_pos; [apply HM; assumption|apply k_vol_nonneg; assumption].
  Qed.
  Lemma k_sigma i : (i < m)%nat -> 0 < pdhg_sigma P l i.
  Proof. destruct HS as (_ & _ & _ & _ & _ & _ & _ & _ & Hst & _). apply (strict_pos P M rs l Hst). Qed.
  Lemma k_base : dspec_base (p_m P) (pdhg_sigma P l) (train_mask P) (data_step P l) D.
  Proof. apply kl_base; [apply HS|apply HS|apply k_sigma]. Qed.
  Lemma k_lag x z : L x z = (rsum m (fun i => mv n M x i * z i) - ds_conj D z) + (rsum (tot rs) (fun i => mv n (Kreg rs) x i * shift m z i) - fsreg rs (shift m z)).
  Proof. unfold L, lag, Fd. unfold n, m. rewrite kd_split. ring. Qed.
  (** data part of the Lagrangian *)
  Lemma k_data x z : ds_dom D z -> rsum m (fun i => mv n M x i * z i) - ds_conj D z = rsum m (fun i => mk i * (e x i * z i + b i * ln (1 - z i))).
  Proof.
    intros Hz. unfold D, kl_spec. cbn [ds_conj]. fold m mk b bg. rewrite <- rsum_minus. apply rsum_ext. intros i Hi. specialize (Hz i Hi). unfold kl_pix_dom in Hz. fold mk in Hz.
    unfold e, expected. fold n bg. destruct (Req_EM_T (mk i) 0) as [E|E]; [rewrite Hz, E; ring|]. destruct (k_mask i) as [E'|E']; [contradiction|]. rewrite E'. ring.
  Qed.
  Let best (x : vec) : vec := fun i => mk i * kl_dual (b i) (e x i).
  Let cst := rsum m (fun i => mk i * (b i * ln (b i) - b i)).
  Lemma k_pix x z i : obeys_limits P x -> (i < m)%nat -> (mk i = 1 -> 0 < b i -> 0 < e x i) -> kl_pix_dom P z i ->
    kl_pix_dom P (best x) i /\ mk i * (e x i * z i + b i * ln (1 - z i)) <= mk i * (e x i * best x i + b i * ln (1 - best x i)) /\
    mk i * (e x i * best x i + b i * ln (1 - best x i)) = mk i * (e x i - b i * ln (e x i)) + mk i * (b i * ln (b i) - b i).
  Proof.
    intros Hx Hi Hl Hz. unfold kl_pix_dom in *. fold mk b in Hz |- *. unfold best. destruct (Req_EM_T (mk i) 0) as [E|E]; [rewrite E, !Rmult_0_l; lra|].
    destruct (k_mask i) as [E'|E']; [contradiction|]. specialize (Hl E'). destruct Hz as [Z1 Z2].
    destruct (kl_dual_best (b i) (e x i) (z i) (counts_nonneg P i) (k_exp_nonneg x i Hx Hi) Hl Z1 Z2) as (A1 & A2 & A3 & A4). rewrite E', !Rmult_1_l. split; [tauto|]. split; [exact A3|]. rewrite A4. ring.
  Qed.
  Lemma k_zero_dom : ds_dom D vzeros.
  Proof. intros i Hi. unfold kl_pix_dom, vzeros. destruct (Req_EM_T _ 0); [reflexivity|]. lra. Qed.
  Lemma k_best_dom x : kl_domain P M x -> ds_dom D (best x).
  Proof. intros [Hx Hl] i Hi. apply (k_pix x vzeros i Hx Hi); [apply Hl, Hi|apply k_zero_dom, Hi]. Qed.
  Lemma k_sup x z : kl_domain P M x -> domd P rs D z -> L x z <= kl_objective P M rs x + cst.
  Proof.
    intros [Hx Hl] [Z1 Z2]. rewrite k_lag, k_data by exact Z1. pose proof (regs_sup n rs x _ k_ok Z2) as R1. fold m in R1. unfold kl_objective, cst. fold n m mk b.
    assert (rsum m (fun i => mk i * (e x i * z i + b i * ln (1 - z i))) <= rsum m (fun i => mk i * (e x i - b i * ln (e x i))) + rsum m (fun i => mk i * (b i * ln (b i) - b i))); [|unfold e in *; lra].
    rewrite <- rsum_plus. apply rsum_le. intros i Hi. destruct (k_pix x z i Hx Hi (Hl i Hi) (Z1 i Hi)) as (_ & A & B). lra.
  Qed.
  Lemma k_att_gen x W : kl_domain P M x -> domreg rs W -> rsum (tot rs) (fun i => mv n (Kreg rs) x i * W i) - fsreg rs W = Rg x ->
    domd P rs D (put m (best x) W) /\ L x (put m (best x) W) = kl_objective P M rs x + cst.
  Proof.
    intros Hd HW EW. pose proof (k_best_dom x Hd) as Db. destruct k_base as (_ & HE & _). destruct (HE (best x) (put m (best x) W) Db (put_veq' m _ _)) as [D1 D2]. split.
    - split; [exact D1|]. fold m. rewrite shift_put. exact HW.
    - rewrite k_lag, shift_put, EW, D2. rewrite (rsum_ext m (fun i => mv n M x i * put m (best x) W i) (fun i => mv n M x i * best x i)) by (intros i Hi; rewrite put_lo by exact Hi; reflexivity).
      rewrite k_data by exact Db. unfold kl_objective, cst. fold n m mk b. fold (Rg x). destruct Hd as [Hx Hl].
      rewrite (rsum_ext m _ (fun i => mk i * (e x i - b i * ln (e x i)) + mk i * (b i * ln (b i) - b i))) by (intros i Hi; apply (k_pix x vzeros i Hx Hi (Hl i Hi) (k_zero_dom i Hi))).
      rewrite rsum_plus. unfold e. ring.
  Qed.
  Lemma k_att x : kl_domain P M x -> exists Y, domd P rs D Y /\ L x Y = kl_objective P M rs x + cst.
  Proof. intros Hd. destruct (regs_att n rs x k_ok) as (W & DW & EW & _). exists (put m (best x) W). apply k_att_gen; assumption. Qed.

  (** * First-order condition *)
  Lemma k_exp_lc t y x i : e (lc t y (1 - t) x) i = e x i + t * mv n M (lc 1 y (-1) x) i.
  Proof.
    unfold e, expected. fold n bg. unfold mv, lc. rewrite (rsum_ext n (fun j => M i j * (t * y j + (1 - t) * x j)) (fun j => M i j * x j + t * (M i j * (1 * y j + -1 * x j)))) by (intros; ring).
    rewrite rsum_plus, rsum_scal. ring.
  Qed.
  Lemma k_exp_1 y x i : e y i = e x i + mv n M (lc 1 y (-1) x) i.
  Proof. rewrite <- (Rmult_1_l (mv n M (lc 1 y (-1) x) i)), <- k_exp_lc. unfold e, expected. f_equal. apply mv_ext. intros j _. unfold lc. ring. Qed.
  Lemma k_first_order X : minimises (kl_domain P M) (kl_objective P M rs) X -> forall y, obeys_limits P y ->
    0 <= rsum m (fun i => mv n M (lc 1 y (-1) X) i * best X i) + Rg y - Rg X.
  Proof.
    intros [[FX LX] MX] y Hy. set (d := mv n M (lc 1 y (-1) X)).
    set (h := fun u : vec => rsum m (fun i => mk i * (d i * kl_dual (b i) (e X i + u 0%nat * d i)))).
    assert (E0 : forall i, e X i + vzeros 0%nat * d i = e X i) by (intros i; unfold vzeros; ring).
    assert (Ch : cont 1 h vzeros).
    { unfold h. apply (cont_rsum 1 m (fun i u => mk i * (d i * kl_dual (b i) (e X i + u 0%nat * d i)))). intros i Hi.
      destruct (k_mask i) as [Em|Em]; [apply (cont_ext _ (fun _ => 0)); [intros; rewrite Em; ring|apply cont_const]|].
      apply cont_scal, cont_scal. unfold kl_dual. destruct (counts_nonneg P i) as [B|B]; fold b in B.
      - apply (cont_ext _ (fun u => 1 - b i * / (e X i + u 0%nat * d i))); [intros; reflexivity|]. apply cont_minus; [apply cont_const|]. apply cont_scal, cont_inv.
        + apply cont_plus; [apply cont_const|]. apply cont_mult; [apply cont_coord; lia|apply cont_const].
        + rewrite E0. apply LX; assumption.
      - apply (cont_ext _ (fun _ => 1)); [intros; rewrite <- B; unfold Rdiv; ring|apply cont_const]. }
    assert (Hh0 : h vzeros = rsum m (fun i => d i * best X i)).
    { unfold h. apply rsum_ext. intros i Hi. rewrite E0. unfold best. ring. }
    rewrite <- Hh0. apply Rnot_lt_le. intros Neg. destruct (Ch (- (h vzeros + Rg y - Rg X)) ltac:(lra)) as (del & Hdel & Hcl).
    set (t := Rmin (del / 2) (/ 2)). assert (Ht : 0 < t) by (unfold t; apply Rmin_glb_lt; lra). assert (Ht1 : t <= / 2) by apply Rmin_r. assert (Ht2 : t <= del / 2) by apply Rmin_l.
    specialize (Hcl (fun _ => t)). cbv beta in Hcl.
    assert (Q : Rabs (h (fun _ => t) - h vzeros) < - (h vzeros + Rg y - Rg X)). { apply Hcl. intros i _. unfold vzeros. rewrite Rminus_0_r, Rabs_right by lra. lra. }
    set (Xt := lc t y (1 - t) X).
    assert (DXt : kl_domain P M Xt).
    { split; [apply feasible_convex; [lra|exact Hy|exact FX]|]. intros i Hi Em B. specialize (LX i Hi Em B). fold e. fold e in LX. unfold Xt. rewrite k_exp_lc. fold d.
      pose proof (k_exp_nonneg y i Hy Hi) as Ey. rewrite (k_exp_1 y X i) in Ey. fold d in Ey.
      replace (e X i + t * d i) with ((1 - t) * e X i + t * (e X i + d i)) by ring. assert (0 < (1 - t) * e X i) by (apply Rmult_lt_0_compat; lra). assert (0 <= t * (e X i + d i)) by (apply Rmult_le_pos; lra). lra. }
    specialize (MX Xt DXt). unfold kl_objective in MX. fold n m mk b e in MX. fold (Rg X) in MX. fold (Rg Xt) in MX.
    pose proof (regs_convex n rs t y X k_ok ltac:(lra)) as RC. fold Xt in RC. fold (Rg Xt) (Rg y) (Rg X) in RC.
    assert (SL : rsum m (fun i => mk i * (e Xt i - b i * ln (e Xt i))) - rsum m (fun i => mk i * (e X i - b i * ln (e X i))) <= t * h (fun _ => t)).
    { unfold h. rewrite <- rsum_minus, <- rsum_scal. apply rsum_le. intros i Hi. destruct (k_mask i) as [Em|Em]; [rewrite Em; right; ring|]. rewrite Em, !Rmult_1_l.
      destruct DXt as [_ LXt]. pose proof (kl_slope (b i) (e X i) t (d i) (counts_nonneg P i) Ht ltac:(intros B; apply LX; assumption)) as K.
      unfold Xt in *. rewrite (k_exp_lc t y X i). fold d. apply K. intros B. unfold d. rewrite <- k_exp_lc. apply LXt; assumption. }
    assert (Fin : 0 <= t * (h (fun _ => t) + Rg y - Rg X)) by lra.
    assert (0 <= h (fun _ => t) + Rg y - Rg X) by (apply Rmult_le_reg_l with t; lra).
    pose proof (Rle_abs (h (fun _ => t) - h vzeros)). lra.
  Qed.
  Lemma k_saddle X : minimises (kl_domain P M) (kl_objective P M rs) X -> exists Z, domd P rs D Z /\ (forall y, obeys_limits P y -> L X Z <= L y Z) /\ (forall w, domd P rs D w -> L X w <= L X Z).
  Proof.
    intros HM. pose proof (k_first_order X HM) as FO. destruct HM as [DX MX]. pose proof HS as (_ & Hregs & Hok & Hrs & _ & Hlim & Hbx & _).
    set (g := fun j => rsum m (fun i => M i j * best X i)).
    assert (Eg : forall d, dot n g d = rsum m (fun i => mv n M d i * best X i)).
    { intros d. unfold dot, g, mv. rewrite (rsum_ext n _ (fun j => rsum m (fun i => M i j * d j * best X i))) by (intros j _; rewrite <- rsum_scal_r; apply rsum_ext; intros; ring).
      rewrite rsum_swap. apply rsum_ext. intros i _. rewrite <- rsum_scal_r. reflexivity. }
    destruct (reg_duals P rs g X Hregs Hok Hrs Hlim Hbx (proj1 DX)) as (W & DW & EW & OW).
    { intros y Hy. fold n. rewrite Eg. apply FO, Hy. }
    fold n in EW, OW. fold (Rg X) in EW. destruct (k_att_gen X W DX DW EW) as [DZ EZ]. exists (put m (best X) W). split; [exact DZ|]. split.
    - intros y Hy. specialize (OW y Hy). rewrite Eg in OW. rewrite !k_lag, !shift_put.
      rewrite (rsum_ext m (fun i => mv n M y i * put m (best X) W i) (fun i => mv n M y i * best X i)) by (intros i Hi; rewrite put_lo by exact Hi; reflexivity).
      rewrite (rsum_ext m (fun i => mv n M X i * put m (best X) W i) (fun i => mv n M X i * best X i)) by (intros i Hi; rewrite put_lo by exact Hi; reflexivity).
      assert (Lin : forall (A : mat) k (w : vec), rsum k (fun i => mv n A (lc 1 y (-1) X) i * w i) = rsum k (fun i => mv n A y i * w i) - rsum k (fun i => mv n A X i * w i)).
      { intros A k w. rewrite <- rsum_minus. apply rsum_ext. intros i _. rewrite <- Rmult_minus_distr_r. f_equal. unfold mv, lc. rewrite <- rsum_minus. apply rsum_ext. intros; ring. }
      rewrite !Lin in OW. lra.
    - intros w Hw. rewrite EZ. apply k_sup; assumption.
  Qed.
  (** volumes of saddle points are minimisers *)
  Lemma k_saddle_min X Z : obeys_limits P X -> domd P rs D Z -> (forall y, obeys_limits P y -> L X Z <= L y Z) -> (forall w, domd P rs D w -> L X w <= L X Z) ->
    minimises (kl_domain P M) (kl_objective P M rs) X.
  Proof.
    intros FX DZ T1 T2.
    assert (DX : kl_domain P M X).
    { split; [exact FX|]. intros i Hi Em B. fold e; fold b in B; fold mk in Em; fold m in Hi. destruct (k_exp_nonneg X i FX Hi) as [H|H]; [exact H|exfalso]. destruct DZ as [Z1 Z2].
      set (w := fun k => if Nat.eqb k i then Z i - 1 else Z k).
      assert (Ww : forall k, (k < m)%nat -> k <> i -> w k = Z k) by (intros k _ Hk; unfold w; apply Nat.eqb_neq in Hk; rewrite Hk; reflexivity).
      assert (Wi : w i = Z i - 1) by (unfold w; rewrite Nat.eqb_refl; reflexivity).
      assert (Zi : Z i <= 1 /\ (0 < b i -> Z i < 1)). { specialize (Z1 i Hi). unfold kl_pix_dom in Z1. fold mk b in Z1. rewrite Em in Z1. destruct (Req_EM_T 1 0); [lra|exact Z1]. }
      assert (Dw : ds_dom D w).
      { intros k Hk. destruct (Nat.eq_dec k i) as [->|Hne].
        - unfold kl_pix_dom. fold mk b. rewrite Em, Wi. destruct (Req_EM_T 1 0); [lra|]. split; [lra|intros; lra].
        - specialize (Z1 k Hk). unfold kl_pix_dom in *. rewrite (Ww k Hk Hne). exact Z1. }
      assert (Esh : shift m w = shift m Z) by (apply vec_ext; intros k; unfold shift, w; replace (Nat.eqb (m + k) i) with false by (symmetry; apply Nat.eqb_neq; unfold m; lia); reflexivity).
      pose proof (T2 w) as T. assert (Dww : domd P rs D w) by (split; [exact Dw|fold m; rewrite Esh; exact Z2]). specialize (T Dww). rewrite !k_lag, Esh, !k_data in T by assumption.
      assert (Q : rsum m (fun k => mk k * (e X k * w k + b k * ln (1 - w k))) <= rsum m (fun k => mk k * (e X k * Z k + b k * ln (1 - Z k)))) by lra.
      assert (Dif : 0 < rsum m (fun k => mk k * (e X k * w k + b k * ln (1 - w k)) - mk k * (e X k * Z k + b k * ln (1 - Z k)))).
      { set (f := fun k => mk k * (e X k * w k + b k * ln (1 - w k)) - mk k * (e X k * Z k + b k * ln (1 - Z k))).
        assert (Fi : 0 < f i). { unfold f. rewrite Em, <- H, Wi. destruct Zi as [_ Zi]. specialize (Zi B). assert (ln (1 - Z i) < ln (1 - (Z i - 1))) by (apply ln_increasing; lra).
          assert (b i * ln (1 - Z i) < b i * ln (1 - (Z i - 1))) by (apply Rmult_lt_compat_l; assumption). lra. }
        assert (Fk : forall k, (k < m)%nat -> 0 <= f k). { intros k Hk. destruct (Nat.eq_dec k i) as [->|Hne]; [lra|]. unfold f. rewrite (Ww k Hk Hne). lra. }
        eapply Rlt_le_trans; [exact Fi|]. apply (rsum_term_le m f i Fk Hi). }
      rewrite rsum_minus in Dif. lra. }
    split; [exact DX|]. intros y Dy. destruct (k_att X DX) as (Y & DY & EY). pose proof (T2 Y DY) as A. pose proof (T1 y (proj1 Dy)) as B. pose proof (k_sup y Z Dy DZ) as C. lra.
  Qed.

  (** * Minimisers exist *)
  Let dlow := rsum m (fun i => mk i * (b i - b i * ln (b i))).
  Lemma k_pix_low x i : kl_domain P M x -> (i < m)%nat -> mk i * (b i - b i * ln (b i)) <= mk i * (e x i - b i * ln (e x i)).
  Proof.
    intros [Hx Hl] Hi. destruct (k_mask i) as [Em|Em]; [rewrite Em; lra|]. rewrite Em, !Rmult_1_l. apply kl_low; [apply counts_nonneg|apply k_exp_nonneg; assumption|]. intros B. apply Hl; assumption.
  Qed.
  (** one pixel of a volume whose objective is known *)
  Lemma k_pix_up x i B : kl_domain P M x -> (i < m)%nat -> kl_objective P M rs x <= B -> mk i * (e x i - b i * ln (e x i)) <= B - dlow + mk i * (b i - b i * ln (b i)).
  Proof.
    intros Hd Hi HB. unfold kl_objective in HB. fold n m mk b e in HB. fold (Rg x) in HB. pose proof (regs_nonneg n rs x k_ok) as R0. fold (Rg x) in R0.
    pose proof (rsum_term_le m (fun i => mk i * (e x i - b i * ln (e x i)) - mk i * (b i - b i * ln (b i))) i ltac:(intros k Hk; pose proof (k_pix_low x k Hd Hk); lra) Hi) as T.
    cbv beta in T. rewrite rsum_minus in T. fold dlow in T. lra.
  Qed.
  Lemma k_reg_up x B : kl_domain P M x -> kl_objective P M rs x <= B -> Rg x <= B - dlow.
  Proof.
    intros Hd HB. unfold kl_objective in HB. fold n m mk b e in HB. fold (Rg x) in HB.
    assert (dlow <= rsum m (fun i => mk i * (e x i - b i * ln (e x i)))) by (apply rsum_le; intros; apply k_pix_low; assumption). lra.
  Qed.
  (** a bounded objective keeps the logarithms away from their singularity *)
  Lemma k_away B i : (i < m)%nat -> mk i = 1 -> 0 < b i -> exists del, 0 < del /\ forall x, kl_domain P M x -> kl_objective P M rs x <= B -> del <= e x i.
  Proof.
    intros Hi Em Hb. set (Q := B - dlow + mk i * (b i - b i * ln (b i))). exists (exp (- Q / b i)). split; [apply exp_pos|]. intros x Hd HB. pose proof (k_pix_up x i B Hd Hi HB) as H. fold Q in H. rewrite Em, Rmult_1_l in H.
    destruct Hd as [Hx Hl]. pose proof (Hl i Hi Em Hb) as He. fold e in He. assert (G : - Q / b i <= ln (e x i)).
    { apply Rmult_le_reg_r with (b i); [exact Hb|]. replace (- Q / b i * b i) with (- Q) by (field; lra). lra. }
    rewrite <- (exp_ln (e x i) He). destruct G as [G|G]; [left; apply exp_increasing, G|right; rewrite G; reflexivity].
  Qed.
  Lemma k_cont_exp i v : cont n (fun u => e u i) v.
  Proof. unfold e, expected. apply cont_plus; [apply cont_mv|apply cont_const]. Qed.
  Lemma k_cont_data v : log_defined P M v -> cont n (fun u => rsum m (fun i => mk i * (e u i - b i * ln (e u i)))) v.
  Proof.
    intros Hl. apply (cont_rsum n m (fun i u => mk i * (e u i - b i * ln (e u i)))). intros i Hi. destruct (k_mask i) as [Em|Em]; [apply (cont_ext _ (fun _ => 0)); [intros; rewrite Em; ring|apply cont_const]|].
    apply cont_scal, cont_minus; [apply k_cont_exp|]. destruct (counts_nonneg P i) as [B|B]; fold b in B.
    - apply cont_scal, cont_ln; [apply k_cont_exp|]. apply Hl; assumption.
    - apply (cont_ext _ (fun _ => 0)); [intros; rewrite <- B; ring|apply cont_const].
  Qed.
  Lemma k_seen_mask x i : (i < m)%nat -> mv n (putm m (fun i j => mk i * M i j) (Kreg rs)) x i = mk i * mv n M x i.
  Proof. intros Hi. rewrite mv_put_lo by exact Hi. unfold mv. rewrite <- rsum_scal. apply rsum_ext. intros; ring. Qed.
  Lemma k_minimiser : exists X, minimises (kl_domain P M) (kl_objective P M rs) X.
  Proof.
    set (Ks := putm m (fun i j => mk i * M i j) (Kreg rs)).
    apply (minimiser_exists (mt P rs) n Ks (kl_objective P M rs) (log_defined P M) (p_lower P) (p_upper P) (p_xmask P) dlow).
    - intros x Hx Hl. assert (Hd : kl_domain P M x) by (split; assumption). pose proof (k_reg_up x _ Hd (Rle_refl _)) as H. pose proof (regs_nonneg n rs x k_ok) as R0. fold (Rg x) in R0. lra.
    - destruct HS as (_ & _ & _ & _ & _ & _ & _ & _ & _ & _ & _ & _ & _ & (x & Hx)). exists x. exact Hx.
    - intros x d t Hd Hl.
      assert (E : forall i, (i < m)%nat -> mk i = 1 -> e (fun j => x j + t * d j) i = e x i).
      { intros i Hi Em. pose proof (Hd i ltac:(unfold mt; fold m; lia)) as H. unfold Ks in H. rewrite k_seen_mask in H by exact Hi. rewrite Em, Rmult_1_l in H.
        unfold e, expected. fold n. f_equal. unfold mv in *. rewrite (rsum_ext n _ (fun j => M i j * x j + t * (M i j * d j))) by (intros; ring). rewrite rsum_plus, rsum_scal, H. ring. }
      split; [intros i Hi Em B; fold e; fold m in Hi; rewrite E by assumption; apply Hl; assumption|]. unfold kl_objective. fold n m mk b e. f_equal.
      + apply rsum_ext. intros i Hi. destruct (k_mask i) as [Em|Em]; [rewrite Em; ring|]. rewrite E by assumption. reflexivity.
      + apply regs_blind; [apply k_ok|]. intros i Hi. pose proof (Hd (m + i)%nat ltac:(unfold mt; fold m; lia)) as H. unfold Ks in H. rewrite mv_put_hi in H. exact H.
    - intros B.
      destruct (finite_const (mt P rs) (fun i c => forall x, kl_domain P M x -> kl_objective P M rs x <= B -> Rabs (mv n Ks x i) <= c)) as (C & C0 & HC).
      + intros i c c' H Hc x Hd Hx. eapply Rle_trans; [apply (H x Hd Hx)|exact Hc].
      + intros i Hi. destruct (Nat.lt_ge_cases i m) as [Him|Him].
        * set (Q := B - dlow + mk i * (b i - b i * ln (b i))). exists (2 * (Q - (b i - b i * ln (2 * b i))) + Rabs (bg i) + Rabs (2 * (Q - (b i - b i * ln (2 * b i))))). intros x Hd Hx. unfold Ks. rewrite k_seen_mask by exact Him.
          pose proof (k_pix_up x i B Hd Him Hx) as H. fold Q in H. set (U := 2 * (Q - (b i - b i * ln (2 * b i)))).
          destruct (k_mask i) as [Em|Em].
          { rewrite Em, Rmult_0_l, Rabs_R0. pose proof (Rabs_pos (bg i)). pose proof (Rle_abs (- U)) as A. rewrite Rabs_Ropp in A. lra. }
          rewrite Em, Rmult_1_l in *. destruct Hd as [Hf Hl].
          pose proof (k_exp_nonneg x i Hf Him) as E0. pose proof (kl_grow (b i) (e x i) (counts_nonneg P i) E0 ltac:(intros; apply Hl; assumption)) as G.
          assert (EU : e x i <= U) by (unfold U; lra). replace (mv n M x i) with (e x i + - bg i) by (unfold e, expected; fold n bg; ring).
          eapply Rle_trans; [apply Rabs_triang|]. rewrite Rabs_Ropp, (Rabs_right (e x i)) by lra. pose proof (Rabs_pos U). lra.
        * set (q := (i - m)%nat). destruct (regs_probe rs q k_ok ltac:(unfold q; unfold mt in Hi; fold m in Hi; lia)) as (rho & Hr & D1 & D2).
          exists (Rmax (B - dlow + fsreg rs (unitv q rho)) (B - dlow + fsreg rs (unitv q (- rho))) / rho). intros x Hd Hx. replace i with (m + q)%nat by (unfold q; lia). unfold Ks. rewrite mv_put_hi.
          pose proof (k_reg_up x B Hd Hx) as Hu. pose proof (regs_sup n rs x _ k_ok D1) as S1. pose proof (regs_sup n rs x _ k_ok D2) as S2. fold (Rg x) in S1, S2.
          rewrite unit_sum in S1, S2 by (unfold q; unfold mt in Hi; fold m in Hi; lia). set (u := mv n (Kreg rs) x q) in *.
          set (T1 := B - dlow + fsreg rs (unitv q rho)) in *. set (T2 := B - dlow + fsreg rs (unitv q (- rho))) in *.
          apply Rmult_le_reg_r with rho; [exact Hr|]. unfold Rdiv. rewrite Rmult_assoc, Rinv_l by lra. rewrite Rmult_1_r.
          pose proof (Rmax_l T1 T2). pose proof (Rmax_r T1 T2). assert (u * rho <= T1) by (unfold T1; lra). assert (u * - rho <= T2) by (unfold T2; lra).
          unfold Rabs. destruct (Rcase_abs u); lra.
      + exists C. split; [exact C0|]. intros x Hx Hl HB i Hi. apply (HC i Hi x); [split; assumption|exact HB].
    - intros U v c Hc HU.
      assert (Inv1 : forall k, / INR (S k) <= 1) by (intros k; rewrite <- Rinv_1; apply Rinv_le_contravar; [lra|]; rewrite S_INR; pose proof (pos_INR k); lra).
      assert (Lv : log_defined P M v).
      { intros i Hi Em B. fold e. fold b in B. fold mk in Em. fold m in Hi. destruct (k_away (c + 1) i Hi Em B) as (del & Hdel & Haw).
        cut (- e v i <= - del); [lra|]. apply (pcluster_le n U v (fun u => - e u i) (- del) Hc); [apply cont_opp, k_cont_exp|].
        intros eps He. exists 0%nat. intros k u _ Hu. destruct (HU k u Hu) as (A1 & A2 & A3). pose proof (Inv1 k). pose proof (Haw u (conj A1 A2) ltac:(lra)). lra. }
      split; [exact Lv|]. destruct (regs_att n rs v k_ok) as (W & DW & EW & _). unfold kl_objective. fold n m mk b e. rewrite <- EW.
      apply (pcluster_le n U v (fun u => rsum m (fun i => mk i * (e u i - b i * ln (e u i))) + (rsum (tot rs) (fun i => mv n (Kreg rs) u i * W i) - fsreg rs W)) c Hc).
      + apply cont_plus; [apply k_cont_data, Lv|]. apply cont_minus; [|apply cont_const]. apply (cont_rsum n (tot rs) (fun i u => mv n (Kreg rs) u i * W i)). intros i Hi. apply cont_mult; [apply cont_mv|apply cont_const].
      + intros eps He. destruct (arch_inv eps He) as [N HN]. exists N. intros k u Hk Hu. destruct (HU k u Hu) as (_ & _ & H2). pose proof (inv_S_mono N k Hk).
        pose proof (regs_sup n rs u W k_ok DW) as S. unfold kl_objective in H2. fold n m mk b e in H2. lra.
  Qed.

  (** * The conjugate is lower semicontinuous *)
  Lemma k_cont_conj v : (forall i, (i < m)%nat -> mk i = 1 -> 0 < b i -> v i < 1) -> cont m (ds_conj D) v.
  Proof.
    intros Hv. unfold D, kl_spec. cbn [ds_conj]. fold m mk b bg. apply (cont_rsum m m (fun i z => mk i * (- b i * ln (1 - z i) - bg i * z i))). intros i Hi.
    destruct (k_mask i) as [Em|Em]; [apply (cont_ext _ (fun _ => 0)); [intros; rewrite Em; ring|apply cont_const]|].
    apply cont_scal, cont_minus; [|apply cont_scal, cont_coord, Hi]. destruct (counts_nonneg P i) as [B|B]; fold b in B.
    - apply cont_scal, cont_ln; [apply cont_minus; [apply cont_const|apply cont_coord, Hi]|]. specialize (Hv i Hi Em B). lra.
    - apply (cont_ext _ (fun _ => 0)); [intros; rewrite <- B; ring|apply cont_const].
  Qed.
  Lemma k_lsc d k0 u v g er : (k0 + mt P rs <= d)%nat -> cluster d u v -> (forall k, domd P rs D (shift k0 (u k))) -> cont d g v ->
    (forall eps, 0 < eps -> exists N, forall k, (N <= k)%nat -> er k < eps) -> (forall k, Fd P rs D (shift k0 (u k)) <= g (u k) + er k) ->
    domd P rs D (shift k0 v) /\ Fd P rs D (shift k0 v) <= g v.
  Proof.
    intros Hd Hc Hu Hg He Hle. unfold mt in Hd. fold m in Hd. assert (Cc : forall i, (i < m)%nat -> cont d (fun w => shift k0 w i) v) by (intros i Hi; unfold shift; apply cont_coord; lia).
    assert (Cf : cont d (fun w => fsreg rs (shift m (shift k0 w))) v).
    { apply (cont_shift_by k0 d (m + tot rs) (fun w => fsreg rs (shift m w))); [lia|]. apply (cont_shift_by m (m + tot rs) (tot rs)); [lia|apply fsreg_cont]. }
    assert (Ale : forall i, (i < m)%nat -> mk i = 1 -> shift k0 v i <= 1).
    { intros i Hi Em. cut (shift k0 v i - 1 <= 0); [lra|]. apply (cluster_le0 d u v (fun w => shift k0 w i - 1) Hc); [apply cont_minus; [apply Cc, Hi|apply cont_const]|].
      intros k. destruct (Hu k) as [H _]. specialize (H i Hi). unfold kl_pix_dom in H. fold mk in H. rewrite Em in H. destruct (Req_EM_T 1 0); [lra|]. lra. }
    assert (Alt : forall i, (i < m)%nat -> mk i = 1 -> 0 < b i -> shift k0 v i < 1).
    { intros i Hi Em B. destruct (Ale i Hi Em) as [H|H]; [exact H|exfalso].
      set (G := fun w : vec => g w - fsreg rs (shift m (shift k0 w)) - rsum m (fun j => mk j * (b j * shift k0 w j - bg j * shift k0 w j)) + b i * shift k0 w i).
      assert (CG : cont d G v).
      { unfold G. apply cont_plus; [|apply cont_scal, Cc, Hi]. apply cont_minus; [apply cont_minus; [exact Hg|exact Cf]|].
        apply (cont_rsum d m (fun j w => mk j * (b j * shift k0 w j - bg j * shift k0 w j))). intros j Hj. apply cont_scal, cont_minus; apply cont_scal, Cc, Hj. }
      assert (Key : forall k, - b i * ln (1 - shift k0 (u k) i) <= G (u k) + er k).
      { intros k. specialize (Hle k). unfold Fd in Hle. fold m in Hle. unfold D, kl_spec in Hle. cbn [ds_conj] in Hle. fold m mk b bg in Hle. destruct (Hu k) as [Hz _]. set (z := shift k0 (u k)) in *.
        assert (Hlow : forall j, (j < m)%nat -> mk j * (b j * z j) <= mk j * (- b j * ln (1 - z j))).
        { intros j Hj. destruct (k_mask j) as [Ej|Ej]; [rewrite Ej; lra|]. rewrite Ej, !Rmult_1_l. specialize (Hz j Hj). unfold kl_pix_dom in Hz. fold mk b in Hz. rewrite Ej in Hz. destruct (Req_EM_T 1 0); [lra|]. destruct Hz as [_ Hz].
          destruct (counts_nonneg P j) as [Bj|Bj]; fold b in Bj; [|rewrite <- Bj; lra]. specialize (Hz Bj). pose proof (ln_le_sub1 (1 - z j) ltac:(lra)) as Q. apply (Rmult_le_compat_l (b j)) in Q; lra. }
        pose proof (rsum_term_le m (fun j => mk j * (- b j * ln (1 - z j)) - mk j * (b j * z j)) i ltac:(intros j Hj; specialize (Hlow j Hj); lra) Hi) as T. cbv beta in T. rewrite Em, !Rmult_1_l in T.
        unfold G. fold z. rewrite rsum_minus in T.
        rewrite (rsum_ext m (fun j => mk j * (- b j * ln (1 - z j) - bg j * z j)) (fun j => mk j * (- b j * ln (1 - z j)) - mk j * (bg j * z j))) in Hle by (intros; ring).
        rewrite (rsum_ext m (fun j => mk j * (b j * z j - bg j * z j)) (fun j => mk j * (b j * z j) - mk j * (bg j * z j))) by (intros; ring). rewrite rsum_minus in Hle |- *. lra. }
      destruct (CG 1 ltac:(lra)) as (e1 & He1 & HG). destruct (He 1 ltac:(lra)) as (N & HN). set (del := exp (- (G v + 2) / b i)). assert (Hdel : 0 < del) by apply exp_pos.
      destruct (Hc (Rmin e1 del) N) as (k & Hk & Hcl); [apply Rmin_glb_lt; assumption|].
      assert (A1 : Rabs (G (u k) - G v) < 1) by (apply HG; intros j Hj; eapply Rlt_le_trans; [apply Hcl, Hj|apply Rmin_l]).
      assert (A2 : Rabs (shift k0 (u k) i - shift k0 v i) < del) by (unfold shift; eapply Rlt_le_trans; [apply Hcl; lia|apply Rmin_r]).
      specialize (HN k Hk). specialize (Key k). pose proof (Rle_abs (G (u k) - G v)) as A3. rewrite H in A2. set (z := shift k0 (u k) i) in *.
      assert (Hz : z < 1). { destruct (Hu k) as [Hz _]. specialize (Hz i Hi). unfold kl_pix_dom in Hz. fold mk b in Hz. rewrite Em in Hz. destruct (Req_EM_T 1 0); [lra|]. apply Hz, B. }
      assert (A4 : 1 - z < del) by (rewrite Rabs_left in A2 by lra; lra).
      assert (A5 : - (G v + 2) / b i <= ln (1 - z)). { apply Rmult_le_reg_r with (b i); [exact B|]. replace (- (G v + 2) / b i * b i) with (- (G v + 2)) by (field; lra). lra. }
      assert (A6 : del <= 1 - z). { rewrite <- (exp_ln (1 - z)) by lra. unfold del. destruct A5 as [A5|A5]; [left; apply exp_increasing, A5|right; rewrite A5; reflexivity]. }
      lra. }
    split.
    - split.
      + intros i Hi. unfold kl_pix_dom. fold mk b. destruct (Req_EM_T (mk i) 0) as [E|E].
        * apply Rle_antisym.
          -- apply (cluster_le0 d u v (fun w => shift k0 w i) Hc); [apply Cc, Hi|]. intros k. destruct (Hu k) as [H _]. specialize (H i Hi). unfold kl_pix_dom in H. fold mk in H. rewrite E in H. destruct (Req_EM_T 0 0); [lra|contradiction].
          -- cut (- shift k0 v i <= 0); [lra|]. apply (cluster_le0 d u v (fun w => - shift k0 w i) Hc); [apply cont_opp, Cc, Hi|]. intros k. destruct (Hu k) as [H _]. specialize (H i Hi). unfold kl_pix_dom in H. fold mk in H. rewrite E in H. destruct (Req_EM_T 0 0); [lra|contradiction].
        * destruct (k_mask i) as [E'|E']; [contradiction|]. split; [apply Ale; assumption|]. intros B. apply Alt; assumption.
      + apply (domreg_closed rs (fun k => shift m (shift k0 (u k))) _ k_ok); [|intros k; apply (proj2 (Hu k))].
        apply (cluster_sub (m + tot rs) (tot rs) m (fun q => shift k0 (u q)) (shift k0 v)); [lia|]. apply (cluster_sub d (m + tot rs) k0); [lia|exact Hc].
    - cut (Fd P rs D (shift k0 v) + -1 * g v <= 0); [lra|]. apply (cluster_le d u v (fun w => Fd P rs D (shift k0 w) + -1 * g w) er Hc); [|exact He|intros k; specialize (Hle k); lra].
      apply cont_plus; [|apply cont_scal, Hg]. unfold Fd. apply cont_plus; [|exact Cf]. apply (cont_shift_by k0 d m (ds_conj D)); [lia|]. apply k_cont_conj. exact Alt.
  Qed.

  (** * Convergence *)
  Lemma k_sequence : exists X, minimises (kl_domain P M) (kl_objective P M rs) X /\
    forall eps, 0 < eps -> exists N, forall it, (N <= it)%nat -> forall j, (j < n)%nat -> Rabs (fst (pdhg_call P l it) j - X j) < eps.
  Proof.
    pose proof HS as (Hop & Hregs & Hok & Hrs & Hk & Hlim & Hbx & Hbm & Hst & Htol & HM & Hbg & Hlo & Hne).
    pose proof (strict_ok P M rs l Hok Hst) as Hsteps.
    destruct k_minimiser as (X0 & HX0). destruct (k_saddle X0 HX0) as (Z0 & DZ & S1 & S2). destruct (run_pd P M rs l Hok Hst) as (c0 & C0 & Hpd). pose proof k_base as HB.
    destruct (sequence_converges n (mt P rs) (Kst P M rs) (pdhg_tau P l) (sgst P rs l) (SXp P) (SZp P) (obeys_limits P) (domd P rs D) (Fd P rs D) (xs P l) (zs P rs l) c0) with (X0 := X0) (Z0 := Z0)
      as (X & Z & FX1 & DZ1 & T1 & T2 & Conv).
    - intros a x a' y Hx Hy j Hj E. unfold lc. rewrite (Hx j Hj E), (Hy j Hj E). ring.
    - intros a x a' y Hx Hy j Hj E. unfold lc. rewrite (Hx j Hj E), (Hy j Hj E). ring.
    - apply (run_psd P M rs l Hok Hsteps).
    - exact C0.
    - exact Hpd.
    - apply feas_S.
    - apply (b_domS P rs l D HB).
    - intros k. apply (run_feas P M rs l Hop Hregs Hlim).
    - intros k. apply (b_dom P M rs l D Hop Hregs Hok HB).
    - intros k X1. apply (run_primal P M rs l Hop Hregs Hlim Hbx Hsteps).
    - intros k Y. apply (b_dual P M rs l D Hop Hregs Hok HB).
    - apply feasible_closed.
    - intros u v g er Hc Hu Hg He Hle. apply (k_lsc (n + mt P rs) n u v g er); try assumption. lia.
    - apply HX0.
    - exact DZ.
    - exact S1.
    - exact S2.
    - exists X. split; [apply (k_saddle_min X Z FX1 DZ1 T1 T2)|].
      intros eps He. destruct (Conv eps He) as [N HN]. exists (S N). intros it Hit j Hj. rewrite (pdhg_no_tol P l it Htol). destruct it as [|k]; [lia|]. apply (HN k ltac:(lia)), Hj.
  Qed.
  Lemma k_values X (xn : nat -> vec) : kl_domain P M X -> (forall eps, 0 < eps -> exists N, forall it, (N <= it)%nat -> forall j, (j < n)%nat -> Rabs (xn it j - X j) < eps) ->
    forall eps, 0 < eps -> exists N, forall it, (N <= it)%nat -> log_defined P M (xn it) /\ Rabs (kl_objective P M rs (xn it) - kl_objective P M rs X) < eps.
  Proof.
    intros [FX LX] Conv eps He.
    assert (C : cont n (kl_objective P M rs) X) by (apply cont_plus; [apply k_cont_data, LX|apply cont_regs]).
    assert (Pos : exists del, 0 < del /\ forall y, (forall j, (j < n)%nat -> Rabs (y j - X j) < del) -> log_defined P M y).
    { assert (G : forall k, (k <= m)%nat -> exists del, 0 < del /\ forall y, (forall j, (j < n)%nat -> Rabs (y j - X j) < del) -> forall i, (i < k)%nat -> mk i = 1 -> 0 < b i -> 0 < e y i).
      { induction k as [|k IH]; intros Hk; [exists 1; split; [lra|intros; lia]|]. destruct (IH ltac:(lia)) as (d1 & P1 & H1).
        assert (H2 : exists d2, 0 < d2 /\ forall y, (forall j, (j < n)%nat -> Rabs (y j - X j) < d2) -> mk k = 1 -> 0 < b k -> 0 < e y k).
        { destruct (Rle_lt_dec (e X k) 0) as [Z|Z].
          - exists 1. split; [lra|]. intros y _ Em B. exfalso. pose proof (LX k ltac:(unfold m in Hk; lia) Em B) as Q. fold e in Q. lra.
          - destruct (k_cont_exp k X (e X k) Z) as (d2 & P2 & H2). exists d2. split; [exact P2|]. intros y Hy _ _. specialize (H2 y Hy). cbv beta in H2. unfold Rabs in H2. destruct (Rcase_abs _) in H2; lra. }
        destruct H2 as (d2 & P2 & H2). exists (Rmin d1 d2). split; [apply Rmin_glb_lt; assumption|]. intros y Hy i Hi. destruct (Nat.eq_dec i k) as [->|Hne].
        - apply H2. intros j Hj. eapply Rlt_le_trans; [apply Hy, Hj|apply Rmin_r].
        - apply H1; [|lia]. intros j Hj. eapply Rlt_le_trans; [apply Hy, Hj|apply Rmin_l]. }
      destruct (G m ltac:(lia)) as (del & Hdel & H). exists del. split; [exact Hdel|]. intros y Hy i Hi Em B. apply (H y Hy i Hi Em B). }
    destruct Pos as (d1 & P1 & H1). destruct (C eps He) as (d2 & P2 & H2). destruct (Conv (Rmin d1 d2)) as [N HN]; [apply Rmin_glb_lt; assumption|]. exists N. intros it Hit. specialize (HN it Hit). split.
    - apply H1. intros j Hj. eapply Rlt_le_trans; [apply HN, Hj|apply Rmin_l].
    - apply H2. intros j Hj. eapply Rlt_le_trans; [apply HN, Hj|apply Rmin_r].
  Qed.
End KL.

(** * Theorems *)
Theorem C167_minimiser_exists : forall P M rs l, kl_setting P M rs l -> exists X, minimises (kl_domain P M) (kl_objective P M rs) X.
Proof. intros. eapply k_minimiser. eassumption. Qed.
(** the volumes converge to one minimiser *)
Theorem C167_volumes_converge : forall P M rs l, kl_setting P M rs l ->
  exists X, minimises (kl_domain P M) (kl_objective P M rs) X /\
    forall eps, 0 < eps -> exists N, forall it, (N <= it)%nat -> forall j, (j < p_n P)%nat -> Rabs (fst (pdhg_call P l it) j - X j) < eps.
Proof. intros. apply k_sequence. assumption. Qed.
(** from some iteration on the logarithms are defined, and the objective tends to its minimum *)
Theorem C167_values_converge : forall P M rs l, kl_setting P M rs l ->
  exists X, minimises (kl_domain P M) (kl_objective P M rs) X /\
    forall eps, 0 < eps -> exists N, forall it, (N <= it)%nat -> kl_domain P M (fst (pdhg_call P l it)) /\
      kl_objective P M rs X <= kl_objective P M rs (fst (pdhg_call P l it)) < kl_objective P M rs X + eps.
Proof.
  intros P M rs l HS. destruct (k_sequence P M rs l HS) as (X & HX & Conv). exists X. split; [exact HX|]. intros eps He.
  destruct (k_values P M rs l HS X (fun it => fst (pdhg_call P l it)) (proj1 HX) Conv eps He) as [N HN]. exists (S N). intros it Hit. destruct (HN it ltac:(lia)) as [H1 H2].
  pose proof HS as (Hop & Hregs & Hok & Hrs & Hk & Hlim & Hbx & Hbm & Hst & Htol & _).
  assert (D : kl_domain P M (fst (pdhg_call P l it))).
  { split; [|exact H1]. rewrite (pdhg_no_tol P l it Htol). destruct it as [|k]; [lia|]. apply (run_feas P M rs l Hop Hregs Hlim k). }
  split; [exact D|]. split; [apply (proj2 HX), D|]. pose proof (Rle_abs (kl_objective P M rs (fst (pdhg_call P l it)) - kl_objective P M rs X)). lra.
Qed.
(** the default step sizes are admissible *)
Theorem C167_default_steps : forall P M rs, p_op P = mat_op (p_m P) (p_n P) M -> p_regs P = map (model_reg (p_n P)) rs ->
  Forall rs_ok rs -> Forall (rs_steps_ok (p_n P)) rs -> dt_kind (p_dterm P) = K_KL -> limits_ok P ->
  binary_mask (p_xmask P) -> binary_mask (train_mask P) -> safe_sigma P -> safe_tau P -> p_tol P = None -> p_relax P = 95 / 100 ->
  (forall i j, (i < p_m P)%nat -> (j < p_n P)%nat -> 0 <= M i j) -> (forall i, (i < p_m P)%nat -> 0 <= back_at (dt_background (p_dterm P)) i) ->
  (exists lo, p_lower P = Some lo /\ forall j, (j < p_n P)%nat -> 0 <= lo j) -> (exists x, kl_domain P M x) -> kl_setting P M rs None.
Proof.
  intros P M rs H1 H2 H3 H4 H5 H6 H7 H8 H9 H10 H11 H12 H13 H14 H15 H16. repeat (split; [assumption|]). split; [|tauto]. apply strict_diag; try assumption. lra.
Qed.
(** Non-vacuity: two voxels, two pixels, one pixel without any counts (its term is linear), non-negativity, default relaxation;
    the objective then is x0 + x1 + 2 x1 - 3 ln (x0 + x1) over x >= 0, with minimiser (3, 0). *)
Definition kl_demo : problem :=
  mkProblem 2 2 (mat_op 2 2 (fun i j => if Nat.eqb i 0 then 1 else if Nat.eqb j 0 then 0 else 2)) (fun i => if Nat.eqb i 0 then 3 else -1) None (Some vzeros) None None None None
    None (95 / 100) [] (new_dterm K_KL None) (new_dterm K_KL None).
Example C167_example : kl_setting kl_demo (fun i j => if Nat.eqb i 0 then 1 else if Nat.eqb j 0 then 0 else 2) [] None.
Proof.
  apply C167_default_steps; [reflexivity|reflexivity|constructor|constructor|reflexivity| |intros i; right; reflexivity|intros i; right; reflexivity| | |reflexivity|reflexivity| | | |].
  - intros lo up j E; discriminate.
  - apply scaling_safe_small; change (p_m kl_demo) with 2%nat; cbn [rmax]; unfold raw_sigma, ones_masked, mul_mask; cbn; unfold mv, mat_abs, vones; cbn [rsum Nat.eqb]; unfold Rabs, Rmax;
    repeat (match goal with |- context [Rcase_abs ?a] => destruct (Rcase_abs a) | |- context [Rle_dec ?a ?b] => destruct (Rle_dec a b) end); lra.
  - apply scaling_safe_small; change (p_n kl_demo) with 2%nat; cbn [rmax]; unfold raw_tau, ones_masked, mul_mask; cbn; unfold mtv, mat_abs, vones; cbn [rsum Nat.eqb]; unfold Rabs, Rmax;
    repeat (match goal with |- context [Rcase_abs ?a] => destruct (Rcase_abs a) | |- context [Rle_dec ?a ?b] => destruct (Rle_dec a b) end); lra.
  - intros i j _ _. destruct (Nat.eqb i 0); [lra|]. destruct (Nat.eqb j 0); lra.
  - intros i _. cbn. lra.
  - exists vzeros. split; [reflexivity|]. intros; unfold vzeros; lra.
  - exists vones. split.
    + intros j Hj. split; [exact I|]. intros _. split; [cbn; unfold vones, vzeros; lra|exact I].
    + intros i Hi _ _. unfold expected, mv. cbn [p_n kl_demo rsum Nat.eqb]. unfold vones, back_at. cbn. destruct (Nat.eqb i 0); lra.
Qed.
