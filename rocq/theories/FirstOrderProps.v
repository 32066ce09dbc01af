(** Theorems C158 (SIRT converges) and C159 (FISTA's accelerated rate). *)
From Verif Require Import Sums DataTermsModel DataTermsProofs SolversModel SolversSpec SolversGeneric SolversProps RegularizersModel SolversConv SolversConvProps SolversOptProps Compact PdhgConv PdhgExistProps
  ProxGrad LsExist.

(** the energy bound behind the diagonal scalings, for any step sizes relax / guarded column sums *)
Lemma diag_energy P M : p_op P = mat_op (p_m P) (p_n P) M -> binary_mask (p_xmask P) -> binary_mask (train_mask P) ->
  safe_sigma P -> scaling_safe (p_n P) (raw_tau (p_op P) [] (train_mask P)) -> 0 < p_relax P ->
  (forall j, (j < p_n P)%nat -> 0 < fi_tau P None j) /\
  forall d, supp (p_n P) (p_xmask P) d ->
    rsum (p_m P) (fun i => sirt_weight P i * mv (p_n P) M d i ^ 2) <= p_relax P * rsum (p_n P) (fun j => d j ^ 2 / fi_tau P None j).
Proof.
  intros Hop Hbx Hbm Hs Ht Hrel.
  set (C := fun j => guard_small (p_n P) (raw_tau (p_op P) [] (train_mask P)) j).
  assert (HC : forall j, (j < p_n P)%nat -> 0 < C j /\ raw_tau (p_op P) [] (train_mask P) j <= C j) by (intros j Hj; apply (guard_safe _ _ j Ht Hj)).
  assert (Et : forall j, (j < p_n P)%nat -> fi_tau P None j = p_relax P / C j) by reflexivity.
  split.
  { intros j Hj. rewrite (Et j Hj). apply Rdiv_lt_0_compat; [exact Hrel|apply HC, Hj]. }
  intros d Hd. eapply Rle_trans; [apply (energy_bound _ _ M (sirt_weight P) (fun i => mask_at (train_mask P) i) (fun j => mask_at (p_xmask P) j) d)|].
  - intros i Hi. unfold sirt_weight. apply Rmult_le_pos; [left; apply (sirt_sigma_pos P i Hs Hi)|apply binary_nonneg, Hbm].
  - intros j Hj. apply binary_nonneg, Hbx.
  - intros j Hj. destruct (Hbx j) as [Hm|Hm]; rewrite Hm; [rewrite (Hd j Hj Hm)|]; ring.
  - intros i Hi. destruct (sirt_sigma_pos P i Hs Hi) as [H1 H2]. rewrite (sirt_raw_sigma P M i Hop) in H2.
    rewrite Rabs_right in H2 by (apply Rle_ge, rsum_nonneg; intros; apply Rmult_le_pos; [apply Rabs_pos|apply binary_nonneg, Hbx]).
    unfold sirt_weight. pose proof (binary_nonneg (train_mask P) i Hbm). set (q := rsum _ _) in *. nra.
  - rewrite <- rsum_scal. apply rsum_le. intros j Hj. destruct (HC j Hj) as [HC1 HC2]. rewrite (Et j Hj).
    replace (p_relax P * (d j ^ 2 / (p_relax P / C j))) with (C j * d j ^ 2) by (field; lra).
    apply Rmult_le_compat_r; [apply pow2_ge_0|]. rewrite (sirt_raw_tau P M j _ Hop) in HC2.
    assert (Hq : 0 <= rsum (p_m P) (fun i => Rabs (M i j) * mask_at (train_mask P) i))
      by (apply rsum_nonneg; intros; apply Rmult_le_pos; [apply Rabs_pos|apply binary_nonneg, Hbm]).
    rewrite Rabs_right in HC2 by (apply Rle_ge; exact Hq). destruct (Hbx j) as [-> | ->]; lra.
Qed.

(** * C158: SIRT *)
Definition sirt_setting (P : problem) (M : mat) : Prop :=
  p_op P = mat_op (p_m P) (p_n P) M /\ p_regs P = [] /\ dt_kind (p_dterm P) = K_l2 /\ limits_ok P /\
  binary_mask (p_xmask P) /\ binary_mask (train_mask P) /\ safe_sigma P /\ safe_tau P /\ 0 < p_relax P < 2.

Section SirtConv.
  Variables (P : problem) (M : mat).
  Hypothesis HP : sirt_setting P M.
  Let n := p_n P. Let m := p_m P. Let w := sirt_weight P. Let b := target P. Let tau := sirt_tau P.
  Let pgs := pg m n M w b tau 0 (p_lower P) (p_upper P) (p_xmask P).
  Let ob := obj m n M w b 0.
  Let ds := dist2 n tau.

  Lemma sw i : (i < m)%nat -> 0 <= w i.
  Proof. destruct HP as (_ & _ & _ & _ & _ & Hbm & Hs & _). intros Hi. apply Rmult_le_pos; [left; apply (sirt_sigma_pos P i Hs Hi)|apply binary_nonneg, Hbm]. Qed.
  Lemma st_tau : (forall j, (j < n)%nat -> 0 < tau j) /\
    forall d, supp n (p_xmask P) d -> rsum m (fun i => w i * mv n M d i ^ 2) <= p_relax P * rsum n (fun j => d j ^ 2 / tau j).
  Proof.
    destruct HP as (Hop & Hr & _ & _ & Hbx & Hbm & Hs & Ht & Hrel). unfold safe_tau in Ht. rewrite Hr in Ht.
    assert (E : sirt_tau P = fi_tau P None) by (unfold sirt_tau, fi_tau; rewrite Hr; reflexivity). unfold tau. rewrite E.
    apply (diag_energy P M Hop Hbx Hbm Hs Ht); lra.
  Qed.
  Lemma sirt_is_pg x : sirt_step P x = pgs x.
  Proof.
    destruct HP as (Hop & Hr & Hk & _). rewrite (sirt_step_l2 P M x Hop Hr Hk). unfold pgs, pg. f_equal. apply vec_ext. intros j.
    rewrite Rmult_0_r, soft0. unfold gr, tau, w, b, m, n. ring.
  Qed.
  Lemma ob_wres x : ob x = / 2 * wres m n M w b x.
  Proof. unfold ob, obj. ring. Qed.
  Lemma min_ob z : minimises (obeys_limits P) (wres m n M w b) z <-> minimises (feas n (p_lower P) (p_upper P) (p_xmask P)) ob z.
  Proof. split; intros [H1 H2]; (split; [exact H1|]); intros y Hy; specialize (H2 y Hy); rewrite !ob_wres in *; lra. Qed.

  Lemma it_S k : sirt_iterate P (S k) = pgs (sirt_iterate P k).
  Proof. rewrite <- sirt_is_pg. reflexivity. Qed.

  (** the tail of the run, from iteration s on *)
  Lemma tail_sum s z k : obeys_limits P (sirt_iterate P s) -> obeys_limits P z ->
    INR k * (ob (sirt_iterate P (s + k)) - ob z) <= / 2 * ds (sirt_iterate P s) z + cst (p_relax P) * (ob (sirt_iterate P s) - ob (sirt_iterate P (s + k))).
  Proof.
    intros Hs Hz. destruct HP as (_ & _ & _ & Hl & Hbx & _ & _ & _ & Hrel). destruct st_tau as [T1 T2].
    pose proof (plain_sum m n M w b tau 0 (p_lower P) (p_upper P) (p_xmask P) (p_relax P) sw T1 (Rle_refl 0) Hl Hbx T2 (fun k => sirt_iterate P (s + k))) as H.
    cbv beta in H. rewrite Nat.add_0_r in H. specialize (H Hs).
    assert (HX : forall k, sirt_iterate P (s + S k) = pgs (sirt_iterate P (s + k))) by (intros q; rewrite Nat.add_succ_r; apply it_S).
    specialize (H HX ltac:(lra) z k Hz). fold ob in H. fold ds in H.
    pose proof (dist2_nonneg n tau T1 (sirt_iterate P (s + k)) z) as D. fold ds in D. lra.
  Qed.
  Lemma ob_nonneg x : 0 <= ob x.
  Proof. rewrite ob_wres. pose proof (ls_nonneg m n M w b sw x). lra. Qed.
End SirtConv.

(** [d2]: squared distance weighted by the inverse step sizes *)
Definition step_dist2 (n : nat) (tau x y : vec) : R := rsum n (fun j => (x j - y j) ^ 2 / tau j).

(** explicit rate for a feasible start and relaxation at most 1 *)
Theorem C158_sirt_explicit_rate : forall P M z it, sirt_setting P M -> p_relax P <= 1 -> obeys_limits P (pick_x0 (p_x0 P) vzeros) -> obeys_limits P z -> (1 <= it)%nat ->
  wres (p_m P) (p_n P) M (sirt_weight P) (target P) (sirt_volume P it)
  <= wres (p_m P) (p_n P) M (sirt_weight P) (target P) z + step_dist2 (p_n P) (sirt_tau P) (pick_x0 (p_x0 P) vzeros) z / INR it.
Proof.
  intros P M z it HP Hr H0 Hz Hit. unfold sirt_volume. rewrite sirt_no_tol.
  pose proof (tail_sum P M HP 0 z it H0 Hz) as H. rewrite Nat.add_0_l in H. rewrite !(ob_wres P M) in H.
  assert (Ec : cst (p_relax P) = 0) by (unfold cst; rewrite Rmax_left by lra; unfold Rdiv; ring). rewrite Ec, Rmult_0_l, Rplus_0_r in H.
  change (sirt_iterate P 0) with (pick_x0 (p_x0 P) vzeros) in H. fold (step_dist2 (p_n P) (sirt_tau P) (pick_x0 (p_x0 P) vzeros) z) in H.
  change (dist2 (p_n P) (sirt_tau P) (pick_x0 (p_x0 P) vzeros) z) with (step_dist2 (p_n P) (sirt_tau P) (pick_x0 (p_x0 P) vzeros) z) in H.
  assert (Hi : 0 < INR it) by (apply lt_0_INR; lia). set (D := step_dist2 _ _ _ _) in *. set (a := wres _ _ _ _ _ (sirt_iterate P it)) in *. set (c := wres _ _ _ _ _ z) in *.
  apply Rmult_le_reg_l with (INR it); [exact Hi|]. replace (INR it * (c + D / INR it)) with (INR it * c + D) by (field; lra). lra.
Qed.

(** any start, any relaxation below 2, compared with any admissible volume *)
Theorem C158_sirt_rate : forall P M z, sirt_setting P M -> obeys_limits P z -> exists C, 0 <= C /\ forall it, (2 <= it)%nat ->
  wres (p_m P) (p_n P) M (sirt_weight P) (target P) (sirt_volume P it) <= wres (p_m P) (p_n P) M (sirt_weight P) (target P) z + C / INR it.
Proof.
  intros P M z HP Hz. pose proof HP as (_ & _ & _ & Hl & _ & _ & _ & _ & Hrel).
  assert (H1 : obeys_limits P (sirt_iterate P 1)) by (apply sirt_iterate_feasible; [exact Hl|lia]).
  set (D := dist2 (p_n P) (sirt_tau P) (sirt_iterate P 1) z). assert (HD : 0 <= D) by (apply dist2_nonneg, (proj1 (st_tau P M HP))).
  set (o := fun x => wres (p_m P) (p_n P) M (sirt_weight P) (target P) x). assert (Ho : forall x, 0 <= o x) by (intros x; apply ls_nonneg; apply (sw P M HP)).
  pose proof (cst_nonneg (p_relax P) ltac:(lra)) as Hc. set (c := cst (p_relax P)) in *.
  set (B := D + c * o (sirt_iterate P 1)). assert (HB : 0 <= B) by (unfold B; pose proof (Ho (sirt_iterate P 1)); nra).
  exists (2 * B). split; [lra|]. intros it Hit. unfold sirt_volume. rewrite sirt_no_tol. fold (o (sirt_iterate P it)). fold (o z).
  pose proof (tail_sum P M HP 1 z (it - 1) H1 Hz) as H. replace (1 + (it - 1))%nat with it in H by lia. rewrite !(ob_wres P M) in H.
  fold (o (sirt_iterate P it)) in H. fold (o z) in H. fold (o (sirt_iterate P 1)) in H. fold D in H. fold c in H.
  rewrite minus_INR in H by lia. simpl (INR 1) in H. assert (Hi : 2 <= INR it) by (replace 2 with (INR 2) by (simpl; ring); apply le_INR, Hit).
  pose proof (Ho (sirt_iterate P it)) as Hp.
  assert (H' : (INR it - 1) * (o (sirt_iterate P it) - o z) <= B) by (unfold B; nra).
  assert (G : o (sirt_iterate P it) - o z <= 2 * B / INR it); [|lra].
  destruct (Rle_lt_dec (o (sirt_iterate P it) - o z) 0) as [L|L].
  { eapply Rle_trans; [exact L|]. apply Rdiv_le_0_compat; lra. }
  apply Rmult_le_reg_r with (INR it); [lra|]. unfold Rdiv. rewrite Rmult_assoc, Rinv_l by lra. nra.
Qed.

(** a solution exists, whatever the limits *)
Theorem C158_solution_exists : forall P M, sirt_setting P M ->
  exists z, minimises (obeys_limits P) (wres (p_m P) (p_n P) M (sirt_weight P) (target P)) z.
Proof. intros P M HP. pose proof HP as (_ & _ & _ & Hl & _). apply (ls_minimiser_exists (p_m P) (p_n P) M (sirt_weight P) (target P) (p_lower P) (p_upper P) (p_xmask P) (sw P M HP) Hl). Qed.

(** and the volumes converge to one *)
Theorem C158_sirt_converges : forall P M, sirt_setting P M ->
  exists z, minimises (obeys_limits P) (wres (p_m P) (p_n P) M (sirt_weight P) (target P)) z /\
    forall eps, 0 < eps -> exists N, forall it, (N <= it)%nat -> forall j, (j < p_n P)%nat -> Rabs (sirt_volume P it j - z j) < eps.
Proof.
  intros P M HP. pose proof HP as (_ & _ & _ & Hl & Hbx & _ & _ & _ & Hrel). destruct (st_tau P M HP) as [T1 T2].
  set (o := wres (p_m P) (p_n P) M (sirt_weight P) (target P)). set (x := fun k => sirt_iterate P (S k)). set (ds := dist2 (p_n P) (sirt_tau P)).
  assert (Fx : forall k, obeys_limits P (x k)) by (intros k; apply sirt_iterate_feasible; [exact Hl|lia]).
  assert (Fej : forall z k, minimises (obeys_limits P) o z -> ds (x (S k)) z <= ds (x k) z).
  { intros z k Hz. apply (min_ob P M) in Hz.
    pose proof (fejer (p_m P) (p_n P) M (sirt_weight P) (target P) (sirt_tau P) 0 (p_lower P) (p_upper P) (p_xmask P) (p_relax P) (sw P M HP) T1 (Rle_refl 0) Hl Hbx T2 x (Fx 0%nat)
      (fun k => it_S P M HP (S k)) z k Hz eq_refl) as F. fold ds in F. pose proof (dist2_nonneg (p_n P) (sirt_tau P) T1 (x (S k)) (x k)) as D. fold ds in D. nra. }
  assert (Fejm : forall z k q, minimises (obeys_limits P) o z -> (k <= q)%nat -> ds (x q) z <= ds (x k) z).
  { intros z k q Hz Hk. induction Hk as [|q Hk IH]; [lra|]. eapply Rle_trans; [apply Fej, Hz|exact IH]. }
  destruct (C158_solution_exists P M HP) as [z0 Hz0].
  (* coordinates are controlled by ds *)
  assert (Cd : forall u z j, (j < p_n P)%nat -> (u j - z j) ^ 2 <= sirt_tau P j * ds u z).
  { intros u z j Hj. pose proof (rsum_term_le (p_n P) (fun j => (u j - z j) ^ 2 / sirt_tau P j) j (fun q Hq => Rdiv_le_0_compat _ _ (pow2_ge_0 _) (T1 q Hq)) Hj) as T.
    cbv beta in T. fold (dist2 (p_n P) (sirt_tau P) u z) in T. fold (ds u z) in T. pose proof (T1 j Hj) as Tp.
    apply Rmult_le_compat_l with (r := sirt_tau P j) in T; [|lra]. replace (sirt_tau P j * ((u j - z j) ^ 2 / sirt_tau P j)) with ((u j - z j) ^ 2) in T by (field; lra). exact T. }
  set (Rb := rsum (p_n P) (fun j => Rabs (z0 j) + 1 + sirt_tau P j * ds (x 0%nat) z0)).
  assert (Dz : 0 <= ds (x 0%nat) z0) by (apply dist2_nonneg, T1).
  destruct (bolzano_vec (p_n P) x Rb) as [v Hv].
  { intros k j Hj. pose proof (Cd (x k) z0 j Hj) as H. pose proof (Fejm z0 0%nat k Hz0 ltac:(lia)) as H2. pose proof (T1 j Hj) as Tp.
    assert (H3 : (x k j - z0 j) ^ 2 <= sirt_tau P j * ds (x 0%nat) z0) by (eapply Rle_trans; [exact H|]; apply Rmult_le_compat_l; lra).
    pose proof (rsum_term_le (p_n P) (fun j => Rabs (z0 j) + 1 + sirt_tau P j * ds (x 0%nat) z0) j) as T. cbv beta in T. fold Rb in T.
    apply Rle_trans with (Rabs (z0 j) + 1 + sirt_tau P j * ds (x 0%nat) z0).
    - replace (x k j) with (z0 j + (x k j - z0 j)) by ring. eapply Rle_trans; [apply Rabs_triang|]. pose proof (abs_sq_bound (x k j - z0 j)). lra.
    - apply T; [|exact Hj]. intros q Hq. pose proof (Rabs_pos (z0 q)). pose proof (T1 q Hq). nra. }
  assert (Fv : obeys_limits P v) by (apply (feasible_closed _ _ _ _ x v Hv Fx)).
  assert (Mv : minimises (obeys_limits P) o v).
  { split; [exact Fv|]. intros y Hy. destruct (C158_sirt_rate P M y HP Hy) as (C & HC & Hrate).
    cut (o v + - o y <= 0); [lra|].
    apply (cluster_le (p_n P) (fun k => x (S k)) v (fun e => o e + - o y) (fun k => C / INR (S (S k)))).
    - intros eps N He. destruct (Hv eps (S N) He) as (k & Hk & Hi). destruct k as [|k]; [lia|]. exists k. split; [lia|exact Hi].
    - apply cont_plus; [|apply cont_const]. apply (cont_ls (p_m P) (p_n P) M (sirt_weight P) (target P)).
    - intros eps He. destruct (INR_above (C / eps)) as [N HN]. exists N. intros k Hk. assert (HI : 0 < INR (S (S k))) by (apply lt_0_INR; lia).
      apply Rmult_lt_reg_r with (INR (S (S k))); [exact HI|]. unfold Rdiv. rewrite Rmult_assoc, Rinv_l by lra.
      assert (INR N <= INR (S (S k))) by (apply le_INR; lia). assert (C / eps < INR (S (S k))) by lra.
      apply Rmult_lt_compat_r with (r := eps) in H0; [|exact He]. unfold Rdiv in H0. rewrite Rmult_assoc, Rinv_l in H0 by lra. lra.
    - intros k. specialize (Hrate (S (S k)) ltac:(lia)). unfold sirt_volume in Hrate. rewrite sirt_no_tol in Hrate. fold o in Hrate. fold (x (S k)) in Hrate. lra. }
  exists v. split; [exact Mv|]. intros eps He.
  (* the distance to v goes to 0 *)
  set (tm := 1 + rsum (p_n P) (sirt_tau P)). set (ti := 1 + rsum (p_n P) (fun j => / sirt_tau P j)).
  assert (Htm : forall j, (j < p_n P)%nat -> sirt_tau P j <= tm).
  { intros j Hj. pose proof (rsum_term_le (p_n P) (sirt_tau P) j (fun q Hq => Rlt_le _ _ (T1 q Hq)) Hj). unfold tm. lra. }
  assert (Htm0 : 1 <= tm) by (unfold tm; pose proof (rsum_nonneg (p_n P) (sirt_tau P) (fun q Hq => Rlt_le _ _ (T1 q Hq))); lra).
  assert (Hti : 1 <= ti) by (unfold ti; pose proof (rsum_nonneg (p_n P) (fun j => / sirt_tau P j) (fun q Hq => Rlt_le _ _ (Rinv_0_lt_compat _ (T1 q Hq)))); lra).
  set (e2 := eps ^ 2 / (tm * ti)). assert (He2 : 0 < e2) by (apply Rdiv_lt_0_compat; [apply pow_lt, He|nra]).
  destruct (Hv (sqrt e2) 0%nat (sqrt_lt_R0 _ He2)) as (k0 & _ & Hk0).
  assert (Dk : ds (x k0) v * tm < eps ^ 2).
  { assert (Hd : ds (x k0) v <= e2 * (ti - 1)).
    { unfold ds, dist2, ti. replace (1 + rsum (p_n P) (fun j => / sirt_tau P j) - 1) with (rsum (p_n P) (fun j => / sirt_tau P j)) by ring. rewrite <- rsum_scal.
      apply rsum_le. intros j Hj. apply Rmult_le_compat_r; [left; apply Rinv_0_lt_compat, T1, Hj|]. specialize (Hk0 j Hj). rewrite <- pow2_abs.
      assert (S2 : sqrt e2 * sqrt e2 = e2) by (apply sqrt_sqrt; lra). pose proof (Rabs_pos (x k0 j - v j)). rewrite <- S2. simpl. rewrite Rmult_1_r. apply Rmult_le_compat; lra. }
    assert (E : e2 * (tm * ti) = eps ^ 2) by (unfold e2; field; split; lra).
    apply Rle_lt_trans with (e2 * (ti - 1) * tm); [apply Rmult_le_compat_r; lra|]. replace (e2 * (ti - 1) * tm) with (e2 * (tm * ti) - e2 * tm) by ring. rewrite E. assert (0 < e2 * tm) by (apply Rmult_lt_0_compat; lra). lra. }
  exists (S k0). intros it Hit j Hj. destruct it as [|it]; [lia|]. unfold sirt_volume. rewrite sirt_no_tol. fold (x it).
  pose proof (Cd (x it) v j Hj) as H. pose proof (Fejm v k0 it Mv ltac:(lia)) as H2. pose proof (T1 j Hj). specialize (Htm j Hj).
  assert (D0 : 0 <= ds (x it) v) by (apply dist2_nonneg, T1).
  assert (H3 : (x it j - v j) ^ 2 < eps ^ 2).
  { eapply Rle_lt_trans; [exact H|]. apply Rle_lt_trans with (tm * ds (x it) v); [apply Rmult_le_compat_r; lra|]. eapply Rle_lt_trans; [|exact Dk]. rewrite (Rmult_comm _ tm). apply Rmult_le_compat_l; lra. }
  rewrite <- pow2_abs in H3. pose proof (Rabs_pos (x it j - v j)). nra.
Qed.

(** Non-vacuity: the one-voxel problem of C30 (relaxation 3/2, limits [0, 10]) *)
Example C158_example : sirt_setting demo (fun _ _ => 2) /\ obeys_limits demo (fun _ => 5 / 2) /\
  wres 1 1 (fun _ _ => 2) (sirt_weight demo) (target demo) (fun _ => 5 / 2) = 0.
Proof.
  destruct C30_example as (H1 & H2 & H3 & H4 & _). split; [|split].
  - unfold sirt_setting. simpl p_relax. split; [exact H1|]. split; [reflexivity|]. split; [reflexivity|]. split; [exact H2|]. split; [intros i; right; reflexivity|]. split; [intros i; right; reflexivity|]. split; [exact H3|]. split; [exact H4|]. lra.
  - intros j Hj. split; [exact I|]. intros _. simpl. unfold vzeros. lra.
  - unfold wres, target, mv, back_at. simpl. field.
Qed.

(** * C159: FISTA *)
(** [lam]: weight of the optional l1 regulariser *)
Definition fista_setting (P : problem) (M : mat) (lam : R) : Prop :=
  p_op P = mat_op (p_m P) (p_n P) M /\ dt_kind (p_dterm P) = K_l2 /\ limits_ok P /\
  binary_mask (p_xmask P) /\ binary_mask (train_mask P) /\
  (p_regs P = [] /\ lam = 0 \/ p_regs P = [Regularizer_l1 (fun _ => lam) None] /\ 0 <= lam).
(** step sizes: the diagonal scaling with relaxation at most 1, or the Lipschitz mode with a value L that is large enough for the relaxation *)
Definition fista_steps_ok (P : problem) (M : mat) (l : option R) : Prop :=
  match l with
  | None => safe_sigma P /\ scaling_safe (p_n P) (raw_tau (p_op P) [] (train_mask P)) /\ 0 < p_relax P <= 1
  | Some L => 0 < L /\ 0 < p_relax P /\ forall d, p_relax P * norm2 (p_m P) (mv (p_n P) M d) <= L ^ 2 * norm2 (p_n P) d
  end.
Definition fista_volume (P : problem) (l : option R) (k : nat) : vec := fst (fista_call (with_tol P None) l None k).

Section FistaConv.
  Variables (P : problem) (M : mat) (lam : R) (l : option R).
  Hypothesis HP : fista_setting P M lam.
  Hypothesis HS : fista_steps_ok P M l.
  Let w : vec := fun i => fi_sigma P l i * mask_at (train_mask P) i.
  Lemma fw i : (i < p_m P)%nat -> 0 <= w i.
  Proof.
    intros Hi. pose proof HP as (_ & _ & _ & _ & Hbm & _). apply Rmult_le_pos; [|apply binary_nonneg, Hbm].
    destruct l as [L|]; simpl in *.
    - unfold lips_sigma. apply Rdiv_le_0_compat; lra.
    - destruct HS as [Hs _]. left. apply (sirt_sigma_pos P i Hs Hi).
  Qed.
  Lemma f_tau : (forall j, (j < p_n P)%nat -> 0 < fi_tau P l j) /\
    forall d, supp (p_n P) (p_xmask P) d -> rsum (p_m P) (fun i => w i * mv (p_n P) M d i ^ 2) <= 1 * rsum (p_n P) (fun j => d j ^ 2 / fi_tau P l j).
  Proof.
    pose proof HP as (Hop & _ & _ & Hbx & Hbm & _). destruct l as [L|].
    - destruct HS as (HL & Hr & Hb). unfold fi_tau, lips_tau. cbn [fold_left]. split; [intros j _; apply Rdiv_lt_0_compat; assumption|].
      intros d _. unfold w. cbn [fi_sigma]. unfold lips_sigma. specialize (Hb d).
      apply Rle_trans with (/ L * norm2 (p_m P) (mv (p_n P) M d)).
      { unfold norm2, dot. rewrite <- rsum_scal. apply rsum_le. intros i Hi. assert (0 < / L) by (apply Rinv_0_lt_compat; lra).
        assert (0 <= / L * (mv (p_n P) M d i * mv (p_n P) M d i)) by (apply Rmult_le_pos; [lra|apply Rle_0_sqr]). destruct (Hbm i) as [-> | ->]; unfold Rdiv; lra. }
      rewrite (rsum_ext (p_n P) _ (fun j => L / p_relax P * (d j ^ 2))) by (intros j _; field; lra). rewrite rsum_scal. change (rsum (p_n P) (fun j => d j ^ 2)) with (norm2 (p_n P) d).
      apply Rmult_le_reg_l with (L * p_relax P); [apply Rmult_lt_0_compat; lra|]. replace (L * p_relax P * (/ L * norm2 (p_m P) (mv (p_n P) M d))) with (p_relax P * norm2 (p_m P) (mv (p_n P) M d)) by (field; lra).
      replace (L * p_relax P * (1 * (L / p_relax P * norm2 (p_n P) d))) with (L ^ 2 * norm2 (p_n P) d) by (field; lra). exact Hb.
    - destruct HS as (Hs & Ht & Hr). destruct (diag_energy P M Hop Hbx Hbm Hs Ht ltac:(lra)) as [A B]. split; [exact A|]. intros d Hd.
      eapply Rle_trans; [apply (B d Hd)|]. apply Rmult_le_compat_r; [|lra]. apply rsum_nonneg. intros j Hj. apply Rdiv_le_0_compat; [apply pow2_ge_0|apply A, Hj].
  Qed.
  Lemma lam_nonneg : 0 <= lam.
  Proof. destruct HP as (_ & _ & _ & _ & _ & [[_ ->]|[_ H]]); lra. Qed.
  Lemma fista_is_pg r ii s : fi_x (fista_step P l r ii s) = pg (p_m P) (p_n P) M w (target P) (fi_tau P l) lam (p_lower P) (p_upper P) (p_xmask P) (fi_y s).
  Proof.
    pose proof HP as (Hop & Hk & _ & _ & _ & HR). unfold fista_step, fista_update. cbn [fi_x]. unfold pg.
    assert (G : vadd (fi_y s) (vmul (fi_tau P l) (opAt (p_op P) (vmul (compute_residual (fi_dt P) (opA (p_op P) (fi_y s)) (fst (initialize_b_masks (p_bmask P) (p_btest P)))) (fi_sigma P l))))
       = fun j => fi_y s j + fi_tau P l j * gr (p_m P) (p_n P) M w (target P) (fi_y s) j).
    { apply vec_ext. intros j. unfold vadd, vmul. f_equal. f_equal. rewrite Hop at 1. simpl. unfold gr, mtv. apply rsum_ext. intros i Hi. f_equal.
      unfold fi_dt, assigned. rewrite l2_residual by exact Hk. rewrite Hop at 1. simpl. unfold w, train_mask, target. ring. }
    rewrite G. destruct HR as [[-> ->]|[-> _]].
    - f_equal. apply vec_ext. intros j. rewrite Rmult_0_r, soft0. reflexivity.
    - f_equal.
  Qed.
End FistaConv.

Theorem C159_fista_rate : forall P M lam l z it, fista_setting P M lam -> fista_steps_ok P M l -> obeys_limits P z -> (1 <= it)%nat ->
  lasso (p_m P) (p_n P) M (fi_sigma P l) (train_mask P) (target P) lam (fista_volume P l it)
  <= lasso (p_m P) (p_n P) M (fi_sigma P l) (train_mask P) (target P) lam z
     + 2 * step_dist2 (p_n P) (fi_tau P l) (mul_mask (p_xmask P) (pick_x0 (p_x0 P) vzeros)) z / (INR it + 1) ^ 2.
Proof.
  intros P M lam l z it HP HS Hz Hit. unfold fista_volume. rewrite fista_no_tol. destruct it as [|k]; [lia|].
  pose proof HP as (_ & _ & Hl & Hbx & _). destruct (f_tau P M lam l HP HS) as [T1 T2].
  set (it := fista_iterate P l None).
  assert (TT : forall k, fi_t (it 0%nat) = 1 /\ fi_t (it (S k)) ^ 2 - fi_t (it (S k)) = fi_t (it k) ^ 2 /\ (INR k + 2) / 2 <= fi_t (it k))
    by (intros q; destruct (C34_momentum P l q) as (A & B & C & _); auto).
  pose proof (fast_rate (p_m P) (p_n P) M (fun i => fi_sigma P l i * mask_at (train_mask P) i) (target P) (fi_tau P l) lam (p_lower P) (p_upper P) (p_xmask P) 1
    (fw P M lam l HP HS) T1 (lam_nonneg P M lam HP) Hl Hbx T2 (fun k => fi_x (it k)) (fun k => fi_y (it k)) (fun k => fi_t (it k))) as H.
  cbv beta in H. specialize (H eq_refl).
  assert (X0 : supp (p_n P) (p_xmask P) (fi_x (it 0%nat))).
  { intros j Hj Hm. change (fi_x (it 0%nat)) with (mul_mask (p_xmask P) (pick_x0 (p_x0 P) vzeros)). unfold mul_mask, mask_at in *. destruct (p_xmask P); [rewrite Hm; ring|lra]. }
  specialize (H X0 (proj1 (TT 0%nat)) (fun q => proj1 (proj2 (TT q)))).
  assert (T1' : forall q, 1 <= fi_t (it q)) by (intros q; destruct (TT q) as (_ & _ & G); pose proof (pos_INR q); lra).
  specialize (H T1' (fun q => fista_is_pg P M lam l HP None q (it q)) (fun q j => eq_refl) (Rle_refl 1) z k Hz (fun q => proj2 (proj2 (TT q)))).
  unfold obj in H. unfold lasso. fold it. rewrite S_INR. replace (INR k + 1 + 1) with (INR k + 2) by ring.
  change (dist2 (p_n P) (fi_tau P l) (fi_x (it 0%nat)) z) with (step_dist2 (p_n P) (fi_tau P l) (mul_mask (p_xmask P) (pick_x0 (p_x0 P) vzeros)) z) in H. lra.
Qed.

(** the fixed points of C36 are all the minimisers (converse of C36) *)
Theorem C159_minimisers_are_fixed : forall P M lam l restart x, fista_setting P M lam -> fista_steps_ok P M l ->
  minimises (obeys_limits P) (lasso (p_m P) (p_n P) M (fi_sigma P l) (train_mask P) (target P) lam) x -> fista_fixed P l restart x.
Proof.
  intros P M lam l restart x HP HS [Hx Hmin] j Hj. pose proof HP as (_ & _ & Hl & Hbx & _). destruct (f_tau P M lam l HP HS) as [T1 T2].
  rewrite (fista_is_pg P M lam l HP restart 0 (mkFI x x 1)). cbn [fi_y].
  set (w := fun i => fi_sigma P l i * mask_at (train_mask P) i).
  pose proof (pg_descent (p_m P) (p_n P) M w (target P) (fi_tau P l) lam (p_lower P) (p_upper P) (p_xmask P) 1 (fw P M lam l HP HS) T1 (lam_nonneg P M lam HP) Hl Hbx T2 x Hx) as D.
  set (y := pg _ _ _ _ _ _ _ _ _ _ _) in *. assert (Hy : obeys_limits P y) by (apply pg_feas, Hl).
  specialize (Hmin y Hy). unfold lasso in Hmin. fold w in Hmin. fold (obj (p_m P) (p_n P) M w (target P) lam x) in Hmin. fold (obj (p_m P) (p_n P) M w (target P) lam y) in Hmin.
  pose proof (dist2_nonneg (p_n P) (fi_tau P l) T1 y x) as N. assert (Z : dist2 (p_n P) (fi_tau P l) y x = 0) by lra.
  pose proof (rsum_nonneg_zero (p_n P) _ (fun q Hq => Rdiv_le_0_compat _ _ (pow2_ge_0 (y q - x q)) (T1 q Hq)) Z j Hj) as E. cbv beta in E. pose proof (T1 j Hj).
  assert (E2 : (y j - x j) ^ 2 = 0). { apply Rmult_eq_reg_r with (/ fi_tau P l j); [unfold Rdiv in E; lra|]. apply Rinv_neq_0_compat. lra. }
  assert (y j - x j = 0) by (apply Rsqr_0_uniq; unfold Rsqr; lra). lra.
Qed.

(** Non-vacuity: the one-voxel problem of C36 in Lipschitz mode, L = 2 (the power-method value) *)
Example C159_example : fista_setting fi_demo (fun _ _ => 2) 1 /\ fista_steps_ok fi_demo (fun _ _ => 2) (Some 2) /\
  minimises (obeys_limits fi_demo) (lasso 1 1 (fun _ _ => 2) (fi_sigma fi_demo (Some 2)) (train_mask fi_demo) (target fi_demo) 1) (fun _ => 3/2).
Proof.
  split; [|split].
  - split; [reflexivity|]. split; [reflexivity|]. split; [intros l u j H; discriminate|]. split; [intros i; right; reflexivity|]. split; [intros i; right; reflexivity|].
    right. split; [reflexivity|lra].
  - simpl. split; [lra|]. split; [lra|]. intros d. unfold norm2, dot, mv. simpl. nra.
  - split; [intros j _; simpl; tauto|]. intros y _. unfold lasso, wres, mv, target, mask_at, back_at, fi_sigma, lips_sigma. simpl. rewrite (Rabs_right (3 / 2)) by lra.
    set (v := y 0%nat). clearbody v. assert (v <= Rabs v) by apply Rle_abs. pose proof (pow2_ge_0 (v - 3 / 2)). nra.
Qed.
