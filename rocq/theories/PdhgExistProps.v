From Coq Require Import ConstructiveEpsilon.
(** C151: when the admissible volumes of bounded objective are bounded (in particular with both limits given), a minimiser
    exists and PDHG approaches it; C152: the volumes themselves converge when the minimiser is unique, the projections always. *)
From Verif Require Import Sums DataTermsModel DataTermsProofs SolversModel SolversSpec SolversGeneric SolversProps
  RegularizersModel SolversConv SolversConvProps SolversOptProps Compact PdhgConv PdhgConvProps.

(** * Convexity, closedness, continuity *)
Lemma grp_le nax e w : 0 < w -> (grp_norm nax e <= w <-> rsum nax (fun a => e a ^ 2) <= w ^ 2).
Proof.
  intros Hw. rewrite <- grp_norm_sq. pose proof (grp_norm_nonneg nax e). split; intros H0.
  - apply pow_incr. lra.
  - apply Rsqr_incr_0_var; [|lra]. rewrite !Rsqr_pow2. exact H0.
Qed.
Lemma sq_convex t a b : 0 <= t <= 1 -> (t * a + (1 - t) * b) ^ 2 <= t * a ^ 2 + (1 - t) * b ^ 2.
Proof. intros H. assert (0 <= t * (1 - t) * (a - b) ^ 2) by (apply Rmult_le_pos; [nra|apply pow2_ge_0]). nra. Qed.
Lemma dual_ok_convex r t y y' : rs_ok r -> 0 <= t <= 1 -> dual_ok r y -> dual_ok r y' ->
  dual_ok r (lc t y (1 - t) y') /\ conj_r r (lc t y (1 - t) y') <= t * conj_r r y + (1 - t) * conj_r r y'.
Proof.
  intros (Hw & Hs & Hk) Ht. unfold dual_ok, conj_r, lc. destruct (rs_kind r) as [|nax N|]; intros Hy Hy'; (split; [|try lra]).
  - intros i Hi. specialize (Hy i Hi). specialize (Hy' i Hi). eapply Rle_trans; [apply Rabs_triang|]. rewrite !Rabs_mult, (Rabs_right t), (Rabs_right (1 - t)) by lra. nra.
  - intros i Hi. specialize (Hy i Hi). specialize (Hy' i Hi). rewrite grp_le in * by exact Hw.
    apply Rle_trans with (rsum nax (fun a => t * y (a * N + i)%nat ^ 2 + (1 - t) * y' (a * N + i)%nat ^ 2)).
    + apply rsum_le. intros a _. apply sq_convex, Ht.
    + rewrite rsum_plus, !rsum_scal. nra.
  - exact I.
  - rewrite <- !rsum_scal, <- rsum_plus. apply rsum_le. intros i _. pose proof (sq_convex t (y i) (y' i) Ht) as H.
    assert (0 < / (2 * rs_w r)) by (apply Rinv_0_lt_compat; lra). unfold Rdiv. nra.
Qed.
Lemma domreg_convex rs t y y' : Forall rs_ok rs -> 0 <= t <= 1 -> domreg rs y -> domreg rs y' ->
  domreg rs (lc t y (1 - t) y') /\ fsreg rs (lc t y (1 - t) y') <= t * fsreg rs y + (1 - t) * fsreg rs y'.
Proof.
  intros Hok Ht. revert y y'. induction Hok as [|r rs Hr Hok IH]; intros y y'; cbn [domreg fsreg]; [intros; split; [exact I|lra]|].
  intros [D1 D2] [E1 E2]. destruct (dual_ok_convex r t y y' Hr Ht D1 E1) as [A1 A2]. destruct (IH _ _ D2 E2) as [B1 B2].
  split; [split; [exact A1|exact B1]|]. unfold shift, lc in *. lra.
Qed.
Lemma cont_ge0_abs d i v : (i < d)%nat -> cont d (fun u => u i) v. Proof. apply cont_coord. Qed.
Lemma cluster_sub d d' k u v : (k + d' <= d)%nat -> cluster d u v -> cluster d' (fun q => shift k (u q)) (shift k v).
Proof. intros Hd H eps N He. destruct (H eps N He) as (q & Hq & Hi). exists q. split; [exact Hq|]. intros i Hi'. unfold shift. apply Hi. lia. Qed.
Lemma cont_sq d i v : (i < d)%nat -> cont d (fun u => u i ^ 2) v.
Proof. intros Hi. apply (cont_ext d (fun u => u i * u i)); [intros; ring|]. apply cont_mult; apply cont_coord, Hi. Qed.
Lemma dual_ok_closed r u v : rs_ok r -> cluster (rs_p r) u v -> (forall k, dual_ok r (u k)) -> dual_ok r v.
Proof.
  intros (Hw & Hs & Hk) Hc. unfold dual_ok. destruct (rs_kind r) as [|nax N|]; [| |intros; exact I].
  - intros H i Hi. assert (H1 : 1 * v i + - rs_w r <= 0 /\ -1 * v i + - rs_w r <= 0).
    { assert (Hb : forall k, - rs_w r <= u k i <= rs_w r) by (intros k; specialize (H k i Hi); unfold Rabs in H; destruct (Rcase_abs (u k i)); lra).
      split; [apply (cluster_le0 (rs_p r) u v (fun u => 1 * u i + - rs_w r) Hc)|apply (cluster_le0 (rs_p r) u v (fun u => -1 * u i + - rs_w r) Hc)];
        try (apply cont_plus; [apply cont_scal, cont_coord, Hi|apply cont_const]); intros k; specialize (Hb k); lra. }
    unfold Rabs. destruct (Rcase_abs (v i)); lra.
  - intros H i Hi. apply grp_le; [exact Hw|]. cut (rsum nax (fun a => v (a * N + i)%nat ^ 2) + - rs_w r ^ 2 <= 0); [lra|].
    apply (cluster_le0 (rs_p r) u v (fun u => rsum nax (fun a => u (a * N + i)%nat ^ 2) + - rs_w r ^ 2) Hc).
    + apply cont_plus; [|apply cont_const]. apply (cont_rsum (rs_p r) nax (fun a u => u (a * N + i)%nat ^ 2)). intros a Ha. apply cont_sq. rewrite Hk. nia.
    + intros k. specialize (H k i Hi). rewrite grp_le in H by exact Hw. lra.
Qed.
Lemma domreg_closed rs u v : Forall rs_ok rs -> cluster (tot rs) u v -> (forall k, domreg rs (u k)) -> domreg rs v.
Proof.
  intros Hok. revert u v. induction Hok as [|r rs Hr Hok IH]; intros u v Hc H; cbn [domreg tot] in *; [exact I|]. split.
  - apply (dual_ok_closed r u v Hr); [|intros k; apply H]. apply (cluster_sub (rs_p r + tot rs) (rs_p r) 0 u v ltac:(lia)) in Hc. exact Hc.
  - apply (IH (fun k => shift (rs_p r) (u k))); [|intros k; apply H]. apply (cluster_sub (rs_p r + tot rs) (tot rs) (rs_p r) u v ltac:(lia)). exact Hc.
Qed.
Lemma cont_shift_by k d d' f v : (k + d' <= d)%nat -> cont d' f (shift k v) -> cont d (fun u => f (shift k u)) v.
Proof. intros Hd H eta He. destruct (H eta He) as (e & Pe & Q). exists e. split; [exact Pe|]. intros u Hu. apply Q. intros i Hi. unfold shift. apply Hu. lia. Qed.
Lemma conj_cont r d v : (rs_p r <= d)%nat -> cont d (conj_r r) v.
Proof.
  intros Hd. unfold conj_r. destruct (rs_kind r); try apply cont_const.
  apply (cont_rsum d (rs_p r) (fun i z => z i ^ 2 / (2 * rs_w r))). intros i Hi.
  apply (cont_ext d (fun z => / (2 * rs_w r) * z i ^ 2)); [intros; unfold Rdiv; ring|]. apply cont_scal, cont_sq. lia.
Qed.
Lemma fsreg_cont rs v : cont (tot rs) (fsreg rs) v.
Proof.
  revert v. induction rs as [|r rs IH]; intros v; cbn [tot fsreg]; [apply cont_const|]. apply cont_plus; [apply conj_cont; lia|].
  apply (cont_shift_by (rs_p r) _ (tot rs)); [lia|apply IH].
Qed.
Lemma feasible_convex lo up xm n t y y' : 0 <= t <= 1 -> feasible lo up xm n y -> feasible lo up xm n y' -> feasible lo up xm n (lc t y (1 - t) y').
Proof.
  intros Ht H H' j Hj. destruct (H j Hj) as [A B]. destruct (H' j Hj) as [A' B']. unfold lc. split.
  - destruct xm as [m|]; [|exact I]. intros E. rewrite (A E), (A' E). ring.
  - intros E. destruct (B E) as [B1 B2]. destruct (B' E) as [B1' B2']. split; [destruct lo as [l|]|destruct up as [w|]]; try exact I; nra.
Qed.
Lemma feasible_closed lo up xm n u v : cluster n u v -> (forall k, feasible lo up xm n (u k)) -> feasible lo up xm n v.
Proof.
  intros Hc H j Hj. assert (G : forall a b, (forall k, a * u k j + b <= 0) -> a * v j + b <= 0).
  { intros a b Hk. apply (cluster_le0 n u v (fun u => a * u j + b) Hc); [|exact Hk]. apply cont_plus; [apply cont_scal, cont_coord, Hj|apply cont_const]. }
  split.
  - destruct xm as [m|]; [|exact I]. intros E. assert (Z : forall k, u k j = 0) by (intros k; apply (proj1 (H k j Hj)), E).
    pose proof (G 1 0 ltac:(intros k; rewrite Z; lra)). pose proof (G (-1) 0 ltac:(intros k; rewrite Z; lra)). lra.
  - intros E. assert (Z : forall k, _) by (intros k; exact (proj2 (H k j Hj) E)). split; [destruct lo as [l|]|destruct up as [w|]]; try exact I.
    + pose proof (G (-1) (l j) ltac:(intros k; destruct (Z k); lra)). lra.
    + pose proof (G 1 (- w j) ltac:(intros k; destruct (Z k); lra)). lra.
Qed.
Lemma dual_ok_0 r : rs_ok r -> dual_ok r vzeros.
Proof.
  intros (Hw & _). unfold dual_ok, vzeros. destruct (rs_kind r) as [|nax N|]; [intros; rewrite Rabs_R0; lra| |exact I].
  intros i _. apply grp_le; [exact Hw|]. rewrite rsum_zero by (intros; ring). nra.
Qed.
Lemma domreg_0 rs : Forall rs_ok rs -> domreg rs vzeros.
Proof. induction 1 as [|r rs Hr Hok IH]; cbn [domreg]; [exact I|]. split; [apply dual_ok_0, Hr|exact IH]. Qed.

(** * The run *)
Section Run2.
  Variables (P : problem) (M : mat) (rs : list rspec) (l : option R).
  Hypothesis Hop : p_op P = mat_op (p_m P) (p_n P) M.
  Hypothesis Hregs : p_regs P = map (model_reg (p_n P)) rs.
  Hypothesis Hok : Forall rs_ok rs.
  Hypothesis Hkind : dt_kind (p_dterm P) = K_l2.
  Hypothesis Hlim : limits_ok P.
  Hypothesis Hbx : binary_mask (p_xmask P).
  Hypothesis Hbm : binary_mask (train_mask P).
  Hypothesis Hsteps : pd_steps_ok P M rs l.
  Let n := p_n P.
  Let m := p_m P.
  Let tau := pdhg_tau P l.

  Lemma Fst_convex t y y' : 0 <= t <= 1 -> domz P rs y -> domz P rs y' ->
    domz P rs (lc t y (1 - t) y') /\ Fst P rs (lc t y (1 - t) y') <= t * Fst P rs y + (1 - t) * Fst P rs y'.
  Proof.
    intros Ht [Y1 Y2] [Y1' Y2']. destruct (domreg_convex rs t _ _ Hok Ht Y2 Y2') as [A B]. split.
    - split; [|exact A]. intros i Hi E. unfold lc. rewrite (Y1 i Hi E), (Y1' i Hi E). ring.
    - unfold Fst.
      assert (rsum (p_m P) (fun i => lc t y (1 - t) y' i ^ 2 / 2 + target P i * lc t y (1 - t) y' i) <=
        t * rsum (p_m P) (fun i => y i ^ 2 / 2 + target P i * y i) + (1 - t) * rsum (p_m P) (fun i => y' i ^ 2 / 2 + target P i * y' i)).
      { rewrite <- !rsum_scal, <- rsum_plus. apply rsum_le. intros i _. unfold lc. pose proof (sq_convex t (y i) (y' i) Ht). lra. }
      change (shift (p_m P) (lc t y (1 - t) y')) with (lc t (shift (p_m P) y) (1 - t) (shift (p_m P) y')). lra.
  Qed.
  Lemma domz_closed u v : cluster (mt P rs) u v -> (forall k, domz P rs (u k)) -> domz P rs v.
  Proof.
    intros Hc H. split.
    - intros i Hi E. assert (Z : forall k, u k i = 0) by (intros k; apply (proj1 (H k)); assumption).
      assert (G : forall a, a * v i <= 0).
      { intros a. apply (cluster_le0 (mt P rs) u v (fun u => a * u i) Hc); [apply cont_scal, cont_coord; unfold mt; lia|]. intros k. rewrite Z. lra. }
      pose proof (G 1). pose proof (G (-1)). lra.
    - apply (domreg_closed rs (fun k => shift (p_m P) (u k)) _ Hok); [|intros k; apply (proj2 (H k))].
      apply (cluster_sub (mt P rs) (tot rs) (p_m P)); [unfold mt; lia|exact Hc].
  Qed.
  Lemma Fst_cont v : cont (mt P rs) (Fst P rs) v.
  Proof.
    unfold Fst. apply cont_plus.
    - apply (cont_rsum (mt P rs) (p_m P) (fun i z => z i ^ 2 / 2 + target P i * z i)). intros i Hi. apply cont_plus.
      + apply (cont_ext _ (fun z => / 2 * z i ^ 2)); [intros; field|]. apply cont_scal, cont_sq. unfold mt. lia.
      + apply cont_scal, cont_coord. unfold mt. lia.
    - apply (cont_shift_by (p_m P) _ (tot rs)); [unfold mt; lia|apply fsreg_cont].
  Qed.
  Definition bounded_sublevels : Prop :=
    forall L, exists Rb, forall y, obeys_limits P y -> pd_objective P M rs y <= L -> forall j, (j < p_n P)%nat -> Rabs (y j) <= Rb.
  Lemma sgst_pos i : (i < mt P rs)%nat -> 0 < sgst P rs l i.
  Proof.
    intros Hi. unfold sgst, put. destruct (Nat.ltb_spec i (p_m P)) as [H|H]; [apply (sig_pos P M rs l Hsteps); exact H|apply sreg_pos, Hok].
  Qed.
  Definition saddle (X Z : vec) : Prop := obeys_limits P X /\ domz P rs Z /\
    (forall y, obeys_limits P y -> lag (p_n P) (mt P rs) (Kst P M rs) (Fst P rs) X Z <= lag (p_n P) (mt P rs) (Kst P M rs) (Fst P rs) y Z) /\
    (forall y, domz P rs y -> lag (p_n P) (mt P rs) (Kst P M rs) (Fst P rs) X y <= lag (p_n P) (mt P rs) (Kst P M rs) (Fst P rs) X Z) /\
    pd_objective P M rs X = lag (p_n P) (mt P rs) (Kst P M rs) (Fst P rs) X Z.
  Lemma run_saddle : bounded_sublevels -> exists X Z, saddle X Z.
  Proof.
    intros Hc. pose proof (cdata_nonneg P M rs l Hsteps). pose proof (creg_nonneg rs Hok).
    apply (saddle_exists n (mt P rs) (Kst P M rs) tau (sgst P rs l) (SXp P) (SZp P) (obeys_limits P) (domz P rs) (Fst P rs) (xs P l) (zs P rs l)
      (pd_objective P M rs) (breg rs) (cdata P l + creg rs)).
    - intros a x b y Hx Hy j Hj E. unfold lc. rewrite (Hx j Hj E), (Hy j Hj E). ring.
    - intros a x b y Hx Hy j Hj E. unfold lc. rewrite (Hx j Hj E), (Hy j Hj E). ring.
    - apply (run_psd P M rs l Hok Hsteps).
    - apply feas_S.
    - intros z [Z1 _]. exact Z1.
    - intros k. apply (run_feas P M rs l Hop Hregs Hlim).
    - intros k. apply (dual_dom P M rs l Hop Hregs Hok Hkind Hsteps).
    - intros k X. apply (run_primal P M rs l Hop Hregs Hlim Hbx Hsteps).
    - intros k Y. apply (run_dual P M rs l Hop Hregs Hok Hkind Hbm Hsteps).
    - apply breg_nonneg, Hok.
    - lra.
    - intros x z _. apply (run_sup P M rs Hok Hbm).
    - intros x _. apply (run_att P M rs l Hok Hbm Hsteps).
    - apply Fst_convex.
    - intros t y y'. apply feasible_convex.
    - apply sgst_pos.
    - split; [intros i _ _; reflexivity|apply domreg_0, Hok].
    - apply feasible_closed.
    - apply domz_closed.
    - apply Fst_cont.
    - exact Hc.
  Qed.
  Lemma saddle_min X Z : saddle X Z -> minimises (obeys_limits P) (pd_objective P M rs) X.
  Proof.
    intros (FX & DZ & S1 & S2 & E). split; [exact FX|]. intros y Hy. rewrite E. eapply Rle_trans; [apply S1, Hy|]. apply (run_sup P M rs Hok Hbm), DZ.
  Qed.
  Definition rate2 (X Z : vec) : R :=
    let D := dist2 n (mt P rs) (Kst P M rs) tau (sgst P rs l) (xs P l) (zs P rs l) 0 X Z in (1 + 2 * (cdata P l + creg rs)) * D + 2 * (D + breg rs).
  Lemma saddle_rate X Z k : saddle X Z ->
    pd_objective P M rs (pd_x (pdhg_iterate P l (S (S k)))) - pd_objective P M rs X <= rate2 X Z / sqrt (INR (S k)).
  Proof.
    intros (FX & DZ & S1 & S2 & E). pose proof (cdata_nonneg P M rs l Hsteps). pose proof (creg_nonneg rs Hok).
    apply (last_iterate n (mt P rs) (Kst P M rs) tau (sgst P rs l) (SXp P) (SZp P)) with (feas := obeys_limits P) (dom := domz P rs) (Fs := Fst P rs)
      (obj := pd_objective P M rs) (x := xs P l) (z := zs P rs l) (k := k).
    - intros a x b y Hx Hy j Hj E0. unfold lc. rewrite (Hx j Hj E0), (Hy j Hj E0). ring.
    - intros a x b y Hx Hy j Hj E0. unfold lc. rewrite (Hx j Hj E0), (Hy j Hj E0). ring.
    - apply (run_psd P M rs l Hok Hsteps).
    - apply feas_S.
    - intros z [Z1 _]. exact Z1.
    - intros q. apply (run_feas P M rs l Hop Hregs Hlim).
    - intros q. apply (dual_dom P M rs l Hop Hregs Hok Hkind Hsteps).
    - intros q X0. apply (run_primal P M rs l Hop Hregs Hlim Hbx Hsteps).
    - intros q Y. apply (run_dual P M rs l Hop Hregs Hok Hkind Hbm Hsteps).
    - exact FX.
    - exact DZ.
    - exact S1.
    - exact S2.
    - apply breg_nonneg, Hok.
    - lra.
    - intros x z _. apply (run_sup P M rs Hok Hbm).
    - intros x _. apply (run_att P M rs l Hok Hbm Hsteps).
    - exact E.
  Qed.
End Run2.

Lemma pdhg_no_tol P l it : p_tol P = None -> fst (pdhg_call P l it) = pd_x (pdhg_iterate P l it).
Proof.
  intros Htol. destruct (pdhg_char P l it) as (K & HK & _ & E & _ & HB).
  assert (K = it); [|subst K; exact E].
  destruct HB as [[_ B]|[B _]]; [|exact B]. exfalso. rewrite Htol in B. unfold below_tol in B. rewrite Bool.andb_false_r in B. discriminate.
Qed.
(** constant / sqrt k is eventually below any positive number *)
Lemma rate_small C eps : 0 <= C -> 0 < eps -> exists N, (2 <= N)%nat /\ forall it, (N <= it)%nat -> C / sqrt (INR it) < eps.
Proof.
  intros HC He. destruct (INR_above ((C / eps) ^ 2)) as [N HN]. exists (N + 2)%nat. split; [lia|]. intros it Hit.
  assert (H0 : 0 < INR it) by (apply lt_0_INR; lia). assert (Hs : 0 < sqrt (INR it)) by (apply sqrt_lt_R0; exact H0).
  assert (H1 : (C / eps) ^ 2 < INR it) by (eapply Rlt_le_trans; [exact HN|apply le_INR; lia]).
  assert (Hq : 0 <= C / eps) by (apply Rdiv_le_0_compat; lra).
  assert (H2 : C / eps < sqrt (INR it)).
  { apply Rsqr_incrst_0; [|exact Hq|lra]. rewrite Rsqr_sqrt by lra. rewrite Rsqr_pow2. exact H1. }
  apply Rmult_lt_reg_r with (sqrt (INR it) * / eps); [apply Rmult_lt_0_compat; [exact Hs|apply Rinv_0_lt_compat; exact He]|].
  replace (C / sqrt (INR it) * (sqrt (INR it) * / eps)) with (C / eps) by (field; lra).
  replace (eps * (sqrt (INR it) * / eps)) with (sqrt (INR it)) by (field; lra). exact H2.
Qed.
Lemma rate_double C k : C / sqrt (INR (S k)) <= 2 * Rmax 0 C / sqrt (INR (S (S k))).
Proof.
  assert (P1 : 0 < sqrt (INR (S k))) by (apply sqrt_lt_R0, lt_0_INR; lia). assert (P2 : 0 < sqrt (INR (S (S k)))) by (apply sqrt_lt_R0, lt_0_INR; lia).
  assert (L : sqrt (INR (S (S k))) <= 2 * sqrt (INR (S k))).
  { replace (2 * sqrt (INR (S k))) with (sqrt (2 ^ 2) * sqrt (INR (S k))) by (rewrite sqrt_pow2 by lra; reflexivity). rewrite <- sqrt_mult_alt by lra. apply sqrt_le_1_alt. rewrite !S_INR. pose proof (pos_INR k). lra. }
  set (a := sqrt (INR (S k))) in *. set (b := sqrt (INR (S (S k)))) in *. pose proof (Rmax_l 0 C). pose proof (Rmax_r 0 C).
  set (D := Rmax 0 C) in *. apply Rle_trans with (D / a).
  - apply Rmult_le_compat_r; [left; apply Rinv_0_lt_compat; exact P1|assumption].
  - apply Rmult_le_reg_r with (a * b); [nra|]. replace (D / a * (a * b)) with (D * b) by (field; lra). replace (2 * D / b * (a * b)) with (D * (2 * a)) by (field; lra).
    apply Rmult_le_compat_l; assumption.
Qed.

(** the setting of the theorems *)
Definition pdhg_setting (P : problem) (M : mat) (rs : list rspec) : Prop :=
  p_op P = mat_op (p_m P) (p_n P) M /\ p_regs P = map (model_reg (p_n P)) rs /\ Forall rs_ok rs /\ Forall (rs_steps_ok (p_n P)) rs /\
  dt_kind (p_dterm P) = K_l2 /\ limits_ok P /\ binary_mask (p_xmask P) /\ binary_mask (train_mask P) /\ safe_sigma P /\ safe_tau P /\
  0 < p_relax P <= 1 /\ p_tol P = None.

(** the same with the steps of either mode: [None] preconditioned, [Some L] with the estimate [L] of the operator norm *)
Definition pdhg_setting_at (P : problem) (M : mat) (rs : list rspec) (l : option R) : Prop :=
  p_op P = mat_op (p_m P) (p_n P) M /\ p_regs P = map (model_reg (p_n P)) rs /\ Forall rs_ok rs /\
  dt_kind (p_dterm P) = K_l2 /\ limits_ok P /\ binary_mask (p_xmask P) /\ binary_mask (train_mask P) /\ pd_steps_ok P M rs l /\ p_tol P = None.
Lemma setting_diag P M rs : pdhg_setting P M rs -> pdhg_setting_at P M rs None.
Proof.
  intros (H1 & H2 & H3 & H4 & H5 & H6 & H7 & H8 & H9 & H10 & H11 & H12). repeat split; try assumption; apply (diag_steps_ok P M rs); assumption.
Qed.

(** ** C150, as a limit *)
Theorem C150_pdhg_converges : forall P M rs s, pdhg_setting P M rs -> pd_solution P M rs s ->
  forall eps, 0 < eps -> exists N, forall it, (N <= it)%nat ->
    obeys_limits P (fst (pdhg_call P None it)) /\
    forall y, obeys_limits P y -> pd_objective P M rs (fst (pdhg_call P None it)) <= pd_objective P M rs y + eps.
Proof.
  intros P M rs s (H1 & H2 & H3 & H4 & H5 & H6 & H7 & H8 & H9 & H10 & H11 & H12) Hs eps He.
  destruct (C150_pdhg_objective_rate P M rs s H1 H2 H3 H4 H5 H6 H7 H8 H9 H10 H11 H12 Hs) as (C & HC & H).
  destruct (rate_small C eps HC He) as (N & HN & Hr). exists N. intros it Hit. destruct (H it ltac:(lia)) as [F O]. split; [exact F|].
  intros y Hy. specialize (O y Hy). specialize (Hr it Hit). lra.
Qed.

(** ** C151: existence and convergence from bounded sublevel sets *)
Lemma exists_at : forall P M rs l, pdhg_setting_at P M rs l -> bounded_sublevels P M rs ->
  exists X C, minimises (obeys_limits P) (pd_objective P M rs) X /\ 0 <= C /\
    forall it, (2 <= it)%nat -> let x := fst (pdhg_call P l it) in
      obeys_limits P x /\ pd_objective P M rs x <= pd_objective P M rs X + C / sqrt (INR it).
Proof.
  intros P M rs l (H1 & H2 & H3 & H5 & H6 & H7 & H8 & H9 & H12) Hb.
  destruct (run_saddle P M rs l H1 H2 H3 H5 H6 H7 H8 H9 Hb) as (X & Z & HS).
  exists X, (2 * Rmax 0 (rate2 P M rs l X Z)). split; [apply (saddle_min P M rs H3 H8 X Z HS)|]. split; [pose proof (Rmax_l 0 (rate2 P M rs l X Z)); lra|].
  intros it Hit. cbv zeta. rewrite (pdhg_no_tol P l it H12). destruct it as [|[|k]]; try lia. split.
  - apply (run_feas P M rs l H1 H2 H6 (S k)).
  - pose proof (saddle_rate P M rs l H1 H2 H3 H5 H6 H7 H8 H9 X Z k HS). pose proof (rate_double (rate2 P M rs l X Z) k). lra.
Qed.
Theorem C151_minimiser_exists : forall P M rs, pdhg_setting P M rs -> bounded_sublevels P M rs ->
  exists X C, minimises (obeys_limits P) (pd_objective P M rs) X /\ 0 <= C /\
    forall it, (2 <= it)%nat -> let x := fst (pdhg_call P None it) in
      obeys_limits P x /\ pd_objective P M rs x <= pd_objective P M rs X + C / sqrt (INR it).
Proof. intros P M rs HP. apply (exists_at P M rs None), setting_diag, HP. Qed.
(** both limits given: always bounded, so nothing more is needed *)
Theorem C151_with_both_limits : forall P M rs lo up, pdhg_setting P M rs -> p_lower P = Some lo -> p_upper P = Some up ->
  exists X C, minimises (obeys_limits P) (pd_objective P M rs) X /\ 0 <= C /\
    forall it, (2 <= it)%nat -> let x := fst (pdhg_call P None it) in
      obeys_limits P x /\ pd_objective P M rs x <= pd_objective P M rs X + C / sqrt (INR it).
Proof.
  intros P M rs lo up HP Hl Hu. apply C151_minimiser_exists; [exact HP|]. intros L. exists (rsum (p_n P) (fun j => Rabs (lo j) + Rabs (up j))).
  intros y Hy _ j Hj. apply Rle_trans with (Rabs (lo j) + Rabs (up j)).
  2:{ apply (rsum_term_le (p_n P) (fun j => Rabs (lo j) + Rabs (up j))); [|exact Hj]. intros k _. pose proof (Rabs_pos (lo k)). pose proof (Rabs_pos (up k)). lra. }
  destruct HP as (_ & _ & _ & _ & _ & _ & Hbx & _). unfold obeys_limits in Hy. rewrite Hl, Hu in Hy.
  destruct (Hbx j) as [E|E].
  - rewrite (feasible_out _ _ _ _ _ j Hy Hj E), Rabs_R0. pose proof (Rabs_pos (lo j)). pose proof (Rabs_pos (up j)). lra.
  - destruct (feasible_in _ _ _ _ _ j Hy Hj E) as [A B]. pose proof (Rle_abs (up j)). pose proof (Rle_abs (- lo j)) as G. rewrite Rabs_Ropp in G.
    pose proof (Rabs_pos (lo j)). pose proof (Rabs_pos (up j)). unfold Rabs at 1. destruct (Rcase_abs (y j)); lra.
Qed.

Lemma bex_dec n (Q : nat -> Prop) : (forall j, {Q j} + {~ Q j}) -> {exists j, (j < n)%nat /\ Q j} + {~ exists j, (j < n)%nat /\ Q j}.
Proof.
  intros HQ. induction n as [|n [IH|IH]].
  - right. intros (j & Hj & _). lia.
  - left. destruct IH as (j & Hj & Hq). exists j. split; [lia|exact Hq].
  - destruct (HQ n) as [H|H]; [left; exists n; split; [lia|exact H]|right]. intros (j & Hj & Hq).
    destruct (Nat.eq_dec j n) as [->|]; [contradiction|]. apply IH. exists j. split; [lia|exact Hq].
Qed.
(** ** C152: the volumes converge when there is only one minimiser *)
Lemma volume_at : forall P M rs l X, pdhg_setting_at P M rs l -> bounded_sublevels P M rs ->
  minimises (obeys_limits P) (pd_objective P M rs) X ->
  (forall y, minimises (obeys_limits P) (pd_objective P M rs) y -> veq (p_n P) y X) ->
  forall eps, 0 < eps -> exists N, forall it, (N <= it)%nat -> forall j, (j < p_n P)%nat -> Rabs (fst (pdhg_call P l it) j - X j) < eps.
Proof.
  intros P M rs l X HP Hb [FX MX] Huniq eps He. pose proof HP as (H1 & H2 & H3 & H5 & H6 & H7 & H8 & H9 & H12).
  destruct (exists_at P M rs l HP Hb) as (X' & C & [FX' MX'] & HC & Hit).
  set (xi := fun it => fst (pdhg_call P l it)). set (o := pd_objective P M rs). assert (Eo : o X' = o X) by (unfold o; pose proof (MX _ FX'); pose proof (MX' _ FX); lra).
  destruct (Classical_Prop.classic (exists N, forall it, (N <= it)%nat -> forall j, (j < p_n P)%nat -> Rabs (xi it j - X j) < eps)) as [G|G]; [exact G|exfalso].
  (* a subsequence that stays away *)
  assert (A : forall N, exists it, (N <= it)%nat /\ exists j, (j < p_n P)%nat /\ eps <= Rabs (xi it j - X j)).
  { intros N. destruct (Classical_Prop.classic (exists it, (N <= it)%nat /\ exists j, (j < p_n P)%nat /\ eps <= Rabs (xi it j - X j))) as [E|E]; [exact E|exfalso].
    apply G. exists N. intros it HN j Hj. apply Rnot_le_lt. intros Hle. apply E. exists it. split; [exact HN|]. exists j. split; assumption. }
  assert (F : forall N, {it | (N <= it)%nat /\ exists j, (j < p_n P)%nat /\ eps <= Rabs (xi it j - X j)}).
  { intros N. apply ConstructiveEpsilon.constructive_indefinite_ground_description_nat; [|apply A]. intros it.
    destruct (le_dec N it) as [L|L]; [|right; tauto].
    destruct (bex_dec (p_n P) (fun j => eps <= Rabs (xi it j - X j)) (fun j => Rle_dec _ _)) as [E|E]; [left|right]; tauto. }
  set (f := fun N => proj1_sig (F N)). assert (Hf : forall N, (N <= f N)%nat /\ exists j, (j < p_n P)%nat /\ eps <= Rabs (xi (f N) j - X j)) by (intros N; apply (proj2_sig (F N))).
  set (u := fun k => xi (f (k + 2)%nat)).
  assert (Hge : forall k, (k + 2 <= f (k + 2))%nat) by (intros k; apply (proj1 (Hf (k + 2)%nat))).
  assert (Fu : forall k, obeys_limits P (u k)) by (intros k; apply Hit; specialize (Hge k); lia).
  assert (Ou : forall k, o (u k) <= o X + C / sqrt (INR (k + 2))).
  { intros k. destruct (Hit (f (k + 2)%nat) ltac:(specialize (Hge k); lia)) as [_ O]. fold (xi (f (k + 2)%nat)) in O. fold o in O. fold (u k) in O.
    eapply Rle_trans; [exact O|]. rewrite Eo. apply Rplus_le_compat_l. apply Rmult_le_compat_l; [exact HC|]. apply Rinv_le_contravar; [apply sqrt_lt_R0, lt_0_INR; lia|].
    apply sqrt_le_1_alt, le_INR, Hge. }
  destruct (Hb (o X + C)) as [Rb HRb].
  assert (Bu : forall k j, (j < p_n P)%nat -> Rabs (u k j) <= Rb).
  { intros k. apply HRb; [apply Fu|]. eapply Rle_trans; [apply Ou|]. apply Rplus_le_compat_l.
    assert (Q : 1 <= sqrt (INR (k + 2))) by (rewrite <- sqrt_1 at 1; apply sqrt_le_1_alt; rewrite plus_INR; pose proof (pos_INR k); simpl; lra).
    apply Rmult_le_reg_r with (sqrt (INR (k + 2))); [lra|]. unfold Rdiv. rewrite Rmult_assoc, Rinv_l by lra. nra. }
  (* record which coordinate is away, by an extra coordinate-wise distance *)
  destruct (bolzano_vec (p_n P) u Rb Bu) as [v Hv].
  assert (Fv : obeys_limits P v) by (apply (feasible_closed _ _ _ _ u v Hv Fu)).
  assert (Mv : minimises (obeys_limits P) o v).
  { split; [exact Fv|]. intros y Hy. apply Rle_trans with (o X); [|apply MX, Hy].
    destruct (run_att P M rs l H3 H8 H9 v) as (Y & DY & EY & _). unfold o. rewrite <- EY. fold o.
    cut (lag (p_n P) (mt P rs) (Kst P M rs) (Fst P rs) v Y + - o X <= 0); [lra|].
    apply (cluster_le (p_n P) u v (fun e => lag (p_n P) (mt P rs) (Kst P M rs) (Fst P rs) e Y + - o X) (fun k => C / sqrt (INR (k + 2))) Hv).
    - apply cont_plus; [|apply cont_const]. unfold lag. apply (cont_plus _ (fun e => kd (p_n P) (mt P rs) (Kst P M rs) e Y) (fun _ => - Fst P rs Y)); [|apply cont_const].
      apply (cont_kd (p_n P) (mt P rs) (p_n P) (p_n P) (Kst P M rs) (fun j e => e j) (fun i _ => Y i)); [intros; apply cont_coord; assumption|intros; apply cont_const|reflexivity].
    - intros e0 He0. destruct (rate_small C e0 HC He0) as (N & _ & HN). exists N. intros k Hk. apply HN. lia.
    - intros k. pose proof (run_sup P M rs H3 H8 (u k) Y DY) as S. fold o in S. pose proof (Ou k). lra. }
  pose proof (Huniq v Mv) as Ev.
  destruct (Hv eps 0%nat He) as (k & _ & Hk). destruct (proj2 (Hf (k + 2)%nat)) as (j & Hj & Haway). fold (u k) in Haway.
  specialize (Hk j Hj). rewrite (Ev j Hj) in Hk. lra.
Qed.
Theorem C152_volume_converges : forall P M rs X, pdhg_setting P M rs -> bounded_sublevels P M rs ->
  minimises (obeys_limits P) (pd_objective P M rs) X ->
  (forall y, minimises (obeys_limits P) (pd_objective P M rs) y -> veq (p_n P) y X) ->
  forall eps, 0 < eps -> exists N, forall it, (N <= it)%nat -> forall j, (j < p_n P)%nat -> Rabs (fst (pdhg_call P None it) j - X j) < eps.
Proof. intros P M rs X HP. apply (volume_at P M rs None), setting_diag, HP. Qed.

(** ** C152: the projections converge whether or not the minimiser is unique *)
Lemma solution_saddle P M rs s : Forall rs_ok rs -> binary_mask (train_mask P) -> pd_solution P M rs s -> saddle P M rs (pd_x s) (zsol P rs s).
Proof.
  intros Hok Hbm Hs. destruct (sol_dom P M rs Hok Hbm s Hs) as [D E]. split; [apply Hs|]. split; [exact D|]. split; [|split].
  - intros y Hy. apply (sol_primal P M rs s y Hs Hy).
  - intros y Hy. rewrite E. apply (run_sup P M rs Hok Hbm), Hy.
  - symmetry. exact E.
Qed.
(** strong convexity in the projections *)
Lemma saddle_growth P M rs X Z y : Forall rs_ok rs -> binary_mask (train_mask P) -> saddle P M rs X Z -> obeys_limits P y ->
  rsum (p_m P) (fun i => mask_at (train_mask P) i * (mv (p_n P) M y i - mv (p_n P) M X i) ^ 2) <= 2 * (pd_objective P M rs y - pd_objective P M rs X).
Proof.
  intros Hok Hbm (FX & [Z1 Z2] & S1 & S2 & E) Hy. pose proof (S1 y Hy) as H1. rewrite <- E in H1. rewrite lag_split in E, H1. unfold pd_objective in *.
  pose proof (data_gap P M Hbm X Z Z1) as GX. pose proof (data_gap P M Hbm y Z Z1) as Gy.
  pose proof (regs_sup (p_n P) rs X _ Hok Z2) as RX. pose proof (regs_sup (p_n P) rs y _ Hok Z2) as Ry.
  set (gX := rsum (p_m P) (fun i => (mask_at (train_mask P) i * (mv (p_n P) M X i - target P i) - Z i) ^ 2 / 2)) in *.
  assert (NX : forall i, (i < p_m P)%nat -> 0 <= (mask_at (train_mask P) i * (mv (p_n P) M X i - target P i) - Z i) ^ 2 / 2).
  { intros i _. apply Rdiv_le_0_compat; [apply pow2_ge_0|lra]. }
  assert (G0 : gX = 0) by (pose proof (rsum_nonneg (p_m P) _ NX) as G; fold gX in G; lra).
  assert (EZ : forall i, (i < p_m P)%nat -> Z i = mask_at (train_mask P) i * (mv (p_n P) M X i - target P i)).
  { intros i Hi. pose proof (rsum_term_le (p_m P) _ i NX Hi) as T. fold gX in T. rewrite G0 in T.
    set (d := mask_at (train_mask P) i * (mv (p_n P) M X i - target P i)) in *. assert ((d - Z i) ^ 2 = 0) by (pose proof (pow2_ge_0 (d - Z i)); lra).
    assert (d - Z i = 0) by (destruct (Req_dec (d - Z i) 0); [assumption|exfalso; apply (pow_nonzero (d - Z i) 2); assumption]). lra. }
  assert (EG : rsum (p_m P) (fun i => (mask_at (train_mask P) i * (mv (p_n P) M y i - target P i) - Z i) ^ 2 / 2) =
     / 2 * rsum (p_m P) (fun i => mask_at (train_mask P) i * (mv (p_n P) M y i - mv (p_n P) M X i) ^ 2)).
  { rewrite <- rsum_scal. apply rsum_ext. intros i Hi. rewrite (EZ i Hi). destruct (Hbm i) as [Em|Em]; rewrite Em; field. }
  rewrite EG in Gy. lra.
Qed.
Lemma projections_at : forall P M rs l, pdhg_setting_at P M rs l -> (exists s, pd_solution P M rs s) \/ bounded_sublevels P M rs ->
  exists C, 0 <= C /\ forall X it, minimises (obeys_limits P) (pd_objective P M rs) X -> (2 <= it)%nat ->
    rsum (p_m P) (fun i => mask_at (train_mask P) i * (mv (p_n P) M (fst (pdhg_call P l it)) i - mv (p_n P) M X i) ^ 2) <= C / sqrt (INR it).
Proof.
  intros P M rs l HP HS. pose proof HP as (H1 & H2 & H3 & H5 & H6 & H7 & H8 & H9 & H12).
  assert (exists X Z, saddle P M rs X Z) as (X & Z & Hs).
  { destruct HS as [[s Hs]|Hb]; [exists (pd_x s), (zsol P rs s); apply solution_saddle; assumption|].
    apply (run_saddle P M rs l H1 H2 H3 H5 H6 H7 H8 H9 Hb). }
  exists (2 * (2 * Rmax 0 (rate2 P M rs l X Z))). split; [pose proof (Rmax_l 0 (rate2 P M rs l X Z)); lra|].
  intros X' it HX' Hit. rewrite (pdhg_no_tol P l it H12). destruct it as [|[|k]]; try lia.
  pose proof (saddle_rate P M rs l H1 H2 H3 H5 H6 H7 H8 H9 X Z k Hs) as R. pose proof (rate_double (rate2 P M rs l X Z) k) as D.
  pose proof (saddle_growth P M rs X Z _ H3 H8 Hs (run_feas P M rs l H1 H2 H6 (S k))) as G.
  assert (E : forall i, (i < p_m P)%nat -> mask_at (train_mask P) i * (mv (p_n P) M X' i - mv (p_n P) M X i) ^ 2 = 0).
  { intros i Hi. pose proof (saddle_growth P M rs X Z X' H3 H8 Hs (proj1 HX')) as G'. pose proof (proj2 HX' X (proj1 Hs)) as L.
    assert (N : forall i, (i < p_m P)%nat -> 0 <= mask_at (train_mask P) i * (mv (p_n P) M X' i - mv (p_n P) M X i) ^ 2).
    { intros q _. apply Rmult_le_pos; [apply binary_nonneg, H8|apply pow2_ge_0]. }
    pose proof (rsum_term_le (p_m P) _ i N Hi) as T. cbv beta in T. specialize (N i Hi). lra. }
  rewrite (rsum_ext (p_m P) _ (fun i => mask_at (train_mask P) i * (mv (p_n P) M (xs P l (S k)) i - mv (p_n P) M X i) ^ 2)).
  2:{ intros i Hi. specialize (E i Hi). unfold xs. destruct (H8 i) as [Em|Em]; rewrite Em in *; [ring|].
      assert (mv (p_n P) M X' i - mv (p_n P) M X i = 0).
      { destruct (Req_dec (mv (p_n P) M X' i - mv (p_n P) M X i) 0); [assumption|exfalso]. apply (pow_nonzero (mv (p_n P) M X' i - mv (p_n P) M X i) 2); [assumption|lra]. }
      replace (mv (p_n P) M X' i) with (mv (p_n P) M X i) by lra. reflexivity. }
  eapply Rle_trans; [exact G|]. unfold xs. unfold Rdiv in *. lra.
Qed.
Theorem C152_projections_converge : forall P M rs, pdhg_setting P M rs -> (exists s, pd_solution P M rs s) \/ bounded_sublevels P M rs ->
  exists C, 0 <= C /\ forall X it, minimises (obeys_limits P) (pd_objective P M rs) X -> (2 <= it)%nat ->
    rsum (p_m P) (fun i => mask_at (train_mask P) i * (mv (p_n P) M (fst (pdhg_call P None it)) i - mv (p_n P) M X i) ^ 2) <= C / sqrt (INR it).
Proof. intros P M rs HP. apply (projections_at P M rs None), setting_diag, HP. Qed.
(** minimisers all have the same projections *)
Lemma same_projections_at : forall P M rs l X Y, pdhg_setting_at P M rs l -> (exists s, pd_solution P M rs s) \/ bounded_sublevels P M rs ->
  minimises (obeys_limits P) (pd_objective P M rs) X -> minimises (obeys_limits P) (pd_objective P M rs) Y ->
  forall i, (i < p_m P)%nat -> mask_at (train_mask P) i = 1 -> mv (p_n P) M X i = mv (p_n P) M Y i.
Proof.
  intros P M rs l X Y HP HS HX HY i Hi Em. pose proof HP as (H1 & H2 & H3 & H5 & H6 & H7 & H8 & H9 & H12).
  assert (exists X Z, saddle P M rs X Z) as (X0 & Z & Hs).
  { destruct HS as [[s Hs]|Hb]; [exists (pd_x s), (zsol P rs s); apply solution_saddle; assumption|].
    apply (run_saddle P M rs l H1 H2 H3 H5 H6 H7 H8 H9 Hb). }
  assert (E : forall W, minimises (obeys_limits P) (pd_objective P M rs) W -> mv (p_n P) M W i = mv (p_n P) M X0 i).
  { intros W HW. pose proof (saddle_growth P M rs X0 Z W H3 H8 Hs (proj1 HW)) as G. pose proof (proj2 HW X0 (proj1 Hs)) as L.
    assert (N : forall q, (q < p_m P)%nat -> 0 <= mask_at (train_mask P) q * (mv (p_n P) M W q - mv (p_n P) M X0 q) ^ 2).
    { intros q _. apply Rmult_le_pos; [apply binary_nonneg, H8|apply pow2_ge_0]. }
    pose proof (rsum_term_le (p_m P) _ i N Hi) as T. cbv beta in T. rewrite Em in T.
    destruct (Req_dec (mv (p_n P) M W i - mv (p_n P) M X0 i) 0); [lra|exfalso].
    pose proof (pow2_ge_0 (mv (p_n P) M W i - mv (p_n P) M X0 i)). apply (pow_nonzero (mv (p_n P) M W i - mv (p_n P) M X0 i) 2); [assumption|lra]. }
  rewrite (E X HX), (E Y HY). reflexivity.
Qed.
Theorem C152_same_projections : forall P M rs X Y, pdhg_setting P M rs -> (exists s, pd_solution P M rs s) \/ bounded_sublevels P M rs ->
  minimises (obeys_limits P) (pd_objective P M rs) X -> minimises (obeys_limits P) (pd_objective P M rs) Y ->
  forall i, (i < p_m P)%nat -> mask_at (train_mask P) i = 1 -> mv (p_n P) M X i = mv (p_n P) M Y i.
Proof. intros P M rs X Y HP. apply (same_projections_at P M rs None), setting_diag, HP. Qed.

(** Non-vacuity: the one-pixel problem of C33 (l1 regulariser, both limits) satisfies the setting, has a solution and bounded sublevel sets. *)
Example C150_example : pdhg_setting pd_demo (fun _ _ => 1) [pd_demo_reg] /\ (exists s, pd_solution pd_demo (fun _ _ => 1) [pd_demo_reg] s) /\
  p_lower pd_demo = Some vzeros /\ p_upper pd_demo = Some (fun _ => 10).
Proof.
  destruct C33_example as (E1 & E2 & E3 & E4 & _ & _ & E7 & _). split; [|split; [exists pd_demo_state; exact E7|split; reflexivity]].
  split; [reflexivity|]. split; [reflexivity|]. split; [exact E1|]. split.
  { constructor; [|constructor]. assert (A1 : Rabs 1 = 1) by apply Rabs_R1. split; cbn -[Rabs]; intros; unfold vones; rewrite A1; lra. }
  split; [reflexivity|]. split; [exact E2|]. split; [exact E3|]. split; [exact E4|].
  assert (A : raw_sigma (p_op pd_demo) (p_xmask pd_demo) 0%nat = 1).
  { unfold raw_sigma, ones_masked, mul_mask, mv, mat_abs, vones. cbn -[Rabs]. unfold mv, mat_abs, vones. cbn [rsum]. rewrite Rabs_R1. rewrite Rabs_right; lra. }
  assert (B : raw_tau (p_op pd_demo) (p_regs pd_demo) (train_mask pd_demo) 0%nat = 2).
  { unfold raw_tau, ones_masked, mul_mask, mtv, mat_abs, vones. cbn -[Rabs]. unfold vadd, mtv, mat_abs, vones. cbn [rsum]. rewrite Rabs_R1. rewrite Rabs_right; lra. }
  assert (SS : safe_sigma pd_demo) by (apply scaling_safe_small; change (p_m pd_demo) with 1%nat; cbn [rmax]; rewrite A; lra).
  assert (ST : safe_tau pd_demo) by (apply scaling_safe_small; change (p_n pd_demo) with 1%nat; cbn [rmax]; rewrite B; lra).
  split; [exact SS|]. split; [exact ST|]. split; [cbn; lra|reflexivity].
Qed.
(** when the measured projections determine the volume, the volumes converge *)
Theorem C152_injective_converges : forall P M rs X, pdhg_setting P M rs -> bounded_sublevels P M rs ->
  minimises (obeys_limits P) (pd_objective P M rs) X ->
  (forall x y, obeys_limits P x -> obeys_limits P y -> (forall i, (i < p_m P)%nat -> mask_at (train_mask P) i = 1 -> mv (p_n P) M x i = mv (p_n P) M y i) -> veq (p_n P) x y) ->
  forall eps, 0 < eps -> exists N, forall it, (N <= it)%nat -> forall j, (j < p_n P)%nat -> Rabs (fst (pdhg_call P None it) j - X j) < eps.
Proof.
  intros P M rs X HP Hb HX Hinj. apply (C152_volume_converges P M rs X HP Hb HX). intros y Hy. apply Hinj; [apply Hy|apply HX|].
  intros i Hi Em. apply (C152_same_projections P M rs y X HP (or_intror Hb) Hy HX i Hi Em).
Qed.
Example C152_example : forall x y, obeys_limits pd_demo x -> obeys_limits pd_demo y ->
  (forall i, (i < p_m pd_demo)%nat -> mask_at (train_mask pd_demo) i = 1 -> mv (p_n pd_demo) (fun _ _ => 1) x i = mv (p_n pd_demo) (fun _ _ => 1) y i) -> veq (p_n pd_demo) x y.
Proof. intros x y _ _ H j Hj. specialize (H 0%nat ltac:(cbn; lia) eq_refl). unfold mv in H. cbn in H, Hj. replace j with 0%nat by lia. lra. Qed.
