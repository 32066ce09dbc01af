(** PDHG without any boundedness assumption: a minimiser always exists, every minimiser is part of a saddle point, and with
    relaxation strictly below one the volumes themselves converge to one minimiser. *)
From Verif Require Import Sums DataTermsModel DataTermsProofs SolversModel SolversSpec SolversGeneric SolversProps
  RegularizersModel SolversConv SolversConvProps SolversOptProps PdhgConv Compact PdhgConvProps PdhgExistProps PdhgData PdhgDataProps LsExist MinExist PdhgSeq.

Definition with_relax (P : problem) (w : R) : problem :=
  mkProblem (p_n P) (p_m P) (p_op P) (p_b P) (p_x0 P) (p_lower P) (p_upper P) (p_xmask P) (p_bmask P) (p_btest P)
    (p_tol P) w (p_regs P) (p_dterm P) (p_dterm_test P).
(** the steps would still be admissible with a larger relaxation *)
Definition pd_steps_strict (P : problem) (M : mat) (rs : list rspec) (l : option R) : Prop :=
  exists w, 0 < p_relax P < w /\ pd_steps_ok (with_relax P w) M rs l.

Lemma sigma_relax P l w i : p_relax P <> 0 -> pdhg_sigma (with_relax P w) l i = w / p_relax P * pdhg_sigma P l i.
Proof. intros H. unfold pdhg_sigma, diag_sigma, lips_sigma. destruct l; cbn [with_relax p_relax p_op p_xmask p_m]; unfold Rdiv; rewrite <- !Rmult_assoc; f_equal; field; exact H. Qed.
Lemma tau_relax P l w j : p_relax P <> 0 -> pdhg_tau (with_relax P w) l j = w / p_relax P * pdhg_tau P l j.
Proof. intros H. unfold pdhg_tau, diag_tau, lips_tau. destruct l; cbn [with_relax p_relax p_op p_xmask p_n p_regs p_bmask p_btest]; unfold Rdiv; rewrite <- !Rmult_assoc; f_equal; field; exact H. Qed.

Lemma strict_pos P M rs l : pd_steps_strict P M rs l -> (forall i, (i < p_m P)%nat -> 0 < pdhg_sigma P l i) /\ (forall j, (j < p_n P)%nat -> 0 < pdhg_tau P l j).
Proof.
  intros (w & Hw & H1 & H2 & _). assert (Hq : 0 < w / p_relax P) by (apply Rdiv_lt_0_compat; lra).
  split; [intros i Hi; specialize (H1 i Hi); rewrite sigma_relax in H1 by lra|intros i Hi; specialize (H2 i Hi); rewrite tau_relax in H2 by lra];
    apply Rmult_lt_reg_l with (w / p_relax P); lra.
Qed.
Lemma strict_bound P M rs l : Forall rs_ok rs -> pd_steps_strict P M rs l -> exists q, 0 < q < 1 /\
  forall x z w,
    (forall j, (j < p_n P)%nat -> mask_at (p_xmask P) j = 0 -> x j = 0) ->
    (forall i, (i < p_m P)%nat -> mask_at (train_mask P) i = 0 -> z i = 0) ->
    (rsum (p_m P) (fun i => mv (p_n P) M x i * z i) + rsum (tot rs) (fun i => mv (p_n P) (Kreg rs) x i * w i)) ^ 2 <=
    q * (rsum (p_n P) (fun j => x j ^ 2 / pdhg_tau P l j) *
      (rsum (p_m P) (fun i => z i ^ 2 / pdhg_sigma P l i) + rsum (tot rs) (fun i => w i ^ 2 / sreg rs i))).
Proof.
  intros Hok Hst. destruct (strict_pos P M rs l Hst) as [Ps Pt]. destruct Hst as (w0 & Hw & _ & _ & H). exists (p_relax P / w0). set (q := p_relax P / w0).
  assert (Hq : 0 < q < 1).
  { unfold q. split; [apply Rdiv_lt_0_compat; lra|]. apply Rmult_lt_reg_r with w0; [lra|]. unfold Rdiv. rewrite Rmult_assoc, Rinv_l by lra. lra. }
  split; [exact Hq|]. intros x z w Hx Hz. specialize (H x z w Hx Hz). cbn [with_relax p_n p_m] in H. eapply Rle_trans; [exact H|].
  rewrite (rsum_ext (p_n P) _ (fun j => q * (x j ^ 2 / pdhg_tau P l j))).
  2:{ intros j Hj. rewrite tau_relax by lra. specialize (Pt j Hj). unfold q. field. lra. }
  rewrite (rsum_ext (p_m P) (fun i => z i ^ 2 / pdhg_sigma (with_relax P w0) l i) (fun j => q * (z j ^ 2 / pdhg_sigma P l j))).
  2:{ intros j Hj. rewrite sigma_relax by lra. specialize (Ps j Hj). unfold q. field. lra. }
  rewrite !rsum_scal. set (a := rsum (p_n P) _). set (b := rsum (p_m P) _). set (c := rsum (tot rs) _).
  assert (0 <= a) by (apply rsum_nonneg; intros; apply Rdiv_le_0_compat; [apply pow2_ge_0|auto]).
  assert (0 <= b) by (apply rsum_nonneg; intros; apply Rdiv_le_0_compat; [apply pow2_ge_0|auto]).
  assert (q * a * (q * b + c) <= q * a * (b + c)); [|lra]. apply Rmult_le_compat_l; [apply Rmult_le_pos; lra|]. assert (q * b <= 1 * b) by (apply Rmult_le_compat_r; lra). lra.
Qed.
Lemma strict_ok P M rs l : Forall rs_ok rs -> pd_steps_strict P M rs l -> pd_steps_ok P M rs l.
Proof.
  intros Hok Hst. destruct (strict_pos P M rs l Hst) as [Ps Pt]. destruct (strict_bound P M rs l Hok Hst) as (q & Hq & H). split; [exact Ps|]. split; [exact Pt|].
  intros x z w Hx Hz. eapply Rle_trans; [apply (H x z w Hx Hz)|]. set (a := rsum (p_n P) _). set (b := rsum (p_m P) _). set (c := rsum (tot rs) _).
  assert (0 <= a) by (apply rsum_nonneg; intros; apply Rdiv_le_0_compat; [apply pow2_ge_0|auto]).
  assert (0 <= b) by (apply rsum_nonneg; intros; apply Rdiv_le_0_compat; [apply pow2_ge_0|auto]).
  assert (0 <= c) by (apply rsum_nonneg; intros; apply Rdiv_le_0_compat; [apply pow2_ge_0|apply sreg_pos, Hok]).
  rewrite <- (Rmult_1_l (a * (b + c))) at 2. apply Rmult_le_compat_r; [apply Rmult_le_pos; lra|lra].
Qed.
Lemma strict_diag P M rs : p_op P = mat_op (p_m P) (p_n P) M -> p_regs P = map (model_reg (p_n P)) rs ->
  Forall rs_ok rs -> Forall (rs_steps_ok (p_n P)) rs -> binary_mask (p_xmask P) -> binary_mask (train_mask P) ->
  safe_sigma P -> safe_tau P -> 0 < p_relax P < 1 -> pd_steps_strict P M rs None.
Proof.
  intros H1 H2 H3 H4 H5 H6 H7 H8 H9. exists 1. split; [exact H9|]. apply (diag_steps_ok (with_relax P 1)); try assumption. cbn. lra.
Qed.
Lemma strict_lips P M rs L w : p_regs P = map (model_reg (p_n P)) rs ->
  Forall rs_ok rs -> Forall (rs_steps_ok (p_n P)) rs -> 0 < L -> 0 < p_relax P < w -> w <= 1 ->
  (forall x, norm2 (p_m P) (mv (p_n P) M x) <= (L / w) ^ 2 * norm2 (p_n P) x) -> pd_steps_strict P M rs (Some L).
Proof. intros H1 H2 H3 H4 H5 H6 H7. exists w. split; [exact H5|]. apply (lips_steps_ok (with_relax P w)); try assumption. cbn. lra. Qed.

(** positive definiteness of the metric *)
Lemma inv_lower k (s : vec) : (forall i, (i < k)%nat -> 0 < s i) -> exists c, 0 < c /\ forall i, (i < k)%nat -> c <= / s i.
Proof.
  induction k as [|k IH]; intros H; [exists 1; split; [lra|intros; lia]|]. destruct IH as (c & Hc & Hk); [intros; apply H; lia|].
  exists (Rmin c (/ s k)). split; [apply Rmin_glb_lt; [exact Hc|apply Rinv_0_lt_compat, H; lia]|]. intros i Hi. destruct (Nat.eq_dec i k) as [->|]; [apply Rmin_r|].
  eapply Rle_trans; [apply Rmin_l|]. apply Hk. lia.
Qed.
Lemma ip_lower k s c x : (forall i, (i < k)%nat -> c <= / s i) -> c * norm2 k x <= ip k s x x.
Proof. intros H. unfold norm2, ip. rewrite <- rsum_scal. apply rsum_le. intros i Hi. specialize (H i Hi). unfold Rdiv. replace (x i ^ 2) with (x i * x i) by ring. rewrite Rmult_comm. apply Rmult_le_compat_l; [nra|exact H]. Qed.
Lemma run_pd P M rs l : Forall rs_ok rs -> pd_steps_strict P M rs l -> exists c0, 0 < c0 /\ forall x z, SXp P x -> SZp P z ->
  c0 * (norm2 (p_n P) x + norm2 (mt P rs) z) <= mf (p_n P) (mt P rs) (Kst P M rs) (pdhg_tau P l) (sgst P rs l) x z x z.
Proof.
  intros Hok Hst. destruct (strict_bound P M rs l Hok Hst) as (q & Hq & HB). destruct (strict_pos P M rs l Hst) as [Ps Pt].
  pose proof (strict_ok P M rs l Hok Hst) as Hs.
  destruct (inv_lower (p_n P) (pdhg_tau P l) Pt) as (c1 & C1 & L1). destruct (inv_lower (mt P rs) (sgst P rs l) (sgst_pos P M rs l Hok Hs)) as (c2 & C2 & L2).
  set (r := sqrt q). assert (Hr : 0 < r < 1) by (unfold r; split; [apply sqrt_lt_R0; lra|rewrite <- sqrt_1; apply sqrt_lt_1_alt; lra]). assert (Hrr : r * r = q) by (apply sqrt_sqrt; lra).
  exists ((1 - r) * Rmin c1 c2). split; [apply Rmult_lt_0_compat; [lra|apply Rmin_glb_lt; assumption]|]. intros x z Hx Hz.
  set (a := ip (p_n P) (pdhg_tau P l) x x). set (b := ip (mt P rs) (sgst P rs l) z z). set (k := kd (p_n P) (mt P rs) (Kst P M rs) x z).
  destruct (run_psd P M rs l Hok Hs x z Hx Hz) as (A0 & B0 & _). fold a in A0. fold b in B0.
  assert (K2 : k ^ 2 <= q * (a * b)).
  { pose proof (HB x z (shift (p_m P) z) Hx Hz) as H. unfold k, a, b. rewrite kd_split, ip_split.
    assert (E1 : ip (p_n P) (pdhg_tau P l) x x = rsum (p_n P) (fun j => x j ^ 2 / pdhg_tau P l j)) by (apply rsum_ext; intros; unfold Rdiv; ring).
    assert (E2 : rsum (p_m P) (fun i => z i * z i / pdhg_sigma P l i) = rsum (p_m P) (fun i => z i ^ 2 / pdhg_sigma P l i)) by (apply rsum_ext; intros; unfold Rdiv; ring).
    assert (E3 : rsum (tot rs) (fun i => shift (p_m P) z i * shift (p_m P) z i / sreg rs i) = rsum (tot rs) (fun i => shift (p_m P) z i ^ 2 / sreg rs i)) by (apply rsum_ext; intros; unfold Rdiv; ring).
    rewrite E1, E2, E3. exact H. }
  assert (G : 2 * k <= r * (a + b)).
  { destruct (Rle_lt_dec k 0) as [Hk|Hk]; [assert (0 <= r * (a + b)) by (apply Rmult_le_pos; lra); lra|].
    apply Rsqr_incr_0_var; [|apply Rmult_le_pos; lra]. unfold Rsqr. replace (r * (a + b) * (r * (a + b))) with (q * (a + b) ^ 2) by (rewrite <- Hrr; ring).
    assert (4 * (q * (a * b)) <= q * (a + b) ^ 2) by (assert (0 <= q * (a - b) ^ 2) by (apply Rmult_le_pos; [lra|apply pow2_ge_0]); lra). lra. }
  unfold mf. fold a b k. pose proof (ip_lower _ _ c1 x L1) as I1. pose proof (ip_lower _ _ c2 z L2) as I2. fold a in I1. fold b in I2.
  assert (N1 : 0 <= norm2 (p_n P) x) by (apply rsum_nonneg; intros; apply pow2_ge_0). assert (N2 : 0 <= norm2 (mt P rs) z) by (apply rsum_nonneg; intros; apply pow2_ge_0).
  assert (J1 : Rmin c1 c2 * norm2 (p_n P) x <= a) by (eapply Rle_trans; [apply Rmult_le_compat_r; [exact N1|apply Rmin_l]|exact I1]).
  assert (J2 : Rmin c1 c2 * norm2 (mt P rs) z <= b) by (eapply Rle_trans; [apply Rmult_le_compat_r; [exact N2|apply Rmin_r]|exact I2]).
  assert ((1 - r) * (Rmin c1 c2 * (norm2 (p_n P) x + norm2 (mt P rs) z)) <= (1 - r) * (a + b)) by (apply Rmult_le_compat_l; lra). lra.
Qed.

(** * Boxes around a minimiser *)
Definition boxed (P : problem) (X : vec) : problem :=
  mkProblem (p_n P) (p_m P) (p_op P) (p_b P) (p_x0 P)
    (Some (fun j => if Req_EM_T (mask_at (p_xmask P) j) 0 then 0 else match p_lower P with Some lo => Rmax (lo j) (X j - 1) | None => X j - 1 end))
    (Some (fun j => if Req_EM_T (mask_at (p_xmask P) j) 0 then 0 else match p_upper P with Some up => Rmin (up j) (X j + 1) | None => X j + 1 end))
    (p_xmask P) (p_bmask P) (p_btest P) (p_tol P) (p_relax P) (p_regs P) (p_dterm P) (p_dterm_test P).
Lemma boxed_iff P X y : binary_mask (p_xmask P) -> obeys_limits (boxed P X) y <->
  obeys_limits P y /\ forall j, (j < p_n P)%nat -> mask_at (p_xmask P) j = 1 -> X j - 1 <= y j <= X j + 1.
Proof.
  intros Hb. unfold obeys_limits. cbn [boxed p_lower p_upper p_xmask p_n]. split.
  - intros H. split.
    + intros j Hj. destruct (H j Hj) as [H1 H2]. split; [exact H1|]. intros Hm. specialize (H2 Hm). cbv beta in H2.
      assert (E : mask_at (p_xmask P) j = 1) by (unfold mask_at; destruct (p_xmask P); auto). rewrite E in H2. destruct (Req_EM_T 1 0); [lra|].
      destruct H2 as [A B]. split; [destruct (p_lower P) as [lo|]; [|exact I]; eapply Rle_trans; [apply Rmax_l|exact A]|destruct (p_upper P) as [up|]; [|exact I]; eapply Rle_trans; [exact B|apply Rmin_l]].
    + intros j Hj E. destruct (feasible_in _ _ _ _ _ j H Hj E) as [A B]. rewrite E in A, B. destruct (Req_EM_T 1 0); [lra|]. split.
      * destruct (p_lower P); [eapply Rle_trans; [apply Rmax_r|exact A]|exact A].
      * destruct (p_upper P); [eapply Rle_trans; [exact B|apply Rmin_r]|exact B].
  - intros [H HX] j Hj. destruct (H j Hj) as [H1 H2]. split; [exact H1|]. intros Hm. specialize (H2 Hm).
    assert (E : mask_at (p_xmask P) j = 1) by (unfold mask_at; destruct (p_xmask P); auto). rewrite E. destruct (Req_EM_T 1 0); [lra|]. specialize (HX j Hj E). destruct H2 as [A B]. split.
    + destruct (p_lower P); [apply Rmax_lub; lra|lra].
    + destruct (p_upper P); [apply Rmin_glb; lra|lra].
Qed.
Lemma boxed_limits P X : binary_mask (p_xmask P) -> obeys_limits P X -> limits_ok (boxed P X).
Proof.
  intros Hb HX lo up j El Eu Hj. cbn in El, Eu. injection El as <-. injection Eu as <-. destruct (Req_EM_T (mask_at (p_xmask P) j) 0) as [E|E]; [lra|].
  assert (E1 : mask_at (p_xmask P) j = 1) by (destruct (Hb j); [contradiction|assumption]). destruct (feasible_in _ _ _ _ _ j HX Hj E1) as [A B].
  apply Rle_trans with (X j).
  - destruct (p_lower P); [apply Rmax_lub; lra|lra].
  - destruct (p_upper P); [apply Rmin_glb; lra|lra].
Qed.

Definition unitv (i : nat) (r : R) : vec := fun k => if Nat.eqb k i then r else 0.
Lemma unit_sum k i r f : (i < k)%nat -> rsum k (fun j => f j * unitv i r j) = f i * r.
Proof.
  intros Hi. induction k as [|k IH]; [lia|]. cbn [rsum]. destruct (Nat.eq_dec i k) as [->|].
  - rewrite rsum_zero; [unfold unitv; rewrite Nat.eqb_refl; ring|]. intros j Hj. unfold unitv. replace (Nat.eqb j k) with false by (symmetry; apply Nat.eqb_neq; lia). ring.
  - rewrite IH by lia. unfold unitv. replace (Nat.eqb k i) with false by (symmetry; apply Nat.eqb_neq; lia). ring.
Qed.
Lemma dual_probe r i : rs_ok r -> (i < rs_p r)%nat -> forall s, Rabs s <= rs_w r -> dual_ok r (unitv i s).
Proof.
  intros (Hw & Hs & Hk) Hi s Hsw. unfold dual_ok. destruct (rs_kind r) as [|nax N|]; [| |exact I].
  - intros k Hk'. unfold unitv. destruct (Nat.eqb k i); [exact Hsw|rewrite Rabs_R0; lra].
  - intros k Hk'. apply grp_le; [exact Hw|]. apply Rle_trans with (s ^ 2); [|rewrite <- (pow2_abs s); apply pow_incr; split; [apply Rabs_pos|exact Hsw]].
    assert (HN : (N <> 0)%nat) by lia.
    destruct (Nat.eq_dec k (i mod N)) as [E|E].
    + assert (Ei : (i = (i / N) * N + k)%nat) by (rewrite E; rewrite (Nat.div_mod i N HN) at 1; lia).
      rewrite (rsum_ext nax _ (fun a => s * unitv (i / N) s a)).
      2:{ intros a Ha. unfold unitv. destruct (Nat.eqb a (i / N)) eqn:Ea; destruct (Nat.eqb (a * N + k) i) eqn:Eb; try ring.
          - apply Nat.eqb_eq in Ea. apply Nat.eqb_neq in Eb. subst a. lia.
          - apply Nat.eqb_neq in Ea. apply Nat.eqb_eq in Eb. exfalso. apply Ea. rewrite Ei in Eb. nia. }
      rewrite (unit_sum nax (i / N) s (fun _ => s)); [right; ring|]. rewrite Hk in Hi. apply Nat.div_lt_upper_bound; lia.
    + rewrite rsum_zero; [apply pow2_ge_0|]. intros a Ha. unfold unitv. destruct (Nat.eqb (a * N + k) i) eqn:Eb; [|ring].
      apply Nat.eqb_eq in Eb. exfalso. apply E. rewrite <- Eb. rewrite Nat.add_comm, Nat.mod_add by exact HN. symmetry. apply Nat.mod_small. exact Hk'.
Qed.
Lemma shift_unit_hi k i r : (k <= i)%nat -> shift k (unitv i r) = unitv (i - k) r.
Proof. intros H. apply vec_ext. intros j. unfold shift, unitv. destruct (Nat.eqb (k + j) i) eqn:E1, (Nat.eqb j (i - k)) eqn:E2; try reflexivity; [apply Nat.eqb_eq in E1; apply Nat.eqb_neq in E2; lia|apply Nat.eqb_neq in E1; apply Nat.eqb_eq in E2; lia]. Qed.
Lemma shift_unit_lo k i r : (i < k)%nat -> shift k (unitv i r) = vzeros.
Proof. intros H. apply vec_ext. intros j. unfold shift, unitv, vzeros. replace (Nat.eqb (k + j) i) with false by (symmetry; apply Nat.eqb_neq; lia). reflexivity. Qed.
Lemma regs_probe rs i : Forall rs_ok rs -> (i < tot rs)%nat -> exists rho, 0 < rho /\ domreg rs (unitv i rho) /\ domreg rs (unitv i (- rho)).
Proof.
  intros Hok. revert i. induction Hok as [|r rs Hr Hok IH]; intros i Hi; cbn [tot] in Hi; [lia|]. cbn [domreg]. destruct (Nat.lt_ge_cases i (rs_p r)) as [H|H].
  - exists (rs_w r). pose proof Hr as (Hw & _). split; [exact Hw|]. rewrite !shift_unit_lo by exact H.
    split; (split; [apply dual_probe; [exact Hr|exact H|rewrite ?Rabs_Ropp, Rabs_right; lra]|apply domreg_0, Hok]).
  - destruct (IH (i - rs_p r)%nat ltac:(lia)) as (rho & Hrho & D1 & D2). exists rho. split; [exact Hrho|]. rewrite !shift_unit_hi by exact H.
    assert (Z : forall s, dual_ok r (unitv i s)).
    { intros s. apply (dual_ok_ext r vzeros); [exact Hr| |apply dual_ok_0, Hr]. intros k Hk. unfold unitv, vzeros. replace (Nat.eqb k i) with false by (symmetry; apply Nat.eqb_neq; lia). reflexivity. }
    split; (split; [apply Z|assumption]).
Qed.
Lemma finite_const k (Q : nat -> R -> Prop) : (forall i c c', Q i c -> c <= c' -> Q i c') -> (forall i, (i < k)%nat -> exists c, Q i c) -> exists C, 0 <= C /\ forall i, (i < k)%nat -> Q i C.
Proof.
  intros Hm. induction k as [|k IH]; intros H; [exists 0; split; [lra|intros; lia]|]. destruct IH as (C & C0 & HC); [intros; apply H; lia|]. destruct (H k ltac:(lia)) as (c & Hc).
  exists (Rmax C c). split; [eapply Rle_trans; [exact C0|apply Rmax_l]|]. intros i Hi. destruct (Nat.eq_dec i k) as [->|].
  - apply (Hm k c); [exact Hc|apply Rmax_r].
  - apply (Hm i C); [apply HC; lia|apply Rmax_l].
Qed.

Section RunE.
  Variables (P : problem) (M : mat) (rs : list rspec) (l : option R) (D : dspec) (dead : nat -> bool).
  Hypothesis Hop : p_op P = mat_op (p_m P) (p_n P) M.
  Hypothesis Hregs : p_regs P = map (model_reg (p_n P)) rs.
  Hypothesis Hok : Forall rs_ok rs.
  Hypothesis HD : dspec_ok (p_m P) (pdhg_sigma P l) (train_mask P) (data_step P l) D.
  Hypothesis Hlim : limits_ok P.
  Hypothesis Hbx : binary_mask (p_xmask P).
  Hypothesis Hsteps : pd_steps_ok P M rs l.
  (** every pixel is either ignored by the data term or seen by it *)
  Hypothesis Hprobe : forall i, (i < p_m P)%nat ->
    if dead i then (forall z, ds_dom D z -> z i = 0) else exists rho, 0 < rho /\ ds_dom D (unitv i rho) /\ ds_dom D (unitv i (- rho)).

  Let n := p_n P.
  Let m := p_m P.
  Let obj := data_objective P M D rs.
  Let L := lag (p_n P) (mt P rs) (Kst P M rs) (Fd P rs D).
  Let Ks : mat := putm m (fun i j => if dead i then 0 else M i j) (Kreg rs).

  Lemma e_seen x i : (i < mt P rs)%nat -> (if Nat.ltb i m then dead i else false) = false -> mv n Ks x i = mv n (Kst P M rs) x i.
  Proof.
    intros Hi Hd. unfold Ks, Kst. fold m. destruct (Nat.lt_ge_cases i m) as [H|H].
    - rewrite !mv_put_lo by exact H. apply Nat.ltb_lt in H. rewrite H in Hd. unfold mv. rewrite Hd. reflexivity.
    - replace i with (m + (i - m))%nat by lia. rewrite !mv_put_hi. reflexivity.
  Qed.
  Lemma e_blind_kd d z : (forall i, (i < mt P rs)%nat -> mv n Ks d i = 0) -> domd P rs D z -> kd n (mt P rs) (Kst P M rs) d z = 0.
  Proof.
    intros Hd [Hz _]. unfold kd, dot. apply rsum_zero. intros i Hi. destruct (if Nat.ltb i m then dead i else false) eqn:E.
    - destruct (Nat.ltb i m) eqn:E2; [|discriminate]. apply Nat.ltb_lt in E2. pose proof (Hprobe i E2) as Pr. rewrite E in Pr. rewrite (Pr z Hz). ring.
    - rewrite <- e_seen by assumption. rewrite (Hd i Hi). ring.
  Qed.
  Lemma e_blind_le x d t : (forall i, (i < mt P rs)%nat -> mv n Ks d i = 0) -> obj (fun j => x j + t * d j) <= obj x.
  Proof.
    intros Hd. destruct (d_att P M rs l D Hok HD (fun j => x j + t * d j)) as (Y & DY & EY & _). unfold obj. rewrite <- EY.
    eapply Rle_trans; [|apply (d_sup P M rs l D Hok HD x Y DY)]. right. unfold lag. f_equal.
    replace (fun j => x j + t * d j) with (lc 1 x t d) by (apply vec_ext; intros; unfold lc; ring). rewrite kd_l. pose proof (e_blind_kd d Y Hd DY) as E. fold n. rewrite E. ring.
  Qed.
  Lemma e_probe i : (i < mt P rs)%nat -> (if Nat.ltb i m then dead i else false) = false -> exists rho, 0 < rho /\ domd P rs D (unitv i rho) /\ domd P rs D (unitv i (- rho)).
  Proof.
    intros Hi Hd. destruct (Nat.lt_ge_cases i m) as [H|H].
    - pose proof (Hprobe i H) as Pr. apply Nat.ltb_lt in H as H'. rewrite H' in Hd. rewrite Hd in Pr. destruct Pr as (rho & Hr & D1 & D2). exists rho. split; [exact Hr|].
      unfold domd. fold m. rewrite !shift_unit_lo by exact H. pose proof (domreg_0 rs Hok). tauto.
    - destruct (regs_probe rs (i - m)%nat Hok ltac:(unfold mt in Hi; fold m in Hi; lia)) as (rho & Hr & D1 & D2). exists rho. split; [exact Hr|]. unfold domd. fold m. rewrite !shift_unit_hi by exact H.
      destruct HD as (_ & _ & _ & _ & _ & _ & Hz & HE & _).
      assert (Z : forall s, ds_dom D (unitv i s)). { intros s. apply (HE vzeros _ Hz). intros k Hk. unfold unitv, vzeros. fold m in Hk. replace (Nat.eqb k i) with false by (symmetry; apply Nat.eqb_neq; lia). reflexivity. }
      split; (split; [apply Z|assumption]).
  Qed.
  Lemma e_sees B : exists C, 0 <= C /\ forall x, obj x <= B -> forall i, (i < mt P rs)%nat -> Rabs (mv n Ks x i) <= C.
  Proof.
    destruct (finite_const (mt P rs) (fun i c => forall x, obj x <= B -> Rabs (mv n Ks x i) <= c)) as (C & C0 & HC).
    - intros i c c' H Hc x Hx. eapply Rle_trans; [apply (H x Hx)|exact Hc].
    - intros i Hi. destruct (if Nat.ltb i m then dead i else false) eqn:E.
      + exists 0. intros x _. destruct (Nat.ltb i m) eqn:E2; [|discriminate]. apply Nat.ltb_lt in E2. unfold Ks. rewrite mv_put_lo by exact E2. unfold mv. rewrite E.
        rewrite rsum_zero by (intros; ring). rewrite Rabs_R0. lra.
      + destruct (e_probe i Hi E) as (rho & Hr & D1 & D2). exists (Rmax (B + Fd P rs D (unitv i rho)) (B + Fd P rs D (unitv i (- rho))) / rho). intros x Hx.
        rewrite e_seen by assumption. pose proof (d_sup P M rs l D Hok HD x _ D1) as S1. pose proof (d_sup P M rs l D Hok HD x _ D2) as S2. fold obj in S1, S2.
        unfold lag, kd, dot in S1, S2. rewrite unit_sum in S1, S2 by exact Hi. fold n in S1, S2. set (u := mv n (Kst P M rs) x i) in *.
        set (T1 := B + Fd P rs D (unitv i rho)) in *. set (T2 := B + Fd P rs D (unitv i (- rho))) in *.
        apply Rmult_le_reg_r with rho; [exact Hr|]. unfold Rdiv. rewrite Rmult_assoc, Rinv_l by lra. rewrite Rmult_1_r.
        pose proof (Rmax_l T1 T2). pose proof (Rmax_r T1 T2). assert (u * rho <= T1) by (unfold T1; lra). assert (u * - rho <= T2) by (unfold T2; lra).
        unfold Rabs. destruct (Rcase_abs u); lra.
    - exists C. split; [exact C0|]. intros x Hx i Hi. apply (HC i Hi x Hx).
  Qed.
  Theorem e_minimiser : exists X, minimises (obeys_limits P) obj X.
  Proof.
    destruct (minimiser_exists (mt P rs) n Ks obj (fun _ => True) (p_lower P) (p_upper P) (p_xmask P) (- Fd P rs D vzeros)) as (X & [[HX _] HM]).
    - intros x _ _. assert (D0 : domd P rs D vzeros) by (split; [apply HD|apply domreg_0, Hok]).
      pose proof (d_sup P M rs l D Hok HD x vzeros D0) as S. unfold lag in S. rewrite kd_0_r in S. fold obj in S. lra.
    - exists (constrain (p_lower P) (p_upper P) (p_xmask P) vzeros). split; [|exact I]. apply constrain_feasible. exact Hlim.
    - intros x d t Hd _. split; [exact I|]. apply Rle_antisym; [apply e_blind_le, Hd|].
      pose proof (e_blind_le (fun j => x j + t * d j) d (- t) Hd) as H. eapply Rle_trans; [|exact H]. right. f_equal. apply vec_ext. intros j. ring.
    - intros B. destruct (e_sees B) as (C & C0 & HC). exists C. split; [exact C0|]. intros x _ _ Hx. apply HC, Hx.
    - intros U v c Hc HU. split; [exact I|]. destruct (d_att P M rs l D Hok HD v) as (Y & DY & EY & _). unfold obj. rewrite <- EY.
      apply (pcluster_le n U v (fun e => lag (p_n P) (mt P rs) (Kst P M rs) (Fd P rs D) e Y) c Hc).
      + unfold lag. apply (cont_plus _ (fun e => kd (p_n P) (mt P rs) (Kst P M rs) e Y) (fun _ => - Fd P rs D Y)); [|apply cont_const].
        apply (cont_kd n (mt P rs) n n (Kst P M rs) (fun j e => e j) (fun i _ => Y i)); [intros; apply cont_coord; assumption|intros; apply cont_const|reflexivity].
      + intros eps He. destruct (arch_inv eps He) as [N HN]. exists N. intros k u Hk Hu. destruct (HU k u Hu) as (_ & _ & H2). pose proof (inv_S_mono N k Hk).
        pose proof (d_sup P M rs l D Hok HD u Y DY) as S. fold obj in S. lra.
    - exists X. split; [exact HX|]. intros y Hy. apply HM. split; [exact Hy|exact I].
  Qed.
  (** every minimiser is the volume of a saddle point *)
  Theorem e_saddle X : minimises (obeys_limits P) obj X -> exists Z, saddled P M rs D X Z.
  Proof.
    intros [FX MX]. pose proof (boxed_iff P X) as BI.
    assert (FXb : obeys_limits (boxed P X) X) by (apply BI; [exact Hbx|]; split; [exact FX|intros; lra]).
    destruct (d_saddle (boxed P X) M rs l D Hop Hregs Hok HD (boxed_limits P X Hbx FX) Hbx Hsteps) as (X' & Z & FX' & DZ & S1 & S2 & E).
    { intros B. exists (rsum n (fun j => Rabs (X j) + 1)). intros y Hy _ j Hj. apply BI in Hy; [|exact Hbx]. destruct Hy as [Hy HB].
      pose proof (rsum_term_le n (fun j => Rabs (X j) + 1) j ltac:(intros k _; pose proof (Rabs_pos (X k)); lra) Hj) as T. cbv beta in T. eapply Rle_trans; [|exact T].
      change (p_n (boxed P X)) with n in Hj. destruct (Hbx j) as [Em|Em].
      - rewrite (feasible_out _ _ _ _ _ j Hy Hj Em), Rabs_R0. pose proof (Rabs_pos (X j)). lra.
      - specialize (HB j Hj Em). unfold Rabs. destruct (Rcase_abs (y j)), (Rcase_abs (X j)); lra. }
    change (lag (p_n (boxed P X)) (mt (boxed P X) rs) (Kst (boxed P X) M rs) (Fd (boxed P X) rs D)) with L in *.
    change (data_objective (boxed P X) M D rs) with obj in E. change (domd (boxed P X) rs D) with (domd P rs D) in *.
    assert (FXP : obeys_limits P X') by (apply BI in FX'; [apply FX'|exact Hbx]).
    assert (SupX : L X Z <= obj X) by (apply (d_sup P M rs l D Hok HD X Z DZ)).
    pose proof (S1 X FXb) as Q1. pose proof (MX X' FXP) as Q2.
    assert (EX : obj X = L X Z) by lra.
    exists Z. split; [exact FX|]. split; [exact DZ|]. split; [|split; [|exact EX]].
    - intros y Hy. fold L. set (t := / (1 + rsum n (fun j => Rabs (y j - X j)))).
      assert (Sn : 0 <= rsum n (fun j => Rabs (y j - X j))) by (apply rsum_nonneg; intros; apply Rabs_pos).
      assert (Ht : 0 < t <= 1). { unfold t. split; [apply Rinv_0_lt_compat; lra|]. rewrite <- Rinv_1. apply Rinv_le_contravar; lra. }
      assert (Fb : obeys_limits (boxed P X) (lc t y (1 - t) X)).
      { apply BI; [exact Hbx|]. split; [apply feasible_convex; [lra|exact Hy|exact FX]|]. intros j Hj _. unfold lc.
        pose proof (rsum_term_le n (fun j => Rabs (y j - X j)) j ltac:(intros; apply Rabs_pos) Hj) as T. cbv beta in T.
        assert (B : t * Rabs (y j - X j) <= 1). { unfold t. apply Rmult_le_reg_l with (1 + rsum n (fun j => Rabs (y j - X j))); [lra|]. rewrite <- Rmult_assoc, Rinv_r by lra. lra. }
        assert (- Rabs (y j - X j) <= y j - X j <= Rabs (y j - X j)) by (apply abs_le_iff; lra).
        assert (- (t * Rabs (y j - X j)) <= t * (y j - X j) <= t * Rabs (y j - X j)) by (split; nra). lra. }
      pose proof (S1 _ Fb) as Q. rewrite (lag_affine (p_n P) (mt P rs) (Kst P M rs) (Fd P rs D) t y X Z) in Q || (unfold L in Q at 2; rewrite lag_affine in Q).
      fold L in Q. assert (t * L X Z <= t * L y Z) by lra. apply Rmult_le_reg_l with t; lra.
    - intros w Hw. fold L. rewrite <- EX. apply (d_sup P M rs l D Hok HD X w Hw).
  Qed.
  (** the rate, towards any minimiser *)
  Theorem e_rate X : p_tol P = None -> minimises (obeys_limits P) obj X -> exists C, 0 <= C /\
    forall it, (2 <= it)%nat -> let x := fst (pdhg_call P l it) in obeys_limits P x /\ obj x <= obj X + C / sqrt (INR it).
  Proof.
    intros Htol HM. destruct (e_saddle X HM) as (Z & HS). exists (2 * Rmax 0 (rated P M rs l D X Z)). split; [pose proof (Rmax_l 0 (rated P M rs l D X Z)); lra|].
    intros i Hi. cbv zeta. rewrite (pdhg_no_tol P l i Htol). destruct i as [|[|k]]; try lia. split.
    - apply (run_feas P M rs l Hop Hregs Hlim (S k)).
    - pose proof (d_rate P M rs l D Hop Hregs Hok HD Hlim Hbx Hsteps X Z k HS) as H. fold obj in H. pose proof (rate_double (rated P M rs l D X Z) k). lra.
  Qed.
  (** the whole sequence *)
  Theorem e_sequence X0 Z0 : p_tol P = None -> pd_steps_strict P M rs l -> saddled P M rs D X0 Z0 -> exists X, minimises (obeys_limits P) obj X /\
    forall eps, 0 < eps -> exists N, forall it, (N <= it)%nat -> forall j, (j < n)%nat -> Rabs (fst (pdhg_call P l it) j - X j) < eps.
  Proof.
    intros Htol Hst (FX & DZ & S1 & S2 & E0). destruct (run_pd P M rs l Hok Hst) as (c0 & C0 & Hpd).
    destruct (sequence_converges n (mt P rs) (Kst P M rs) (pdhg_tau P l) (sgst P rs l) (SXp P) (SZp P) (obeys_limits P) (domd P rs D) (Fd P rs D) (xs P l) (zs P rs l) c0) with (X0 := X0) (Z0 := Z0)
      as (X & Z & FX1 & DZ1 & T1 & T2 & Conv).
    - intros a x b y Hx Hy j Hj E. unfold lc. rewrite (Hx j Hj E), (Hy j Hj E). ring.
    - intros a x b y Hx Hy j Hj E. unfold lc. rewrite (Hx j Hj E), (Hy j Hj E). ring.
    - apply (run_psd P M rs l Hok Hsteps).
    - exact C0.
    - exact Hpd.
    - apply feas_S.
    - apply (domd_S P rs l D HD).
    - intros k. apply (run_feas P M rs l Hop Hregs Hlim).
    - intros k. apply (d_dom P M rs l D Hop Hregs Hok HD).
    - intros k X1. apply (run_primal P M rs l Hop Hregs Hlim Hbx Hsteps).
    - intros k Y. apply (d_dual P M rs l D Hop Hregs Hok HD).
    - apply feasible_closed.
    - intros u v g e Hc Hu Hg He Hle. assert (Ct : cluster (mt P rs) (fun k => tail n (u k)) (tail n v)) by (apply (cluster_sub (n + mt P rs) (mt P rs) n); [lia|exact Hc]).
      split; [apply (d_closed P rs l D Hok HD _ _ Ct Hu)|].
      cut (Fd P rs D (tail n v) + -1 * g v <= 0); [lra|]. apply (cluster_le (n + mt P rs) u v (fun w => Fd P rs D (tail n w) + -1 * g w) e Hc).
      + apply cont_plus; [|apply cont_scal, Hg]. apply (cont_shift n (mt P rs) (Fd P rs D) v). apply (d_cont P rs l D HD).
      + exact He.
      + intros k. specialize (Hle k). lra.
    - exact FX.
    - exact DZ.
    - exact S1.
    - exact S2.
    - exists X. split.
      + assert (E : obj X = L X Z). { apply Rle_antisym; [|apply (d_sup P M rs l D Hok HD X Z DZ1)]. destruct (d_att P M rs l D Hok HD X) as (Y & DY & EY & _). unfold obj. rewrite <- EY. apply (T2 Y DY). }
        apply (d_saddle_min P M rs l D Hok HD X Z). split; [exact FX1|]. split; [exact DZ1|]. split; [exact T1|]. split; [exact T2|exact E].
      + intros eps He. destruct (Conv eps He) as [N HN]. exists (S N). intros it Hit j Hj. rewrite (pdhg_no_tol P l it Htol). destruct it as [|k]; [lia|]. apply (HN k ltac:(lia)), Hj.
  Qed.
End RunE.
