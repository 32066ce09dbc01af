(** Convergence of the whole primal-dual sequence: when the metric of the method is positive definite (relaxation strictly
    below one) the iterates themselves converge to one saddle point, however many saddle points there are. *)
From Verif Require Import Sums SolversModel SolversSpec SolversGeneric SolversConv Compact PdhgConv.

Definition tail (n : nat) (u : vec) : vec := fun i => u (n + i)%nat.
Lemma cont_ip d k s (f g : nat -> vec -> R) v : (forall i, (i < k)%nat -> cont d (f i) v) -> (forall i, (i < k)%nat -> cont d (g i) v) ->
  cont d (fun u => ip k s (fun i => f i u) (fun i => g i u)) v.
Proof.
  intros Hf Hg. unfold ip. apply (cont_rsum d k (fun i u => f i u * g i u / s i)). intros i Hi.
  apply (cont_ext _ (fun u => / s i * (f i u * g i u))); [intros; unfold Rdiv; ring|]. apply cont_scal, cont_mult; auto.
Qed.
Lemma cont_lc d (f : vec -> R) c v : cont d f v -> cont d (fun u => 1 * f u + -1 * c) v.
Proof. intros H. apply cont_plus; [apply cont_scal, H|apply cont_const]. Qed.

Section Seq.
  Variables (n m : nat) (K : mat) (tau sig : vec) (SX SZ : vec -> Prop) (feas dom : vec -> Prop) (Fs : vec -> R) (x z : nat -> vec) (c0 : R).
  Hypothesis SXl : forall a x b y, SX x -> SX y -> SX (lc a x b y).
  Hypothesis SZl : forall a x b y, SZ x -> SZ y -> SZ (lc a x b y).
  Hypothesis Hpsd : forall x z, SX x -> SZ z -> 0 <= ip n tau x x /\ 0 <= ip m sig z z /\ kd n m K x z ^ 2 <= ip n tau x x * ip m sig z z.
  Hypothesis Hc0 : 0 < c0.
  Hypothesis Hpd : forall x z, SX x -> SZ z -> c0 * (norm2 n x + norm2 m z) <= mf n m K tau sig x z x z.
  Hypothesis feasS : forall x, feas x -> SX x.
  Hypothesis domS : forall z, dom z -> SZ z.
  Hypothesis Hfx : forall k, feas (x k).
  Hypothesis Hdz : forall k, dom (z k).
  Hypothesis Hprimal : forall k X, feas X ->
    ip n tau (lc 1 (x k) (-1) (x (S k))) (lc 1 X (-1) (x (S k))) <= kd n m K (lc 1 X (-1) (x (S k))) (z k).
  Hypothesis Hdual : forall k Y, dom Y ->
    Fs (z (S k)) + kd n m K (lc 2 (x (S k)) (-1) (x k)) (lc 1 Y (-1) (z (S k)))
      + ip m sig (lc 1 (z k) (-1) (z (S k))) (lc 1 Y (-1) (z (S k))) <= Fs Y.
  Hypothesis feas_closed : forall u v, cluster n u v -> (forall k, feas (u k)) -> feas v.
  (** the conjugate is lower semicontinuous with closed effective domain *)
  Hypothesis Fs_lsc : forall u v g e, cluster (n + m) u v -> (forall k, dom (tail n (u k))) -> cont (n + m) g v ->
    (forall eps, 0 < eps -> exists N, forall k, (N <= k)%nat -> e k < eps) -> (forall k, Fs (tail n (u k)) <= g (u k) + e k) ->
    dom (tail n v) /\ Fs (tail n v) <= g v.
  Variables (X0 Z0 : vec).
  Hypothesis HX0 : feas X0.
  Hypothesis HZ0 : dom Z0.
  Let L := lag n m K Fs.
  Hypothesis Hsp1 : forall x, feas x -> L X0 Z0 <= L x Z0.
  Hypothesis Hsp2 : forall z, dom z -> L X0 z <= L X0 Z0.
  Let D2 := dist2 n m K tau sig x z.

  Lemma d2_le X Z k : feas X -> dom Z -> (forall x, feas x -> L X Z <= L x Z) -> (forall z, dom z -> L X z <= L X Z) -> D2 (S k) X Z <= D2 k X Z.
  Proof.
    intros HX HZ S1 S2. pose proof (gap_fejer n m K tau sig feas dom Fs x z Hprimal Hdual k X Z HX HZ) as G. fold L D2 in G.
    pose proof (S1 _ (Hfx (S k))). pose proof (S2 _ (Hdz (S k))).
    pose proof (step2_nonneg n m K tau sig SX SZ SXl SZl Hpsd feas dom feasS domS x z Hfx Hdz k). lra.
  Qed.
  Lemma d2_mono X Z k q : feas X -> dom Z -> (forall x, feas x -> L X Z <= L x Z) -> (forall z, dom z -> L X z <= L X Z) -> (k <= q)%nat -> D2 q X Z <= D2 k X Z.
  Proof. intros HX HZ S1 S2. induction 1 as [|q H IH]; [lra|]. eapply Rle_trans; [apply d2_le; assumption|exact IH]. Qed.
  Lemma d2_norm X Z k : feas X -> dom Z -> c0 * (norm2 n (lc 1 (x k) (-1) X) + norm2 m (lc 1 (z k) (-1) Z)) <= D2 k X Z.
  Proof. intros HX HZ. apply Hpd; [apply SXl; auto|apply SZl; auto]. Qed.
  Lemma d2_coord X Z k : feas X -> dom Z -> (forall j, (j < n)%nat -> (x k j - X j) ^ 2 <= D2 k X Z / c0) /\ (forall i, (i < m)%nat -> (z k i - Z i) ^ 2 <= D2 k X Z / c0).
  Proof.
    intros HX HZ. pose proof (d2_norm X Z k HX HZ) as H.
    assert (A : forall q u, 0 <= norm2 q u) by (intros q u; apply rsum_nonneg; intros; apply pow2_ge_0).
    assert (T : norm2 n (lc 1 (x k) (-1) X) + norm2 m (lc 1 (z k) (-1) Z) <= D2 k X Z / c0).
    { apply Rmult_le_reg_l with c0; [exact Hc0|]. replace (c0 * (D2 k X Z / c0)) with (D2 k X Z) by (field; lra). exact H. }
    pose proof (A n (lc 1 (x k) (-1) X)). pose proof (A m (lc 1 (z k) (-1) Z)).
    split; intros j Hj.
    - pose proof (rsum_term_le n (fun j => lc 1 (x k) (-1) X j ^ 2) j ltac:(intros; apply pow2_ge_0) Hj) as B. cbv beta in B.
      replace (x k j - X j) with (lc 1 (x k) (-1) X j) by (unfold lc; ring). unfold norm2 in *. lra.
    - pose proof (rsum_term_le m (fun j => lc 1 (z k) (-1) Z j ^ 2) j ltac:(intros; apply pow2_ge_0) Hj) as B. cbv beta in B.
      replace (z k j - Z j) with (lc 1 (z k) (-1) Z j) by (unfold lc; ring). unfold norm2 in *. lra.
  Qed.
  (** distances to an arbitrary pair stay bounded *)
  Lemma d2_bound y w : feas y -> dom w -> exists B, 0 <= B /\ forall k, D2 k y w <= B.
  Proof.
    intros Hy Hw. set (Q := mf n m K tau sig (lc 1 X0 (-1) y) (lc 1 Z0 (-1) w) (lc 1 X0 (-1) y) (lc 1 Z0 (-1) w)).
    exists (2 * D2 0%nat X0 Z0 + 2 * Q). split.
    - assert (0 <= Q) by (apply (mf_nonneg n m K tau sig SX SZ Hpsd); [apply SXl; auto|apply SZl; auto]).
      pose proof (dist2_nonneg n m K tau sig SX SZ SXl SZl Hpsd feas dom feasS domS x z Hfx Hdz 0 X0 Z0 HX0 HZ0) as G. fold D2 in G. lra.
    - intros k. pose proof (d2_mono X0 Z0 0 k HX0 HZ0 Hsp1 Hsp2 ltac:(lia)) as M0.
      assert (P : D2 k y w <= 2 * D2 k X0 Z0 + 2 * Q); [|lra].
      pose proof (mf_par n m K tau sig SX SZ SXl SZl Hpsd (lc 1 (x k) (-1) X0) (lc 1 (z k) (-1) Z0) (lc 1 X0 (-1) y) (lc 1 Z0 (-1) w)
        ltac:(apply SXl; auto) ltac:(apply SZl; auto) ltac:(apply SXl; auto) ltac:(apply SZl; auto)) as H.
      fold Q in H. eapply Rle_trans; [|exact H]. right. unfold D2, dist2, mf. repeat rewrite ?ip_l, ?ip_r, ?kd_l, ?kd_r. ring.
  Qed.
  Lemma gap_small y w : feas y -> dom w -> exists e : nat -> R, (forall eps, 0 < eps -> exists N, forall k, (N <= k)%nat -> e k < eps) /\
    forall k, L (x (S k)) w - L y (z (S k)) <= e k.
  Proof.
    intros Hy Hw. destruct (d2_bound y w Hy Hw) as (B & B0 & HB). set (D := D2 0%nat X0 Z0).
    assert (D0 : 0 <= D) by apply (dist2_nonneg n m K tau sig SX SZ SXl SZl Hpsd feas dom feasS domS x z Hfx Hdz 0 X0 Z0 HX0 HZ0).
    exists (fun k => (D + B) / 2 / sqrt (INR (S k))). split.
    - intros eps He. set (C := (D + B) / 2). assert (C0 : 0 <= C) by (unfold C; lra). destruct (INR_above ((C / eps) ^ 2 + 1)) as [N HN]. exists N. intros k Hk.
      assert (Hs : C / eps < sqrt (INR (S k))).
      { assert (0 <= C / eps) by (apply Rdiv_le_0_compat; lra). rewrite <- (sqrt_pow2 (C / eps)) by lra. apply sqrt_lt_1_alt. split; [apply pow2_ge_0|].
        apply Rlt_trans with (INR N); [lra|]. apply lt_INR. lia. }
      assert (0 < sqrt (INR (S k))) by (apply sqrt_lt_R0, lt_0_INR; lia).
      apply Rmult_lt_reg_r with (sqrt (INR (S k))); [assumption|]. unfold Rdiv at 1. rewrite Rmult_assoc, Rinv_l by lra. rewrite Rmult_1_r.
      apply Rmult_lt_reg_r with (/ eps); [apply Rinv_0_lt_compat; lra|]. replace (eps * sqrt (INR (S k)) * / eps) with (sqrt (INR (S k))) by (field; lra). exact Hs.
    - intros k. set (r := sqrt (INR (S k))). assert (Hr : 0 < r) by (apply sqrt_lt_R0, lt_0_INR; lia). assert (Er : r * r = INR (S k)) by (apply sqrt_sqrt, pos_INR).
      pose proof (gap n m K tau sig feas dom Fs x z Hprimal Hdual k y w Hy Hw) as G. fold L in G.
      pose proof (mf_young n m K tau sig SX SZ SXl SZl Hpsd (/ r) (stepx x k) (stepz z k) (lc 1 (x (S k)) (-1) y) (lc 1 (z (S k)) (-1) w) ltac:(apply Rinv_0_lt_compat, Hr)
        ltac:(unfold stepx; apply SXl; auto) ltac:(unfold stepz; apply SZl; auto) ltac:(apply SXl; auto) ltac:(apply SZl; auto)) as Y.
      change (mf n m K tau sig (lc 1 (x (S k)) (-1) y) (lc 1 (z (S k)) (-1) w) (lc 1 (x (S k)) (-1) y) (lc 1 (z (S k)) (-1) w)) with (D2 (S k) y w) in Y.
      change (mf n m K tau sig (stepx x k) (stepz z k) (stepx x k) (stepz z k)) with (step2 n m K tau sig x z k) in Y.
      pose proof (step2_rate n m K tau sig SX SZ SXl SZl Hpsd feas dom Fs feasS domS x z Hfx Hdz Hprimal Hdual X0 Z0 HX0 HZ0 Hsp1 Hsp2 k) as R. fold D2 in R. fold D in R. rewrite <- Er in R.
      set (s := step2 n m K tau sig x z k) in *.
      assert (A1 : s / / r <= D / r). { unfold Rdiv at 1. rewrite Rinv_inv. apply Rmult_le_reg_r with r; [exact Hr|]. replace (D / r * r) with D by (field; lra). lra. }
      assert (A2 : / r * D2 (S k) y w <= B / r) by (unfold Rdiv; rewrite (Rmult_comm B); apply Rmult_le_compat_l; [left; apply Rinv_0_lt_compat, Hr|apply HB]).
      apply Rle_trans with (/ 2 * (D / r + B / r)); [lra|]. right. field. lra.
  Qed.

  Theorem sequence_converges : exists X Z, feas X /\ dom Z /\ (forall y, feas y -> L X Z <= L y Z) /\ (forall w, dom w -> L X w <= L X Z) /\
    forall eps, 0 < eps -> exists N, forall k, (N <= k)%nat ->
      (forall j, (j < n)%nat -> Rabs (x k j - X j) < eps) /\ (forall i, (i < m)%nat -> Rabs (z k i - Z i) < eps).
  Proof.
    set (u := fun k => join n (x (S k)) (z (S k))).
    assert (Tu : forall k, tail n (u k) = z (S k)) by (intros k; apply vec_ext; intros i; unfold tail, u; apply join_hi).
    set (D := D2 0%nat X0 Z0).
    set (Rb := rsum n (fun j => Rabs (X0 j)) + rsum m (fun i => Rabs (Z0 i)) + (1 + D / c0)).
    assert (Hb : forall k i, (i < n + m)%nat -> Rabs (u k i) <= Rb).
    { intros k i Hi. destruct (d2_coord X0 Z0 (S k) HX0 HZ0) as [Cx Cz].
      pose proof (d2_mono X0 Z0 0 (S k) HX0 HZ0 Hsp1 Hsp2 ltac:(lia)) as M0. fold D in M0.
      assert (Q : D2 (S k) X0 Z0 / c0 <= D / c0) by (apply Rmult_le_compat_r; [left; apply Rinv_0_lt_compat, Hc0|exact M0]).
      assert (Nx : 0 <= rsum n (fun j => Rabs (X0 j))) by (apply rsum_nonneg; intros; apply Rabs_pos).
      assert (Nz : 0 <= rsum m (fun j => Rabs (Z0 j))) by (apply rsum_nonneg; intros; apply Rabs_pos).
      unfold u. destruct (Nat.lt_ge_cases i n) as [H|H].
      - rewrite join_lo by exact H. specialize (Cx i H). pose proof (abs_sq_bound (x (S k) i - X0 i)) as B.
        pose proof (rsum_term_le n (fun j => Rabs (X0 j)) i ltac:(intros; apply Rabs_pos) H) as T. cbv beta in T.
        replace (x (S k) i) with ((x (S k) i - X0 i) + X0 i) by ring. eapply Rle_trans; [apply Rabs_triang|]. unfold Rb. lra.
      - replace i with (n + (i - n))%nat by lia. rewrite join_hi. set (q := (i - n)%nat). assert (Hq : (q < m)%nat) by (unfold q; lia).
        specialize (Cz q Hq). pose proof (abs_sq_bound (z (S k) q - Z0 q)) as B.
        pose proof (rsum_term_le m (fun j => Rabs (Z0 j)) q ltac:(intros; apply Rabs_pos) Hq) as T. cbv beta in T.
        replace (z (S k) q) with ((z (S k) q - Z0 q) + Z0 q) by ring. eapply Rle_trans; [apply Rabs_triang|]. unfold Rb. lra. }
    destruct (bolzano_vec (n + m) u _ Hb) as [v Hv]. set (X := v). set (Z := tail n v).
    assert (CX : cluster n (fun k => x (S k)) X).
    { intros eps N He. destruct (Hv eps N He) as (k & Hk & Hi). exists k. split; [exact Hk|]. intros i Hi'. rewrite <- (join_lo n _ (z (S k)) i Hi'). apply Hi. lia. }
    assert (FX : feas X) by (apply (feas_closed _ _ CX); intros k; apply Hfx).
    assert (S : forall y w, feas y -> dom w -> dom Z /\ L X w <= L y Z).
    { intros y w Hy Hw. destruct (gap_small y w Hy Hw) as (e & He & Hgap).
      destruct (Fs_lsc u v (fun q => kd n m K y (tail n q) + (-1 * kd n m K q w + Fs w)) e Hv) as [A B].
      - intros k. rewrite Tu. apply Hdz.
      - apply cont_plus; [|apply cont_plus; [|apply cont_const]].
        + apply (cont_kd n m (n + m) (n + m) K (fun j _ => y j) (fun i e => e (n + i)%nat)); [intros; apply cont_const|intros; apply cont_coord; lia|reflexivity].
        + apply cont_scal. apply (cont_kd n m (n + m) (n + m) K (fun j e => e j) (fun i _ => w i)); [intros; apply cont_coord; lia|intros; apply cont_const|reflexivity].
      - exact He.
      - intros k. rewrite Tu. specialize (Hgap k). unfold L, lag in Hgap.
        assert (E : kd n m K (u k) w = kd n m K (x (S k)) w) by (apply kd_ext; [intros j Hj; apply join_lo, Hj|reflexivity]). rewrite E. lra.
      - split; [exact A|]. unfold L, lag. cbv beta in B. fold Z in B. fold X in B. lra. }
    destruct (S (x 0%nat) (z 0%nat) (Hfx _) (Hdz _)) as [DZ _].
    assert (S1 : forall y, feas y -> L X Z <= L y Z) by (intros y Hy; apply (S y Z Hy DZ)).
    assert (S2 : forall w, dom w -> L X w <= L X Z) by (intros w Hw; apply (S X w FX Hw)).
    exists X, Z. split; [exact FX|]. split; [exact DZ|]. split; [exact S1|]. split; [exact S2|].
    intros eps He.
    (* the distance is small at some iterate, hence from then on *)
    set (h := fun q : vec => mf n m K tau sig (fun j => 1 * q j + -1 * X j) (fun i => 1 * tail n q i + -1 * Z i) (fun j => 1 * q j + -1 * X j) (fun i => 1 * tail n q i + -1 * Z i)).
    assert (Ch : cont (n + m) h v).
    { unfold h, mf. set (fx := fun j (q : vec) => 1 * q j + -1 * X j). set (fz := fun i (q : vec) => 1 * tail n q i + -1 * Z i).
      assert (Fx : forall j, (j < n)%nat -> cont (n + m) (fx j) v) by (intros j Hj; apply (cont_lc _ (fun q => q j)), cont_coord; lia).
      assert (Fz : forall i, (i < m)%nat -> cont (n + m) (fz i) v) by (intros i Hi; apply (cont_lc _ (fun q => q (n + i)%nat)), cont_coord; lia).
      apply (cont_ext _ (fun q => (ip n tau (fun j => fx j q) (fun j => fx j q) + ip m sig (fun i => fz i q) (fun i => fz i q)) + (-2) * kd n m K (fun j => fx j q) (fun i => fz i q))).
      { intros q. unfold fx, fz. ring. }
      apply cont_plus; [apply cont_plus; apply cont_ip; assumption|]. apply cont_scal. apply (cont_kd n m (n + m) (n + m) K fx fz); auto. }
    assert (Hv0 : h v = 0).
    { unfold h. change (fun j : nat => 1 * v j + -1 * X j) with (lc 1 v (-1) X). change (fun i : nat => 1 * tail n v i + -1 * Z i) with (lc 1 Z (-1) Z). fold X. unfold mf. rewrite !ip_l, !ip_r, !kd_l, !kd_r. ring. }
    set (eta := c0 * eps ^ 2 / 2). assert (Heta : 0 < eta) by (unfold eta; assert (0 < eps ^ 2) by (apply pow_lt, He); apply Rdiv_lt_0_compat; [apply Rmult_lt_0_compat; assumption|lra]).
    destruct (Ch eta Heta) as (del & Hdel & Hcl). destruct (Hv del 0%nat Hdel) as (k & _ & Hk).
    specialize (Hcl (u k) Hk). rewrite Hv0, Rminus_0_r in Hcl.
    assert (Eh : h (u k) = D2 (Datatypes.S k) X Z).
    { unfold h, D2, dist2, mf, ip. f_equal; [f_equal; [f_equal|]|].
      - apply rsum_ext. intros j Hj. unfold lc, u. rewrite join_lo by exact Hj. reflexivity.
      - apply rsum_ext. intros j Hj. rewrite Tu. reflexivity.
      - apply kd_ext; [intros j Hj; unfold lc, u; rewrite join_lo by exact Hj; reflexivity|intros i _; rewrite Tu; reflexivity].
      - apply kd_ext; [intros j Hj; unfold lc, u; rewrite join_lo by exact Hj; reflexivity|intros i _; rewrite Tu; reflexivity]. }
    rewrite Eh in Hcl. exists (Datatypes.S k). intros q Hq. pose proof (d2_mono X Z _ q FX DZ S1 S2 Hq) as M0. pose proof (Rle_abs (D2 (Datatypes.S k) X Z)) as Ab.
    destruct (d2_coord X Z q FX DZ) as [Cx Cz].
    assert (T : D2 q X Z / c0 < eps ^ 2).
    { apply Rmult_lt_reg_r with c0; [exact Hc0|]. replace (D2 q X Z / c0 * c0) with (D2 q X Z) by (field; lra). unfold eta in Hcl. assert (0 < c0 * eps ^ 2) by (apply Rmult_lt_0_compat; [exact Hc0|apply pow_lt, He]). lra. }
    assert (Sq : forall a, a ^ 2 < eps ^ 2 -> Rabs a < eps).
    { intros a Ha. rewrite <- (pow2_abs a) in Ha. pose proof (Rabs_pos a). nra. }
    split; intros i Hi; apply Sq; [specialize (Cx i Hi); lra|specialize (Cz i Hi); lra].
  Qed.
End Seq.
