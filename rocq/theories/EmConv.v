(** Expectation-maximisation for Poisson data: the iterates converge to a maximiser of the likelihood. *)
From Verif Require Import Sums DataTermsModel DataTermsProofs SolversModel SolversSpec SolversGeneric SolversProps SolversEMProps Compact.

Lemma cont_comp d f g v : cont d f v -> continuity_pt g (f v) -> cont d (fun u => g (f u)) v.
Proof.
  intros Hf Hg eta He. destruct (Hg eta He) as (e & He1 & H). simpl in H. unfold R_dist in H. destruct (Hf e He1) as (e2 & He2 & H2).
  exists e2. split; [exact He2|]. intros u Hu. specialize (H2 u Hu). destruct (Req_dec (f u) (f v)) as [E|N]; [rewrite E, Rminus_eq_0, Rabs_R0; exact He|].
  apply H. split; [|exact H2]. split; [exact I|]. auto.
Qed.
Lemma ln_cont_pt y : 0 < y -> continuity_pt ln y.
Proof. intros H. apply derivable_continuous_pt. exists (/ y). apply derivable_pt_lim_ln, H. Qed.
Lemma cont_ln d f v : cont d f v -> 0 < f v -> cont d (fun u => ln (f u)) v.
Proof. intros H Hp. apply (cont_comp d f ln v H). apply ln_cont_pt, Hp. Qed.
Lemma cont_inv d f v : cont d f v -> 0 < f v -> cont d (fun u => / f u) v.
Proof. intros H Hp. apply (cont_comp d f Rinv v H). apply (continuity_pt_inv id); [apply derivable_continuous_pt, derivable_pt_id|unfold id; lra]. Qed.
Lemma cont_opp d f v : cont d f v -> cont d (fun u => - f u) v.
Proof. intros H. apply (cont_ext d (fun u => (-1) * f u)); [intros; ring|]. apply cont_scal, H. Qed.
Lemma cont_minus d f g v : cont d f v -> cont d g v -> cont d (fun u => f u - g u) v.
Proof. intros H1 H2. apply (cont_plus d f (fun u => - g u)); [exact H1|apply cont_opp, H2]. Qed.

Lemma ln_lt_sub1 t : 0 < t -> t <> 1 -> ln t < t - 1.
Proof.
  intros Ht Hn. assert (L : ln t <> 0) by (intros E; apply Hn; rewrite <- (exp_ln t Ht), E; apply exp_0).
  pose proof (exp_ineq1 (ln t) L) as H. rewrite exp_ln in H by exact Ht. lra.
Qed.
Lemma xlogx_zero t : 0 < t -> t * ln t - t + 1 = 0 -> t = 1.
Proof.
  intros Ht E. destruct (Req_dec t 1) as [H|H]; [exact H|exfalso].
  assert (H' : / t <> 1) by (intros C; apply H; rewrite <- (Rinv_inv t), C; apply Rinv_1).
  pose proof (ln_lt_sub1 (/ t) (Rinv_0_lt_compat _ Ht) H') as G. rewrite ln_Rinv in G by exact Ht.
  apply Rmult_lt_compat_l with (r := t) in G; [|exact Ht]. rewrite Rmult_minus_distr_l, Rinv_r in G by lra. lra.
Qed.
(** the distance dominates the squared difference of square roots *)
Lemma kl_sqrt z x : 0 <= z -> 0 < x -> (sqrt x - sqrt z) ^ 2 <= z * ln (z / x) - z + x.
Proof.
  intros Hz Hx. assert (Sx : sqrt x * sqrt x = x) by (apply sqrt_sqrt; lra). assert (Sz : sqrt z * sqrt z = z) by (apply sqrt_sqrt; lra).
  destruct (Rle_lt_or_eq_dec 0 z Hz) as [H|E].
  - assert (Px : 0 < sqrt x) by (apply sqrt_lt_R0; exact Hx). assert (Pz : 0 < sqrt z) by (apply sqrt_lt_R0; exact H).
    assert (L : ln (z / x) = - (2 * ln (sqrt x / sqrt z))).
    { assert (Lx : ln x = 2 * ln (sqrt x)) by (transitivity (ln (sqrt x * sqrt x)); [f_equal; symmetry; exact Sx|rewrite ln_mult by assumption; ring]).
      assert (Lz : ln z = 2 * ln (sqrt z)) by (transitivity (ln (sqrt z * sqrt z)); [f_equal; symmetry; exact Sz|rewrite ln_mult by assumption; ring]).
      unfold Rdiv. rewrite (ln_mult z), (ln_mult (sqrt x)), !ln_Rinv, Lx, Lz by (try apply Rinv_0_lt_compat; assumption). ring. }
    pose proof (ln_le_sub1 (sqrt x / sqrt z) ltac:(apply Rdiv_lt_0_compat; assumption)) as G.
    apply Rmult_le_compat_l with (r := 2 * z) in G; [|lra]. rewrite L.
    assert (Q : 2 * z * (sqrt x / sqrt z - 1) = 2 * sqrt z * sqrt x - 2 * z) by (transitivity (2 * (sqrt z * sqrt z) * (sqrt x / sqrt z - 1)); [rewrite Sz; reflexivity|]; transitivity (2 * sqrt z * sqrt x - 2 * (sqrt z * sqrt z)); [field; lra|rewrite Sz; reflexivity]). nra.
  - subst z. rewrite sqrt_0. nra.
Qed.
(** a bounded non-decreasing sequence has vanishing increments *)
Lemma mono_incr (a : nat -> R) c : (forall k, a k <= a (S k)) -> (forall k, a k <= c) ->
  forall eps, 0 < eps -> exists N, forall k, (N <= k)%nat -> a (S k) - a k < eps.
Proof.
  intros Hm Hc eps He. destruct (Un_cv_crit a Hm ltac:(exists c; intros y [k ->]; apply Hc)) as [l Hl].
  destruct (Hl (eps / 2) ltac:(lra)) as [N HN]. exists N. intros k Hk. pose proof (HN k Hk) as A. pose proof (HN (S k) ltac:(lia)) as B.
  unfold R_dist in A, B. unfold Rabs in A, B. destruct (Rcase_abs _) in A; destruct (Rcase_abs _) in B; lra.
Qed.

Section EM.
  Variables (m n : nat) (M : mat) (b : vec) (x : nat -> vec) (e : R).
  Hypothesis HM : nonneg_mat m n M.
  Hypothesis Hb : forall i, (i < m)%nat -> 0 < b i.
  Hypothesis Hc : forall j, (j < n)%nat -> 0 < col_sum m M j.
  Let s : vec := col_sum m M.
  Let rr (u : vec) (j : nat) : R := rsum m (fun i => M i j * (b i / mv n M u i)) / s j.
  Let L (u : vec) : R := log_lik m n M b u.
  Hypothesis Hx0 : forall j, (j < n)%nat -> 0 < x 0%nat j.
  Hypothesis He : 0 < e.
  Hypothesis Hy : forall k i, (i < m)%nat -> e <= mv n M (x k) i.
  Hypothesis Hstep : forall k j, (j < n)%nat -> x (S k) j = x k j * rr (x k) j.

  Lemma em_all k : (forall j, (j < n)%nat -> 0 < x k j) /\ L (x k) + kl_dist n s (x (S k)) (x k) <= L (x (S k)).
  Proof.
    assert (P : forall k, forall j, (j < n)%nat -> 0 < x k j).
    { intros q. induction q as [|q IH]; [exact Hx0|]. apply (em_gain m n M b (x q) (x (S q)) HM Hb IH Hc); [intros i Hi; specialize (Hy q i Hi); lra|apply Hstep]. }
    split; [apply P|]. apply (em_gain m n M b (x k) (x (S k)) HM Hb (P k) Hc); [intros i Hi; specialize (Hy k i Hi); lra|apply Hstep].
  Qed.
  Lemma em_pos k j : (j < n)%nat -> 0 < x k j. Proof. apply em_all. Qed.
  Lemma em_mono k : L (x k) <= L (x (S k)).
  Proof. pose proof (proj2 (em_all k)). pose proof (kl_nonneg n s (x (S k)) (x k) Hc (fun j Hj => Rlt_le _ _ (em_pos (S k) j Hj)) (em_pos k)). lra. Qed.
  Lemma em_mono_le k q : (k <= q)%nat -> L (x k) <= L (x q).
  Proof. induction 1; [lra|]. eapply Rle_trans; [exact IHle|apply em_mono]. Qed.
  Lemma L_bound u : (forall i, (i < m)%nat -> 0 < mv n M u i) -> L u <= rsum m (fun i => b i * ln (b i) - b i).
  Proof.
    intros Hu. apply rsum_le. intros i Hi. specialize (Hu i Hi). specialize (Hb i Hi). set (y := mv n M u i) in *.
    assert (E : ln y = ln (b i) + ln (y / b i)).
    { rewrite <- ln_mult; [f_equal; field; lra|lra|apply Rdiv_lt_0_compat; lra]. }
    pose proof (ln_le_sub1 (y / b i) ltac:(apply Rdiv_lt_0_compat; lra)) as G. apply Rmult_le_compat_l with (r := b i) in G; [|lra].
    rewrite E. replace (b i * (y / b i - 1)) with (y - b i) in G by (field; lra). lra.
  Qed.
  Lemma lin_sum u : rsum m (mv n M u) = rsum n (fun j => s j * u j).
  Proof. unfold mv. rewrite rsum_swap. apply rsum_ext. intros j Hj. unfold s, col_sum. rewrite <- rsum_scal_r. reflexivity. Qed.
  (** counts: s-weighted sum of a rescaled vector *)
  Lemma counts u : (forall i, (i < m)%nat -> 0 < mv n M u i) -> rsum n (fun j => s j * (u j * rr u j)) = rsum m b.
  Proof.
    intros Hu. rewrite (rsum_ext n _ (fun j => rsum m (fun i => M i j * u j * (b i / mv n M u i)))).
    - rewrite rsum_swap. apply rsum_ext. intros i Hi. rewrite rsum_scal_r. fold (mv n M u i). specialize (Hu i Hi). field. lra.
    - intros j Hj. unfold rr. specialize (Hc j Hj). fold s in Hc. replace (s j * (u j * (rsum m (fun i => M i j * (b i / mv n M u i)) / s j))) with (u j * rsum m (fun i => M i j * (b i / mv n M u i))) by (field; lra).
      rewrite <- rsum_scal. apply rsum_ext. intros; ring.
  Qed.
  Lemma em_counts k : rsum n (fun j => s j * x (S k) j) = rsum m b.
  Proof. rewrite <- (counts (x k)); [|intros i Hi; specialize (Hy k i Hi); lra]. apply rsum_ext. intros j Hj. rewrite (Hstep k j Hj). reflexivity. Qed.
  Let Bd : R := rsum n (fun j => rsum m b / s j).
  Lemma em_bounded k j : (j < n)%nat -> 0 <= x (S k) j <= Bd.
  Proof.
    intros Hj. assert (B0 : 0 <= rsum m b) by (apply rsum_nonneg; intros i Hi; left; auto). split; [left; apply em_pos, Hj|].
    apply Rle_trans with (rsum m b / s j).
    - apply Rmult_le_reg_l with (s j); [apply Hc, Hj|]. replace (s j * (rsum m b / s j)) with (rsum m b) by (field; pose proof (Hc j Hj); fold s in H; lra).
      rewrite <- (em_counts k). apply (rsum_term_le n (fun j => s j * x (S k) j) j); [|exact Hj].
      intros q Hq. apply Rmult_le_pos; [left; apply Hc, Hq|left; apply em_pos, Hq].
    - apply (rsum_term_le n (fun j => rsum m b / s j) j); [|exact Hj]. intros q Hq. apply Rdiv_le_0_compat; [exact B0|apply Hc, Hq].
  Qed.

  (** continuity at a vector with positive projections *)
  Lemma c_mv i v : cont n (fun u => mv n M u i) v.
  Proof. unfold mv. apply cont_rsum. intros j Hj. apply cont_scal, cont_coord, Hj. Qed.
  Lemma c_rr v j : (forall i, (i < m)%nat -> 0 < mv n M v i) -> cont n (fun u => rr u j) v.
  Proof.
    intros Hv. unfold rr, Rdiv. apply cont_mult; [|apply cont_const]. apply (cont_rsum n m (fun i u => M i j * (b i * / mv n M u i))). intros i Hi.
    apply cont_scal, cont_scal, cont_inv; [apply c_mv|apply Hv, Hi].
  Qed.
  Lemma rr_pos v j : (j < n)%nat -> (forall i, (i < m)%nat -> 0 < mv n M v i) -> 0 < rr v j.
  Proof.
    intros Hj Hv. specialize (Hc j Hj) as Hs. apply Rdiv_lt_0_compat; [|exact Hs].
    destruct (Classical_Prop.classic (exists i, (i < m)%nat /\ 0 < M i j)) as [(i & Hi & Hlt)|H].
    - apply (rsum_pos m _ i Hi).
      + intros k Hk. apply Rmult_le_pos; [apply HM; auto|]. left. apply Rdiv_lt_0_compat; auto.
      + apply Rmult_lt_0_compat; [exact Hlt|]. apply Rdiv_lt_0_compat; auto.
    - exfalso. assert (col_sum m M j = 0); [|lra]. apply rsum_zero. intros i Hi.
      destruct (Rle_lt_or_eq_dec 0 (M i j) (HM i j Hi Hj)) as [Hlt|Heq]; [exfalso; apply H; exists i; auto|auto].
  Qed.

  (** the fundamental inequality, for a volume fixed by the update *)
  Lemma em_fejer z k : (forall j, (j < n)%nat -> 0 <= z j) -> (forall i, (i < m)%nat -> 0 < mv n M z i) ->
    (forall j, (j < n)%nat -> z j <> 0 -> rr z j = 1) ->
    kl_dist n s z (x (S k)) + (L z - L (x k)) <= kl_dist n s z (x k).
  Proof.
    intros Hz Hzy Hfix. set (u := x k). set (y := mv n M u). assert (Yp : forall i, (i < m)%nat -> 0 < y i) by (intros i Hi; specialize (Hy k i Hi); unfold y, u; lra).
    assert (Rp : forall j, (j < n)%nat -> 0 < rr u j) by (intros j Hj; apply rr_pos; assumption).
    (* difference of distances *)
    assert (E1 : kl_dist n s z u - kl_dist n s z (x (S k)) = rsum n (fun j => s j * z j * ln (rr u j)) + (rsum m y - rsum m b)).
    { unfold y. rewrite (lin_sum u). rewrite <- (em_counts k). unfold kl_dist. rewrite <- !rsum_minus, <- rsum_plus. apply rsum_ext. intros j Hj.
      destruct (Req_dec (z j) 0) as [Z|Z]; [rewrite Z; ring|]. assert (Zp : 0 < z j) by (destruct (Hz j Hj); [assumption|congruence]).
      pose proof (em_pos k j Hj) as Up. fold u in Up. rewrite (Hstep k j Hj). fold u. specialize (Rp j Hj).
      assert (E : ln (z j / u j) = ln (z j / (u j * rr u j)) + ln (rr u j)).
      { rewrite <- ln_mult; [f_equal; field; lra|apply Rdiv_lt_0_compat; [exact Zp|apply Rmult_lt_0_compat; assumption]|exact Rp]. }
      rewrite E. ring. }
    (* Jensen in every voxel *)
    assert (E2 : rsum m (fun i => b i * ln (mv n M z i / y i)) <= rsum n (fun j => s j * z j * ln (rr u j))).
    { apply Rle_trans with (rsum n (fun j => z j * rsum m (fun i => M i j * (b i / mv n M z i) * ln (mv n M z i / y i)))).
      - right. rewrite (rsum_ext n _ (fun j => rsum m (fun i => M i j * z j * (b i / mv n M z i * ln (mv n M z i / y i))))) by (intros j Hj; rewrite <- rsum_scal; apply rsum_ext; intros; ring).
        rewrite rsum_swap. apply rsum_ext. intros i Hi. rewrite rsum_scal_r. fold (mv n M z i). specialize (Hzy i Hi). field. lra.
      - apply rsum_le. intros j Hj. destruct (Req_dec (z j) 0) as [Z|Z]; [rewrite Z; lra|]. specialize (Hfix j Hj Z). specialize (Hc j Hj) as Sj. fold s in Sj.
        rewrite (Rmult_comm (s j)), Rmult_assoc. apply Rmult_le_compat_l; [apply Hz, Hj|].
        set (p := fun i => M i j * (b i / mv n M z i) / s j).
        assert (P1 : rsum m p = 1) by (unfold p, Rdiv at 1; rewrite rsum_scal_r; exact Hfix).
        assert (PE : rsum m (fun i => p i * (mv n M z i / y i)) = rr u j).
        { unfold rr. transitivity (rsum m (fun i => M i j * (b i / mv n M u i)) * / s j); [|reflexivity]. rewrite <- rsum_scal_r. apply rsum_ext. intros i Hi. unfold p. specialize (Hzy i Hi). specialize (Yp i Hi). fold y. field. lra. }
        pose proof (jensen_ln m p (fun i => mv n M z i / y i)) as J. cbv beta in J. rewrite PE in J.
        assert (J' : rsum m (fun j0 => p j0 * ln (mv n M z j0 / y j0)) <= ln (rr u j)).
        { apply J; [|exact P1| |apply Rp, Hj].
          - intros i Hi. unfold p. apply Rdiv_le_0_compat; [|exact Sj]. apply Rmult_le_pos; [apply HM; assumption|]. left. apply Rdiv_lt_0_compat; auto.
          - intros i Hi. apply Rdiv_lt_0_compat; auto. }
        apply Rmult_le_compat_l with (r := s j) in J'; [|lra]. eapply Rle_trans; [|exact J']. right. rewrite <- rsum_scal. apply rsum_ext. intros i Hi. unfold p. specialize (Hzy i Hi). field. lra. }
    assert (E3 : rsum m (mv n M z) = rsum m b).
    { rewrite lin_sum. rewrite <- (counts z Hzy). apply rsum_ext. intros j Hj. destruct (Req_dec (z j) 0) as [Z|Z]; [rewrite Z; ring|]. rewrite (Hfix j Hj Z). ring. }
    assert (E4 : L z - L u = rsum m (fun i => b i * ln (mv n M z i / y i)) - rsum m (mv n M z) + rsum m y).
    { unfold L, log_lik. fold y. rewrite <- !rsum_minus, <- rsum_plus. apply rsum_ext. intros i Hi. specialize (Hzy i Hi). specialize (Yp i Hi).
      unfold Rdiv. rewrite ln_mult by (try apply Rinv_0_lt_compat; assumption). rewrite ln_Rinv by exact Yp. ring. }
    fold u. lra.
  Qed.

  (** every cluster point is fixed by the update *)
  Lemma em_cluster : exists z, cluster n (fun k => x (S k)) z /\ (forall j, (j < n)%nat -> 0 <= z j) /\ (forall i, (i < m)%nat -> e <= mv n M z i) /\
    (forall j, (j < n)%nat -> z j <> 0 -> rr z j = 1).
  Proof.
    destruct (bolzano_vec n (fun k => x (S k)) Bd) as [z Hz].
    { intros k i Hi. pose proof (em_bounded k i Hi). rewrite Rabs_right; lra. }
    assert (Z0 : forall j, (j < n)%nat -> 0 <= z j).
    { intros j Hj. cut (- z j <= 0); [lra|]. apply (cluster_le0 n _ z (fun u => - u j) Hz); [apply cont_opp, cont_coord, Hj|]. intros k. pose proof (em_pos (S k) j Hj). cbv beta. lra. }
    assert (Zy : forall i, (i < m)%nat -> e <= mv n M z i).
    { intros i Hi. cut (e - mv n M z i <= 0); [lra|]. apply (cluster_le0 n _ z (fun u => e - mv n M u i) Hz); [apply cont_minus; [apply cont_const|apply c_mv]|]. intros k. pose proof (Hy (S k) i Hi). cbv beta. lra. }
    assert (Zp : forall i, (i < m)%nat -> 0 < mv n M z i) by (intros i Hi; specialize (Zy i Hi); lra).
    exists z. split; [exact Hz|]. split; [exact Z0|]. split; [exact Zy|].
    set (Phi := fun u => rsum n (fun j => s j * u j * (rr u j * ln (rr u j) - rr u j + 1))).
    assert (CP : cont n Phi z).
    { unfold Phi. apply (cont_rsum n n (fun j u => s j * u j * (rr u j * ln (rr u j) - rr u j + 1))). intros j Hj. pose proof (c_rr z j Zp) as C.
      apply cont_mult; [apply cont_scal, cont_coord, Hj|]. apply cont_plus; [|apply cont_const]. apply cont_minus; [|exact C]. apply cont_mult; [exact C|]. apply cont_ln; [exact C|apply rr_pos; assumption]. }
    assert (PK : forall k, Phi (x k) = kl_dist n s (x (S k)) (x k)).
    { intros k. unfold Phi, kl_dist. apply rsum_ext. intros j Hj. rewrite (Hstep k j Hj). pose proof (em_pos k j Hj). replace (x k j * rr (x k) j / x k j) with (rr (x k) j) by (field; lra). ring. }
    assert (PZ : Phi z <= 0).
    { apply (cluster_le n (fun k => x (S k)) z Phi (fun k => L (x (S (S k))) - L (x (S k))) Hz CP).
      - intros eps Hep. destruct (mono_incr (fun k => L (x k)) (rsum m (fun i => b i * ln (b i) - b i)) em_mono) with (eps := eps) as [N HN]; [|exact Hep|].
        + intros k. apply L_bound. intros i Hi. specialize (Hy k i Hi). lra.
        + exists N. intros k Hk. apply (HN (S k)). lia.
      - intros k. rewrite PK. pose proof (proj2 (em_all (S k))). lra. }
    assert (T0 : forall j, (j < n)%nat -> 0 <= s j * z j * (rr z j * ln (rr z j) - rr z j + 1)).
    { intros j Hj. apply Rmult_le_pos; [apply Rmult_le_pos; [left; apply Hc, Hj|apply Z0, Hj]|apply xlogx, rr_pos; assumption]. }
    intros j Hj Hne. assert (Z : Phi z = 0) by (apply Rle_antisym; [exact PZ|apply rsum_nonneg, T0]).
    pose proof (rsum_nonneg_zero n _ T0 Z j Hj) as E. cbv beta in E. apply xlogx_zero; [apply rr_pos; assumption|].
    apply Rmult_integral in E. destruct E as [E|E]; [|exact E]. exfalso. apply Rmult_integral in E. destruct E as [E|E]; [pose proof (Hc j Hj); fold s in H; lra|contradiction].
  Qed.

  Theorem em_converges : exists z, (forall j, (j < n)%nat -> 0 <= z j) /\ (forall i, (i < m)%nat -> e <= mv n M z i) /\
    (forall u, (forall j, (j < n)%nat -> 0 <= u j) -> (forall i, (i < m)%nat -> 0 < mv n M u i) -> L u <= L z) /\
    (forall eps, 0 < eps -> exists N, forall k, (N <= k)%nat -> forall j, (j < n)%nat -> Rabs (x k j - z j) < eps) /\
    (forall k, kl_dist n s z (x (S k)) <= kl_dist n s z (x k)) /\
    forall k, L z - L (x k) <= kl_dist n s z (x 0%nat) / (INR k + 1).
  Proof.
    destruct em_cluster as (z & Hz & Z0 & Zy & Zf). assert (Zp : forall i, (i < m)%nat -> 0 < mv n M z i) by (intros i Hi; specialize (Zy i Hi); lra).
    set (D := fun k => kl_dist n s z (x k)).
    assert (Dn : forall k, 0 <= D k) by (intros k; apply kl_nonneg; [exact Hc|exact Z0|apply em_pos]).
    assert (CL : cont n L z).
    { unfold L, log_lik. apply (cont_rsum n m (fun i u => b i * ln (mv n M u i) - mv n M u i)). intros i Hi. apply cont_minus; [|apply c_mv]. apply cont_scal, cont_ln; [apply c_mv|apply Zp, Hi]. }
    assert (Lz : forall k, L (x k) <= L z).
    { intros k. cut (L (x k) - L z <= 0); [lra|]. destruct (Rle_dec (L (x k) - L z) 0) as [H|H]; [exact H|exfalso].
      destruct (CL (L (x k) - L z) ltac:(lra)) as (e1 & P1 & Q1). destruct (Hz e1 k P1) as (q & Hq & Hi). specialize (Q1 _ Hi).
      pose proof (em_mono_le k (S q) ltac:(lia)). unfold Rabs in Q1. destruct (Rcase_abs _) in Q1; lra. }
    assert (Fj : forall k, D (S k) + (L z - L (x k)) <= D k) by (intros k; apply em_fejer; assumption).
    assert (Dm : forall k q, (k <= q)%nat -> D q <= D k).
    { induction 1 as [|q Hq IH]; [lra|]. pose proof (Fj q). pose proof (Lz q). lra. }
    assert (CD : cont n (fun u => rsum n (fun j => s j * (z j * (ln (z j) - ln (u j)) - z j + u j))) z).
    { apply (cont_rsum n n (fun j u => s j * (z j * (ln (z j) - ln (u j)) - z j + u j))). intros j Hj. apply cont_scal. apply cont_plus; [|apply cont_coord, Hj]. apply cont_minus; [|apply cont_const].
      destruct (Req_dec (z j) 0) as [E|E]; [apply (cont_ext n (fun _ => 0)); [intros u; rewrite E; ring|apply cont_const]|].
      apply cont_scal, cont_minus; [apply cont_const|]. apply cont_ln; [apply cont_coord, Hj|]. destruct (Z0 j Hj); [assumption|congruence]. }
    assert (DE : forall k, D k = rsum n (fun j => s j * (z j * (ln (z j) - ln (x k j)) - z j + x k j))).
    { intros k. unfold D, kl_dist. apply rsum_ext. intros j Hj. destruct (Req_dec (z j) 0) as [E|E]; [rewrite E; ring|].
      assert (0 < z j) by (destruct (Z0 j Hj); [assumption|congruence]). pose proof (em_pos k j Hj). unfold Rdiv. rewrite ln_mult by (try apply Rinv_0_lt_compat; assumption). rewrite ln_Rinv by assumption. ring. }
    assert (DZ : rsum n (fun j => s j * (z j * (ln (z j) - ln (z j)) - z j + z j)) = 0) by (apply rsum_zero; intros; ring).
    assert (D0 : forall eps, 0 < eps -> exists N, forall k, (N <= k)%nat -> D k < eps).
    { intros eps Hep. destruct (CD eps Hep) as (e1 & P1 & Q1). destruct (Hz e1 0%nat P1) as (q & _ & Hi). specialize (Q1 _ Hi). rewrite DZ, Rminus_0_r in Q1.
      exists (S q). intros k Hk. eapply Rle_lt_trans; [apply (Dm _ _ Hk)|]. rewrite DE. eapply Rle_lt_trans; [apply Rle_abs|exact Q1]. }
    assert (CV : forall eps, 0 < eps -> exists N, forall k, (N <= k)%nat -> forall j, (j < n)%nat -> Rabs (x k j - z j) < eps).
    { intros eps Hep.
      assert (Hall : forall d, (d <= n)%nat -> exists N, forall k, (N <= k)%nat -> forall j, (j < d)%nat -> Rabs (x k j - z j) < eps).
      { induction d as [|d IH]; intros Hd; [exists 0%nat; intros; lia|]. destruct (IH ltac:(lia)) as [N1 H1].
        set (zd := z d). assert (Zd : 0 <= zd) by (apply Z0; lia). specialize (Hc d ltac:(lia)) as Sd. fold s in Sd.
        (* if D < s d * t^2 then |sqrt x - sqrt z| < t; |x - z| <= t (t + 2 sqrt z) *)
        set (t := Rmin 1 (eps / (2 * sqrt zd + 1))). pose proof (sqrt_pos zd) as Sp.
        assert (T1 : 0 < t) by (apply Rmin_glb_lt; [lra|apply Rdiv_lt_0_compat; lra]). assert (T2 : t <= 1) by apply Rmin_l. assert (T3 : t * (2 * sqrt zd + 1) <= eps).
        { apply Rle_trans with (eps / (2 * sqrt zd + 1) * (2 * sqrt zd + 1)); [apply Rmult_le_compat_r; [lra|apply Rmin_r]|right; field; lra]. }
        destruct (D0 (s d * t ^ 2) ltac:(apply Rmult_lt_0_compat; [exact Sd|apply pow_lt, T1])) as [N2 H2].
        exists (N1 + N2)%nat. intros k Hk j Hj. destruct (Nat.eq_dec j d) as [->|Hne]; [|apply H1; lia].
        specialize (H2 k ltac:(lia)). fold zd. pose proof (em_pos k d ltac:(lia)) as Xp. set (xd := x k d) in *. pose proof (sqrt_pos xd) as Sx.
        assert (A : s d * (sqrt xd - sqrt zd) ^ 2 < s d * t ^ 2).
        { eapply Rle_lt_trans; [|exact H2]. apply Rle_trans with (s d * (zd * ln (zd / xd) - zd + xd)); [apply Rmult_le_compat_l; [lra|apply kl_sqrt; assumption]|].
          unfold D, kl_dist. apply (rsum_term_le n (fun j => s j * (z j * ln (z j / x k j) - z j + x k j)) d); [|lia].
          intros q Hq. apply Rmult_le_pos; [left; apply Hc, Hq|]. eapply Rle_trans; [apply pow2_ge_0|apply (kl_sqrt (z q) (x k q)); [apply Z0, Hq|apply em_pos, Hq]]. }
        apply Rmult_lt_reg_l in A; [|exact Sd]. assert (A2 : Rabs (sqrt xd - sqrt zd) < t).
        { apply Rsqr_lt_abs_0 in A || idtac. rewrite <- (Rabs_right t) by lra. apply Rsqr_lt_abs_0. unfold Rsqr. lra. }
        replace (xd - zd) with ((sqrt xd - sqrt zd) * (sqrt xd + sqrt zd)) by (rewrite <- (sqrt_sqrt xd) at 3 by lra; rewrite <- (sqrt_sqrt zd) at 3 by lra; ring).
        rewrite Rabs_mult, (Rabs_right (sqrt xd + sqrt zd)) by lra. assert (A3 : sqrt xd + sqrt zd <= 2 * sqrt zd + 1) by (unfold Rabs in A2; destruct (Rcase_abs _) in A2; lra).
        eapply Rlt_le_trans; [|exact T3]. destruct (Req_dec (sqrt xd + sqrt zd) 0) as [E|E]; [rewrite E, Rmult_0_r; apply Rmult_lt_0_compat; lra|].
        apply Rlt_le_trans with (t * (sqrt xd + sqrt zd)); [apply Rmult_lt_compat_r; lra|apply Rmult_le_compat_l; lra]. }
      apply Hall. lia. }
    (* Karush-Kuhn-Tucker *)
    assert (KKT : forall j, (j < n)%nat -> z j = 0 -> rr z j <= 1).
    { intros j Hj E. apply Rnot_lt_le. intros C. destruct (c_rr z j Zp (rr z j - 1) ltac:(lra)) as (e1 & P1 & Q1). destruct (CV e1 P1) as [N HN].
      assert (G : forall k, (N <= k)%nat -> x k j <= x (S k) j).
      { intros k Hk. specialize (Q1 (x k) (HN k Hk)). rewrite (Hstep k j Hj). pose proof (em_pos k j Hj). assert (1 <= rr (x k) j) by (unfold Rabs in Q1; destruct (Rcase_abs _) in Q1; lra).
        rewrite <- (Rmult_1_r (x k j)) at 1. apply Rmult_le_compat_l; lra. }
      assert (G2 : forall k, (N <= k)%nat -> x N j <= x k j) by (induction 1 as [|q Hq IH]; [lra|]; eapply Rle_trans; [exact IH|apply G, Hq]).
      destruct (CV (x N j) (em_pos N j Hj)) as [N2 HN2]. specialize (HN2 (N + N2)%nat ltac:(lia) j Hj). specialize (G2 (N + N2)%nat ltac:(lia)). rewrite E, Rminus_0_r in HN2.
      pose proof (em_pos (N + N2) j Hj). rewrite Rabs_right in HN2; lra. }
    exists z. split; [exact Z0|]. split; [exact Zy|]. split; [|split; [exact CV|split]].
    - intros u Hu Huy. cut (L u - L z <= 0); [lra|]. apply Rle_trans with (rsum n (fun j => s j * (rr z j - 1) * (u j - z j))).
      + apply Rle_trans with (rsum m (fun i => (b i / mv n M z i - 1) * (mv n M u i - mv n M z i))).
        * unfold L, log_lik. rewrite <- rsum_minus. apply rsum_le. intros i Hi. specialize (Zp i Hi). specialize (Huy i Hi). specialize (Hb i Hi).
          set (a := mv n M u i) in *. set (c := mv n M z i) in *. pose proof (ln_le_sub1 (a / c) ltac:(apply Rdiv_lt_0_compat; lra)) as G.
          assert (E : ln a = ln c + ln (a / c)) by (rewrite <- ln_mult; [f_equal; field; lra|lra|apply Rdiv_lt_0_compat; lra]).
          apply Rmult_le_compat_l with (r := b i) in G; [|lra]. rewrite E. replace ((b i / c - 1) * (a - c)) with (b i * (a / c - 1) - a + c) by (field; lra). lra.
        * right. rewrite (rsum_ext n _ (fun j => rsum m (fun i => (b i / mv n M z i - 1) * (M i j * (u j - z j))))).
          -- rewrite rsum_swap. apply rsum_ext. intros i Hi. rewrite rsum_scal. f_equal. unfold mv. rewrite <- rsum_minus. apply rsum_ext. intros; ring.
          -- intros j Hj. rewrite (rsum_ext m _ (fun i => (M i j * (b i / mv n M z i) - M i j) * (u j - z j))) by (intros; ring). rewrite rsum_scal_r. f_equal. rewrite rsum_minus. fold (col_sum m M j). fold s.
             unfold rr. pose proof (Hc j Hj) as Sj. fold s in Sj. field. lra.
      + rewrite <- (rsum_0 n) at 1. apply rsum_le. intros j Hj. pose proof (Hc j Hj) as Sj. fold s in Sj. destruct (Req_dec (z j) 0) as [E|E].
        * specialize (KKT j Hj E). specialize (Hu j Hj). rewrite E, Rminus_0_r. assert (0 <= s j * u j) by (apply Rmult_le_pos; lra). nra.
        * rewrite (Zf j Hj E). lra.
    - intros k. pose proof (Fj k). pose proof (Lz k). unfold D in *. lra.
    - intros k. assert (Hs : D (S k) + (INR k + 1) * (L z - L (x k)) <= D 0%nat).
      { induction k as [|k IH]; [simpl; pose proof (Fj 0%nat); lra|]. pose proof (Fj (S k)). pose proof (em_mono k). rewrite S_INR. pose proof (pos_INR k).
        assert ((INR k + 1) * (L z - L (x (S k))) <= (INR k + 1) * (L z - L (x k))) by (apply Rmult_le_compat_l; lra). lra. }
      pose proof (pos_INR k). pose proof (Dn (S k)). fold (D 0%nat). apply Rmult_le_reg_l with (INR k + 1); [lra|].
      replace ((INR k + 1) * (D 0%nat / (INR k + 1))) with (D 0%nat) by (field; lra). lra.
  Qed.
End EM.
