(** Projected / proximal gradient descent in a diagonal metric for a sum of smooth convex functions of the projections:
    abstract convergence results used for SIRT and FISTA with data terms other than l2. *)
From Verif Require Import Sums DataTermsModel DataTermsProofs SolversModel SolversSpec SolversGeneric SolversProps RegularizersModel SolversConv SolversOptProps Compact PdhgConv PdhgExistProps
  LsExist EmConv.
From Verif Require ProxGrad.

Section SG.
  Variables (m n : nat) (M : mat) (s L : vec) (phi g : nat -> R -> R) (tau : vec) (lam : R) (lo up xm : option vec) (rho : R).
  Hypothesis Hs : forall i, (i < m)%nat -> 0 <= s i.
  Hypothesis HL : forall i, (i < m)%nat -> 0 <= L i.
  Hypothesis Hconv : forall i v z, (i < m)%nat -> phi i v + g i v * (z - v) <= phi i z.
  Hypothesis Hsm : forall i v z, (i < m)%nat -> phi i z <= phi i v + g i v * (z - v) + L i / 2 * (z - v) ^ 2.
  Hypothesis Ht : forall j, (j < n)%nat -> 0 < tau j.
  Hypothesis Hlam : 0 <= lam.
  Hypothesis Hlim : lims_ok lo up n.
  Hypothesis Hbx : binary_mask xm.
  Hypothesis Hstep : forall d, ProxGrad.supp n xm d -> rsum m (fun i => s i * L i * mv n M d i ^ 2) <= rho * rsum n (fun j => d j ^ 2 / tau j).

  Definition sobj (x : vec) : R := rsum m (fun i => s i * phi i (mv n M x i)) + lam * rsum n (fun j => Rabs (x j)).
  Notation dist2 := (ProxGrad.dist2 n tau).
  Notation feas := (ProxGrad.feas n lo up xm).
  Notation supp := (ProxGrad.supp n xm).
  Definition sgr (y : vec) : vec := mtv m M (fun i => - (s i * g i (mv n M y i))).
  Definition spg (y : vec) : vec := constrain lo up xm (fun j => soft_threshold1 (y j + tau j * sgr y j) (tau j * lam)).

  Lemma spg_feas y : feas (spg y).
  Proof. apply constrain_feasible. exact Hlim. Qed.
  Lemma feas_supp x : feas x -> supp x.
  Proof. intros H j Hj Hm. apply (feasible_out _ _ _ _ _ _ H Hj Hm). Qed.
  Lemma sd_nonneg x y : 0 <= dist2 x y.
  Proof. apply ProxGrad.dist2_nonneg, Ht. Qed.
  Definition sen (d : vec) : R := rsum m (fun i => s i * L i * mv n M d i ^ 2).

  Lemma spg_vi y z j : feas z -> (j < n)%nat ->
    lam * Rabs (spg y j) + (y j + tau j * sgr y j - spg y j) / tau j * (z j - spg y j) <= lam * Rabs (z j).
  Proof.
    intros Hz Hj. pose proof (Ht j Hj) as T.
    pose proof (constrain_vi lo up xm n (fun j => soft_threshold1 (y j + tau j * sgr y j) (tau j * lam)) z j Hlim Hbx Hz Hj) as V.
    fold (spg y) in V. cbv beta in V.
    apply (soft_clip_vi lam (tau j) _ _ _ _ Hlam T eq_refl).
    replace (spg y j + tau j * ((y j + tau j * sgr y j - spg y j) / tau j)) with (y j + tau j * sgr y j) by (field; lra). exact V.
  Qed.
  (** first-order expansions of the smooth part *)
  Lemma sgr_dot y d : dot n d (sgr y) = - rsum m (fun i => s i * g i (mv n M y i) * mv n M d i).
  Proof.
    unfold sgr. transitivity (dot m (mv n M d) (fun i => - (s i * g i (mv n M y i)))).
    - symmetry. apply adjoint_mat.
    - unfold dot. rewrite <- rsum_opp. apply rsum_ext. intros; ring.
  Qed.
  Lemma mv_minus x y i : mv n M (fun j => x j - y j) i = mv n M x i - mv n M y i.
  Proof. unfold mv. rewrite <- rsum_minus. apply rsum_ext. intros; ring. Qed.
  Definition smooth (x : vec) : R := rsum m (fun i => s i * phi i (mv n M x i)).
  Lemma smooth_low y z : smooth y - dot n (fun j => z j - y j) (sgr y) <= smooth z.
  Proof.
    rewrite sgr_dot. unfold smooth. unfold Rminus. rewrite Ropp_involutive, <- rsum_plus. apply rsum_le. intros i Hi.
    change (mv n M (fun j => z j + - y j) i) with (mv n M (fun j => z j - y j) i). rewrite mv_minus.
    replace (s i * phi i (mv n M y i) + s i * g i (mv n M y i) * (mv n M z i - mv n M y i)) with (s i * (phi i (mv n M y i) + g i (mv n M y i) * (mv n M z i - mv n M y i))) by ring.
    apply Rmult_le_compat_l; [apply Hs, Hi|apply Hconv, Hi].
  Qed.
  Lemma smooth_up y x : smooth x <= smooth y - dot n (fun j => x j - y j) (sgr y) + / 2 * sen (fun j => x j - y j).
  Proof.
    rewrite sgr_dot. unfold smooth, sen. unfold Rminus. rewrite Ropp_involutive, <- rsum_scal, <- !rsum_plus. apply rsum_le. intros i Hi.
    change (mv n M (fun j => x j + - y j) i) with (mv n M (fun j => x j - y j) i). rewrite mv_minus.
    replace (s i * phi i (mv n M y i) + s i * g i (mv n M y i) * (mv n M x i - mv n M y i) + / 2 * (s i * L i * (mv n M x i - mv n M y i) ^ 2))
      with (s i * (phi i (mv n M y i) + g i (mv n M y i) * (mv n M x i - mv n M y i) + L i / 2 * (mv n M x i - mv n M y i) ^ 2)) by field.
    apply Rmult_le_compat_l; [apply Hs, Hi|apply Hsm, Hi].
  Qed.
  Lemma sthree_point y z : feas z ->
    sobj (spg y) <= sobj z + / 2 * (dist2 y z - dist2 (spg y) z - dist2 (spg y) y) + / 2 * sen (fun j => spg y j - y j).
  Proof.
    intros Hz. set (x := spg y). unfold sobj. fold (smooth x). fold (smooth z).
    pose proof (smooth_low y z) as A. pose proof (smooth_up y x) as B.
    assert (H : lam * rsum n (fun j => Rabs (x j)) - dot n (fun j => x j - y j) (sgr y) <=
                lam * rsum n (fun j => Rabs (z j)) - dot n (fun j => z j - y j) (sgr y) + / 2 * (dist2 y z - dist2 x z - dist2 x y)).
    { unfold dot, ProxGrad.dist2. rewrite <- !rsum_scal, <- !rsum_minus, <- rsum_scal, <- !rsum_plus. apply rsum_le. intros j Hj.
      pose proof (spg_vi y z j Hz Hj) as V. fold x in V. pose proof (Ht j Hj).
      replace ((y j + tau j * sgr y j - x j) / tau j * (z j - x j)) with (sgr y j * (z j - x j) + (y j - x j) * (z j - x j) / tau j) in V by (field; lra).
      replace (/ 2 * ((y j - z j) ^ 2 / tau j - (x j - z j) ^ 2 / tau j - (x j - y j) ^ 2 / tau j)) with (- ((y j - x j) * (z j - x j) / tau j)) by (field; lra). lra. }
    lra.
  Qed.
  Lemma sen_step y : supp y -> sen (fun j => spg y j - y j) <= rho * dist2 (spg y) y.
  Proof. intros Hy. apply Hstep. intros j Hj Hm. rewrite (feas_supp _ (spg_feas y) j Hj Hm), (Hy j Hj Hm). ring. Qed.
  Lemma spg_basic y z : feas z -> supp y -> sobj (spg y) <= sobj z + / 2 * (dist2 y z - dist2 (spg y) z) - (1 - rho) / 2 * dist2 (spg y) y.
  Proof. intros Hz Hy. pose proof (sthree_point y z Hz). pose proof (sen_step y Hy). lra. Qed.
  Lemma sd_refl y : dist2 y y = 0.
  Proof. unfold ProxGrad.dist2. rewrite (rsum_ext n _ (fun _ => 0)); [apply rsum_0|intros j _; unfold Rdiv; ring]. Qed.
  Lemma spg_descent y : feas y -> sobj (spg y) <= sobj y - (2 - rho) / 2 * dist2 (spg y) y.
  Proof. intros Hy. pose proof (spg_basic y y Hy (feas_supp y Hy)) as H. rewrite sd_refl in H. lra. Qed.
  (** fixed points are the minimisers *)
  Lemma sfixed_min y : feas y -> (forall j, (j < n)%nat -> spg y j = y j) -> minimises feas sobj y.
  Proof.
    intros Hy Hf. split; [exact Hy|]. intros z Hz. pose proof (sthree_point y z Hz) as T.
    assert (E1 : dist2 (spg y) z = dist2 y z) by (unfold ProxGrad.dist2; apply rsum_ext; intros j Hj; rewrite (Hf j Hj); reflexivity).
    assert (E2 : dist2 (spg y) y = 0) by (rewrite <- (sd_refl y); unfold ProxGrad.dist2; apply rsum_ext; intros j Hj; rewrite (Hf j Hj); reflexivity).
    assert (E3 : sen (fun j => spg y j - y j) = 0).
    { unfold sen. apply rsum_zero. intros i Hi. assert (Z : mv n M (fun j => spg y j - y j) i = 0) by (unfold mv; apply rsum_zero; intros j Hj; rewrite (Hf j Hj); ring). rewrite Z. ring. }
    assert (E4 : sobj (spg y) = sobj y).
    { unfold sobj. f_equal; [apply rsum_ext; intros i Hi; do 2 f_equal; unfold mv; apply rsum_ext; intros j Hj; rewrite (Hf j Hj); reflexivity|].
      f_equal. apply rsum_ext. intros j Hj. rewrite (Hf j Hj). reflexivity. }
    rewrite E1, E2, E3, E4 in T. lra.
  Qed.
  Lemma smin_fixed y : rho < 2 -> minimises feas sobj y -> forall j, (j < n)%nat -> spg y j = y j.
  Proof.
    intros Hr [Hy Hmin] j Hj. pose proof (spg_descent y Hy) as D. pose proof (Hmin _ (spg_feas y)) as E. pose proof (sd_nonneg (spg y) y) as N.
    assert (Z : dist2 (spg y) y = 0) by nra.
    pose proof (rsum_nonneg_zero n _ (fun q Hq => Rdiv_le_0_compat _ _ (pow2_ge_0 (spg y q - y q)) (Ht q Hq)) Z j Hj) as E1. cbv beta in E1. pose proof (Ht j Hj).
    assert (E2 : (spg y j - y j) ^ 2 = 0). { apply Rmult_eq_reg_r with (/ tau j); [unfold Rdiv in E1; lra|]. apply Rinv_neq_0_compat. lra. }
    assert (spg y j - y j = 0) by (apply Rsqr_0_uniq; unfold Rsqr; lra). lra.
  Qed.

  (** ** continuity *)
  Lemma phi_cont i v : (i < m)%nat -> continuity_pt (phi i) v.
  Proof.
    intros Hi. unfold continuity_pt, continue_in, limit1_in, limit_in. intros eta He. set (K := Rabs (g i v) + L i / 2 + 1). pose proof (HL i Hi). pose proof (Rabs_pos (g i v)).
    assert (HK : 1 <= K) by (unfold K; lra). exists (Rmin 1 (eta / K)). assert (He' : 0 < eta / K) by (apply Rdiv_lt_0_compat; lra).
    split; [apply Rmin_glb_lt; lra|]. intros z [_ Hz]. simpl in *. unfold R_dist in *.
    assert (H1 : Rabs (z - v) < 1) by (eapply Rlt_le_trans; [exact Hz|apply Rmin_l]).
    assert (H2 : Rabs (z - v) < eta / K) by (eapply Rlt_le_trans; [exact Hz|apply Rmin_r]).
    pose proof (Hconv i v z Hi) as A. pose proof (Hsm i v z Hi) as B. set (d := z - v) in *. set (a := Rabs d) in *. assert (Ha : 0 <= a) by apply Rabs_pos.
    assert (G : Rabs (g i v * d) <= Rabs (g i v) * a) by (rewrite Rabs_mult; apply Rle_refl).
    assert (D2 : d ^ 2 <= a). { rewrite <- pow2_abs. fold a. nra. }
    assert (KE : K * a < eta). { apply Rmult_lt_compat_l with (r := K) in H2; [|lra]. replace (K * (eta / K)) with eta in H2 by (field; lra). exact H2. }
    assert (L2 : L i / 2 * d ^ 2 <= L i / 2 * a) by (apply Rmult_le_compat_l; lra).
    assert (KA : K * a = Rabs (g i v) * a + L i / 2 * a + a) by (unfold K; ring).
    assert (Hr : 0 <= L i / 2 * a) by (apply Rmult_le_pos; lra).
    pose proof (Rle_abs (g i v * d)). pose proof (Rle_abs (- (g i v * d))) as Q. rewrite Rabs_Ropp in Q. apply Rabs_def1; lra.
  Qed.
  Lemma sobj_cont v : cont n sobj v.
  Proof.
    unfold sobj. apply cont_plus.
    - apply (cont_rsum n m (fun i u => s i * phi i (mv n M u i))). intros i Hi. apply cont_scal. apply (cont_comp n (fun u => mv n M u i) (phi i)); [apply cont_mv|apply phi_cont, Hi].
    - apply cont_scal. apply (cont_rsum n n (fun j u => Rabs (u j))). intros j Hj. apply (cont_comp n (fun u => u j) Rabs); [apply cont_coord, Hj|apply Rcontinuity_abs].
  Qed.

  (** ** plain iteration *)
  Section Plain.
    Variable x : nat -> vec.
    Hypothesis X0 : feas (x 0%nat).
    Hypothesis XS : forall k, x (S k) = spg (x k).
    Hypothesis Hrho : 0 <= rho < 2.
    Notation cst := (ProxGrad.cst rho).

    Lemma sxk_feas k : feas (x k).
    Proof. destruct k; [exact X0|rewrite XS; apply spg_feas]. Qed.
    Lemma sxk_mono k : sobj (x (S k)) <= sobj (x k).
    Proof. rewrite XS. pose proof (spg_descent (x k) (sxk_feas k)). pose proof (sd_nonneg (spg (x k)) (x k)). nra. Qed.
    (** one step of the Lyapunov function *)
    Lemma lyap z k : feas z ->
      / 2 * dist2 (x (S k)) z + cst * sobj (x (S k)) + (sobj (x (S k)) - sobj z) <= / 2 * dist2 (x k) z + cst * sobj (x k).
    Proof.
      intros Hz. pose proof (ProxGrad.cst_nonneg rho Hrho) as Hc.
      pose proof (spg_basic (x k) z Hz (feas_supp _ (sxk_feas k))) as B. pose proof (spg_descent (x k) (sxk_feas k)) as D. rewrite <- XS in B, D.
      pose proof (sd_nonneg (x (S k)) (x k)) as N. set (d := dist2 (x (S k)) (x k)) in *.
      assert (Hcd : (rho - 1) / 2 * d <= cst * (sobj (x k) - sobj (x (S k)))).
      { apply Rle_trans with (cst * ((2 - rho) / 2 * d)); [|apply Rmult_le_compat_l; [exact Hc|lra]].
        unfold ProxGrad.cst. replace (Rmax 0 (rho - 1) / (2 - rho) * ((2 - rho) / 2 * d)) with (Rmax 0 (rho - 1) * (d / 2)) by (field; lra).
        pose proof (Rmax_r 0 (rho - 1)). nra. }
      lra.
    Qed.
    Lemma splain_sum z k : feas z -> INR k * (sobj (x k) - sobj z) <= / 2 * (dist2 (x 0%nat) z - dist2 (x k) z) + cst * (sobj (x 0%nat) - sobj (x k)).
    Proof.
      intros Hz. induction k as [|k IH]; [simpl INR; lra|].
      rewrite S_INR. pose proof (sxk_mono k) as Hm. pose proof (pos_INR k). pose proof (lyap z k Hz) as Ly.
      assert (INR k * (sobj (x (S k)) - sobj z) <= INR k * (sobj (x k) - sobj z)) by (apply Rmult_le_compat_l; lra). lra.
    Qed.
    (** the objective's excess over that of any admissible point with a lower bound below it *)
    Lemma splain_rate z k lowest : feas z -> (forall q, lowest <= sobj (x q)) -> (1 <= k)%nat ->
      sobj (x k) <= sobj z + (/ 2 * dist2 (x 0%nat) z + cst * (sobj (x 0%nat) - lowest)) / INR k.
    Proof.
      intros Hz Hlow Hk. pose proof (splain_sum z k Hz) as H. pose proof (ProxGrad.cst_nonneg rho Hrho) as Hc. pose proof (sd_nonneg (x k) z) as N.
      assert (Hi : 0 < INR k) by (apply lt_0_INR; lia). pose proof (Hlow k) as Lk. set (B := / 2 * dist2 (x 0%nat) z + cst * (sobj (x 0%nat) - lowest)).
      assert (H' : INR k * (sobj (x k) - sobj z) <= B).
      { unfold B. assert (cst * (sobj (x 0%nat) - sobj (x k)) <= cst * (sobj (x 0%nat) - lowest)) by (apply Rmult_le_compat_l; lra). lra. }
      apply Rmult_le_reg_l with (INR k); [exact Hi|]. replace (INR k * (sobj z + B / INR k)) with (INR k * sobj z + B) by (field; lra). lra.
    Qed.
    Lemma splain_converges z0 : minimises feas sobj z0 ->
      exists v, minimises feas sobj v /\ forall eps, 0 < eps -> exists N, forall k, (N <= k)%nat -> forall j, (j < n)%nat -> Rabs (x k j - v j) < eps.
    Proof.
      intros Hz0. pose proof (ProxGrad.cst_nonneg rho Hrho) as Hc. set (c := cst) in *.
      (* [V z k]: the Lyapunov function relative to a minimiser *)
      set (V := fun z k => / 2 * dist2 (x k) z + c * (sobj (x k) - sobj z)).
      assert (Vmono : forall z k q, minimises feas sobj z -> (k <= q)%nat -> V z q <= V z k).
      { intros z k q Hz Hk. induction Hk as [|q Hk IH]; [lra|]. eapply Rle_trans; [|exact IH]. unfold V.
        pose proof (lyap z q (proj1 Hz)) as Ly. fold c in Ly. pose proof (proj2 Hz _ (sxk_feas (S q))). lra. }
      assert (Vd : forall z k, minimises feas sobj z -> / 2 * dist2 (x k) z <= V z k).
      { intros z k Hz. unfold V. pose proof (proj2 Hz _ (sxk_feas k)). assert (0 <= c * (sobj (x k) - sobj z)) by (apply Rmult_le_pos; lra). lra. }
      assert (Cd : forall u z j, (j < n)%nat -> (u j - z j) ^ 2 <= tau j * dist2 u z).
      { intros u z j Hj. pose proof (rsum_term_le n (fun j => (u j - z j) ^ 2 / tau j) j (fun q Hq => Rdiv_le_0_compat _ _ (pow2_ge_0 _) (Ht q Hq)) Hj) as T.
        cbv beta in T. fold (ProxGrad.dist2 n tau u z) in T. pose proof (Ht j Hj) as Tp.
        apply Rmult_le_compat_l with (r := tau j) in T; [|lra]. replace (tau j * ((u j - z j) ^ 2 / tau j)) with ((u j - z j) ^ 2) in T by (field; lra). exact T. }
      set (W := 2 * V z0 0%nat). assert (HW : 0 <= W) by (unfold W; pose proof (Vd z0 0%nat Hz0); pose proof (sd_nonneg (x 0%nat) z0); lra).
      set (Rb := rsum n (fun j => Rabs (z0 j) + 1 + tau j * W)).
      destruct (bolzano_vec n x Rb) as [v Hv].
      { intros k j Hj. pose proof (Cd (x k) z0 j Hj) as H. pose proof (Vmono z0 0%nat k Hz0 ltac:(lia)) as H2. pose proof (Vd z0 k Hz0) as H4. pose proof (Ht j Hj) as Tp.
        assert (H3 : (x k j - z0 j) ^ 2 <= tau j * W) by (eapply Rle_trans; [exact H|]; apply Rmult_le_compat_l; [lra|unfold W; lra]).
        pose proof (rsum_term_le n (fun j => Rabs (z0 j) + 1 + tau j * W) j) as T. cbv beta in T. fold Rb in T.
        apply Rle_trans with (Rabs (z0 j) + 1 + tau j * W).
        - replace (x k j) with (z0 j + (x k j - z0 j)) by ring. eapply Rle_trans; [apply Rabs_triang|]. pose proof (abs_sq_bound (x k j - z0 j)). lra.
        - apply T; [|exact Hj]. intros q Hq. pose proof (Rabs_pos (z0 q)). pose proof (Ht q Hq). nra. }
      assert (Fv : feas v) by (apply (feasible_closed _ _ _ _ x v Hv sxk_feas)).
      set (C := / 2 * dist2 (x 0%nat) z0 + c * (sobj (x 0%nat) - sobj z0)).
      assert (Rate : forall k, (1 <= k)%nat -> sobj (x k) <= sobj z0 + C / INR k).
      { intros k Hk. apply splain_rate; [apply Hz0| |exact Hk]. intros q. apply (proj2 Hz0), sxk_feas. }
      assert (Small : forall eps, 0 < eps -> exists N, forall k, (N <= k)%nat -> C / INR (S k) < eps).
      { intros eps He. destruct (INR_above (C / eps)) as [N HN]. exists N. intros k Hk. assert (HI : 0 < INR (S k)) by (apply lt_0_INR; lia).
        apply Rmult_lt_reg_r with (INR (S k)); [exact HI|]. unfold Rdiv. rewrite Rmult_assoc, Rinv_l by lra.
        assert (INR N <= INR (S k)) by (apply le_INR; lia). assert (H0 : C / eps < INR (S k)) by lra.
        apply Rmult_lt_compat_r with (r := eps) in H0; [|exact He]. unfold Rdiv in H0. rewrite Rmult_assoc, Rinv_l in H0 by lra. lra. }
      assert (Ev : sobj v <= sobj z0).
      { cut (sobj v + - sobj z0 <= 0); [lra|]. apply (cluster_le n (fun k => x (S k)) v (fun e => sobj e + - sobj z0) (fun k => C / INR (S k))).
        - intros eps N He. destruct (Hv eps (S N) He) as (k & Hk & Hi). destruct k as [|k]; [lia|]. exists k. split; [lia|exact Hi].
        - apply cont_plus; [apply sobj_cont|apply cont_const].
        - exact Small.
        - intros k. specialize (Rate (S k) ltac:(lia)). lra. }
      assert (Mv : minimises feas sobj v) by (split; [exact Fv|intros y Hy; pose proof (proj2 Hz0 y Hy); lra]).
      exists v. split; [exact Mv|]. intros eps He.
      set (tm := 1 + rsum n tau). set (ti := 1 + rsum n (fun j => / tau j)).
      assert (Htm : forall j, (j < n)%nat -> tau j <= tm) by (intros j Hj; pose proof (rsum_term_le n tau j (fun q Hq => Rlt_le _ _ (Ht q Hq)) Hj); unfold tm; lra).
      assert (Htm0 : 1 <= tm) by (unfold tm; pose proof (rsum_nonneg n tau (fun q Hq => Rlt_le _ _ (Ht q Hq))); lra).
      assert (Hti : 1 <= ti) by (unfold ti; pose proof (rsum_nonneg n (fun j => / tau j) (fun q Hq => Rlt_le _ _ (Rinv_0_lt_compat _ (Ht q Hq)))); lra).
      (* V v k0 < eps^2 / (2 tm) for some k0 *)
      set (e1 := eps ^ 2 / (4 * tm)). assert (He1 : 0 < e1) by (apply Rdiv_lt_0_compat; [apply pow_lt, He|lra]).
      set (e2 := e1 / ti). assert (He2 : 0 < e2) by (apply Rdiv_lt_0_compat; lra).
      assert (He3 : 0 < e1 / (1 + c)) by (apply Rdiv_lt_0_compat; lra).
      destruct (Small (e1 / (1 + c)) He3) as [N1 HN1].
      destruct (Hv (sqrt e2) (S N1) (sqrt_lt_R0 _ He2)) as (k0 & Hk0N & Hk0). destruct k0 as [|k0]; [lia|].
      assert (Dk : dist2 (x (S k0)) v <= e1).
      { assert (Hd : dist2 (x (S k0)) v <= e2 * (ti - 1)).
        { unfold ProxGrad.dist2, ti. replace (1 + rsum n (fun j => / tau j) - 1) with (rsum n (fun j => / tau j)) by ring. rewrite <- rsum_scal.
          apply rsum_le. intros j Hj. apply Rmult_le_compat_r; [left; apply Rinv_0_lt_compat, Ht, Hj|]. specialize (Hk0 j Hj). rewrite <- pow2_abs.
          assert (S2 : sqrt e2 * sqrt e2 = e2) by (apply sqrt_sqrt; lra). pose proof (Rabs_pos (x (S k0) j - v j)). rewrite <- S2. simpl. rewrite Rmult_1_r. apply Rmult_le_compat; lra. }
        assert (E : e2 * ti = e1) by (unfold e2; field; lra). lra. }
      assert (Vk : V v (S k0) < 2 * e1).
      { unfold V. pose proof (Rate (S k0) ltac:(lia)) as R1. pose proof (HN1 k0 ltac:(lia)) as R2. pose proof (proj2 Hz0 v Fv) as Ez.
        assert (Q : c * (sobj (x (S k0)) - sobj v) <= c * (e1 / (1 + c))) by (apply Rmult_le_compat_l; lra).
        assert (Q2 : c * (e1 / (1 + c)) <= e1). { apply Rmult_le_reg_r with (1 + c); [lra|]. replace (c * (e1 / (1 + c)) * (1 + c)) with (c * e1) by (field; lra). nra. }
        lra. }
      exists (S k0). intros k Hk j Hj. pose proof (Cd (x k) v j Hj) as H. pose proof (Vmono v (S k0) k Mv Hk) as H2. pose proof (Vd v k Mv) as H5. pose proof (Ht j Hj). specialize (Htm j Hj).
      pose proof (sd_nonneg (x k) v) as D0.
      assert (H3 : (x k j - v j) ^ 2 < eps ^ 2).
      { eapply Rle_lt_trans; [exact H|]. apply Rle_lt_trans with (tm * dist2 (x k) v); [apply Rmult_le_compat_r; lra|].
        apply Rlt_le_trans with (tm * (4 * e1)); [apply Rmult_lt_compat_l; lra|]. unfold e1. right. field. lra. }
      rewrite <- pow2_abs in H3. pose proof (Rabs_pos (x k j - v j)). nra.
    Qed.
  End Plain.

  (** ** accelerated iteration *)
  Section Fast.
    Variables (x y : nat -> vec) (t : nat -> R).
    Hypothesis Y0 : y 0%nat = x 0%nat.
    Hypothesis X0 : supp (x 0%nat).
    Hypothesis T0 : t 0%nat = 1.
    Hypothesis TS : forall k, t (S k) ^ 2 - t (S k) = t k ^ 2.
    Hypothesis T1 : forall k, 1 <= t k.
    Hypothesis XS : forall k, x (S k) = spg (y k).
    Hypothesis YS : forall k j, y (S k) j = x (S k) j + (t k - 1) / t (S k) * (x (S k) j - x k j).
    Hypothesis Hrho : rho <= 1.

    Lemma sx_supp k : supp (x k).
    Proof. destruct k; [exact X0|rewrite XS; apply feas_supp, spg_feas]. Qed.
    Lemma sy_supp k : supp (y k).
    Proof.
      destruct k; [rewrite Y0; exact X0|]. intros j Hj Hm. rewrite YS, (sx_supp (S k) j Hj Hm), (sx_supp k j Hj Hm). ring.
    Qed.
    Lemma sfast_basic k z : feas z -> sobj (x (S k)) <= sobj z + / 2 * (dist2 (y k) z - dist2 (x (S k)) z).
    Proof.
      intros Hz. rewrite XS. pose proof (spg_basic (y k) z Hz (sy_supp k)). pose proof (sd_nonneg (spg (y k)) (y k)). nra.
    Qed.
    Notation mixv := ProxGrad.mixv.
    Lemma smix_id c a p z : c * ((c - 1) * dist2 a p + dist2 a z) = dist2 (mixv c a p) z + (c - 1) * dist2 p z.
    Proof. apply ProxGrad.mix_id, Ht. Qed.
    Lemma smix_next k : mixv (t (S k)) (y (S k)) (x (S k)) = mixv (t k) (x (S k)) (x k).
    Proof. apply vec_ext. intros j. unfold mixv. rewrite YS. pose proof (T1 (S k)). field. lra. Qed.
    Lemma sfast_energy z k : feas z ->
      t k ^ 2 * (sobj (x (S k)) - sobj z) + / 2 * dist2 (mixv (t k) (x (S k)) (x k)) z <= / 2 * dist2 (x 0%nat) z.
    Proof.
      intros Hz. induction k as [|k IH].
      - rewrite T0. pose proof (sfast_basic 0 z Hz) as B. rewrite Y0 in B.
        assert (E : mixv 1 (x 1%nat) (x 0%nat) = x 1%nat) by (apply vec_ext; intros j; unfold mixv; ring). rewrite E. lra.
      - pose proof (sfast_basic (S k) z Hz) as B1.
        assert (Hf : feas (x (S k))) by (rewrite XS; apply spg_feas).
        pose proof (sfast_basic (S k) (x (S k)) Hf) as B2. pose proof (T1 (S k)) as G. pose proof (TS k) as E.
        pose proof (smix_id (t (S k)) (y (S k)) (x (S k)) z) as I1. pose proof (smix_id (t (S k)) (x (S (S k))) (x (S k)) z) as I2.
        rewrite smix_next in I1. set (c := t (S k)) in *. set (v := sobj (x (S (S k)))) in *. set (v0 := sobj (x (S k))) in *. set (vz := sobj z) in *.
        assert (B2' : (c - 1) * v <= (c - 1) * (v0 + / 2 * (dist2 (y (S k)) (x (S k)) - dist2 (x (S (S k))) (x (S k))))) by (apply Rmult_le_compat_l; lra).
        assert (B : c * v <= (c - 1) * v0 + vz + / 2 * ((c - 1) * dist2 (y (S k)) (x (S k)) + dist2 (y (S k)) z - ((c - 1) * dist2 (x (S (S k))) (x (S k)) + dist2 (x (S (S k))) z))) by lra.
        apply Rmult_le_compat_l with (r := c) in B; [|lra].
        assert (Et : t k ^ 2 = c * (c - 1)) by (rewrite <- E; ring). rewrite Et in IH.
        set (d1 := (c - 1) * dist2 (y (S k)) (x (S k)) + dist2 (y (S k)) z) in *. set (d2 := (c - 1) * dist2 (x (S (S k))) (x (S k)) + dist2 (x (S (S k))) z) in *.
        replace (c * ((c - 1) * v0 + vz + / 2 * (d1 - d2))) with (c * (c - 1) * v0 + c * vz + / 2 * (c * d1) - / 2 * (c * d2)) in B by ring. rewrite I1, I2 in B.
        replace (c ^ 2 * (v - vz)) with (c * (c * v) - c ^ 2 * vz) by ring. replace (c * (c - 1) * (v0 - vz)) with (c * (c - 1) * v0 - c ^ 2 * vz + c * vz) in IH by ring. lra.
    Qed.
    Lemma sfast_rate z k : feas z -> (forall k, (INR k + 2) / 2 <= t k) -> sobj (x (S k)) - sobj z <= 2 * dist2 (x 0%nat) z / (INR k + 2) ^ 2.
    Proof.
      intros Hz Hg. pose proof (sfast_energy z k Hz) as E. pose proof (sd_nonneg (mixv (t k) (x (S k)) (x k)) z) as N. pose proof (sd_nonneg (x 0%nat) z) as D.
      pose proof (pos_INR k). specialize (Hg k). set (q := INR k + 2) in *. assert (Hq : 0 < q) by (unfold q; lra).
      destruct (Rle_lt_dec (sobj (x (S k)) - sobj z) 0) as [Le|Lt].
      - eapply Rle_trans; [exact Le|]. apply Rdiv_le_0_compat; [lra|apply pow_lt; exact Hq].
      - apply Rmult_le_reg_r with (q ^ 2); [apply pow_lt; lra|]. unfold Rdiv. rewrite Rmult_assoc, Rinv_l by (apply pow_nonzero; lra).
        assert (q ^ 2 / 4 <= t k ^ 2) by nra. nra.
    Qed.
  End Fast.
End SG.
