(** Projected / proximal gradient descent in a diagonal metric, with and without momentum: abstract convergence results used for SIRT and FISTA. *)
From Verif Require Import Sums DataTermsModel DataTermsProofs SolversModel SolversSpec SolversGeneric SolversProps RegularizersModel SolversConv SolversOptProps Compact PdhgConv PdhgExistProps.

Lemma soft0 v : soft_threshold1 v 0 = v.
Proof. unfold soft_threshold1, np_sign, np_fmax. destruct (Rlt_dec 0 v); [|destruct (Rlt_dec v 0)]; unfold Rabs; destruct (Rcase_abs v); unfold Rmax; destruct (Rle_dec _ _); lra. Qed.

Section PG.
  Variables (m n : nat) (M : mat) (w b tau : vec) (lam : R) (lo up xm : option vec) (rho : R).
  Hypothesis Hw : forall i, (i < m)%nat -> 0 <= w i.
  Hypothesis Ht : forall j, (j < n)%nat -> 0 < tau j.
  Hypothesis Hlam : 0 <= lam.
  Hypothesis Hlim : lims_ok lo up n.
  Hypothesis Hbx : binary_mask xm.
  (** the vectors that vanish outside the mask *)
  Definition supp (x : vec) : Prop := forall j, (j < n)%nat -> mask_at xm j = 0 -> x j = 0.
  Hypothesis Hstep : forall d, supp d -> rsum m (fun i => w i * mv n M d i ^ 2) <= rho * rsum n (fun j => d j ^ 2 / tau j).

  Definition obj (x : vec) : R := / 2 * wres m n M w b x + lam * rsum n (fun j => Rabs (x j)).
  Definition dist2 (x y : vec) : R := rsum n (fun j => (x j - y j) ^ 2 / tau j).
  Definition gr (y : vec) : vec := mtv m M (fun i => w i * (b i - mv n M y i)).
  Definition pg (y : vec) : vec := constrain lo up xm (fun j => soft_threshold1 (y j + tau j * gr y j) (tau j * lam)).
  Definition feas (x : vec) : Prop := feasible lo up xm n x.

  Lemma feas_supp x : feas x -> supp x.
  Proof. intros H j Hj Hm. apply (feasible_out _ _ _ _ _ _ H Hj Hm). Qed.
  Lemma pg_feas y : feas (pg y).
  Proof. apply constrain_feasible. exact Hlim. Qed.
  Lemma dist2_nonneg x y : 0 <= dist2 x y.
  Proof. apply rsum_nonneg. intros j Hj. apply Rdiv_le_0_compat; [apply pow2_ge_0|apply Ht, Hj]. Qed.

  Definition en (d : vec) : R := rsum m (fun i => w i * mv n M d i ^ 2).
  Lemma en_nonneg d : 0 <= en d.
  Proof. apply rsum_nonneg. intros i Hi. apply Rmult_le_pos; [apply Hw, Hi|apply pow2_ge_0]. Qed.

  Lemma pg_vi y z j : feas z -> (j < n)%nat ->
    lam * Rabs (pg y j) + (y j + tau j * gr y j - pg y j) / tau j * (z j - pg y j) <= lam * Rabs (z j).
  Proof.
    intros Hz Hj. pose proof (Ht j Hj) as T.
    pose proof (constrain_vi lo up xm n (fun j => soft_threshold1 (y j + tau j * gr y j) (tau j * lam)) z j Hlim Hbx Hz Hj) as V.
    fold (pg y) in V. cbv beta in V.
    apply (soft_clip_vi lam (tau j) _ _ _ _ Hlam T eq_refl).
    replace (pg y j + tau j * ((y j + tau j * gr y j - pg y j) / tau j)) with (y j + tau j * gr y j) by (field; lra). exact V.
  Qed.

  (** exact three-point inequality *)
  Lemma three_point y z : feas z ->
    obj (pg y) <= obj z + / 2 * (dist2 y z - dist2 (pg y) z - dist2 (pg y) y)
      + / 2 * en (fun j => pg y j - y j) - / 2 * en (fun j => z j - y j).
  Proof.
    intros Hz. set (x := pg y). unfold obj.
    rewrite (wres_ext _ _ M w b x (fun j => y j + (x j - y j))) by (intros j _; ring).
    rewrite (wres_ext _ _ M w b z (fun j => y j + (z j - y j))) by (intros j _; ring).
    rewrite !wres_expand. fold (gr y). fold (en (fun j => x j - y j)). fold (en (fun j => z j - y j)).
    assert (H : lam * rsum n (fun j => Rabs (x j)) - dot n (fun j => x j - y j) (gr y) <=
                lam * rsum n (fun j => Rabs (z j)) - dot n (fun j => z j - y j) (gr y) + / 2 * (dist2 y z - dist2 x z - dist2 x y)).
    { unfold dot, dist2. rewrite <- !rsum_scal, <- !rsum_minus, <- rsum_scal, <- !rsum_plus. apply rsum_le. intros j Hj.
      pose proof (pg_vi y z j Hz Hj) as V. fold x in V. pose proof (Ht j Hj).
      replace ((y j + tau j * gr y j - x j) / tau j * (z j - x j)) with (gr y j * (z j - x j) + (y j - x j) * (z j - x j) / tau j) in V by (field; lra).
      replace (/ 2 * ((y j - z j) ^ 2 / tau j - (x j - z j) ^ 2 / tau j - (x j - y j) ^ 2 / tau j)) with (- ((y j - x j) * (z j - x j) / tau j)) by (field; lra). lra. }
    lra.
  Qed.

  Lemma en_step y : supp y -> en (fun j => pg y j - y j) <= rho * dist2 (pg y) y.
  Proof. intros Hy. apply Hstep. intros j Hj Hm. rewrite (feas_supp _ (pg_feas y) j Hj Hm), (Hy j Hj Hm). ring. Qed.

  Lemma pg_basic y z : feas z -> supp y -> obj (pg y) <= obj z + / 2 * (dist2 y z - dist2 (pg y) z) - (1 - rho) / 2 * dist2 (pg y) y.
  Proof.
    intros Hz Hy. pose proof (three_point y z Hz). pose proof (en_step y Hy). pose proof (en_nonneg (fun j => z j - y j)). lra.
  Qed.

  Lemma pg_descent y : feas y -> obj (pg y) <= obj y - (2 - rho) / 2 * dist2 (pg y) y.
  Proof.
    intros Hy. pose proof (pg_basic y y Hy (feas_supp y Hy)) as H.
    assert (E : dist2 y y = 0) by (unfold dist2; rewrite (rsum_ext n _ (fun _ => 0)); [apply rsum_0|intros j _; unfold Rdiv; ring]). rewrite E in H. lra.
  Qed.

  (** ** plain iteration *)
  Section Plain.
    Variable x : nat -> vec.
    Hypothesis X0 : feas (x 0%nat).
    Hypothesis XS : forall k, x (S k) = pg (x k).
    Hypothesis Hrho : 0 <= rho < 2.

    Lemma xk_feas k : feas (x k).
    Proof. destruct k; [exact X0|rewrite XS; apply pg_feas]. Qed.
    Lemma xk_mono k : obj (x (S k)) <= obj (x k).
    Proof. rewrite XS. pose proof (pg_descent (x k) (xk_feas k)). pose proof (dist2_nonneg (pg (x k)) (x k)). nra. Qed.
    Definition cst : R := Rmax 0 (rho - 1) / (2 - rho).
    Lemma cst_nonneg : 0 <= cst.
    Proof. unfold cst. apply Rdiv_le_0_compat; [apply Rmax_l|lra]. Qed.

    Lemma plain_sum z k : feas z -> INR k * (obj (x k) - obj z) <= / 2 * (dist2 (x 0%nat) z - dist2 (x k) z) + cst * (obj (x 0%nat) - obj (x k)).
    Proof.
      intros Hz. induction k as [|k IH]; [simpl INR; lra|].
      rewrite S_INR. pose proof (xk_mono k) as Hm. pose proof (pos_INR k).
      pose proof (pg_basic (x k) z Hz (feas_supp _ (xk_feas k))) as B. pose proof (pg_descent (x k) (xk_feas k)) as D. rewrite <- XS in B, D.
      pose proof (dist2_nonneg (x (S k)) (x k)) as N. set (d := dist2 (x (S k)) (x k)) in *.
      assert (Hc : (rho - 1) / 2 * d <= cst * (obj (x k) - obj (x (S k)))).
      { apply Rle_trans with (cst * ((2 - rho) / 2 * d)); [|apply Rmult_le_compat_l; [apply cst_nonneg|lra]].
        unfold cst. replace (Rmax 0 (rho - 1) / (2 - rho) * ((2 - rho) / 2 * d)) with (Rmax 0 (rho - 1) * (d / 2)) by (field; lra).
        pose proof (Rmax_r 0 (rho - 1)). nra. }
      assert (INR k * (obj (x (S k)) - obj z) <= INR k * (obj (x k) - obj z)) by (apply Rmult_le_compat_l; lra). lra.
    Qed.

    (** the distance to every minimiser decreases *)
    Lemma quad_growth z y : minimises feas obj z -> lam = 0 -> feas y -> obj z + / 2 * en (fun j => y j - z j) <= obj y.
    Proof.
      intros [Hz Hmin] L0 Hy. unfold obj in *. rewrite L0 in *.
      rewrite (wres_ext _ _ M w b y (fun j => z j + (y j - z j))) by (intros j _; ring). rewrite wres_expand. fold (gr z). fold (en (fun j => y j - z j)).
      assert (G : dot n (fun j => y j - z j) (gr z) <= 0).
      { apply Rnot_lt_le. intros C. set (a := dot n (fun j => y j - z j) (gr z)) in *. pose proof (en_nonneg (fun j => y j - z j)) as E. set (e := en (fun j => y j - z j)) in *.
        set (t := a / (a + e)). assert (T : 0 < t <= 1).
        { unfold t. split; [apply Rdiv_lt_0_compat; lra|]. apply Rmult_le_reg_r with (a + e); [lra|]. unfold Rdiv. rewrite Rmult_assoc, Rinv_l by lra. lra. }
        assert (Hf : feas (fun j => z j + t * (y j - z j))).
        { replace (fun j => z j + t * (y j - z j)) with (lc t y (1 - t) z) by (apply vec_ext; intros j; unfold lc; ring). apply feasible_convex; [lra|exact Hy|exact Hz]. }
        specialize (Hmin _ Hf). rewrite wres_expand in Hmin. fold (gr z) in Hmin.
        assert (E1 : dot n (fun j => t * (y j - z j)) (gr z) = t * a) by (unfold a, dot; rewrite <- rsum_scal; apply rsum_ext; intros; ring).
        assert (E2 : rsum m (fun i => w i * mv n M (fun j => t * (y j - z j)) i ^ 2) = t ^ 2 * e).
        { unfold e, en. rewrite <- rsum_scal. apply rsum_ext. intros i Hi. rewrite mv_scal. ring. }
        rewrite E1, E2 in Hmin. assert (t * (a + e) = a) by (unfold t; field; lra). nra. }
      lra.
    Qed.
    Lemma fejer z k : minimises feas obj z -> lam = 0 -> dist2 (x (S k)) z <= dist2 (x k) z - (2 - rho) / 2 * dist2 (x (S k)) (x k).
    Proof.
      intros Hz L0. pose proof (three_point (x k) z (proj1 Hz)) as T. rewrite <- XS in T.
      pose proof (quad_growth z (x (S k)) Hz L0 (xk_feas (S k))) as Q.
      pose proof (en_step (x k) (feas_supp _ (xk_feas k))) as E. rewrite <- XS in E.
      set (d := fun j => x (S k) j - x k j) in *. set (a := fun j => z j - x k j) in *. set (c := fun j => x (S k) j - z j) in *.
      assert (P : en d <= 2 * en a + 2 * en c).
      { unfold en. rewrite <- !rsum_scal, <- rsum_plus. apply rsum_le. intros i Hi.
        assert (Ed : mv n M d i = mv n M a i + mv n M c i) by (rewrite <- mv_plus; apply mv_ext; intros j _; unfold d, a, c; ring).
        rewrite Ed. pose proof (Hw i Hi). pose proof (pow2_ge_0 (mv n M a i - mv n M c i)).
        assert (w i * ((mv n M a i - mv n M c i) ^ 2) >= 0) by (apply Rle_ge, Rmult_le_pos; assumption). nra. }
      lra.
    Qed.
  End Plain.

  (** ** accelerated iteration *)
  Section Fast.
    Variables (x y : nat -> vec) (t : nat -> R).
    Hypothesis Y0 : y 0%nat = x 0%nat.
    Hypothesis X0 : supp (x 0%nat).
    Hypothesis T0 : t 0%nat = 1.
    Hypothesis TS : forall k, t (S k) ^ 2 - t (S k) = t k ^ 2.
    Hypothesis T1 : forall k, 1 <= t k.
    Hypothesis XS : forall k, x (S k) = pg (y k).
    Hypothesis YS : forall k j, y (S k) j = x (S k) j + (t k - 1) / t (S k) * (x (S k) j - x k j).
    Hypothesis Hrho : rho <= 1.

    Lemma x_supp k : supp (x k).
    Proof. destruct k; [exact X0|rewrite XS; apply feas_supp, pg_feas]. Qed.
    Lemma y_supp k : supp (y k).
    Proof.
      destruct k; [rewrite Y0; exact X0|]. intros j Hj Hm. rewrite YS, (x_supp (S k) j Hj Hm), (x_supp k j Hj Hm). ring.
    Qed.
    Lemma fast_basic k z : feas z -> obj (x (S k)) <= obj z + / 2 * (dist2 (y k) z - dist2 (x (S k)) z).
    Proof.
      intros Hz. rewrite XS. pose proof (pg_basic (y k) z Hz (y_supp k)). pose proof (dist2_nonneg (pg (y k)) (y k)). nra.
    Qed.
    (** the combination t a - (t - 1) p *)
    Definition mixv (c : R) (a p : vec) : vec := fun j => c * a j - (c - 1) * p j.
    Lemma mix_id c a p z : c * ((c - 1) * dist2 a p + dist2 a z) = dist2 (mixv c a p) z + (c - 1) * dist2 p z.
    Proof. unfold dist2, mixv. rewrite <- !rsum_scal, <- rsum_plus, <- !rsum_scal, <- rsum_plus. apply rsum_ext. intros j Hj. pose proof (Ht j Hj). field. lra. Qed.
    Lemma mix_next k : mixv (t (S k)) (y (S k)) (x (S k)) = mixv (t k) (x (S k)) (x k).
    Proof. apply vec_ext. intros j. unfold mixv. rewrite YS. pose proof (T1 (S k)). field. lra. Qed.

    Lemma fast_energy z k : feas z ->
      t k ^ 2 * (obj (x (S k)) - obj z) + / 2 * dist2 (mixv (t k) (x (S k)) (x k)) z <= / 2 * dist2 (x 0%nat) z.
    Proof.
      intros Hz. induction k as [|k IH].
      - rewrite T0. pose proof (fast_basic 0 z Hz) as B. rewrite Y0 in B.
        assert (E : mixv 1 (x 1%nat) (x 0%nat) = x 1%nat) by (apply vec_ext; intros j; unfold mixv; ring). rewrite E. lra.
      - pose proof (fast_basic (S k) z Hz) as B1.
        assert (Hf : feas (x (S k))) by (rewrite XS; apply pg_feas).
        pose proof (fast_basic (S k) (x (S k)) Hf) as B2. pose proof (T1 (S k)) as G. pose proof (TS k) as E.
        pose proof (mix_id (t (S k)) (y (S k)) (x (S k)) z) as I1. pose proof (mix_id (t (S k)) (x (S (S k))) (x (S k)) z) as I2.
        rewrite mix_next in I1. set (c := t (S k)) in *. set (v := obj (x (S (S k)))) in *. set (v0 := obj (x (S k))) in *. set (vz := obj z) in *.
        assert (B2' : (c - 1) * v <= (c - 1) * (v0 + / 2 * (dist2 (y (S k)) (x (S k)) - dist2 (x (S (S k))) (x (S k))))) by (apply Rmult_le_compat_l; lra).
        assert (B : c * v <= (c - 1) * v0 + vz + / 2 * ((c - 1) * dist2 (y (S k)) (x (S k)) + dist2 (y (S k)) z - ((c - 1) * dist2 (x (S (S k))) (x (S k)) + dist2 (x (S (S k))) z))) by lra.
        apply Rmult_le_compat_l with (r := c) in B; [|lra].
        assert (Et : t k ^ 2 = c * (c - 1)) by (rewrite <- E; ring). rewrite Et in IH.
        set (d1 := (c - 1) * dist2 (y (S k)) (x (S k)) + dist2 (y (S k)) z) in *. set (d2 := (c - 1) * dist2 (x (S (S k))) (x (S k)) + dist2 (x (S (S k))) z) in *.
        replace (c * ((c - 1) * v0 + vz + / 2 * (d1 - d2))) with (c * (c - 1) * v0 + c * vz + / 2 * (c * d1) - / 2 * (c * d2)) in B by ring. rewrite I1, I2 in B.
        replace (c ^ 2 * (v - vz)) with (c * (c * v) - c ^ 2 * vz) by ring. replace (c * (c - 1) * (v0 - vz)) with (c * (c - 1) * v0 - c ^ 2 * vz + c * vz) in IH by ring. lra.
    Qed.
    Lemma fast_rate z k : feas z -> (forall k, (INR k + 2) / 2 <= t k) -> obj (x (S k)) - obj z <= 2 * dist2 (x 0%nat) z / (INR k + 2) ^ 2.
    Proof.
      intros Hz Hg. pose proof (fast_energy z k Hz) as E. pose proof (dist2_nonneg (mixv (t k) (x (S k)) (x k)) z) as N. pose proof (dist2_nonneg (x 0%nat) z) as D.
      pose proof (pos_INR k). specialize (Hg k). set (q := INR k + 2) in *. assert (Hq : 0 < q) by (unfold q; lra).
      destruct (Rle_lt_dec (obj (x (S k)) - obj z) 0) as [L|L].
      - eapply Rle_trans; [exact L|]. apply Rdiv_le_0_compat; [lra|apply pow_lt; exact Hq].
      - apply Rmult_le_reg_r with (q ^ 2); [apply pow_lt; lra|]. unfold Rdiv. rewrite Rmult_assoc, Rinv_l by (apply pow_nonzero; lra).
        assert (q ^ 2 / 4 <= t k ^ 2) by nra. nra.
    Qed.
  End Fast.
End PG.
