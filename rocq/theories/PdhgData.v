(** PDHG with an arbitrary convex data term given through its conjugate: the run of the code satisfies the abstract
    scheme of PdhgConv, so the objective decreases at rate 1/sqrt(iterations) and a minimiser exists. *)
From Verif Require Import Sums DataTermsModel DataTermsProofs SolversModel SolversSpec SolversGeneric SolversProps
  RegularizersModel SolversConv SolversConvProps SolversOptProps PdhgConv Compact PdhgConvProps PdhgExistProps.

(** the dual update of the data, as executed by the solver (one call of update_dual, apply_proximal_dual, mask) *)
Definition data_step (P : problem) (l : option R) (p u : vec) : vec :=
  mul_mask (train_mask P) (proximal_dual (pdhg_dt P l) vones (update_dual (pdhg_dt P l) p u)).

(** a convex data term: domain and value of the conjugate, value of the term, and two constants of the maximisers *)
Record dspec := mkD { ds_dom : vec -> Prop; ds_conj : vec -> R; ds_val : vec -> R; ds_B : R; ds_C : R }.
Definition dspec_ok (m : nat) (sg : vec) (mask : option vec) (step : vec -> vec -> vec) (D : dspec) : Prop :=
  (forall p u, ds_dom D (step p u) /\ forall Y, ds_dom D Y ->
     ds_conj D (step p u) + (rsum m (fun i => u i * (Y i - step p u i)) + rsum m (fun i => (p i - step p u i) * (Y i - step p u i) / sg i)) <= ds_conj D Y) /\
  (forall u z, ds_dom D z -> rsum m (fun i => u i * z i) - ds_conj D z <= ds_val D u) /\
  (forall u, exists Y, ds_dom D Y /\ rsum m (fun i => u i * Y i) - ds_conj D Y = ds_val D u /\
     forall z, ds_dom D z -> rsum m (fun i => (Y i - z i) ^ 2 / sg i) <= ds_B D + ds_C D * (ds_val D u - (rsum m (fun i => u i * z i) - ds_conj D z))) /\
  (forall t y y', 0 <= t <= 1 -> ds_dom D y -> ds_dom D y' ->
     ds_dom D (lc t y (1 - t) y') /\ ds_conj D (lc t y (1 - t) y') <= t * ds_conj D y + (1 - t) * ds_conj D y') /\
  (forall u v, cluster m u v -> (forall k, ds_dom D (u k)) -> ds_dom D v) /\ (forall v, cont m (ds_conj D) v) /\
  ds_dom D vzeros /\ (forall z z', ds_dom D z -> veq m z z' -> ds_dom D z' /\ ds_conj D z' = ds_conj D z) /\
  (forall z i, ds_dom D z -> (i < m)%nat -> mask_at mask i = 0 -> z i = 0) /\ 0 <= ds_B D /\ 0 <= ds_C D.

Definition data_objective (P : problem) (M : mat) (D : dspec) (rs : list rspec) (x : vec) : R :=
  ds_val D (mv (p_n P) M x) + lsum rs (fun r => rs_value (p_n P) r x).

Lemma cont_sub d d' f v : (d' <= d)%nat -> cont d' f v -> cont d f v.
Proof. intros Hd H eps He. destruct (H eps He) as (del & Hdel & Hc). exists del. split; [exact Hdel|]. intros u Hu. apply Hc. intros i Hi. apply Hu. lia. Qed.

(** the part of the interface that only concerns one step *)
Definition dspec_base (m : nat) (sg : vec) (mask : option vec) (step : vec -> vec -> vec) (D : dspec) : Prop :=
  (forall p u, ds_dom D (step p u) /\ forall Y, ds_dom D Y ->
     ds_conj D (step p u) + (rsum m (fun i => u i * (Y i - step p u i)) + rsum m (fun i => (p i - step p u i) * (Y i - step p u i) / sg i)) <= ds_conj D Y) /\
  (forall z z', ds_dom D z -> veq m z z' -> ds_dom D z' /\ ds_conj D z' = ds_conj D z) /\
  (forall z i, ds_dom D z -> (i < m)%nat -> mask_at mask i = 0 -> z i = 0).
Lemma dspec_ok_base m sg mask step D : dspec_ok m sg mask step D -> dspec_base m sg mask step D.
Proof. intros (H1 & _ & _ & _ & _ & _ & _ & H2 & H3 & _). split; [exact H1|]. split; assumption. Qed.

Section RunB.
  Variables (P : problem) (M : mat) (rs : list rspec) (l : option R) (D : dspec).
  Hypothesis Hop : p_op P = mat_op (p_m P) (p_n P) M.
  Hypothesis Hregs : p_regs P = map (model_reg (p_n P)) rs.
  Hypothesis Hok : Forall rs_ok rs.
  Hypothesis HD : dspec_base (p_m P) (pdhg_sigma P l) (train_mask P) (data_step P l) D.

  Let n := p_n P.
  Let m := p_m P.
  Let sg := pdhg_sigma P l.
  Let tau := pdhg_tau P l.
  Let it := pdhg_iterate P l.
  Definition domd (z : vec) : Prop := ds_dom D z /\ domreg rs (shift (p_m P) z).
  Definition Fd (z : vec) : R := ds_conj D z + fsreg rs (shift (p_m P) z).

  Lemma b_domS z : domd z -> SZp P z.
  Proof. destruct HD as (_ & _ & H). intros [Hz _] i Hi E. apply (H z i Hz Hi E). Qed.
  Lemma b_p_S k : pd_p (it (S k)) = data_step P l (pd_p (it k)) (mv n M (pd_xrelax (it k))).
  Proof. unfold it. rewrite it_S. unfold pdhg_step, pdhg_update, data_step. cbn [pd_p]. rewrite Hop at 1. reflexivity. Qed.
  Lemma b_step_dom p u : ds_dom D (data_step P l p u). Proof. apply HD. Qed.
  Lemma b_dom k : domd (put m (pd_p (it (S k))) (stackq rs (pd_q (it (S k))))).
  Proof.
    destruct HD as (_ & HE & _). split.
    - apply (proj1 (HE (pd_p (it (S k))) _ ltac:(rewrite b_p_S; apply b_step_dom) (put_veq' m _ _))).
    - fold m. rewrite shift_put. unfold it. rewrite (q_S P rs l Hregs). apply (proj1 (regs_vi n rs (pd_q (it k)) (pd_xrelax (it k)) Hok (q_len P rs l Hregs k))).
  Qed.
  Lemma b_dual k Y : domd Y ->
    Fd (zs P rs l (S k)) + kd n (mt P rs) (Kst P M rs) (lc 2 (xs P l (S k)) (-1) (xs P l k)) (lc 1 Y (-1) (zs P rs l (S k))) +
      ip (mt P rs) (sgst P rs l) (lc 1 (zs P rs l k) (-1) (zs P rs l (S k))) (lc 1 Y (-1) (zs P rs l (S k))) <= Fd Y.
  Proof.
    intros [Y1 Y2]. rewrite (mv_mt_xr P M rs l), kd_split, ip_split. fold n m sg. set (xr := pd_xrelax (pdhg_iterate P l (S (S k)))).
    pose proof (proj2 (regs_vi n rs (pd_q (it (S (S k)))) xr Hok (q_len P rs l Hregs _)) _ Y2) as R.
    cbv zeta in R. unfold xr, it in R. rewrite <- (q_S P rs l Hregs) in R. fold it in R. fold xr in R.
    assert (Ez' : shift m (zs P rs l (S k)) = stackq rs (pd_q (it (S (S (S k)))))) by (unfold zs; apply shift_put).
    assert (Ez : shift m (zs P rs l k) = stackq rs (pd_q (it (S (S k))))) by (unfold zs; apply shift_put).
    fold m in R. fold it in Ez, Ez'. rewrite <- Ez, <- Ez' in R. rewrite rsum_plus in R.
    destruct HD as (HV & HE & _).
    pose proof (b_p_S (S (S k))) as Ep. fold m n in Ep. unfold it in Ep. fold xr in Ep. fold it in Ep.
    destruct (HV (pd_p (it (S (S k)))) (mv n M xr)) as [V1 V2]. fold m sg in V2. specialize (V2 Y Y1). rewrite <- Ep in V1, V2.
    destruct (HE (pd_p (it (S (S (S k))))) (zs P rs l (S k)) V1) as [_ EC]; [unfold zs; apply put_veq'|].
    assert (Zl : forall q i, (i < m)%nat -> zs P rs l q i = pd_p (it (S (S q))) i) by (intros q i Hi; unfold zs; apply put_lo, Hi).
    rewrite (rsum_ext m (fun i => mv n M xr i * lc 1 Y (-1) (zs P rs l (S k)) i) (fun i => mv n M xr i * (Y i - pd_p (it (S (S (S k)))) i))).
    2:{ intros i Hi. unfold lc. rewrite Zl by exact Hi. ring. }
    rewrite (rsum_ext m (fun i => lc 1 (zs P rs l k) (-1) (zs P rs l (S k)) i * lc 1 Y (-1) (zs P rs l (S k)) i / sg i)
      (fun i => (pd_p (it (S (S k))) i - pd_p (it (S (S (S k)))) i) * (Y i - pd_p (it (S (S (S k)))) i) / sg i)).
    2:{ intros i Hi. unfold lc. rewrite !Zl by exact Hi. unfold Rdiv. ring. }
    unfold Fd. fold m. rewrite EC.
    assert (Er : forall a b, rsum (tot rs) (fun i => mv n (Kreg rs) xr i * shift m (lc 1 a (-1) b) i) = rsum (tot rs) (fun i => mv n (Kreg rs) xr i * (shift m a i - shift m b i))).
    { intros a b. apply rsum_ext. intros i _. unfold shift, lc. ring. }
    rewrite Er.
    assert (Er2 : rsum (tot rs) (fun i => shift m (lc 1 (zs P rs l k) (-1) (zs P rs l (S k))) i * shift m (lc 1 Y (-1) (zs P rs l (S k))) i / sreg rs i) =
       rsum (tot rs) (fun i => (shift m (zs P rs l k) i - shift m (zs P rs l (S k)) i) * (shift m Y i - shift m (zs P rs l (S k)) i) / sreg rs i)).
    { apply rsum_ext. intros i _. unfold shift, lc, Rdiv. ring. }
    rewrite Er2. change (pd_xrelax (it (S (S k)))) with xr in R. lra.
  Qed.
End RunB.

Section RunD.
  Variables (P : problem) (M : mat) (rs : list rspec) (l : option R) (D : dspec).
  Hypothesis Hop : p_op P = mat_op (p_m P) (p_n P) M.
  Hypothesis Hregs : p_regs P = map (model_reg (p_n P)) rs.
  Hypothesis Hok : Forall rs_ok rs.
  Hypothesis HD : dspec_ok (p_m P) (pdhg_sigma P l) (train_mask P) (data_step P l) D.
  Hypothesis Hlim : limits_ok P.
  Hypothesis Hbx : binary_mask (p_xmask P).
  Hypothesis Hsteps : pd_steps_ok P M rs l.

  Let n := p_n P.
  Let m := p_m P.
  Let sg := pdhg_sigma P l.
  Let tau := pdhg_tau P l.
  Let it := pdhg_iterate P l.
  Let domd := domd P rs D.
  Let Fd := Fd P rs D.
  Lemma domd_S z : domd z -> SZp P z.
  Proof. apply (b_domS P rs l D (dspec_ok_base _ _ _ _ _ HD)). Qed.
  Lemma d_dom k : domd (put m (pd_p (it (S k))) (stackq rs (pd_q (it (S k))))).
  Proof. apply (b_dom P M rs l D Hop Hregs Hok (dspec_ok_base _ _ _ _ _ HD)). Qed.
  Lemma d_dual k Y : domd Y ->
    Fd (zs P rs l (S k)) + kd n (mt P rs) (Kst P M rs) (lc 2 (xs P l (S k)) (-1) (xs P l k)) (lc 1 Y (-1) (zs P rs l (S k))) +
      ip (mt P rs) (sgst P rs l) (lc 1 (zs P rs l k) (-1) (zs P rs l (S k))) (lc 1 Y (-1) (zs P rs l (S k))) <= Fd Y.
  Proof. apply (b_dual P M rs l D Hop Hregs Hok (dspec_ok_base _ _ _ _ _ HD)). Qed.
  Lemma d_lag x z : lag n (mt P rs) (Kst P M rs) Fd x z = (rsum m (fun i => mv n M x i * z i) - ds_conj D z) +
    (rsum (tot rs) (fun i => mv n (Kreg rs) x i * shift m z i) - fsreg rs (shift m z)).
  Proof. unfold lag, Fd, PdhgData.Fd. unfold n, m. rewrite kd_split. ring. Qed.
  Lemma d_sup x z : domd z -> lag n (mt P rs) (Kst P M rs) Fd x z <= data_objective P M D rs x.
  Proof.
    intros [Z1 Z2]. rewrite d_lag. unfold data_objective. fold n m. pose proof (regs_sup n rs x _ Hok Z2) as H. fold m in H.
    destruct HD as (_ & HS & _). specialize (HS (mv n M x) z Z1). fold m in HS. lra.
  Qed.
  Lemma d_att x : exists Y, domd Y /\ lag n (mt P rs) (Kst P M rs) Fd x Y = data_objective P M D rs x /\
    forall z, domd z -> ip (mt P rs) (sgst P rs l) (lc 1 Y (-1) z) (lc 1 Y (-1) z) <=
      (breg rs + ds_B D) + (ds_C D + creg rs) * (data_objective P M D rs x - lag n (mt P rs) (Kst P M rs) Fd x z).
  Proof.
    destruct (regs_att n rs x Hok) as (Y2 & D2 & E2 & B2). destruct HD as (_ & HS & HA & _ & _ & _ & _ & HE & _ & C0 & C1).
    destruct (HA (mv n M x)) as (Y1 & D1 & E1 & B1). fold m in E1, B1. destruct (HE Y1 (put m Y1 Y2) D1 (put_veq' m _ _)) as [DY EY].
    exists (put m Y1 Y2). split; [split; [exact DY|fold m; rewrite shift_put; exact D2]|]. split.
    - rewrite d_lag, shift_put, E2, EY. unfold data_objective. fold n m. rewrite <- E1. f_equal. f_equal. apply rsum_ext. intros i Hi. rewrite put_lo by exact Hi. reflexivity.
    - intros z [Z1 Z2]. specialize (B2 _ Z2). fold m in B2. specialize (B1 z Z1). rewrite ip_split, d_lag. fold m n sg. unfold data_objective. fold n m.
      pose proof (HS (mv n M x) z Z1) as G1. fold m in G1. pose proof (regs_sup n rs x _ Hok Z2) as G2. fold m in G2.
      rewrite (rsum_ext m _ (fun i => (Y1 i - z i) ^ 2 / sg i)) by (intros i Hi; unfold lc; rewrite put_lo by exact Hi; unfold Rdiv; ring).
      rewrite (rsum_ext (tot rs) _ (fun i => (Y2 i - shift m z i) ^ 2 / sreg rs i)) by (intros i Hi; unfold shift, lc; rewrite put_hi; unfold Rdiv; ring).
      set (gd := ds_val D (mv n M x) - (rsum m (fun i => mv n M x i * z i) - ds_conj D z)) in *.
      set (gr := lsum rs (fun r => rs_value n r x) - (rsum (tot rs) (fun i => mv n (Kreg rs) x i * shift m z i) - fsreg rs (shift m z))) in *.
      match goal with |- _ <= _ + _ * ?g => replace g with (gd + gr) by (unfold gd, gr; ring) end.
      assert (0 <= gd) by (unfold gd; lra). assert (0 <= gr) by (unfold gr; lra). pose proof (creg_nonneg rs Hok).
      assert (0 <= ds_C D * gr) by (apply Rmult_le_pos; lra). assert (0 <= creg rs * gd) by (apply Rmult_le_pos; lra). fold sg in B1. lra.
  Qed.
  Lemma d_convex t y y' : 0 <= t <= 1 -> domd y -> domd y' ->
    domd (lc t y (1 - t) y') /\ Fd (lc t y (1 - t) y') <= t * Fd y + (1 - t) * Fd y'.
  Proof.
    intros Ht [Y1 Y2] [Y1' Y2']. destruct (domreg_convex rs t _ _ Hok Ht Y2 Y2') as [A B]. destruct HD as (_ & _ & _ & HC & _).
    destruct (HC t y y' Ht Y1 Y1') as [C1 C2]. split; [split; [exact C1|exact A]|]. unfold Fd, PdhgData.Fd.
    change (shift (p_m P) (lc t y (1 - t) y')) with (lc t (shift (p_m P) y) (1 - t) (shift (p_m P) y')). lra.
  Qed.
  Lemma d_closed u v : cluster (mt P rs) u v -> (forall k, domd (u k)) -> domd v.
  Proof.
    intros Hc H. destruct HD as (_ & _ & _ & _ & HL & _). split.
    - apply (HL u v); [|intros k; apply H]. intros eps N He. destruct (Hc eps N He) as (k & Hk & Hv). exists k. split; [exact Hk|]. intros i Hi. apply Hv. unfold mt. lia.
    - apply (domreg_closed rs (fun k => shift (p_m P) (u k)) _ Hok); [|intros k; apply (proj2 (H k))].
      apply (cluster_sub (mt P rs) (tot rs) (p_m P)); [unfold mt; lia|exact Hc].
  Qed.
  Lemma d_cont v : cont (mt P rs) Fd v.
  Proof.
    destruct HD as (_ & _ & _ & _ & _ & HC & _). unfold Fd, PdhgData.Fd. apply cont_plus.
    - apply (cont_sub _ (p_m P)); [unfold mt; lia|apply HC].
    - apply (cont_shift_by (p_m P) _ (tot rs)); [unfold mt; lia|apply fsreg_cont].
  Qed.
  Definition bounded_levels : Prop :=
    forall L, exists Rb, forall y, obeys_limits P y -> data_objective P M D rs y <= L -> forall j, (j < p_n P)%nat -> Rabs (y j) <= Rb.
  Definition saddled (X Z : vec) : Prop := obeys_limits P X /\ domd Z /\
    (forall y, obeys_limits P y -> lag (p_n P) (mt P rs) (Kst P M rs) Fd X Z <= lag (p_n P) (mt P rs) (Kst P M rs) Fd y Z) /\
    (forall y, domd y -> lag (p_n P) (mt P rs) (Kst P M rs) Fd X y <= lag (p_n P) (mt P rs) (Kst P M rs) Fd X Z) /\
    data_objective P M D rs X = lag (p_n P) (mt P rs) (Kst P M rs) Fd X Z.
  Lemma d_saddle : bounded_levels -> exists X Z, saddled X Z.
  Proof.
    intros Hc. pose proof (creg_nonneg rs Hok). pose proof (breg_nonneg rs Hok). pose proof HD as (_ & _ & _ & _ & _ & _ & Hz0 & _ & _ & C0 & C1).
    apply (saddle_exists n (mt P rs) (Kst P M rs) tau (sgst P rs l) (SXp P) (SZp P) (obeys_limits P) domd Fd (xs P l) (zs P rs l)
      (data_objective P M D rs) (breg rs + ds_B D) (ds_C D + creg rs)).
    - intros a x b y Hx Hy j Hj E. unfold lc. rewrite (Hx j Hj E), (Hy j Hj E). ring.
    - intros a x b y Hx Hy j Hj E. unfold lc. rewrite (Hx j Hj E), (Hy j Hj E). ring.
    - apply (run_psd P M rs l Hok Hsteps).
    - apply feas_S.
    - apply domd_S.
    - intros k. apply (run_feas P M rs l Hop Hregs Hlim).
    - intros k. apply d_dom.
    - intros k X. apply (run_primal P M rs l Hop Hregs Hlim Hbx Hsteps).
    - intros k Y. apply d_dual.
    - lra.
    - lra.
    - intros x z _. apply d_sup.
    - intros x _. apply d_att.
    - apply d_convex.
    - intros t y y'. apply feasible_convex.
    - apply (sgst_pos P M rs l Hok Hsteps).
    - split; [exact Hz0|apply domreg_0, Hok].
    - apply feasible_closed.
    - apply d_closed.
    - apply d_cont.
    - exact Hc.
  Qed.
  Lemma d_saddle_min X Z : saddled X Z -> minimises (obeys_limits P) (data_objective P M D rs) X.
  Proof.
    intros (FX & DZ & S1 & S2 & E). split; [exact FX|]. intros y Hy. rewrite E. eapply Rle_trans; [apply S1, Hy|]. apply d_sup, DZ.
  Qed.
  Definition rated (X Z : vec) : R :=
    let Q := dist2 n (mt P rs) (Kst P M rs) tau (sgst P rs l) (xs P l) (zs P rs l) 0 X Z in (1 + 2 * (ds_C D + creg rs)) * Q + 2 * (Q + (breg rs + ds_B D)).
  Lemma d_rate X Z k : saddled X Z ->
    data_objective P M D rs (pd_x (pdhg_iterate P l (S (S k)))) - data_objective P M D rs X <= rated X Z / sqrt (INR (S k)).
  Proof.
    intros (FX & DZ & S1 & S2 & E). pose proof (creg_nonneg rs Hok). pose proof (breg_nonneg rs Hok). pose proof HD as (_ & _ & _ & _ & _ & _ & Hz0 & _ & _ & C0 & C1).
    apply (last_iterate n (mt P rs) (Kst P M rs) tau (sgst P rs l) (SXp P) (SZp P)) with (feas := obeys_limits P) (dom := domd) (Fs := Fd)
      (obj := data_objective P M D rs) (x := xs P l) (z := zs P rs l) (k := k).
    - intros a x b y Hx Hy j Hj E0. unfold lc. rewrite (Hx j Hj E0), (Hy j Hj E0). ring.
    - intros a x b y Hx Hy j Hj E0. unfold lc. rewrite (Hx j Hj E0), (Hy j Hj E0). ring.
    - apply (run_psd P M rs l Hok Hsteps).
    - apply feas_S.
    - apply domd_S.
    - intros q. apply (run_feas P M rs l Hop Hregs Hlim).
    - intros q. apply d_dom.
    - intros q X0. apply (run_primal P M rs l Hop Hregs Hlim Hbx Hsteps).
    - intros q Y. apply d_dual.
    - exact FX.
    - exact DZ.
    - exact S1.
    - exact S2.
    - lra.
    - lra.
    - intros x z _. apply d_sup.
    - intros x _. apply d_att.
    - exact E.
  Qed.
  Lemma d_exists : p_tol P = None -> bounded_levels ->
    exists X C, minimises (obeys_limits P) (data_objective P M D rs) X /\ 0 <= C /\
      forall it, (2 <= it)%nat -> let x := fst (pdhg_call P l it) in
        obeys_limits P x /\ data_objective P M D rs x <= data_objective P M D rs X + C / sqrt (INR it).
  Proof.
    intros Htol Hb. destruct (d_saddle Hb) as (X & Z & HS).
    exists X, (2 * Rmax 0 (rated X Z)). split; [apply (d_saddle_min X Z HS)|]. split; [pose proof (Rmax_l 0 (rated X Z)); lra|].
    intros i Hi. cbv zeta. rewrite (pdhg_no_tol P l i Htol). destruct i as [|[|k]]; try lia. split.
    - apply (run_feas P M rs l Hop Hregs Hlim (S k)).
    - pose proof (d_rate X Z k HS). pose proof (rate_double (rated X Z) k). lra.
  Qed.
  (** only one minimiser: the volumes converge *)
  Lemma d_volume X : p_tol P = None -> bounded_levels -> minimises (obeys_limits P) (data_objective P M D rs) X ->
    (forall y, minimises (obeys_limits P) (data_objective P M D rs) y -> veq (p_n P) y X) ->
    forall eps, 0 < eps -> exists N, forall it, (N <= it)%nat -> forall j, (j < p_n P)%nat -> Rabs (fst (pdhg_call P l it) j - X j) < eps.
  Proof.
    intros Htol Hb [FX MX] Huniq eps He.
    destruct (d_exists Htol Hb) as (X' & C & [FX' MX'] & HC & Hit).
    set (xi := fun it => fst (pdhg_call P l it)). set (o := data_objective P M D rs) in *. assert (Eo : o X' = o X) by (pose proof (MX _ FX'); pose proof (MX' _ FX); lra).
    destruct (Classical_Prop.classic (exists N, forall it, (N <= it)%nat -> forall j, (j < p_n P)%nat -> Rabs (xi it j - X j) < eps)) as [G|G]; [exact G|exfalso].
    assert (A : forall N, exists it, (N <= it)%nat /\ exists j, (j < p_n P)%nat /\ eps <= Rabs (xi it j - X j)).
    { intros N. destruct (Classical_Prop.classic (exists it, (N <= it)%nat /\ exists j, (j < p_n P)%nat /\ eps <= Rabs (xi it j - X j))) as [E|E]; [exact E|exfalso].
      apply G. exists N. intros i HN j Hj. apply Rnot_le_lt. intros Hle. apply E. exists i. split; [exact HN|]. exists j. split; assumption. }
    assert (F : forall N, {it | (N <= it)%nat /\ exists j, (j < p_n P)%nat /\ eps <= Rabs (xi it j - X j)}).
    { intros N. apply ConstructiveEpsilon.constructive_indefinite_ground_description_nat; [|apply A]. intros i.
      destruct (le_dec N i) as [L|L]; [|right; tauto].
      destruct (bex_dec (p_n P) (fun j => eps <= Rabs (xi i j - X j)) (fun j => Rle_dec _ _)) as [E|E]; [left|right]; tauto. }
    set (f := fun N => proj1_sig (F N)). assert (Hf : forall N, (N <= f N)%nat /\ exists j, (j < p_n P)%nat /\ eps <= Rabs (xi (f N) j - X j)) by (intros N; apply (proj2_sig (F N))).
    set (u := fun k => xi (f (k + 2)%nat)).
    assert (Hge : forall k, (k + 2 <= f (k + 2))%nat) by (intros k; apply (proj1 (Hf (k + 2)%nat))).
    assert (Fu : forall k, obeys_limits P (u k)) by (intros k; apply Hit; specialize (Hge k); lia).
    assert (Ou : forall k, o (u k) <= o X + C / sqrt (INR (k + 2))).
    { intros k. destruct (Hit (f (k + 2)%nat) ltac:(specialize (Hge k); lia)) as [_ O]. fold (xi (f (k + 2)%nat)) in O. fold (u k) in O.
      eapply Rle_trans; [exact O|]. rewrite Eo. apply Rplus_le_compat_l. apply Rmult_le_compat_l; [exact HC|]. apply Rinv_le_contravar; [apply sqrt_lt_R0, lt_0_INR; lia|].
      apply sqrt_le_1_alt, le_INR, Hge. }
    destruct (Hb (o X + C)) as [Rb HRb].
    assert (Bu : forall k j, (j < p_n P)%nat -> Rabs (u k j) <= Rb).
    { intros k. apply HRb; [apply Fu|]. eapply Rle_trans; [apply Ou|]. apply Rplus_le_compat_l.
      assert (Q : 1 <= sqrt (INR (k + 2))) by (rewrite <- sqrt_1 at 1; apply sqrt_le_1_alt; rewrite plus_INR; pose proof (pos_INR k); simpl; lra).
      apply Rmult_le_reg_r with (sqrt (INR (k + 2))); [lra|]. unfold Rdiv. rewrite Rmult_assoc, Rinv_l by lra. nra. }
    destruct (bolzano_vec (p_n P) u Rb Bu) as [v Hv].
    assert (Fv : obeys_limits P v) by (apply (feasible_closed _ _ _ _ u v Hv Fu)).
    assert (Mv : minimises (obeys_limits P) o v).
    { split; [exact Fv|]. intros y Hy. apply Rle_trans with (o X); [|apply MX, Hy].
      destruct (d_att v) as (Y & DY & EY & _). unfold o. rewrite <- EY. fold o.
      cut (lag (p_n P) (mt P rs) (Kst P M rs) Fd v Y + - o X <= 0); [fold n; lra|].
      apply (cluster_le (p_n P) u v (fun e => lag (p_n P) (mt P rs) (Kst P M rs) Fd e Y + - o X) (fun k => C / sqrt (INR (k + 2))) Hv).
      - apply cont_plus; [|apply cont_const]. unfold lag. apply (cont_plus _ (fun e => kd (p_n P) (mt P rs) (Kst P M rs) e Y) (fun _ => - Fd Y)); [|apply cont_const].
        apply (cont_kd (p_n P) (mt P rs) (p_n P) (p_n P) (Kst P M rs) (fun j e => e j) (fun i _ => Y i)); [intros; apply cont_coord; assumption|intros; apply cont_const|reflexivity].
      - intros e0 He0. destruct (rate_small C e0 HC He0) as (N & _ & HN). exists N. intros k Hk. apply HN. lia.
      - intros k. pose proof (d_sup (u k) Y DY) as S. fold o in S. fold n. pose proof (Ou k). lra. }
    pose proof (Huniq v Mv) as Ev.
    destruct (Hv eps 0%nat He) as (k & _ & Hk). destruct (proj2 (Hf (k + 2)%nat)) as (j & Hj & Haway). fold (u k) in Haway.
    specialize (Hk j Hj). rewrite (Ev j Hj) in Hk. lra.
  Qed.
End RunD.
