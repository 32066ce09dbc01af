(** Convergence theory of the primal-dual iteration, for plain vectors: a sequence (x_k, z_k) that satisfies the two
    variational inequalities of one PDHG step (primal step from z_k, dual step from z_k and 2 x_{k+1} - x_k).
    Used by PdhgConvProps.v, where the sequence is the one computed by the solver. *)
From Verif Require Import Sums SolversModel SolversSpec SolversGeneric SolversConv Compact.

Definition lc (a : R) (x : vec) (b : R) (y : vec) : vec := fun j => a * x j + b * y j.
Definition ip (n : nat) (s u v : vec) : R := rsum n (fun j => u j * v j / s j).
Lemma ip_l n s a x b y v : ip n s (lc a x b y) v = a * ip n s x v + b * ip n s y v.
Proof. unfold ip, lc. rewrite <- !rsum_scal, <- rsum_plus. apply rsum_ext. intros; unfold Rdiv; ring. Qed.
Lemma ip_sym n s u v : ip n s u v = ip n s v u.
Proof. unfold ip. apply rsum_ext. intros; unfold Rdiv; ring. Qed.
Lemma ip_r n s a x b y v : ip n s v (lc a x b y) = a * ip n s v x + b * ip n s v y.
Proof. rewrite !(ip_sym n s v). apply ip_l. Qed.
Definition kd (n m : nat) (K : mat) (x z : vec) : R := dot m (mv n K x) z.
Lemma kd_r n m K x a z b z' : kd n m K x (lc a z b z') = a * kd n m K x z + b * kd n m K x z'.
Proof. unfold kd, dot, lc. rewrite <- !rsum_scal, <- rsum_plus. apply rsum_ext. intros; ring. Qed.
Lemma kd_l n m K a x b x' z : kd n m K (lc a x b x') z = a * kd n m K x z + b * kd n m K x' z.
Proof.
  unfold kd, dot. rewrite <- !rsum_scal, <- rsum_plus. apply rsum_ext. intros i _.
  rewrite <- !Rmult_assoc, <- Rmult_plus_distr_r. f_equal. unfold mv, lc. rewrite <- !rsum_scal, <- rsum_plus. apply rsum_ext. intros; ring.
Qed.

Section Abs.
  Variables (n m : nat) (K : mat) (tau sig : vec).
  Variables (SX SZ : vec -> Prop).          (* the subspaces of volumes and duals in use *)
  Hypothesis SXl : forall a x b y, SX x -> SX y -> SX (lc a x b y).
  Hypothesis SZl : forall a x b y, SZ x -> SZ y -> SZ (lc a x b y).
  Hypothesis Hpsd : forall x z, SX x -> SZ z -> 0 <= ip n tau x x /\ 0 <= ip m sig z z /\ kd n m K x z ^ 2 <= ip n tau x x * ip m sig z z.

  (** the metric of the method *)
  Definition mf (dx dz ex ez : vec) : R := ip n tau dx ex + ip m sig dz ez - kd n m K dx ez - kd n m K ex dz.
  Lemma mf_nonneg x z : SX x -> SZ z -> 0 <= mf x z x z.
  Proof.
    intros Hx Hz. destruct (Hpsd x z Hx Hz) as (H1 & H2 & H3). unfold mf.
    set (a := ip n tau x x) in *. set (b := ip m sig z z) in *. set (c := kd n m K x z) in *.
    assert (2 * c <= a + b); [|lra]. destruct (Rle_lt_dec c 0); [lra|].
    apply Rsqr_incr_0_var; [|lra]. unfold Rsqr. pose proof (pow2_ge_0 (a - b)). nra.
  Qed.
  Lemma mf_young t dx dz ex ez : 0 < t -> SX dx -> SZ dz -> SX ex -> SZ ez ->
    - mf dx dz ex ez <= / 2 * (mf dx dz dx dz / t + t * mf ex ez ex ez).
  Proof.
    intros Ht H1 H2 H3 H4. pose proof (mf_nonneg (lc 1 dx t ex) (lc 1 dz t ez) (SXl _ _ _ _ H1 H3) (SZl _ _ _ _ H2 H4)) as H.
    assert (E : mf (lc 1 dx t ex) (lc 1 dz t ez) (lc 1 dx t ex) (lc 1 dz t ez) = mf dx dz dx dz + 2 * t * mf dx dz ex ez + t ^ 2 * mf ex ez ex ez).
    { unfold mf. rewrite !ip_l, !ip_r, !kd_l, !kd_r. rewrite (ip_sym n tau ex dx), (ip_sym m sig ez dz). ring. }
    rewrite E in H. set (A := mf dx dz dx dz) in *. set (B := mf dx dz ex ez) in *. set (C := mf ex ez ex ez) in *.
    apply Rmult_le_reg_l with (2 * t); [lra|]. replace (2 * t * (/ 2 * (A / t + t * C))) with (A + t ^ 2 * C) by (field; lra). lra.
  Qed.
  Lemma mf_par dx dz ex ez : SX dx -> SZ dz -> SX ex -> SZ ez ->
    mf (lc 1 dx 1 ex) (lc 1 dz 1 ez) (lc 1 dx 1 ex) (lc 1 dz 1 ez) <= 2 * mf dx dz dx dz + 2 * mf ex ez ex ez.
  Proof.
    intros H1 H2 H3 H4. pose proof (mf_nonneg (lc 1 dx (-1) ex) (lc 1 dz (-1) ez) (SXl _ _ _ _ H1 H3) (SZl _ _ _ _ H2 H4)) as H.
    unfold mf in *. rewrite ?ip_l, ?ip_r, ?kd_l, ?kd_r in H. rewrite ?ip_l, ?ip_r, ?kd_l, ?kd_r. lra.
  Qed.

  Variables (feas dom : vec -> Prop) (Fs : vec -> R).
  Hypothesis feasS : forall x, feas x -> SX x.
  Hypothesis domS : forall z, dom z -> SZ z.
  (** the Lagrangian *)
  Definition lag (x z : vec) : R := kd n m K x z - Fs z.
  Variables (x z : nat -> vec).
  Hypothesis Hfx : forall k, feas (x k).
  Hypothesis Hdz : forall k, dom (z k).
  Hypothesis Hprimal : forall k X, feas X ->
    ip n tau (lc 1 (x k) (-1) (x (S k))) (lc 1 X (-1) (x (S k))) <= kd n m K (lc 1 X (-1) (x (S k))) (z k).
  Hypothesis Hdual : forall k Y, dom Y ->
    Fs (z (S k)) + kd n m K (lc 2 (x (S k)) (-1) (x k)) (lc 1 Y (-1) (z (S k)))
      + ip m sig (lc 1 (z k) (-1) (z (S k))) (lc 1 Y (-1) (z (S k))) <= Fs Y.

  Definition stepx k : vec := lc 1 (x (S k)) (-1) (x k).
  Definition stepz k : vec := lc 1 (z (S k)) (-1) (z k).
  Definition step2 k : R := mf (stepx k) (stepz k) (stepx k) (stepz k).
  Definition dist2 k X Y : R := mf (lc 1 (x k) (-1) X) (lc 1 (z k) (-1) Y) (lc 1 (x k) (-1) X) (lc 1 (z k) (-1) Y).

  Lemma gap k X Y : feas X -> dom Y ->
    lag (x (S k)) Y - lag X (z (S k)) <= - mf (stepx k) (stepz k) (lc 1 (x (S k)) (-1) X) (lc 1 (z (S k)) (-1) Y).
  Proof.
    intros HX HY. pose proof (Hprimal k X HX) as H1. pose proof (Hdual k Y HY) as H2. unfold lag, mf, stepx, stepz in *.
    repeat rewrite ?ip_l, ?ip_r, ?kd_l, ?kd_r in H1; repeat rewrite ?ip_l, ?ip_r, ?kd_l, ?kd_r in H2; repeat rewrite ?ip_l, ?ip_r, ?kd_l, ?kd_r.
    pose proof (ip_sym n tau (x (S k)) (x k)). pose proof (ip_sym m sig (z (S k)) (z k)). pose proof (ip_sym n tau X (x k)).
    pose proof (ip_sym n tau X (x (S k))). pose proof (ip_sym m sig Y (z k)). pose proof (ip_sym m sig Y (z (S k))). lra.
  Qed.
  (** Fejer-type identity with the gap *)
  Lemma gap_fejer k X Y : feas X -> dom Y ->
    2 * (lag (x (S k)) Y - lag X (z (S k))) <= dist2 k X Y - dist2 (S k) X Y - step2 k.
  Proof.
    intros HX HY. pose proof (gap k X Y HX HY) as H. unfold dist2, step2, mf, stepx, stepz in *.
    repeat rewrite ?ip_l, ?ip_r, ?kd_l, ?kd_r in H; repeat rewrite ?ip_l, ?ip_r, ?kd_l, ?kd_r.
    pose proof (ip_sym n tau (x (S k)) (x k)). pose proof (ip_sym m sig (z (S k)) (z k)). pose proof (ip_sym n tau X (x k)).
    pose proof (ip_sym n tau X (x (S k))). pose proof (ip_sym m sig Y (z k)). pose proof (ip_sym m sig Y (z (S k))). lra.
  Qed.
  Lemma step2_nonneg k : 0 <= step2 k.
  Proof. apply mf_nonneg; unfold stepx, stepz; auto. Qed.
  Lemma dist2_nonneg k X Y : feas X -> dom Y -> 0 <= dist2 k X Y.
  Proof. intros. apply mf_nonneg; auto. Qed.
  (** the steps get shorter *)
  Lemma step2_decr k : step2 (S k) <= step2 k.
  Proof.
    pose proof (gap k (x (S (S k))) (z (S (S k))) (Hfx _) (Hdz _)) as H1.
    pose proof (gap (S k) (x (S k)) (z (S k)) (Hfx _) (Hdz _)) as H2.
    pose proof (mf_young 1 (stepx k) (stepz k) (lc 1 (x (S k)) (-1) (x (S (S k)))) (lc 1 (z (S k)) (-1) (z (S (S k)))) ltac:(lra)) as H3.
    specialize (H3 ltac:(unfold stepx; auto) ltac:(unfold stepz; auto) ltac:(auto) ltac:(auto)).
    assert (E1 : mf (lc 1 (x (S k)) (-1) (x (S (S k)))) (lc 1 (z (S k)) (-1) (z (S (S k)))) (lc 1 (x (S k)) (-1) (x (S (S k)))) (lc 1 (z (S k)) (-1) (z (S (S k)))) = step2 (S k)).
    { unfold step2, stepx, stepz, mf. rewrite !ip_l, !ip_r, !kd_l, !kd_r. ring. }
    assert (E2 : mf (stepx (S k)) (stepz (S k)) (lc 1 (x (S (S k))) (-1) (x (S k))) (lc 1 (z (S (S k))) (-1) (z (S k))) = step2 (S k)) by reflexivity.
    assert (E3 : mf (stepx k) (stepz k) (stepx k) (stepz k) = step2 k) by reflexivity.
    rewrite E1, E3 in H3. rewrite E2 in H2. replace (step2 k / 1) with (step2 k) in H3 by field. lra.
  Qed.
  Lemma step2_le i k : (i <= k)%nat -> step2 k <= step2 i.
  Proof. induction 1 as [|k H IH]; [lra|]. eapply Rle_trans; [apply step2_decr|exact IH]. Qed.

  (** * Averages of the iterates: a saddle point exists when the sublevel sets of the objective are bounded *)
  Hypothesis Fs_convex : forall t y y', 0 <= t <= 1 -> dom y -> dom y' -> dom (lc t y (1 - t) y') /\ Fs (lc t y (1 - t) y') <= t * Fs y + (1 - t) * Fs y'.
  Hypothesis feas_convex : forall t y y', 0 <= t <= 1 -> feas y -> feas y' -> feas (lc t y (1 - t) y').
  Fixpoint avg (w : nat -> vec) (N : nat) : vec :=
    match N with O => w 1%nat | S k => lc (INR (S k) / INR (S (S k))) (avg w k) (1 - INR (S k) / INR (S (S k))) (w (S (S k))) end.
  Lemma avg_w k : 0 <= INR (S k) / INR (S (S k)) <= 1 /\ INR (S (S k)) * (INR (S k) / INR (S (S k))) = INR (S k) /\
     INR (S (S k)) * (1 - INR (S k) / INR (S (S k))) = 1.
  Proof.
    assert (H : 0 < INR (S k)) by (apply lt_0_INR; lia). assert (E : INR (S (S k)) = INR (S k) + 1) by apply S_INR. rewrite E. set (a := INR (S k)) in *.
    split; [split; [apply Rdiv_le_0_compat; lra|apply Rmult_le_reg_r with (a + 1); [lra|]; unfold Rdiv; rewrite Rmult_assoc, Rinv_l by lra; lra]|].
    split; field; lra.
  Qed.
  Lemma avg_feas N : feas (avg x N).
  Proof. induction N as [|N IH]; cbn [avg]; [apply Hfx|]. apply feas_convex; [apply avg_w|exact IH|apply Hfx]. Qed.
  Lemma avg_dom N : dom (avg z N).
  Proof. induction N as [|N IH]; cbn [avg]; [apply Hdz|]. apply Fs_convex; [apply avg_w|exact IH|apply Hdz]. Qed.
  Lemma lag_affine t y y' Y : lag (lc t y (1 - t) y') Y = t * lag y Y + (1 - t) * lag y' Y.
  Proof. unfold lag. rewrite kd_l. ring. Qed.
  Lemma lag_concave t y y' X : 0 <= t <= 1 -> dom y -> dom y' -> t * lag X y + (1 - t) * lag X y' <= lag X (lc t y (1 - t) y').
  Proof. intros Ht Hy Hy'. destruct (Fs_convex t y y' Ht Hy Hy') as [_ H]. unfold lag. rewrite kd_r. lra. Qed.
  Theorem ergodic N X Y : feas X -> dom Y -> 2 * INR (S N) * (lag (avg x N) Y - lag X (avg z N)) + dist2 (S N) X Y <= dist2 0 X Y.
  Proof.
    intros HX HY. induction N as [|N IH].
    - cbn [avg]. pose proof (gap_fejer 0 X Y HX HY) as H. pose proof (step2_nonneg 0). replace (INR 1) with 1 by reflexivity. lra.
    - destruct (avg_w N) as (Ht & E1 & E2). pose proof (gap_fejer (S N) X Y HX HY) as H. pose proof (step2_nonneg (S N)) as H0.
      pose proof (lag_concave _ (avg z N) (z (S (S N))) X Ht (avg_dom N) (Hdz _)) as C. pose proof (lag_affine (INR (S N) / INR (S (S N))) (avg x N) (x (S (S N))) Y) as A.
      cbn [avg]. set (t := INR (S N) / INR (S (S N))) in *. set (a := INR (S (S N))) in *. assert (Ha : 0 < a) by (apply lt_0_INR; lia).
      assert (G : a * (lag (lc t (avg x N) (1 - t) (x (S (S N)))) Y - lag X (lc t (avg z N) (1 - t) (z (S (S N)))))
        <= INR (S N) * (lag (avg x N) Y - lag X (avg z N)) + (lag (x (S (S N))) Y - lag X (z (S (S N))))).
      { rewrite A. apply Rle_trans with (a * (t * lag (avg x N) Y + (1 - t) * lag (x (S (S N))) Y - (t * lag X (avg z N) + (1 - t) * lag X (z (S (S N)))))).
        - apply Rmult_le_compat_l; lra.
        - right. rewrite <- E1 at 1.
          replace (lag (x (S (S N))) Y - lag X (z (S (S N)))) with (a * (1 - t) * (lag (x (S (S N))) Y - lag X (z (S (S N))))) by (rewrite E2; ring). ring. }
      lra.
  Qed.

  (** a saddle point *)
  Variables (X Z : vec).
  Hypothesis HX : feas X.
  Hypothesis HZ : dom Z.
  Hypothesis Hsp1 : forall x, feas x -> lag X Z <= lag x Z.
  Hypothesis Hsp2 : forall z, dom z -> lag X z <= lag X Z.
  Lemma fejer k : dist2 (S k) X Z + step2 k <= dist2 k X Z.
  Proof. pose proof (gap_fejer k X Z HX HZ). pose proof (Hsp1 (x (S k)) (Hfx _)). pose proof (Hsp2 (z (S k)) (Hdz _)). lra. Qed.
  Lemma dist2_sum k : dist2 k X Z + rsum k step2 <= dist2 0 X Z.
  Proof. induction k as [|k IH]; cbn [rsum]; [lra|]. pose proof (fejer k). lra. Qed.
  Lemma step2_rate k : INR (S k) * step2 k <= dist2 0 X Z.
  Proof.
    pose proof (dist2_sum (S k)) as H. pose proof (dist2_nonneg (S k) X Z HX HZ).
    assert (rsum (S k) (fun _ => step2 k) <= rsum (S k) step2) by (apply rsum_le; intros i Hi; apply step2_le; lia).
    rewrite rsum_const in H1. lra.
  Qed.

  (** the objective: the largest value of the Lagrangian over the duals, attained, with the maximisers controlled *)
  Variables (obj : vec -> R) (B c : R).
  Hypothesis HB : 0 <= B.
  Hypothesis Hc : 0 <= c.
  Hypothesis Hsup : forall x z, feas x -> dom z -> lag x z <= obj x.
  Hypothesis Hatt : forall x, feas x -> exists Y, dom Y /\ lag x Y = obj x /\
    forall z, dom z -> ip m sig (lc 1 Y (-1) z) (lc 1 Y (-1) z) <= B + c * (obj x - lag x z).
  Hypothesis HXobj : obj X = lag X Z.

  Theorem last_iterate k : 
    obj (x (S k)) - obj X <= ((1 + 2 * c) * dist2 0 X Z + 2 * (dist2 0 X Z + B)) / sqrt (INR (S k)).
  Proof.
    set (D := dist2 0 X Z). assert (D0 : 0 <= D) by (apply dist2_nonneg; auto).
    destruct (Hatt (x (S k)) (Hfx _)) as (Y & HY & EY & Ha). specialize (Ha Z HZ).
    pose proof (gap k X Y HX HY) as Hg. rewrite EY in Hg. pose proof (Hsp2 (z (S k)) (Hdz _)) as Hs2. pose proof (Hsp1 (x (S k)) (Hfx _)) as Hs1.
    set (G := obj (x (S k)) - obj X).
    set (r := sqrt (INR (S k))). assert (Hr1 : 1 <= r).
    { unfold r. rewrite <- sqrt_1 at 1. apply sqrt_le_1_alt. rewrite S_INR. pose proof (pos_INR k). lra. }
    assert (Hr2 : r * r = INR (S k)) by (unfold r; apply sqrt_sqrt, pos_INR).
    set (t := / (r * (1 + 2 * c))). assert (Hrc : 0 < r * (1 + 2 * c)) by (apply Rmult_lt_0_compat; lra).
    assert (Ht : 0 < t) by (apply Rinv_0_lt_compat; exact Hrc).
    assert (SY : SZ (lc 1 (z (S k)) (-1) Y)) by auto. assert (SXk : SX (lc 1 (x (S k)) (-1) X)) by auto.
    pose proof (mf_young t (stepx k) (stepz k) (lc 1 (x (S k)) (-1) X) (lc 1 (z (S k)) (-1) Y) Ht ltac:(unfold stepx; auto) ltac:(unfold stepz; auto) SXk SY) as Hy.
    fold (step2 k) in Hy.
    (* split the distance to (X, Y) *)
    assert (Hsplit : mf (lc 1 (x (S k)) (-1) X) (lc 1 (z (S k)) (-1) Y) (lc 1 (x (S k)) (-1) X) (lc 1 (z (S k)) (-1) Y)
       <= 2 * dist2 (S k) X Z + 2 * ip m sig (lc 1 Y (-1) Z) (lc 1 Y (-1) Z)).
    { assert (S1 : SX (lc 0 X 0 X)) by auto. assert (S2 : SZ (lc 1 Z (-1) Y)) by auto.
      pose proof (mf_par (lc 1 (x (S k)) (-1) X) (lc 1 (z (S k)) (-1) Z) (lc 0 X 0 X) (lc 1 Z (-1) Y) SXk ltac:(auto) S1 S2) as Hp.
      unfold dist2, mf in *. rewrite ?ip_l, ?ip_r, ?kd_l, ?kd_r in Hp. rewrite ?ip_l, ?ip_r, ?kd_l, ?kd_r. lra. }
    assert (HD : dist2 (S k) X Z <= D).
    { pose proof (dist2_sum (S k)). pose proof (rsum_nonneg (S k) step2 (fun i _ => step2_nonneg i)). unfold D. lra. }
    assert (Hst : step2 k <= D / (r * r)).
    { pose proof (step2_rate k) as Hq. fold D in Hq. rewrite <- Hr2 in Hq. apply Rmult_le_reg_l with (r * r); [nra|].
      replace (r * r * (D / (r * r))) with D by (field; lra). exact Hq. }
    assert (Ha' : ip m sig (lc 1 Y (-1) Z) (lc 1 Y (-1) Z) <= B + c * G).
    { eapply Rle_trans; [exact Ha|]. apply Rplus_le_compat_l, Rmult_le_compat_l; [exact Hc|]. unfold G. rewrite HXobj. lra. }
    assert (HG : 0 <= G).
    { unfold G. rewrite HXobj. pose proof (Hsup (x (S k)) Z (Hfx _) HZ). lra. }
    assert (HGle : G <= / 2 * (D / (r * r) / t + t * (2 * D + 2 * (B + c * G)))).
    { assert (G1 : G <= - mf (stepx k) (stepz k) (lc 1 (x (S k)) (-1) X) (lc 1 (z (S k)) (-1) Y)) by (unfold G; rewrite HXobj; lra).
      eapply Rle_trans; [exact G1|]. eapply Rle_trans; [exact Hy|]. apply Rmult_le_compat_l; [lra|]. apply Rplus_le_compat.
      - unfold Rdiv at 1 2. apply Rmult_le_compat_r; [left; apply Rinv_0_lt_compat; exact Ht|exact Hst].
      - apply Rmult_le_compat_l; lra. }
    assert (Et : D / (r * r) / t = D * (1 + 2 * c) / r) by (unfold t; field; lra).
    rewrite Et in HGle.
    assert (tc : t * c <= / 2).
    { unfold t. apply Rmult_le_reg_l with (r * (1 + 2 * c)); [exact Hrc|]. rewrite <- Rmult_assoc, Rinv_r by lra. nra. }
    assert (tr : t <= / r).
    { unfold t. apply Rinv_le_contravar; [lra|]. nra. }
    assert (Hir : 0 < / r) by (apply Rinv_0_lt_compat; lra).
    assert (T1 : t * (D + B) <= / r * (D + B)) by (apply Rmult_le_compat_r; lra).
    assert (T2 : t * c * G <= / 2 * G) by (apply Rmult_le_compat_r; lra).
    assert (F : G <= D * (1 + 2 * c) / r + 2 * (/ r * (D + B))) by lra.
    eapply Rle_trans; [exact F|]. right. unfold Rdiv. ring.
  Qed.
End Abs.

(** * Existence of a saddle point *)
Lemma INR_above r : exists N, r < INR N.
Proof.
  destruct (Rle_lt_dec r 0) as [H|H]; [exists 1%nat; replace (INR 1) with 1 by reflexivity; lra|].
  destruct (archimed_cor1 (/ r) (Rinv_0_lt_compat r H)) as (N & H1 & H2). exists N. rewrite <- (Rinv_inv r), <- (Rinv_inv (INR N)). assert (0 < INR N) by (apply lt_0_INR; exact H2). apply Rinv_lt_contravar; [apply Rmult_lt_0_compat; apply Rinv_0_lt_compat; assumption|exact H1].
Qed.
Definition join (n : nat) (a b : vec) : vec := fun i => if Nat.ltb i n then a i else b (i - n)%nat.
Lemma join_lo n a b i : (i < n)%nat -> join n a b i = a i.
Proof. intros H. unfold join. apply Nat.ltb_lt in H. rewrite H. reflexivity. Qed.
Lemma join_hi n a b i : join n a b (n + i)%nat = b i.
Proof. unfold join. replace (Nat.ltb (n + i) n) with false by (symmetry; apply Nat.ltb_ge; lia). f_equal. lia. Qed.
Lemma kd_ext n m K x x' z z' : (forall j, (j < n)%nat -> x j = x' j) -> (forall i, (i < m)%nat -> z i = z' i) -> kd n m K x z = kd n m K x' z'.
Proof.
  intros H H'. unfold kd, dot. apply rsum_ext. intros i Hi. rewrite (H' i Hi). f_equal. unfold mv. apply rsum_ext. intros j Hj. rewrite (H j Hj). reflexivity.
Qed.
Lemma cont_kd n m d e K (fx fz : nat -> vec -> R) v : (forall j, (j < n)%nat -> cont d (fx j) v) -> (forall i, (i < m)%nat -> cont d (fz i) v) -> e = d ->
  cont d (fun u => kd n m K (fun j => fx j u) (fun i => fz i u)) v.
Proof.
  intros Hx Hz _. unfold kd, dot, mv. apply (cont_rsum d m (fun i u => rsum n (fun j => K i j * fx j u) * fz i u)). intros i Hi. apply cont_mult; [|auto].
  apply (cont_rsum d n (fun j u => K i j * fx j u)). intros j Hj. apply cont_scal. auto.
Qed.
Lemma kd_0_r n m K x : kd n m K x vzeros = 0.
Proof. unfold kd, dot. apply rsum_zero. intros i _. unfold vzeros. ring. Qed.
Lemma cont_shift n m f v : cont m f (fun i => v (n + i)%nat) -> cont (n + m) (fun u => f (fun i => u (n + i)%nat)) v.
Proof.
  intros H eta He. destruct (H eta He) as (e & Pe & Q). exists e. split; [exact Pe|]. intros u Hu. apply Q. intros i Hi. apply Hu. lia.
Qed.
Lemma abs_sq_bound d : Rabs d <= 1 + d ^ 2.
Proof. rewrite <- (pow2_abs d). pose proof (Rabs_pos d). nra. Qed.

Section Exist.
  Variables (n m : nat) (K : mat) (tau sig : vec) (SX SZ : vec -> Prop) (feas dom : vec -> Prop) (Fs : vec -> R) (x z : nat -> vec) (obj : vec -> R) (B c : R).
  Hypothesis SXl : forall a x b y, SX x -> SX y -> SX (lc a x b y).
  Hypothesis SZl : forall a x b y, SZ x -> SZ y -> SZ (lc a x b y).
  Hypothesis Hpsd : forall x z, SX x -> SZ z -> 0 <= ip n tau x x /\ 0 <= ip m sig z z /\ kd n m K x z ^ 2 <= ip n tau x x * ip m sig z z.
  Hypothesis feasS : forall x, feas x -> SX x.
  Hypothesis domS : forall z, dom z -> SZ z.
  Hypothesis Hfx : forall k, feas (x k).
  Hypothesis Hdz : forall k, dom (z k).
  Hypothesis Hprimal : forall k X, feas X ->
    ip n tau (lc 1 (x k) (-1) (x (S k))) (lc 1 X (-1) (x (S k))) <= kd n m K (lc 1 X (-1) (x (S k))) (z k).
  Hypothesis Hdual : forall k Y, dom Y ->
    Fs (z (S k)) + kd n m K (lc 2 (x (S k)) (-1) (x k)) (lc 1 Y (-1) (z (S k)))
      + ip m sig (lc 1 (z k) (-1) (z (S k))) (lc 1 Y (-1) (z (S k))) <= Fs Y.
  Hypothesis HB : 0 <= B.
  Hypothesis Hc : 0 <= c.
  Hypothesis Hsup : forall x z, feas x -> dom z -> lag n m K Fs x z <= obj x.
  Hypothesis Hatt : forall x, feas x -> exists Y, dom Y /\ lag n m K Fs x Y = obj x /\
    forall z, dom z -> ip m sig (lc 1 Y (-1) z) (lc 1 Y (-1) z) <= B + c * (obj x - lag n m K Fs x z).
  Hypothesis Fs_convex : forall t y y', 0 <= t <= 1 -> dom y -> dom y' -> dom (lc t y (1 - t) y') /\ Fs (lc t y (1 - t) y') <= t * Fs y + (1 - t) * Fs y'.
  Hypothesis feas_convex : forall t y y', 0 <= t <= 1 -> feas y -> feas y' -> feas (lc t y (1 - t) y').
  Hypothesis sig_pos : forall i, (i < m)%nat -> 0 < sig i.
  Hypothesis dom0 : dom vzeros.
  Hypothesis feas_closed : forall u v, cluster n u v -> (forall k, feas (u k)) -> feas v.
  Hypothesis dom_closed : forall u v, cluster m u v -> (forall k, dom (u k)) -> dom v.
  Hypothesis Fs_cont : forall v, cont m Fs v.
  Hypothesis Hcoer : forall L, exists Rb, forall y, feas y -> obj y <= L -> forall j, (j < n)%nat -> Rabs (y j) <= Rb.
  Let L := lag n m K Fs.
  Let ax := avg x.
  Let az := avg z.
  Lemma ax_feas N : feas (ax N).
  Proof. apply (avg_feas feas x Hfx feas_convex). Qed.
  Lemma az_dom N : dom (az N).
  Proof. apply (avg_dom dom Fs z Hdz Fs_convex). Qed.
  Lemma erg N X Y : feas X -> dom Y -> 2 * INR (S N) * (L (ax N) Y - L X (az N)) <= dist2 n m K tau sig x z 0 X Y.
  Proof.
    intros HX HY. pose proof (ergodic n m K tau sig SX SZ SXl SZl Hpsd feas dom Fs feasS domS x z Hfx Hdz Hprimal Hdual Fs_convex N X Y HX HY) as H.
    pose proof (dist2_nonneg n m K tau sig SX SZ SXl SZl Hpsd feas dom feasS domS x z Hfx Hdz (S N) X Y HX HY). fold L ax az in H. lra.
  Qed.
  Let I0 := ip m sig (z 0%nat) (z 0%nat).
  Let F0 := Fs vzeros.
  Lemma lag0 y : L y vzeros = - F0.
  Proof. unfold L, lag. rewrite kd_0_r. fold F0. ring. Qed.
  Lemma ip_nonneg y : 0 <= ip m sig y y.
  Proof. apply rsum_nonneg. intros i Hi. apply Rdiv_le_0_compat; [nra|auto]. Qed.
  Lemma dist_same Y : dist2 n m K tau sig x z 0 (x 0%nat) Y <= 2 * I0 + 2 * ip m sig Y Y.
  Proof.
    unfold dist2, mf. repeat rewrite ?ip_l, ?ip_r, ?kd_l, ?kd_r. pose proof (ip_nonneg (lc 1 (z 0%nat) 1 Y)) as H.
    repeat rewrite ?ip_l, ?ip_r in H. unfold I0. pose proof (ip_sym m sig (z 0%nat) Y). lra.
  Qed.
  Lemma Npos N : 1 <= INR (S N).
  Proof. rewrite S_INR. pose proof (pos_INR N). lra. Qed.
  (** the objective of the averages is bounded *)
  Lemma obj_avg N : c + 1 <= INR (S N) -> obj (ax N) <= obj (x 0%nat) + (I0 + B + c * (obj (x 0%nat) + F0)).
  Proof.
    intros HN. set (o := obj (x 0%nat)). set (O := obj (ax N)). destruct (Hatt (ax N) (ax_feas N)) as (Y & DY & EY & BY).
    pose proof (erg N (x 0%nat) Y (Hfx _) DY) as H. fold L in EY. rewrite EY in H. pose proof (dist_same Y) as H1.
    pose proof (BY vzeros dom0) as H2. fold L in H2. rewrite lag0 in H2. fold O in H, H2.
    assert (E : ip m sig (lc 1 Y (-1) vzeros) (lc 1 Y (-1) vzeros) = ip m sig Y Y).
    { unfold ip. apply rsum_ext. intros i _. unfold lc, vzeros. f_equal. ring. }
    rewrite E in H2. pose proof (Hsup (x 0%nat) (az N) (Hfx _) (az_dom N)) as H3. fold L in H3. fold o in H3.
    pose proof (Hsup (x 0%nat) vzeros (Hfx _) dom0) as H4. fold L in H4. rewrite lag0 in H4. fold o in H4.
    set (a := INR (S N)) in *. pose proof (ip_nonneg (z 0%nat)) as H5. fold I0 in H5.
    assert (H6 : a * (O - o) <= I0 + B + c * (O + F0)).
    { assert (a * (O - o) <= a * (O - L (x 0%nat) (az N))) by (apply Rmult_le_compat_l; lra). lra. }
    assert (Q : 0 <= I0 + B + c * (o + F0)) by (assert (0 <= c * (o + F0)) by (apply Rmult_le_pos; lra); lra).
    destruct (Rle_lt_dec (O - o) 0); [lra|]. assert ((a - c) * (O - o) >= 1 * (O - o)) by (apply Rle_ge, Rmult_le_compat_r; lra). lra.
  Qed.
  Lemma az_bound : exists Rb, forall N i, (i < m)%nat -> Rabs (az N i) <= Rb.
  Proof.
    destruct (Hatt (x 0%nat) (Hfx _)) as (Y & DY & EY & BY). set (o := obj (x 0%nat)) in *.
    set (C := B + c * (o + (I0 + F0))).
    assert (HC : forall N, ip m sig (lc 1 Y (-1) (az N)) (lc 1 Y (-1) (az N)) <= C).
    { intros N. eapply Rle_trans; [apply (BY _ (az_dom N))|]. unfold C. apply Rplus_le_compat_l, Rmult_le_compat_l; [exact Hc|]. fold L.
      pose proof (erg N (x 0%nat) vzeros (Hfx _) dom0) as H. rewrite lag0 in H. pose proof (dist_same vzeros) as H1.
      assert (E : ip m sig vzeros vzeros = 0) by (unfold ip; apply rsum_zero; intros i _; unfold vzeros, Rdiv; ring). rewrite E in H1.
      pose proof (ip_nonneg (z 0%nat)) as H2. fold I0 in H2. set (l := L (x 0%nat) (az N)) in *. pose proof (Npos N) as H3. set (a := INR (S N)) in *.
      assert (H4 : a * (- F0 - l) <= I0) by lra. destruct (Rle_lt_dec (- F0 - l) 0); [lra|].
      assert (1 * (- F0 - l) <= a * (- F0 - l)) by (apply Rmult_le_compat_r; lra). lra. }
    assert (C0 : 0 <= C) by (eapply Rle_trans; [apply ip_nonneg|apply (HC 0%nat)]).
    exists (rsum m (fun i => Rabs (Y i) + 1 + C * sig i)). intros N i Hi.
    assert (T : (Y i - az N i) ^ 2 / sig i <= C).
    { eapply Rle_trans; [|apply (HC N)]. eapply Rle_trans; [|apply (rsum_term_le m (fun i => lc 1 Y (-1) (az N) i * lc 1 Y (-1) (az N) i / sig i)); [|exact Hi]].
      - right. unfold lc, Rdiv. ring.
      - intros k Hk. apply Rdiv_le_0_compat; [nra|auto]. }
    pose proof (sig_pos i Hi) as Hs.
    assert (T' : (Y i - az N i) ^ 2 <= C * sig i).
    { apply Rmult_le_reg_r with (/ sig i); [apply Rinv_0_lt_compat; exact Hs|]. replace (C * sig i * / sig i) with C by (field; lra). exact T. }
    apply Rle_trans with (Rabs (Y i) + 1 + C * sig i).
    - pose proof (abs_sq_bound (Y i - az N i)) as H. replace (az N i) with (Y i + - (Y i - az N i)) at 1 by ring.
      eapply Rle_trans; [apply Rabs_triang|]. rewrite Rabs_Ropp. lra.
    - apply (rsum_term_le m (fun i => Rabs (Y i) + 1 + C * sig i)); [|exact Hi]. intros k Hk. pose proof (Rabs_pos (Y k)).
      assert (0 <= C * sig k) by (apply Rmult_le_pos; [exact C0|left; auto]). lra.
  Qed.
  Theorem saddle_exists : exists X Z, feas X /\ dom Z /\ (forall y, feas y -> L X Z <= L y Z) /\ (forall y, dom y -> L X y <= L X Z) /\ obj X = L X Z.
  Proof.
    destruct (INR_above (c + 1)) as [N0 HN0].
    destruct (Hcoer (obj (x 0%nat) + (I0 + B + c * (obj (x 0%nat) + F0)))) as [Rx HRx]. destruct az_bound as [Rz HRz].
    set (u := fun k => join n (ax (N0 + k)) (az (N0 + k))).
    assert (Hb : forall k i, (i < n + m)%nat -> Rabs (u k i) <= Rmax Rx Rz).
    { intros k i Hi. unfold u. destruct (Nat.lt_ge_cases i n) as [H|H].
      - rewrite join_lo by exact H. eapply Rle_trans; [|apply Rmax_l]. apply HRx; [apply ax_feas| |exact H]. apply obj_avg.
        rewrite S_INR, plus_INR. pose proof (pos_INR k). lra.
      - replace i with (n + (i - n))%nat by lia. rewrite join_hi. eapply Rle_trans; [|apply Rmax_r]. apply HRz. lia. }
    destruct (bolzano_vec (n + m) u _ Hb) as [v Hv]. set (X := v). set (Z := fun i => v (n + i)%nat).
    assert (CX : cluster n (fun k => ax (N0 + k)) X).
    { intros eps N He. destruct (Hv eps N He) as (k & Hk & Hi). exists k. split; [exact Hk|]. intros i Hi'. rewrite <- (join_lo n _ (az (N0 + k)) i Hi'). apply Hi. lia. }
    assert (CZ : cluster m (fun k => az (N0 + k)) Z).
    { intros eps N He. destruct (Hv eps N He) as (k & Hk & Hi). exists k. split; [exact Hk|]. intros i Hi'. rewrite <- (join_hi n (ax (N0 + k)) _ i). apply Hi. lia. }
    assert (FX : feas X) by (apply (feas_closed _ _ CX); intros k; apply ax_feas).
    assert (DZ : dom Z) by (apply (dom_closed _ _ CZ); intros k; apply az_dom).
    assert (S : forall y w, feas y -> dom w -> L X w <= L y Z).
    { intros y w Hy Hw. cut (L X w - L y Z <= 0); [lra|].
      apply (cluster_le (n + m) u v (fun e => L e w - L y (fun i => e (n + i)%nat)) (fun k => dist2 n m K tau sig x z 0 y w / INR (S k)) Hv).
      - apply (cont_ext _ (fun e => (kd n m K (fun j => e j) w - Fs w) + -1 * (kd n m K y (fun i => e (n + i)%nat) + -1 * Fs (fun i => e (n + i)%nat)))).
        { intros e. unfold L, lag. change (fun j : nat => e j) with e. ring. }
        apply cont_plus.
        + apply (cont_plus _ (fun e => kd n m K (fun j => e j) w) (fun _ => - Fs w)); [|apply cont_const].
          apply (cont_kd n m (n + m) (n + m) K (fun j e => e j) (fun i _ => w i)); [intros; apply cont_coord; lia|intros; apply cont_const|reflexivity].
        + apply cont_scal. apply cont_plus.
          * apply (cont_kd n m (n + m) (n + m) K (fun j _ => y j) (fun i e => e (n + i)%nat)); [intros; apply cont_const|intros; apply cont_coord; lia|reflexivity].
          * apply cont_scal. apply (cont_shift n m Fs v). apply Fs_cont.
      - intros eps He. set (D := dist2 n m K tau sig x z 0 y w).
        destruct (INR_above (D / eps)) as [N HN]. exists N. intros k Hk. assert (Hs : 0 < INR (S k)) by (apply lt_0_INR; lia).
        apply Rmult_lt_reg_r with (INR (S k)); [exact Hs|]. replace (D / INR (S k) * INR (S k)) with D by (field; lra).
        assert (D / eps < INR (S k)) by (eapply Rlt_le_trans; [exact HN|apply le_INR; lia]).
        apply Rmult_lt_reg_r with (/ eps); [apply Rinv_0_lt_compat; exact He|]. replace (eps * INR (S k) * / eps) with (INR (S k)) by (field; lra). exact H.
      - intros k. pose proof (erg (N0 + k) y w Hy Hw) as H.
        assert (E1 : L (u k) w = L (ax (N0 + k)) w) by (unfold L, lag, u; f_equal; apply kd_ext; [intros j Hj; apply join_lo, Hj|reflexivity]).
        assert (E2 : L y (fun i => u k (n + i)%nat) = L y (az (N0 + k))) by (f_equal; apply vec_ext; intros i; unfold u; apply join_hi).
        rewrite E1, E2. set (g := L (ax (N0 + k)) w - L y (az (N0 + k))) in *.
        assert (Dn : 0 <= dist2 n m K tau sig x z 0 y w) by (apply (dist2_nonneg n m K tau sig SX SZ SXl SZl Hpsd feas dom feasS domS x z Hfx Hdz 0 y w Hy Hw)).
        set (D := dist2 n m K tau sig x z 0 y w) in *. assert (Hs : 0 < INR (S k)) by (apply lt_0_INR; lia).
        apply Rmult_le_reg_r with (INR (S k)); [exact Hs|]. replace (D / INR (S k) * INR (S k)) with D by (field; lra).
        destruct (Rle_lt_dec g 0) as [Hg|Hg]; [assert (g * INR (S k) <= 0) by nra; lra|].
        assert (INR (S k) <= INR (S (N0 + k))) by (apply le_INR; lia). nra. }
    exists X, Z. split; [exact FX|]. split; [exact DZ|]. split; [intros y Hy; apply S; assumption|]. split; [intros y Hy; apply S; assumption|].
    apply Rle_antisym; [|apply Hsup; assumption]. destruct (Hatt X FX) as (Y & DY & EY & _). rewrite <- EY. apply S; assumption.
  Qed.
End Exist.
