(** C163: the un-preconditioned mode of PDHG and FISTA (precondition=False, and the fallback for operators without
    absolute()): it converges when the power-method value is large enough, and it diverges in a realistic case. *)
From Coq Require Import List Lia.
From Verif Require Import Sums DataTermsModel DataTermsProofs SolversModel SolversSpec SolversGeneric SolversProps
  RegularizersModel SolversConv SolversConvProps SolversEMProps SolversOptProps PdhgConv PdhgConvProps PdhgExistProps FirstOrderProps.
Import ListNotations.

(** * PDHG converges when the estimate is at most a factor [relaxation] below a bound of the operator norm *)
Definition lips_setting (P : problem) (M : mat) (rs : list rspec) (L : R) : Prop :=
  p_op P = mat_op (p_m P) (p_n P) M /\ p_regs P = map (model_reg (p_n P)) rs /\ Forall rs_ok rs /\ Forall (rs_steps_ok (p_n P)) rs /\
  dt_kind (p_dterm P) = K_l2 /\ limits_ok P /\ binary_mask (p_xmask P) /\ binary_mask (train_mask P) /\
  0 < p_relax P <= 1 /\ p_tol P = None /\ 0 < L /\ op_bound (p_m P) (p_n P) M (L / p_relax P).
Lemma setting_lips P M rs L : lips_setting P M rs L -> pdhg_setting_at P M rs (Some L).
Proof.
  intros (H1 & H2 & H3 & H4 & H5 & H6 & H7 & H8 & H9 & H10 & H11 & [_ H12]). repeat split; try assumption; apply (lips_steps_ok P M rs L H2 H3 H4 H11 H9 H12).
Qed.
Theorem C163_pdhg_converges : forall P M rs L, lips_setting P M rs L -> bounded_sublevels P M rs ->
  exists X C, minimises (obeys_limits P) (pd_objective P M rs) X /\ 0 <= C /\
    forall it, (2 <= it)%nat -> let x := fst (pdhg_call P (Some L) it) in
      obeys_limits P x /\ pd_objective P M rs x <= pd_objective P M rs X + C / sqrt (INR it).
Proof. intros P M rs L H. apply (exists_at P M rs (Some L)), setting_lips, H. Qed.
Theorem C163_pdhg_volume_converges : forall P M rs L X, lips_setting P M rs L -> bounded_sublevels P M rs ->
  minimises (obeys_limits P) (pd_objective P M rs) X ->
  (forall y, minimises (obeys_limits P) (pd_objective P M rs) y -> veq (p_n P) y X) ->
  forall eps, 0 < eps -> exists N, forall it, (N <= it)%nat -> forall j, (j < p_n P)%nat -> Rabs (fst (pdhg_call P (Some L) it) j - X j) < eps.
Proof. intros P M rs L X H. apply (volume_at P M rs (Some L)), setting_lips, H. Qed.

(** * The power method can be far below the norm: N unit singular values and one equal to 2 *)
Definition spread (N : nat) : mat := fun i j => if Nat.eqb i j then (if Nat.eqb i N then 2 else 1) else 0.
Lemma spread_mv N x i : (i <= N)%nat -> mv (S N) (spread N) x i = (if Nat.eqb i N then 2 else 1) * x i.
Proof.
  intros Hi. unfold mv. rewrite (rsum_single (S N) _ i); [|lia|].
  - unfold spread. rewrite Nat.eqb_refl. reflexivity.
  - intros j _ Hj. unfold spread. destruct (Nat.eqb_spec i j); [congruence|ring].
Qed.
Lemma spread_mtv N x i : (i <= N)%nat -> mtv (S N) (spread N) x i = (if Nat.eqb i N then 2 else 1) * x i.
Proof.
  intros Hi. unfold mtv. rewrite (rsum_single (S N) _ i); [|lia|].
  - unfold spread. rewrite Nat.eqb_refl. reflexivity.
  - intros j _ Hj. unfold spread. destruct (Nat.eqb_spec j i); [congruence|ring].
Qed.
(** the operator norm is 2 *)
Lemma spread_bound N : op_bound (S N) (S N) (spread N) 2.
Proof.
  split; [lra|]. intros x. unfold norm2. rewrite <- rsum_scal. apply rsum_le. intros i Hi. rewrite spread_mv by lia.
  pose proof (pow2_ge_0 (x i)). destruct (Nat.eqb i N); nra.
Qed.
(** the iterates of the power method: [c] (the common factor) and [t] (what the last component has gained) *)
Definition shape (N : nat) (b : vec) (c t : R) (x : vec) : Prop := forall i, (i <= N)%nat -> x i = c * ((if Nat.eqb i N then t else 1) * b i).
Lemma shape_norm N b c t x : shape N b c t x -> norm2 (S N) x = c ^ 2 * (norm2 N b + t ^ 2 * b N ^ 2).
Proof.
  intros H. unfold norm2. cbn [rsum]. rewrite (H N) by lia. rewrite Nat.eqb_refl.
  rewrite (rsum_ext N _ (fun i => c ^ 2 * b i ^ 2)); [rewrite rsum_scal; ring|].
  intros i Hi. rewrite H by lia. destruct (Nat.eqb_spec i N); [lia|ring].
Qed.
Lemma shape_step N b c t x : 0 < c -> 0 < t -> 0 < b N -> shape N b c t x ->
  exists c', 0 < c' /\ shape N b c' (4 * t) (opAt (mat_op (S N) (S N) (spread N)) (opA (mat_op (S N) (S N) (spread N)) (fun j => x j / vnorm (S N) x))).
Proof.
  intros Hc Ht Hb H. pose proof (shape_norm N b c t x H) as E.
  assert (Hn : 0 < vnorm (S N) x).
  { unfold vnorm. apply sqrt_lt_R0. rewrite E. apply Rmult_lt_0_compat; [apply pow_lt, Hc|]. assert (0 <= norm2 N b) by apply norm2_nonneg.
    assert (0 < t ^ 2 * b N ^ 2) by (apply Rmult_lt_0_compat; apply pow_lt; assumption). lra. }
  exists (c / vnorm (S N) x). split; [apply Rdiv_lt_0_compat; assumption|]. intros i Hi. cbn [mat_op opA opAt].
  rewrite spread_mtv by exact Hi. rewrite spread_mv by exact Hi. rewrite (H i Hi). destruct (Nat.eqb i N); field; lra.
Qed.
Lemma power_value N b : 0 < b N ->
  power_method (S N) (S N) (mat_op (S N) (S N) (spread N)) b 5 ^ 4 = (norm2 N b + 1048576 * 4 * b N ^ 2) / (norm2 N b + 262144 * b N ^ 2) /\
  0 <= power_method (S N) (S N) (mat_op (S N) (S N) (spread N)) b 5.
Proof.
  intros Hb. set (op := mat_op (S N) (S N) (spread N)). unfold power_method. rewrite power_loop_vec. set (x0 := opAt op _).
  assert (Nb : 0 < vnorm (S N) b).
  { unfold vnorm. apply sqrt_lt_R0. unfold norm2. cbn [rsum]. assert (0 <= rsum N (fun i => b i ^ 2)) by (apply rsum_nonneg; intros; apply pow2_ge_0).
    pose proof (pow_lt (b N) 2 Hb). lra. }
  assert (S0 : shape N b (/ vnorm (S N) b) 2 x0).
  { intros i Hi. unfold x0, op. cbn [mat_op opAt]. rewrite spread_mtv by exact Hi. destruct (Nat.eqb i N); field; lra. }
  assert (Sk : forall k, exists c, 0 < c /\ shape N b c (2 * 4 ^ k) (power_vec (S N) op k x0)).
  { induction k as [|k (c & Hc & IH)].
    - exists (/ vnorm (S N) b). split; [apply Rinv_0_lt_compat, Nb|]. replace (2 * 4 ^ 0) with 2 by (simpl; ring). exact S0.
    - destruct (shape_step N b c (2 * 4 ^ k) _ Hc ltac:(assert (0 < 4 ^ k) by (apply pow_lt; lra); lra) Hb IH) as (c' & Hc' & H').
      exists c'. split; [exact Hc'|]. replace (2 * 4 ^ S k) with (4 * (2 * 4 ^ k)) by (simpl; ring). exact H'. }
  destruct (Sk 4%nat) as (c & Hc & Hx). set (x := power_vec (S N) op 4 x0) in *.
  set (xn := fun j => x j / vnorm (S N) x).
  change (power_vec (S N) op 5 x0) with (opAt op (opA op xn)).
  assert (Q0 : 0 <= norm2 N b) by apply norm2_nonneg. assert (Qb : 0 < b N ^ 2) by (apply pow_lt; exact Hb).
  pose proof (shape_norm N b c _ x Hx) as En. replace ((2 * 4 ^ 4) ^ 2) with 262144 in En by ring.
  assert (Hn : 0 < norm2 (S N) x) by (rewrite En; apply Rmult_lt_0_compat; [apply pow_lt, Hc|lra]).
  assert (Hv : 0 < vnorm (S N) x) by (apply sqrt_lt_R0; exact Hn).
  assert (Hs : shape N b (c / vnorm (S N) x) (2 * 4 ^ 5) (opAt op (opA op xn))).
  { intros i Hi. unfold op, xn. cbn [mat_op opA opAt]. rewrite spread_mtv, spread_mv by exact Hi. rewrite (Hx i Hi). destruct (Nat.eqb i N); field; lra. }
  pose proof (shape_norm N b _ _ _ Hs) as E5. replace ((2 * 4 ^ 5) ^ 2) with (1048576 * 4) in E5 by ring.
  split; [|apply sqrt_pos].
  replace (sqrt (vnorm (S N) (opAt op (opA op xn))) ^ 4) with ((sqrt (vnorm (S N) (opAt op (opA op xn))) * sqrt (vnorm (S N) (opAt op (opA op xn)))) ^ 2) by ring.
  rewrite sqrt_sqrt by apply vnorm_nonneg. rewrite vnorm_sq, E5. unfold Rdiv at 1. rewrite Rpow_mult_distr. rewrite pow_inv. rewrite vnorm_sq, En. field. split; lra.
Qed.
(** entries of the random start apart from the last one: sum of squares at least 2621440 times the square of the last.
    With numpy's uniform numbers this is the typical case from about ten million voxels on. *)
Definition typical_start (N : nat) (b : vec) : Prop := 0 < b N /\ 2621440 * b N ^ 2 <= norm2 N b.
Definition estimated_norm (N : nat) (b : vec) : R := power_method (S N) (S N) (mat_op (S N) (S N) (spread N)) b 5.
Lemma estimate_range N b : typical_start N b -> 1 <= estimated_norm N b <= 5 / 4.
Proof.
  intros [Hb HS]. destruct (power_value N b Hb) as [E L0]. fold (estimated_norm N b) in E, L0. set (L := estimated_norm N b) in *.
  assert (Qb : 0 < b N ^ 2) by (apply pow_lt; exact Hb). set (q := b N ^ 2) in *. set (s := norm2 N b) in *.
  assert (Hd : 0 < s + 262144 * q) by lra.
  assert (A : 1 <= L ^ 4) by (rewrite E; apply Rmult_le_reg_r with (s + 262144 * q); [exact Hd|unfold Rdiv; rewrite Rmult_assoc, Rinv_l by lra; lra]).
  assert (B : L ^ 4 <= (5 / 4) ^ 4).
  { rewrite E. apply Rmult_le_reg_r with (s + 262144 * q); [exact Hd|unfold Rdiv at 1; rewrite Rmult_assoc, Rinv_l by lra]. lra. }
  split; apply Rnot_lt_le; intros C.
  - assert (L ^ 4 < 1) by (assert (L ^ 2 < 1) by nra; assert (0 <= L ^ 2) by nra; nra). lra.
  - assert ((5 / 4) ^ 4 < L ^ 4); [|lra]. assert (25 / 16 < L ^ 2) by nra. nra.
Qed.
(** ** the call: default relaxation [w], no regulariser, limits or masks, starting volume zero *)
Definition spread_problem (N : nat) (w : R) (data : vec) : problem :=
  mkProblem (S N) (S N) (mat_op (S N) (S N) (spread N)) data None None None None None None None w [] (new_dterm K_l2 None) (new_dterm K_l2 None).
(** the data have an exact solution *)
Theorem C163_consistent : forall N w data i, (i <= N)%nat ->
  opA (p_op (spread_problem N w data)) (fun j => data j / (if Nat.eqb j N then 2 else 1)) i = data i.
Proof. intros N w data i Hi. cbn [spread_problem p_op mat_op opA]. rewrite spread_mv by exact Hi. destruct (Nat.eqb i N); field. Qed.

Lemma pdhg_last N w data L s : 0 < L -> 0 < w ->
  let s' := pdhg_step (spread_problem N w data) (Some L) s in
  pd_p s' N = (pd_p s N + w / L * (2 * pd_xrelax s N - data N)) / (1 + w / L) /\
  pd_x s' N = pd_x s N - 2 * pd_p s' N * (w / L) /\ pd_xrelax s' N = 2 * pd_x s' N - pd_x s N.
Proof.
  intros HL Hw. cbv zeta. assert (Hs : 0 < w / L) by (apply Rdiv_lt_0_compat; assumption).
  unfold pdhg_step, pdhg_update. cbn [pd_p pd_x pd_xrelax spread_problem p_op p_regs p_lower p_upper p_xmask p_n p_m mat_op opA opAt].
  assert (EP : forall p x, mul_mask (fst (initialize_b_masks (p_bmask (spread_problem N w data)) (p_btest (spread_problem N w data))))
    (proximal_dual (pdhg_dt (spread_problem N w data) (Some L)) vones (update_dual (pdhg_dt (spread_problem N w data) (Some L)) p (mv (S N) (spread N) x))) N
    = (p N + w / L * (2 * x N - data N)) / (1 + w / L)).
  { intros p x. unfold mul_mask, pdhg_dt, assigned, proximal_dual, update_dual, assign_data, add_background, sub_sigma_data. simpl. unfold lips_sigma.
    rewrite spread_mv by lia. rewrite Nat.eqb_refl. unfold lips_sigma in *. field. split; lra. }
  rewrite EP. split; [reflexivity|].
  assert (EX : forall v, constrain None None None v N = v N) by reflexivity. rewrite EX. unfold vsub, vmul. cbn [combine map fold_left].
  assert (C0 : forall (A B : Type) (f : list A), combine f ([] : list B) = []) by (intros A B f; destruct f; reflexivity). rewrite !C0. cbn [fold_left].
  rewrite spread_mtv by lia. rewrite Nat.eqb_refl. rewrite EP. unfold pdhg_tau, lips_tau. cbn [spread_problem p_regs p_relax fold_left].
  split; [ring|ring].
Qed.
(** the deviation from the solution changes sign at every iteration and grows by a factor of at least 1.02 *)
Lemma pdhg_grows N data L k : 1 <= L <= 5 / 4 -> data N <> 0 ->
  let d := fun k => pd_x (pdhg_iterate (spread_problem N (95/100) data) (Some L) k) N - data N / 2 in
  d 0%nat <> 0 /\ d (S k) <> 0 /\ d (S k) * d k <= 0 /\ ((1 <= k)%nat -> 102 / 100 * Rabs (d k) <= Rabs (d (S k))).
Proof.
  intros HL Hd d. set (P := spread_problem N (95/100) data). set (it := pdhg_iterate P (Some L)). set (s := 95 / 100 / L).
  assert (Hs : 76 / 100 <= s <= 95 / 100).
  { unfold s. split; (apply Rmult_le_reg_r with L; [lra|]; replace (95 / 100 / L * L) with (95 / 100) by (field; lra); lra). }
  set (q := 4 * s * s). assert (Hq : 23104 / 10000 <= q) by (unfold q; nra). assert (Hqs : 102 / 100 * (1 + s) <= 2 * q - 2 - s) by (unfold q; nra).
  (* g = 2 tau p: the last move *)
  set (g := fun k => 2 * s * pd_p (it k) N).
  assert (Rg : forall k, (1 + s) * g (S k) = g k + q * (pd_xrelax (it k) N - data N / 2)).
  { intros j. destruct (pdhg_last N (95/100) data L (it j) ltac:(lra) ltac:(lra)) as (E & _ & _). unfold g. change (it (S j)) with (pdhg_step P (Some L) (it j)). fold P in E. fold s in E. rewrite E. unfold q. field. lra. }
  assert (Rd : forall k, d (S k) = d k - g (S k)).
  { intros j. destruct (pdhg_last N (95/100) data L (it j) ltac:(lra) ltac:(lra)) as (_ & E & _). fold P in E. fold s in E. change (pdhg_step P (Some L) (it j)) with (it (S j)) in E. unfold d, g. fold P it. rewrite E. ring. }
  assert (Rx : forall k, pd_xrelax (it (S k)) N - data N / 2 = d (S k) - g (S k)).
  { intros j. destruct (pdhg_last N (95/100) data L (it j) ltac:(lra) ltac:(lra)) as (_ & _ & E). fold P in E. change (pdhg_step P (Some L) (it j)) with (it (S j)) in E. rewrite E. pose proof (Rd j) as F. unfold d in F |- *. fold P it in F |- *. lra. }
  assert (D0 : d 0%nat = - data N / 2) by (unfold d; simpl; unfold vzeros; lra).
  assert (N0 : d 0%nat <> 0) by (rewrite D0; lra).
  assert (S1 : (1 + s) * d 1%nat = (1 + s - q) * d 0%nat).
  { rewrite Rd, Rmult_minus_distr_l, Rg. unfold g at 1. change (pd_p (it 0%nat) N) with 0. change (pd_xrelax (it 0%nat) N) with 0. rewrite D0. field. }
  assert (Q1 : 0 < q - 1 - s) by nra.
  assert (N1 : d 1%nat <> 0 /\ d 1%nat * d 0%nat <= 0).
  { assert (P0 : 0 < d 0%nat * d 0%nat) by (destruct (Rtotal_order (d 0%nat) 0) as [C|[C|C]]; [nra|contradiction|nra]).
    assert (E : (1 + s) * (d 1%nat * d 0%nat) = - ((q - 1 - s) * (d 0%nat * d 0%nat))) by (rewrite <- Rmult_assoc, S1; ring).
    assert (0 < (q - 1 - s) * (d 0%nat * d 0%nat)) by (apply Rmult_lt_0_compat; assumption).
    assert (d 1%nat * d 0%nat < 0) by (apply Rnot_le_lt; intros C; assert (0 <= (1 + s) * (d 1%nat * d 0%nat)) by (apply Rmult_le_pos; lra); lra).
    split; [intros C; rewrite C in H0; lra|lra]. }
  assert (Step : forall k, d (S k) <> 0 -> d (S k) * d k <= 0 -> d (S (S k)) <> 0 /\ d (S (S k)) * d (S k) <= 0 /\ 102 / 100 * Rabs (d (S k)) <= Rabs (d (S (S k)))).
  { intros j Hn Ha. pose proof (Rd (S j)) as E2. pose proof (Rg (S j)) as Eg. rewrite Rx in Eg. pose proof (Rd j) as E1.
    set (a := d (S j)) in *. set (p := d j) in *. set (z := d (S (S j))) in *. set (g1 := g (S j)) in *.
    assert (Eg1 : g1 = p - a) by lra. assert (Ez : (1 + s) * z = - ((2 * q - 2 - s) * a) + (q - 1) * p) by (rewrite E2, Rmult_minus_distr_l, Eg, Eg1; ring).
    assert (Pa : 0 < a * a) by (destruct (Rtotal_order a 0) as [C|[C|C]]; [nra|contradiction|nra]).
    assert (Eza : (1 + s) * (z * a) = - ((2 * q - 2 - s) * (a * a)) + (q - 1) * (a * p)) by (rewrite <- Rmult_assoc, Ez; ring).
    assert (Hqa : 102 / 100 * (1 + s) * (a * a) <= (2 * q - 2 - s) * (a * a)) by (apply Rmult_le_compat_r; lra).
    assert (Hqp : (q - 1) * (a * p) <= 0) by (assert (0 <= (q - 1) * (- (a * p))) by (apply Rmult_le_pos; lra); lra).
    assert (Hza : z * a <= - (102 / 100 * (a * a))).
    { apply Rnot_lt_le. intros C. assert ((1 + s) * (- (102 / 100 * (a * a))) < (1 + s) * (z * a)) by (apply Rmult_lt_compat_l; lra). lra. }
    split; [intros C; rewrite C in Hza; lra|]. split; [lra|].
    apply Rmult_le_reg_r with (Rabs a); [apply Rabs_pos_lt, Hn|]. rewrite <- (Rabs_mult z a).
    replace (102 / 100 * Rabs a * Rabs a) with (102 / 100 * (a * a)) by (rewrite Rmult_assoc, <- Rabs_mult, (Rabs_right (a * a)) by lra; reflexivity).
    rewrite <- (Rabs_Ropp (z * a)). eapply Rle_trans; [|apply Rle_abs]. lra. }
  assert (All : forall k, d (S k) <> 0 /\ d (S k) * d k <= 0).
  { induction k0 as [|j [IH1 IH2]]; [exact N1|]. destruct (Step j IH1 IH2) as (A & B & _). split; assumption. }
  split; [exact N0|]. destruct (All k) as [A B]. split; [exact A|]. split; [exact B|]. intros Hk. destruct k as [|j]; [lia|]. destruct (All j) as [A' B']. apply (Step j A' B').
Qed.
Lemma geometric (a : nat -> R) c : 1 < c -> 0 < a 1%nat -> (forall k, (1 <= k)%nat -> c * a k <= a (S k)) ->
  forall B, exists K, forall k, (K <= k)%nat -> B < a k.
Proof.
  intros Hc H1 Hs B.
  assert (G : forall k, a 1%nat * c ^ k <= a (S k)).
  { induction k as [|k IH]; [simpl; lra|]. eapply Rle_trans; [|apply Hs; lia]. simpl. nra. }
  destruct (Pow_x_infinity c ltac:(rewrite Rabs_right by lra; exact Hc) (B / a 1%nat + 1)) as [K HK].
  exists (S K). intros k Hk. destruct k as [|k]; [lia|]. specialize (HK k ltac:(lia)). specialize (G k).
  rewrite Rabs_right in HK by (apply Rle_ge, pow_le; lra). eapply Rlt_le_trans; [|exact G].
  apply Rlt_le_trans with (a 1%nat * (B / a 1%nat + 1)); [|apply Rmult_le_compat_l; lra]. replace (a 1%nat * (B / a 1%nat + 1)) with (B + a 1%nat) by (field; lra). lra.
Qed.

(** PDHG with precondition=False and the default relaxation: the volume grows without bound although the data are
    consistent, whatever they are (as long as the last value is not zero) *)
Theorem C163_pdhg_divergence_refuted : forall N data b_rand, typical_start N b_rand -> data N <> 0 ->
  let P := spread_problem N (95/100) data in
  let L := power_method (S N) (S N) (p_op P) b_rand 5 in
  forall B, exists K, forall it, (K <= it)%nat -> B < Rabs (fst (pdhg_call P (Some L) it) N).
Proof.
  intros N data b Hb Hd P L B. pose proof (estimate_range N b Hb) as HL. change (estimated_norm N b) with L in HL.
  set (d := fun k => Rabs (pd_x (pdhg_iterate P (Some L) k) N - data N / 2)).
  destruct (geometric d (102 / 100) ltac:(lra)) with (B := B + Rabs (data N / 2)) as [K HK].
  - apply Rabs_pos_lt. apply (pdhg_grows N data L 0 HL Hd).
  - intros k Hk. apply (pdhg_grows N data L k HL Hd), Hk.
  - exists K. intros it Hit. rewrite pdhg_no_tol by reflexivity. specialize (HK it Hit). unfold d in HK.
    pose proof (Rabs_triang (pd_x (pdhg_iterate P (Some L) it) N) (- (data N / 2))) as T. rewrite Rabs_Ropp in T. unfold Rminus in HK. lra.
Qed.

(** ** FISTA, default relaxation 1 *)
Lemma fista_last N data L k s : 1 <= L <= 5 / 4 ->
  let s' := fista_step (spread_problem N 1 data) (Some L) None k s in
  fi_x s' N - data N / 2 = (1 - 4 / L ^ 2) * (fi_y s N - data N / 2).
Proof.
  intros HL. cbv zeta. unfold fista_step, fista_update. cbn [fi_x spread_problem p_op p_regs p_lower p_upper p_xmask mat_op opA opAt].
  assert (EX : forall v, constrain None None None v N = v N) by reflexivity. rewrite EX. unfold vadd, vmul.
  rewrite spread_mtv by lia. rewrite Nat.eqb_refl. unfold fi_tau, fi_sigma, lips_tau, lips_sigma. cbn [spread_problem p_relax fold_left].
  unfold fi_dt, assigned. cbn [spread_problem p_dterm p_b]. unfold compute_residual, add_background, assign_data, mul_mask. simpl. rewrite spread_mv by lia. rewrite Nat.eqb_refl. field. lra.
Qed.
Theorem C163_fista_divergence_refuted : forall N data b_rand, typical_start N b_rand -> data N <> 0 ->
  let P := spread_problem N 1 data in
  let L := power_method (S N) (S N) (p_op P) b_rand 5 in
  forall B, exists K, forall it, (K <= it)%nat -> B < Rabs (fst (fista_call P (Some L) None it) N).
Proof.
  intros N data b Hb Hd P L B. pose proof (estimate_range N b Hb) as HL. change (estimated_norm N b) with L in HL.
  set (it := fista_iterate P (Some L) None).
  set (d := fun k => fi_x (it k) N - data N / 2). set (y := fun k => fi_y (it k) N - data N / 2).
  assert (HC : 4 / L ^ 2 - 1 >= 156 / 100).
  { apply Rle_ge. apply Rmult_le_reg_r with (L ^ 2); [nra|]. replace ((4 / L ^ 2 - 1) * L ^ 2) with (4 - L ^ 2) by (field; lra). nra. }
  set (c := 4 / L ^ 2 - 1) in *.
  assert (RX : forall k, d (S k) = - c * y k).
  { intros k. unfold d, y, c. pose proof (fista_last N data L k (it k) HL) as E. cbv zeta in E. fold P in E. change (fista_step P (Some L) None k (it k)) with (it (S k)) in E. rewrite E. ring. }
  assert (RY : forall k, exists m, 0 <= m /\ y (S k) = d (S k) + m * (d (S k) - d k)).
  { intros k. exists ((fi_t (it k) - 1) / fi_t (it (S k))). split; [apply (C34_momentum P (Some L) k)|].
    unfold y, d. change (fi_y (it (S k)) N) with (fi_x (it (S k)) N + (fi_t (it k) - 1) / fi_t (it (S k)) * (fi_x (it (S k)) N - fi_x (it k) N)). ring. }
  assert (D0 : d 0%nat = - data N / 2 /\ y 0%nat = d 0%nat) by (unfold d, y; change (fi_x (it 0%nat) N) with 0; change (fi_y (it 0%nat) N) with 0; split; lra). destruct D0 as [D0 Y0].
  assert (Inv : forall k, d k <> 0 /\ d k * d k <= y k * d k).
  { induction k as [|k [IH1 IH2]]; [rewrite Y0; split; lra|].
    assert (Pd : 0 < d k * d k) by (destruct (Rtotal_order (d k) 0) as [C|[C|C]]; [nra|contradiction|nra]).
    assert (Hy : y k <> 0) by (intros C; rewrite C in IH2; lra).
    assert (E1 : d (S k) * d k < 0). { rewrite RX. assert (0 < c * (y k * d k)) by (apply Rmult_lt_0_compat; lra). lra. }
    split; [intros C; rewrite C in E1; lra|]. destruct (RY k) as (m & Hm & ->).
    assert (0 <= d (S k) * d (S k)) by apply Rle_0_sqr. assert (0 <= m * (d (S k) * d (S k) - d (S k) * d k)) by (apply Rmult_le_pos; lra). lra. }
  destruct (geometric (fun k => Rabs (d k)) (156 / 100) ltac:(lra)) with (B := B + Rabs (data N / 2)) as [K HK].
  - apply Rabs_pos_lt, Inv.
  - intros k _. rewrite RX, Rabs_mult, Rabs_Ropp, (Rabs_right c) by lra.
    assert (Rabs (d k) <= Rabs (y k)).
    { destruct (Inv k) as [Hn Hi]. apply Rmult_le_reg_r with (Rabs (d k)); [apply Rabs_pos_lt, Hn|]. rewrite <- !Rabs_mult.
      rewrite (Rabs_right (d k * d k)) by (apply Rle_ge, Rle_0_sqr). eapply Rle_trans; [exact Hi|apply Rle_abs]. }
    pose proof (Rabs_pos (d k)). apply Rmult_le_compat; lra.
  - exists K. intros n Hit. pose proof (fista_no_tol P (Some L) None n) as E. change (with_tol P None) with P in E. rewrite E. specialize (HK n Hit). unfold d in HK.
    pose proof (Rabs_triang (fi_x (it n) N) (- (data N / 2))) as T. rewrite Rabs_Ropp in T. unfold Rminus in HK. fold it. lra.
Qed.
(** Non-vacuity: such starts exist for every N >= 1; and a setting in which the mode converges *)
Example C163_example_start : forall N, (1 <= N)%nat -> typical_start N (fun i => if Nat.eqb i N then / 2000 else 1).
Proof.
  intros N HN. split; [rewrite Nat.eqb_refl; lra|]. rewrite Nat.eqb_refl. apply Rle_trans with 1; [lra|].
  pose proof (rsum_term_le N (fun i => (if Nat.eqb i N then / 2000 else 1) ^ 2) 0%nat) as H. unfold norm2. cbv beta in H.
  destruct (Nat.eqb_spec 0 N); [lia|]. replace (1 ^ 2) with 1 in H by ring. apply H; [intros; apply pow2_ge_0|lia].
Qed.
Example C163_example : lips_setting pd_demo (fun _ _ => 1) [pd_demo_reg] 1 /\ bounded_sublevels pd_demo (fun _ _ => 1) [pd_demo_reg].
Proof.
  destruct C150_example as ((H1 & H2 & H3 & H4 & H5 & H6 & H7 & H8 & _ & _ & H11 & H12) & _ & Hl & Hu). split.
  - repeat split; try assumption; try lra; try apply H11; cbn [pd_demo p_relax]; [lra|]. intros x. unfold norm2, mv. cbn [rsum]. right. simpl. field.
  - intros L. exists 10. intros y Hy _ j Hj. unfold obeys_limits in Hy. rewrite Hl, Hu in Hy.
    destruct (feasible_in _ _ _ _ _ j Hy Hj eq_refl) as [A B]. unfold vzeros in A. rewrite Rabs_right by lra. exact B.
Qed.
