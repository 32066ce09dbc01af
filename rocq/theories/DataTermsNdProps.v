(** Residual norms of data with several dimensions (C119), primal-dual gaps (C120). *)
From Coq Require Import Reals Lra Lia List.
Import ListNotations.
From Verif Require Import Sums Arrays DataTermsModel DataTermsNd PyErr.
Open Scope R_scope.

(** Specification: the sums over all entries of an array of any number of dimensions. *)
Definition sum_abs (s : list nat) (x : arr) : R := bsum s (fun l => Rabs (x l)).
Definition sum_sq (s : list nat) (x : arr) : R := bsum s (fun l => x l ^ 2).

(** ** C119 *)
Theorem C119_l2_norm : forall s x, l2_residual_norm_nd s x = inr (sum_sq s x).
Proof.
  intros s x. unfold l2_residual_norm_nd, sum_sq. f_equal. rewrite (bsum_flat s). simpl bsum.
  set (r := rsum _ _). assert (0 <= r) by (apply rsum_nonneg; intros; apply pow2_ge_0).
  replace (rsum (size s) (fun k => x (unflat s k) ^ 2)) with r by reflexivity.
  change (sqrt r ^ 2) with (sqrt r * (sqrt r * 1)). rewrite Rmult_1_r. apply sqrt_sqrt. assumption.
Qed.
Theorem C119_kl_norm : forall s x, kl_residual_norm_nd s x = inr (sum_abs s x).
Proof. intros s x. unfold kl_residual_norm_nd, sum_abs. simpl. f_equal. rewrite (bsum_flat s). reflexivity. Qed.
Theorem C119_l1_norm_1d : forall n x, l1_residual_norm_nd [n] x = inr (sum_abs [n] x).
Proof.
  intros n x. unfold l1_residual_norm_nd, np_norm_ord1, sum_abs. f_equal. simpl. apply rsum_ext. intros. apply Rabs_Rabsolu.
Qed.
(** 2-D data: the largest column sum; strictly less than the norm as soon as two columns have a non-zero entry. *)
Theorem C119_l1_norm_2d_refuted : forall n m x j j' i i',
  (j < m)%nat -> (j' < m)%nat -> j <> j' -> (i < n)%nat -> (i' < n)%nat -> x [i; j] <> 0 -> x [i'; j'] <> 0 ->
  exists v, l1_residual_norm_nd [n; m] x = inr v /\ 0 < v < sum_abs [n; m] x.
Proof.
  intros n m x j j' i i' Hj Hj' Hjj Hi Hi' Hx Hx'. unfold l1_residual_norm_nd, np_norm_ord1. eexists. split; [reflexivity|].
  set (col := fun c => rsum n (fun r => Rabs (Rabs (x [r; c])))).
  assert (Hnn : forall c, 0 <= col c) by (intros c; apply rsum_nonneg; intros; apply Rabs_pos).
  assert (P : forall r c, (r < n)%nat -> x [r; c] <> 0 -> 0 < col c).
  { intros r c Hr Hz. apply (rsum_pos n _ r Hr); [intros; apply Rabs_pos|]. rewrite Rabs_Rabsolu. apply Rabs_pos_lt, Hz. }
  assert (S : sum_abs [n; m] x = rsum m col).
  { unfold sum_abs. simpl. rewrite rsum_swap. apply rsum_ext. intros c _. apply rsum_ext. intros r _. symmetry. apply Rabs_Rabsolu. }
  rewrite S. change (fun j0 => rsum n (fun i0 => Rabs (Rabs (x [i0; j0])))) with col.
  pose proof (rmax_ge m col j Hj). pose proof (P i j Hi Hx) as Pj. pose proof (P i' j' Hi' Hx') as Pj'.
  split; [lra|]. destruct (rmax_attained m col ltac:(lia)) as (c & Hc & E). rewrite E.
  assert (B : forall d, (d < m)%nat -> d <> c -> 0 < col d -> col c < rsum m col).
  { intros d Hd Hdc Hpos.
    assert (Q : rsum m col = rsum m (fun k => delta k c * col k) + rsum m (fun k => (1 - delta k c) * col k)).
    { rewrite <- rsum_plus. apply rsum_ext. intros. ring. }
    rewrite rsum_delta in Q by exact Hc. rewrite Q.
    assert (0 < rsum m (fun k => (1 - delta k c) * col k)); [|lra].
    apply (rsum_pos m _ d Hd).
    - intros k Hk. unfold delta. destruct (Nat.eqb k c); specialize (Hnn k); lra.
    - rewrite delta_neq by exact Hdc. lra. }
  destruct (Nat.eq_dec j c) as [->|Hne]; [apply (B j'); congruence|apply (B j); congruence].
Qed.
(** 3-D (or more) data: an exception. *)
Theorem C119_l1_norm_3d_refuted : forall a b c s x, l1_residual_norm_nd (a :: b :: c :: s) x = inl ValueError.
Proof. reflexivity. Qed.
(** what remains true in 2-D: it is bounded by the norm and vanishes only for a vanishing residual *)
Theorem C119_l1_norm_2d : forall n m x, (0 < m)%nat ->
  exists v, l1_residual_norm_nd [n; m] x = inr v /\ 0 <= v <= sum_abs [n; m] x /\
    (v = 0 <-> forall i j, (i < n)%nat -> (j < m)%nat -> x [i; j] = 0).
Proof.
  intros n m x Hm. unfold l1_residual_norm_nd, np_norm_ord1. eexists. split; [reflexivity|].
  set (col := fun c => rsum n (fun r => Rabs (Rabs (x [r; c])))). change (fun j0 => rsum n (fun i0 => Rabs (Rabs (x [i0; j0])))) with col.
  assert (Hnn : forall c, 0 <= col c) by (intros c; apply rsum_nonneg; intros; apply Rabs_pos).
  assert (S : sum_abs [n; m] x = rsum m col).
  { unfold sum_abs. simpl. rewrite rsum_swap. apply rsum_ext. intros c _. apply rsum_ext. intros r _. symmetry. apply Rabs_Rabsolu. }
  rewrite S. destruct (rmax_attained m col Hm) as (c & Hc & E). rewrite E.
  split; [split; [apply Hnn|apply rsum_term_le; auto]|]. split.
  - intros Z i j Hi Hj. assert (col j = 0). { pose proof (rmax_ge m col j Hj). specialize (Hnn j). lra. }
    pose proof (rsum_nonneg_zero n (fun r => Rabs (Rabs (x [r; j]))) ltac:(intros; apply Rabs_pos) H i Hi) as Q. simpl in Q. rewrite Rabs_Rabsolu in Q.
    destruct (Req_dec (x [i; j]) 0) as [|N]; [assumption|]. apply Rabs_pos_lt in N. lra.
  - intros Z. apply rsum_zero. intros i Hi. rewrite Z by assumption. rewrite !Rabs_R0. reflexivity.
Qed.
Example C119_example : exists x : arr, x [0; 0]%nat <> 0 /\ x [0; 1]%nat <> 0 /\ l1_residual_norm_nd [1; 2]%nat x = inr 1 /\ sum_abs [1; 2]%nat x = 2.
Proof.
  exists (fun _ => 1). repeat split; try lra.
  - unfold l1_residual_norm_nd, np_norm_ord1. f_equal. simpl. rewrite !Rabs_R1. rewrite ?Rmax_left by lra. ring.
  - unfold sum_abs. simpl. rewrite !Rabs_R1. ring.
Qed.

(** ** C120: primal-dual gaps of 1-D data.  A dual candidate is feasible when its back-projection vanishes, so that
    <projection, dual> = 0, and (l1) its entries are at most 1 in absolute value. *)
Theorem C120_l1_gap_nonneg : forall n b sigma proj dual,
  (forall i, (i < n)%nat -> Rabs (dual i) <= 1) -> dot n proj dual = 0 ->
  0 <= primal_dual_gap n (assign_data (new_dterm K_l1 None) (Some b) sigma) proj dual None.
Proof.
  intros n b sigma proj dual Hd H0. unfold primal_dual_gap, compute_residual, add_background, data_dual_dot, norm_l1, apply_mask. simpl.
  unfold dot in *. rewrite <- rsum_plus.
  replace (rsum n (fun i => Rabs (Rabs (b i - proj i)) + dual i * b i))
    with (rsum n (fun i => Rabs (b i - proj i) + dual i * (b i - proj i)) + rsum n (fun i => proj i * dual i)).
  2:{ rewrite <- rsum_plus. apply rsum_ext. intros. rewrite Rabs_Rabsolu. ring. }
  rewrite H0, Rplus_0_r. apply rsum_nonneg. intros i Hi. specialize (Hd i Hi).
  set (r := b i - proj i). unfold Rabs in *. destruct (Rcase_abs r), (Rcase_abs (dual i)); nra.
Qed.
(** and it is zero exactly at the optimality condition: the dual is minus the sign of the residual *)
Theorem C120_l1_gap_zero : forall n b sigma proj dual,
  (forall i, (i < n)%nat -> Rabs (dual i) <= 1) -> dot n proj dual = 0 ->
  (primal_dual_gap n (assign_data (new_dterm K_l1 None) (Some b) sigma) proj dual None = 0 <->
   forall i, (i < n)%nat -> dual i * (b i - proj i) = - Rabs (b i - proj i)).
Proof.
  intros n b sigma proj dual Hd H0. unfold primal_dual_gap, compute_residual, add_background, data_dual_dot, norm_l1, apply_mask. simpl.
  unfold dot in *. rewrite <- rsum_plus.
  replace (rsum n (fun i => Rabs (Rabs (b i - proj i)) + dual i * b i))
    with (rsum n (fun i => Rabs (b i - proj i) + dual i * (b i - proj i)) + rsum n (fun i => proj i * dual i)).
  2:{ rewrite <- rsum_plus. apply rsum_ext. intros. rewrite Rabs_Rabsolu. ring. }
  rewrite H0, Rplus_0_r.
  assert (Hnn : forall i, (i < n)%nat -> 0 <= Rabs (b i - proj i) + dual i * (b i - proj i)).
  { intros i Hi. specialize (Hd i Hi). set (r := b i - proj i). unfold Rabs in *. destruct (Rcase_abs r), (Rcase_abs (dual i)); nra. }
  split; intros H.
  - intros i Hi. pose proof (rsum_nonneg_zero n _ Hnn H i Hi) as Q. simpl in Q. lra.
  - apply rsum_zero. intros i Hi. rewrite (H i Hi). ring.
Qed.
(** The true gap of the l2 term, with the squares, is never negative ... *)
Theorem C120_l2_true_gap : forall n b proj dual, dot n proj dual = 0 ->
  0 <= norm2 n (fun i => b i - proj i) / 2 + norm2 n dual / 2 + dot n dual b.
Proof.
  intros n b proj dual H0. unfold norm2, dot in *.
  replace (rsum n (fun i => (b i - proj i) ^ 2) / 2 + rsum n (fun i => dual i ^ 2) / 2 + rsum n (fun i => dual i * b i))
    with (rsum n (fun i => (b i - proj i + dual i) ^ 2) / 2 + rsum n (fun i => proj i * dual i)).
  - rewrite H0. assert (0 <= rsum n (fun i => (b i - proj i + dual i) ^ 2)) by (apply rsum_nonneg; intros; apply pow2_ge_0). lra.
  - unfold Rdiv. rewrite <- !rsum_scal_r, <- !rsum_plus. apply rsum_ext. intros. field.
Qed.
(** ... but the reported one is taken without the squares: it is negative at a primal-dual optimal pair, for any
    number of pixels and any data with norm above 1. *)
Theorem C120_l2_gap_refuted : forall n b sigma, 1 < norm2 n b ->
  let proj := fun _ : nat => 0 in let dual := fun i => - b i in
  dot n proj dual = 0 /\
  norm2 n (fun i => b i - proj i) / 2 + norm2 n dual / 2 + dot n dual b = 0 /\
  primal_dual_gap n (assign_data (new_dterm K_l2 None) (Some b) sigma) proj dual None < 0.
Proof.
  intros n b sigma Hb proj dual. unfold proj, dual. split; [apply rsum_zero; intros; ring|].
  assert (E1 : norm2 n (fun i => b i - 0) = norm2 n b) by (apply rsum_ext; intros; ring).
  assert (E2 : norm2 n (fun i => - b i) = norm2 n b) by (apply rsum_ext; intros; ring).
  assert (E3 : dot n (fun i => - b i) b = - norm2 n b) by (unfold dot, norm2; rewrite <- rsum_opp; apply rsum_ext; intros; ring).
  split; [rewrite E1, E2, E3; field|].
  unfold primal_dual_gap, compute_residual, add_background, data_dual_dot, norm_l2, apply_mask. simpl. rewrite E1, E2, E3.
  assert (sqrt (norm2 n b) < norm2 n b); [|lra].
  pose proof (sqrt_sqrt (norm2 n b) ltac:(lra)). assert (1 < sqrt (norm2 n b)) by (rewrite <- sqrt_1; apply sqrt_lt_1; lra). nra.
Qed.
Example C120_example : exists b : vec, 1 < norm2 3 b.
Proof. exists (fun _ => 1). unfold norm2. simpl. lra. Qed.
(** without data: <dual, data> counts as zero, so the gaps of l1 and l2 are those of zero data *)
Theorem C120_no_data : forall n k proj dual, k = K_l1 \/ k = K_l2 ->
  primal_dual_gap n (new_dterm k None) proj dual None =
  (if match k with K_l1 => true | _ => false end then rsum n (fun i => Rabs (proj i)) else (sqrt (norm2 n proj) + sqrt (norm2 n dual)) / 2) /\
  forall sigma, primal_dual_gap n (assign_data (new_dterm k None) (Some (fun _ => 0)) sigma) proj dual None = primal_dual_gap n (new_dterm k None) proj dual None.
Proof.
  intros n k proj dual [-> | ->]; unfold primal_dual_gap, compute_residual, add_background, data_dual_dot, norm_l1, norm_l2, apply_mask; simpl; split.
  - rewrite Rplus_0_r. apply rsum_ext. intros. apply Rabs_Rabsolu.
  - intros sigma. unfold dot. rewrite (rsum_zero n (fun i => dual i * 0)) by (intros; ring). f_equal. apply rsum_ext. intros. f_equal. rewrite Rminus_0_l. apply Rabs_Ropp.
  - lra.
  - intros sigma. unfold dot. rewrite (rsum_zero n (fun i => dual i * 0)) by (intros; ring). do 4 f_equal. apply rsum_ext. intros. ring.
Qed.
