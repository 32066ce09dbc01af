(** Finite sums of reals and elementary inequalities: a small library with no model content. *)
From Coq Require Export Reals Lra Lia List Arith ZArith Psatz FunctionalExtensionality.
Export ListNotations.
Global Open Scope R_scope.

(** [rsum n f] = f 0 + ... + f (n-1). *)
Fixpoint rsum (n : nat) (f : nat -> R) : R :=
  match n with
  | O => 0
  | S m => rsum m f + f m
  end.

Lemma rsum_ext n f g : (forall i, (i < n)%nat -> f i = g i) -> rsum n f = rsum n g.
Proof.
  induction n as [|n IH]; intros H; simpl; [reflexivity|].
  rewrite IH, H; auto. 
Qed.

Lemma rsum_0 n : rsum n (fun _ => 0) = 0.
Proof. induction n as [|n IH]; simpl; lra. Qed.

Lemma rsum_const n c : rsum n (fun _ => c) = INR n * c.
Proof. induction n as [|n IH]; [simpl; lra|]. cbn [rsum]. rewrite IH, S_INR. lra. Qed.

Lemma rsum_zero n f : (forall i, (i < n)%nat -> f i = 0) -> rsum n f = 0.
Proof. intros H. rewrite (rsum_ext n f (fun _ => 0)); auto using rsum_0. Qed.

Lemma rsum_plus n f g : rsum n (fun i => f i + g i) = rsum n f + rsum n g.
Proof. induction n as [|n IH]; simpl; lra. Qed.

Lemma rsum_minus n f g : rsum n (fun i => f i - g i) = rsum n f - rsum n g.
Proof. induction n as [|n IH]; simpl; lra. Qed.

Lemma rsum_opp n f : rsum n (fun i => - f i) = - rsum n f.
Proof. induction n as [|n IH]; simpl; lra. Qed.

Lemma rsum_scal n c f : rsum n (fun i => c * f i) = c * rsum n f.
Proof. induction n as [|n IH]; simpl; [lra|]. rewrite IH. ring. Qed.

Lemma rsum_scal_r n c f : rsum n (fun i => f i * c) = rsum n f * c.
Proof. induction n as [|n IH]; simpl; [lra|]. rewrite IH. ring. Qed.

Lemma rsum_swap n m (f : nat -> nat -> R) :
  rsum n (fun i => rsum m (fun j => f i j)) = rsum m (fun j => rsum n (fun i => f i j)).
Proof.
  induction n as [|n IH]; simpl.
  - symmetry. apply rsum_0.
  - rewrite IH, rsum_plus. reflexivity.
Qed.

Lemma rsum_nonneg n f : (forall i, (i < n)%nat -> 0 <= f i) -> 0 <= rsum n f.
Proof.
  induction n as [|n IH]; intros H; simpl; [lra|].
  assert (0 <= rsum n f) by (apply IH; auto). assert (0 <= f n) by (apply H; lia). lra.
Qed.

Lemma rsum_le n f g : (forall i, (i < n)%nat -> f i <= g i) -> rsum n f <= rsum n g.
Proof.
  induction n as [|n IH]; intros H; simpl; [lra|].
  assert (rsum n f <= rsum n g) by (apply IH; auto). assert (f n <= g n) by (apply H; lia). lra.
Qed.

Lemma rsum_pos n f i : (i < n)%nat -> (forall j, (j < n)%nat -> 0 <= f j) -> 0 < f i -> 0 < rsum n f.
Proof.
  induction n as [|n IH]; intros Hi Hn Hp; [lia|]. simpl.
  assert (0 <= rsum n f) by (apply rsum_nonneg; auto).
  assert (0 <= f n) by (apply Hn; lia).
  destruct (Nat.eq_dec i n) as [->|Hne]; [lra|].
  assert (0 < rsum n f) by (apply IH; auto; lia). lra.
Qed.

Lemma rsum_nonneg_zero n f : (forall j, (j < n)%nat -> 0 <= f j) -> rsum n f = 0 ->
  forall i, (i < n)%nat -> f i = 0.
Proof.
  intros Hn Hs i Hi. destruct (Rle_lt_or_eq_dec 0 (f i) (Hn i Hi)) as [H|H]; [|auto].
  pose proof (rsum_pos n f i Hi Hn H). lra.
Qed.

Lemma rsum_abs n f : Rabs (rsum n f) <= rsum n (fun i => Rabs (f i)).
Proof.
  induction n as [|n IH]; simpl; [rewrite Rabs_R0; lra|].
  eapply Rle_trans; [apply Rabs_triang|]. lra.
Qed.

Lemma rsum_single n f k : (k < n)%nat -> (forall i, (i < n)%nat -> i <> k -> f i = 0) -> rsum n f = f k.
Proof.
  induction n as [|n IH]; intros Hk H; [lia|]. simpl.
  destruct (Nat.eq_dec k n) as [->|Hne].
  - rewrite rsum_zero; [lra|]. intros i Hi. apply H; lia.
  - rewrite IH, (H n); [lra|lia|auto|lia|]. intros i Hi Hik. apply H; lia.
Qed.

Definition delta (i j : nat) : R := if Nat.eqb i j then 1 else 0.

Lemma delta_eq i : delta i i = 1.
Proof. unfold delta. rewrite Nat.eqb_refl. reflexivity. Qed.
Lemma delta_neq i j : i <> j -> delta i j = 0.
Proof. unfold delta. intros H. destruct (Nat.eqb_spec i j); congruence. Qed.

Lemma rsum_delta n k f : (k < n)%nat -> rsum n (fun i => delta i k * f i) = f k.
Proof.
  intros Hk. rewrite (rsum_single n _ k Hk).
  - rewrite delta_eq. ring.
  - intros i _ Hne. rewrite delta_neq by auto. ring.
Qed.

Lemma rsum_term_le n f i : (forall j, (j < n)%nat -> 0 <= f j) -> (i < n)%nat -> f i <= rsum n f.
Proof.
  induction n as [|n IH]; intros Hn Hi; [lia|]. simpl.
  assert (0 <= rsum n f) by (apply rsum_nonneg; auto).
  assert (0 <= f n) by (apply Hn; lia).
  destruct (Nat.eq_dec i n) as [->|Hne]; [lra|].
  assert (f i <= rsum n f) by (apply IH; auto; lia). lra.
Qed.

Lemma rsum_S_l n f : rsum (S n) f = f 0%nat + rsum n (fun i => f (S i)).
Proof.
  induction n as [|n IH]; [simpl; lra|]. cbn [rsum] in *. rewrite IH. lra.
Qed.

Lemma rsum_app n m f : rsum (n + m) f = rsum n f + rsum m (fun i => f (n + i)%nat).
Proof.
  induction m as [|m IH]; [rewrite Nat.add_0_r; simpl; lra|].
  rewrite Nat.add_succ_r. simpl. rewrite IH. lra.
Qed.

Lemma rsum_rev n f : rsum n f = rsum n (fun i => f (n - 1 - i)%nat).
Proof.
  induction n as [|n IH]; [reflexivity|].
  symmetry. rewrite rsum_S_l. cbn [rsum]. replace (S n - 1 - 0)%nat with n by lia.
  rewrite IH. rewrite (rsum_ext n (fun i => f (S n - 1 - S i)%nat) (fun i => f (n - 1 - i)%nat)).
  - lra.
  - intros i Hi. f_equal. lia.
Qed.

(** Cauchy-Schwarz. *)
Lemma rsum_CS n f g :
  (rsum n (fun i => f i * g i)) ^ 2 <= rsum n (fun i => f i ^ 2) * rsum n (fun i => g i ^ 2).
Proof.
  induction n as [|n IH]; [simpl; lra|]. cbn [rsum].
  set (a := rsum n (fun i => f i ^ 2)) in *. set (b := rsum n (fun i => g i ^ 2)) in *.
  set (c := rsum n (fun i => f i * g i)) in *.
  assert (Ha : 0 <= a) by (apply rsum_nonneg; intros; apply pow2_ge_0).
  assert (Hb : 0 <= b) by (apply rsum_nonneg; intros; apply pow2_ge_0).
  assert (H : 2 * c * (f n * g n) <= a * g n ^ 2 + b * f n ^ 2).
  { destruct (Rle_lt_dec (c * (f n * g n)) 0) as [Hneg|Hpos].
    - assert (0 <= a * g n ^ 2) by (apply Rmult_le_pos; [auto|apply pow2_ge_0]).
      assert (0 <= b * f n ^ 2) by (apply Rmult_le_pos; [auto|apply pow2_ge_0]). lra.
    - apply Rsqr_incr_0_var.
      2:{ assert (0 <= a * g n ^ 2) by (apply Rmult_le_pos; [auto|apply pow2_ge_0]).
          assert (0 <= b * f n ^ 2) by (apply Rmult_le_pos; [auto|apply pow2_ge_0]). lra. }
      unfold Rsqr.
      assert (H1 : c ^ 2 * (f n * g n) ^ 2 <= (a * b) * (f n * g n) ^ 2)
        by (apply Rmult_le_compat_r; [apply pow2_ge_0|exact IH]).
      assert (H2 : 0 <= (a * g n ^ 2 - b * f n ^ 2) ^ 2) by apply pow2_ge_0.
      nra. }
  nra.
Qed.

(** Weighted Cauchy-Schwarz with non-negative weights. *)
Lemma rsum_CS_w n w f g : (forall i, (i < n)%nat -> 0 <= w i) ->
  (rsum n (fun i => w i * (f i * g i))) ^ 2 <=
  rsum n (fun i => w i * f i ^ 2) * rsum n (fun i => w i * g i ^ 2).
Proof.
  intros Hw.
  rewrite (rsum_ext n (fun i => w i * (f i * g i)) (fun i => (sqrt (w i) * f i) * (sqrt (w i) * g i))).
  2:{ intros i Hi. rewrite <- (sqrt_sqrt (w i)) at 1 by auto. ring. }
  rewrite (rsum_ext n (fun i => w i * f i ^ 2) (fun i => (sqrt (w i) * f i) ^ 2)).
  2:{ intros i Hi. rewrite <- (sqrt_sqrt (w i)) at 1 by auto. ring. }
  rewrite (rsum_ext n (fun i => w i * g i ^ 2) (fun i => (sqrt (w i) * g i) ^ 2)).
  2:{ intros i Hi. rewrite <- (sqrt_sqrt (w i)) at 1 by auto. ring. }
  apply rsum_CS.
Qed.

(** Jensen for squares with non-negative weights: (sum w f)^2 <= (sum w)(sum w f^2). *)
Lemma rsum_jensen_sq n w f : (forall i, (i < n)%nat -> 0 <= w i) ->
  (rsum n (fun i => w i * f i)) ^ 2 <= rsum n w * rsum n (fun i => w i * f i ^ 2).
Proof.
  intros Hw. pose proof (rsum_CS_w n w (fun _ => 1) f Hw) as H. cbv beta in H.
  rewrite (rsum_ext n (fun i => w i * (1 * f i)) (fun i => w i * f i)) in H by (intros; ring).
  rewrite (rsum_ext n (fun i => w i * 1 ^ 2) w) in H by (intros; ring). exact H.
Qed.

(** Maximum of a non-empty finite family, as numpy's [max]. *)
Fixpoint rmax (n : nat) (f : nat -> R) : R :=
  match n with O => 0 | S O => f 0%nat | S m => Rmax (rmax m f) (f m) end.
Fixpoint rmin (n : nat) (f : nat -> R) : R :=
  match n with O => 0 | S O => f 0%nat | S m => Rmin (rmin m f) (f m) end.

Lemma rmax_S n f : (0 < n)%nat -> rmax (S n) f = Rmax (rmax n f) (f n).
Proof. destruct n; [lia|reflexivity]. Qed.
Lemma rmin_S n f : (0 < n)%nat -> rmin (S n) f = Rmin (rmin n f) (f n).
Proof. destruct n; [lia|reflexivity]. Qed.

Lemma rmax_ge n f i : (i < n)%nat -> f i <= rmax n f.
Proof.
  induction n as [|n IH]; intros Hi; [lia|].
  destruct (Nat.eq_dec n 0) as [->|Hn]; [replace i with 0%nat by lia; simpl; lra|].
  rewrite rmax_S by lia.
  destruct (Nat.eq_dec i n) as [->|Hne]; [apply Rmax_r|].
  eapply Rle_trans; [apply IH; lia|apply Rmax_l].
Qed.

Lemma rmax_attained n f : (0 < n)%nat -> exists i, (i < n)%nat /\ rmax n f = f i.
Proof.
  induction n as [|n IH]; intros Hn; [lia|].
  destruct (Nat.eq_dec n 0) as [->|H0]; [exists 0%nat; simpl; auto|].
  rewrite rmax_S by lia. destruct IH as [i [Hi Hm]]; [lia|].
  unfold Rmax. destruct (Rle_dec (rmax n f) (f n)); [exists n|exists i]; split; auto; lia.
Qed.

Lemma rmin_le n f i : (i < n)%nat -> rmin n f <= f i.
Proof.
  induction n as [|n IH]; intros Hi; [lia|].
  destruct (Nat.eq_dec n 0) as [->|Hn]; [replace i with 0%nat by lia; simpl; lra|].
  rewrite rmin_S by lia.
  destruct (Nat.eq_dec i n) as [->|Hne]; [apply Rmin_r|].
  eapply Rle_trans; [apply Rmin_l|apply IH; lia].
Qed.

Lemma rmin_attained n f : (0 < n)%nat -> exists i, (i < n)%nat /\ rmin n f = f i.
Proof.
  induction n as [|n IH]; intros Hn; [lia|].
  destruct (Nat.eq_dec n 0) as [->|H0]; [exists 0%nat; simpl; auto|].
  rewrite rmin_S by lia. destruct IH as [i [Hi Hm]]; [lia|].
  unfold Rmin. destruct (Rle_dec (rmin n f) (f n)); [exists i|exists n]; split; auto; lia.
Qed.

(** Vectors: functions of the index; only indices below the dimension are meaningful. *)
Definition vec := nat -> R.
Definition veq (n : nat) (x y : vec) : Prop := forall i, (i < n)%nat -> x i = y i.
Definition dot (n : nat) (x y : vec) : R := rsum n (fun i => x i * y i).
Definition norm2 (n : nat) (x : vec) : R := rsum n (fun i => x i ^ 2).

Lemma dot_sym n x y : dot n x y = dot n y x.
Proof. unfold dot. apply rsum_ext. intros; ring. Qed.

Lemma norm2_nonneg n x : 0 <= norm2 n x.
Proof. apply rsum_nonneg. intros. apply pow2_ge_0. Qed.

Lemma dot_self n x : dot n x x = norm2 n x.
Proof. apply rsum_ext. intros; ring. Qed.

(** Sum over a list. *)
Definition lsum {A} (l : list A) (f : A -> R) : R := fold_right (fun a s => f a + s) 0 l.

Lemma Rdiv_le_0_compat a b : 0 <= a -> 0 < b -> 0 <= a / b.
Proof. intros Ha Hb. apply Rmult_le_pos; [exact Ha|left; apply Rinv_0_lt_compat; exact Hb]. Qed.
