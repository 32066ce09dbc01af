(** C154-C157: nuclear norms and multi-channel regularisers. *)
From Coq Require Import Permutation.
From Verif Require Import Sums PyErr Arrays DataTermsModel DataTermsProofs SolversModel OperatorsModel OperatorsProps OperatorsLayoutProps RegularizersMore
  RegularizersWaveProps NuclearModel.

(** * Specification: matrices of size M x N *)
Definition mdot (M N : nat) (A B : nat -> nat -> R) : R := rsum M (fun i => rsum N (fun j => A i j * B i j)).
Definition mvec (N : nat) (A : nat -> nat -> R) (x : nat -> R) : nat -> R := fun i => rsum N (fun j => A i j * x j).
Definition sq_norm (n : nat) (x : nat -> R) : R := rsum n (fun i => x i ^ 2).
(** all singular values at most 1: no vector is stretched *)
Definition spectral_le1 (M N : nat) (A : nat -> nat -> R) : Prop := forall x, sq_norm M (mvec N A x) <= sq_norm N x.
Definition mdist (M N : nat) (A B : nat -> nat -> R) : R := mdot M N (fun i j => A i j - B i j) (fun i j => A i j - B i j).
(** a (thin) singular value decomposition *)
Definition is_svd (M N : nat) (A : nat -> nat -> R) (f : factors) : Prop :=
  let '(U, s, Vt) := f in let r := Nat.min M N in
  (forall i j, (i < M)%nat -> (j < N)%nat -> A i j = rsum r (fun k => U i k * s k * Vt k j)) /\
  (forall k q, (k < r)%nat -> (q < r)%nat -> rsum M (fun i => U i k * U i q) = delta k q) /\
  (forall k q, (k < r)%nat -> (q < r)%nat -> rsum N (fun j => Vt k j * Vt q j) = delta k q) /\
  (forall k, (k < r)%nat -> 0 <= s k).
(** the matrix of the entries of [x] along axes r (rows) and c (columns) through position l *)
Definition slice (x : arr) (r c : nat) (l : list nat) : nat -> nat -> R := fun i j => x (set_nth r i (set_nth c j l)).
(** np.linalg.svd is right on the matrices of this array; np.argsort is right *)
Definition svd_right (svd : svd_fun) (s : list nat) (r c : nat) (x : arr) : Prop :=
  forall A l, inb s l -> (forall i j, (i < nth r s 0)%nat -> (j < nth c s 0)%nat -> A i j = slice x r c l i j) ->
    is_svd (nth r s 0%nat) (nth c s 0%nat) A (svd (nth r s 0%nat) (nth c s 0%nat) A).
Definition argsort_right (argsort : list nat -> list nat) : Prop := forall l : list nat, Permutation l (seq 0 (length l)) -> argsort_spec l (argsort l).

(** * Index bookkeeping *)
Definition batch (nd r c : nat) (l : list nat) : list nat := map (fun a => nth a l 0%nat) (invariant_dims nd ([r] ++ [c])).
Lemma bwd_map (s : list nat) rows cols bwd l : svd_axes (length s) rows cols -> argsort_spec (fwd_transpose (length s) rows cols) bwd ->
  map (fun d => nth (index_of d bwd) l 0%nat) (seq 0 (length bwd)) = map (fun a => nth a l 0%nat) (fwd_transpose (length s) rows cols).
Proof.
  intros [Hnd Hlt] Hb. pose proof (fwd_is_perm _ _ _ Hnd Hlt) as P. set (fwd := fwd_transpose (length s) rows cols) in *.
  destruct (argsort_perm fwd bwd (length s) P Hb) as (Lf & Lb & Hinv).
  assert (NDf : NoDup fwd) by (eapply Permutation_NoDup; [apply Permutation_sym, P|apply seq_NoDup]).
  assert (NDb : NoDup bwd) by (destruct Hb as [Pb _]; eapply Permutation_NoDup; [apply Permutation_sym, Pb|apply seq_NoDup]).
  rewrite <- (map_nth_seq fwd). rewrite map_map, Lf, Lb. apply map_ext_in. intros k Hk. apply in_seq in Hk.
  assert (Hf : (nth k fwd 0 < length s)%nat).
  { assert (H : In (nth k fwd 0%nat) fwd) by (apply nth_In; lia). eapply Permutation_in in H; [|exact P]. apply in_seq in H. lia. }
  destruct (Hinv (nth k fwd 0%nat) Hf) as [E Hf'].
  assert (E2 : nth (nth k fwd 0%nat) bwd 0%nat = k) by (apply (proj1 (NoDup_nth fwd 0%nat) NDf); lia).
  f_equal. rewrite <- E2 at 1. apply index_of_nth; [exact NDb|lia].
Qed.
Lemma shapes_eq s r c : fwd_shape s [r] [c] = bwd_shape s [r] [c].
Proof. unfold fwd_shape, bwd_shape, transpose_shape. cbn [map]. unfold size. cbn [fold_right]. rewrite !Nat.mul_1_r. reflexivity. Qed.
Lemma axes_ok nd r c : (r < nd)%nat -> (c < nd)%nat -> r <> c -> svd_axes nd [r] [c].
Proof.
  intros Hr Hc Hn. split.
  - cbn. constructor; [intros [E|[]]; congruence|]. constructor; [intros []|constructor].
  - intros a [<-|[<-|[]]]; assumption.
Qed.
Lemma fwd_split nd r c l : map (fun a => nth a l 0%nat) (fwd_transpose nd [r] [c]) = batch nd r c l ++ [nth r l 0%nat; nth c l 0%nat].
Proof. unfold fwd_transpose, batch. rewrite map_app. reflexivity. Qed.
Lemma nth_set_other {A} a b (v d : A) l : a <> b -> nth a (set_nth b v l) d = nth a l d.
Proof. revert a b. induction l as [|h t IH]; intros [|a] [|b] H; simpl; try reflexivity; try congruence. apply IH. congruence. Qed.
Lemma batch_set nd r c i j l : batch nd r c (set_nth r i (set_nth c j l)) = batch nd r c l.
Proof.
  unfold batch. apply map_ext_in. intros a Ha. unfold invariant_dims in Ha. apply filter_In in Ha. destruct Ha as [_ Ha].
  cbn [app existsb] in Ha. destruct (Nat.eqb_spec a r) as [|N1]; [discriminate|]. destruct (Nat.eqb_spec a c) as [|N2]; [discriminate|].
  rewrite !nth_set_other by assumption. reflexivity.
Qed.
Section Layout.
  Variables (s : list nat) (r c : nat) (bwd : list nat).
  Hypothesis Hr : (r < length s)%nat. Hypothesis Hc : (c < length s)%nat. Hypothesis Hrc : r <> c.
  Hypothesis Hb : argsort_spec (fwd_transpose (length s) [r] [c]) bwd.
  Lemma fwd_inb l : inb s l -> inb (bwd_shape s [r] [c]) (batch (length s) r c l ++ [nth r l 0%nat; nth c l 0%nat]).
  Proof.
    intros Hl. pose proof (axes_ok _ _ _ Hr Hc Hrc) as Ha. destruct (bwd_index s [r] [c] bwd l Ha Hb Hl) as [H _].
    rewrite (bwd_map s [r] [c] bwd l Ha Hb), fwd_split in H. exact H.
  Qed.
  Lemma backward_at y l : inb s l -> svd_backward s [r] [c] bwd y l = y (batch (length s) r c l ++ [nth r l 0%nat; nth c l 0%nat]).
  Proof.
    intros Hl. unfold svd_backward, np_transpose, np_reshape. rewrite (bwd_map s [r] [c] bwd l (axes_ok _ _ _ Hr Hc Hrc) Hb), fwd_split, shapes_eq.
    rewrite unflat_flat by (apply fwd_inb, Hl). reflexivity.
  Qed.
  Lemma forward_at x l : inb s l -> svd_forward s [r] [c] x (batch (length s) r c l ++ [nth r l 0%nat; nth c l 0%nat]) = x l.
  Proof.
    intros Hl. pose proof (axes_ok _ _ _ Hr Hc Hrc) as Ha. destruct (bwd_index s [r] [c] bwd l Ha Hb Hl) as [_ E].
    rewrite (bwd_map s [r] [c] bwd l Ha Hb), fwd_split in E.
    unfold svd_forward, np_reshape. rewrite fwd_T_shape, shapes_eq, unflat_flat by (apply fwd_inb, Hl). unfold np_transpose. rewrite E. reflexivity.
  Qed.
  Lemma set2_inb l i j : inb s l -> (i < nth r s 0)%nat -> (j < nth c s 0)%nat -> inb s (set_nth r i (set_nth c j l)).
  Proof. intros Hl Hi Hj. apply inb_set; [apply inb_set; assumption|exact Hi]. Qed.
  Lemma forward_slice x l i j : inb s l -> (i < nth r s 0)%nat -> (j < nth c s 0)%nat ->
    svd_forward s [r] [c] x (batch (length s) r c l ++ [i; j]) = slice x r c l i j.
  Proof.
    intros Hl Hi Hj. unfold slice. pose proof (set2_inb l i j Hl Hi Hj) as H. pose proof (forward_at x _ H) as E. rewrite batch_set in E.
    pose proof (inb_length s l Hl) as Ll.
    rewrite nth_set_nth in E by (rewrite set_nth_length; lia). rewrite nth_set_other in E by congruence. rewrite nth_set_nth in E by lia. exact E.
  Qed.
  (** what the operator does to the matrix through l *)
  Lemma adjoint_slice f l i j : inb s l -> (i < nth r s 0)%nat -> (j < nth c s 0)%nat ->
    slice (svd_op_adjoint s [r] [c] bwd f) r c l i j =
    let '(U, sv, Vt) := f (batch (length s) r c l) in inverse_svd (Nat.min (nth r s 0%nat) (nth c s 0%nat)) U sv Vt i j.
  Proof.
    intros Hl Hi Hj. unfold slice. pose proof (set2_inb l i j Hl Hi Hj) as H. pose proof (inb_length s l Hl) as Ll.
    unfold svd_op_adjoint. rewrite backward_at by exact H. rewrite batch_set.
    rewrite nth_set_nth by (rewrite set_nth_length; lia). rewrite nth_set_other by congruence. rewrite nth_set_nth by lia.
    set (b := batch (length s) r c l). assert (L : length (b ++ [i; j]) = (length b + 2)%nat) by (rewrite app_length; reflexivity). rewrite L.
    replace (length b + 2 - 2)%nat with (length b + 0)%nat by lia. rewrite firstn_app_2. cbn [firstn]. rewrite app_nil_r, Nat.add_0_r.
    rewrite !app_nth2 by lia. rewrite Nat.sub_diag. replace (S (length b) - length b)%nat with 1%nat by lia. cbn [nth].
    unfold transpose_shape. cbn [map]. unfold size. cbn [fold_right]. rewrite !Nat.mul_1_r. reflexivity.
  Qed.
End Layout.

(** * Linear algebra *)
Lemma msl n c f : c * rsum n f = rsum n (fun i => c * f i). Proof. symmetry. apply rsum_scal. Qed.
Lemma msr n c f : rsum n f * c = rsum n (fun i => f i * c). Proof. symmetry. apply rsum_scal_r. Qed.
Lemma delta_sym a b : delta a b = delta b a. Proof. unfold delta. rewrite Nat.eqb_sym. reflexivity. Qed.
Lemma rsum_delta' n k f : (k < n)%nat -> rsum n (fun q => delta k q * f q) = f k.
Proof. intros Hk. rewrite <- (rsum_delta n k f Hk). apply rsum_ext. intros. rewrite delta_sym. reflexivity. Qed.
Lemma sq_comb n m (E : nat -> nat -> R) a : (forall k q, (k < m)%nat -> (q < m)%nat -> rsum n (fun i => E i k * E i q) = delta k q) ->
  sq_norm n (fun i => rsum m (fun k => E i k * a k)) = rsum m (fun k => a k ^ 2).
Proof.
  intros HE. unfold sq_norm.
  rewrite (rsum_ext n _ (fun i => rsum m (fun k => rsum m (fun q => (a k * a q) * (E i k * E i q))))).
  2:{ intros i _. replace (rsum m (fun k => E i k * a k) ^ 2) with (rsum m (fun k => E i k * a k) * rsum m (fun k => E i k * a k)) by ring.
      rewrite msr. apply rsum_ext. intros k _. rewrite msl. apply rsum_ext. intros; ring. }
  rewrite rsum_swap. apply rsum_ext. intros k Hk. rewrite rsum_swap.
  rewrite (rsum_ext m _ (fun q => delta k q * (a k * a q))). { rewrite rsum_delta' by exact Hk. ring. }
  intros q Hq. rewrite rsum_scal. rewrite HE by assumption. ring.
Qed.
Section Svd.
  Variables (M N : nat) (U Vt : nat -> nat -> R).
  Let r := Nat.min M N.
  Hypothesis HU : forall k q, (k < r)%nat -> (q < r)%nat -> rsum M (fun i => U i k * U i q) = delta k q.
  Hypothesis HV : forall k q, (k < r)%nat -> (q < r)%nat -> rsum N (fun j => Vt k j * Vt q j) = delta k q.
  Definition recon (t : vec) : nat -> nat -> R := fun i j => rsum r (fun k => U i k * t k * Vt k j).
  Definition bif (B : nat -> nat -> R) (k : nat) : R := rsum M (fun i => U i k * mvec N B (fun j => Vt k j) i).
  Lemma bessel x : rsum r (fun k => (rsum N (fun j => Vt k j * x j)) ^ 2) <= sq_norm N x.
  Proof.
    set (y := fun k => rsum N (fun j => Vt k j * x j)).
    assert (H : 0 <= sq_norm N (fun j => x j - rsum r (fun k => Vt k j * y k))) by (apply rsum_nonneg; intros; apply pow2_ge_0).
    pose proof (sq_comb N r (fun j k => Vt k j) y HV) as Q. cbv beta in Q.
    assert (C : rsum N (fun j => x j * rsum r (fun k => Vt k j * y k)) = rsum r (fun k => y k ^ 2)).
    { rewrite (rsum_ext N _ (fun j => rsum r (fun k => x j * (Vt k j * y k)))) by (intros; apply msl). rewrite rsum_swap. apply rsum_ext. intros k _.
      transitivity (rsum N (fun j => Vt k j * x j) * y k); [rewrite msr; apply rsum_ext; intros; ring|fold (y k); ring]. }
    unfold sq_norm in H. rewrite (rsum_ext N _ (fun j => x j ^ 2 - 2 * (x j * rsum r (fun k => Vt k j * y k)) + (rsum r (fun k => Vt k j * y k)) ^ 2)) in H by (intros; ring).
    rewrite rsum_plus, rsum_minus, rsum_scal, C in H. fold (sq_norm N (fun j => rsum r (fun k => Vt k j * y k))) in H. rewrite Q in H.
    change (rsum r (fun k => y k ^ 2) <= rsum N (fun i => x i ^ 2)). lra.
  Qed.
  Lemma mvec_recon t x i : mvec N (recon t) x i = rsum r (fun k => U i k * (t k * rsum N (fun j => Vt k j * x j))).
  Proof.
    unfold mvec, recon. rewrite (rsum_ext N _ (fun j => rsum r (fun k => U i k * t k * Vt k j * x j))) by (intros; apply msr).
    rewrite rsum_swap. apply rsum_ext. intros k _. rewrite !msl. apply rsum_ext. intros; ring.
  Qed.
  Lemma recon_spectral t : (forall k, (k < r)%nat -> Rabs (t k) <= 1) -> spectral_le1 M N (recon t).
  Proof.
    intros Ht x. unfold sq_norm at 1. rewrite (rsum_ext M _ (fun i => (rsum r (fun k => U i k * (t k * rsum N (fun j => Vt k j * x j)))) ^ 2)) by (intros; rewrite mvec_recon; reflexivity).
    fold (sq_norm M (fun i => rsum r (fun k => U i k * (t k * rsum N (fun j => Vt k j * x j))))).
    rewrite (sq_comb M r U _ HU). eapply Rle_trans; [|apply bessel]. apply rsum_le. intros k Hk. specialize (Ht k Hk).
    set (y := rsum N (fun j => Vt k j * x j)). assert (t k ^ 2 <= 1) by (rewrite <- (pow2_abs (t k)); pose proof (Rabs_pos (t k)); nra).
    pose proof (pow2_ge_0 y). replace ((t k * y) ^ 2) with (t k ^ 2 * y ^ 2) by ring. nra.
  Qed.
  Lemma mdot_recon t B : mdot M N (recon t) B = rsum r (fun k => t k * bif B k).
  Proof.
    unfold mdot, recon, bif, mvec.
    rewrite (rsum_ext M _ (fun i => rsum r (fun k => t k * (U i k * rsum N (fun j => B i j * Vt k j))))).
    2:{ intros i _. rewrite (rsum_ext N _ (fun j => rsum r (fun k => U i k * t k * Vt k j * B i j))) by (intros; apply msr).
        rewrite rsum_swap. apply rsum_ext. intros k _. rewrite !msl. apply rsum_ext. intros; ring. }
    rewrite rsum_swap. apply rsum_ext. intros k _. rewrite rsum_scal. reflexivity.
  Qed.
  Lemma bif_recon t k : (k < r)%nat -> bif (recon t) k = t k.
  Proof.
    intros Hk. unfold bif. rewrite (rsum_ext M _ (fun i => rsum r (fun q => (t q * delta q k) * (U i q * U i k)))).
    2:{ intros i _. rewrite mvec_recon, msl. apply rsum_ext. intros q Hq. rewrite (HV q k Hq Hk). ring. }
    rewrite rsum_swap. rewrite (rsum_ext r _ (fun q => delta k q * t q)). { apply rsum_delta', Hk. }
    intros q Hq. rewrite rsum_scal, HU by assumption. rewrite (delta_sym q k). unfold delta. destruct (Nat.eqb k q); ring.
  Qed.
  Lemma bif_le B k : (k < r)%nat -> spectral_le1 M N B -> Rabs (bif B k) <= 1.
  Proof.
    intros Hk HB. assert (H : bif B k ^ 2 <= 1).
    { unfold bif. pose proof (rsum_CS M (fun i => U i k) (mvec N B (fun j => Vt k j))) as Q. cbv beta in Q. eapply Rle_trans; [exact Q|]. clear Q. specialize (HB (fun j => Vt k j)). unfold sq_norm in HB.
      rewrite (rsum_ext M (fun i => U i k ^ 2) (fun i => U i k * U i k)) by (intros; ring). rewrite HU by assumption.
      rewrite (rsum_ext N (fun j => Vt k j ^ 2) (fun j => Vt k j * Vt k j)) in HB by (intros; ring). rewrite HV in HB by assumption.
      unfold delta in *. rewrite Nat.eqb_refl in *. lra. }
    apply Rabs_le. split; nra.
  Qed.
End Svd.

(** the nearest matrix of spectral norm at most 1 *)
Lemma mdist_split M N A P B : mdist M N A B = mdist M N A P + mdist M N P B + 2 * mdot M N (fun i j => A i j - P i j) (fun i j => P i j - B i j).
Proof.
  unfold mdist, mdot. rewrite <- rsum_scal, <- !rsum_plus. apply rsum_ext. intros i _. rewrite <- rsum_scal, <- !rsum_plus. apply rsum_ext. intros; ring.
Qed.
Lemma mdot_minus_r M N A P B : mdot M N A (fun i j => P i j - B i j) = mdot M N A P - mdot M N A B.
Proof. unfold mdot. rewrite <- rsum_minus. apply rsum_ext. intros i _. rewrite <- rsum_minus. apply rsum_ext. intros; ring. Qed.
Lemma mdot_ext M N A A' B B' : (forall i j, (i < M)%nat -> (j < N)%nat -> A i j = A' i j) -> (forall i j, (i < M)%nat -> (j < N)%nat -> B i j = B' i j) -> mdot M N A B = mdot M N A' B'.
Proof. intros H1 H2. unfold mdot. apply rsum_ext. intros i Hi. apply rsum_ext. intros j Hj. rewrite H1, H2 by assumption. reflexivity. Qed.
Lemma spectral_ext M N A A' : (forall i j, (i < M)%nat -> (j < N)%nat -> A i j = A' i j) -> spectral_le1 M N A -> spectral_le1 M N A'.
Proof.
  intros H HA x. specialize (HA x). eapply Rle_trans; [|exact HA]. right. apply rsum_ext. intros i Hi. f_equal. apply rsum_ext. intros j Hj. rewrite H by assumption. reflexivity.
Qed.
Lemma svd_projection M N A U s Vt P : is_svd M N A (U, s, Vt) ->
  (forall i j, (i < M)%nat -> (j < N)%nat -> P i j = recon M N U Vt (fun k => Rmin (s k) 1) i j) ->
  spectral_le1 M N P /\ forall B, spectral_le1 M N B -> mdist M N A P + mdist M N P B <= mdist M N A B.
Proof.
  intros (HA & HU & HV & Hs) HP. set (t := fun k => Rmin (s k) 1) in *.
  assert (Ht : forall k, (k < Nat.min M N)%nat -> Rabs (t k) <= 1).
  { intros k Hk. specialize (Hs k Hk). unfold t. apply Rabs_le. unfold Rmin. destruct Rle_dec; lra. }
  split.
  - apply (spectral_ext M N (recon M N U Vt t)); [intros; symmetry; apply HP; assumption|]. apply recon_spectral; assumption.
  - intros B HB. rewrite (mdist_split M N A P B).
    assert (E : mdot M N (fun i j => A i j - P i j) (fun i j => P i j - B i j) = rsum (Nat.min M N) (fun k => (s k - t k) * (t k - bif M N U Vt B k))).
    { rewrite (mdot_ext M N _ (recon M N U Vt (fun k => s k - t k)) _ (fun i j => recon M N U Vt t i j - B i j)).
      - rewrite mdot_minus_r, !mdot_recon, <- rsum_minus. apply rsum_ext. intros k Hk. rewrite bif_recon by assumption. ring.
      - intros i j Hi Hj. rewrite HA, HP by assumption. unfold recon. rewrite <- rsum_minus. apply rsum_ext. intros; ring.
      - intros i j Hi Hj. rewrite HP by assumption. reflexivity. }
    rewrite E. assert (0 <= rsum (Nat.min M N) (fun k => (s k - t k) * (t k - bif M N U Vt B k))); [|lra].
    apply rsum_nonneg. intros k Hk. pose proof (bif_le M N U Vt HU HV B k Hk HB) as Hb. unfold t, Rmin.
    destruct (Rle_dec (s k) 1) as [L|L]; [right; ring|]. apply Rmult_le_pos; [lra|]. pose proof (Rle_abs (bif M N U Vt B k)). lra.
Qed.
Lemma l1_spectral sv k : 0 <= sv k -> proximal_dual (new_dterm K_l1 None) vones sv k = Rmin (sv k) 1.
Proof.
  intros H. cbn. unfold np_fmax, vones, Rmax, Rmin. rewrite Rabs_right by lra. destruct (Rle_dec (sv k) 1); field_simplify; try lra.
Qed.

Lemma wrap_lt nd a : (0 < nd)%nat -> (wrap_axis nd a < nd)%nat.
Proof. intros H. unfold wrap_axis. pose proof (Z.mod_pos_bound a (Z.of_nat nd) ltac:(lia)). lia. Qed.
Definition projects (M N : nat) (A P : nat -> nat -> R) : Prop :=
  spectral_le1 M N P /\ forall B, spectral_le1 M N B -> mdist M N A P + mdist M N P B <= mdist M N A B.
Lemma ln_core_projects svd argsort s r c dual : (r < length s)%nat -> (c < length s)%nat -> r <> c -> svd_right svd s r c dual -> argsort_right argsort ->
  forall l, inb s l -> projects (nth r s 0%nat) (nth c s 0%nat) (slice dual r c l)
    (slice (ln_core svd (new_dterm K_l1 None) s r c (argsort (fwd_transpose (length s) [r] [c])) dual) r c l).
Proof.
  intros Hr Hc Hrc Hsvd Has l Hl.
  assert (Hb : argsort_spec (fwd_transpose (length s) [r] [c]) (argsort (fwd_transpose (length s) [r] [c]))).
  { apply Has. pose proof (axes_ok _ _ _ Hr Hc Hrc) as [A1 A2]. pose proof (fwd_is_perm _ _ _ A1 A2) as P. rewrite (Permutation_length P), seq_length. exact P. }
  set (M := nth r s 0%nat) in *. set (N := nth c s 0%nat) in *.
  set (A := fun i j => svd_forward s [r] [c] dual (batch (length s) r c l ++ [i; j])).
  assert (EA : forall i j, (i < M)%nat -> (j < N)%nat -> A i j = slice dual r c l i j) by (intros i j Hi Hj; apply (forward_slice s r c _ Hr Hc Hrc Hb); assumption).
  pose proof (Hsvd A l Hl EA) as HS. fold M N in HS. destruct (svd M N A) as [[U sv] Vt] eqn:ES.
  assert (HS' : is_svd M N (slice dual r c l) (U, sv, Vt)).
  { destruct HS as (H1 & H2). split; [|exact H2]. intros i j Hi Hj. rewrite <- EA by assumption. apply H1; assumption. }
  apply (svd_projection M N (slice dual r c l) U sv Vt); [exact HS'|].
  intros i j Hi Hj. unfold ln_core. rewrite (adjoint_slice s r c _ Hr Hc Hrc Hb) by assumption.
  unfold svd_op_direct. unfold transpose_shape. cbn [map]. unfold size. cbn [fold_right]. rewrite !Nat.mul_1_r. fold M N. fold A.
  change (fun i0 j0 => svd_forward s [r] [c] dual (batch (length s) r c l ++ [i0; j0])) with A. rewrite ES.
  unfold inverse_svd, recon. apply rsum_ext. intros k Hk. rewrite l1_spectral by (apply HS; exact Hk). ring.
Qed.

(** * C154 *)
(** the nuclear-norm term with its default spectral norm, without data (as a regulariser's norm): every matrix taken along its two axes is
    replaced by the nearest matrix whose singular values are at most 1 (and every other such matrix is farther, by at least its distance to it) *)
Theorem C154_nuclear_projection : forall svd argsort t s r c dual,
  ln_sigma_data t = None -> ln_spec t = new_dterm K_l1 None ->
  wrap_axis (length s) (fst (ln_axes t)) = r -> wrap_axis (length s) (snd (ln_axes t)) = c -> r <> c ->
  svd_right svd s r c dual -> argsort_right argsort -> s <> [] ->
  exists res, ln_prox svd argsort t s dual = inr res /\
    forall l, inb s l ->
      spectral_le1 (nth r s 0%nat) (nth c s 0%nat) (slice res r c l) /\
      forall B, spectral_le1 (nth r s 0%nat) (nth c s 0%nat) B ->
        mdist (nth r s 0%nat) (nth c s 0%nat) (slice dual r c l) (slice res r c l) + mdist (nth r s 0%nat) (nth c s 0%nat) (slice res r c l) B
        <= mdist (nth r s 0%nat) (nth c s 0%nat) (slice dual r c l) B.
Proof.
  intros svd argsort t s r c dual Hd Hsp Er Ec Hrc Hsvd Has Hne. unfold ln_prox. rewrite Hd, Er, Ec, Hsp. destruct (Nat.eqb_spec r c); [contradiction|].
  eexists. split; [reflexivity|]. assert (Ls : (0 < length s)%nat) by (destruct s; [congruence|cbn; lia]).
  apply ln_core_projects; try assumption; [rewrite <- Er|rewrite <- Ec]; apply wrap_lt, Ls.
Qed.
(** the corresponding penalty is the sum of the singular values: the largest correlation with a matrix of that ball *)
Theorem C154_penalty_is_sum_of_singular_values : forall M N A U s Vt, is_svd M N A (U, s, Vt) ->
  (forall B, spectral_le1 M N B -> mdot M N A B <= rsum (Nat.min M N) s) /\ exists B, spectral_le1 M N B /\ mdot M N A B = rsum (Nat.min M N) s.
Proof.
  intros M N A U s Vt (HA & HU & HV & Hs).
  assert (E : forall B, mdot M N A B = rsum (Nat.min M N) (fun k => s k * bif M N U Vt B k)).
  { intros B. rewrite <- mdot_recon. apply mdot_ext; [intros i j Hi Hj; rewrite HA by assumption; reflexivity|reflexivity]. }
  split.
  - intros B HB. rewrite E. apply rsum_le. intros k Hk. pose proof (bif_le M N U Vt HU HV B k Hk HB). pose proof (Rle_abs (bif M N U Vt B k)). specialize (Hs k Hk). nra.
  - exists (recon M N U Vt (fun _ => 1)). split; [apply recon_spectral; try assumption; intros; rewrite Rabs_R1; lra|].
    rewrite E. apply rsum_ext. intros k Hk. rewrite bif_recon by assumption. ring.
Qed.
(** Non-vacuity: diag(3, 1/2) becomes diag(1, 1/2). *)
Definition diag_demo : arr := fun l => match l with [0%nat; 0%nat] => 3 | [1%nat; 1%nat] => / 2 | _ => 0 end.
Definition svd_demo : svd_fun := fun _ _ _ => (delta, (fun k => match k with 0%nat => 3 | _ => / 2 end), delta).
Definition nodata_ln : ln_term := mkLN (0, -1)%Z (new_dterm K_l1 None) None.
Example C154_example : svd_right svd_demo [2%nat; 2%nat] 0 1 diag_demo /\ wrap_axis 2 (-1) = 1%nat /\
  slice diag_demo 0 1 [0%nat; 0%nat] 0%nat 0%nat = 3.
Proof.
  split; [|split; reflexivity]. intros A l Hl HA. inversion Hl as [|x ? l' ? Hx Hl']; subst. inversion Hl' as [|y ? l2 ? Hy Hl2]; subst. inversion Hl2; subst.
  cbn [nth] in *. unfold is_svd, svd_demo. cbn [Nat.min]. split; [|split; [|split]].
  - intros i j Hi Hj. rewrite HA by assumption. unfold slice. cbn [set_nth rsum]. unfold delta.
    destruct i as [|[|i]]; [| |lia]; (destruct j as [|[|j]]; [| |lia]); cbn; ring.
  - intros k q Hk Hq. cbn [rsum]. unfold delta. destruct k as [|[|k]]; [| |lia]; (destruct q as [|[|q]]; [| |lia]); cbn; ring.
  - intros k q Hk Hq. cbn [rsum]. unfold delta. destruct k as [|[|k]]; [| |lia]; (destruct q as [|[|q]]; [| |lia]); cbn; ring.
  - intros k Hk. destruct k; lra.
Qed.

(** * C155: total nuclear variation *)
(** In general: at every pixel the channels x derivatives matrix is projected. *)
Theorem C155_tnv_projection : forall svd argsort s axes mode D C sp st dual,
  tnv_init s axes mode None = inr st -> svd_right svd (D :: C :: sp) 1 0 dual -> argsort_right argsort ->
  exists res, tnv_prox svd argsort st (D :: C :: sp) dual = inr res /\
    forall l, inb sp l -> (0 < D)%nat -> (0 < C)%nat ->
      spectral_le1 C D (fun ch a => res (a :: ch :: l)) /\
      forall B, spectral_le1 C D B ->
        mdist C D (fun ch a => dual (a :: ch :: l)) (fun ch a => res (a :: ch :: l)) + mdist C D (fun ch a => res (a :: ch :: l)) B
        <= mdist C D (fun ch a => dual (a :: ch :: l)) B.
Proof.
  intros svd argsort s axes mode D C sp st dual Hst Hsvd Has. injection Hst as <-.
  assert (W1 : wrap_axis (length (D :: C :: sp)) 1 = 1%nat). { unfold wrap_axis. rewrite Z.mod_small by (cbn [length]; lia). reflexivity. }
  assert (W0 : wrap_axis (length (D :: C :: sp)) 0 = 0%nat). { unfold wrap_axis. rewrite Z.mod_0_l by (cbn [length]; lia). reflexivity. }
  destruct (C154_nuclear_projection svd argsort (mkLN (1, 0)%Z (new_dterm K_l1 None) None) (D :: C :: sp) 1 0 dual eq_refl eq_refl W1 W0 ltac:(lia) Hsvd Has ltac:(discriminate)) as (res & E & H).
  exists res. split; [exact E|]. intros l Hl HD HC. apply (H (0%nat :: 0%nat :: l)). constructor; [exact HD|]. constructor; assumption.
Qed.
Lemma row_le1 D B : spectral_le1 1 D B <-> sq_norm D (B 0%nat) <= 1.
Proof.
  split.
  - intros H. specialize (H (B 0%nat)). unfold sq_norm at 1 in H. cbn [rsum] in H. unfold mvec in H.
    rewrite (rsum_ext D _ (fun j => B 0%nat j ^ 2)) in H by (intros; ring). fold (sq_norm D (B 0%nat)) in H.
    assert (0 <= sq_norm D (B 0%nat)) by (apply rsum_nonneg; intros; apply pow2_ge_0). destruct (Rle_lt_dec (sq_norm D (B 0%nat)) 1); [assumption|nra].
  - intros H x. unfold sq_norm at 1. cbn [rsum]. unfold mvec. pose proof (rsum_CS D (B 0%nat) x) as Q. fold (sq_norm D (B 0%nat)) (sq_norm D x) in Q.
    assert (0 <= sq_norm D x) by (apply rsum_nonneg; intros; apply pow2_ge_0). nra.
Qed.
Lemma mdist_row D A B : mdist 1 D A B = sq_norm D (A 0%nat) - 2 * rsum D (fun j => A 0%nat j * B 0%nat j) + sq_norm D (B 0%nat).
Proof. unfold mdist, mdot, sq_norm. cbn [rsum]. rewrite <- rsum_scal, <- rsum_minus, <- rsum_plus, Rplus_0_l. apply rsum_ext. intros; ring. Qed.
(** One channel: the total nuclear variation acts as the isotropic total variation. *)
Theorem C155_one_channel_is_tv : forall svd argsort s axes mode D sp st dual,
  tnv_init s axes mode None = inr st -> svd_right svd (D :: 1%nat :: sp) 1 0 dual -> argsort_right argsort ->
  exists res, tnv_prox svd argsort st (D :: 1%nat :: sp) dual = inr res /\
    forall a l, (a < D)%nat -> inb sp l ->
      res (a :: 0%nat :: l) = dual (a :: 0%nat :: l) / Rmax 1 (sqrt (rsum D (fun a' => dual (a' :: 0%nat :: l) ^ 2))).
Proof.
  intros svd argsort s axes mode D sp st dual Hst Hsvd Has.
  destruct (C155_tnv_projection svd argsort s axes mode D 1 sp st dual Hst Hsvd Has) as (res & E & H). exists res. split; [exact E|].
  intros a l Ha Hl. destruct (H l Hl ltac:(lia) ltac:(lia)) as [HP HB]. set (A := fun ch a => dual (a :: ch :: l)) in *. set (P := fun ch a => res (a :: ch :: l)) in *.
  apply row_le1 in HP. change (rsum D (fun a' => dual (a' :: 0%nat :: l) ^ 2)) with (sq_norm D (A 0%nat)).
  set (m := sqrt (sq_norm D (A 0%nat))). assert (Hm0 : 0 <= m) by apply sqrt_pos.
  assert (Hm : sq_norm D (A 0%nat) = m ^ 2). { unfold m. rewrite <- Rsqr_pow2, Rsqr_sqrt; [reflexivity|]. apply rsum_nonneg; intros; apply pow2_ge_0. }
  set (B := fun (ch a : nat) => A 0%nat a / Rmax 1 m). assert (Hmx : 1 <= Rmax 1 m) by apply Rmax_l.
  assert (QB : sq_norm D (B 0%nat) = m ^ 2 / Rmax 1 m ^ 2).
  { unfold sq_norm, B. rewrite (rsum_ext D _ (fun i => (A 0%nat i ^ 2) * (/ Rmax 1 m ^ 2))) by (intros; field; lra). rewrite rsum_scal_r. fold (sq_norm D (A 0%nat)). rewrite Hm. reflexivity. }
  assert (HB1 : spectral_le1 1 D B).
  { apply row_le1. rewrite QB. apply Rmult_le_reg_r with (Rmax 1 m ^ 2); [apply pow_lt; lra|]. unfold Rdiv. rewrite Rmult_assoc, Rinv_l by (apply pow_nonzero; lra).
    rewrite Rmult_1_r, Rmult_1_l. apply pow_incr. split; [exact Hm0|apply Rmax_r]. }
  specialize (HB B HB1). rewrite (mdist_row D A P), (mdist_row D A B) in HB.
  assert (DB : rsum D (fun j => A 0%nat j * B 0%nat j) = m ^ 2 / Rmax 1 m).
  { unfold B. rewrite (rsum_ext D _ (fun i => (A 0%nat i ^ 2) * (/ Rmax 1 m))) by (intros; field; lra). rewrite rsum_scal_r. fold (sq_norm D (A 0%nat)). rewrite Hm. reflexivity. }
  rewrite DB, QB, Hm in HB.
  assert (Z : mdist 1 D P B <= 0).
  { destruct (Rle_lt_dec m 1) as [L|L].
    - rewrite (Rmax_left 1 m) in HB by exact L. assert (0 <= mdist 1 D A P) by (unfold mdist, mdot; cbn [rsum]; rewrite Rplus_0_l; apply rsum_nonneg; intros; apply Rle_0_sqr).
      rewrite (mdist_row D A P), Hm in H0. unfold Rdiv in HB. rewrite pow1, Rinv_1 in HB. lra.
    - rewrite (Rmax_right 1 m) in HB by lra. replace (m ^ 2 / m) with m in HB by (field; lra). replace (m ^ 2 / m ^ 2) with 1 in HB by (field; lra).
      pose proof (rsum_CS D (A 0%nat) (P 0%nat)) as Q. fold (sq_norm D (A 0%nat)) (sq_norm D (P 0%nat)) in Q. rewrite Hm in Q.
      set (q := rsum D (fun i => A 0%nat i * P 0%nat i)) in *. set (p2 := sq_norm D (P 0%nat)) in *.
      assert (Hp2 : 0 <= p2) by (apply rsum_nonneg; intros; apply pow2_ge_0).
      (* with p = sqrt p2 <= 1: q <= m p, so m^2 - 2 q + p2 >= (m - p)^2 >= (m - 1)^2 *)
      set (pp := sqrt p2). assert (Ep : p2 = pp ^ 2) by (unfold pp; rewrite <- Rsqr_pow2, Rsqr_sqrt by exact Hp2; reflexivity).
      assert (Hpp : 0 <= pp) by apply sqrt_pos. assert (pp <= 1) by nra.
      assert (q <= m * pp). { destruct (Rle_lt_dec q (m * pp)); [assumption|]. assert (0 <= m * pp) by nra. nra. }
      nra. }
  assert (EE : rsum D (fun j => (P 0%nat j - B 0%nat j) * (P 0%nat j - B 0%nat j)) = 0).
  { unfold mdist, mdot in Z. cbn [rsum] in Z. rewrite Rplus_0_l in Z. apply Rle_antisym; [exact Z|]. apply rsum_nonneg. intros; apply Rle_0_sqr. }
  pose proof (rsum_nonneg_zero D _ (fun j _ => Rle_0_sqr (P 0%nat j - B 0%nat j)) EE a Ha) as F. cbv beta in F. apply Rsqr_0_uniq in F.
  change (P 0%nat a = B 0%nat a). lra.
Qed.

(** * C156: reference images *)
Lemma rsum_last n f : rsum (S n) f = rsum n f + f n. Proof. reflexivity. Qed.
Lemma ref_sum C f g : (forall c, (c < C)%nat -> f c = g c) -> rsum (S C) f = rsum C g + f C.
Proof. intros H. rewrite rsum_last. f_equal. apply rsum_ext. exact H. Qed.
Definition norm2 (D : nat) (v : nat -> R) : R := sqrt (rsum D (fun k => v k ^ 2)).
(** VTV with the default exponents: the reference counts as one more channel *)
Theorem C156_vtv_default : forall D C w ref d k c, (c < C)%nat ->
  vtv_prox_ref P2 Pinf D C w ref d k c = d k c * w / Rmax (rsum C (fun c' => norm2 D (fun k' => d k' c')) + norm2 D ref) w.
Proof.
  intros D C w ref d k c Hc. unfold vtv_prox_ref, vtv_prox, vtv_dual_norm, vtv_grad_norm. destruct (Nat.eqb_spec c C); [lia|].
  rewrite (ref_sum C _ (fun c' => norm2 D (fun k' => d k' c'))).
  - rewrite Nat.eqb_refl. fold (norm2 D ref). rewrite Rabs_right by (apply Rle_ge, sqrt_pos). unfold Rdiv. ring.
  - intros c' Hc'. destruct (Nat.eqb_spec c' C); [lia|]. apply Rabs_right, Rle_ge, sqrt_pos.
Qed.
Theorem C156_vtv_euclidean : forall D C w ref d k c, (c < C)%nat ->
  vtv_prox_ref P2 P2 D C w ref d k c = d k c * w / Rmax (sqrt (rsum C (fun c' => rsum D (fun k' => d k' c' ^ 2)) + rsum D (fun k' => ref k' ^ 2))) w.
Proof.
  intros D C w ref d k c Hc. unfold vtv_prox_ref, vtv_prox, vtv_dual_norm, vtv_grad_norm. destruct (Nat.eqb_spec c C); [lia|].
  assert (Q : forall f, sqrt (rsum D (fun k' => f k' ^ 2)) ^ 2 = rsum D (fun k' => f k' ^ 2)).
  { intros f. rewrite <- Rsqr_pow2. apply Rsqr_sqrt. apply rsum_nonneg; intros; apply pow2_ge_0. }
  rewrite (ref_sum C _ (fun c' => rsum D (fun k' => d k' c' ^ 2))).
  - rewrite Nat.eqb_refl. rewrite (Q ref). unfold Rdiv. ring.
  - intros c' Hc'. destruct (Nat.eqb_spec c' C); [lia|]. apply (Q (fun k' => d k' c')).
Qed.
(** the steeper the reference, the weaker the penalty, for all exponents *)
Lemma grad_norm_mono der D d d' k c : (forall k, Rabs (d' k c) <= Rabs (d k c)) -> vtv_grad_norm der D d' k c <= vtv_grad_norm der D d k c.
Proof.
  intros H. destruct der; cbn [vtv_grad_norm]; [apply H| |apply rsum_le; intros; apply H].
  apply sqrt_le_1_alt, rsum_le. intros i _. rewrite <- (pow2_abs (d' i c)), <- (pow2_abs (d i c)). apply pow_incr. split; [apply Rabs_pos|apply H].
Qed.
Lemma grad_norm_pos der D d k c : 0 <= vtv_grad_norm der D d k c.
Proof. destruct der; cbn [vtv_grad_norm]; [apply Rabs_pos|apply sqrt_pos|apply rsum_nonneg; intros; apply Rabs_pos]. Qed.
Lemma dual_norm_mono der chan D C d d' k c : (forall k c, Rabs (d' k c) <= Rabs (d k c)) -> vtv_dual_norm der chan D C d' k c <= vtv_dual_norm der chan D C d k c.
Proof.
  intros H. destruct chan; cbn [vtv_dual_norm].
  - apply grad_norm_mono. intros; apply H.
  - apply sqrt_le_1_alt, rsum_le. intros i _. apply pow_incr. split; [apply grad_norm_pos|apply grad_norm_mono; intros; apply H].
  - apply rsum_le. intros i _. rewrite !Rabs_right by (apply Rle_ge, grad_norm_pos). apply grad_norm_mono. intros; apply H.
Qed.
Theorem C156_vtv_weaker_at_edges : forall der chan D C w ref ref' d k c, 0 < w -> (c < C)%nat -> (forall k, Rabs (ref' k) <= Rabs (ref k)) ->
  Rabs (vtv_prox_ref der chan D C w ref d k c) <= Rabs (vtv_prox_ref der chan D C w ref' d k c).
Proof.
  intros der chan D C w ref ref' d k c Hw Hc H. unfold vtv_prox_ref, vtv_prox. destruct (Nat.eqb_spec c C); [lia|].
  set (N := vtv_dual_norm der chan D (S C) (fun k0 c0 => if Nat.eqb c0 C then ref k0 else d k0 c0) k c).
  set (N' := vtv_dual_norm der chan D (S C) (fun k0 c0 => if Nat.eqb c0 C then ref' k0 else d k0 c0) k c).
  assert (L : N' <= N). { apply dual_norm_mono. intros k0 c0. destruct (Nat.eqb c0 C); [apply H|lra]. }
  assert (0 < Rmax N' w) by (pose proof (Rmax_r N' w); lra). assert (Rmax N' w <= Rmax N w) by (apply Rmax_lub; [pose proof (Rmax_l N w); lra|apply Rmax_r]).
  unfold Rdiv. rewrite !Rabs_mult. apply Rmult_le_compat_r; [apply Rabs_pos|]. apply Rmult_le_compat_l; [apply Rabs_pos|].
  rewrite !Rabs_right by (apply Rle_ge, Rlt_le, Rinv_0_lt_compat; lra). apply Rinv_le_contravar; lra.
Qed.
(** with independent channels (exponent 1) the reference has no effect *)
Theorem C156_vtv_independent_channels : forall der D C w ref d k c, (c < C)%nat -> vtv_prox_ref der P1 D C w ref d k c = vtv_prox der P1 D C w d k c.
Proof.
  intros der D C w ref d k c Hc. unfold vtv_prox_ref, vtv_prox, vtv_dual_norm, vtv_grad_norm. destruct (Nat.eqb_spec c C); [lia|]. destruct der; reflexivity.
Qed.
(** but it is no longer a projection: a point of the ball moves, and moves again *)
Theorem C156_vtv_not_projection_refuted : exists ref d, 
  vtv_dual_norm P2 Pinf 1 1 d 0 0 <= 1 /\
  vtv_prox_ref P2 Pinf 1 1 1 ref d 0%nat 0%nat = / 2 /\
  vtv_prox_ref P2 Pinf 1 1 1 ref (vtv_prox_ref P2 Pinf 1 1 1 ref d) 0%nat 0%nat = / 3 /\ d 0%nat 0%nat = 1.
Proof.
  exists (fun _ => 1), (fun _ _ => 1).
  assert (S1 : forall x, 0 <= x -> norm2 1 (fun _ => x) = x). { intros x Hx. unfold norm2. cbn [rsum]. rewrite Rplus_0_l. rewrite sqrt_pow2; [reflexivity|exact Hx]. }
  assert (E : forall d : nat -> nat -> R, 0 <= d 0%nat 0%nat -> norm2 1 (fun k' => d k' 0%nat) = d 0%nat 0%nat).
  { intros d Hd. unfold norm2. cbn [rsum]. rewrite Rplus_0_l. apply sqrt_pow2, Hd. }
  split; [|split].
  - cbn. rewrite !Rplus_0_l, !Rmult_1_r, sqrt_1, Rabs_R1. lra.
  - rewrite C156_vtv_default by lia. cbn [rsum]. rewrite !S1 by lra. rewrite Rmax_left by lra. field.
  - split; [|reflexivity]. rewrite C156_vtv_default by lia. cbn [rsum]. rewrite (S1 1) by lra.
    assert (V : vtv_prox_ref P2 Pinf 1 1 1 (fun _ => 1) (fun _ _ => 1) 0%nat 0%nat = / 2).
    { rewrite C156_vtv_default by lia. cbn [rsum]. rewrite !S1 by lra. rewrite Rmax_left by lra. field. }
    rewrite E by (rewrite V; lra). rewrite V. rewrite Rmax_left by lra. field.
Qed.
(** TNV: the reference is accepted only with the volume's number of axes, and then changes nothing *)
Theorem C156_tnv_reference_ignored_refuted : forall s axes mode sr x,
  (length sr <> length s -> tnv_init s axes mode (Some (sr, x)) = inl ValueError) /\
  (length sr = length s -> exists st st0, tnv_init s axes mode (Some (sr, x)) = inr st /\ tnv_init s axes mode None = inr st0 /\
     forall svd argsort ds dual, tnv_prox svd argsort st ds dual = tnv_prox svd argsort st0 ds dual).
Proof.
  intros s axes mode sr x. unfold tnv_init. split; intros H.
  - destruct (Nat.eqb_spec (length sr) (length s)); [contradiction|reflexivity].
  - rewrite H, Nat.eqb_refl. eexists. eexists. split; [reflexivity|]. split; reflexivity.
Qed.
Lemma dual_norm_ext_in der chan D C d d' k c : (c < C)%nat -> (forall k c, (c < C)%nat -> d k c = d' k c) -> vtv_dual_norm der chan D C d k c = vtv_dual_norm der chan D C d' k c.
Proof.
  intros Hc H. assert (G : forall k c, (c < C)%nat -> vtv_grad_norm der D d k c = vtv_grad_norm der D d' k c).
  { intros k0 c0 H0. destruct der; cbn [vtv_grad_norm]; [rewrite H by exact H0; reflexivity| |]; [f_equal|]; apply rsum_ext; intros; rewrite H by exact H0; reflexivity. }
  destruct chan; cbn [vtv_dual_norm]; [apply G, Hc|f_equal|]; apply rsum_ext; intros; rewrite G by assumption; reflexivity.
Qed.
(** vectorial wavelet penalty: L sub-bands, C channels, a reference of one channel *)
Theorem C156_wavelet_reference : forall lvl chan w L C sp q dual, (1 <= C)%nat -> (2 <= L)%nat ->
  let st := mkVW lvl chan w (Some (L :: 1%nat :: sp, q)) in
  (C = (L - 1)%nat -> exists res, vl1wl_prox st (L :: C :: sp) dual = inr res /\
     forall k c l, (c < C)%nat -> res (k :: c :: l) = vtv_prox_ref lvl chan L C w (fun k' => q (k' :: 0%nat :: l)) (fun k' c' => dual (k' :: c' :: l)) k c) /\
  (C <> (L - 1)%nat -> (L <> 2)%nat -> vl1wl_prox st (L :: C :: sp) dual = inl ValueError) /\
  (C <> (L - 1)%nat -> L = 2%nat -> exists res, vl1wl_prox st (L :: C :: sp) dual = inr res /\ forall k c l, res (k :: c :: l) = res (k :: 0%nat :: l)).
Proof.
  intros lvl chan w L C sp q dual HC HL st. unfold vl1wl_prox, st. cbn [vw_q_ref nth same_except]. rewrite Nat.eqb_refl.
  destruct (list_eq_dec Nat.eq_dec sp sp) as [_|N]; [|contradiction]. cbn [andb negb vw_lvl vw_chan vw_weight]. unfold assign_axis. cbn [nth].
  split; [|split].
  - intros E. replace (Nat.min (L - 1) (C + 1)) with C by lia. rewrite Nat.eqb_refl. eexists. split; [reflexivity|]. intros k c l Hc. cbn [nth].
    unfold vtv_prox_ref. rewrite Nat.add_1_r. unfold vtv_prox.
    assert (X : forall k' c', (c' < S C)%nat -> sub_of (concat_axis 1 (L :: C :: sp) dual q) (k :: c :: l) k' c' = (if Nat.eqb c' C then q (k' :: 0%nat :: l) else dual (k' :: c' :: l))).
    { intros k' c' Hc'. unfold sub_of, concat_axis. cbn [nth set_nth]. destruct (Nat.ltb_spec c' C); destruct (Nat.eqb_spec c' C); try lia; [reflexivity|]. subst. rewrite Nat.sub_diag. reflexivity. }
    rewrite (dual_norm_ext_in lvl chan L (S C) _ (fun k0 c0 => if Nat.eqb c0 C then q (k0 :: 0%nat :: l) else dual (k0 :: c0 :: l)) k c) by (lia || exact X).
    rewrite X by lia. reflexivity.
  - intros E N2. destruct (Nat.eqb_spec (Nat.min (L - 1) (C + 1)) C); [lia|]. destruct (Nat.eqb_spec (Nat.min (L - 1) (C + 1)) 1); [lia|reflexivity].
  - intros E ->. destruct (Nat.eqb_spec (Nat.min (2 - 1) (C + 1)) C); [lia|]. destruct (Nat.eqb_spec (Nat.min (2 - 1) (C + 1)) 1); [|lia].
    eexists. split; [reflexivity|]. intros k c l. reflexivity.
Qed.
(** without a reference: at every pixel the vectorial step ([vtv_prox], the projection of C96) over sub-bands and channels *)
Theorem C156_wavelet_no_reference : forall lvl chan w L C sp dual, exists res : arr,
  vl1wl_prox (mkVW lvl chan w None) (L :: C :: sp) dual = inr res /\
  forall k c l, res (k :: c :: l) = vtv_prox lvl chan L C w (fun k' c' => dual (k' :: c' :: l)) k c.
Proof. intros lvl chan w L C sp dual. eexists. split; [reflexivity|]. intros. reflexivity. Qed.
(** in terms of the transform: levels >= 1 of an n-dimensional transform work only with level (2^n - 1) channels *)
Theorem C156_wavelet_reference_refuted : forall lvl chan w level n sp q dual C, (1 <= level)%nat -> (1 <= n)%nat -> (1 <= C)%nat -> (2 <= level * (2 ^ n - 1))%nat ->
  C <> (level * (2 ^ n - 1))%nat ->
  vl1wl_prox (mkVW lvl chan w (Some (swt_rows level n :: 1%nat :: sp, q))) (swt_rows level n :: C :: sp) dual = inl ValueError.
Proof.
  intros lvl chan w level n sp q dual C Hl Hn HC H2 HN. unfold swt_rows. destruct (C156_wavelet_reference lvl chan w (level * (2 ^ n - 1) + 1) C sp q dual HC ltac:(lia)) as (_ & H & _).
  apply H; lia.
Qed.
Example C156_example : vl1wl_prox (mkVW P1 Pinf 1 (Some ([4%nat; 1%nat; 8%nat; 8%nat], fun _ => 0))) [4%nat; 2%nat; 8%nat; 8%nat] (fun _ => 0) = inl ValueError.
Proof. reflexivity. Qed.

(** * C157: the nuclear norm as a data term *)
(** with data of the dual's shape the step fails as soon as there are two rows *)
Lemma same_except_refl r s : (r < length s)%nat -> same_except r s s = true.
Proof.
  revert r. induction s as [|a s IH]; intros r H; [cbn in H; lia|]. destruct r as [|r]; cbn [same_except].
  - destruct (list_eq_dec Nat.eq_dec s s); [reflexivity|contradiction].
  - rewrite Nat.eqb_refl. cbn [andb]. apply IH. cbn in H. lia.
Qed.
Theorem C157_data_fails_refuted : forall svd argsort t s d dual, ln_sigma_data t = Some (s, d) -> s <> [] ->
  (2 <= nth (wrap_axis (length s) (fst (ln_axes t))) s 0)%nat -> ln_prox svd argsort t s dual = inl ValueError.
Proof.
  intros svd argsort t s d dual Hd Hs H2. unfold ln_prox. rewrite Hd. set (r := wrap_axis _ (fst _)) in *. set (c := wrap_axis _ (snd _)).
  destruct (_ || _ || _)%bool; [reflexivity|]. destruct (Nat.eqb r c); [reflexivity|].
  assert (Ls : (0 < length s)%nat) by (destruct s; [congruence|cbn; lia]). assert (r < length s)%nat by (apply wrap_lt, Ls).
  unfold assign_axis, concat_shape. rewrite nth_set_nth by assumption.
  destruct (Nat.eqb_spec (nth r s 0 + nth r s 0 - 1)%nat (nth r s 0%nat)); [lia|]. destruct (Nat.eqb_spec (nth r s 0 + nth r s 0 - 1)%nat 1%nat); [lia|reflexivity].
Qed.
(** the default axes (1, -1) do not exist in a 2-dimensional sinogram *)
Theorem C157_default_axes_refuted : forall svd argsort a b sd dual, ln_prox svd argsort (mkLN (ln_axes default_ln) (ln_spec default_ln) sd) [a; b] dual = inl ValueError.
Proof.
  intros svd argsort a b sd dual. unfold ln_prox, default_ln. cbn [ln_axes fst snd length]. change (wrap_axis 2 1) with 1%nat. change (wrap_axis 2 (-1)) with 1%nat. cbn [ln_sigma_data].
  destruct sd as [[sd d]|]; [|reflexivity]. destruct (_ || _ || _)%bool; reflexivity.
Qed.
Lemma projects_ext M N A A' P : (forall i j, (i < M)%nat -> (j < N)%nat -> A i j = A' i j) -> projects M N A P -> projects M N A' P.
Proof.
  intros H [P1 P2]. split; [exact P1|]. intros B HB. specialize (P2 B HB).
  assert (E : forall X, mdist M N A' X = mdist M N A X) by (intros X; apply mdot_ext; intros i j Hi Hj; rewrite H by assumption; reflexivity).
  rewrite !E. exact P2.
Qed.
(** one row: the row of the dual is what remains of the projection of the two-row matrix (dual, sigma * data) *)
Theorem C157_one_row : forall svd argsort t s r c d dual, ln_sigma_data t = Some (s, d) -> ln_spec t = new_dterm K_l1 None -> s <> [] ->
  (- Z.of_nat (length s) <= fst (ln_axes t) < Z.of_nat (length s))%Z ->
  wrap_axis (length s) (fst (ln_axes t)) = r -> wrap_axis (length s) (snd (ln_axes t)) = c -> r <> c -> nth r s 0%nat = 1%nat ->
  svd_right svd (set_nth r 2%nat s) r c (concat_axis r s dual d) -> argsort_right argsort ->
  exists res P, ln_prox svd argsort t s dual = inr res /\ forall l, inb s l ->
    projects 2 (nth c s 0%nat) (fun i j => if Nat.eqb i 0 then dual (set_nth r 0%nat (set_nth c j l)) else d (set_nth r 0%nat (set_nth c j l))) (P l) /\
    forall j, (j < nth c s 0)%nat -> res (set_nth c j l) = P l 0%nat j.
Proof.
  intros svd argsort t s r c d dual Hd Hsp Hs Hax Er Ec Hrc H1 Hsvd Has. unfold ln_prox. rewrite Hd, Er, Ec, Hsp.
  assert (Ls : (0 < length s)%nat) by (destruct s; [congruence|cbn; lia]). assert (Hr : (r < length s)%nat) by (rewrite <- Er; apply wrap_lt, Ls).
  assert (Hc : (c < length s)%nat) by (rewrite <- Ec; apply wrap_lt, Ls). rewrite same_except_refl by exact Hr.
  replace (- Z.of_nat (length s) <=? fst (ln_axes t))%Z with true by (symmetry; apply Z.leb_le; lia).
  replace (fst (ln_axes t) <? Z.of_nat (length s))%Z with true by (symmetry; apply Z.ltb_lt; lia). cbn [negb orb].
  destruct (Nat.eqb_spec r c); [contradiction|]. unfold assign_axis, concat_shape. rewrite H1. cbn [Nat.add]. rewrite nth_set_nth by exact Hr. cbn [Nat.sub Nat.eqb].
  set (s2 := set_nth r 2%nat s) in *. assert (L2 : length s2 = length s) by apply set_nth_length. rewrite <- L2.
  set (tmp := ln_core svd (new_dterm K_l1 None) s2 r c (argsort (fwd_transpose (length s2) [r] [c])) (concat_axis r s dual d)).
  exists tmp, (fun l => slice tmp r c l). split; [reflexivity|]. intros l Hl. pose proof (inb_length s l Hl) as Ll.
  assert (Hl2 : inb s2 l).
  { unfold s2. clear - Hl H1. unfold inb in *. revert r H1. induction Hl as [|i n l s Hi Hl IH]; intros r H1; [destruct r; constructor|].
    destruct r as [|r]; cbn [set_nth nth] in *; constructor; try assumption; [lia|]. apply IH, H1. }
  assert (N2 : nth r s2 0%nat = 2%nat) by (apply nth_set_nth; exact Hr). assert (Nc : nth c s2 0%nat = nth c s 0%nat) by (apply nth_set_other; congruence).
  pose proof (ln_core_projects svd argsort s2 r c (concat_axis r s dual d) ltac:(lia) ltac:(lia) Hrc Hsvd Has l Hl2) as HP. rewrite N2, Nc in HP. split.
  - assert (EX : forall i j, (i < 2)%nat -> slice (concat_axis r s dual d) r c l i j = (if Nat.eqb i 0 then dual (set_nth r 0%nat (set_nth c j l)) else d (set_nth r 0%nat (set_nth c j l)))).
    { intros i j Hi. unfold slice, concat_axis. rewrite nth_set_nth by (rewrite set_nth_length; lia). rewrite H1, set_set_nth. destruct i as [|[|i]]; [reflexivity|reflexivity|lia]. }
    apply (projects_ext 2 (nth c s 0%nat) (slice (concat_axis r s dual d) r c l)); [intros i j Hi _; apply EX, Hi|exact HP].
  - intros j Hj. unfold slice. f_equal. assert (Z : nth r (set_nth c j l) 0%nat = 0%nat).
    { rewrite nth_set_other by congruence. pose proof (inb_nth s r l Hl Hr). lia. }
    rewrite <- Z. symmetry. apply set_nth_nth.
Qed.
