(** Properties of the masks, the shift generators and the ghost-imaging projectors (C84, C86, C87, C140-C144). *)
From Coq Require Import Reals Lra Lia List ZArith Bool Znumtheory Permutation.
From Verif Require Import Sums PyErr Arrays Rounding Reindex OperatorsLayoutProps StructIllumModel MuraProps.
Import ListNotations.
Open Scope R_scope.

(** ** C84: the MURA sizes *)
Lemma test_prime_spec l : (0 < l)%nat -> (test_prime (l * 4 + 1) = true <-> prime (Z.of_nat (l * 4 + 1))).
Proof.
  intros Hl. set (x := (l * 4 + 1)%nat). assert (Hx : (5 <= x)%nat) by (unfold x; lia).
  unfold test_prime. rewrite negb_true_iff. split.
  - intros H. apply prime_alt. split; [lia|]. intros n Hn [q E].
    assert (Hq : (1 < q)%Z) by nia.
    (* the larger factor is at least 3 below half: the number is odd *)
    assert (Odd : forall a, (a * 2 <> Z.of_nat x)%Z) by (intros a Ea; unfold x in Ea; lia).
    assert (X : forall d, (1 < d)%Z -> (2 * d < Z.of_nat x - 1)%Z -> (d | Z.of_nat x)%Z -> False).
    { intros d D1 D2 [c Ec]. assert (Y : existsb (fun d => Nat.eqb (x mod d) 0) (seq 2 (x / 2 - 2)) = true); [|rewrite Y in H; discriminate].
      apply existsb_exists. exists (Z.to_nat d). split.
      - apply in_seq. pose proof (Nat.div_mod_eq x 2) as DM. pose proof (Nat.mod_upper_bound x 2 ltac:(lia)). set (h := (x / 2)%nat) in *. lia.
      - apply Nat.eqb_eq. apply Nat2Z.inj. rewrite Nat2Z.inj_mod, Z2Nat.id by lia. rewrite Ec. apply Z.mod_mul. lia. }
    destruct (Z.eq_dec q 2) as [->|Nq]; [apply (Odd n); lia|].
    apply (X n); [lia|nia|exists q; exact E].
  - intros H. apply not_true_iff_false. intros Y. apply existsb_exists in Y as (d & Hd & Ed). apply in_seq in Hd. apply Nat.eqb_eq in Ed.
    apply prime_alt in H as [_ H]. apply (H (Z.of_nat d)).
    + assert (2 <= x / 2)%nat by (destruct (Nat.le_gt_cases 2 (x / 2)); lia). pose proof (Nat.div_lt x 2 ltac:(lia) ltac:(lia)). lia.
    + apply Z.mod_divide; [lia|]. rewrite <- Nat2Z.inj_mod, Ed. reflexivity.
Qed.
(** soundness and what is found: exactly the primes 4 l + 1 with 1 <= l and l + 1 <= (fov - 1) / 4 *)
Theorem C84_mura_sizes_sound_and_complete_below : forall fov L, compute_possible_mask_sizes fov = inr L ->
  forall x, In x L <-> prime (Z.of_nat x) /\ exists l, (1 <= l)%nat /\ (l + 1 <= (fov - 1) / 4)%nat /\ x = (4 * l + 1)%nat.
Proof.
  intros fov L H x. unfold compute_possible_mask_sizes in H.
  assert (E : L = filter test_prime (mask_size_candidates fov)) by (destruct (mask_size_candidates fov); [discriminate|injection H as <-; reflexivity]). subst L.
  rewrite filter_In. unfold mask_size_candidates. rewrite in_map_iff. set (q := ((fov - 1) / 4)%nat). split.
  - intros [(l & <- & Hl) P]. apply in_seq in Hl. apply test_prime_spec in P; [|lia]. split; [exact P|]. exists l. lia.
  - intros [P (l & H1 & H2 & ->)]. split; [exists l; split; [lia|apply in_seq; lia]|]. replace (4 * l + 1)%nat with (l * 4 + 1)%nat in * by lia. apply test_prime_spec; [lia|exact P].
Qed.
Theorem C84_mura_sizes_never_exceed_fov : forall fov L x, compute_possible_mask_sizes fov = inr L -> In x L -> prime (Z.of_nat x) /\ (x mod 4 = 1)%nat /\ (x <= fov)%nat.
Proof.
  intros fov L x H Hx. apply (C84_mura_sizes_sound_and_complete_below fov L H) in Hx as (P & l & H1 & H2 & ->). split; [exact P|]. split.
  - rewrite Nat.add_comm, Nat.mul_comm, Nat.mod_add by lia. reflexivity.
  - pose proof (Nat.mul_div_le (fov - 1) 4 ltac:(lia)). set (q := ((fov - 1) / 4)%nat) in *. lia.
Qed.
(** refuted: a field of view whose edge is itself a MURA size never sees that size *)
Theorem C84_mura_sizes_top_missed_refuted : forall l L, (2 <= l)%nat -> prime (Z.of_nat (4 * l + 1)) ->
  (exists L', compute_possible_mask_sizes (4 * l + 1) = inr L') /\ (compute_possible_mask_sizes (4 * l + 1) = inr L -> ~ In (4 * l + 1)%nat L).
Proof.
  intros l L Hl P. assert (Q : ((4 * l + 1 - 1) / 4 = l)%nat) by (replace (4 * l + 1 - 1)%nat with (l * 4)%nat by lia; apply Nat.div_mul; lia). split.
  - unfold compute_possible_mask_sizes, mask_size_candidates. rewrite Q. destruct l as [|[|l]]; [lia|lia|]. cbn. eauto.
  - intros H X. apply (C84_mura_sizes_sound_and_complete_below _ _ H) in X as (_ & k & K1 & K2 & E). rewrite Q in K2. lia.
Qed.
(** refuted: below 9 pixels there is no list at all: an IndexError, although 5 is a size *)
Theorem C84_mura_sizes_small_fov_raises_refuted : forall fov, (fov <= 8)%nat -> compute_possible_mask_sizes fov = inl IndexError.
Proof. intros fov H. do 9 (destruct fov as [|fov]; [reflexivity|]). lia. Qed.
Example mura_sizes_example : compute_possible_mask_sizes 30 = inr [5; 13; 17]%nat /\ compute_possible_mask_sizes 13 = inr [5]%nat.
Proof. split; reflexivity. Qed.

(** ** C87: the shifts *)
Lemma in_mesh a b v u : In (v, u) (mesh a b) <-> In v a /\ In u b.
Proof.
  unfold mesh. rewrite in_flat_map. split.
  - intros (w & Hw & H). apply in_map_iff in H as (z & E & Hz). injection E as <- <-. auto.
  - intros [Hv Hu]. exists v. split; [exact Hv|]. apply in_map_iff. eauto.
Qed.
Lemma NoDup_mesh a b : NoDup a -> NoDup b -> NoDup (mesh a b).
Proof.
  intros Na Nb. unfold mesh. apply NoDup_flat_map; [exact Na| |].
  - intros v _. apply NoDup_map_inj; [|exact Nb]. intros x y _ _ E. now injection E.
  - intros v w y _ _ H1 H2. apply in_map_iff in H1 as (? & <- & _). apply in_map_iff in H2 as (? & E & _). injection E; congruence.
Qed.
Lemma in_arange n s x : (0 < s)%nat -> (In x (arange_step n s) <-> (x < n)%nat /\ exists k, x = (k * s)%nat).
Proof.
  intros Hs. unfold arange_step. rewrite in_map_iff.
  pose proof (Nat.div_mod_eq (n + s - 1) s) as DM. pose proof (Nat.mod_upper_bound (n + s - 1) s ltac:(lia)) as MB. set (q := ((n + s - 1) / s)%nat) in *. split.
  - intros (k & <- & Hk). apply in_seq in Hk. split; [nia|eauto].
  - intros [Hx (k & ->)]. exists k. split; [reflexivity|]. apply in_seq. nia.
Qed.
Lemma NoDup_arange n s : (0 < s)%nat -> NoDup (arange_step n s).
Proof. intros Hs. unfold arange_step. apply NoDup_map_inj; [|apply seq_NoDup]. intros x y _ _ E. nia. Qed.
Theorem C87_interval_shifts_exact : forall nv nu iv iu, (0 < iv)%nat -> (0 < iu)%nat ->
  exists L, get_interval_shifts [nv; nu] iv iu = inr L /\ NoDup L /\
    forall v u, In (v, u) L <-> (v < nv)%nat /\ (u < nu)%nat /\ (exists k, v = (k * iv)%nat) /\ (exists k, u = (k * iu)%nat).
Proof.
  intros nv nu iv iu Hv Hu. unfold get_interval_shifts. cbn [rev app]. destruct (Nat.eqb_spec iv 0); [lia|]. destruct (Nat.eqb_spec iu 0); [lia|]. cbn [orb].
  eexists. split; [reflexivity|]. split; [apply NoDup_mesh; now apply NoDup_arange|]. intros v u. rewrite in_mesh, !in_arange by assumption. tauto.
Qed.
Theorem C87_sequential_shifts_all : forall nv nu, exists L, get_sequential_shifts [nv; nu] None = inr L /\ NoDup L /\ length L = (nv * nu)%nat /\
  (forall v u, In (v, u) L <-> (v < nv)%nat /\ (u < nu)%nat) /\
  forall num, get_sequential_shifts [nv; nu] (Some num) = inr (firstn num L).
Proof.
  intros nv nu. destruct (C87_interval_shifts_exact nv nu 1 1 ltac:(lia) ltac:(lia)) as (L & E & N & I). unfold get_sequential_shifts. rewrite E. exists L.
  split; [reflexivity|]. split; [exact N|]. split.
  - unfold get_interval_shifts in E. cbn [rev app Nat.eqb orb] in E. rewrite !arange_1 in E. injection E as <-. rewrite mesh_length, !seq_length. reflexivity.
  - split; [|intros num; reflexivity]. intros v u. rewrite I. split; [tauto|]. intros [A B]. repeat split; try assumption; [exists v|exists u]; lia.
Qed.
(** pick_all with indices in range *)
Lemma pick_all_ok {A} (l : list A) (d : A) is : (forall i, In i is -> (i < length l)%nat) -> pick_all l is = inr (map (fun i => nth i l d) is).
Proof.
  induction is as [|i is IH]; intros H; [reflexivity|]. cbn [pick_all map]. unfold pick. rewrite (nth_error_nth' l d) by (apply H; now left).
  rewrite IH by (intros; apply H; now right). reflexivity.
Qed.
Theorem C87_random_shifts_distinct_in_range : forall nv nu perm num, Permutation perm (seq 0 (nv * nu)) ->
  exists L, get_random_shifts [nv; nu] perm num = inr L /\ NoDup L /\ length L = Nat.min num (nv * nu) /\ forall v u, In (v, u) L -> (v < nv)%nat /\ (u < nu)%nat.
Proof.
  intros nv nu perm num HP. destruct (C87_sequential_shifts_all nv nu) as (L & E & N & Len & I & _).
  unfold get_random_shifts. unfold get_sequential_shifts in E. destruct (get_interval_shifts [nv; nu] 1 1) as [e|L0]; [discriminate|]. injection E as ->.
  assert (Sz : size [nv; nu] = (nv * nu)%nat) by (cbn; lia). rewrite Sz. set (k := Nat.min num (nv * nu)).
  assert (LP : length perm = (nv * nu)%nat) by (rewrite (Permutation_length HP); apply seq_length).
  assert (R : forall i, In i (firstn k perm) -> (i < length L)%nat).
  { intros i Hi. rewrite Len. assert (Hp : In i perm) by (rewrite <- (firstn_skipn k perm); apply in_or_app; now left). apply (Permutation_in _ HP), in_seq in Hp. lia. }
  rewrite (pick_all_ok L (0, 0)%nat _ R). eexists. split; [reflexivity|]. split; [|split].
  - apply NoDup_map_inj.
    + intros x y Hx Hy Exy. apply R in Hx. apply R in Hy. now apply (proj1 (NoDup_nth L (0, 0)%nat) N).
    + assert (NP : NoDup perm) by (apply (Permutation_NoDup (Permutation_sym HP)), seq_NoDup). rewrite <- (firstn_skipn k perm) in NP. clear -NP.
      induction (firstn k perm) as [|a r IH]; [constructor|]. cbn in NP. inversion NP; subst. constructor; [|now apply IH]. intros Ha. apply H1. apply in_or_app. now left.
  - rewrite map_length, firstn_length, LP. unfold k. lia.
  - intros v u H. apply in_map_iff in H as (i & Ei & Hi). apply I. rewrite <- Ei. apply nth_In. now apply R.
Qed.
Example random_shifts_example : get_random_shifts [2; 3]%nat [4; 0; 2; 5; 1; 3]%nat 2 = inr [(1, 1); (0, 0)]%nat. Proof. reflexivity. Qed.
(** refuted: a scalar field of view (as documented: fov_size_mm : float) gives a one-dimensional shape, and no shift can be generated *)
Theorem C87_scalar_fov_generates_nothing_refuted : forall n iv iu perm num numo ty npix frac,
  get_interval_shifts [n] iv iu = inl IndexError /\ get_random_shifts [n] perm num = inl IndexError /\ get_sequential_shifts [n] numo = inl IndexError /\
  exists e, collection_shifts ty npix [n] frac perm = inl e.
Proof. intros. repeat split; try reflexivity. destruct ty; eexists; reflexivity. Qed.
(** refuted: the interval shift type applies the fraction along both axes, so the fraction f = 1/n gives about f^2 of the buckets *)
Theorem C87_interval_fraction_squared_refuted : forall n m perm, (0 < n)%nat ->
  exists L, collection_shifts SInterval ((n * m) * (n * m)) [n * m; n * m]%nat (1 / INR n) perm = inr L /\ length L = (m * m)%nat /\
  exists L', collection_shifts SSequential ((n * m) * (n * m)) [n * m; n * m]%nat (1 / INR n) perm = inr L' /\ length L' = (n * (m * m))%nat.
Proof.
  intros n m perm Hn. assert (Pn : 0 < INR n) by (apply lt_0_INR; lia).
  assert (A : length (arange_step (n * m) n) = m).
  { unfold arange_step. rewrite map_length, seq_length. replace (n * m + n - 1)%nat with (n - 1 + m * n)%nat by lia. rewrite Nat.div_add by lia. rewrite Nat.div_small by lia. lia. }
  unfold collection_shifts. replace (1 / (1 / INR n)) with (IZR (Z.of_nat n)) by (rewrite <- INR_IZR_INZ; field; lra). rewrite rceil_IZR, Nat2Z.id.
  unfold get_interval_shifts. cbn [rev app]. destruct (Nat.eqb_spec n 0); [lia|]. cbn [orb]. eexists. split; [reflexivity|]. split; [rewrite mesh_length, A; reflexivity|].
  destruct (C87_sequential_shifts_all (n * m) (n * m)) as (L & _ & _ & Len & _ & F). rewrite F. eexists. split; [reflexivity|]. rewrite firstn_length, Len.
  replace (INR (n * m * (n * m)) * (1 / INR n)) with (IZR (Z.of_nat (n * (m * m)))) by (rewrite <- INR_IZR_INZ, !mult_INR; field; lra).
  rewrite rceil_IZR, Nat2Z.id. nia.
Qed.

(** ** C86: adjointness and QR *)
Theorem C86_gi_adjoint_iff_same_masks : forall m npix enc dec,
  (forall x b, dot m (gi_fp m npix enc x) b = dot npix x (gi_bp m npix dec b)) <-> (forall k i, (k < m)%nat -> (i < npix)%nat -> enc k i = dec k i).
Proof.
  intros m npix enc dec. split.
  - intros H k i Hk Hi. specialize (H (fun j => delta j i) (fun l => delta l k)). unfold dot, gi_fp, gi_bp in H.
    rewrite (rsum_ext m _ (fun l => delta l k * rsum npix (fun j => delta j i * enc l j))) in H by (intros; ring).
    rewrite (rsum_delta m k (fun l => rsum npix (fun j => delta j i * enc l j)) Hk), (rsum_delta npix i (fun j => enc k j) Hi) in H.
    rewrite (rsum_delta npix i (fun j => rsum m (fun l => delta l k * dec l j)) Hi), (rsum_delta m k (fun l => dec l i) Hk) in H. exact H.
  - intros H x b. unfold dot, gi_fp, gi_bp.
    rewrite (rsum_ext m _ (fun k => rsum npix (fun i => x i * enc k i * b k))) by (intros; now rewrite <- rsum_scal_r).
    rewrite rsum_swap. apply rsum_ext. intros i Hi. rewrite <- rsum_scal. apply rsum_ext. intros k Hk. rewrite (H k i Hk Hi). ring.
Qed.
(** the QR masks and buckets describe the same images, and the new masks are orthonormal *)
Theorem C86_qr_same_solutions : forall m npix M Q Rm Inv, (m <= npix)%nat -> qr_contract m npix M Q Rm -> inverse_of m (fun a l => Rm l a) Inv ->
  (forall x b, (forall k, (k < m)%nat -> gi_fp m npix M x k = b k) <-> (forall k, (k < m)%nat -> gi_fp m npix (qr_masks Q) x k = qr_buckets m Inv b k)) /\
  (forall k l, (k < m)%nat -> (l < m)%nat -> dot npix (qr_masks Q k) (qr_masks Q l) = if Nat.eqb k l then 1 else 0).
Proof.
  intros m npix M Q Rm Inv Hm [QR OQ] [I1 I2]. rewrite Nat.min_l in * by exact Hm. cbv beta in I1, I2.
  assert (FP : forall x k, (k < m)%nat -> gi_fp m npix M x k = rsum m (fun l => Rm l k * gi_fp m npix (qr_masks Q) x l)).
  { intros x k Hk. unfold gi_fp, qr_masks. rewrite (rsum_ext npix _ (fun i => rsum m (fun l => Rm l k * (x i * Q i l)))).
    - rewrite rsum_swap. apply rsum_ext. intros l _. apply rsum_scal.
    - intros i Hi. rewrite <- (QR i k Hi Hk), <- rsum_scal. apply rsum_ext. intros l _. ring. }
  assert (BK : forall (A B : mat) c k, (k < m)%nat -> (forall a b, (a < m)%nat -> (b < m)%nat -> rsum m (fun l => A a l * B l b) = if Nat.eqb a b then 1 else 0) ->
      rsum m (fun l => A k l * rsum m (fun j => B l j * c j)) = c k).
  { intros A B c k Hk H. rewrite (rsum_ext m _ (fun l => rsum m (fun j => A k l * B l j * c j))) by (intros; rewrite <- rsum_scal; apply rsum_ext; intros; ring).
    rewrite rsum_swap. rewrite (rsum_ext m _ (fun j => delta j k * c j)); [now apply rsum_delta|].
    intros j Hj. rewrite rsum_scal_r, (H k j Hk Hj). unfold delta. rewrite Nat.eqb_sym. destruct (Nat.eqb j k); ring. }
  split.
  - intros x b. split; intros H k Hk.
    + unfold qr_buckets. rewrite (rsum_ext m _ (fun l => Inv k l * rsum m (fun j => Rm j l * gi_fp m npix (qr_masks Q) x j))) by (intros l Hl; rewrite <- (H l Hl), (FP x l Hl); reflexivity).
      symmetry. exact (BK Inv (fun a l => Rm l a) (gi_fp m npix (qr_masks Q) x) k Hk I2).
    + rewrite (FP x k Hk). rewrite (rsum_ext m _ (fun l => Rm l k * rsum m (fun j => Inv l j * b j))) by (intros l Hl; rewrite (H l Hl); reflexivity).
      exact (BK (fun a l => Rm l a) Inv b k Hk I1).
  - intros k l Hk Hl. unfold dot, qr_masks. now apply OQ.
Qed.
(** a case that meets the hypotheses: two masks of two pixels *)
Example qr_example : qr_contract 2 2 (fun k i => if Nat.eqb k 0 then (if Nat.eqb i 0 then 3 else 4) else (if Nat.eqb i 0 then 2 else 1))
   (fun i k => if Nat.eqb i 0 then (if Nat.eqb k 0 then 3 / 5 else 4 / 5) else (if Nat.eqb k 0 then 4 / 5 else - 3 / 5))
   (fun l k => if Nat.eqb l 0 then (if Nat.eqb k 0 then 5 else 2) else (if Nat.eqb k 0 then 0 else 1)) /\
  inverse_of 2 (fun a l => (fun l k => if Nat.eqb l 0 then (if Nat.eqb k 0 then 5 else 2) else (if Nat.eqb k 0 then 0 else 1)) l a)
   (fun a l => if Nat.eqb a 0 then (if Nat.eqb l 0 then / 5 else 0) else (if Nat.eqb l 0 then - 2 / 5 else 1)).
Proof.
  split; split; intros a b Ha Hb; destruct a as [|[|]]; try lia; destruct b as [|[|]]; try lia; cbn; lra.
Qed.
Theorem C86_qr_refused_when_masks_differ : forall m npix, get_qr_check true m npix = inl ValueError. Proof. reflexivity. Qed.
(** with more masks than pixels R is not square and cannot be inverted: the call raises (refutes "for all masks") *)
Theorem C86_qr_more_masks_than_pixels_raises_refuted : forall m npix, (npix < m)%nat -> get_qr_check false m npix = inl ValueError.
Proof. intros m npix H. unfold get_qr_check. apply Nat.ltb_lt in H. now rewrite H. Qed.
(** reordering before the QR: consistent for one list of buckets... *)
Theorem C86_reorder_consistent_single : forall m npix shift M x k, (k < m)%nat -> 
  gi_fp m npix (fun k => M (reorder_mask_index m shift k)) x k = reorder_buckets 1 m shift (fun _ => gi_fp m npix M x) 0%nat k.
Proof.
  intros m npix shift M x k Hk. unfold reorder_buckets, reorder_mask_index, gi_fp. rewrite Nat.mul_1_l, Nat.mul_0_l, Nat.add_0_l.
  pose proof (Z.mod_pos_bound (Z.of_nat k + shift) (Z.of_nat m) ltac:(lia)). rewrite Nat.mod_small by lia. reflexivity.
Qed.
(** ... and wrong for a stack: the buckets of one projection get mixed with those of the next *)
Theorem C86_reorder_stack_mixes_rows_refuted : exists (m n npix : nat) (shift : Z) (M : mat) (imgs : nat -> vec) (a k : nat),
  (a < n)%nat /\ (k < m)%nat /\
  gi_fp m npix (fun k => M (reorder_mask_index m shift k)) (imgs a) k <> reorder_buckets n m shift (fun a => gi_fp m npix M (imgs a)) a k.
Proof.
  exists 2%nat, 2%nat, 1%nat, 1%Z, (fun _ _ => 1), (fun a _ => INR a), 0%nat, 1%nat. split; [lia|]. split; [lia|].
  unfold reorder_buckets, reorder_mask_index, gi_fp. change (Z.to_nat ((Z.of_nat (0 * 2 + 1) + 1) mod Z.of_nat (2 * 2))) with 2%nat.
  change (2 / 2)%nat with 1%nat. change (2 mod 2)%nat with 0%nat. cbn [rsum INR]. lra.
Qed.
Theorem C86_reorder_1d_masks_unmoved_refuted : exists (m npix : nat) (shift : Z) (M : mat) (x : vec) (k : nat), (k < m)%nat /\
  gi_fp m npix (fun k => M (reorder_mask_index_dim 1 m shift k)) x k <> reorder_buckets 1 m shift (fun _ => gi_fp m npix M x) 0%nat k.
Proof.
  exists 2%nat, 1%nat, 1%Z, (fun k _ => INR k), (fun _ => 1), 0%nat. split; [lia|].
  unfold reorder_buckets, reorder_mask_index_dim, gi_fp. change (Z.to_nat ((Z.of_nat (0 * 2 + 0) + 1) mod Z.of_nat (1 * 2))) with 1%nat.
  change (1 / 2)%nat with 0%nat. change (1 mod 2)%nat with 1%nat. cbn [rsum INR Nat.eqb]. lra.
Qed.

(** ** C140: transmission *)
Theorem C140_transmission_range : forall t x, 0 <= t <= 1 -> 0 <= x <= 1 -> 1 - t <= apply_transmission t x <= 1 /\ apply_transmission t 1 = 1 /\ apply_transmission t 0 = 1 - t /\ apply_transmission 1 x = x.
Proof. intros t x Ht Hx. unfold apply_transmission. repeat split; try ring; nra. Qed.
Theorem C140_transmission_contrast : forall t x y, apply_transmission t x - apply_transmission t y = t * (x - y).
Proof. intros. unfold apply_transmission. ring. Qed.
(** refuted: "transmittance: the maximum transmittance of the structuring elements": the maximum stays 1 for every value, it is the minimum that moves *)
Theorem C140_maximum_transmittance_is_one_refuted : forall t, 0 <= t < 1 -> exists v u i j, point_mask t v u i j = 1 /\ 1 > t /\ (forall v u i j, point_mask t v u i j >= 1 - t).
Proof.
  intros t Ht. exists 0%nat, 0%nat, 0%nat, 0%nat. split; [unfold point_mask, apply_transmission; cbn; ring|]. split; [lra|].
  intros. unfold point_mask, apply_transmission. destruct (_ && _)%bool; lra.
Qed.

(** ** C141: what a mask collection accepts *)
Theorem C141_mask_collection_accepts_iff : forall d enc dec, (0 < d)%nat ->
  (mask_collection_check d enc (Some dec) = inr tt <-> enc = dec /\ (d + 1 <= length enc)%nat) /\
  (mask_collection_check d enc None = inr tt <-> (d + 1 <= length enc)%nat) /\
  (forall o e, mask_collection_check d enc o = inl e -> e = ValueError).
Proof.
  intros d enc dec Hd. unfold mask_collection_check. split; [|split].
  - destruct (Nat.ltb_spec (length enc) (d + 1)) as [H1|H1]; [split; [discriminate|lia]|].
    destruct (Nat.ltb_spec (length dec) (d + 1)) as [H2|H2]; [split; [discriminate|intros [-> ?]; lia]|].
    unfold nl_eqb. destruct (list_eq_dec Nat.eq_dec (shape_lead d enc) (shape_lead d dec)) as [E1|N1]; cbn [negb]; [|split; [discriminate|intros [-> _]; contradiction]].
    destruct (list_eq_dec Nat.eq_dec (shape_tail d enc) (shape_tail d dec)) as [E2|N2]; cbn [negb]; [|split; [discriminate|intros [-> _]; contradiction]].
    split; [|reflexivity]. intros _. split; [|exact H1]. unfold shape_lead, shape_tail in *. rewrite <- (firstn_skipn (length enc - d) enc), <- (firstn_skipn (length dec - d) dec). now rewrite E1, E2.
  - destruct (Nat.ltb_spec (length enc) (d + 1)) as [H1|H1]; split; try discriminate; try lia; reflexivity.
  - intros o e. destruct (Nat.ltb (length enc) (d + 1)); [now intros [= <-]|]. destruct o as [s|]; [|discriminate].
    destruct (Nat.ltb (length s) (d + 1)); [now intros [= <-]|]. destruct (nl_eqb (shape_lead d enc) (shape_lead d s)); cbn [negb]; [|now intros [= <-]].
    destruct (nl_eqb (shape_tail d enc) (shape_tail d s)); cbn [negb]; [discriminate|now intros [= <-]].
Qed.
Lemma size_app a b : size (a ++ b) = (size a * size b)%nat.
Proof. induction a as [|x a IH]; [symmetry; apply Nat.mul_1_l|]. change (size ((x :: a) ++ b)) with (x * size (a ++ b))%nat. change (size (x :: a)) with (x * size a)%nat. rewrite IH. lia. Qed.
Theorem C141_buckets_times_pixels : forall d enc, (num_buckets d enc * num_pixels d enc)%nat = size enc.
Proof. intros d enc. unfold num_buckets, num_pixels, shape_lead, shape_tail. rewrite <- size_app, firstn_skipn. reflexivity. Qed.
Example mask_collection_example : mask_collection_check 2 [25; 5; 5]%nat (Some [25; 5; 5]%nat) = inr tt /\ mask_collection_check 2 [25; 5; 5]%nat (Some [5; 5; 5; 5]%nat) = inl ValueError.
Proof. split; reflexivity. Qed.

(** ** C142: pencil-beam masks measure the image itself *)
Definition point_stack (nu : nat) (t : R) (L : list (nat * nat)) : mat := fun k i =>
  let s := nth k L (0, 0)%nat in point_mask t (fst s) (snd s) (i / nu)%nat (i mod nu)%nat.
Theorem C142_pencil_beam_collection : forall nv nu t L x k, get_sequential_shifts [nv; nu] None = inr L -> (k < nv * nu)%nat ->
  gi_fp (nv * nu) (nv * nu) (point_stack nu t L) x k = (1 - t) * rsum (nv * nu) x + t * x k /\
  gi_bp (nv * nu) (nv * nu) (point_stack nu t L) x k = (1 - t) * rsum (nv * nu) x + t * x k.
Proof.
  intros nv nu t L x k HL Hk. unfold get_sequential_shifts, get_interval_shifts in HL. cbn [rev app Nat.eqb orb] in HL. rewrite !arange_1 in HL. injection HL as <-.
  assert (E : forall a i, (a < nv * nu)%nat -> (i < nv * nu)%nat -> point_stack nu t (mesh (seq 0 nv) (seq 0 nu)) a i = 1 - t + t * delta i a).
  { intros a i Ha Hi. unfold point_stack. rewrite mesh_nth by exact Ha. cbn [fst snd]. unfold point_mask, apply_transmission, delta.
    destruct (Nat.eqb_spec i a) as [->|N]; [rewrite !Nat.eqb_refl; cbn [andb]; ring|].
    destruct (Nat.eqb_spec (i / nu) (a / nu)) as [E1|]; cbn [andb]; [|ring]. destruct (Nat.eqb_spec (i mod nu) (a mod nu)) as [E2|]; [|ring].
    exfalso. apply N. rewrite (Nat.div_mod_eq i nu), (Nat.div_mod_eq a nu), E1, E2. reflexivity. }
  unfold gi_fp, gi_bp. split.
  - rewrite (rsum_ext _ _ (fun i => (1 - t) * x i + t * (delta i k * x i))) by (intros i Hi; rewrite (E k i Hk Hi); ring).
    rewrite rsum_plus, !rsum_scal, (rsum_delta (nv * nu) k x Hk). reflexivity.
  - rewrite (rsum_ext _ _ (fun i => (1 - t) * x i + t * (delta i k * x i))).
    + rewrite rsum_plus, !rsum_scal, (rsum_delta (nv * nu) k x Hk). reflexivity.
    + intros i Hi. rewrite (E i k Hi Hk). unfold delta. rewrite Nat.eqb_sym. ring.
Qed.
Example pencil_beam_example : exists L, get_sequential_shifts [2; 3]%nat None = inr L /\ length L = 6%nat. Proof. eexists. split; reflexivity. Qed.

(** ** C143: the least-squares switch of fbp *)
Theorem C143_fbp_lstsq_false_ignored_refuted : fbp_choice false false = ByLeastSquares /\ fbp_choice true false = ByBackProjection /\ forall differ, fbp_choice differ true = ByLeastSquares.
Proof. repeat split. destruct differ; reflexivity. Qed.

(** ** C144: ghost tomography *)
(** adjoint when both operators are *)
Theorem C144_gt_adjoint : forall nw m npix nvox enc tfp tbp,
  (forall x y, rsum nw (fun w => dot npix (tfp x w) (y w)) = dot nvox x (tbp y)) ->
  forall x b, rsum nw (fun w => dot m (gt_fp m npix enc tfp x w) (b w)) = dot nvox x (gt_bp m npix enc tbp b).
Proof.
  intros nw m npix nvox enc tfp tbp A x b. unfold gt_fp, gt_bp. rewrite <- A. apply rsum_ext. intros w _.
  apply (proj2 (C86_gi_adjoint_iff_same_masks m npix enc enc)). reflexivity.
Qed.
Theorem C144_gt_mismatch_raises_wrong_error_refuted : forall d enc dir e, gt_init d enc dir = inl e -> e = AttributeError.
Proof. intros d enc dir e. unfold gt_init. destruct (_ || _)%bool; [|discriminate]. now intros [= <-]. Qed.
(** the check compares the masks with the volume instead of the detector: for a volume (z, y, x) = (5, 9, 9) seen by a (5, 7) detector
    (v = z, u = 7 pixels) the fitting masks (m, 5, 7) are refused and the masks (m, 5, 9), which fit nothing, are accepted *)
Theorem C144_gt_checks_volume_not_detector_refuted : forall m, gt_init 2 [m; 5; 7]%nat [5; 9; 9]%nat = inl AttributeError /\ gt_init 2 [m; 5; 9]%nat [5; 9; 9]%nat = inr tt.
Proof. intros m. split; reflexivity. Qed.
(** the shapes declared to the operator interface are right for two-dimensional masks in one stack and for nothing else *)
Theorem C144_gi_declared_shapes_2d : forall m v u, gi_vol_shape [m; v; u] = [v; u] /\ gi_prj_shape 2 [m; v; u] = [m].
Proof. intros. split; cbn; [reflexivity|]. unfold gi_prj_shape, num_buckets, shape_lead. cbn. f_equal. lia. Qed.
Theorem C144_gi_declared_shape_1d_refuted : forall m n, gi_vol_shape [m; n] = [m; n] /\ shape_tail 1 [m; n] = [n]. Proof. split; reflexivity. Qed.
Theorem C144_gt_fbp_needs_python_312_refuted : forall (A : Type) (result : A), gt_fbp 10 result = inl TypeError /\ gt_fbp 11 result = inl TypeError /\ gt_fbp 12 result = inr result.
Proof. repeat split. Qed.
(** the projector returned by [absolute] holds the absolute values of both sets of masks: its measurements of a non-negative object are
    non-negative, bound those of the original masks, and equal them exactly when the masks were non-negative *)
Theorem C144_gi_absolute : forall m npix enc dec x b,
  let enc' := fst (gi_absolute enc dec) in let dec' := snd (gi_absolute enc dec) in
  (forall k i, enc' k i = Rabs (enc k i) /\ dec' k i = Rabs (dec k i)) /\
  ((forall i, (i < npix)%nat -> 0 <= x i) -> forall k, Rabs (gi_fp m npix enc x k) <= gi_fp m npix enc' x k) /\
  ((forall k, (k < m)%nat -> 0 <= b k) -> forall i, Rabs (gi_bp m npix dec b i) <= gi_bp m npix dec' b i).
Proof.
  intros m npix enc dec x b enc' dec'. split; [split; reflexivity|]. split.
  - intros Hx k. unfold gi_fp, enc', gi_absolute. cbn [fst]. eapply Rle_trans; [apply rsum_abs|]. apply rsum_le. intros i Hi.
    rewrite Rabs_mult. pose proof (Rabs_pos_eq _ (Hx i Hi)). nra.
  - intros Hb i. unfold gi_bp, dec', gi_absolute. cbn [snd]. eapply Rle_trans; [apply rsum_abs|]. apply rsum_le. intros k Hk.
    rewrite Rabs_mult. pose proof (Rabs_pos_eq _ (Hb k Hk)). nra.
Qed.
