(** C61, C113-C115: filter bases and the data-driven filter of filters.py *)
From Verif Require Import Sums Rounding Arrays OperatorsModel PyErr Fourier FiltersModel FiltersProps.
From Coq Require Import Lra Lia.
Import ListNotations.

(** * C61: windows *)
Definition wend (p : nat * nat) : nat := (fst p + snd p)%nat.
Definition win (l : list (nat * nat)) (i : nat) : nat * nat := nth i l (0%nat, 0%nat).
(** a list of windows that starts at p and has no gaps *)
Fixpoint chain (p : nat) (l : list (nat * nat)) : Prop :=
  match l with [] => True | q :: l' => fst q = p /\ (1 <= snd q)%nat /\ chain (wend q) l' end.
Fixpoint chain_end (p : nat) (l : list (nat * nat)) : nat := match l with [] => p | q :: l' => chain_end (wend q) l' end.
Lemma next_size_pos b s p z : (1 <= z)%nat -> (1 <= next_size b s p z)%nat.
Proof. intros H. unfold next_size. destruct s as [s|]; [|exact H]. destruct (Nat.ltb s p); [|exact H]. destruct b; lia. Qed.
Lemma windows_chain b s maxp fuel : forall p z, (1 <= z)%nat -> chain p (windows b s maxp p z fuel) /\
  Forall (fun q => (fst q < maxp)%nat) (windows b s maxp p z fuel) /\
  ((maxp < p + fuel)%nat -> (maxp <= chain_end p (windows b s maxp p z fuel))%nat).
Proof.
  induction fuel as [|fuel IH]; intros p z Hz; simpl; [split; [exact Logic.I|split; [constructor|lia]]|].
  destruct (Nat.ltb_spec p maxp) as [L|L]; [|simpl; split; [exact Logic.I|split; [constructor|lia]]].
  destruct (IH (p + z)%nat (next_size b s (p + z) z) (next_size_pos b s (p + z) z Hz)) as (I1 & I2 & I3).
  split; [simpl; auto|]. split; [constructor; assumption|]. intros H. simpl. unfold wend; simpl. apply I3. lia.
Qed.
Lemma basis_chain b s N : let l := basis_windows b s N in
  chain 0 l /\ Forall (fun q => (fst q < max_position N)%nat) l /\ (max_position N <= chain_end 0 l)%nat.
Proof. unfold basis_windows. destruct (windows_chain b s (max_position N) (S (max_position N)) 0 1 ltac:(lia)) as (A & B & D). split; [exact A|split; [exact B|apply D; lia]]. Qed.
Lemma chain_nth l : forall p, chain p l -> forall i, (i < length l)%nat ->
  (1 <= snd (win l i))%nat /\ fst (win l i) = match i with O => p | S j => wend (win l j) end.
Proof.
  induction l as [|q l IH]; intros p C i Hi; [simpl in Hi; lia|]. destruct C as (C1 & C2 & C3). destruct i as [|i]; [auto|].
  simpl in Hi. destruct (IH (wend q) C3 i ltac:(lia)) as [A B]. split; [exact A|]. change (win (q :: l) (S i)) with (win l i). rewrite B.
  destruct i as [|i]; reflexivity.
Qed.
Lemma chain_lt l : forall p, chain p l -> forall i j, (i < j < length l)%nat -> (wend (win l i) <= fst (win l j))%nat.
Proof.
  intros p C i j [Hij Hj]. induction j as [|j IH]; [lia|]. destruct (chain_nth l p C (S j) Hj) as [A B]. rewrite B.
  destruct (Nat.eq_dec i j) as [->|Hne]; [lia|]. destruct (chain_nth l p C j ltac:(lia)) as [A' _]. specialize (IH ltac:(lia) ltac:(lia)). unfold wend at 2. lia.
Qed.
Lemma chain_cover l : forall p, chain p l -> forall x, (p <= x < chain_end p l)%nat -> exists i, (i < length l)%nat /\ (fst (win l i) <= x < wend (win l i))%nat.
Proof.
  induction l as [|q l IH]; intros p C x Hx; [simpl in Hx; lia|]. destruct C as (C1 & C2 & C3). destruct (lt_dec x (wend q)) as [L|L].
  - exists 0%nat. simpl. unfold win; simpl. lia.
  - destruct (IH (wend q) C3 x ltac:(simpl in Hx; lia)) as (i & Hi & Hw). exists (S i). split; [simpl; lia|exact Hw].
Qed.
Lemma chain_inside l : forall p, chain p l -> forall i, (i < length l)%nat -> (wend (win l i) <= chain_end p l)%nat.
Proof.
  induction l as [|q l IH]; intros p C i Hi; [simpl in Hi; lia|]. destruct C as (C1 & C2 & C3).
  assert (M : forall l p, chain p l -> (p <= chain_end p l)%nat). { clear. induction l as [|q l IH]; intros p C; [simpl; lia|]. destruct C as (C1 & C2 & C3). simpl. specialize (IH _ C3). unfold wend in *. lia. }
  destruct i as [|i]; [simpl; apply M; exact C3|]. simpl in Hi. apply (IH _ C3). lia.
Qed.
(** position p is in window i *)
Definition in_window (l : list (nat * nat)) (i p : nat) : Prop := (i < length l /\ fst (win l i) <= p < fst (win l i) + snd (win l i))%nat.
Theorem C61_contiguous b s N : let l := basis_windows b s N in
  (forall i, (i < length l)%nat -> 1 <= snd (win l i) /\ fst (win l i) < N / 2)%nat /\
  (0 < length l -> fst (win l 0) = 0)%nat /\ (forall i, (S i < length l)%nat -> fst (win l (S i)) = fst (win l i) + snd (win l i))%nat.
Proof.
  cbv zeta. destruct (basis_chain b s N) as (C & F & _). split; [|split].
  - intros i Hi. split; [apply (chain_nth _ 0 C i Hi)|]. rewrite Forall_forall in F. apply (F (win (basis_windows b s N) i)). apply nth_In. exact Hi.
  - intros Hi. apply (chain_nth _ 0 C 0%nat Hi).
  - intros i Hi. apply (chain_nth _ 0 C (S i) Hi).
Qed.
(** generation terminates: more steps of the loop produce nothing new *)
Lemma windows_fuel b s extra maxp fuel : forall p z, (1 <= z)%nat -> (maxp < p + fuel)%nat -> windows b s maxp p z (fuel + extra) = windows b s maxp p z fuel.
Proof.
  induction fuel as [|fuel IH]; intros p z Hz H.
  - simpl. destruct extra; simpl; [reflexivity|]. destruct (Nat.ltb_spec p maxp); [lia|reflexivity].
  - simpl. destruct (Nat.ltb_spec p maxp); [|reflexivity]. f_equal. apply IH; [apply next_size_pos; exact Hz|lia].
Qed.
Theorem C61_terminates b s N extra : windows b s (max_position N) 0 1 (S (max_position N) + extra) = basis_windows b s N.
Proof. apply windows_fuel; lia. Qed.
(** every position below the largest one is in exactly one window *)
Theorem C61_partition_below b s N p : (p < N / 2)%nat -> exists! i, in_window (basis_windows b s N) i p.
Proof.
  intros Hp. destruct (basis_chain b s N) as (C & _ & E). unfold max_position in E. destruct (chain_cover _ 0 C p ltac:(lia)) as (i & Hi & Hw).
  exists i. split; [split; [exact Hi|exact Hw]|]. intros j [Hj Hw']. destruct (Nat.lt_trichotomy i j) as [L|[L|L]]; [|exact L|]; exfalso.
  - pose proof (chain_lt _ 0 C i j ltac:(lia)). unfold wend in *. lia.
  - pose proof (chain_lt _ 0 C j i ltac:(lia)). unfold wend in *. lia.
Qed.
Theorem C61_disjoint b s N i j p : in_window (basis_windows b s N) i p -> in_window (basis_windows b s N) j p -> i = j.
Proof.
  intros [Hi Hw] [Hj Hw']. destruct (basis_chain b s N) as (C & _ & _). destruct (Nat.lt_trichotomy i j) as [L|[L|L]]; [|exact L|]; exfalso.
  - pose proof (chain_lt _ 0 C i j ltac:(lia)). unfold wend in *. lia.
  - pose proof (chain_lt _ 0 C j i ltac:(lia)). unfold wend in *. lia.
Qed.
(** the order-0 functions (not normalised) of the covered positions sum to one *)
Lemma lsum_nth {A} (l : list A) (f : A -> R) d : lsum l f = rsum (length l) (fun i => f (nth i l d)).
Proof. induction l as [|a l IH]; [reflexivity|]. cbn [length]. rewrite rsum_S_l. change (lsum (a :: l) f) with (f a + lsum l f). rewrite IH. reflexivity. Qed.
Theorem C61_partition_of_unity b s N k : (k < N)%nat -> (filter_position N k < N / 2)%nat ->
  lsum (create_basis0 b s false N) (fun v => v k) = 1.
Proof.
  intros Hk Hp. destruct (C61_partition_below b s N _ Hp) as (i & [Hi Hw] & U). unfold create_basis0.
  rewrite (lsum_nth _ _ (basis0 false N (0%nat, 0%nat))), map_length.
  rewrite (rsum_single _ _ i Hi).
  - rewrite (map_nth (basis0 false N)). unfold basis0. cbv zeta. fold (win (basis_windows b s N) i). destruct (Nat.leb_spec (fst (win (basis_windows b s N) i)) (filter_position N k)); [|lia].
    destruct (Nat.ltb_spec (filter_position N k) (fst (win (basis_windows b s N) i) + snd (win (basis_windows b s N) i))); [reflexivity|lia].
  - intros j Hj Hne. rewrite (map_nth (basis0 false N)). unfold basis0. cbv zeta. fold (win (basis_windows b s N) j).
    destruct (Nat.leb_spec (fst (win (basis_windows b s N) j)) (filter_position N k)); [|reflexivity].
    destruct (Nat.ltb_spec (filter_position N k) (fst (win (basis_windows b s N) j) + snd (win (basis_windows b s N) j))); [|reflexivity].
    exfalso. apply Hne. symmetry. apply U. split; [exact Hj|lia].
Qed.
(** the largest position (the Nyquist frequency for even N) need not be covered *)
Definition windows_cover : Prop := forall b s N p, (2 <= N)%nat -> (p <= N / 2)%nat -> exists i, in_window (basis_windows b s N) i p.
Theorem C61_cover_refuted : ~ windows_cover.
Proof.
  intros H. destruct (H Exponential (Some 2%nat) 4%nat 2%nat ltac:(lia) ltac:(simpl; lia)) as (i & Hi & Hw). vm_compute in Hi.
  destruct i as [|[|i]]; [vm_compute in Hw; lia|vm_compute in Hw; lia|lia].
Qed.
(** without growth it never is *)
Theorem C61_no_growth_never_covers b N i : ~ in_window (basis_windows b None N) i (N / 2).
Proof.
  intros [Hi Hw]. assert (S1 : forall maxp fuel p, Forall (fun q => snd q = 1%nat) (windows b None maxp p 1 fuel)).
  { intros maxp fuel. induction fuel as [|fuel IH]; intros p; simpl; [constructor|]. destruct (Nat.ltb p maxp); [|constructor]. constructor; [reflexivity|apply IH]. }
  specialize (S1 (max_position N) (S (max_position N)) 0%nat). rewrite Forall_forall in S1.
  assert (E : snd (win (basis_windows b None N) i) = 1%nat) by (apply S1; apply nth_In; exact Hi).
  destruct (C61_contiguous b None N) as (A & _ & _). specialize (A i Hi). lia.
Qed.
(** with the default growth (exponential from 2) and the padded sizes actually used it always is *)
Lemma windows_exp j m fuel : (1 <= j <= m)%nat -> (m - j < fuel)%nat ->
  chain_end (2 ^ j + 1) (windows Exponential (Some 2%nat) (2 ^ m) (2 ^ j + 1) (2 ^ j) fuel) = (2 ^ m + 1)%nat.
Proof.
  revert j. induction fuel as [|fuel IH]; intros j Hj Hf; [lia|]. simpl windows.
  destruct (Nat.ltb_spec (2 ^ j + 1) (2 ^ m)) as [L|L].
  - assert (j < m)%nat. { destruct (Nat.eq_dec j m); [subst; lia|lia]. }
    simpl chain_end. unfold wend; simpl fst; simpl snd.
    replace (2 ^ j + 1 + 2 ^ j)%nat with (2 ^ S j + 1)%nat by (simpl; lia).
    assert (2 <= 2 ^ S j)%nat by (simpl; pose proof (Nat.pow_nonzero 2 j ltac:(lia)); lia).
    unfold next_size. destruct (Nat.ltb_spec 2 (2 ^ S j + 1)); [|lia]. change (2 * 2 ^ j)%nat with (2 ^ S j)%nat. apply IH; lia.
  - simpl. destruct (Nat.eq_dec j m) as [->|Hne]; [reflexivity|exfalso].
    assert (2 ^ S j <= 2 ^ m)%nat by (apply Nat.pow_le_mono_r; lia). simpl in H.
    assert (2 <= 2 ^ j)%nat by (destruct j as [|j]; [lia|]; simpl; pose proof (Nat.pow_nonzero 2 j ltac:(lia)); lia). lia.
Qed.
Theorem C61_default_covers n p : (p <= get_padding_size n / 2)%nat ->
  exists! i, in_window (basis_windows Exponential (Some 2%nat) (get_padding_size n)) i p.
Proof.
  intros Hp. set (N := get_padding_size n) in *. destruct (basis_chain Exponential (Some 2%nat) N) as (C & _ & _).
  assert (E : (N / 2 < chain_end 0 (basis_windows Exponential (Some 2%nat) N))%nat).
  { destruct (C59_power_of_two n) as [k Hk]. fold N in Hk. pose proof (C59_large_enough n) as [L _]. fold N in L.
    destruct k as [|m]; [simpl in Hk; lia|]. assert (HN : (N / 2 = 2 ^ m)%nat) by (rewrite Hk; simpl Nat.pow; rewrite Nat.add_0_r; replace (2 ^ m + 2 ^ m)%nat with (2 * 2 ^ m)%nat by lia; apply half_double).
    assert (Hm : (5 <= m)%nat). { destruct (le_lt_dec 5 m); [assumption|]. assert (2 ^ m <= 2 ^ 4)%nat by (apply Nat.pow_le_mono_r; lia). rewrite Hk in L. simpl in *. lia. }
    assert (H32 : (32 <= 2 ^ m)%nat) by (change 32%nat with (2 ^ 5)%nat; apply Nat.pow_le_mono_r; lia).
    assert (Hgt : (m + 3 <= 2 ^ m)%nat). { destruct m as [|m']; [lia|]. assert (m' < 2 ^ m')%nat by (apply Nat.pow_gt_lin_r; lia). simpl in *. lia. }
    unfold basis_windows, max_position. rewrite HN. remember (2 ^ m)%nat as M. 
    destruct M as [|[|[|[|M]]]]; try lia.
    change (S (S (S (S (S M))))) with (3 + (S (S M)))%nat.
    cbn [Nat.add windows]. change (Nat.ltb 0 (S (S (S (S M))))) with true. change (Nat.ltb 1 (S (S (S (S M))))) with true. change (Nat.ltb 2 (S (S (S (S M))))) with true. cbv iota.
    cbn [chain_end wend fst snd Nat.add]. 
    change (next_size Exponential (Some 2%nat) (0 + 1) 1) with 1%nat. change (next_size Exponential (Some 2%nat) (1 + 1) 1) with 1%nat. change (next_size Exponential (Some 2%nat) (2 + 1) 1) with 2%nat.
    pose proof (windows_exp 1 m (S (S M)) ltac:(lia) ltac:(lia)) as W. change (2 ^ 1 + 1)%nat with 3%nat in W. change (2 ^ 1)%nat with 2%nat in W. rewrite <- HeqM in W.
    unfold wend. cbn [fst snd Nat.add]. 
    eapply Nat.lt_le_trans; [|apply Nat.eq_le_incl; symmetry; exact W]. lia. }
  destruct (chain_cover _ 0 C p ltac:(lia)) as (i & Hi & Hw). exists i. split; [split; [exact Hi|exact Hw]|]. intros j Hj. eapply C61_disjoint; [|exact Hj]. split; [exact Hi|exact Hw].
Qed.
Example C61_windows_64 : basis_windows Exponential (Some 2%nat) 64 = [(0, 1); (1, 1); (2, 1); (3, 2); (5, 4); (9, 8); (17, 16)]%nat.
Proof. reflexivity. Qed.

(** * C113: the order-1 basis is orthogonal, non-zero, and spans the triangular functions *)
Lemma dot_remove N z u v : dot N z (gs_remove N u v) = dot N z v - dot N z u * (dot N u v / dot N u u).
Proof.
  unfold dot at 1, gs_remove. rewrite (rsum_ext N _ (fun i => z i * v i - (dot N u v / dot N u u) * (z i * u i))) by (intros; unfold Rdiv; ring).
  rewrite rsum_minus, rsum_scal. unfold dot. ring.
Qed.
Lemma dot_gs_row_orth N z done : forall v, Forall (fun u => dot N z u = 0) done -> dot N z (gs_row N done v) = dot N z v.
Proof.
  induction done as [|u done IH]; intros v F; [reflexivity|]. inversion F as [|? ? F1 F2]; subst. unfold gs_row in *. cbn [fold_left]. rewrite IH by exact F2.
  rewrite dot_remove, F1. ring.
Qed.
(** pairwise orthogonal, non-zero *)
Fixpoint orthogonal (N : nat) (l : list vec) : Prop :=
  match l with [] => True | u :: l' => dot N u u <> 0 /\ Forall (fun v => dot N u v = 0) l' /\ orthogonal N l' end.
Lemma gs_row_orth N done : forall v, orthogonal N done -> Forall (fun u => dot N u (gs_row N done v) = 0) done.
Proof.
  induction done as [|u done IH]; intros v O; [constructor|]. destruct O as (O1 & O2 & O3). constructor.
  - unfold gs_row. cbn [fold_left]. fold (gs_row N done (gs_remove N u v)). rewrite dot_gs_row_orth by exact O2. rewrite dot_remove. field. exact O1.
  - unfold gs_row. cbn [fold_left]. apply (IH (gs_remove N u v) O3).
Qed.
Lemma gs_row_vanish N done k : forall v, Forall (fun u : vec => u k = 0) done -> gs_row N done v k = v k.
Proof.
  induction done as [|u done IH]; intros v F; [reflexivity|]. inversion F as [|? ? F1 F2]; subst. unfold gs_row in *. cbn [fold_left]. rewrite IH by exact F2.
  unfold gs_remove. rewrite F1. unfold Rdiv. ring.
Qed.
Lemma gs_row_span N done : forall v, exists c, forall k, v k = gs_row N done v k + rsum (length done) (fun j => c j * nth j done (fun _ => 0) k).
Proof.
  induction done as [|u done IH]; intros v; [exists (fun _ => 0); intros; simpl; unfold gs_row; simpl; ring|].
  destruct (IH (gs_remove N u v)) as [c Hc]. exists (fun j => match j with O => dot N u v / dot N u u | S j => c j end). intros k.
  cbn [length]. rewrite rsum_S_l. cbn [nth]. unfold gs_row in *. cbn [fold_left].
  transitivity (gs_remove N u v k + dot N u v / dot N u u * u k); [unfold gs_remove, Rdiv; ring|]. rewrite (Hc k) at 1. ring.
Qed.
Lemma orthogonal_snoc N l v : orthogonal N l -> Forall (fun u => dot N u v = 0) l -> dot N v v <> 0 -> orthogonal N (l ++ [v]).
Proof.
  induction l as [|u l IH]; intros O F H; simpl; [repeat split; auto|]. destruct O as (O1 & O2 & O3). inversion F as [|? ? F1 F2]; subst.
  split; [exact O1|]. split; [apply Forall_app; split; [exact O2|constructor; [exact F1|constructor]]|apply IH; assumption].
Qed.
Lemma hat_zero N q k : (1 <= snd q)%nat -> (wend q <= filter_position N k)%nat -> hat N q k = 0.
Proof.
  intros Hz H. unfold hat. apply Rmax_right. fold (wend q). assert (0 < INR (wend q)) by (apply lt_0_INR; unfold wend; lia).
  apply le_INR in H. apply Rmult_le_reg_r with (INR (wend q)); [assumption|]. unfold Rdiv. rewrite Rmult_minus_distr_r, Rmult_assoc, Rinv_l by lra. lra.
Qed.
Lemma hat_pos N q k : (filter_position N k < wend q)%nat -> 0 < hat N q k.
Proof.
  intros H. unfold hat. fold (wend q). assert (0 < INR (wend q)) by (apply lt_0_INR; lia). apply lt_INR in H.
  eapply Rlt_le_trans; [|apply Rmax_l]. apply Rmult_lt_reg_r with (INR (wend q)); [assumption|]. unfold Rdiv. rewrite Rmult_minus_distr_r, Rmult_assoc, Rinv_l by lra. lra.
Qed.
Lemma dot_pos N v k : (k < N)%nat -> v k <> 0 -> 0 < dot N v v.
Proof. intros Hk Hv. unfold dot. apply (rsum_pos N _ k Hk); intros; nra. Qed.
Lemma gs_main N wins : forall p done, chain p wins -> Forall (fun q => (fst q < N / 2)%nat) wins ->
  orthogonal N done -> (forall k, (p <= filter_position N k)%nat -> Forall (fun u : vec => u k = 0) done) ->
  orthogonal N (gram_schmidt N done (map (hat N) wins)) /\ length (gram_schmidt N done (map (hat N) wins)) = (length done + length wins)%nat.
Proof.
  induction wins as [|q wins IH]; intros p done C F O V; [simpl; split; [exact O|lia]|]. destruct C as (C1 & C2 & C3). inversion F as [|? ? F1 F2]; subst.
  simpl map. cbn [gram_schmidt]. set (v := gs_row N done (hat N q)).
  assert (D2 := Nat.div_mod N 2 ltac:(lia)).
  assert (Hq : filter_position N (fst q) = fst q) by (unfold filter_position; lia).
  destruct (IH (wend q) (done ++ [v]) C3 F2) as [I1 I2].
  - apply orthogonal_snoc; [exact O|apply gs_row_orth; exact O|]. apply Rgt_not_eq. apply (dot_pos N v (fst q)); [lia|].
    unfold v. rewrite gs_row_vanish by (apply V; lia). apply Rgt_not_eq. apply hat_pos. unfold wend. lia.
  - intros k Hk. apply Forall_app. split; [apply V; unfold wend in Hk; lia|]. constructor; [|constructor].
    unfold v. rewrite gs_row_vanish by (apply V; unfold wend in Hk; lia). apply hat_zero; assumption.
  - split; [exact I1|]. rewrite I2, app_length. simpl. lia.
Qed.
Lemma orthogonal_nth N l : orthogonal N l -> forall i j, (i < length l)%nat -> (j < length l)%nat -> i <> j ->
  dot N (nth i l (fun _ => 0)) (nth j l (fun _ => 0)) = 0.
Proof.
  induction l as [|u l IH]; intros O i j Hi Hj Hne; [simpl in Hi; lia|]. destruct O as (O1 & O2 & O3). rewrite Forall_forall in O2.
  destruct i as [|i]; destruct j as [|j]; simpl in *; try lia.
  - apply O2. apply nth_In. lia.
  - rewrite dot_sym. apply O2. apply nth_In. lia.
  - apply IH; auto; lia.
Qed.
Lemma orthogonal_nonzero N l : orthogonal N l -> forall i, (i < length l)%nat -> 0 < dot N (nth i l (fun _ => 0)) (nth i l (fun _ => 0)).
Proof.
  induction l as [|u l IH]; intros O i Hi; [simpl in Hi; lia|]. destruct O as (O1 & O2 & O3). destruct i as [|i]; simpl in *; [|apply IH; auto; lia].
  destruct (Rle_lt_or_eq_dec 0 (dot N u u)) as [L|L]; [unfold dot; apply rsum_nonneg; intros; nra|exact L|congruence].
Qed.
Lemma dot_div N u v a b : dot N (fun k => u k / a) (fun k => v k / b) = dot N u v / (a * b).
Proof. unfold dot. unfold Rdiv. rewrite <- rsum_scal_r. apply rsum_ext. intros. rewrite Rinv_mult. ring. Qed.
(** number of functions, orthogonality and norms, for all sizes, growth rules and starts, normalised or not *)
Theorem C113_orthogonal b s normalized N : let B := create_basis1 b s normalized N in
  length B = length (basis_windows b s N) /\
  (forall i j, (i < length B)%nat -> (j < length B)%nat -> i <> j -> dot N (nth i B (fun _ => 0)) (nth j B (fun _ => 0)) = 0) /\
  (forall i, (i < length B)%nat -> 0 < dot N (nth i B (fun _ => 0)) (nth i B (fun _ => 0))).
Proof.
  cbv zeta. destruct (basis_chain b s N) as (C & F & _).
  destruct (gs_main N (basis_windows b s N) 0 [] C F Logic.I (fun _ _ => Forall_nil _)) as [O L]. simpl in L.
  unfold create_basis1. set (g := gram_schmidt N [] (map (hat N) (basis_windows b s N))) in *. destruct normalized.
  - rewrite map_length. split; [exact L|].
    assert (E : forall i, (i < length g)%nat -> nth i (map (fun (v : vec) (k : nat) => v k / l1norm N v) g) (fun _ => 0) = fun k => nth i g (fun _ => 0) k / l1norm N (nth i g (fun _ => 0))).
    { intros i Hi. rewrite (nth_indep _ (fun _ => 0) ((fun (v : vec) k => v k / l1norm N v) (fun _ => 0))) by (rewrite map_length; exact Hi).
      apply (map_nth (fun (v : vec) k => v k / l1norm N v)). }
    split.
    + intros i j Hi Hj Hne. rewrite !E by assumption. rewrite dot_div, (orthogonal_nth N g O i j Hi Hj Hne). unfold Rdiv. ring.
    + intros i Hi. rewrite !E by assumption. rewrite dot_div. pose proof (orthogonal_nonzero N g O i Hi) as P.
      assert (NZ : l1norm N (nth i g (fun _ => 0)) <> 0).
      { intros Z. assert (D0 : dot N (nth i g (fun _ => 0)) (nth i g (fun _ => 0)) = 0); [|lra]. unfold dot. apply rsum_zero. intros k Hk.
        pose proof (rsum_nonneg_zero N (fun k => Rabs (nth i g (fun _ => 0) k)) (fun j _ => Rabs_pos _) Z k Hk) as A. simpl in A.
        destruct (Req_dec (nth i g (fun _ => 0) k) 0) as [-> |B]; [ring|]. apply Rabs_no_R0 in B. contradiction. }
      apply Rdiv_lt_0_compat; [exact P|]. set (a := l1norm N (nth i g (fun _ => 0))) in *. nra.
  - split; [exact L|]. split; [apply orthogonal_nth; exact O|apply orthogonal_nonzero; exact O].
Qed.
(** every triangular function is a combination of the basis functions up to its own *)
Lemma gs_prefix N todo : forall done, exists rest, gram_schmidt N done todo = done ++ rest.
Proof.
  induction todo as [|v todo IH]; intros done; [exists []; simpl; rewrite app_nil_r; reflexivity|]. simpl. destruct (IH (done ++ [gs_row N done v])) as [r Hr].
  exists (gs_row N done v :: r). rewrite Hr, <- app_assoc. reflexivity.
Qed.
Lemma gs_span N todo : forall done i, (i < length todo)%nat -> exists c, forall k,
  nth i todo (fun _ => 0) k = rsum (S (length done + i)) (fun j => c j * nth j (gram_schmidt N done todo) (fun _ => 0) k).
Proof.
  induction todo as [|v todo IH]; intros done i Hi; [simpl in Hi; lia|]. cbn [gram_schmidt]. destruct i as [|i].
  - destruct (gs_row_span N done v) as [c Hc]. destruct (gs_prefix N todo (done ++ [gs_row N done v])) as [r Hr].
    exists (fun j => if Nat.eqb j (length done) then 1 else c j). intros k. cbn [nth]. rewrite (Hc k), Hr. rewrite Nat.add_0_r. cbn [rsum].
    rewrite Nat.eqb_refl. rewrite Rplus_comm. f_equal.
    + apply rsum_ext. intros j Hj. destruct (Nat.eqb_spec j (length done)); [lia|]. rewrite <- app_assoc, app_nth1 by exact Hj. reflexivity.
    + rewrite <- app_assoc, app_nth2 by lia. rewrite Nat.sub_diag. cbn [nth app]. ring.
  - destruct (IH (done ++ [gs_row N done v]) i ltac:(simpl in Hi; lia)) as [c Hc]. exists c. intros k. cbn [nth]. rewrite (Hc k). rewrite app_length. cbn [length].
    replace (length done + 1 + i)%nat with (length done + S i)%nat by lia. reflexivity.
Qed.
Theorem C113_spans b s N i : (i < length (basis_windows b s N))%nat -> exists c, forall k,
  hat N (nth i (basis_windows b s N) (0%nat, 0%nat)) k = rsum (S i) (fun j => c j * nth j (create_basis1 b s false N) (fun _ => 0) k).
Proof.
  intros Hi. destruct (gs_span N (map (hat N) (basis_windows b s N)) [] i ltac:(rewrite map_length; exact Hi)) as [c Hc]. exists c. intros k. rewrite <- Hc.
  rewrite (nth_indep _ (fun _ => 0) (hat N (0%nat, 0%nat))) by (rewrite map_length; exact Hi). rewrite map_nth. reflexivity.
Qed.

(** * C114: reusing a data-driven filter *)
Lemma apply_filters_ok mode use_rfft n fs x : Forall (fits use_rfft n) fs -> exists ys, apply_filters mode use_rfft n fs x = inr ys.
Proof.
  induction fs as [|f fs IH]; intros F; [exists []; reflexivity|]. inversion F as [|? ? F1 F2]; subst. destruct (IH F2) as [t Ht].
  destruct (C60_is_circular_convolution mode use_rfft n f x F1) as (y & E & _). exists (y :: t). simpl. rewrite E, Ht. reflexivity.
Qed.
Lemma windows_nonempty b s N : (2 <= N)%nat -> basis_windows b s N <> [].
Proof.
  intros H. unfold basis_windows. cbn [windows]. assert (1 <= N / 2)%nat by (apply Nat.div_le_lower_bound; lia).
  destruct (Nat.ltb_spec 0 (max_position N)); [discriminate|unfold max_position in *; lia].
Qed.
(** a fresh filter works for every width; used again on another width it works exactly when the padded sizes agree *)
Theorem C114_first_use b s mode use_rfft n x : exists ys, snd (mr_compute b s mode use_rfft None n x) = inr ys /\
  length ys = length (basis_windows b s (get_padding_size n)).
Proof.
  unfold mr_compute. cbn [mr_initialize fst snd]. destruct (apply_filters_ok mode use_rfft n (mr_basis_f b s use_rfft (get_padding_size n)) x) as [ys E].
  - unfold mr_basis_f. apply Forall_forall. intros f Hf. apply in_map_iff in Hf as (v & <- & _). left. reflexivity.
  - exists ys. split; [exact E|]. destruct (C60_many_filters mode use_rfft n _ x ys E) as [L _]. rewrite L. unfold mr_basis_f. rewrite map_length. apply (C113_orthogonal b s false).
Qed.
Theorem C114_reuse_iff b s mode use_rfft n1 n2 x1 x2 :
  (exists ys, snd (mr_compute b s mode use_rfft (fst (mr_compute b s mode use_rfft None n1 x1)) n2 x2) = inr ys) <->
  get_padding_size n1 = get_padding_size n2.
Proof.
  unfold mr_compute. cbn [mr_initialize fst snd]. set (P1 := get_padding_size n1). set (P2 := get_padding_size n2). split.
  - intros [ys E]. destruct (C113_orthogonal b s false P1) as (L & _ & _). pose proof (C59_large_enough n1) as [L1 _]. fold P1 in L1. pose proof (C59_large_enough n2) as [L2 _]. fold P2 in L2.
    destruct (create_basis1 b s false P1) as [|v B] eqn:EB. { exfalso. simpl in L. apply (windows_nonempty b s P1 ltac:(lia)). destruct (basis_windows b s P1); [reflexivity|discriminate]. }
    unfold mr_basis_f in E. rewrite EB in E. cbn [map apply_filters] in E. set (f := (num_bins use_rfft P1, fun k : nat => RtoC (fst (to_fourier P1 v k)))) in *.
    destruct (Nat.eq_dec (num_bins use_rfft P1) (num_bins use_rfft P2)) as [K|K].
    + destruct (padding_even n1) as (m1 & _ & E1). destruct (padding_even n2) as (m2 & _ & E2). fold P1 in E1. fold P2 in E2. rewrite E1, E2 in K |- *. unfold num_bins in K. destruct use_rfft; [rewrite !half_double in K|]; lia.
    + exfalso. rewrite C60_wrong_length in E; [discriminate|]. intros [H|H]; [apply K; exact H|]. change (num_bins use_rfft P1 = 1%nat) in H. unfold num_bins in H. destruct use_rfft; [|lia].
      assert (32 <= P1 / 2)%nat by (apply Nat.div_le_lower_bound; lia). lia.
  - intros E. apply apply_filters_ok. unfold mr_basis_f. apply Forall_forall. intros f Hf. apply in_map_iff in Hf as (v & <- & _). left. cbn [fst]. fold P2. rewrite E. reflexivity.
Qed.
Definition mr_filter_reusable : Prop := forall b s mode use_rfft n1 n2 x1 x2, (0 < n1)%nat -> (0 < n2)%nat ->
  exists ys, snd (mr_compute b s mode use_rfft (fst (mr_compute b s mode use_rfft None n1 x1)) n2 x2) = inr ys.
Theorem C114_reuse_refuted : ~ mr_filter_reusable.
Proof.
  intros H. specialize (H Exponential (Some 2%nat) PadConstant true 32%nat 33%nat (fun _ => 0) (fun _ => 0) ltac:(lia) ltac:(lia)). apply C114_reuse_iff in H.
  destruct C59_values as (_ & E1 & E2). rewrite E1, E2 in H. discriminate.
Qed.

(** * C115: optimality of the data-driven filter *)
(** rows a < W of the data, each of width n; [L]: everything after the filtering (back-projection, mask, projection, and the
    weighted differences of the image), linear, with Rw output entries; [b]: the right-hand side *)
Definition filtered (mode : pad_mode) (use_rfft : bool) (n : nat) (f : filt) (x : nat -> vec) : nat -> vec :=
  fun a => match apply_filter mode use_rfft n f (x a) with inr y => y | inl _ => fun _ => 0 end.
Definition lin_sino (n W : nat) (L : (nat -> vec) -> vec) : Prop :=
  forall m (c : nat -> R) (z : nat -> nat -> vec) (y : nat -> vec),
    (forall a i, (a < W)%nat -> (i < n)%nat -> y a i = rsum m (fun j => c j * z j a i)) -> forall r, L y r = rsum m (fun j => c j * L (z j) r).
Definition sq_misfit (Rw : nat) (L : (nat -> vec) -> vec) (b : vec) (y : nat -> vec) : R := rsum Rw (fun r => (L y r - b r) ^ 2).
(** np.linalg.lstsq: the returned coefficients minimise the squared residual of the columns *)
Definition lstsq_solution (Rw m : nat) (A : nat -> nat -> R) (b c : vec) : Prop :=
  forall c', rsum Rw (fun r => (rsum m (fun j => c j * A r j) - b r) ^ 2) <= rsum Rw (fun r => (rsum m (fun j => c' j * A r j) - b r) ^ 2).
Theorem C115_optimal mode use_rfft n W x basis L b Rw c :
  Forall (fun f => fst f = num_bins use_rfft (get_padding_size n) /\ forall k, snd (snd f k) = 0) basis ->
  lin_sino n W L ->
  lstsq_solution Rw (length basis) (fun r j => L (filtered mode use_rfft n (nth j basis (0%nat, fun _ => C0)) x) r) b c ->
  forall c', sq_misfit Rw L b (filtered mode use_rfft n (mr_filter (num_bins use_rfft (get_padding_size n)) basis c) x) <=
             sq_misfit Rw L b (filtered mode use_rfft n (mr_filter (num_bins use_rfft (get_padding_size n)) basis c') x).
Proof.
  intros HB HL Hc c'. set (B := num_bins use_rfft (get_padding_size n)) in *.
  assert (K : forall d r, L (filtered mode use_rfft n (mr_filter B basis d) x) r =
     rsum (length basis) (fun j => d j * L (filtered mode use_rfft n (nth j basis (0%nat, fun _ => C0)) x) r)).
  { intros d. apply (HL (length basis) d (fun j => filtered mode use_rfft n (nth j basis (0%nat, fun _ => C0)) x)). intros a i Ha Hi.
    destruct (C60_linear_in_filter mode use_rfft n (length basis) d (fun j => snd (nth j basis (0%nat, fun _ => C0))) (x a)) as (y & E & Hy).
    destruct (Hy i Hi) as (z & Hz & Ez). fold B in E, Hz.
    assert (EF : forall q, RtoC (rsum (length basis) (fun j => d j * fst (snd (nth j basis (0%nat, fun _ => C0)) q))) = csum (length basis) (fun j => RtoC (d j) *c snd (nth j basis (0%nat, fun _ => C0)) q)).
    { intros q. rewrite <- csum_RtoC. apply csum_ext. intros j Hj. rewrite Forall_forall in HB. destruct (HB (nth j basis (0%nat, fun _ => C0)) (nth_In _ _ Hj)) as [_ R0].
      rewrite (RtoC_fst (snd (nth j basis (0%nat, fun _ => C0)) q) (R0 q)). apply C_eq; simpl; ring. }
    assert (EQ : filtered mode use_rfft n (mr_filter B basis d) x a = y).
    { unfold filtered. replace (mr_filter B basis d) with (B, fun k : nat => csum (length basis) (fun j => RtoC (d j) *c snd (nth j basis (0%nat, fun _ => C0)) k)); [rewrite E; reflexivity|].
      unfold mr_filter. f_equal. apply functional_extensionality. intros q. symmetry. apply EF. }
    rewrite EQ, Ez. apply rsum_ext. intros j Hj. f_equal. unfold filtered.
    rewrite Forall_forall in HB. destruct (HB (nth j basis (0%nat, fun _ => C0)) (nth_In _ _ Hj)) as [L0 _].
    replace (nth j basis (0%nat, fun _ => C0)) with (B, snd (nth j basis (0%nat, fun _ => C0))) by (rewrite <- L0; destruct (nth j basis (0%nat, fun _ => C0)); reflexivity).
    rewrite Hz by exact Hj. reflexivity. }
  unfold sq_misfit. rewrite (rsum_ext Rw _ (fun r => (rsum (length basis) (fun j => c j * L (filtered mode use_rfft n (nth j basis (0%nat, fun _ => C0)) x) r) - b r) ^ 2)) by (intros; rewrite K; reflexivity).
  rewrite (rsum_ext Rw (fun r => (L (filtered mode use_rfft n (mr_filter B basis c') x) r - b r) ^ 2) (fun r => (rsum (length basis) (fun j => c' j * L (filtered mode use_rfft n (nth j basis (0%nat, fun _ => C0)) x) r) - b r) ^ 2)) by (intros; rewrite K; reflexivity).
  apply Hc.
Qed.
(** the basis of the class meets the hypothesis *)
Theorem C115_basis_admissible b s use_rfft n :
  Forall (fun f => fst f = num_bins use_rfft (get_padding_size n) /\ forall k, snd (snd f k) = 0) (mr_basis_f b s use_rfft (get_padding_size n)).
Proof. unfold mr_basis_f. apply Forall_forall. intros f Hf. apply in_map_iff in Hf as (v & <- & _). split; reflexivity. Qed.
(** a linear map as the theorem asks for: read the first row *)
Example C115_linear_witness n W : (0 < W)%nat -> lin_sino n W (fun y r => if Nat.ltb r n then y 0%nat r else 0).
Proof.
  intros HW m c z y H r. destruct (Nat.ltb_spec r n) as [L|L]; [apply H; assumption|]. symmetry. apply rsum_zero. intros; ring.
Qed.
