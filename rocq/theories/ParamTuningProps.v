(** Theorems C41-C47, C99, C100: hyper-parameter tuning. *)
From Coq Require Import Permutation.
From Verif Require Import Sums Rounding Arrays DataTermsModel SolversModel SolversSpec SolversGeneric SolversProps ParamTuningModel.

(** * C41 *)
Theorem C41_format_time : forall t, 0 <= t ->
  let r := format_time t in
  (0 <= h_hours r)%Z /\ (0 <= h_minutes r < 60)%Z /\ (0 <= h_seconds r < 60)%Z /\ (0 <= h_millis r < 1000)%Z /\
  let shown := 3600 * IZR (h_hours r) + 60 * IZR (h_minutes r) + IZR (h_seconds r) + IZR (h_millis r) / 1000 in
  shown <= t < shown + 1 / 1000.
Proof.
  intros t Ht r.
  pose proof (rmod_bounds t 3600 ltac:(lra)) as B1. pose proof (rmod_bounds (rmod t 3600) 60 ltac:(lra)) as B2.
  pose proof (rmod_eq t 3600) as E1. pose proof (rmod_eq (rmod t 3600) 60) as E2.
  set (h := rfloordiv t 3600) in *. set (m := rfloordiv (rmod t 3600) 60) in *.
  destruct (rmod_unique t 60 (60 * h + m) (rmod (rmod t 3600) 60)) as [_ E3]; [lra| |lra|].
  { rewrite plus_IZR, mult_IZR. lra. }
  assert (Hh : (0 <= h)%Z). { apply rfloor_nonneg. apply Rdiv_le_0_compat; lra. }
  assert (Hm0 : (0 <= m)%Z). { apply rfloor_nonneg. apply Rdiv_le_0_compat; lra. }
  assert (Hm : (m < 60)%Z). { apply lt_IZR. assert (60 * IZR m < 3600) by lra. lra. }
  unfold r, format_time. cbn [h_hours h_minutes h_seconds h_millis]. fold h m. rewrite E3. set (s := rmod (rmod t 3600) 60) in *.
  pose proof (rfloor_spec s) as Fs. set (ss := rfloor s) in *.
  assert (Hs0 : (0 <= ss)%Z) by (apply rfloor_nonneg; lra). assert (Hs : (ss < 60)%Z) by (apply lt_IZR; lra).
  pose proof (rfloor_spec ((s - IZR ss) * 1000)) as Fm. set (ms := rfloor ((s - IZR ss) * 1000)) in *.
  assert (Hms0 : (0 <= ms)%Z) by (apply rfloor_nonneg; lra). assert (Hms : (ms < 1000)%Z) by (apply lt_IZR; lra).
  repeat split; try lia; lra.
Qed.
Example C41_example : format_time (7384 + 1 / 2) = mkHMS 2 3 4 500.
Proof.
  unfold format_time.
  destruct (rmod_unique (7384 + 1 / 2) 3600 2 (184 + 1 / 2)) as [-> ->]; [lra|lra|lra|].
  destruct (rmod_unique (184 + 1 / 2) 60 3 (4 + 1 / 2)) as [-> _]; [lra|lra|lra|].
  destruct (rmod_unique (7384 + 1 / 2) 60 123 (4 + 1 / 2)) as [_ ->]; [lra|lra|lra|].
  rewrite (rfloor_unique (4 + 1 / 2) 4) by lra. rewrite (rfloor_unique _ 500) by lra. reflexivity.
Qed.

(** * C42, C43: masks *)
Lemma set_ones_in idx : forall m l, set_ones idx m l = if in_dec (list_eq_dec Nat.eq_dec) l idx then 1 else m l.
Proof.
  unfold set_ones. induction idx as [|i idx IH]; intros m l.
  - destruct (in_dec _ _ _) as [[]|]; reflexivity.
  - cbn [fold_left]. rewrite IH. destruct (in_dec _ l idx) as [H|H], (in_dec _ l (i :: idx)) as [H'|H']; try reflexivity.
    + exfalso. apply H'. right. exact H.
    + destruct (list_eq_dec Nat.eq_dec l i); [reflexivity|]. destruct H' as [->|H']; [congruence|contradiction].
    + destruct (list_eq_dec Nat.eq_dec l i) as [->|]; [exfalso; apply H'; left|]; reflexivity.
Qed.
Lemma count_rsum n : forall l, NoDup l -> (forall k, In k l -> (k < n)%nat) ->
  rsum n (fun k => if in_dec Nat.eq_dec k l then 1 else 0) = INR (length l).
Proof.
  induction l as [|a l IH]; intros Hd Hlt.
  - apply rsum_zero. intros i _. destruct (in_dec _ i []) as [[]|]; reflexivity.
  - inversion Hd as [|? ? Ha Hd']; subst. rewrite (rsum_ext n _ (fun k => delta k a + (if in_dec Nat.eq_dec k l then 1 else 0))).
    + rewrite rsum_plus, IH; [|exact Hd'|intros; apply Hlt; right; assumption].
      replace (rsum n (fun k => delta k a)) with 1.
      * cbn [length]. rewrite S_INR. ring.
      * rewrite (rsum_ext n _ (fun k => delta k a * 1)) by (intros; ring).
        symmetry. apply (rsum_delta n a (fun _ => 1)). apply Hlt. left. reflexivity.
    + intros k _. unfold delta. destruct (in_dec Nat.eq_dec k (a :: l)) as [H|H], (in_dec Nat.eq_dec k l) as [H'|H'], (Nat.eqb_spec k a) as [E|E].
      all: try subst k; try ring; try contradiction; exfalso; simpl in H; intuition congruence.
Qed.
Lemma mask_sum shape idx : NoDup idx -> (forall k, In k idx -> (k < size shape)%nat) ->
  bsum shape (set_ones (map (unflat shape) idx) (fun _ => 0)) = INR (length idx).
Proof.
  intros Hd Hlt. rewrite bsum_flat. rewrite <- (count_rsum (size shape) idx Hd Hlt). apply rsum_ext. intros k Hk.
  rewrite set_ones_in. destruct (in_dec _ (unflat shape k) _) as [H|H], (in_dec _ k idx) as [H'|H']; try reflexivity; exfalso.
  - apply in_map_iff in H. destruct H as (j & E & Hj). apply H'. rewrite <- (flat_unflat shape k Hk), <- E, flat_unflat; auto.
  - apply H. apply in_map. exact H'.
Qed.
Lemma mask_at_index shape idx l : (forall k, In k idx -> (k < size shape)%nat) -> inb shape l ->
  set_ones (map (unflat shape) idx) (fun _ => 0) l = if in_dec Nat.eq_dec (flat shape l) idx then 1 else 0.
Proof.
  intros Hlt Hl. rewrite set_ones_in. destruct (in_dec _ l _) as [H|H], (in_dec _ (flat shape l) idx) as [H'|H']; try reflexivity; exfalso.
  - apply in_map_iff in H. destruct H as (j & E & Hj). apply H'. rewrite <- E, flat_unflat; auto.
  - apply H. apply in_map_iff. exists (flat shape l). split; [apply unflat_flat; exact Hl|exact H'].
Qed.
Lemma perm_facts n perm : Permutation perm (seq 0 n) -> NoDup perm /\ (forall k, In k perm -> (k < n)%nat) /\ length perm = n.
Proof.
  intros H. repeat split.
  - eapply Permutation_NoDup; [apply Permutation_sym, H|apply seq_NoDup].
  - intros k Hk. eapply Permutation_in in Hk; [|exact H]. apply in_seq in Hk. lia.
  - rewrite (Permutation_length H). apply seq_length.
Qed.
Lemma NoDup_app_left {A} (l l' : list A) : NoDup (l ++ l') -> NoDup l.
Proof.
  induction l as [|a l IH]; intros H; [constructor|]. inversion H as [|? ? Ha Hd]; subst. constructor; [|apply IH, Hd].
  intros Hi. apply Ha, in_or_app. left. exact Hi.
Qed.
(** [is_binary]: only zeros and ones *)
Definition is_binary (m : arr) : Prop := forall l, m l = 0 \/ m l = 1.
Lemma set_ones_binary idx : is_binary (set_ones idx (fun _ => 0)).
Proof. intros l. rewrite set_ones_in. destruct (in_dec _ _ _); auto. Qed.
Theorem C42_random_mask : forall shape fraction perm, Permutation perm (seq 0 (size shape)) -> 0 <= fraction <= 1 ->
  let mask := create_random_test_mask shape fraction perm in
  is_binary mask /\ bsum shape mask = IZR (rceil (INR (size shape) * fraction)).
Proof.
  intros shape fr perm Hp Hf mask. split; [apply set_ones_binary|].
  destruct (perm_facts _ _ Hp) as (Hd & Hlt & Hlen). unfold mask, create_random_test_mask, num_test_pixels.
  set (c := rceil (INR (size shape) * fr)). pose proof (pos_INR (size shape)) as Hs.
  assert (Hc0 : (0 <= c)%Z).
  { apply IZR_lt_succ_inv. pose proof (rceil_spec (INR (size shape) * fr)) as Hr. fold c in Hr.
    assert (0 <= INR (size shape) * fr) by (apply Rmult_le_pos; lra). lra. }
  assert (Hc1 : (c <= Z.of_nat (size shape))%Z).
  { apply rceil_le. rewrite <- INR_IZR_INZ. rewrite <- (Rmult_1_r (INR (size shape))) at 2. apply Rmult_le_compat_l; lra. }
  set (k := Z.to_nat c). assert (Hk : (k <= length perm)%nat) by (unfold k; lia).
  pose proof (firstn_skipn k perm) as Hfs.
  rewrite mask_sum.
  - rewrite firstn_length_le by exact Hk. rewrite INR_IZR_INZ. f_equal. unfold k. lia.
  - rewrite <- Hfs in Hd. apply NoDup_app_left in Hd. exact Hd.
  - intros j Hj. apply Hlt. rewrite <- Hfs. apply in_or_app. left. exact Hj.
Qed.
Example C42_example : Permutation [2; 0; 1]%nat (seq 0 (size [3%nat])) /\ num_test_pixels (size [3%nat]) (1 / 2) = 2%Z.
Proof.
  split; [simpl; eapply perm_trans; [apply perm_swap|apply perm_skip, perm_swap]|].
  unfold num_test_pixels. apply rceil_unique. simpl. lra.
Qed.

Lemma stride_len_spec n i k j : (0 < k)%nat -> ((j < (n - i + k - 1) / k)%nat <-> (i + j * k < n)%nat).
Proof.
  intros Hk. split; intros H.
  - assert (S j * k <= n - i + k - 1)%nat.
    { transitivity ((n - i + k - 1) / k * k)%nat; [apply Nat.mul_le_mono_r; lia|]. rewrite Nat.mul_comm. apply Nat.mul_div_le. lia. }
    nia.
  - apply Nat.div_le_lower_bound; [lia|]. nia.
Qed.
Lemma stride_in perm i k x : (0 < k)%nat -> NoDup perm ->
  In x (py_stride 0%nat perm i k) <-> exists p, (p < length perm)%nat /\ nth p perm 0%nat = x /\ exists j, p = (i + j * k)%nat.
Proof.
  intros Hk Hd. unfold py_stride. rewrite in_map_iff. split.
  - intros (j & E & Hj). apply in_seq in Hj. exists (i + j * k)%nat. split; [apply stride_len_spec; lia|]. split; [exact E|eauto].
  - intros (p & Hp & E & j & ->). exists j. split; [exact E|]. apply in_seq. split; [lia|]. apply stride_len_spec; lia.
Qed.
Lemma stride_nodup perm i k : (0 < k)%nat -> NoDup perm -> NoDup (py_stride 0%nat perm i k).
Proof.
  intros Hk Hd. unfold py_stride. rewrite (NoDup_nth perm 0%nat) in Hd.
  assert (G : forall l, NoDup l -> (forall j, In j l -> (i + j * k < length perm)%nat) -> NoDup (map (fun j => nth (i + j * k) perm 0%nat) l)).
  { induction l as [|a l IH]; intros Hl Hb; cbn [map]; [constructor|]. inversion Hl as [|? ? Ha Hl']; subst. constructor.
    - rewrite in_map_iff. intros (b & E & Hb'). apply Hd in E; [|apply Hb; right; exact Hb'|apply Hb; left; reflexivity].
      assert (b = a) by nia. subst b. contradiction.
    - apply IH; [exact Hl'|]. intros j Hj. apply Hb. right. exact Hj. }
  apply G; [apply seq_NoDup|]. intros j Hj. apply in_seq in Hj. apply stride_len_spec; lia.
Qed.
Lemma stride_len_near n k i : (0 < k)%nat -> (i < k)%nat ->
  ((n - i + k - 1) / k = n / k \/ (n - i + k - 1) / k = n / k + 1)%nat.
Proof.
  intros Hk Hi. pose proof (Nat.div_mod n k ltac:(lia)) as E. pose proof (Nat.mod_upper_bound n k ltac:(lia)) as B.
  set (q := (n / k)%nat) in *. set (r := (n mod k)%nat) in *.
  destruct (le_lt_dec r i) as [H|H].
  - left. symmetry. apply (Nat.div_unique (n - i + k - 1) k q (n - i + k - 1 - k * q)); nia.
  - right. symmetry. apply (Nat.div_unique (n - i + k - 1) k (q + 1) (n - i + k - 1 - k * (q + 1))); nia.
Qed.
Theorem C43_k_fold_partition : forall shape k perm, (0 < k)%nat -> Permutation perm (seq 0 (size shape)) ->
  let masks := create_k_fold_test_masks shape k perm in
  length masks = k /\ Forall is_binary masks /\
  (forall l, inb shape l -> exists i, (i < k)%nat /\ nth i masks (fun _ => 0) l = 1 /\
     forall j, (j < k)%nat -> j <> i -> nth j masks (fun _ => 0) l = 0) /\
  (forall i, (i < k)%nat -> bsum shape (nth i masks (fun _ => 0)) = INR (size shape / k) \/
                            bsum shape (nth i masks (fun _ => 0)) = INR (size shape / k + 1)).
Proof.
  intros shape k perm Hk Hp masks. destruct (perm_facts _ _ Hp) as (Hd & Hlt & Hlen).
  assert (Hnth : forall i, (i < k)%nat -> nth i masks (fun _ => 0) = set_ones (map (unflat shape) (py_stride 0%nat perm i k)) (fun _ => 0)).
  { intros i Hi. unfold masks, create_k_fold_test_masks.
    rewrite (nth_indep _ (fun _ => 0) (set_ones (map (unflat shape) (py_stride 0%nat perm 0 k)) (fun _ => 0))) by (rewrite map_length, seq_length; exact Hi).
    rewrite (map_nth (fun i => set_ones (map (unflat shape) (py_stride 0%nat perm i k)) (fun _ => 0)) (seq 0 k) 0%nat).
    rewrite seq_nth by exact Hi. reflexivity. }
  assert (Hin : forall i x, In x (py_stride 0%nat perm i k) -> (x < size shape)%nat).
  { intros i x Hx. apply stride_in in Hx; auto. destruct Hx as (p & H1 & <- & _). apply Hlt, nth_In, H1. }
  repeat split.
  - unfold masks, create_k_fold_test_masks. rewrite map_length, seq_length. reflexivity.
  - apply Forall_forall. intros m Hm. unfold masks, create_k_fold_test_masks in Hm. apply in_map_iff in Hm.
    destruct Hm as (i & <- & _). apply set_ones_binary.
  - intros l Hl. pose proof (flat_lt shape l Hl) as Hfl.
    assert (Hx : In (flat shape l) perm) by (eapply Permutation_in; [apply Permutation_sym, Hp|]; apply in_seq; lia).
    apply (In_nth _ _ 0%nat) in Hx. destruct Hx as (p & Hpl & Ep).
    pose proof (Nat.mod_upper_bound p k ltac:(lia)) as Hb. pose proof (Nat.div_mod p k ltac:(lia)) as Ed.
    exists (p mod k)%nat. split; [exact Hb|]. split.
    + rewrite Hnth by exact Hb. rewrite mask_at_index by (eauto || exact Hl). destruct (in_dec _ _ _) as [|n]; [reflexivity|]. exfalso. apply n.
      apply stride_in; auto. exists p. repeat split; auto. exists (p / k)%nat. lia.
    + intros j Hj Hne. rewrite Hnth by exact Hj. rewrite mask_at_index by (eauto || exact Hl). destruct (in_dec _ _ _) as [n|]; [|reflexivity].
      exfalso. apply stride_in in n; auto. destruct n as (p' & Hp' & Ep' & jj & Ej).
      assert (p' = p) by (apply (proj1 (NoDup_nth perm 0%nat) Hd); auto; congruence). subst p'. apply Hne. subst p.
      rewrite Nat.mod_add, Nat.mod_small by lia. reflexivity.
  - intros i Hi. rewrite Hnth by exact Hi. rewrite mask_sum; [|apply stride_nodup; auto|apply Hin].
    unfold py_stride. rewrite map_length, seq_length, Hlen. destruct (stride_len_near (size shape) k i Hk Hi) as [-> | ->]; auto.
Qed.

(** * C44 *)
Lemma quad_interp x0 x1 x2 y0 y1 y2 c b a : x0 <> x1 -> x1 <> x2 -> x0 <> x2 ->
  quad_coeffs x0 x1 x2 y0 y1 y2 = (c, b, a) ->
  c + b * x0 + a * x0 ^ 2 = y0 /\ c + b * x1 + a * x1 ^ 2 = y1 /\ c + b * x2 + a * x2 ^ 2 = y2.
Proof.
  intros H1 H2 H3 E. unfold quad_coeffs in E. inversion E; subst; clear E. repeat split; field; repeat split; lra.
Qed.
Lemma vertex_min c b a x : 0 < a -> c + (- b / (2 * a)) * b / 2 <= c + b * x + a * x ^ 2.
Proof.
  intros Ha. replace (c + b * x + a * x ^ 2) with (c + (- b / (2 * a)) * b / 2 + a * (x + b / (2 * a)) ^ 2) by (field; lra).
  pose proof (pow2_ge_0 (x + b / (2 * a))). nra.
Qed.
Lemma argmin_from_spec l : forall pos best bv full,
  (forall i, (i < length l)%nat -> nth (pos + i) full 0 = nth i l 0) ->
  nth best full 0 = bv -> (best < pos)%nat -> (forall i, (i < pos)%nat -> bv <= nth i full 0) ->
  let r := argmin_from l pos best bv in
  (r < pos + length l)%nat /\ forall i, (i < pos + length l)%nat -> nth r full 0 <= nth i full 0.
Proof.
  induction l as [|v l IH]; intros pos best bv full Hf Hb Hp Hm; cbn [argmin_from].
  - cbn [length]. rewrite Nat.add_0_r. split; [exact Hp|]. intros i Hi. rewrite Hb. apply Hm, Hi.
  - assert (Hf' : forall i, (i < length l)%nat -> nth (S pos + i) full 0 = nth i l 0).
    { intros i Hi. specialize (Hf (S i) ltac:(simpl; lia)). rewrite Nat.add_succ_r in Hf. exact Hf. }
    assert (Hv : nth pos full 0 = v) by (specialize (Hf 0%nat ltac:(simpl; lia)); rewrite Nat.add_0_r in Hf; exact Hf).
    cbn [length]. rewrite Nat.add_succ_r. destruct (Rlt_dec v bv) as [H|H].
    + apply (IH (S pos) pos v full Hf' Hv); [lia|]. intros i Hi. destruct (Nat.eq_dec i pos) as [->|]; [lra|]. specialize (Hm i ltac:(lia)). lra.
    + apply (IH (S pos) best bv full Hf' Hb); [lia|]. intros i Hi. destruct (Nat.eq_dec i pos) as [->|]; [lra|]. apply Hm. lia.
Qed.
Lemma argmin_spec l : l <> [] -> (argmin l < length l)%nat /\ forall i, (i < length l)%nat -> nth (argmin l) l 0 <= nth i l 0.
Proof.
  destruct l as [|v l]; [congruence|]. intros _. unfold argmin.
  apply (argmin_from_spec l 1 0 v (v :: l)); [intros; reflexivity|reflexivity|lia|]. intros i Hi. assert (i = 0)%nat by lia. subst. simpl. lra.
Qed.
(** hyper-parameters strictly increasing, and positive for the logarithmic scale *)
Definition increasing (l : list R) : Prop := forall i j, (i < j < length l)%nat -> nth i l 0 < nth j l 0.
Definition scale_ok (s : fscale) (hp : list R) : Prop := match s with ScaleLog => Forall (fun x => 0 < x) hp | ScaleLinear => True end.
Lemma to_fit_lt s hp i j : scale_ok s hp -> increasing hp -> (i < j < length hp)%nat -> to_fit s (nth i hp 0) < to_fit s (nth j hp 0).
Proof.
  intros Hs Hi Hij. specialize (Hi i j Hij). destruct s; [|exact Hi]. apply log10_lt; [|exact Hi].
  eapply Forall_forall in Hs; [exact Hs|]. apply nth_In. lia.
Qed.
Lemma from_to s hp i : scale_ok s hp -> (i < length hp)%nat -> from_fit s (to_fit s (nth i hp 0)) = nth i hp 0.
Proof. intros Hs Hi. destruct s; [|reflexivity]. apply pow10_log10. eapply Forall_forall in Hs; [exact Hs|]. apply nth_In, Hi. Qed.
Lemma from_fit_le s a b : a <= b -> from_fit s a <= from_fit s b.
Proof. destruct s; [apply pow10_le|auto]. Qed.
Lemma fit_first_range n mp : (3 <= n)%nat -> (mp < n)%nat -> (fit_first n mp + 2 < n)%nat /\ (fit_first n mp <= mp <= fit_first n mp + 2)%nat.
Proof. intros Hn Hm. unfold fit_first. destruct (Nat.eqb_spec mp 0); [lia|]. destruct (Nat.eqb_spec mp (n - 1)); lia. Qed.

Theorem C44_bad_lengths : forall s hp f, (length hp < 3)%nat \/ (length f < 3)%nat \/ length hp <> length f ->
  fit_func_min s hp f = inl FitValueError.
Proof.
  intros s hp f H. unfold fit_func_min.
  destruct (Nat.ltb_spec (length hp) 3), (Nat.ltb_spec (length f) 3), (Nat.eqb_spec (length hp) (length f)); try reflexivity; lia.
Qed.
(** the returned parameter is within the measured range and its value is at most every measured value *)
Theorem C44_fit_in_range : forall s hp f, (3 <= length hp)%nat -> length f = length hp -> scale_ok s hp -> increasing hp ->
  exists v y, fit_func_min s hp f = inr (v, y) /\ nth 0 hp 0 <= v <= nth (length hp - 1) hp 0 /\
    (forall i, (i < length f)%nat -> y <= nth i f 0).
Proof.
  intros s hp f Hn Hlen Hs Hinc. unfold fit_func_min.
  replace (Nat.ltb (length hp) 3) with false by (symmetry; apply Nat.ltb_ge; lia).
  replace (Nat.ltb (length f) 3) with false by (symmetry; apply Nat.ltb_ge; lia).
  replace (Nat.eqb (length hp) (length f)) with true by (symmetry; apply Nat.eqb_eq; lia).
  cbn [orb negb]. destruct (argmin_spec f) as [Hm Hmin]; [intros ->; simpl in *; lia|]. set (mp := argmin f) in *.
  destruct (fit_first_range (length f) mp ltac:(lia) Hm) as [Hi Hmi]. set (i := fit_first (length f) mp) in *.
  assert (Hmeas : nth 0 hp 0 <= nth mp hp 0 <= nth (length hp - 1) hp 0).
  { split.
    - destruct (Nat.eq_dec mp 0) as [->|]; [lra|]. left. apply Hinc. lia.
    - destruct (Nat.eq_dec mp (length hp - 1)) as [->|]; [lra|]. left. apply Hinc. lia. }
  destruct (quad_coeffs _ _ _ _ _ _) as [[c b] a] eqn:Q.
  pose proof (to_fit_lt s hp (i + 0) (i + 1) Hs Hinc ltac:(lia)). pose proof (to_fit_lt s hp (i + 1) (i + 2) Hs Hinc ltac:(lia)).
  apply quad_interp in Q; [|lra|lra|lra]. destruct Q as (Q0 & Q1 & Q2).
  destruct (Rle_dec a 0) as [Ha|Ha]; [exists (nth mp hp 0), (nth mp f 0); auto|].
  destruct (Rlt_dec _ (nth 0 hp 0)) as [Hlo|Hlo]; [exists (nth mp hp 0), (nth mp f 0); auto|].
  destruct (Rlt_dec (nth (length hp - 1) hp 0) _) as [Hhi|Hhi]; [exists (nth mp hp 0), (nth mp f 0); auto|].
  eexists _, _. split; [reflexivity|]. split; [lra|]. intros j Hj. specialize (Hmin j Hj).
  assert (V : c + - b / (2 * a) * b / 2 <= nth mp f 0); [|lra].
  assert (Hc : mp = (i + 0)%nat \/ mp = (i + 1)%nat \/ mp = (i + 2)%nat) by lia.
  clearbody mp i. destruct Hc as [Hc | [Hc | Hc]]; rewrite Hc; [rewrite <- Q0|rewrite <- Q1|rewrite <- Q2]; apply vertex_min; lra.
Qed.
(** an interior measured minimum: unless the three losses are equal the fit is convex and the vertex lies between the
    neighbours of the minimum, so the fitted point is the one returned *)
Theorem C44_interior_minimum : forall s hp f, (3 <= length hp)%nat -> length f = length hp -> scale_ok s hp -> increasing hp ->
  let m := argmin f in (0 < m < length f - 1)%nat -> nth m f 0 < nth (m - 1) f 0 \/ nth m f 0 < nth (m + 1) f 0 ->
  exists v y, fit_func_min s hp f = inr (v, y) /\ nth (m - 1) hp 0 <= v <= nth (m + 1) hp 0 /\
    (** the vertex of the parabola through the three points *)
    exists c b a, 0 < a /\ v = from_fit s (- b / (2 * a)) /\ (forall x, y <= c + b * x + a * x ^ 2) /\ y = c + b * (- b / (2 * a)) + a * (- b / (2 * a)) ^ 2 /\
      forall k, (k < 3)%nat -> let x := to_fit s (nth (m - 1 + k) hp 0) in c + b * x + a * x ^ 2 = nth (m - 1 + k) f 0.
Proof.
  intros s hp f Hn Hlen Hs Hinc m Hm Hneq. unfold fit_func_min.
  replace (Nat.ltb (length hp) 3) with false by (symmetry; apply Nat.ltb_ge; lia).
  replace (Nat.ltb (length f) 3) with false by (symmetry; apply Nat.ltb_ge; lia).
  replace (Nat.eqb (length hp) (length f)) with true by (symmetry; apply Nat.eqb_eq; lia).
  cbn [orb negb]. destruct (argmin_spec f) as [_ Hmin]; [intros ->; simpl in *; lia|]. fold m in Hmin |- *.
  replace (fit_first (length f) m) with (m - 1)%nat by (unfold fit_first; destruct (Nat.eqb_spec m 0); [lia|]; destruct (Nat.eqb_spec m (length f - 1)); lia).
  destruct (quad_coeffs _ _ _ _ _ _) as [[c b] a] eqn:Q.
  pose proof (to_fit_lt s hp (m - 1 + 0) (m - 1 + 1) Hs Hinc ltac:(lia)) as X01.
  pose proof (to_fit_lt s hp (m - 1 + 1) (m - 1 + 2) Hs Hinc ltac:(lia)) as X12.
  pose proof Q as Q'. apply quad_interp in Q'; [|lra|lra|lra]. destruct Q' as (Q0 & Q1 & Q2).
  assert (Y0 : nth (m - 1 + 1) f 0 <= nth (m - 1 + 0) f 0) by (replace (m - 1 + 1)%nat with m by lia; apply Hmin; lia).
  assert (Y2 : nth (m - 1 + 1) f 0 <= nth (m - 1 + 2) f 0) by (replace (m - 1 + 1)%nat with m by lia; apply Hmin; lia).
  assert (Hn' : nth (m - 1 + 1) f 0 < nth (m - 1 + 0) f 0 \/ nth (m - 1 + 1) f 0 < nth (m - 1 + 2) f 0).
  { replace (m - 1 + 1)%nat with m by lia. replace (m - 1 + 0)%nat with (m - 1)%nat by lia. replace (m - 1 + 2)%nat with (m + 1)%nat by lia. exact Hneq. }
  set (x0 := to_fit s (nth (m - 1 + 0) hp 0)) in *. set (x1 := to_fit s (nth (m - 1 + 1) hp 0)) in *. set (x2 := to_fit s (nth (m - 1 + 2) hp 0)) in *.
  set (y0 := nth (m - 1 + 0) f 0) in *. set (y1 := nth (m - 1 + 1) f 0) in *. set (y2 := nth (m - 1 + 2) f 0) in *.
  (* slopes of the two chords *)
  assert (S01 : b + a * (x0 + x1) <= 0).
  { assert ((x1 - x0) * (b + a * (x0 + x1)) <= 0) by nra. destruct (Rle_dec (b + a * (x0 + x1)) 0); [assumption|].
    assert (0 < (x1 - x0) * (b + a * (x0 + x1))) by (apply Rmult_lt_0_compat; lra). lra. }
  assert (S12 : 0 <= b + a * (x1 + x2)).
  { assert (0 <= (x2 - x1) * (b + a * (x1 + x2))) by nra. destruct (Rle_dec 0 (b + a * (x1 + x2))); [assumption|].
    assert (0 < (x2 - x1) * - (b + a * (x1 + x2))) by (apply Rmult_lt_0_compat; lra). lra. }
  assert (Ha : 0 < a).
  { assert (0 < (x2 - x0) * a).
    { destruct Hn' as [Hl|Hl].
      - assert (b + a * (x0 + x1) < 0). { destruct (Rlt_dec (b + a * (x0 + x1)) 0); [assumption|]. assert (b + a * (x0 + x1) = 0) by lra. assert (y1 - y0 = (x1 - x0) * (b + a * (x0 + x1))) by (rewrite <- Q0, <- Q1; ring). nra. }
        nra.
      - assert (0 < b + a * (x1 + x2)). { destruct (Rlt_dec 0 (b + a * (x1 + x2))); [assumption|]. assert (b + a * (x1 + x2) = 0) by lra. assert (y2 - y1 = (x2 - x1) * (b + a * (x1 + x2))) by (rewrite <- Q1, <- Q2; ring). nra. }
        nra. }
    destruct (Rlt_dec 0 a); [assumption|]. nra. }
  assert (V : x0 <= - b / (2 * a) <= x2).
  { assert (E : - b / (2 * a) * (2 * a) = - b) by (field; lra). set (v := - b / (2 * a)) in *. split; nra. }
  assert (V' : nth (m - 1) hp 0 <= from_fit s (- b / (2 * a)) <= nth (m + 1) hp 0).
  { replace (m + 1)%nat with (m - 1 + 2)%nat by lia. replace (m - 1)%nat with (m - 1 + 0)%nat at 1 by lia.
    rewrite <- (from_to s hp (m - 1 + 0) Hs), <- (from_to s hp (m - 1 + 2) Hs) by lia. split; apply from_fit_le; [apply V|apply V]. }
  assert (Blo : nth 0 hp 0 <= nth (m - 1) hp 0) by (destruct (Nat.eq_dec (m - 1) 0) as [->|]; [lra|left; apply Hinc; lia]).
  assert (Bhi : nth (m + 1) hp 0 <= nth (length hp - 1) hp 0) by (destruct (Nat.eq_dec (m + 1) (length hp - 1)) as [->|]; [lra|left; apply Hinc; lia]).
  destruct (Rle_dec a 0); [lra|]. destruct (Rlt_dec _ (nth 0 hp 0)); [lra|]. destruct (Rlt_dec (nth (length hp - 1) hp 0) _); [lra|].
  eexists _, _. split; [reflexivity|]. split; [exact V'|]. exists c, b, a. split; [exact Ha|]. split; [reflexivity|].
  split; [intros x; apply vertex_min; exact Ha|]. split; [field; lra|].
  intros k Hk. destruct k as [|[|[|k]]]; [exact Q0|exact Q1|exact Q2|lia].
Qed.
Example C44_example : scale_ok ScaleLinear [1; 2; 3] /\ increasing [1; 2; 3] /\ argmin [3; 1; 2] = 1%nat.
Proof.
  split; [exact I|]. split.
  - intros i j H. simpl in H. destruct i as [|[|[|i]]], j as [|[|[|j]]]; simpl; try lia; lra.
  - unfold argmin. simpl. destruct (Rlt_dec 1 3); [|lra]. destruct (Rlt_dec 2 1); [lra|reflexivity].
Qed.

(** * C45 *)
Section Par.
  Context {H T E : Type} (task : H -> E + T) (dflt : T).
  Lemma set_nth_nth_error {A} i (v : A) : forall l k, nth_error (set_nth i v l) k = if Nat.eqb k i then (if Nat.ltb i (length l) then Some v else None) else nth_error l k.
  Proof.
    induction i as [|i IH]; intros [|a l] [|k]; cbn [set_nth nth_error Nat.eqb length]; try reflexivity.
    - destruct (Nat.eqb k i); reflexivity.
    - rewrite IH. destruct (Nat.eqb k i); reflexivity.
  Qed.
  Lemma list_ext {A} (l l' : list A) : (forall k, nth_error l k = nth_error l' k) -> l = l'.
  Proof.
    revert l'. induction l as [|a l IH]; intros [|a' l'] He; [reflexivity|specialize (He 0%nat); discriminate|specialize (He 0%nat); discriminate|].
    pose proof (He 0%nat) as H0. injection H0 as ->. f_equal. apply IH. intros k. apply (He (S k)).
  Qed.
  (** all tasks succeed *)
  Lemma collect_ok (res : H -> T) hp : (forall h, In h hp -> task h = inr (res h)) -> forall order recs, length recs = length hp ->
    exists out, collect task hp order recs = inr out /\ length out = length hp /\
      forall k, nth_error out k = if in_dec Nat.eq_dec k order then option_map res (nth_error hp k) else nth_error recs k.
  Proof.
    intros Hok. induction order as [|i order IH]; intros recs Hl; cbn [collect].
    - exists recs. split; [reflexivity|]. split; [exact Hl|]. intros k. destruct (in_dec _ k []) as [[]|]; reflexivity.
    - destruct (nth_error hp i) as [h|] eqn:Eh; cbn [option_map].
      + rewrite (Hok h) by (eapply nth_error_In; eauto).
        destruct (IH (set_nth i (res h) recs)) as (out & E1 & E2 & E3); [rewrite set_nth_length; exact Hl|].
        exists out. split; [exact E1|]. split; [exact E2|]. intros k. rewrite E3, set_nth_nth_error.
        destruct (in_dec _ k order) as [Hk|Hk], (in_dec _ k (i :: order)) as [Hk'|Hk']; try reflexivity.
        * exfalso. apply Hk'. right. exact Hk.
        * destruct Hk' as [->|Hk']; [|contradiction]. rewrite Nat.eqb_refl, Eh. simpl.
          assert (k < length hp)%nat by (apply nth_error_Some; congruence). rewrite (proj2 (Nat.ltb_lt k (length recs))) by lia. reflexivity.
        * destruct (Nat.eqb_spec k i) as [->|]; [exfalso; apply Hk'; left; reflexivity|reflexivity].
      + destruct (IH recs Hl) as (out & E1 & E2 & E3). exists out. split; [exact E1|]. split; [exact E2|]. intros k. rewrite E3.
        destruct (in_dec _ k order) as [Hk|Hk], (in_dec _ k (i :: order)) as [Hk'|Hk']; try reflexivity.
        * exfalso. apply Hk'. right. exact Hk.
        * destruct Hk' as [->|Hk']; [|contradiction]. rewrite Eh. simpl. apply nth_error_None. apply nth_error_None in Eh. lia.
  Qed.
  Lemma collect_fail hp : forall order recs i h e, In i order -> nth_error hp i = Some h -> task h = inl e ->
    exists e', collect task hp order recs = inl e' /\ exists h', In h' hp /\ task h' = inl e'.
  Proof.
    induction order as [|j order IH]; intros recs i h e Hi Hh He; [destruct Hi|]. cbn [collect].
    destruct (nth_error hp j) as [hj|] eqn:Ej; cbn [option_map].
    - destruct (task hj) as [ej|rj] eqn:Et.
      + exists ej. split; [reflexivity|]. exists hj. split; [eapply nth_error_In; eauto|exact Et].
      + destruct Hi as [->|Hi]; [congruence|]. eapply IH; eauto.
    - destruct Hi as [->|Hi]; [congruence|]. eapply IH; eauto.
  Qed.
  Lemma serial_collect hp : forall rest done recs, hp = done ++ rest ->
    serial_loop task rest (length done) recs = collect task hp (seq (length done) (length rest)) recs.
  Proof.
    induction rest as [|h rest IH]; intros done recs Eq; [reflexivity|]. cbn [serial_loop length seq collect].
    rewrite Eq at 1. rewrite nth_error_app2, Nat.sub_diag by lia. cbn [nth_error option_map]. destruct (task h) as [e|r]; [reflexivity|].
    specialize (IH (done ++ [h]) (set_nth (length done) r recs)). rewrite app_length in IH. cbn [length] in IH. rewrite Nat.add_1_r in IH.
    apply IH. rewrite <- app_assoc. exact Eq.
  Qed.
  (** for every completion order *)
  Theorem C45_parallel_is_serial : forall (res : H -> T) hp order, Permutation order (seq 0 (length hp)) ->
    (forall h, In h hp -> task h = inr (res h)) ->
    parallel_compute task dflt hp order = inr (map res hp) /\ serial_compute task dflt hp = inr (map res hp).
  Proof.
    assert (G : forall (res : H -> T) hp order, Permutation order (seq 0 (length hp)) -> (forall h, In h hp -> task h = inr (res h)) ->
      parallel_compute task dflt hp order = inr (map res hp)).
    { intros res hp order Hp Hok. unfold parallel_compute.
      destruct (collect_ok res hp Hok order (repeat dflt (length hp)) (repeat_length _ _)) as (out & -> & Hl & Hn).
      f_equal. apply list_ext. intros k. rewrite Hn, nth_error_map. destruct (in_dec _ k order) as [_|Hk]; [reflexivity|].
      assert (Hk' : (length hp <= k)%nat).
      { destruct (le_lt_dec (length hp) k) as [|Hlt]; [assumption|]. exfalso. apply Hk. eapply Permutation_in; [apply Permutation_sym, Hp|]. apply in_seq. lia. }
      rewrite (proj2 (nth_error_None hp k) Hk'). simpl. apply nth_error_None. rewrite repeat_length. exact Hk'. }
    intros res hp order Hp Hok. split; [apply G; assumption|].
    unfold serial_compute. rewrite (serial_collect hp hp [] _ eq_refl). apply G; [reflexivity|exact Hok].
  Qed.
  (** a failure: an exception of one of the failing tasks, never a partial result, in both modes *)
  Theorem C45_failure : forall hp order h e, Permutation order (seq 0 (length hp)) -> In h hp -> task h = inl e ->
    (exists e' h', parallel_compute task dflt hp order = inl e' /\ In h' hp /\ task h' = inl e') /\
    (exists e' h', serial_compute task dflt hp = inl e' /\ In h' hp /\ task h' = inl e').
  Proof.
    intros hp order h e Hp Hh He. apply In_nth_error in Hh. destruct Hh as [i Hi].
    assert (Hin : (i < length hp)%nat) by (apply nth_error_Some; congruence).
    split.
    - destruct (collect_fail hp order (repeat dflt (length hp)) i h e) as (e' & Ee & h' & H1 & H2); eauto.
      eapply Permutation_in; [apply Permutation_sym, Hp|]. apply in_seq. lia.
    - unfold serial_compute. rewrite (serial_collect hp hp [] _ eq_refl).
      destruct (collect_fail hp (seq 0 (length hp)) (repeat dflt (length hp)) i h e) as (e' & Ee & h' & H1 & H2); eauto. apply in_seq. lia.
  Qed.
End Par.
Example C45_example : parallel_compute (fun h : nat => @inr unit nat (h * h)%nat) 0%nat [3; 4; 5]%nat [2; 0; 1]%nat = inr [9; 16; 25]%nat.
Proof. reflexivity. Qed.

(** * C46 *)
Theorem C46_add_monoid : forall a b c, batch_add (batch_add a b) c = batch_add a (batch_add b c) /\
  batch_add new_batch a = a /\ batch_add a new_batch = a.
Proof.
  intros [a1 a2 a3 a4] [b1 b2 b3 b4] [c1 c2 c3 c4]. unfold batch_add, new_batch; simpl. rewrite app_assoc, app_nil_r.
  repeat split; f_equal; ring.
Qed.
Theorem C46_add_append : forall a b t, batch_append (batch_add a b) t = batch_add a (batch_append b t).
Proof. intros [a1 a2 a3 a4] [b1 b2 b3 b4] t. unfold batch_append, batch_add; simpl. rewrite app_assoc. f_equal; ring. Qed.
Theorem C46_appended : forall ts, let b := fold_left batch_append ts new_batch in
  b_tasks b = ts /\ b_proc b = lsum ts t_total /\ b_total b = lsum ts t_total /\ b_init b = 0.
Proof.
  intros ts. cbv zeta.
  assert (G : forall ts b, b_tasks (fold_left batch_append ts b) = b_tasks b ++ ts /\ b_proc (fold_left batch_append ts b) = b_proc b + lsum ts t_total /\
     b_total (fold_left batch_append ts b) = b_total b + lsum ts t_total /\ b_init (fold_left batch_append ts b) = b_init b).
  { induction ts0 as [|t ts0 IH]; intros b; cbn [fold_left]; [rewrite app_nil_r; unfold lsum; simpl; repeat split; ring|].
    destruct (IH (batch_append b t)) as (-> & -> & -> & ->). unfold batch_append; simpl. rewrite <- app_assoc. unfold lsum; simpl. repeat split; ring. }
  destruct (G ts new_batch) as (-> & -> & -> & ->). unfold new_batch; simpl. repeat split; ring.
Qed.
Lemma lsum_app {A} (l l' : list A) f : lsum (l ++ l') f = lsum l f + lsum l' f.
Proof. unfold lsum. induction l; simpl; [ring|]. rewrite IHl. ring. Qed.
Theorem C46_average_of_sum : forall f a b ma mb, batch_avg f a = Some ma -> batch_avg f b = Some mb ->
  let na := INR (length (b_tasks a)) in let nb := INR (length (b_tasks b)) in
  batch_avg f (batch_add a b) = Some ((na * ma + nb * mb) / (na + nb)).
Proof.
  intros f a b ma mb Ha Hb na nb. unfold batch_avg, batch_add in *. cbn [b_tasks].
  assert (Hla : 0 < na) by (unfold na; destruct (b_tasks a); [discriminate|apply lt_0_INR; simpl; lia]).
  assert (Hlb : 0 < nb) by (unfold nb; destruct (b_tasks b); [discriminate|apply lt_0_INR; simpl; lia]).
  assert (Ea : lsum (b_tasks a) f = na * ma) by (unfold na in *; destruct (b_tasks a) as [|t ts]; [discriminate|]; assert (Em : lsum (t :: ts) f / INR (length (t :: ts)) = ma) by congruence; rewrite <- Em; set (N := INR (length (t :: ts))) in *; set (L := lsum (t :: ts) f); field; lra).
  assert (Eb : lsum (b_tasks b) f = nb * mb) by (unfold nb in *; destruct (b_tasks b) as [|t ts]; [discriminate|]; assert (Em : lsum (t :: ts) f / INR (length (t :: ts)) = mb) by congruence; rewrite <- Em; set (N := INR (length (t :: ts))) in *; set (L := lsum (t :: ts) f); field; lra).
  rewrite <- Ea, <- Eb, <- lsum_app. unfold na, nb. rewrite <- plus_INR, <- app_length.
  destruct (b_tasks a) as [|t ts]; [discriminate|]. reflexivity.
Qed.

(** * C47 *)
Theorem C47_pdhg_no_tolerance : forall P l it t, p_tol P = None -> p_btest P = Some t -> (1 <= it)%nat ->
  let '(x, f) := pdhg_call P l it in exists r0, i_residual0_cv f = Some r0 /\ cv_loss f = test_norm P (pdhg_dtt P l) x / r0.
Proof.
  intros P l it t Ht Hb Hit. destruct (pdhg_char P l it) as (K & HK & Hbk & Hx & _ & Hend).
  destruct (pdhg_call P l it) as [x f]. cbn [fst snd] in Hbk, Hx. destruct Hbk as (B1 & _ & B3 & B4 & _ & _ & B7).
  destruct Hend as [[_ Hs]|[-> _]]; [exfalso; eapply no_tol_no_stop; eauto|].
  unfold cv_loss. rewrite B3, B4, B7. unfold pdhg_f0, init_info. rewrite Ht, Hb. cbn [initialize_b_masks fst snd is_some orb set_residual0_cv set_residual0 i_residual0_cv i_max_iterations new_info andb].
  eexists. split; [reflexivity|]. replace (it - 1 <? it)%nat with true by (symmetry; apply Nat.ltb_lt; lia).
  replace (S (it - 1)) with it by lia. rewrite Hx. reflexivity.
Qed.
Theorem C47_fista_no_tolerance : forall P l r it t, p_tol P = None -> p_btest P = Some t -> (1 <= it)%nat ->
  let '(x, f) := fista_call P l r it in exists r0, i_residual0_cv f = Some r0 /\ cv_loss f = test_norm P (fi_dtt P) x / r0.
Proof.
  intros P l r it t Ht Hb Hit. destruct (fista_char P l r it) as (K & HK & Hbk & Hx & _ & Hend).
  destruct (fista_call P l r it) as [x f]. cbn [fst snd] in Hbk, Hx. destruct Hbk as (B1 & _ & B3 & B4 & _ & _ & B7).
  destruct Hend as [[_ Hs]|[-> _]]; [exfalso; eapply no_tol_no_stop; eauto|].
  unfold cv_loss. rewrite B3, B4, B7. unfold fista_f0, init_info. rewrite Ht, Hb. cbn [initialize_b_masks fst snd is_some orb set_residual0_cv set_residual0 i_residual0_cv i_max_iterations new_info andb].
  eexists. split; [reflexivity|]. replace (it - 1 <? it)%nat with true by (symmetry; apply Nat.ltb_lt; lia).
  replace (S (it - 1)) with it by lia. rewrite Hx. reflexivity.
Qed.
Lemma init_info_max m dt dtt bm bt tol Ax f : i_max_iterations (init_info m dt dtt bm bt tol Ax f) = i_max_iterations f.
Proof. unfold init_info. destruct bt, tol; reflexivity. Qed.
(** REFUTED with a tolerance: whenever the solver stops early the loss is zero, whatever the held-out residual *)
Theorem C47_early_stop_refuted : forall P l it, (i_iterations (snd (pdhg_call P l it)) < it)%nat -> cv_loss (snd (pdhg_call P l it)) = 0.
Proof.
  intros P l it H. destruct (pdhg_char P l it) as (K & HK & (B1 & _ & _ & B4 & _ & _ & B7) & _). rewrite B1 in H.
  unfold cv_loss. destruct (i_residual0_cv _); [|reflexivity]. rewrite B4, B7.
  unfold pdhg_f0 at 1. rewrite init_info_max. cbn [new_info i_max_iterations].
  replace (it - 1 <? K)%nat with false by (symmetry; apply Nat.ltb_ge; lia). rewrite Bool.andb_false_r. unfold Rdiv. ring.
Qed.
(** ... and it does stop early: identity operator, two pixels, the second held out *)
Definition cv_demo : problem :=
  mkProblem 2 2 id_op (fun i => if Nat.eqb i 1 then 1 else 0) None None None None None (Some (fun i => if Nat.eqb i 1 then 1 else 0)) (Some 10) 1 []
    (new_dterm K_l2 None) (new_dterm K_l2 None).
Lemma norm_l2_sq n x : norm_l2 n x ^ 2 = norm2 n x.
Proof. unfold norm_l2. rewrite pow2_sqrt; [reflexivity|apply norm2_nonneg]. Qed.
Lemma cv_train x : train_norm cv_demo (pdhg_dt cv_demo None) x = x 0%nat ^ 2.
Proof.
  unfold train_norm. replace (residual_norm _ _ _) with (norm2 2 (compute_residual (pdhg_dt cv_demo None) x (fst (initialize_b_masks (p_bmask cv_demo) (p_btest cv_demo))))) by (symmetry; apply norm_l2_sq).
  unfold norm2. cbn -[pow]. unfold vones. ring.
Qed.
Lemma cv_test x : test_norm cv_demo (pdhg_dtt cv_demo None) x = (1 - x 1%nat) ^ 2.
Proof.
  unfold test_norm. replace (residual_norm _ _ _) with (norm2 2 (compute_residual (pdhg_dtt cv_demo None) x (snd (initialize_b_masks (p_bmask cv_demo) (p_btest cv_demo))))) by (symmetry; apply norm_l2_sq).
  unfold norm2. cbn -[pow]. unfold vones. ring.
Qed.
Theorem C47_early_stop_happens : (i_iterations (snd (pdhg_call cv_demo None 5)) < 5)%nat /\ cv_loss (snd (pdhg_call cv_demo None 5)) = 0 /\
  0 < test_norm cv_demo (pdhg_dtt cv_demo None) (fst (pdhg_call cv_demo None 5)).
Proof.
  assert (H1 : forall i, pd_x (pdhg_iterate cv_demo None 1) i = 0).
  { intros i. cbn. unfold vsub, vmul. cbn. unfold update_dual, vzeros, vones, cv_demo. cbn.
    destruct (Nat.eqb i 1); unfold opt_sub; simpl; ring. }
  destruct (pdhg_char cv_demo None 5) as (K & HK & (B1 & _) & Hx & Hns & Hend).
  assert (Hs : (tracking cv_demo && below_tol (p_tol cv_demo) (train_norm cv_demo (pdhg_dt cv_demo None) (pd_x (pdhg_iterate cv_demo None 1))))%bool = true).
  { unfold tracking, below_tol. rewrite cv_train, H1. cbn [cv_demo p_tol is_some p_bmask p_btest initialize_b_masks snd orb andb].
    destruct (Rlt_dec _ 10) as [_|n]; [reflexivity|]. lra. }
  assert (K1 : K = 1%nat).
  { destruct (le_lt_dec K 1) as [Hl|Hl].
    - destruct K as [|[|K]]; [|reflexivity|lia]. destruct Hend as [[Hc _]|[Hc _]]; lia.
    - rewrite (Hns 1%nat) in Hs by lia. discriminate. }
  rewrite B1, Hx, K1. split; [lia|]. split; [apply C47_early_stop_refuted; rewrite B1; lia|].
  rewrite cv_test, H1. lra.
Qed.
(** SIRT records its residuals before updating: the loss is the one of the previous iterate, not of the returned volume *)
Theorem C47_sirt_previous_iterate : forall P it t, p_tol P = None -> p_btest P = Some t -> (1 <= it)%nat ->
  exists r0, i_residual0_cv (snd (sirt_call P it)) = Some r0 /\
    cv_loss (snd (sirt_call P it)) = test_norm P (sirt_dtt P) (fst (sirt_call P (it - 1))) / r0.
Proof.
  intros P it t Ht Hb Hit. destruct (sirt_char P it) as (K & HK & (B1 & _ & B3 & B4 & _ & _ & B7) & _ & Hend).
  destruct Hend as [(_ & Hs & _)|(-> & _ & _)]; [exfalso; eapply no_tol_no_stop; eauto|].
  unfold cv_loss. rewrite B3, B4, B7. unfold sirt_f0, init_info. rewrite Ht, Hb. cbn [initialize_b_masks fst snd is_some orb set_residual0_cv set_residual0 i_residual0_cv i_max_iterations new_info andb].
  eexists. split; [reflexivity|]. replace (it - 1 <? it)%nat with true by (symmetry; apply Nat.ltb_lt; lia).
  assert (Ew : with_tol P None = P) by (destruct P; simpl in *; subst; reflexivity).
  pose proof (sirt_no_tol P (it - 1)) as Hn. rewrite Ew in Hn. rewrite Hn. reflexivity.
Qed.

(** * C99: hyper-parameter grid *)
Lemma step_pow n k : (0 < n)%nat -> pow10 (1 / INR n) ^ k = pow10 (INR k / INR n).
Proof. intros H. rewrite pow10_pow. f_equal. field. apply not_0_INR. lia. Qed.
Lemma in_arange k z : In k (arange z) <-> (Z.of_nat k < z)%Z.
Proof. unfold arange. rewrite in_seq. lia. Qed.
(** aligned grid: exactly the values 10^(j/n) in the interval (up to 0.1% above its end) *)
Theorem C99_aligned_sound : forall start stop n v, 0 < start -> start <= stop -> (0 < n)%nat -> In v (get_lambda_range start stop n true) ->
  start <= v /\ v * (1 - 1 / 1000) <= stop /\ exists j : Z, v = pow10 (IZR j / INR n).
Proof.
  intros start stop n v Hs Hst Hn Hv. unfold get_lambda_range in Hv. apply filter_In in Hv. destruct Hv as [Hv Hf].
  destruct (Rle_dec start v) as [H1|]; [|discriminate]. destruct (Rle_dec _ stop) as [H2|]; [|discriminate].
  split; [exact H1|]. split; [exact H2|]. apply in_map_iff in Hv. destruct Hv as (k & <- & Hk).
  exists (rfloor (log10 start) * Z.of_nat n + Z.of_nat k)%Z. rewrite step_pow by exact Hn. rewrite <- pow10_plus. f_equal.
  rewrite plus_IZR, mult_IZR, <- !INR_IZR_INZ. field. apply not_0_INR. lia.
Qed.
Theorem C99_aligned_complete : forall start stop n (j : Z), 0 < start -> start <= stop -> (0 < n)%nat ->
  start <= pow10 (IZR j / INR n) <= stop -> In (pow10 (IZR j / INR n)) (get_lambda_range start stop n true).
Proof.
  intros start stop n j Hs Hst Hn Hj. unfold get_lambda_range.
  assert (HN : 0 < INR n) by (apply lt_0_INR; exact Hn).
  set (f := rfloor (log10 start)). set (c := rceil (log10 stop)).
  pose proof (rfloor_spec (log10 start)) as Hf. fold f in Hf. pose proof (rceil_spec (log10 stop)) as Hc. fold c in Hc.
  assert (L1 : log10 start <= IZR j / INR n) by (apply pow10_le_inv; rewrite pow10_log10; lra).
  assert (L2 : IZR j / INR n <= log10 stop) by (apply pow10_le_inv; rewrite pow10_log10; lra).
  assert (J1 : (f * Z.of_nat n <= j)%Z).
  { apply le_IZR. rewrite mult_IZR, <- INR_IZR_INZ. apply Rmult_le_reg_r with (/ INR n); [apply Rinv_0_lt_compat, HN|].
    replace (IZR f * INR n * / INR n) with (IZR f) by (field; lra). unfold Rdiv in *. lra. }
  assert (J2 : (j <= c * Z.of_nat n)%Z).
  { apply le_IZR. rewrite mult_IZR, <- INR_IZR_INZ. apply Rmult_le_reg_r with (/ INR n); [apply Rinv_0_lt_compat, HN|].
    replace (IZR c * INR n * / INR n) with (IZR c) by (field; lra). unfold Rdiv in *. lra. }
  assert (EN : rceil (INR n * log10 (pow10 (IZR c) / pow10 (IZR f)) - 1 / 1000) = (Z.of_nat n * (c - f))%Z).
  { rewrite log10_div by apply pow10_pos. rewrite !log10_pow10, <- minus_IZR, INR_IZR_INZ, <- mult_IZR. apply rceil_unique. lra. }
  rewrite EN. apply filter_In. split.
  - apply in_map_iff. exists (Z.to_nat (j - f * Z.of_nat n)). split.
    + rewrite step_pow by exact Hn. rewrite <- pow10_plus. f_equal. rewrite INR_IZR_INZ, Z2Nat.id by lia.
      rewrite minus_IZR, mult_IZR, <- INR_IZR_INZ. field. lra.
    + apply in_arange. rewrite Z2Nat.id by lia. lia.
  - destruct (Rle_dec start _); [|lra]. destruct (Rle_dec _ stop); [reflexivity|]. pose proof (pow10_pos (IZR j / INR n)). lra.
Qed.
(** the other grid starts at [start], its k-th value is start * 10^(k/n), and it reaches [stop] up to the tolerance
    without overshooting it by more than one step *)
Theorem C99_unaligned : forall start stop n, 0 < start -> start <= stop -> (0 < n)%nat ->
  let l := get_lambda_range start stop n false in
  (forall k, (k < length l)%nat -> nth k l 0 = start * pow10 (INR k / INR n)) /\ (0 < length l)%nat /\
  let last := nth (length l - 1) l 0 in
  stop * pow10 (- (1 / 1000) / INR n) <= last < stop * pow10 (1 / INR n).
Proof.
  intros start stop n Hs Hst Hn l. assert (HN : 0 < INR n) by (apply lt_0_INR; exact Hn).
  assert (L0 : 0 <= log10 (stop / start)).
  { apply pow10_le_inv. rewrite pow10_log10 by (apply Rdiv_lt_0_compat; lra). unfold pow10. rewrite Rpower_O by lra.
    apply Rmult_le_reg_r with start; [lra|]. replace (stop / start * start) with stop by (field; lra). lra. }
  set (x := INR n * log10 (stop / start)). assert (Hx : 0 <= x) by (apply Rmult_le_pos; lra).
  pose proof (rceil_spec (x - 1 / 1000)) as Hc. set (c := rceil (x - 1 / 1000)) in *.
  assert (Hc0 : (0 <= c)%Z) by (apply IZR_lt_succ_inv; lra).
  assert (El : l = map (fun k => start * pow10 (1 / INR n) ^ k) (seq 0 (Z.to_nat (c + 1)))) by reflexivity.
  assert (Hlen : length l = Z.to_nat (c + 1)) by (rewrite El, map_length, seq_length; reflexivity).
  assert (Hk : forall k, (k < length l)%nat -> nth k l 0 = start * pow10 (INR k / INR n)).
  { intros k Hk. rewrite El, (nth_indep _ 0 (start * pow10 (1 / INR n) ^ 0)) by (rewrite <- El; exact Hk).
    rewrite (map_nth (fun k => start * pow10 (1 / INR n) ^ k) (seq 0 (Z.to_nat (c + 1))) 0%nat), seq_nth by (rewrite <- Hlen; exact Hk).
    rewrite step_pow by exact Hn. reflexivity. }
  split; [exact Hk|]. split; [lia|]. cbv zeta. rewrite Hk by lia.
  replace (INR (length l - 1)) with (IZR c) by (rewrite INR_IZR_INZ; f_equal; lia).
  assert (Es : stop = start * pow10 (log10 (stop / start))) by (rewrite pow10_log10 by (apply Rdiv_lt_0_compat; lra); field; lra).
  assert (Ex : log10 (stop / start) = x / INR n) by (unfold x; field; lra).
  rewrite Es at 1 2. rewrite Ex, !Rmult_assoc, <- !pow10_plus. unfold Rdiv. rewrite <- !Rmult_plus_distr_r.
  assert (Hi : 0 < / INR n) by (apply Rinv_0_lt_compat; exact HN).
  split.
  - apply Rmult_le_compat_l; [lra|]. apply pow10_le. apply Rmult_le_compat_r; lra.
  - apply Rmult_lt_compat_l; [lra|]. apply pow10_lt. apply Rmult_lt_compat_r; lra.
Qed.
Example C99_example : In 1 (get_lambda_range (1 / 2) 2 4 true).
Proof.
  assert (E : pow10 (IZR 0 / INR 4) = 1) by (unfold Rdiv; rewrite Rmult_0_l; unfold pow10; rewrite Rpower_O by lra; reflexivity).
  pose proof (C99_aligned_complete (1 / 2) 2 4 0 ltac:(lra) ltac:(lra) ltac:(lia)) as H. rewrite E in H. apply H. lra.
Qed.

(** * C100 *)
Theorem C100_init_kwds_refuted : forall n_params n_kwds, (0 < n_kwds)%nat -> set_task_init_ok n_params = true -> call_init_ok n_params n_kwds = false.
Proof. intros p k Hk H. apply Nat.eqb_eq in H. subst. unfold call_init_ok. apply Nat.eqb_neq. lia. Qed.
