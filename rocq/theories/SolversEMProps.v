(** Theorems C37-C40: MLEM, SART and the power method. *)
From Verif Require Import Sums DataTermsModel DataTermsProofs SolversModel SolversSpec SolversGeneric SolversProps
  RegularizersModel SolversConv.
From Coq Require Import Permutation.

(** [x k] = the volume returned by a k-iteration MLEM run without tolerance. *)
Definition mlem_volume (P : problem) (k : nat) : vec := fst (mlem_call (with_tol P None) k).

Definition nonneg_mat (m n : nat) (M : mat) : Prop := forall i j, (i < m)%nat -> (j < n)%nat -> 0 <= M i j.
Definition nonneg_vec (n : nat) (x : vec) : Prop := forall i, (i < n)%nat -> 0 <= x i.

Lemma eps32_pos : 0 < eps32.
Proof. unfold eps32. apply Rinv_0_lt_compat. apply pow_lt. lra. Qed.

Lemma mlem_volume_eq P k : mlem_volume P k = mlem_iterate P k.
Proof. apply mlem_no_tol. Qed.

Lemma Rdiv_nonneg a b : 0 <= a -> 0 <= b -> 0 <= a / b.
Proof.
  intros Ha Hb. destruct (Req_dec b 0) as [->|H]; [unfold Rdiv; rewrite Rinv_0, Rmult_0_r; lra|].
  apply Rdiv_le_0_compat; lra.
Qed.

(** * C37 non-negativity: any limits with a non-negative upper limit, non-negative masks, non-negative start *)
Theorem C37_mlem_nonnegative : forall P M k,
  p_op P = mat_op (p_m P) (p_n P) M -> nonneg_mat (p_m P) (p_n P) M -> nonneg_vec (p_m P) (p_b P) ->
  (forall i, 0 <= mask_at (train_mask P) i) -> (forall j, 0 <= mask_at (p_xmask P) j) ->
  (forall u j, p_upper P = Some u -> (j < p_n P)%nat -> 0 <= u j) ->
  nonneg_vec (p_n P) (pick_x0 (p_x0 P) vones) ->
  nonneg_vec (p_n P) (mlem_volume P k).
Proof.
  intros P M k Hop HM Hb Htm Hxm Hu H0. rewrite mlem_volume_eq. unfold mlem_iterate.
  induction k as [|k IH]; simpl.
  - intros j Hj. unfold ml_x0, mul_mask. specialize (Hxm j). unfold mask_at in Hxm. destruct (p_xmask P); [|apply H0, Hj].
    apply Rmult_le_pos; [apply H0, Hj|exact Hxm].
  - set (x := iterate _ k _) in *. intros j Hj. unfold mlem_step, mlem_update, constrain.
    assert (Hc : 0 <= np_clip (p_lower P) (p_upper P) (fun j => x j * (opAt (p_op P) (fun i => p_b P i / Rmax (add_background (fi_dt P) (opA (p_op P) x) i) eps32) j / ml_tau P j)) j).
    { assert (Hv : 0 <= x j * (opAt (p_op P) (fun i => p_b P i / Rmax (add_background (fi_dt P) (opA (p_op P) x) i) eps32) j / ml_tau P j)).
      { apply Rmult_le_pos; [apply IH, Hj|]. apply Rdiv_nonneg.
        - rewrite Hop at 1. simpl. apply rsum_nonneg. intros i Hi. apply Rmult_le_pos; [apply HM; auto|].
          apply Rdiv_le_0_compat; [apply Hb, Hi|]. eapply Rlt_le_trans; [apply eps32_pos|apply Rmax_r].
        - unfold ml_tau. rewrite Hop. simpl. apply rsum_nonneg. intros i Hi. apply Rmult_le_pos; [apply HM; auto|].
          rewrite ones_masked_at. apply Htm. }
      unfold np_clip. set (v := x j * _) in *. 
      assert (Hv' : 0 <= match p_lower P with Some l => Rmax v (l j) | None => v end).
      { destruct (p_lower P); [|exact Hv]. eapply Rle_trans; [exact Hv|apply Rmax_l]. }
      destruct (p_upper P) as [u|] eqn:E; [|exact Hv']. apply Rmin_glb; [exact Hv'|]. apply (Hu u j eq_refl Hj). }
    unfold mul_mask. specialize (Hxm j). unfold mask_at in Hxm. destruct (p_xmask P); [apply Rmult_le_pos; [exact Hc|exact Hxm]|exact Hc].
Qed.

(** the plain EM setting: no limits, no masks, no background *)
Definition plain (P : problem) : Prop :=
  p_lower P = None /\ p_upper P = None /\ p_xmask P = None /\ p_bmask P = None /\ p_btest P = None /\
  dt_background (p_dterm P) = None.
Definition col_sum (m : nat) (M : mat) (j : nat) : R := rsum m (fun i => M i j).

Lemma mlem_step_plain P M x j : p_op P = mat_op (p_m P) (p_n P) M -> plain P ->
  mlem_step P x j = x j * (rsum (p_m P) (fun i => M i j * (p_b P i / Rmax (mv (p_n P) M x i) eps32)) / col_sum (p_m P) M j).
Proof.
  intros Hop (H1 & H2 & H3 & H4 & H5 & H6). unfold mlem_step, mlem_update, constrain, mul_mask, np_clip.
  rewrite H1, H2, H3. unfold ml_tau. rewrite H4, H5. simpl. rewrite Hop. simpl. unfold mtv, col_sum.
  unfold add_background, fi_dt, assigned, assign_data. simpl. rewrite H6.
  unfold ones_masked, mul_mask, vones. f_equal. f_equal. apply rsum_ext. intros; ring.
Qed.

(** sensitivity-weighted total = total counts *)
Theorem C37_mlem_counts : forall P M k,
  p_op P = mat_op (p_m P) (p_n P) M -> plain P ->
  (forall j, (j < p_n P)%nat -> col_sum (p_m P) M j <> 0) ->
  (forall i, (i < p_m P)%nat -> eps32 <= mv (p_n P) M (mlem_volume P k) i) ->
  rsum (p_n P) (fun j => col_sum (p_m P) M j * mlem_volume P (S k) j) = rsum (p_m P) (p_b P).
Proof.
  intros P M k Hop Hp Hc Hg. rewrite mlem_volume_eq in *.
  change (mlem_iterate P (S k)) with (mlem_step P (mlem_iterate P k)). set (x := mlem_iterate P k) in *.
  rewrite (rsum_ext (p_n P) _ (fun j => rsum (p_m P) (fun i => M i j * x j * (p_b P i / mv (p_n P) M x i)))).
  - rewrite rsum_swap. apply rsum_ext. intros i Hi. rewrite rsum_scal_r. fold (mv (p_n P) M x i).
    specialize (Hg i Hi). pose proof eps32_pos. field. lra.
  - intros j Hj. rewrite (mlem_step_plain P M x j Hop Hp).
    specialize (Hc j Hj).
    replace (col_sum (p_m P) M j * (x j * (rsum (p_m P) (fun i => M i j * (p_b P i / Rmax (mv (p_n P) M x i) eps32)) / col_sum (p_m P) M j)))
      with (x j * rsum (p_m P) (fun i => M i j * (p_b P i / Rmax (mv (p_n P) M x i) eps32))) by (field; exact Hc).
    rewrite <- rsum_scal. apply rsum_ext. intros i Hi. rewrite Rmax_left by (apply Hg, Hi). ring.
Qed.

(** * C38 *)
(** Poisson log-likelihood up to a constant *)
Definition log_lik (m n : nat) (M : mat) (b x : vec) : R := rsum m (fun i => b i * ln (mv n M x i) - mv n M x i).

(** Jensen for ln with weights p summing to one *)
Lemma jensen_ln n p r : (forall j, (j < n)%nat -> 0 <= p j) -> rsum n p = 1 -> (forall j, (j < n)%nat -> 0 < r j) ->
  0 < rsum n (fun j => p j * r j) ->
  rsum n (fun j => p j * ln (r j)) <= ln (rsum n (fun j => p j * r j)).
Proof.
  intros Hp H1 Hr HS. set (S := rsum n (fun j => p j * r j)) in *.
  assert (H : forall j, (j < n)%nat -> p j * ln (r j) <= p j * ln S + (p j * r j * / S - p j)).
  { intros j Hj. specialize (Hr j Hj). specialize (Hp j Hj).
    assert (ln (r j) <= ln S + (r j / S - 1)).
    { assert (E : ln (r j) = ln S + ln (r j / S)).
      { rewrite <- ln_mult; [f_equal; field; lra|lra|apply Rdiv_lt_0_compat; lra]. }
      rewrite E. apply Rplus_le_compat_l. apply ln_le_sub1. apply Rdiv_lt_0_compat; lra. }
    replace (p j * ln S + (p j * r j * / S - p j)) with (p j * (ln S + (r j / S - 1))) by (unfold Rdiv; ring).
    apply Rmult_le_compat_l; auto. }
  eapply Rle_trans; [apply rsum_le; exact H|]. rewrite rsum_plus, rsum_minus, !rsum_scal_r. fold S. rewrite H1.
  right. field. lra.
Qed.

Lemma xlogx t : 0 < t -> 0 <= t * ln t - t + 1.
Proof.
  intros Ht. assert (ln (/ t) <= / t - 1) by (apply ln_le_sub1; apply Rinv_0_lt_compat; exact Ht).
  rewrite ln_Rinv in H by exact Ht. apply Rmult_le_compat_l with (r := t) in H; [|lra].
  replace (t * (/ t - 1)) with (1 - t) in H by (field; lra). lra.
Qed.

(** generalised Kullback-Leibler distance weighted by the sensitivities *)
Definition kl_dist (n : nat) (s z x : vec) : R := rsum n (fun j => s j * (z j * ln (z j / x j) - z j + x j)).

Lemma em_gain m n M b x (x' : vec) :
  nonneg_mat m n M -> (forall i, (i < m)%nat -> 0 < b i) -> (forall j, (j < n)%nat -> 0 < x j) ->
  (forall j, (j < n)%nat -> 0 < col_sum m M j) -> (forall i, (i < m)%nat -> 0 < mv n M x i) ->
  (forall j, (j < n)%nat -> x' j = x j * (rsum m (fun i => M i j * (b i / mv n M x i)) / col_sum m M j)) ->
  (forall j, (j < n)%nat -> 0 < x' j) /\ log_lik m n M b x + kl_dist n (col_sum m M) x' x <= log_lik m n M b x'.
Proof.
  intros HM Hb Hx Hc Hy Hx'.
  assert (Hpos : forall j, (j < n)%nat -> 0 < rsum m (fun i => M i j * (b i / mv n M x i))).
  { intros j Hj. specialize (Hc j Hj).
    assert (Hex : exists i, (i < m)%nat /\ 0 < M i j).
    { destruct (Classical_Prop.classic (exists i, (i < m)%nat /\ 0 < M i j)) as [H|H]; [exact H|exfalso].
      assert (col_sum m M j = 0); [|lra]. apply rsum_zero. intros i Hi.
      destruct (Rle_lt_or_eq_dec 0 (M i j) (HM i j Hi Hj)) as [Hlt|He]; [exfalso; apply H; exists i; auto|auto]. }
    destruct Hex as (i & Hi & Hlt). apply (rsum_pos m _ i Hi).
    - intros k Hk. apply Rmult_le_pos; [apply HM; auto|]. left. apply Rdiv_lt_0_compat; auto.
    - apply Rmult_lt_0_compat; [exact Hlt|]. apply Rdiv_lt_0_compat; auto. }
  assert (Hx'p : forall j, (j < n)%nat -> 0 < x' j).
  { intros j Hj. rewrite (Hx' j Hj). apply Rmult_lt_0_compat; [auto|]. apply Rdiv_lt_0_compat; auto. }
  split; [exact Hx'p|].
  set (y := mv n M x) in *. set (y' := mv n M x').
  assert (Hy' : forall i, (i < m)%nat -> 0 < y' i).
  { intros i Hi. specialize (Hy i Hi).
    assert (Hex : exists j, (j < n)%nat /\ 0 < M i j * x j).
    { destruct (Classical_Prop.classic (exists j, (j < n)%nat /\ 0 < M i j * x j)) as [H|H]; [exact H|exfalso].
      assert (y i = 0); [|lra]. apply rsum_zero. intros j Hj.
      assert (0 <= M i j * x j) by (apply Rmult_le_pos; [apply HM; auto|left; auto]).
      destruct (Rle_lt_or_eq_dec 0 (M i j * x j) H0) as [Hlt|He]; [exfalso; apply H; exists j; auto|auto]. }
    destruct Hex as (j & Hj & Hlt). apply (rsum_pos n _ j Hj).
    - intros k Hk. apply Rmult_le_pos; [apply HM; auto|left; auto].
    - apply Rmult_lt_0_compat; [|auto]. specialize (Hx j Hj). specialize (HM i j Hi Hj).
      destruct (Rle_lt_or_eq_dec 0 _ HM) as [?|He]; [assumption|]. rewrite <- He, Rmult_0_l in Hlt. lra. }
  (* log part, row by row *)
  assert (Hrow : forall i, (i < m)%nat ->
     rsum n (fun j => M i j * x j / y i * ln (x' j / x j)) <= ln (y' i) - ln (y i)).
  { intros i Hi. specialize (Hy i Hi) as Hyi. specialize (Hy' i Hi) as Hyi'.
    assert (E : rsum n (fun j => M i j * x j / y i * (x' j / x j)) = y' i / y i).
    { rewrite (rsum_ext n _ (fun j => M i j * x' j * / y i)).
      - rewrite rsum_scal_r. reflexivity.
      - intros j Hj. specialize (Hx j Hj). field. lra. }
    assert (H1 : rsum n (fun j => M i j * x j / y i) = 1).
    { unfold Rdiv. rewrite rsum_scal_r. fold (mv n M x i). fold y. field. lra. }
    eapply Rle_trans; [apply (jensen_ln n (fun j => M i j * x j / y i) (fun j => x' j / x j))|].
    - intros j Hj. apply Rdiv_le_0_compat; [apply Rmult_le_pos; [apply HM; auto|left; auto]|exact Hyi].
    - exact H1.
    - intros j Hj. apply Rdiv_lt_0_compat; auto.
    - rewrite E. apply Rdiv_lt_0_compat; auto.
    - rewrite E. unfold Rdiv. rewrite ln_mult by (auto; apply Rinv_0_lt_compat; auto). rewrite ln_Rinv by auto. lra. }
  assert (Hlog : rsum n (fun j => col_sum m M j * x' j * ln (x' j / x j)) <= rsum m (fun i => b i * (ln (y' i) - ln (y i)))).
  { apply Rle_trans with (rsum m (fun i => b i * rsum n (fun j => M i j * x j / y i * ln (x' j / x j)))).
    - right. rewrite (rsum_ext m _ (fun i => rsum n (fun j => (M i j * (b i / y i)) * (x j * ln (x' j / x j))))).
      + rewrite rsum_swap. apply rsum_ext. intros j Hj. rewrite rsum_scal_r.
        assert (E : col_sum m M j * x' j = x j * rsum m (fun i => M i j * (b i / y i))).
        { rewrite (Hx' j Hj). fold y. specialize (Hc j Hj). field. lra. }
        rewrite E. ring.
      + intros i Hi. rewrite <- rsum_scal. apply rsum_ext. intros; unfold Rdiv; ring.
    - apply rsum_le. intros i Hi. apply Rmult_le_compat_l; [left; auto|]. apply Hrow, Hi. }
  assert (Hlin : forall z, rsum m (mv n M z) = rsum n (fun j => col_sum m M j * z j)).
  { intros z. unfold mv. rewrite rsum_swap. apply rsum_ext. intros j Hj. unfold col_sum. rewrite <- rsum_scal_r. reflexivity. }
  unfold log_lik. rewrite !rsum_minus. rewrite !Hlin.
  assert (Hx1 : kl_dist n (col_sum m M) x' x = rsum n (fun j => col_sum m M j * x' j * ln (x' j / x j)) - rsum n (fun j => col_sum m M j * x' j) + rsum n (fun j => col_sum m M j * x j)).
  { unfold kl_dist. rewrite <- rsum_minus, <- rsum_plus. apply rsum_ext. intros j Hj. ring. }
  rewrite (rsum_ext m (fun i => b i * (ln (y' i) - ln (y i))) (fun i => b i * ln (y' i) - b i * ln (y i))) in Hlog by (intros; ring).
  rewrite rsum_minus in Hlog. fold y y'. lra.
Qed.

Lemma kl_nonneg n s z x : (forall j, (j < n)%nat -> 0 < s j) -> (forall j, (j < n)%nat -> 0 <= z j) -> (forall j, (j < n)%nat -> 0 < x j) -> 0 <= kl_dist n s z x.
Proof.
  intros Hs Hz Hx. apply rsum_nonneg. intros j Hj. specialize (Hs j Hj). specialize (Hx j Hj). apply Rmult_le_pos; [lra|].
  destruct (Rle_lt_or_eq_dec 0 _ (Hz j Hj)) as [H|E]; [|rewrite <- E; lra].
  pose proof (xlogx (z j / x j) ltac:(apply Rdiv_lt_0_compat; auto)) as G. apply Rmult_le_compat_l with (r := x j) in G; [|lra].
  rewrite Rmult_0_r in G. eapply Rle_trans; [exact G|]. right. field. lra.
Qed.
Lemma em_step m n M b x (x' : vec) :
  nonneg_mat m n M -> (forall i, (i < m)%nat -> 0 < b i) -> (forall j, (j < n)%nat -> 0 < x j) ->
  (forall j, (j < n)%nat -> 0 < col_sum m M j) -> (forall i, (i < m)%nat -> 0 < mv n M x i) ->
  (forall j, (j < n)%nat -> x' j = x j * (rsum m (fun i => M i j * (b i / mv n M x i)) / col_sum m M j)) ->
  (forall j, (j < n)%nat -> 0 < x' j) /\ log_lik m n M b x <= log_lik m n M b x'.
Proof.
  intros HM Hb Hx Hc Hy Hx'. destruct (em_gain m n M b x x' HM Hb Hx Hc Hy Hx') as [A B]. split; [exact A|].
  pose proof (kl_nonneg n (col_sum m M) x' x Hc (fun j Hj => Rlt_le _ _ (A j Hj)) Hx). lra.
Qed.

(** Along the MLEM iterations (positive data and start, guard inactive) the likelihood never decreases. *)
Theorem C38_mlem_likelihood : forall P M k,
  p_op P = mat_op (p_m P) (p_n P) M -> plain P -> nonneg_mat (p_m P) (p_n P) M ->
  (forall i, (i < p_m P)%nat -> 0 < p_b P i) ->
  (forall j, (j < p_n P)%nat -> 0 < pick_x0 (p_x0 P) vones j) ->
  (forall j, (j < p_n P)%nat -> 0 < col_sum (p_m P) M j) ->
  (forall l i, (l <= k)%nat -> (i < p_m P)%nat -> eps32 <= mv (p_n P) M (mlem_volume P l) i) ->
  log_lik (p_m P) (p_n P) M (p_b P) (mlem_volume P k) <= log_lik (p_m P) (p_n P) M (p_b P) (mlem_volume P (S k)).
Proof.
  intros P M k Hop Hp HM Hb Hx0 Hc Hg. rewrite !mlem_volume_eq.
  assert (Hg' : forall l i, (l <= k)%nat -> (i < p_m P)%nat -> eps32 <= mv (p_n P) M (mlem_iterate P l) i).
  { intros l i H1 H2. rewrite <- mlem_volume_eq. apply Hg; auto. }
  pose proof eps32_pos as He.
  assert (Hstep : forall l, (l <= k)%nat -> (forall j, (j < p_n P)%nat -> 0 < mlem_iterate P l j) ->
     (forall j, (j < p_n P)%nat -> 0 < mlem_iterate P (S l) j) /\
     log_lik (p_m P) (p_n P) M (p_b P) (mlem_iterate P l) <= log_lik (p_m P) (p_n P) M (p_b P) (mlem_iterate P (S l))).
  { intros l Hl Hpos. apply em_step; auto.
    - intros i Hi. specialize (Hg' l i Hl Hi). lra.
    - intros j Hj. change (mlem_iterate P (S l)) with (mlem_step P (mlem_iterate P l)).
      rewrite (mlem_step_plain P M _ j Hop Hp). f_equal. f_equal. apply rsum_ext. intros i Hi.
      rewrite Rmax_left by (apply Hg'; auto). reflexivity. }
  apply Hstep; [lia|]. assert (H : forall l, (l <= k)%nat -> forall j, (j < p_n P)%nat -> 0 < mlem_iterate P l j); [|apply H; lia].
  induction l as [|l IH]; intros Hl.
  - intros j Hj. unfold mlem_iterate, ml_x0. simpl. destruct Hp as (_ & _ & -> & _). simpl. apply Hx0, Hj.
  - apply Hstep; [lia|]. apply IH. lia.
Qed.

(** Non-vacuity: one voxel seen by two pixels with weights 1 and 2. *)
Definition em_demo : problem :=
  mkProblem 1 2 (mat_op 2 1 (fun i _ => if Nat.eqb i 0 then 1 else 2)) (fun _ => 3) None None None None None None None 1 []
    (new_dterm K_KL None) (new_dterm K_KL None).
Example C38_example : plain em_demo /\ (forall i, (i < 2)%nat -> eps32 <= mv 1 (fun i _ => if Nat.eqb i 0 then 1 else 2) (mlem_volume em_demo 0) i).
Proof.
  split; [repeat split|]. intros i Hi. unfold mlem_volume. simpl. unfold mv, vones. simpl. unfold eps32.
  assert (/ 2 ^ 23 <= 1) by (rewrite <- Rinv_1; apply Rinv_le_contravar; lra).
  destruct (Nat.eqb i 0); lra.
Qed.

(** * C39 *)
(** Each projection exactly once per sweep: the row sequence is a permutation of 0..num_rows-1, and the
    sweep applies the single-row update once per element, in that order. *)
Theorem C39_sart_each_row_once : forall op b b_mask sigma tau lo up xm rows num_rows x a,
  Permutation rows (seq 0 num_rows) -> (a < num_rows)%nat ->
  exists before after, rows = before ++ a :: after /\ ~ In a before /\ ~ In a after /\
    sart_sweep op b b_mask sigma tau lo up xm rows x =
    sart_sweep op b b_mask sigma tau lo up xm after
      (sart_row op b b_mask sigma tau lo up xm (sart_sweep op b b_mask sigma tau lo up xm before x) a).
Proof.
  intros op b b_mask sigma tau lo up xm rows num_rows x a Hp Ha.
  assert (Hin : In a rows). { apply (Permutation_in _ (Permutation_sym Hp)). apply in_seq. lia. }
  assert (Hnd : NoDup rows) by (apply (Permutation_NoDup (Permutation_sym Hp)); apply seq_NoDup).
  destruct (in_split a rows Hin) as (l1 & l2 & E). exists l1, l2. split; [exact E|]. subst rows.
  pose proof (NoDup_remove_2 _ _ _ Hnd) as Hn. rewrite in_app_iff in Hn.
  split; [tauto|]. split; [tauto|]. unfold sart_sweep. rewrite fold_left_app. reflexivity.
Qed.

(** a feasible volume that reproduces the data (inside the mask) is a fixed point of the whole run *)
Theorem C39_sart_consistent_fixed : forall n d num_rows op b b_mask relax x lo up xm rows it,
  (forall a, sAt op (fun _ => 0) a = (fun _ => 0)) ->
  (forall a i, mask_at (option_map (fun m => m a) b_mask) i <> 0 -> sA op x a i = b a i) ->
  constrain lo up xm x = x ->
  sart_call n d num_rows op b b_mask relax (Some x) lo up xm rows it = x.
Proof.
  intros n d num_rows op b b_mask relax x lo up xm rows it H0 Hc Hx. unfold sart_call.
  set (sg := sart_sigma _ _ _ _). set (tu := sart_tau _ _ _ _ _).
  assert (Hrow : forall a, sart_row op b b_mask sg tu lo up xm x a = x).
  { intros a. unfold sart_row.
    replace (vmul (mul_mask (option_map (fun m => m a) b_mask) (vsub (sA op x a) (b a))) (sg a)) with (fun _ : nat => 0).
    - rewrite H0. replace (vsub x (vmul (fun _ => 0) (tu a))) with x; [exact Hx|].
      apply vec_ext. intros; unfold vsub, vmul. ring.
    - apply vec_ext. intros i. unfold vmul, mul_mask, vsub. specialize (Hc a i). destruct b_mask as [m|]; simpl in *.
      + destruct (Req_dec (m a i) 0) as [E|E]; [rewrite E; ring|]. rewrite (Hc E). ring.
      + rewrite Hc by lra. ring. }
  assert (Hsw : forall l, sart_sweep op b b_mask sg tu lo up xm l x = x).
  { induction l as [|a l IH]; [reflexivity|]. unfold sart_sweep in *. simpl. rewrite Hrow. exact IH. }
  simpl pick_x0. clear - Hsw. generalize 0%nat. induction it as [|it IH]; intros k; [reflexivity|]. simpl. rewrite Hsw. apply IH.
Qed.

(** Non-vacuity: identity single-angle operators, x = b. *)
Example C39_example : let op := mkSart (fun x _ => x) (fun y _ => y) in
  sart_call 1 1 1 op (fun _ _ => 3) None 1 (Some (fun _ => 3)) (Some vzeros) None None [0%nat] 4 = (fun _ => 3).
Proof.
  apply C39_sart_consistent_fixed; auto. apply vec_ext. intros i. unfold constrain, np_clip, mul_mask, vzeros. rewrite Rmax_left; lra.
Qed.

(** * C40 *)
(** [N] bounds the operator: |Mx| <= N|x|. *)
Definition op_bound (m n : nat) (M : mat) (N : R) : Prop := 0 <= N /\ forall x, norm2 m (mv n M x) <= N ^ 2 * norm2 n x.

Lemma vnorm_sq k x : vnorm k x ^ 2 = norm2 k x.
Proof. unfold vnorm. rewrite <- Rsqr_pow2, Rsqr_sqrt; [reflexivity|apply norm2_nonneg]. Qed.
Lemma vnorm_nonneg k x : 0 <= vnorm k x.
Proof. apply sqrt_pos. Qed.
Lemma vnorm_le k x c : 0 <= c -> norm2 k x <= c ^ 2 -> vnorm k x <= c.
Proof. intros Hc H. unfold vnorm. rewrite <- (sqrt_pow2 c Hc). apply sqrt_le_1; [apply norm2_nonneg|apply pow2_ge_0|exact H]. Qed.
Lemma norm2_scale k x c : norm2 k (fun j => x j / c) = norm2 k x * (/ c) ^ 2.
Proof. unfold norm2. rewrite <- rsum_scal_r. apply rsum_ext. intros; unfold Rdiv; ring. Qed.
Lemma normalised_le k x : norm2 k (fun j => x j / vnorm k x) <= 1.
Proof.
  rewrite norm2_scale, <- vnorm_sq. destruct (Req_dec (vnorm k x) 0) as [E|E].
  - rewrite E. lra.
  - right. field. exact E.
Qed.
Lemma normalised_eq k x : vnorm k x <> 0 -> norm2 k (fun j => x j / vnorm k x) = 1.
Proof. intros H. rewrite norm2_scale, <- vnorm_sq. field. exact H. Qed.

(** the transpose has the same bound *)
Lemma op_bound_t m n M N : op_bound m n M N -> forall y, norm2 n (mtv m M y) <= N ^ 2 * norm2 m y.
Proof.
  intros [HN H] y. set (z := mtv m M y).
  assert (E : norm2 n z = dot m (mv n M z) y) by (rewrite adjoint_mat; symmetry; apply dot_self).
  assert (CS : dot m (mv n M z) y ^ 2 <= norm2 m (mv n M z) * norm2 m y) by apply rsum_CS.
  pose proof (H z) as Hz. pose proof (norm2_nonneg n z). pose proof (norm2_nonneg m y). pose proof (norm2_nonneg m (mv n M z)).
  rewrite <- E in CS.
  assert (norm2 n z * norm2 n z <= (N ^ 2 * norm2 m y) * norm2 n z) by nra.
  destruct (Req_dec (norm2 n z) 0) as [E0|E0]; [rewrite E0; pose proof (pow2_ge_0 N); nra|].
  apply Rmult_le_reg_r with (norm2 n z); lra.
Qed.

Theorem C40_power_method_below_norm : forall m n M N b_rand it,
  op_bound m n M N -> power_method n m (mat_op m n M) b_rand it <= N.
Proof.
  intros m n M N b it HN. pose proof (op_bound_t m n M N HN) as HNt. destruct HN as [HN0 HN].
  unfold power_method. 
  assert (Hloop : forall k x L, L <= N -> power_loop n (mat_op m n M) k x L <= N).
  { induction k as [|k IH]; intros x L HL; simpl; [exact HL|]. apply IH.
    set (xn := fun j => x j / vnorm n x).
    assert (H1 : norm2 n (mtv m M (mv n M xn)) <= (N ^ 2) ^ 2).
    { pose proof (HNt (mv n M xn)). pose proof (HN xn). pose proof (normalised_le n x) as H3. fold xn in H3.
      pose proof (pow2_ge_0 N). nra. }
    assert (H2 : vnorm n (mtv m M (mv n M xn)) <= N ^ 2) by (apply vnorm_le; [apply pow2_ge_0|exact H1]).
    rewrite <- (sqrt_pow2 N HN0). apply sqrt_le_1; [apply vnorm_nonneg|apply pow2_ge_0|exact H2]. }
  apply Hloop. apply vnorm_le; [exact HN0|]. simpl.
  pose proof (HNt (fun i => b i / vnorm m b)). pose proof (normalised_le m b). pose proof (pow2_ge_0 N). nra.
Qed.

(** one more iteration never makes the estimate worse (from the first iteration on, as long as no iterate
    vanishes) *)
Fixpoint power_vec (n : nat) (op : linop) (k : nat) (x : vec) : vec :=
  match k with O => x | S k => let p := power_vec n op k x in opAt op (opA op (fun j => p j / vnorm n p)) end.
Lemma power_loop_vec n op k x L : power_loop n op (S k) x L = sqrt (vnorm n (power_vec n op (S k) x)).
Proof.
  assert (H : forall k x, power_vec n op (S k) x = power_vec n op k (opAt op (opA op (fun j => x j / vnorm n x)))).
  { induction k0 as [|j IH]; intros y; [reflexivity|]. 
    change (power_vec n op (S (S j)) y) with (opAt op (opA op (fun i => power_vec n op (S j) y i / vnorm n (power_vec n op (S j) y)))).
    rewrite IH. reflexivity. }
  revert x L. induction k as [|k IH]; intros x L; [reflexivity|].
  change (power_loop n op (S (S k)) x L) with (power_loop n op (S k) (opAt op (opA op (fun j => x j / vnorm n x)))
     (sqrt (vnorm n (opAt op (opA op (fun j => x j / vnorm n x)))))).
  rewrite IH. rewrite (H (S k) x). reflexivity.
Qed.

Lemma sym_growth m n M x : norm2 n x = 1 ->
  let B := fun z => mtv m M (mv n M z) in vnorm n (B x) <> 0 ->
  vnorm n (B x) <= vnorm n (B (fun j => B x j / vnorm n (B x))).
Proof.
  intros Hx B Hne. set (u := B x) in *. set (c := vnorm n u) in *.
  assert (Hc : 0 < c) by (pose proof (vnorm_nonneg n u); fold c in H; lra).
  (* <u,u> = <B x, u> = <x, B u> <= |Bu| *)
  assert (Hsym : forall a z, dot n (B a) z = dot n a (B z)).
  { intros a z. unfold B. rewrite dot_sym, <- adjoint_mat, dot_sym, adjoint_mat. reflexivity. }
  assert (E : norm2 n u = dot n x (B u)) by (rewrite <- Hsym; symmetry; apply dot_self).
  assert (CS : dot n x (B u) ^ 2 <= norm2 n x * norm2 n (B u)) by apply rsum_CS.
  rewrite <- E, Hx, Rmult_1_l in CS. rewrite <- (vnorm_sq n u) in CS. fold c in CS.
  assert (Es : norm2 n (B (fun j => u j / c)) = norm2 n (B u) * (/ c) ^ 2).
  { rewrite <- norm2_scale. unfold norm2. apply rsum_ext. intros j Hj. f_equal. unfold B, mtv, Rdiv.
    rewrite <- rsum_scal_r. apply rsum_ext. intros i Hi. rewrite Rmult_assoc. f_equal. unfold mv.
    rewrite <- rsum_scal_r. apply rsum_ext. intros; ring. }
  apply Rsqr_incr_0_var; [|apply vnorm_nonneg]. rewrite !Rsqr_pow2, (vnorm_sq n (B _)), Es.
  assert (H : c ^ 2 * c ^ 2 <= norm2 n (B u)) by (replace (c ^ 2 * c ^ 2) with ((c ^ 2) ^ 2) by ring; exact CS).
  apply Rmult_le_compat_r with (r := (/ c) ^ 2) in H; [|apply pow2_ge_0].
  replace (c ^ 2 * c ^ 2 * (/ c) ^ 2) with (c ^ 2) in H by (field; lra). exact H.
Qed.

Theorem C40_power_method_monotone : forall m n M b_rand it,
  let op := mat_op m n M in
  (forall k, (k <= S it)%nat -> vnorm n (power_vec n op k (opAt op (fun i => b_rand i / vnorm m b_rand))) <> 0) ->
  power_method n m op b_rand (S it) <= power_method n m op b_rand (S (S it)).
Proof.
  intros m n M b it op Hne. unfold power_method. rewrite !power_loop_vec. set (x := opAt op _) in *.
  apply sqrt_le_1; [apply vnorm_nonneg|apply vnorm_nonneg|].
  change (power_vec n op (S (S it)) x) with (opAt op (opA op (fun j => power_vec n op (S it) x j / vnorm n (power_vec n op (S it) x)))).
  change (power_vec n op (S it) x) with (opAt op (opA op (fun j => power_vec n op it x j / vnorm n (power_vec n op it x)))).
  pose proof (sym_growth m n M (fun j => power_vec n op it x j / vnorm n (power_vec n op it x))) as H. cbv zeta in H.
  apply H.
  - apply normalised_eq. apply Hne. lia.
  - apply (Hne (S it)). lia.
Qed.

Example C40_example : op_bound 1 1 (fun _ _ => 2) 2.
Proof. split; [lra|]. intros x. unfold norm2, mv. simpl. nra. Qed.
