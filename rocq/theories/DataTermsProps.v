(** Property theorems for src/corrct/data_terms.py (C10-C18). *)
From Verif Require Import Sums Convex DataTermsSpec DataTermsModel DataTermsProofs.

(** ** C10: l2 *)
Theorem C10_l2_dual_prox : forall t b sigma w d i,
  dt_kind t = K_l2 -> 0 < sigma i ->
  is_prox_conj (sigma i) (total (fun x => (x - b i) ^ 2 / 2)) (d i)
    (proximal_dual (assign_data t (Some b) sigma) w d i).
Proof. intros t b sigma w d i Hk Hs. unfold proximal_dual, sub_sigma_data, assign_data, compute_sigma1.
  simpl. rewrite Hk. simpl. apply l2_dual_prox; exact Hs. Qed.

Theorem C10_l2_primal_prox : forall t b sigma tau z p i,
  dt_kind t = K_l2 -> 0 < tau i ->
  proximal_primal (assign_data t (Some b) sigma) tau z = Some p ->
  is_prox (tau i) (total (fun x => (x - b i) ^ 2 / 2)) (z i) (p i).
Proof. intros t b sigma tau z p i Hk Ht. unfold proximal_primal, assign_data. simpl. rewrite Hk.
  intros H; inversion H. apply l2_primal_prox; exact Ht. Qed.

(** Moreau's identity between the two steps of the same instance. *)
Theorem C10_l2_moreau : forall t b sigma w d p i,
  dt_kind t = K_l2 -> 0 < sigma i ->
  proximal_primal (assign_data t (Some b) sigma) (fun i => / sigma i) (fun i => d i / sigma i) = Some p ->
  d i = sigma i * p i + proximal_dual (assign_data t (Some b) sigma) w d i.
Proof.
  intros t b sigma w d p i Hk Hs. unfold proximal_primal, proximal_dual, sub_sigma_data, assign_data, compute_sigma1.
  simpl. rewrite Hk. intros H; inversion H. simpl. field. split; lra. Qed.

(** Without data the functional is x^2/2. *)
Theorem C10_l2_no_data : forall t sigma w d tau z p i,
  dt_kind t = K_l2 -> 0 < sigma i -> 0 < tau i ->
  is_prox_conj (sigma i) (total (fun x => (x - 0) ^ 2 / 2)) (d i)
    (proximal_dual (assign_data t None sigma) w d i) /\
  (proximal_primal (assign_data t None sigma) tau z = Some p ->
   is_prox (tau i) (total (fun x => (x - 0) ^ 2 / 2)) (z i) (p i)).
Proof.
  intros t sigma w d tau z p i Hk Hs Ht.
  unfold proximal_primal, proximal_dual, sub_sigma_data, assign_data, compute_sigma1. simpl. rewrite Hk. simpl. split.
  - replace (d i) with (d i - sigma i * 0) at 2 by ring. apply l2_dual_prox; exact Hs.
  - intros H; inversion H. replace (z i) with (z i + tau i * 0) at 2 by ring. apply l2_primal_prox; exact Ht.
Qed.

Example C10_example :
  proximal_dual (assign_data (new_dterm K_l2 None) (Some (fun _ => 2)) (fun _ => 1)) (fun _ => 1) (fun _ => 6) 0%nat = 2.
Proof. unfold proximal_dual, sub_sigma_data, compute_sigma1; simpl. field. Qed.

(** ** C11: weighted l2 *)
Theorem C11_wl2_dual_prox : forall t wt b sigma w d i,
  dt_kind t = K_wl2 wt -> 0 < sigma i -> 0 < wt i ->
  is_prox_conj (sigma i) (total (fun x => wt i * (x - b i) ^ 2 / 2)) (d i)
    (proximal_dual (assign_data t (Some b) sigma) w d i).
Proof.
  intros t wt b sigma w d i Hk Hs Hw. unfold proximal_dual, sub_sigma_data, assign_data, compute_sigma1, invalid_weight.
  simpl. rewrite Hk. simpl. destruct (Req_EM_T (wt i) 0); [lra|].
  replace (1 / (1 + sigma i / (wt i + 0)) * (1 - 0)) with (1 / (1 + sigma i / wt i)).
  - apply wl2_dual_prox; assumption.
  - rewrite Rplus_0_r. ring.
Qed.

Theorem C11_wl2_dual_zero_weight : forall t wt b sigma w d i,
  dt_kind t = K_wl2 wt -> 0 < sigma i -> wt i = 0 ->
  proximal_dual (assign_data t (Some b) sigma) w d i = 0 /\
  is_prox_conj (sigma i) (total (fun x => wt i * (x - b i) ^ 2 / 2)) (d i) 0.
Proof.
  intros t wt b sigma w d i Hk Hs Hw. unfold proximal_dual, sub_sigma_data, assign_data, compute_sigma1, invalid_weight.
  simpl. rewrite Hk. simpl. rewrite Hw. split.
  - destruct (Req_EM_T 0 0); [ring|lra].
  - apply wl2_dual_prox_zero; exact Hs.
Qed.

Theorem C11_wl2_primal_prox : forall t wt b sigma tau z p i,
  dt_kind t = K_wl2 wt -> 0 < tau i -> 0 <= wt i ->
  proximal_primal (assign_data t (Some b) sigma) tau z = Some p ->
  is_prox (tau i) (total (fun x => wt i * (x - b i) ^ 2 / 2)) (z i) (p i) /\
  (wt i = 0 -> p i = z i).
Proof.
  intros t wt b sigma tau z p i Hk Ht Hw. unfold proximal_primal, assign_data. simpl. rewrite Hk.
  intros H; inversion H. split.
  - apply wl2_primal_prox; assumption.
  - intros E. rewrite E. field.
Qed.

(** residual norm: compute_residual_norm(compute_residual(x)) is the weighted square norm. *)
Theorem C11_wl2_residual_norm : forall n t wt b sigma proj,
  dt_kind t = K_wl2 wt -> dt_background t = None -> (forall i, 0 <= wt i) ->
  let t' := assign_data t (Some b) sigma in
  residual_norm n t' (compute_residual t' proj None) = rsum n (fun i => wt i * (b i - proj i) ^ 2).
Proof.
  intros n t wt b sigma proj Hk Hb Hw t'. unfold residual_norm, compute_residual, apply_mask, add_background, t', assign_data.
  simpl. rewrite Hk, Hb. apply rsum_ext. intros i _. destruct (Req_EM_T (wt i) 0) as [E|E].
  - rewrite E. ring.
  - assert (0 < wt i) by (specialize (Hw i); lra).
    assert (Hs : 0 < sqrt (wt i)) by (apply sqrt_lt_R0; lra).
    pose proof (sqrt_sqrt (wt i) ltac:(lra)) as E2. set (s := sqrt (wt i)) in *. clearbody s.
    rewrite <- E2. field. lra.
Qed.

Example C11_example :
  let t := assign_data (new_dterm (K_wl2 (fun i => INR i)) None) (Some (fun _ => 3)) (fun _ => 1) in
  proximal_dual t (fun _ => 1) (fun _ => 7) 0%nat = 0 /\ proximal_dual t (fun _ => 1) (fun _ => 7) 1%nat = 2.
Proof.
  unfold proximal_dual, sub_sigma_data, compute_sigma1; simpl. unfold invalid_weight.
  destruct (Req_EM_T 0 0); [|lra]. destruct (Req_EM_T 1 0); [lra|]. split; field.
Qed.

(** ** C12: l1, l12 *)
Theorem C12_l1_dual_prox : forall t b sigma w d i,
  dt_kind t = K_l1 -> 0 < sigma i -> 0 < w i ->
  let p := proximal_dual (assign_data t (Some b) sigma) w d i in
  is_prox_conj (sigma i) (total (fun x => w i * Rabs (x - b i))) (d i) p /\
  is_projection (fun q => - w i <= q <= w i) (d i - sigma i * b i) p.
Proof.
  intros t b sigma w d i Hk Hs Hw p. unfold p, proximal_dual, sub_sigma_data, assign_data, hook_threshold, inner_norm.
  simpl. rewrite Hk. simpl. split; [apply l1_dual_prox|apply l1_dual_projection]; assumption.
Qed.

Theorem C12_l1_primal_prox : forall t b sigma tau z p i,
  dt_kind t = K_l1 -> 0 < tau i ->
  proximal_primal (assign_data t (Some b) sigma) tau z = Some p ->
  is_prox (tau i) (total (fun x => Rabs (x - b i))) (z i) (p i).
Proof.
  intros t b sigma tau z p i Hk Ht. unfold proximal_primal, assign_data. simpl. rewrite Hk.
  intros H; inversion H. apply l1_primal_prox; exact Ht. Qed.

Theorem C12_l12_dual_projection : forall t grp b sigma w d i,
  dt_kind t = K_l12 grp ->
  (forall j, In j (grp i) -> grp j = grp i /\ w j = w i) -> 0 < w i ->
  is_ball_projection (grp i) (w i) (fun j => d j - sigma j * b j)
    (proximal_dual (assign_data t (Some b) sigma) w d).
Proof.
  intros t grp b sigma w d i Hk Hg Hw.
  pose proof (ball_projection (grp i) (w i) (fun j => d j - sigma j * b j) Hw) as [H1 H2].
  assert (E : forall j, In j (grp i) ->
    proximal_dual (assign_data t (Some b) sigma) w d j =
    (d j - sigma j * b j) / np_fmax (sqrt (lsum (grp i) (fun k => (d k - sigma k * b k) ^ 2))) (w i) * w i).
  { intros j Hj. destruct (Hg j Hj) as [Eg Ew].
    unfold proximal_dual, sub_sigma_data, assign_data, hook_threshold, inner_norm, group_norm. simpl. rewrite Hk.
    simpl. rewrite Eg, Ew. reflexivity. }
  split.
  - rewrite (lsum_ext (grp i) _ (fun j => ((d j - sigma j * b j) /
       np_fmax (sqrt (lsum (grp i) (fun k => (d k - sigma k * b k) ^ 2))) (w i) * w i) ^ 2)); [exact H1|].
    intros j Hj. rewrite (E j Hj). reflexivity.
  - intros q Hq. eapply Rle_trans; [|apply (H2 q Hq)]. apply Req_le. apply lsum_ext.
    intros j Hj. rewrite (E j Hj). reflexivity.
Qed.

(** A gradient field with 2 components on 3 pixels, l2_axis = 0 (flattened c*3+j). *)
Example C12_example :
  let grp := fun i => [i mod 3; i mod 3 + 3]%nat in
  let t := assign_data (new_dterm (K_l12 grp) None) (Some (fun _ => 0)) (fun _ => 1) in
  let d := fun i => if Nat.ltb i 3 then 3 else 4 in
  (forall j, In j (grp 1%nat) -> grp j = grp 1%nat) /\
  proximal_dual t (fun _ => 1) d 1%nat = 3 / 5 /\ proximal_dual t (fun _ => 1) d 4%nat = 4 / 5.
Proof.
  intros grp t d. split; [|].
  - intros j Hj. unfold grp in *. simpl in Hj. destruct Hj as [<-|[<-|[]]]; reflexivity.
  - unfold proximal_dual, sub_sigma_data, group_norm, inner_norm, hook_threshold, np_fmax; simpl.
    unfold group_norm, d; simpl.
    replace (((3 - 1 * 0) * ((3 - 1 * 0) * 1) + ((4 - 1 * 0) * ((4 - 1 * 0) * 1) + 0))) with (Rsqr 5) by (unfold Rsqr; ring).
    rewrite sqrt_Rsqr by lra. rewrite Rmax_left by lra. split; field.
Qed.

(** ** C13: Kullback-Leibler *)
Theorem C13_KL_dual_prox : forall t b sigma w d i,
  dt_kind t = K_KL -> 0 < sigma i ->
  is_prox_conj (sigma i) (KL_fun (Rmax (b i) 0)) (d i)
    (proximal_dual (assign_data t (Some b) sigma) w d i).
Proof.
  intros t b sigma w d i Hk Hs. unfold proximal_dual, assign_data. simpl. rewrite Hk. simpl.
  apply (kl_dual_prox (sigma i) (Rmax (b i) 0) (d i)); [exact Hs|apply Rmax_r].
Qed.

Theorem C13_KL_dual_below_one : forall t b sigma w d i,
  dt_kind t = K_KL -> 0 < sigma i -> 0 < b i ->
  proximal_dual (assign_data t (Some b) sigma) w d i < 1.
Proof.
  intros t b sigma w d i Hk Hs Hb. unfold proximal_dual, assign_data. simpl. rewrite Hk. simpl.
  unfold np_fmax. rewrite Rmax_left by lra. apply (kl_dual_props (sigma i) (b i) (d i)); assumption.
Qed.

Theorem C13_KL_primal_prox : forall t b sigma tau z p i,
  dt_kind t = K_KL -> 0 < tau i ->
  proximal_primal (assign_data t (Some b) sigma) tau z = Some p ->
  is_prox (tau i) (KL_fun (Rmax (b i) 0)) (z i) (p i) /\ (0 < b i -> 0 < p i).
Proof.
  intros t b sigma tau z p i Hk Ht. unfold proximal_primal, assign_data. simpl. rewrite Hk.
  intros H; inversion H. unfold np_fmax.
  destruct (Rle_lt_or_eq_dec 0 (Rmax (b i) 0) (Rmax_r _ _)) as [Hp|He].
  - destruct (kl_primal_prox (tau i) (Rmax (b i) 0) (z i) Ht Hp) as [A B]. auto.
  - rewrite <- He. split; [apply kl_primal_prox0; exact Ht|].
    intros Hb. rewrite Rmax_left in He by lra. lra.
Qed.

Example C13_example : proximal_dual (assign_data (new_dterm K_KL None) (Some (fun _ => 2)) (fun _ => 1))
   (fun _ => 1) (fun _ => 2) 0%nat = 0.
Proof.
  unfold proximal_dual; simpl. unfold np_fmax. rewrite Rmax_left by lra.
  replace ((2 - 1) * ((2 - 1) * 1) + 4 * 1 * 2) with (Rsqr 3) by (unfold Rsqr; ring).
  rewrite sqrt_Rsqr by lra. field.
Qed.

(** ** C14: Huber *)
Theorem C14_Huber_dual_prox : forall t e b sigma w d i,
  dt_kind t = K_Huber e None -> 0 < sigma i -> 0 <= e i ->
  let p := proximal_dual (assign_data t (Some b) sigma) w d i in
  is_prox_conj (sigma i) (total (huber_fun (e i) (b i))) (d i) p /\ -1 <= p <= 1.
Proof.
  intros t e b sigma w d i Hk Hs He p. unfold p, proximal_dual, sub_sigma_data, assign_data. simpl. rewrite Hk. simpl.
  destruct (huber_dual_prox (sigma i) (e i) (b i) (d i) Hs He) as [H1 H2]. split; [exact H1|].
  set (q := _ / _ ) in *. clearbody q. unfold Rabs in H2. destruct (Rcase_abs q); lra.
Qed.

(** grouped version: the result lies in the unit ball of the group. *)
Theorem C14_Huber_group_bounded : forall t e grp b sigma w d i,
  dt_kind t = K_Huber e (Some grp) ->
  (forall j, In j (grp i) -> grp j = grp i) ->
  is_ball_projection (grp i) 1 (fun j => (d j - sigma j * b j) / (1 + sigma j * e j))
    (proximal_dual (assign_data t (Some b) sigma) w d).
Proof.
  intros t e grp b sigma w d i Hk Hg.
  pose proof (ball_projection (grp i) 1 (fun j => (d j - sigma j * b j) / (1 + sigma j * e j)) ltac:(lra)) as [H1 H2].
  assert (E : forall j, In j (grp i) ->
    proximal_dual (assign_data t (Some b) sigma) w d j =
    (d j - sigma j * b j) / (1 + sigma j * e j) /
       np_fmax (sqrt (lsum (grp i) (fun k => ((d k - sigma k * b k) / (1 + sigma k * e k)) ^ 2))) 1 * 1).
  { intros j Hj. unfold proximal_dual, sub_sigma_data, assign_data, group_norm. simpl. rewrite Hk. simpl. rewrite (Hg j Hj).
    unfold np_fmax. rewrite Rmax_comm, Rmult_1_r.
    f_equal; [unfold Rdiv; ring|]. f_equal. f_equal. f_equal. apply functional_extensionality. intros; unfold Rdiv; ring. }
  split.
  - erewrite lsum_ext; [exact H1|]. intros j Hj. cbv beta. rewrite (E j Hj). reflexivity.
  - intros q Hq. eapply Rle_trans; [|apply (H2 q Hq)]. apply Req_le. apply lsum_ext.
    intros j Hj. rewrite (E j Hj). reflexivity.
Qed.

Theorem C14_Huber_primal_raises : forall t e a tau x,
  dt_kind t = K_Huber e a -> proximal_primal t tau x = None.
Proof. intros t e a tau x H. unfold proximal_primal. rewrite H. reflexivity. Qed.

Example C14_example : proximal_dual (assign_data (new_dterm (K_Huber (fun _ => 1) None) None) (Some (fun _ => 0)) (fun _ => 1))
   (fun _ => 1) (fun _ => 1) 0%nat = 1 / 2.
Proof.
  unfold proximal_dual, sub_sigma_data; simpl. unfold np_fmax. rewrite Rabs_right by lra. rewrite Rmax_left by lra. field.
Qed.

(** ** C15: ball terms.  The dual proximal of l2b is exact (for the scaled functional). *)
Theorem C15_l2b_dual_prox : forall t e b sigma w d i,
  dt_kind t = K_l2b e -> 0 < sigma i -> 0 < e i ->
  is_prox_conj (sigma i) (total (fun x => (Rmax (Rabs (x - b i) - sqrt (e i)) 0) ^ 2 / (2 * e i))) (d i)
    (proximal_dual (assign_data t (Some b) sigma) w d i).
Proof.
  intros t e b sigma w d i Hk Hs He. unfold proximal_dual, sub_sigma_data, assign_data, compute_sigma1, soft_threshold.
  simpl. rewrite Hk. simpl. apply l2b_dual_prox; assumption.
Qed.

(** the documented functional max(|x-b|-sqrt(eps),0)^2/2 is not what the primal step minimises. *)
Theorem C15_l2b_primal_refuted : exists e b sigma tau z p,
  0 < e 0%nat /\ 0 < tau 0%nat /\
  proximal_primal (assign_data (new_dterm (K_l2b e) None) (Some b) sigma) tau z = Some p /\
  ~ is_prox (tau 0%nat) (total (fun x => (Rmax (Rabs (x - b 0%nat) - sqrt (e 0%nat)) 0) ^ 2 / 2)) (z 0%nat) (p 0%nat) /\
  ~ is_prox (tau 0%nat) (total (fun x => (Rmax (Rabs (x - b 0%nat) - sqrt (e 0%nat)) 0) ^ 2 / (2 * e 0%nat))) (z 0%nat) (p 0%nat).
Proof.
  exists (fun _ => 1), (fun _ => 0), (fun _ => 1), (fun _ => 1), (fun _ => 1 / 2).
  eexists. split; [lra|]. split; [lra|]. split; [reflexivity|].
  set (q := opt_add _ _ _).
  assert (E : q = 0).
  { unfold q, opt_add, opt_sub, soft_threshold; simpl. rewrite sqrt_1.
    destruct (soft_cases (1 / 2 - 0) (1 * 1 / (1 + 1 * 1)) ltac:(lra)) as [[H E]|[[H E]|[H E]]]; [rewrite E; lra|lra|lra]. }
  cbv beta. rewrite sqrt_1.
  rewrite E. clear E.
  split; intros [_ H]; specialize (H (1/2) I ltac:(lra)); simpl in H;
    rewrite (Rmax_right (Rabs (0 - 0) - 1)) in H by (rewrite Rminus_0_r, Rabs_R0; lra);
    rewrite (Rmax_right (Rabs (1/2 - 0) - 1)) in H by (rewrite Rabs_right; lra); lra.
Qed.

(** l1b: the primal step is not the proximal map of max(|x-b|-eps,0). *)
Theorem C15_l1b_primal_refuted : exists e b sigma tau z p,
  0 < e 0%nat /\ 0 < tau 0%nat /\
  proximal_primal (assign_data (new_dterm (K_l1b e) None) (Some b) sigma) tau z = Some p /\
  ~ is_prox (tau 0%nat) (total (l1b_fun (e 0%nat) (b 0%nat))) (z 0%nat) (p 0%nat).
Proof.
  exists (fun _ => 1), (fun _ => 0), (fun _ => 1), (fun _ => 1), (fun _ => 1 / 2).
  eexists. split; [lra|]. split; [lra|]. split; [reflexivity|].
  set (q := opt_add _ _ _).
  assert (E : q = 0).
  { unfold q, opt_add, opt_sub, soft_threshold; simpl.
    destruct (soft_cases (1 / 2 - 0) 1 ltac:(lra)) as [[H E]|[[H E]|[H E]]]; [rewrite E; lra|lra|lra]. }
  rewrite E. intros [_ H]. specialize (H (1/2) I ltac:(lra)). simpl in H. unfold l1b_fun in H.
    rewrite (Rmax_right (Rabs (0 - 0) - 1)) in H by (rewrite Rminus_0_r, Rabs_R0; lra).
    rewrite (Rmax_right (Rabs (1/2 - 0) - 1)) in H by (rewrite Rabs_right; lra). lra.
Qed.

(** l1b dual: exact when sigma = 1 ... *)
Theorem C15_l1b_dual_prox_unit_sigma : forall t e b sigma d i,
  dt_kind t = K_l1b e -> sigma i = 1 -> 0 <= e i ->
  is_prox_conj (sigma i) (total (l1b_fun (e i) (b i))) (d i)
    (proximal_dual (assign_data t (Some b) sigma) (fun _ => 1) d i).
Proof.
  intros t e b sigma d i Hk Hs He. unfold proximal_dual, sub_sigma_data, assign_data, hook_threshold, inner_norm, soft_threshold.
  simpl. rewrite Hk. simpl.
  pose proof (l1b_dual_prox (sigma i) (e i) (b i) (d i) ltac:(lra) He) as H. unfold l1b_true in H.
  replace (sigma i * e i) with (e i) in H by (rewrite Hs; ring). exact H.
Qed.

(** ... but not for other sigma (the threshold ignores sigma). *)
Theorem C15_l1b_dual_refuted : exists e b sigma d,
  0 < sigma 0%nat /\ 0 < e 0%nat /\
  ~ is_prox_conj (sigma 0%nat) (total (l1b_fun (e 0%nat) (b 0%nat))) (d 0%nat)
    (proximal_dual (assign_data (new_dterm (K_l1b e) None) (Some b) sigma) (fun _ => 1) d 0%nat).
Proof.
  exists (fun _ => 1), (fun _ => 0), (fun _ => 1/2), (fun _ => 1). split; [lra|]. split; [lra|].
  intros H. pose proof (l1b_dual_prox (1/2) 1 0 1 ltac:(lra) ltac:(lra)) as H'.
  pose proof (is_prox_conj_unique _ _ _ _ _ H H') as E. clear H H'.
  unfold proximal_dual, sub_sigma_data, hook_threshold, inner_norm, soft_threshold, l1b_true in E. simpl in E.
  destruct (soft_cases (1 - 1/2 * 0) 1 ltac:(lra)) as [[A EA]|[[A EA]|[A EA]]]; try lra.
  destruct (soft_cases (1 - 1/2 * 0) (1/2 * 1) ltac:(lra)) as [[B EB]|[[B EB]|[B EB]]]; try lra.
  { rewrite Rabs_right in B; lra. }
  rewrite EA, EB in E. rewrite (Rabs_R0) in E. unfold np_fmax in E. rewrite (Rmax_right 0 1) in E by lra.
  rewrite Rabs_right, Rmax_right in E by lra. lra.
Qed.

(** ** C16: Huber residual norm *)
Definition huber_norm_spec (c : R) (dual : list R) (err : R) : R :=
  lsum dual (fun d => if Rle_dec (Rabs d) err then c * d ^ 2 else Rabs d).

Theorem C16_huber_norm_refuted : exists dual err,
  0 < err /\ (forall d, In d dual -> 0 <= d) /\
  huber_residual_norm dual err <> huber_norm_spec 1 dual err /\
  huber_residual_norm dual err <> huber_norm_spec (1/2) dual err.
Proof.
  exists [5; 3], 4. split; [lra|]. split.
  { intros d [<-|[<-|[]]]; lra. }
  assert (E : huber_residual_norm [5;3] 4 = 17).
  { unfold huber_residual_norm, huber_l2_points; simpl.
    destruct (Rle_dec 5 4); [lra|]. destruct (Rle_dec 3 4); [|lra]. simpl.
    rewrite Rplus_0_r. replace (3 * (3 * 1)) with (Rsqr 3) by (unfold Rsqr; ring). rewrite sqrt_Rsqr by lra.
    rewrite !Rabs_right by lra. ring. }
  rewrite E. unfold huber_norm_spec; simpl. rewrite !Rabs_right by lra.
  destruct (Rle_dec 5 4); [lra|]. destruct (Rle_dec 3 4); [|lra]. split; lra.
Qed.

(** large negative values are treated as quadratic. *)
Theorem C16_huber_norm_negative_refuted : exists dual err,
  0 < err /\ huber_residual_norm dual err <> huber_norm_spec 1 dual err /\
  huber_residual_norm dual err <> huber_norm_spec (1/2) dual err.
Proof.
  exists [0; -5], 4. split; [lra|].
  assert (E : huber_residual_norm [0;-5] 4 = 25).
  { unfold huber_residual_norm, huber_l2_points; simpl.
    destruct (Rle_dec 0 4); [|lra]. destruct (Rle_dec (-5) 4); [|lra]. simpl.
    rewrite Rabs_R0. replace (0 * (0 * 1) + (-5 * (-5 * 1) + 0)) with (Rsqr 5) by (unfold Rsqr; ring). rewrite sqrt_Rsqr by lra. ring. }
  rewrite E. unfold huber_norm_spec; simpl. rewrite Rabs_R0. rewrite (Rabs_left (-5)) by lra.
  destruct (Rle_dec 0 4); [|lra]. destruct (Rle_dec (- -5) 4); [lra|]. split; lra.
Qed.

(** ** C17: residual, mask, background, slicing *)
Theorem C17_residual_value : forall t bg b sigma proj mask i,
  match dt_kind t with K_l2 | K_l1 | K_l12 _ | K_l1b _ | K_Huber _ _ => True | _ => False end ->
  dt_background t = Some bg ->
  compute_residual (assign_data t (Some b) sigma) proj (Some mask) i = (b i - (proj i + bg i)) * mask i.
Proof.
  intros t bg b sigma proj mask i Hk Hb. unfold compute_residual, assign_data, add_background, apply_mask. simpl.
  rewrite Hb. destruct (dt_kind t); try contradiction; reflexivity.
Qed.

Theorem C17_residual_masked_out : forall t proj mask i,
  mask i = 0 -> compute_residual t proj (Some mask) i = 0.
Proof.
  intros t proj mask i Hm. unfold compute_residual, apply_mask, soft_threshold.
  destruct (dt_kind t); try (rewrite Hm; try rewrite Rmult_0_r; try apply soft_zero; ring).
Qed.

(** the data value of a masked pixel is irrelevant (two-run form). *)
Theorem C17_residual_mask_noninterference : forall t sigma proj mask b b' i,
  (mask i <> 0 -> b i = b' i) ->
  compute_residual (assign_data t (Some b) sigma) proj (Some mask) i =
  compute_residual (assign_data t (Some b') sigma) proj (Some mask) i.
Proof.
  intros t sigma proj mask b b' i H. destruct (Req_dec (mask i) 0) as [E|E].
  - rewrite !C17_residual_masked_out by exact E. reflexivity.
  - specialize (H E). unfold compute_residual, assign_data, add_background, apply_mask, soft_threshold, proximal_dual. simpl.
    destruct (dt_kind t); simpl; rewrite H; reflexivity.
Qed.

Theorem C17_slice_residual : forall ind t proj mask i,
  compute_residual (getitem ind t) (slice_vec ind proj) (option_map (slice_vec ind) mask) i
  = slice_vec ind (compute_residual t proj mask) i.
Proof. exact residual_slice. Qed.

Theorem C17_slice_prox : forall ind t w d i, elementwise_kind (dt_kind t) ->
  proximal_dual (getitem ind t) (slice_vec ind w) (slice_vec ind d) i = slice_vec ind (proximal_dual t w d) i.
Proof. exact prox_dual_slice. Qed.

Example C17_example :
  compute_residual (assign_data (new_dterm K_l2 (Some (fun _ => 1))) (Some (fun _ => 5)) (fun _ => 1))
    (fun _ => 2) (Some (fun i => if Nat.eqb i 0 then 1 else 0)) 0%nat = 2.
Proof. unfold compute_residual, apply_mask, add_background; simpl. ring. Qed.

(** ** C18: background *)
(** dual step (update + proximal) with a background = proximal step of x -> f(x+bg). *)
Theorem C18_dual_step_background : forall t bg b sigma y proj i f,
  dt_background t = Some bg -> 0 < sigma i ->
  (forall d, is_prox_conj (sigma i) f (d i) (proximal_dual (assign_data t (Some b) sigma) (fun _ => 1) d i)) ->
  is_prox_conj (sigma i) (shift f (bg i)) (y i + sigma i * proj i)
   (proximal_dual (assign_data t (Some b) sigma) (fun _ => 1) (update_dual (assign_data t (Some b) sigma) y proj) i).
Proof.
  intros t bg b sigma y proj i f Hb Hs H. apply prox_conj_shift.
  specialize (H (update_dual (assign_data t (Some b) sigma) y proj)).
  unfold update_dual at 1 in H. unfold add_background in H. simpl in H. rewrite Hb in H.
  replace (y i + sigma i * proj i + sigma i * bg i) with (y i + (proj i + bg i) * sigma i) by ring. exact H.
Qed.

(** instance: l2 with a background. *)
Corollary C18_l2_dual_step : forall t bg b sigma y proj i,
  dt_kind t = K_l2 -> dt_background t = Some bg -> 0 < sigma i ->
  is_prox_conj (sigma i) (total (fun x => (x + bg i - b i) ^ 2 / 2)) (y i + sigma i * proj i)
   (proximal_dual (assign_data t (Some b) sigma) (fun _ => 1) (update_dual (assign_data t (Some b) sigma) y proj) i).
Proof.
  intros t bg b sigma y proj i Hk Hb Hs.
  apply (C18_dual_step_background t bg b sigma y proj i (total (fun x => (x - b i) ^ 2 / 2))); auto.
  intros d. apply C10_l2_dual_prox; assumption.
Qed.

Theorem C18_primal_background_refuted : exists k bg b sigma tau z p,
  k = K_l2 /\ 0 < tau 0%nat /\
  proximal_primal (assign_data (new_dterm k (Some bg)) (Some b) sigma) tau z = Some p /\
  ~ is_prox (tau 0%nat) (total (fun x => (x + bg 0%nat - b 0%nat) ^ 2 / 2)) (z 0%nat) (p 0%nat).
Proof.
  exists K_l2, (fun _ => 1), (fun _ => 0), (fun _ => 1), (fun _ => 1), (fun _ => 0). eexists.
  split; [reflexivity|]. split; [lra|]. split; [reflexivity|]. cbv beta.
  intros H. pose proof (l2_primal_prox 1 (-1) 0 ltac:(lra)) as H'.
  replace (fun x => (x - -1) ^ 2 / 2) with (fun x => (x + 1 - 0) ^ 2 / 2) in H'
    by (apply functional_extensionality; intros; f_equal; f_equal; ring).
  pose proof (is_prox_unique _ _ _ _ _ H H'). simpl in H0. lra.
Qed.

Theorem C18_gap_background_once : forall n k bg b sigma proj dual mask,
  match k with K_l2 | K_wl2 _ | K_l2b _ | K_KL => True | _ => False end ->
  primal_dual_gap n (assign_data (new_dterm k (Some bg)) (Some b) sigma) proj dual mask =
  primal_dual_gap n (assign_data (new_dterm k None) (Some b) sigma) (fun i => proj i + bg i) dual mask.
Proof. intros n k bg b sigma proj dual mask Hk. destruct k; try contradiction; reflexivity. Qed.

Theorem C18_gap_background_refuted : exists n bg b sigma proj dual,
  primal_dual_gap n (assign_data (new_dterm K_l1 (Some bg)) (Some b) sigma) proj dual None <>
  primal_dual_gap n (assign_data (new_dterm K_l1 None) (Some b) sigma) (fun i => proj i + bg i) dual None.
Proof.
  exists 1%nat, (fun _ => 1), (fun _ => 0), (fun _ => 1), (fun _ => 0), (fun _ => 0).
  unfold primal_dual_gap, norm_l1, compute_residual, add_background, data_dual_dot, dot, apply_mask; simpl.
  rewrite !Rabs_Rabsolu. rewrite (Rabs_left (0 - (0 + 1 + 1))) by lra. rewrite (Rabs_left (0 - (0 + 1))) by lra. lra.
Qed.

